(** disentangle returns an equivalent direct sum of representations. *)
From Coq Require Import Reals ZArith Bool List Lia Lra Setoid Morphisms Arith Permutation Relations.
From Verif Require Import LibRes LibList LibMat LibMatS LibTrig SpecGroup ParamModel ParamProofs IrrepModel SpecRep
  RepModel SpecRepr RepProofs DisModel SpecDis.
Import ListNotations.
Open Scope R_scope.

(** ** sums over the indices of a list *)
Lemma sumr_filter : forall (f : nat -> R) p l, (forall c, In c l -> p c = false -> f c = 0) ->
  fold_right Rplus 0 (map f l) = fold_right Rplus 0 (map f (filter p l)).
Proof.
  intros f p; induction l as [|c l IH]; intros H; cbn; [reflexivity|].
  rewrite IH by (intros; apply H; [right; assumption|assumption]).
  destruct (p c) eqn:E; cbn; [reflexivity|rewrite (H c (or_introl eq_refl) E); ring].
Qed.

Lemma sumr_nth : forall (f : nat -> R) l, fold_right Rplus 0 (map f l) = sumn (length l) (fun k => f (nth k l 0%nat)).
Proof.
  intros f; induction l as [|c l IH]; [reflexivity|]; cbn [length map fold_right]; rewrite sumn_S_first, IH; reflexivity.
Qed.

Lemma sumn_filter : forall n f p, (forall c, (c < n)%nat -> p c = false -> f c = 0) ->
  sumn n f = sumn (length (filter p (seq 0 n))) (fun k => f (nth k (filter p (seq 0 n)) 0%nat)).
Proof.
  intros n f p H; rewrite sumn_list, (sumr_filter f p), sumr_nth; [reflexivity|].
  intros c I; apply H; apply in_seq in I; lia.
Qed.

(** ** which irrep owns a column *)
Fixpoint owner (sizes : list nat) (c : nat) : nat :=
  match sizes with [] => 0%nat | s :: ss => if Nat.ltb c s then 0%nat else S (owner ss (c - s)) end.

Lemma owner_spec : forall sizes c i, (c < list_sum sizes)%nat ->
  (owner sizes c = i <-> (i < length sizes /\ list_sum (firstn i sizes) <= c < list_sum (firstn (S i) sizes))%nat).
Proof.
  induction sizes as [|s ss IH]; intros c i H; [cbn in H; lia|].
  assert (LS : forall a l, list_sum (a :: l) = (a + list_sum l)%nat) by reflexivity.
  rewrite LS in H; cbn [owner length]; rewrite !firstn_cons, LS.
  destruct (Nat.ltb_spec c s) as [L|L].
  - destruct i as [|i]; [cbn [firstn list_sum fold_right]; split; [intros _; unfold list_sum; lia|reflexivity]|].
    rewrite firstn_cons, LS; split; [discriminate|lia].
  - destruct i as [|i].
    + cbn [firstn]; split; [discriminate|]; unfold list_sum; cbn; lia.
    + rewrite firstn_cons, LS, Nat.succ_inj_wd, (IH (c - s)%nat i) by lia; cbn [length]; lia.
Qed.

Lemma owner_lt : forall sizes c, (c < list_sum sizes)%nat -> (owner sizes c < length sizes)%nat.
Proof. intros sizes c H; exact (proj1 (proj1 (owner_spec sizes c _ H) eq_refl)). Qed.

Lemma seq_filter_between : forall n lo k, (lo + k <= n)%nat ->
  seq lo k = filter (fun c => Nat.leb lo c && Nat.ltb c (lo + k)) (seq 0 n).
Proof.
  intros n lo k H; replace n with (lo + (k + (n - lo - k)))%nat by lia.
  rewrite !seq_app, !filter_app; cbn [plus].
  assert (A : forall a b, (forall c, In c (seq a b) -> Nat.leb lo c && Nat.ltb c (lo + k) = false) ->
    filter (fun c => Nat.leb lo c && Nat.ltb c (lo + k)) (seq a b) = []).
  { intros a b X; induction (seq a b) as [|z l IH]; [reflexivity|]; cbn; rewrite X by (left; reflexivity); apply IH.
    intros; apply X; right; assumption. }
  assert (B : forall l, (forall c, In c l -> Nat.leb lo c && Nat.ltb c (lo + k) = true) ->
    filter (fun c => Nat.leb lo c && Nat.ltb c (lo + k)) l = l).
  { induction l as [|z l IH]; intros X; [reflexivity|]; cbn; rewrite X by (left; reflexivity); f_equal; apply IH.
    intros; apply X; right; assumption. }
  rewrite (A 0%nat lo), (A (lo + k)%nat), (B (seq lo k)), app_nil_r; [reflexivity| | |].
  - intros c I; apply in_seq in I; apply andb_true_intro; split; [apply Nat.leb_le|apply Nat.ltb_lt]; lia.
  - intros c I; apply in_seq in I; apply andb_false_intro2, Nat.ltb_ge; lia.
  - intros c I; apply in_seq in I; apply andb_false_intro1, Nat.leb_gt; lia.
Qed.

Lemma flat_map_filter : forall {A B} (f : A -> list B) p l,
  flat_map f (filter p l) = flat_map (fun x => if p x then f x else []) l.
Proof. intros A B f p; induction l as [|x l IH]; cbn; [reflexivity|]; destruct (p x); cbn; rewrite IH; reflexivity. Qed.

(** the columns of the chosen irreps *)
Lemma cols_filter : forall (q : nat -> bool) sizes off,
  flat_map (fun i => if q i then seq (off + ipos sizes i) (nth i sizes 0%nat) else []) (seq 0 (length sizes)) =
  map (plus off) (filter (fun c => q (owner sizes c)) (seq 0 (list_sum sizes))).
Proof.
  intros q sizes; revert q; induction sizes as [|s ss IH]; intros q off; [reflexivity|].
  cbn [length seq flat_map]; rewrite <- seq_shift, flat_map_concat_map, map_map, <- flat_map_concat_map.
  change (list_sum (s :: ss)) with (s + list_sum ss)%nat; rewrite seq_app, filter_app, map_app; f_equal.
  - cbn [ipos firstn nth list_sum fold_right]; unfold ipos; cbn [firstn list_sum fold_right]; rewrite Nat.add_0_r.
    transitivity (map (plus off) (if q 0%nat then seq 0 s else [])).
    { destruct (q 0%nat); [|reflexivity]; clear; revert off; induction s as [|s IH] using nat_ind; intros; [reflexivity|].
      rewrite seq_S, seq_S, map_app, IH; cbn; reflexivity. }
    f_equal; assert (X : forall l, (forall c, In c l -> (c < s)%nat) ->
      filter (fun c => q (owner (s :: ss) c)) l = if q 0%nat then l else []).
    { induction l as [|c l IH']; intros Hl; [destruct (q 0%nat); reflexivity|]; cbn [filter].
      replace (owner (s :: ss) c) with 0%nat by (cbn [owner]; rewrite (proj2 (Nat.ltb_lt c s)) by (apply Hl; left; reflexivity); reflexivity).
      rewrite IH' by (intros; apply Hl; right; assumption).
      destruct (q 0%nat); reflexivity. }
    symmetry; apply X; intros c I; apply in_seq in I; lia.
  - transitivity (flat_map (fun i => if q (S i) then seq (off + s + ipos ss i) (nth i ss 0%nat) else []) (seq 0 (length ss))).
    { rewrite !flat_map_concat_map; f_equal; apply map_ext; intros i; destruct (q (S i)); [|reflexivity].
      unfold ipos; cbn [firstn nth]; change (list_sum (s :: firstn i ss)) with (s + list_sum (firstn i ss))%nat.
      f_equal; lia. }
    rewrite (IH (fun i => q (S i)) (off + s)%nat); cbn [plus].
    replace (seq s (list_sum ss)) with (map (plus s) (seq 0 (list_sum ss))).
    2:{ clear; generalize (list_sum ss) as k; intros k; induction k as [|k IH]; [reflexivity|].
        rewrite seq_S, seq_S, map_app, IH; cbn; reflexivity. }
    assert (X : forall l, filter (fun c => q (owner (s :: ss) c)) (map (plus s) l) =
      map (plus s) (filter (fun c => q (S (owner ss c))) l)).
    { induction l as [|c l IH']; [reflexivity|]; cbn [map filter].
      replace (owner (s :: ss) (s + c)) with (S (owner ss c))
        by (cbn [owner]; rewrite (proj2 (Nat.ltb_ge (s + c) s)) by lia; f_equal; f_equal; lia).
      rewrite IH'; destruct (q (S (owner ss c))); reflexivity. }
    rewrite X, map_map; apply map_ext; intros; lia.
Qed.

(** ** gathering blocks *)
Fixpoint apart (M : mat) (L : list (list nat)) : Prop :=
  match L with
  | [] => True
  | l :: L' => (forall x y, In x l -> In y (concat L') -> M x y = 0 /\ M y x = 0) /\ apart M L'
  end.

Lemma bdiag_gather : forall M L bs, apart M L ->
  Forall2 (fun l b => fst b = length l /\ forall x y, (x < length l)%nat -> (y < length l)%nat ->
    snd b x y = M (nth x l 0%nat) (nth y l 0%nat)) L bs ->
  bsize bs = length (concat L) /\
  forall i j, (i < length (concat L))%nat -> (j < length (concat L))%nat ->
    bdiag bs i j = M (nth i (concat L) 0%nat) (nth j (concat L) 0%nat).
Proof.
  intros M L bs HA HF; induction HF as [|l [s A] L bs [E H] HF IH]; [split; [reflexivity|cbn; intros; lia]|].
  destruct HA as [H0 HA]; destruct (IH HA) as [IS IB]; cbn [fst snd] in E, H; subst s.
  cbn [concat bsize bdiag]; rewrite app_length, IS; split; [reflexivity|]; intros i j Hi Hj.
  destruct (Nat.ltb_spec i (length l)) as [Li|Li], (Nat.ltb_spec j (length l)) as [Lj|Lj].
  - rewrite !app_nth1 by lia; apply H; assumption.
  - rewrite app_nth1, app_nth2 by lia; refine (eq_sym (proj1 (H0 _ _ _ _))); apply nth_In; lia.
  - rewrite app_nth2, app_nth1 by lia; refine (eq_sym (proj2 (H0 _ _ _ _))); apply nth_In; lia.
  - rewrite !app_nth2 by lia; apply IB; lia.
Qed.

Lemma bdiag_at : forall bs i j a b p q, nth_error bs i = Some a -> nth_error bs j = Some b ->
  (p < fst a)%nat -> (q < fst b)%nat ->
  bdiag bs (list_sum (firstn i (map fst bs)) + p)%nat (list_sum (firstn j (map fst bs)) + q)%nat =
    if Nat.eqb i j then snd a p q else 0.
Proof.
  induction bs as [|[s A] bs IH]; intros i j a b p q Ei Ej Hp Hq; [destruct i; discriminate Ei|].
  destruct i as [|i], j as [|j]; cbn [nth_error firstn map fst list_sum fold_right bdiag Nat.eqb] in *.
  - injection Ei as <-; injection Ej as <-; cbn in Hp, Hq.
    rewrite (proj2 (Nat.ltb_lt (0 + p) s)), (proj2 (Nat.ltb_lt (0 + q) s)) by (cbn; lia); reflexivity.
  - injection Ei as <-; cbn in Hp; rewrite (proj2 (Nat.ltb_lt (0 + p) s)) by (cbn; lia).
    rewrite (proj2 (Nat.ltb_ge _ s)) by lia; reflexivity.
  - injection Ej as <-; cbn in Hq; rewrite (proj2 (Nat.ltb_lt (0 + q) s)) by (cbn; lia).
    rewrite (proj2 (Nat.ltb_ge _ s)) by lia; reflexivity.
  - rewrite !(proj2 (Nat.ltb_ge _ s)) by lia; rewrite <- (IH i j a b p q Ei Ej Hp Hq).
    f_equal; unfold list_sum; lia.
Qed.

Lemma bdiag_off : forall bs c c', owner (map fst bs) c <> owner (map fst bs) c' -> bdiag bs c c' = 0.
Proof.
  induction bs as [|[s A] bs IH]; intros c c' H; [reflexivity|]; cbn [map fst owner bdiag] in *.
  destruct (Nat.ltb c s), (Nat.ltb c' s); try reflexivity; [congruence|]; apply IH; congruence.
Qed.

Lemma nth_filter_lt : forall (p : nat -> bool) n k, (k < length (filter p (seq 0 n)))%nat ->
  (nth k (filter p (seq 0 n)) 0%nat < n)%nat /\ p (nth k (filter p (seq 0 n)) 0%nat) = true.
Proof.
  intros p n k H; pose proof (nth_In _ 0%nat H) as I; apply filter_In in I as [I E]; apply in_seq in I; split; [lia|exact E].
Qed.

Lemma NoDup_nth_eqb : forall l i j, NoDup l -> (i < length l)%nat -> (j < length l)%nat ->
  Nat.eqb (nth i l 0%nat) (nth j l 0%nat) = Nat.eqb i j.
Proof.
  intros l i j N Hi Hj; destruct (Nat.eqb_spec i j) as [->|D]; [apply Nat.eqb_refl|].
  apply Nat.eqb_neq; intros E; apply D; exact (proj1 (NoDup_nth l 0%nat) N i j Hi Hj E).
Qed.

(** ** a block of an invertible matrix *)
Section Block.
Variables (n : nat) (A Ai : mat) (rl cl : nat -> nat).
Hypothesis HA : inverse_of n A Ai.
Hypothesis Hz : forall r c, (r < n)%nat -> (c < n)%nat -> rl r <> cl c -> A r c = 0.

Definition rows_of b := filter (fun r => Nat.eqb (rl r) b) (seq 0 n).
Definition cols_of b := filter (fun c => Nat.eqb (cl c) b) (seq 0 n).

Lemma indicator_sum : forall (p : nat -> bool), sumn n (fun c => if p c then 1 else 0) = INR (length (filter p (seq 0 n))).
Proof.
  intros p; rewrite (sumn_filter n _ p) by (intros c _ ->; reflexivity).
  rewrite (sumn_ext _ _ (fun _ => 1)), sumn_const by (intros k Hk; rewrite (proj2 (nth_filter_lt p n k Hk)); reflexivity); ring.
Qed.

Lemma block_square : forall b, length (rows_of b) = length (cols_of b).
Proof.
  intros b; apply INR_eq; unfold rows_of, cols_of; rewrite <- !indicator_sum.
  transitivity (sumn n (fun r => sumn n (fun c => (if Nat.eqb (rl r) b then 1 else 0) * (A r c * Ai c r)))).
  - apply sumn_ext; intros r Hr; rewrite sumn_scal_l.
    change (sumn n (fun i => A r i * Ai i r)) with (mmul n A Ai r r); rewrite (proj1 HA r r Hr Hr).
    unfold mid; rewrite Nat.eqb_refl; ring.
  - rewrite sumn_swap; apply sumn_ext; intros c Hc.
    transitivity (sumn n (fun r => (if Nat.eqb (cl c) b then 1 else 0) * (Ai c r * A r c))).
    + apply sumn_ext; intros r Hr; destruct (Nat.eq_dec (rl r) (cl c)) as [E|E]; [rewrite E; ring|].
      rewrite (Hz r c Hr Hc E); ring.
    + rewrite sumn_scal_l; change (sumn n (fun i => Ai c i * A i c)) with (mmul n Ai A c c).
      rewrite (proj2 HA c c Hc Hc); unfold mid; rewrite Nat.eqb_refl; ring.
Qed.

Lemma inv_zero : forall c r, (c < n)%nat -> (r < n)%nat -> rl r <> cl c -> Ai c r = 0.
Proof.
  intros c r Hc Hr E.
  (* Ai c r = sum_{r'} sum_{c'} Ai c r' A r' c' [cl c' = rl r] Ai c' r, and A Q = P A *)
  transitivity (sumn n (fun c' => mmul n Ai A c c' * ((if Nat.eqb (cl c') (rl r) then 1 else 0) * Ai c' r))).
  - transitivity (sumn n (fun c' => sumn n (fun r' => (Ai c r' * A r' c') * ((if Nat.eqb (cl c') (rl r) then 1 else 0) * Ai c' r)))).
    2:{ apply sumn_ext; intros c' _; rewrite sumn_scal_r; reflexivity. }
    rewrite sumn_swap.
    transitivity (sumn n (fun r' => Ai c r' * ((if Nat.eqb (rl r') (rl r) then 1 else 0) * mid r' r))).
    + rewrite (sumn_single n r); [|exact Hr|].
      * unfold mid; rewrite !Nat.eqb_refl; ring.
      * intros k Hk D; unfold mid; rewrite (proj2 (Nat.eqb_neq k r) D); ring.
    + apply sumn_ext; intros r' Hr'; rewrite <- (proj1 HA r' r Hr' Hr); unfold mmul; rewrite <- sumn_scal_l, <- sumn_scal_l.
      apply sumn_ext; intros c' Hc'; destruct (Nat.eq_dec (rl r') (cl c')) as [F|F]; [rewrite F; ring|].
      rewrite (Hz r' c' Hr' Hc' F); ring.
  - rewrite (sumn_single n c); [|exact Hc|].
    + rewrite (proj2 (Nat.eqb_neq (cl c) (rl r))) by congruence; ring.
    + intros k Hk D; rewrite (proj2 HA c k Hc Hk); unfold mid; rewrite (proj2 (Nat.eqb_neq c k)) by congruence; ring.
Qed.

Lemma rows_NoDup : forall b, NoDup (rows_of b).
Proof. intros; apply NoDup_filter, seq_NoDup. Qed.
Lemma cols_NoDup : forall b, NoDup (cols_of b).
Proof. intros; apply NoDup_filter, seq_NoDup. Qed.

Lemma rows_lt : forall b x, (x < length (rows_of b))%nat -> (nth x (rows_of b) 0%nat < n)%nat /\ rl (nth x (rows_of b) 0%nat) = b.
Proof. intros b x H; destruct (nth_filter_lt _ _ _ H) as [K E]; split; [exact K|apply Nat.eqb_eq; exact E]. Qed.
Lemma cols_lt : forall b x, (x < length (cols_of b))%nat -> (nth x (cols_of b) 0%nat < n)%nat /\ cl (nth x (cols_of b) 0%nat) = b.
Proof. intros b x H; destruct (nth_filter_lt _ _ _ H) as [K E]; split; [exact K|apply Nat.eqb_eq; exact E]. Qed.

Lemma block_inverse : forall b, inverse_of (length (rows_of b))
  (fun x y => A (nth x (rows_of b) 0%nat) (nth y (cols_of b) 0%nat))
  (fun y x => Ai (nth y (cols_of b) 0%nat) (nth x (rows_of b) 0%nat)).
Proof.
  intros b; split; intros x y Hx Hy; unfold mmul.
  - destruct (rows_lt b x Hx) as [Lx Ex], (rows_lt b y Hy) as [Ly Ey].
    rewrite (block_square b) at 1.
    transitivity (mmul n A Ai (nth x (rows_of b) 0%nat) (nth y (rows_of b) 0%nat)).
    + unfold mmul; rewrite (sumn_filter n _ (fun c => Nat.eqb (cl c) b)); [reflexivity|].
      intros c Hc E; apply Nat.eqb_neq in E; rewrite Hz by (auto; congruence); ring.
    + rewrite (proj1 HA _ _ Lx Ly); unfold mid; rewrite NoDup_nth_eqb by (auto using rows_NoDup); reflexivity.
  - rewrite (block_square b) in Hx, Hy.
    destruct (cols_lt b x Hx) as [Lx Ex], (cols_lt b y Hy) as [Ly Ey].
    transitivity (mmul n Ai A (nth x (cols_of b) 0%nat) (nth y (cols_of b) 0%nat)).
    + unfold mmul; rewrite (sumn_filter n _ (fun r => Nat.eqb (rl r) b)); [reflexivity|].
      intros r Hr E; apply Nat.eqb_neq in E; rewrite (Hz r) by (auto; congruence); ring.
    + rewrite (proj2 HA _ _ Lx Ly); unfold mid; rewrite NoDup_nth_eqb by (auto using cols_NoDup); reflexivity.
Qed.

(** conjugation block by block *)
Variable D : mat.
Hypothesis HD : forall c c', (c < n)%nat -> (c' < n)%nat -> cl c <> cl c' -> D c c' = 0.

Lemma conj_across : forall r r', (r < n)%nat -> (r' < n)%nat -> rl r <> rl r' -> mmul n (mmul n A D) Ai r r' = 0.
Proof.
  intros r r' Hr Hr' E; unfold mmul at 1; apply sumn_0; intros c' Hc'.
  destruct (Nat.eq_dec (rl r') (cl c')) as [F|F]; [|rewrite (inv_zero c' r' Hc' Hr' F); ring].
  replace (mmul n A D r c') with 0; [ring|]; symmetry; unfold mmul; apply sumn_0; intros c Hc.
  destruct (Nat.eq_dec (rl r) (cl c)) as [G|G]; [|rewrite (Hz r c Hr Hc G); ring].
  rewrite HD by (auto; congruence); ring.
Qed.

Lemma conj_within : forall b x y, (x < length (rows_of b))%nat -> (y < length (rows_of b))%nat ->
  mmul (length (rows_of b)) (mmul (length (rows_of b))
      (fun x y => A (nth x (rows_of b) 0%nat) (nth y (cols_of b) 0%nat))
      (fun x y => D (nth x (cols_of b) 0%nat) (nth y (cols_of b) 0%nat)))
    (fun y x => Ai (nth y (cols_of b) 0%nat) (nth x (rows_of b) 0%nat)) x y =
  mmul n (mmul n A D) Ai (nth x (rows_of b) 0%nat) (nth y (rows_of b) 0%nat).
Proof.
  intros b x y Hx Hy; destruct (rows_lt b x Hx) as [Lx Ex], (rows_lt b y Hy) as [Ly Ey].
  unfold mmul; rewrite (sumn_filter n (fun l => _ * Ai l _) (fun c => Nat.eqb (cl c) b)).
  2:{ intros c Hc E; apply Nat.eqb_neq in E; rewrite (inv_zero c) by (auto; congruence); ring. }
  fold (cols_of b); rewrite !(block_square b); apply sumn_ext; intros k Hk; f_equal.
  destruct (cols_lt b k Hk) as [Lk Ek].
  rewrite (sumn_filter n _ (fun c => Nat.eqb (cl c) b)); [reflexivity|].
  intros c Hc E; apply Nat.eqb_neq in E; rewrite Hz by (auto; congruence); ring.
Qed.
End Block.
