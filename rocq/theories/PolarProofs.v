(** Lemmas about the arrangement of the elements of shells bases. *)
From Coq Require Import Reals List ZArith Arith Bool Lia.
From Verif Require Import LibRes LibMat IrrepModel RepModel KernelModel KernelProofs PolarModel.
Import ListNotations.

(** The entries of [l] where the mask is true. *)
Fixpoint select {A} (mask : list bool) (l : list A) : list A :=
  match mask, l with
  | b :: m, a :: l' => (if b then [a] else []) ++ select m l'
  | _, _ => []
  end.

Lemma select_app : forall {A} m1 m2 (l1 l2 : list A), length m1 = length l1 ->
  select (m1 ++ m2) (l1 ++ l2) = select m1 l1 ++ select m2 l2.
Proof.
  intros A; induction m1 as [|b m1 IH]; intros m2 [|a l1] l2 H; cbn in *; try discriminate; [reflexivity|].
  rewrite IH by lia. rewrite app_assoc; reflexivity.
Qed.
Lemma select_flat : forall {C A} (m : C -> list bool) (l : C -> list A) cs,
  (forall c, length (m c) = length (l c)) ->
  select (flat_map m cs) (flat_map l cs) = flat_map (fun c => select (m c) (l c)) cs.
Proof.
  intros C A m l cs H; induction cs as [|c cs IH]; cbn [flat_map]; [reflexivity|].
  rewrite select_app by apply H. rewrite IH; reflexivity.
Qed.
Lemma select_repeat : forall {A} b n (l : list A), length l = n -> select (repeat b n) l = if b then l else [].
Proof.
  intros A b; induction n as [|n IH]; intros [|a l] H; cbn in *; try discriminate; [destruct b; reflexivity|].
  rewrite IH by lia. destruct b; reflexivity.
Qed.
Lemma select_filter : forall {A} (f : A -> bool) l, select (map f l) l = filter f l.
Proof. intros A f; induction l as [|a l IH]; cbn; [reflexivity|]. rewrite IH; destruct (f a); reflexivity. Qed.
Lemma select_flat_filter : forall {C A} (f : C -> bool) (g : C -> list A) n cs, (forall c, length (g c) = n) ->
  select (flat_map (fun b => repeat b n) (map f cs)) (flat_map g cs) = flat_map g (filter f cs).
Proof.
  intros C A f g n cs H; induction cs as [|c cs IH]; cbn [map flat_map filter]; [reflexivity|].
  rewrite select_app by (rewrite repeat_length, H; reflexivity).
  rewrite IH, select_repeat by apply H. destruct (f c); reflexivity.
Qed.

Lemma positions_length : forall {A} m i (l : list A), length m = length l -> length (positions i m) = length (select m l).
Proof.
  intros A; induction m as [|b m IH]; intros i [|a l] H; cbn in *; try discriminate; [reflexivity|].
  rewrite !app_length, (IH (S i) l) by lia. destruct b; reflexivity.
Qed.
Lemma positions_nth : forall {A} m i (l : list A) k p, length m = length l ->
  nth_error (positions i m) k = Some p -> (i <= p)%nat /\ nth_error l (p - i) = nth_error (select m l) k.
Proof.
  intros A; induction m as [|b m IH]; intros i [|a l] k p H E; cbn in *; try discriminate; [destruct k; discriminate|].
  destruct b; cbn in *.
  - destruct k as [|k]; cbn in *.
    + injection E as <-. split; [lia|]. rewrite Nat.sub_diag; reflexivity.
    + destruct (IH (S i) l k p) as [L En]; [lia|exact E|]. split; [lia|].
      replace (p - i)%nat with (S (p - S i)) by lia; exact En.
  - destruct (IH (S i) l k p) as [L En]; [lia|exact E|]. split; [lia|].
    replace (p - i)%nat with (S (p - S i)) by lia; exact En.
Qed.
Lemma positions0 : forall {A} m (l : list A) k a, length m = length l -> nth_error (select m l) k = Some a ->
  exists p, nth_error (positions 0 m) k = Some p /\ nth_error l p = Some a.
Proof.
  intros A m l k a H E.
  destruct (nth_error (positions 0 m) k) as [p|] eqn:Ep.
  - exists p; split; [reflexivity|]. destruct (positions_nth m 0 l k p H Ep) as [_ En].
    rewrite Nat.sub_0_r in En; rewrite En; exact E.
  - exfalso. apply nth_error_None in Ep. rewrite (positions_length m 0 l H) in Ep.
    apply nth_error_None in Ep. congruence.
Qed.

Lemma locate_flat : forall {A B} (f : A -> list B) dim l, (forall a, length (f a) = dim a) -> forall i a i',
  locate dim l i = Some (a, i') -> nth_error (flat_map f l) i = nth_error (f a) i'.
Proof.
  intros A B f dim l H; induction l as [|b l IH]; intros i a i' E; cbn [locate flat_map] in *; [discriminate|].
  destruct (Nat.ltb i (dim b)) eqn:L.
  - injection E as <- <-. apply Nat.ltb_lt in L. rewrite nth_error_app1 by (rewrite H; exact L). reflexivity.
  - apply Nat.ltb_ge in L. rewrite nth_error_app2 by (rewrite H; exact L). rewrite H. apply IH; exact E.
Qed.
Lemma flat_length_sum : forall {A B} (f : A -> list B) dim l, (forall a, length (f a) = dim a) ->
  length (flat_map f l) = list_sum (map dim l).
Proof.
  intros A B f dim l H; induction l as [|a l IH]; cbn [flat_map map]; [reflexivity|].
  rewrite app_length, list_sum_cons, H, IH; reflexivity.
Qed.
(** The block number [j] of a flattened list of blocks. *)
Lemma nth_error_block : forall {B} (f : nat -> list B) dim a n j q, (forall j, length (f j) = dim j) ->
  (j < n)%nat -> (q < dim (a + j))%nat ->
  nth_error (flat_map f (seq a n)) (list_sum (map dim (seq a j)) + q) = nth_error (f (a + j)%nat) q.
Proof.
  intros B f dim a n j q H; revert a j; induction n as [|n IH]; intros a j Lj Lq; [lia|]; cbn [seq flat_map].
  destruct j as [|j].
  - cbn [seq map]. change (list_sum []) with 0%nat. rewrite Nat.add_0_r in *. cbn.
    rewrite nth_error_app1 by (rewrite H; exact Lq). reflexivity.
  - cbn [seq map]. rewrite list_sum_cons, nth_error_app2 by (rewrite H; lia). rewrite H.
    replace (dim a + list_sum (map dim (seq (S a) j)) + q - dim a)%nat with (list_sum (map dim (seq (S a) j)) + q)%nat by lia.
    rewrite (IH (S a) j) by (try lia; replace (S a + j)%nat with (a + S j)%nat by lia; exact Lq).
    f_equal; f_equal; lia.
Qed.

Lemma enumerate_map : forall {A B} (f : A -> B) (l : list A), map (fun q => f (snd q)) (enumerate l) = map f l.
Proof.
  intros A B f l; unfold enumerate. generalize 0%nat. induction l as [|a l IH]; intros s; cbn; [reflexivity|].
  rewrite IH; reflexivity.
Qed.
Lemma in_enumerate : forall {A} (l : list A) i a, In (i, a) (enumerate l) -> nth_error l i = Some a.
Proof.
  intros A l; unfold enumerate. cut (forall s i a, In (i, a) (combine (seq s (length l)) l) ->
    (s <= i)%nat /\ nth_error l (i - s) = Some a).
  { intros H i a I. destruct (H 0%nat i a I) as [_ E]. rewrite Nat.sub_0_r in E; exact E. }
  induction l as [|b l IH]; intros s i a; cbn; [contradiction|]. intros [E|I].
  - injection E as <- <-. rewrite Nat.sub_diag. split; [lia|reflexivity].
  - destruct (IH (S s) i a I) as [L E]. split; [lia|].
    replace (i - s)%nat with (S (i - S s)) by lia. exact E.
Qed.

(** The radial profile lists its elements. *)
Definition rattr_of (p : gprofile) (i : nat) : rattr :=
  {| ra_radius := nth i (gp_radii p) 0%R; ra_sigma := nth i (gp_sigma p) 0%R; ra_idx := i |}.
Lemma gp_get_eq : forall p i, (i < gp_dim p)%nat -> gp_get p i = Ret (rattr_of p i).
Proof. intros p i H; unfold gp_get; rewrite (proj2 (Nat.ltb_lt i (gp_dim p)) H); reflexivity. Qed.
Lemma gp_iter_eq : forall p, gp_iter p = Ret (map (rattr_of p) (seq 0 (gp_dim p))).
Proof.
  intros p; unfold gp_iter.
  assert (forall l, (forall i, In i l -> (i < gp_dim p)%nat) -> mapM (gp_get p) l = Ret (map (rattr_of p) l)) as G.
  { induction l as [|i l IH]; intros H; cbn [mapM map]; [reflexivity|].
    rewrite gp_get_eq by (apply H; left; reflexivity). cbn [bind].
    rewrite IH by (intros; apply H; right; assumption). reflexivity. }
  apply G; intros i H; apply in_seq in H; lia.
Qed.
Definition rlist (p : gprofile) : list rattr := map (rattr_of p) (seq 0 (gp_dim p)).
Lemma rlist_length : forall p, length (rlist p) = gp_dim p.
Proof. intros; unfold rlist; rewrite map_length, seq_length; reflexivity. Qed.
Lemma rlist_nth : forall p i a, nth_error (rlist p) i = Some a -> (i < gp_dim p)%nat /\ a = rattr_of p i.
Proof.
  intros p i a E. assert (i < gp_dim p)%nat as L by (rewrite <- rlist_length; apply nth_error_Some; congruence).
  split; [exact L|]. unfold rlist in E. rewrite (map_nth_error _ _ _ (nth_error_seq' _ _ L)) in E. congruence.
Qed.

Section Arr.
Variable ar : arrangement.
Hypothesis ar_pos : forall j, (0 < ar_dim ar j)%nat.
Hypothesis ar_inj : forall i j, ar_id ar i = ar_id ar j -> i = j.

(** The subspaces of frequency [j] that are kept. *)
Definition sub (flt : option (rattr * list Z -> bool)) (p : gprofile) (j : nat) : list (nat * rattr) :=
  match flt with
  | None => enumerate (rlist p)
  | Some f => filter (fun q => f (snd q, ar_id ar j)) (enumerate (rlist p))
  end.
Definition block (flt : option (rattr * list Z -> bool)) (p : gprofile) (j : nat) : list (nat * rattr * nat * nat) :=
  flat_map (fun q => map (fun m => (fst q, snd q, j, m)) (seq 0 (ar_dim ar j))) (sub flt p j).
Definition keptels (L : nat) (flt : option (rattr * list Z -> bool)) (p : gprofile) : list (nat * rattr * nat * nat) :=
  flat_map (block flt p) (seq 0 (S L)).
(** The value of an element where the harmonics are [Y] and the radius is [r]. *)
Definition eval (p : gprofile) (r : R) (Y : nat -> R) (e : nat * rattr * nat * nat) : R :=
  let '(ri, _, j, m) := e in (gp_sample p r ri * Y (ar_first ar j + m)%nat)%R.

Lemma block_length : forall flt p j, length (block flt p j) = (length (sub flt p j) * ar_dim ar j)%nat.
Proof. intros; unfold block; apply length_flat; intros; rewrite map_length, seq_length; reflexivity. Qed.

Lemma block_nth : forall flt p j i o q, nth_error (sub flt p j) i = Some q -> (o < ar_dim ar j)%nat ->
  nth_error (block flt p j) (i * ar_dim ar j + o) = Some (fst q, snd q, j, o).
Proof.
  intros flt p j i o q E L; unfold block.
  rewrite (nth_error_flat _ (ar_dim ar j) _ i o q); [|intros; rewrite map_length, seq_length; reflexivity|exact E|exact L].
  apply (map_nth_error' (fun m => (fst q, snd q, j, m))). apply nth_error_seq'; exact L.
Qed.

Lemma sub_in : forall flt p j i a, In (i, a) (sub flt p j) -> (i < gp_dim p)%nat /\ a = rattr_of p i.
Proof.
  intros flt p j i a I. apply rlist_nth.
  destruct flt; cbn [sub] in I; [apply filter_In in I; destruct I as [I _]|]; apply in_enumerate in I; exact I.
Qed.

Lemma kept_eq : forall f p j, kept ar f (rlist p) j = map (fun q => f (snd q, ar_id ar j)) (enumerate (rlist p)).
Proof. intros; unfold kept; rewrite (enumerate_map (fun a => f (a, ar_id ar j))); reflexivity. Qed.
Lemma kept_count : forall f p j, count_true (kept ar f (rlist p) j) = length (sub (Some f) p j).
Proof.
  intros; unfold count_true. rewrite kept_eq, (positions_length _ 0 (enumerate (rlist p))) by apply map_length.
  rewrite select_filter; reflexivity.
Qed.

(** What the constructor stores. *)
Record built (L : nat) (p : gprofile) (flt : option (rattr * list Z -> bool)) (s : shells) : Prop := {
  bu_L : sh_L s = L;
  bu_p : sh_radial s = p;
  bu_js : sh_js s = map (fun j => (ar_id ar j, length (sub flt p j))) (seq 0 (S L));
  bu_mask : sh_mask s = match flt with None => None
    | Some f => Some (flat_map (fun j => flat_map (fun b => repeat b (ar_dim ar j)) (kept ar f (rlist p) j)) (seq 0 (S L))) end;
  bu_map : sh_map s = match sh_mask s with None => None | Some m => Some (positions 0 m) end;
  bu_smap : sh_smap s = match flt with None => None | Some f => Some (positions 0 (flat_map (kept ar f (rlist p)) (seq 0 (S L)))) end;
  bu_num : sh_num s = match flt with None => 0%nat | Some f => list_sum (map (fun j => length (sub flt p j)) (seq 0 (S L))) end;
  bu_dim : sh_dim ar s = list_sum (map (fun j => length (sub flt p j) * ar_dim ar j)%nat (seq 0 (S L)));
  bu_pos : (0 < sh_dim ar s)%nat
}.

Lemma nth_js : forall (f : nat -> nat) L j d, (j < S L)%nat ->
  nth j (map (fun j => (ar_id ar j, f j)) (seq 0 (S L))) d = (ar_id ar j, f j).
Proof.
  intros f L j d H. apply nth_error_nth. rewrite (map_nth_error _ _ _ (nth_error_seq' _ _ H)). reflexivity.
Qed.

Lemma mk_shells_built : forall L p flt, exists o, mk_shells ar L p flt = Ret o /\
  forall s, o = Some s -> built L p flt s.
Proof.
  intros L p flt; unfold mk_shells. rewrite gp_iter_eq; cbn [bind]. eexists; split; [reflexivity|].
  fold (rlist p).
  set (dims := map _ (seq 0 (S L))). destruct (Nat.eqb (list_sum dims) 0) eqn:E; [discriminate|].
  intros s Es. apply Nat.eqb_neq in E.
  match type of Es with Some ?x = _ => assert (s = x) as -> by congruence end. clear Es.
  assert (forall s, sh_js s = map (fun j => (ar_id ar j, length (sub flt p j))) (seq 0 (S L)) -> sh_L s = L ->
    sh_dim ar s = list_sum (map (fun j => length (sub flt p j) * ar_dim ar j)%nat (seq 0 (S L)))) as D.
  { intros s Ej EL; unfold sh_dim; rewrite EL, Ej. f_equal; apply map_ext_in. intros j Hj; apply in_seq in Hj.
    rewrite (nth_js (fun j => length (sub flt p j))) by lia. cbn [snd]; apply Nat.mul_comm. }
  destruct flt as [f|].
  - assert (map (fun j => (ar_id ar j, count_true (kept ar f (rlist p) j))) (seq 0 (S L)) =
            map (fun j => (ar_id ar j, length (sub (Some f) p j))) (seq 0 (S L))) as EJ
      by (apply map_ext; intros; rewrite kept_count; reflexivity).
    split; try reflexivity; cbn [sh_js sh_num].
    + exact EJ.
    + f_equal; apply map_ext; intros; apply kept_count.
    + apply D; [exact EJ|reflexivity].
    + unfold sh_dim; subst dims. cbn [sh_L sh_js] in *. lia.
  - assert (map (fun j => (ar_id ar j, gp_dim p)) (seq 0 (S L)) =
            map (fun j => (ar_id ar j, length (sub None p j))) (seq 0 (S L))) as EJ
      by (apply map_ext; intros; cbn [sub]; rewrite length_enumerate, rlist_length; reflexivity).
    split; try reflexivity; cbn [sh_js].
    + exact EJ.
    + apply D; [exact EJ|reflexivity].
    + unfold sh_dim; subst dims. cbn [sh_L sh_js] in *. lia.
Qed.

Lemma elements_all : forall L p, elements ar L (rlist p) = keptels L None p.
Proof. reflexivity. Qed.

Lemma full_value : forall L p s r Y k e, sh_L s = L -> sh_radial s = p ->
  nth_error (keptels L None p) k = Some e -> sh_full ar s r Y k = eval p r Y e.
Proof.
  intros L p s r Y k e EL Ep E; unfold sh_full; rewrite EL, Ep.
  assert (forall j, length (block None p j) = (ar_dim ar j * gp_dim p)%nat) as Lb.
  { intros j. rewrite block_length. cbn [sub]. rewrite length_enumerate, rlist_length; apply Nat.mul_comm. }
  assert (k < list_sum (map (fun j => ar_dim ar j * gp_dim p)%nat (seq 0 (S L))))%nat as Lk.
  { rewrite <- (flat_length_sum (block None p)) by exact Lb. apply nth_error_Some. unfold keptels in E. rewrite E; discriminate. }
  destruct (locate_some _ _ _ Lk) as (j & q & Eq & Ij & Lq).
  change (seq 0 (S L)) with (0%nat :: seq 1 L) in *. rewrite Eq.
  pose proof (locate_flat (block None p) _ _ Lb _ _ _ Eq) as N. unfold keptels in E.
  change (seq 0 (S L)) with (0%nat :: seq 1 L) in E. rewrite E in N.
  assert (q / ar_dim ar j < gp_dim p)%nat as Ld by (apply Nat.div_lt_upper_bound; [specialize (ar_pos j); lia|exact Lq]).
  assert (exists a, nth_error (sub None p j) (q / ar_dim ar j) = Some ((q / ar_dim ar j)%nat, a)) as [a Ea].
  { cbn [sub]. destruct (nth_error (rlist p) (q / ar_dim ar j)) as [a|] eqn:Er.
    - exists a; apply nth_enumerate; exact Er.
    - apply nth_error_None in Er; rewrite rlist_length in Er; lia. }
  pose proof (block_nth None p j (q / ar_dim ar j) (q mod ar_dim ar j) _ Ea) as Bn.
  rewrite (Nat.mul_comm _ (ar_dim ar j)), <- Nat.div_mod in Bn by (specialize (ar_pos j); lia).
  rewrite Bn in N by (apply Nat.mod_upper_bound; specialize (ar_pos j); lia).
  injection N as ->. reflexivity.
Qed.

Lemma mask_select : forall L p f,
  let mask := flat_map (fun j => flat_map (fun b => repeat b (ar_dim ar j)) (kept ar f (rlist p) j)) (seq 0 (S L)) in
  length mask = length (keptels L None p) /\ select mask (keptels L None p) = keptels L (Some f) p.
Proof.
  intros L p f mask.
  assert (forall j, length (flat_map (fun b => repeat b (ar_dim ar j)) (kept ar f (rlist p) j)) = length (block None p j)) as Lj.
  { intros j. rewrite block_length, (length_flat _ (ar_dim ar j)) by (intros; apply repeat_length).
    unfold kept; cbn [sub]. rewrite map_length, length_enumerate; reflexivity. }
  split.
  - unfold mask, keptels. rewrite (flat_length_sum _ (fun j => length (block None p j))) by exact Lj.
    rewrite (flat_length_sum _ (fun j => length (block None p j))); reflexivity.
  - unfold mask, keptels. rewrite select_flat by exact Lj.
    apply flat_map_ext. intros j. rewrite kept_eq. unfold block.
    rewrite (select_flat_filter (fun q => f (snd q, ar_id ar j))); [reflexivity|].
    intros; rewrite map_length, seq_length; reflexivity.
Qed.

Lemma value_kept : forall L p flt s r Y k e, built L p flt s -> nth_error (keptels L flt p) k = Some e ->
  sh_value ar s r Y k = eval p r Y e.
Proof.
  intros L p flt s r Y k e B E; unfold sh_value. rewrite (bu_mask _ _ _ _ B). destruct flt as [f|].
  - destruct (mask_select L p f) as [Lm Sm]. cbv zeta in Lm, Sm.
    set (mask := flat_map _ _) in *.
    rewrite <- Sm in E. destruct (positions0 mask _ k e Lm E) as (q & Eq & En).
    rewrite (nth_error_nth _ _ 0%nat Eq). apply (full_value L); [apply B|apply B|exact En].
  - apply (full_value L); [apply B|apply B|exact E].
Qed.

(** The element (i, o) of the block of frequency [j]. *)
Definition start (flt : option (rattr * list Z -> bool)) (p : gprofile) (j : nat) : nat :=
  list_sum (map (fun j => length (sub flt p j) * ar_dim ar j)%nat (seq 0 j)).

Lemma value_at : forall L p flt s r Y j i o q, built L p flt s -> (j < S L)%nat ->
  nth_error (sub flt p j) i = Some q -> (o < ar_dim ar j)%nat ->
  sh_value ar s r Y (start flt p j + i * ar_dim ar j + o) = (gp_sample p r (fst q) * Y (ar_first ar j + o)%nat)%R.
Proof.
  intros L p flt s r Y j i o q B Lj Eq Lo.
  rewrite (value_kept L p flt s r Y _ (fst q, snd q, j, o) B); [reflexivity|].
  assert (i < length (sub flt p j))%nat as Li by (apply nth_error_Some; congruence).
  unfold start, keptels. rewrite <- Nat.add_assoc.
  rewrite (nth_error_block (block flt p) (fun j => length (sub flt p j) * ar_dim ar j)%nat 0); [|apply block_length|exact Lj|].
  - cbn [Nat.add]. apply block_nth; assumption.
  - cbn [Nat.add]. specialize (ar_pos j). nia.
Qed.

Lemma js_nodup : forall (f : nat -> nat) n a, NoDup (map fst (map (fun j => (ar_id ar j, f j)) (seq a n))).
Proof.
  intros f n a. rewrite map_map. cbn [fst]. apply FinFun.Injective_map_NoDup; [|apply seq_NoDup].
  intros x y E; apply ar_inj; exact E.
Qed.

Lemma split_blocks_at : forall {T} (irr : list Z -> res (girrep T)) (mult : nat -> nat) v n a pos,
  (forall j, exists r, irr (ar_id ar j) = Ret r /\ gi_size r = ar_dim ar j) ->
  exists d, split_blocks irr (map (fun j => (ar_id ar j, mult j)) (seq a n)) pos v = Ret d /\
    map fst d = map (ar_id ar) (seq a n) /\
    forall j, (j < n)%nat -> In (ar_id ar (a + j)%nat,
      fun i o => v (pos + list_sum (map (fun j => mult j * ar_dim ar j)%nat (seq a j)) + i * ar_dim ar (a + j) + o)%nat) d.
Proof.
  intros T irr mult v n; induction n as [|n IH]; intros a pos H; cbn [seq map split_blocks].
  - exists []; split; [reflexivity|]; split; [reflexivity|]. intros; lia.
  - destruct (H a) as (r & Er & Sr). rewrite Er; cbn [bind]. rewrite Sr.
    destruct (IH (S a) (pos + ar_dim ar a * mult a)%nat H) as (d & Ed & Md & Id).
    rewrite Ed; cbn [bind]. eexists; split; [reflexivity|]. split; [cbn [map fst]; rewrite Md; reflexivity|].
    intros [|j] Lj.
    + left. rewrite Nat.add_0_r. f_equal. cbn [seq map]. change (list_sum []) with 0%nat. rewrite Nat.add_0_r. reflexivity.
    + right. specialize (Id j ltac:(lia)). replace (S a + j)%nat with (a + S j)%nat in Id by lia.
      cbn [seq map]. rewrite list_sum_cons.
      replace (pos + (mult a * ar_dim ar a + list_sum (map (fun j0 => mult j0 * ar_dim ar j0)%nat (seq (S a) j))))%nat
        with (pos + ar_dim ar a * mult a + list_sum (map (fun j0 => mult j0 * ar_dim ar j0)%nat (seq (S a) j)))%nat by lia.
      exact Id.
Qed.

(** The frequency [j] of the dictionary returned by sample_as_dict. *)
Lemma harmonics_at : forall {T P} (irr : list Z -> res (girrep T)) (F : filters P hattr) L p flt s x j,
  (forall j, exists r, irr (ar_id ar j) = Ret r /\ gi_size r = ar_dim ar j) ->
  built L p flt s -> f_js F = sh_js s -> (j < S L)%nat ->
  harmonics irr F x (ar_id ar j) = Ret (fun i o => f_sample F x (start flt p j + i * ar_dim ar j + o)%nat).
Proof.
  intros T P irr F L p flt s x j H B EF Lj; unfold harmonics. rewrite EF, (bu_js _ _ _ _ B).
  destruct (split_blocks_at irr (fun j => length (sub flt p j)) (f_sample F x) (S L) 0 0 H) as (d & Ed & Md & Id).
  rewrite Ed; cbn [bind]. unfold lookup.
  assert (NoDup (map fst d)) as Nd.
  { rewrite Md. apply FinFun.Injective_map_NoDup; [|apply seq_NoDup]. intros y z E; apply ar_inj; exact E. }
  pose proof (last_of_nodup d _ _ Nd (Id j Lj)) as E. cbn [Nat.add] in E. rewrite E. reflexivity.
Qed.

Lemma mult_at : forall {P} (F : filters P hattr) L p flt s j, built L p flt s -> f_js F = sh_js s -> (j < S L)%nat ->
  multiplicity F (ar_id ar j) = length (sub flt p j).
Proof.
  intros P F L p flt s j B EF Lj; unfold multiplicity, get_or. rewrite EF, (bu_js _ _ _ _ B).
  rewrite (last_of_nodup _ (ar_id ar j) (length (sub flt p j))); [reflexivity|apply js_nodup|].
  apply in_map_iff. exists j; split; [reflexivity|]. apply in_seq; lia.
Qed.
End Arr.
