(** Lemmas for the tensor product: orthogonal square matrices, matrices put side by
    side, filled blocks, and the reordering of a tensor product with a direct sum. *)
From Coq Require Import Reals ZArith Bool List Arith Lia Lra.
From Verif Require Import LibRes LibMat LibMatS IrrepModel RepModel TensorModel.
Import ListNotations.
Open Scope R_scope.

(** ** Square matrices with orthonormal columns *)
Lemma sumn_sq_zero : forall n f, sumn n (fun i => f i * f i) = 0 -> forall i, (i < n)%nat -> f i = 0.
Proof.
  induction n as [|n IH]; intros f H i Hi; [lia|]. cbn [sumn] in H.
  assert (0 <= sumn n (fun i => f i * f i)) by (apply sumn_nonneg; intros; apply Rle_0_sqr).
  pose proof (Rle_0_sqr (f n)) as P. unfold Rsqr in P.
  destruct (Nat.eq_dec i n) as [->|N]; [apply Rsqr_0_uniq; unfold Rsqr; lra|]. apply IH; [lra|lia].
Qed.

(** the columns of a square matrix are orthonormal only if its rows are *)
Lemma columns_rows : forall n Q, meq n n (mmul n (mtr Q) Q) mid -> meq n n (mmul n Q (mtr Q)) mid.
Proof.
  intros n Q H. set (P := mmul n Q (mtr Q)).
  assert (Sym : forall i j, P i j = P j i) by (intros i j; unfold P, mmul, mtr; apply sumn_ext; intros; ring).
  assert (Idem : meq n n (mmul n P P) P).
  { unfold P. rewrite mmul_assoc_eq. rewrite <- (mmul_assoc_eq n n n n (mtr Q) Q (mtr Q)). rewrite H, mid_l. reflexivity. }
  assert (Tr : trace n P = INR n).
  { unfold P. rewrite trace_mmul_comm, (trace_ext n _ mid H). unfold trace, mid.
    rewrite (sumn_ext n _ (fun _ => 1)) by (intros i _; rewrite Nat.eqb_refl; reflexivity). rewrite sumn_const. ring. }
  set (D := msub P mid).
  assert (Z : sumn n (fun i => sumn n (fun j => D i j * D i j)) = 0).
  { transitivity (sumn n (fun i => mid i i - P i i)).
    - apply sumn_ext. intros i Hi. unfold D, msub.
      rewrite (sumn_ext n _ (fun j => (P i j * P j i - 2 * (P i j * mid i j)) + mid i j * mid i j)) by (intros j _; rewrite (Sym j i); ring).
      rewrite sumn_plus, sumn_minus. fold (mmul n P P i i). rewrite (Idem i i Hi Hi).
      rewrite sumn_scal_l, (sumn_single n i), (sumn_single n i (fun j => mid i j * mid i j)); try exact Hi.
      + unfold mid. rewrite Nat.eqb_refl. ring.
      + intros j _ Nj. unfold mid. replace (Nat.eqb i j) with false by (symmetry; apply Nat.eqb_neq; auto). ring.
      + intros j _ Nj. unfold mid. replace (Nat.eqb i j) with false by (symmetry; apply Nat.eqb_neq; auto). ring.
    - rewrite sumn_minus. fold (trace n P). rewrite Tr.
      rewrite (sumn_ext n _ (fun _ => 1)) by (intros i _; unfold mid; rewrite Nat.eqb_refl; reflexivity). rewrite sumn_const. ring. }
  intros i j Hi Hj. assert (sumn n (fun j => D i j * D i j) = 0) as Zi.
  { revert i Hi. assert (G : forall m (f : nat -> R), (forall i, (i < m)%nat -> 0 <= f i) -> sumn m f = 0 -> forall i, (i < m)%nat -> f i = 0).
    { induction m as [|m IH]; intros f P0 S0 i Hi; [lia|]. cbn [sumn] in S0.
      assert (0 <= sumn m f) by (apply sumn_nonneg; intros; apply P0; lia). pose proof (P0 m ltac:(lia)).
      destruct (Nat.eq_dec i m) as [->|N]; [lra|]. apply IH; [intros; apply P0; lia|lra|lia]. }
    intros i Hi. apply (G n (fun i => sumn n (fun j => D i j * D i j))); [|exact Z|exact Hi]. intros. apply sumn_nonneg. intros; apply Rle_0_sqr. }
  pose proof (sumn_sq_zero n (fun j => D i j) Zi j Hj) as E. cbv beta in E. unfold D, msub in E. fold P. lra.
Qed.
Lemma orthogonal_columns : forall n Q, meq n n (mmul n (mtr Q) Q) mid -> orthogonal n Q.
Proof. intros n Q H. pose proof (columns_rows n Q H). split; assumption. Qed.

(** ** Matrices side by side *)
Fixpoint hcat (l : list (nat * mat)) : mat :=
  match l with
  | [] => mzero
  | (w, B) :: l' => fun i j => if Nat.ltb j w then B i j else hcat l' i (j - w)%nat
  end.

Lemma hcat_app : forall l m i j, hcat (l ++ m) i j = if Nat.ltb j (bsize l) then hcat l i j else hcat m i (j - bsize l)%nat.
Proof.
  induction l as [|[w B] l IH]; intros m i j; cbn [hcat app bsize].
  - rewrite Nat.sub_0_r. reflexivity.
  - rewrite IH. destruct (Nat.ltb_spec j w).
    + destruct (Nat.ltb_spec j (w + bsize l)); [reflexivity|lia].
    + destruct (Nat.ltb_spec (j - w) (bsize l)); destruct (Nat.ltb_spec j (w + bsize l)); try lia; [reflexivity|]. f_equal; lia.
Qed.

(** a matrix that meets every part in a block meets all of them in the block diagonal *)
Lemma hcat_meets : forall n K l bs, Forall2 (fun u b => fst u = fst b /\ meq n (fst u) (mmul n K (snd u)) (mmul (fst u) (snd u) (snd b))) l bs ->
  meq n (bsize l) (mmul n K (hcat l)) (mmul (bsize l) (hcat l) (bdiag bs)).
Proof.
  intros n K l bs F. induction F as [|[w B] [w' D] l bs (Ew & M) F IH]; intros i j Hi Hj; cbn [bsize] in *; [lia|]. cbn [fst snd] in *. subst w'.
  unfold mmul at 2. rewrite sumn_app.
  destruct (Nat.ltb_spec j w) as [L|L].
  - transitivity (mmul n K B i j).
    { unfold mmul. apply sumn_ext; intros x _. cbn [hcat]. destruct (Nat.ltb_spec j w); [reflexivity|lia]. }
    rewrite (M i j Hi L). rewrite (sumn_0 (bsize l)).
    + rewrite Rplus_0_r. unfold mmul. apply sumn_ext; intros x Hx. cbn [hcat bdiag].
      destruct (Nat.ltb_spec x w); [|lia]. destruct (Nat.ltb_spec j w); [reflexivity|lia].
    + intros x Hx. cbn [bdiag]. destruct (Nat.ltb_spec (w + x) w); [lia|]. destruct (Nat.ltb_spec j w); [ring|lia].
  - transitivity (mmul n K (hcat l) i (j - w)%nat).
    { unfold mmul. apply sumn_ext; intros x _. cbn [hcat]. destruct (Nat.ltb_spec j w); [lia|reflexivity]. }
    rewrite (IH i (j - w)%nat Hi) by lia. rewrite (sumn_0 w).
    + rewrite Rplus_0_l. unfold mmul. apply sumn_ext; intros x Hx. cbn [hcat bdiag].
      destruct (Nat.ltb_spec (w + x) w); [lia|]. destruct (Nat.ltb_spec j w); [lia|]. replace (w + x - w)%nat with x by lia. reflexivity.
    + intros x Hx. cbn [bdiag]. destruct (Nat.ltb_spec x w); [|lia]. destruct (Nat.ltb_spec j w); [lia|ring].
Qed.

(** orthonormal columns, part by part *)
Lemma hcat_orthonormal : forall n l, Forall (fun u => meq (fst u) (fst u) (mmul n (mtr (snd u)) (snd u)) mid) l ->
  ForallOrdPairs (fun u v => meq (fst u) (fst v) (mmul n (mtr (snd u)) (snd v)) mzero) l ->
  meq (bsize l) (bsize l) (mmul n (mtr (hcat l)) (hcat l)) mid.
Proof.
  intros n l. induction l as [|[w B] l IH]; intros F O i j Hi Hj; cbn [bsize] in *; [lia|].
  inversion F as [|? ? F1 F2]; subst. inversion O as [|? ? O1 O2]; subst. cbn [fst snd] in *.
  assert (Cross : forall a b, (a < w)%nat -> (b < bsize l)%nat -> sumn n (fun x => B x a * hcat l x b) = 0).
  { clear IH F F1 F2 O O2 Hi Hj i j. induction l as [|[v C] l IH]; intros a b Ha Hb; cbn [bsize] in Hb; [lia|].
    inversion O1 as [|? ? P1 P2]; subst. cbn [fst snd] in P1. cbn [hcat]. destruct (Nat.ltb_spec b v) as [L|L].
    - exact (P1 a b Ha L).
    - apply IH; [exact P2|exact Ha|lia]. }
  unfold mmul, mtr. cbn [hcat]. unfold mid.
  destruct (Nat.ltb_spec i w) as [Li|Li]; destruct (Nat.ltb_spec j w) as [Lj|Lj].
  - exact (F1 i j Li Lj).
  - rewrite Cross by lia. destruct (Nat.eqb_spec i j); [lia|reflexivity].
  - erewrite sumn_ext; [rewrite (Cross j (i - w)%nat) by lia|intros; cbv beta; ring]. destruct (Nat.eqb_spec i j); [lia|reflexivity].
  - transitivity (mid (i - w)%nat (j - w)%nat); [exact (IH F2 O2 (i - w)%nat (j - w)%nat ltac:(lia) ltac:(lia))|].
    unfold mid. destruct (Nat.eqb_spec (i - w) (j - w)); destruct (Nat.eqb_spec i j); try lia; reflexivity.
Qed.

(** ** Filled blocks *)
Lemma fill_columns : forall A p h c w B w' C a b,
  fill (fill A p h c w B) p h (c + w) w' C a b = fill A p h c (w + w') (fun x y => if Nat.ltb y w then B x y else C x (y - w)%nat) a b.
Proof.
  intros A p h c w B w' C a b. unfold fill.
  destruct (Nat.leb_spec p a); destruct (Nat.ltb_spec a (p + h)); cbn [andb]; try reflexivity.
  destruct (Nat.leb_spec (c + w) b); destruct (Nat.ltb_spec b (c + w + w')); destruct (Nat.leb_spec c b); destruct (Nat.ltb_spec b (c + w)); destruct (Nat.ltb_spec b (c + (w + w')));
    cbn [andb]; try lia; try reflexivity; destruct (Nat.ltb_spec (b - c) w); try lia; try reflexivity. f_equal; lia.
Qed.
(** a block appended to a block diagonal matrix *)
Lemma fill_append : forall l n B a b, fill (bdiag l) (bsize l) n (bsize l) n B a b = bdiag (l ++ [(n, B)]) a b.
Proof.
  induction l as [|[m A] l IH]; intros n B a b.
  - cbn [bsize app bdiag]. unfold fill, mzero. cbn [Nat.add Nat.leb andb]. rewrite !Nat.sub_0_r.
    destruct (Nat.ltb_spec a n); destruct (Nat.ltb_spec b n); reflexivity.
  - cbn [bsize app bdiag]. rewrite <- IH. unfold fill.
    destruct (Nat.ltb_spec a m) as [La|La]; destruct (Nat.ltb_spec b m) as [Lb|Lb];
      destruct (Nat.leb_spec (m + bsize l) a); destruct (Nat.leb_spec (m + bsize l) b); cbn [andb]; try lia; try reflexivity;
      destruct (Nat.ltb_spec a (m + bsize l + n)); destruct (Nat.ltb_spec b (m + bsize l + n)); destruct (Nat.leb_spec (bsize l) (a - m)); destruct (Nat.leb_spec (bsize l) (b - m));
      destruct (Nat.ltb_spec (a - m) (bsize l + n)); destruct (Nat.ltb_spec (b - m) (bsize l + n)); cbn [andb]; try lia; try reflexivity. f_equal; lia.
Qed.
Lemma fill_ext : forall A A' r h c w B B', (forall a b, A a b = A' a b) -> meq h w B B' -> forall a b, fill A r h c w B a b = fill A' r h c w B' a b.
Proof.
  intros A A' r h c w B B' EA EB a b. unfold fill.
  destruct (Nat.leb_spec r a); destruct (Nat.ltb_spec a (r + h)); destruct (Nat.leb_spec c b); destruct (Nat.ltb_spec b (c + w)); cbn [andb]; auto. apply EB; lia.
Qed.
(** the end of a block diagonal matrix *)
Lemma bdiag_app_end : forall l m i j, bdiag (l ++ m) (bsize l + i)%nat (bsize l + j)%nat = bdiag m i j.
Proof.
  induction l as [|[n A] l IH]; intros m i j; [reflexivity|]. cbn [app bsize bdiag].
  destruct (Nat.ltb_spec (n + bsize l + i) n); [lia|]. destruct (Nat.ltb_spec (n + bsize l + j) n); [lia|].
  replace (n + bsize l + i - n)%nat with (bsize l + i)%nat by lia. replace (n + bsize l + j - n)%nat with (bsize l + j)%nat by lia. apply IH.
Qed.
Lemma fill_replace : forall l m n B a b, bsize m = n -> fill (bdiag (l ++ m)) (bsize l) n (bsize l) n B a b = bdiag (l ++ [(n, B)]) a b.
Proof.
  induction l as [|[k A] l IH]; intros m n B a b E.
  - cbn [bsize app bdiag]. unfold fill. cbn [Nat.add Nat.leb andb]. rewrite !Nat.sub_0_r.
    assert (Out : forall m a b, (bsize m <= a \/ bsize m <= b)%nat -> bdiag m a b = 0).
    { clear. induction m as [|[k A] m IH]; intros a b H; [reflexivity|]. cbn [bsize bdiag] in *.
      destruct (Nat.ltb_spec a k); destruct (Nat.ltb_spec b k); try lia; try reflexivity. apply IH. lia. }
    destruct (Nat.ltb_spec a n); destruct (Nat.ltb_spec b n); cbn [andb]; try reflexivity; apply Out; lia.
  - cbn [bsize app bdiag]. rewrite <- (IH m n B (a - k)%nat (b - k)%nat E). unfold fill.
    destruct (Nat.ltb_spec a k) as [La|La]; destruct (Nat.ltb_spec b k) as [Lb|Lb];
      destruct (Nat.leb_spec (k + bsize l) a); destruct (Nat.leb_spec (k + bsize l) b); cbn [andb]; try lia; try reflexivity;
      destruct (Nat.ltb_spec a (k + bsize l + n)); destruct (Nat.ltb_spec b (k + bsize l + n)); destruct (Nat.leb_spec (bsize l) (a - k)); destruct (Nat.leb_spec (bsize l) (b - k));
      destruct (Nat.ltb_spec (a - k) (bsize l + n)); destruct (Nat.ltb_spec (b - k) (bsize l + n)); cbn [andb]; try lia; try reflexivity. f_equal; lia.
Qed.

(** ** The reordering *)
(** the row of the one in column [c] of the permutation, for the sizes [ds] of the
    second irreps from position [q] on *)
Fixpoint row_of (d1 D2 : nat) (ds : list nat) (q c : nat) : nat :=
  match ds with
  | [] => 0
  | d :: ds' => if Nat.ltb c (d1 * d) then q + (c / d) * D2 + c mod d else row_of d1 D2 ds' (q + d) (c - d1 * d)
  end%nat.
Lemma row_of_app : forall d1 D2 ds es q c, row_of d1 D2 (ds ++ es) q c =
  if Nat.ltb c (d1 * list_sum ds) then row_of d1 D2 ds q c else row_of d1 D2 es (q + list_sum ds) (c - d1 * list_sum ds).
Proof.
  induction ds as [|d ds IH]; intros es q c; cbn [app row_of list_sum fold_right].
  - fold (list_sum []). cbn. rewrite Nat.mul_0_r, Nat.sub_0_r, Nat.add_0_r. reflexivity.
  - fold (list_sum ds). rewrite IH. destruct (Nat.ltb_spec c (d1 * d)).
    + destruct (Nat.ltb_spec c (d1 * (d + list_sum ds))); [reflexivity|nia].
    + destruct (Nat.ltb_spec (c - d1 * d) (d1 * list_sum ds)); destruct (Nat.ltb_spec c (d1 * (d + list_sum ds))); try nia; try reflexivity; f_equal; nia.
Qed.

(** one summand: the columns from q * d1 on *)
Lemma permute_cols : forall d1 d D2 q P, (0 < d)%nat -> (forall r c, (q * d1 <= c)%nat -> P r c = 0) ->
  forall r c, permute d1 d D2 q P r c =
    if Nat.ltb c (q * d1) then P r c
    else if Nat.ltb (c - q * d1) (d1 * d) then (if Nat.eqb r (q + ((c - q * d1) / d) * D2 + (c - q * d1) mod d) then 1 else 0) else 0.
Proof.
  intros d1 d D2 q P Hd Z. unfold permute.
  assert (G : forall k r c, fold_left (fun P i => fill P (q + i * D2) d (q * d1 + i * d) d mid) (seq 0 k) P r c =
    if Nat.ltb c (q * d1) then P r c
    else if Nat.ltb (c - q * d1) (k * d) then (if Nat.eqb r (q + ((c - q * d1) / d) * D2 + (c - q * d1) mod d) then 1 else 0) else 0).
  { induction k as [|k IH]; intros r c.
    - cbn [seq fold_left Nat.mul]. destruct (Nat.ltb_spec c (q * d1)); [reflexivity|]. destruct (Nat.ltb_spec (c - q * d1) 0); [lia|]. apply Z; lia.
    - rewrite seq_S, fold_left_app. cbn [fold_left Nat.add]. match goal with |- fill ?X _ _ _ _ _ _ _ = _ => set (P' := X) in * end. unfold fill. clearbody P'.
      destruct (Nat.ltb_spec c (q * d1)).
      + destruct (Nat.leb_spec (q * d1 + k * d) c); [lia|]. rewrite !andb_false_r. cbn [andb]. rewrite IH. destruct (Nat.ltb_spec c (q * d1)); [reflexivity|lia].
      + destruct (Nat.leb_spec (q * d1 + k * d) c) as [L|L].
        * destruct (Nat.ltb_spec c (q * d1 + k * d + d)) as [L'|L'].
          -- destruct (Nat.ltb_spec (c - q * d1) (S k * d)); [|cbn [Nat.mul] in *; lia].
             assert (E1 : ((c - q * d1) / d = k)%nat) by (symmetry; apply (Nat.div_unique _ d k (c - q * d1 - k * d)); nia).
             assert (E2 : ((c - q * d1) mod d = c - q * d1 - k * d)%nat) by (symmetry; apply (Nat.mod_unique _ d k); nia).
             rewrite E1, E2. rewrite !andb_true_r.
             destruct (Nat.leb_spec (q + k * D2) r); destruct (Nat.ltb_spec r (q + k * D2 + d)); cbn [andb].
             ++ unfold mid. destruct (Nat.eqb_spec (r - (q + k * D2)) (c - (q * d1 + k * d))); destruct (Nat.eqb_spec r (q + k * D2 + (c - q * d1 - k * d))); try lia; reflexivity.
             ++ rewrite IH. destruct (Nat.ltb_spec c (q * d1)); [lia|]. destruct (Nat.ltb_spec (c - q * d1) (k * d)); [lia|].
                destruct (Nat.eqb_spec r (q + k * D2 + (c - q * d1 - k * d))); [lia|reflexivity].
             ++ rewrite IH. destruct (Nat.ltb_spec c (q * d1)); [lia|]. destruct (Nat.ltb_spec (c - q * d1) (k * d)); [lia|].
                destruct (Nat.eqb_spec r (q + k * D2 + (c - q * d1 - k * d))); [lia|reflexivity].
             ++ lia.
          -- rewrite !andb_false_r. rewrite IH. destruct (Nat.ltb_spec c (q * d1)); [lia|]. destruct (Nat.ltb_spec (c - q * d1) (k * d)); [lia|].
             destruct (Nat.ltb_spec (c - q * d1) (S k * d)); [cbn [Nat.mul] in *; lia|reflexivity].
        * rewrite !andb_false_r. cbn [andb]. rewrite IH. destruct (Nat.ltb_spec c (q * d1)); [lia|].
          destruct (Nat.ltb_spec (c - q * d1) (k * d)); [|lia]. destruct (Nat.ltb_spec (c - q * d1) (S k * d)); [reflexivity|cbn [Nat.mul] in *; lia]. }
  intros r c. apply G.
Qed.

(** all summands *)
Lemma permute_row : forall d1 d D2 ds P, (0 < d)%nat ->
  (forall r c, P r c = if Nat.ltb c (d1 * list_sum ds) then (if Nat.eqb r (row_of d1 D2 ds 0 c) then 1 else 0) else 0) ->
  forall r c, permute d1 d D2 (list_sum ds) P r c = if Nat.ltb c (d1 * list_sum (ds ++ [d])) then (if Nat.eqb r (row_of d1 D2 (ds ++ [d]) 0 c) then 1 else 0) else 0.
Proof.
  intros d1 d D2 ds P Hd HP r c. rewrite permute_cols; [|exact Hd|].
  2:{ intros r' c' L. rewrite HP. destruct (Nat.ltb_spec c' (d1 * list_sum ds)); [lia|reflexivity]. }
  rewrite HP, list_sum_app. cbn [list_sum fold_right]. rewrite Nat.add_0_r, row_of_app. cbn [Nat.add].
  rewrite (Nat.mul_comm (list_sum ds) d1).
  destruct (Nat.ltb_spec c (d1 * list_sum ds)).
  - destruct (Nat.ltb_spec c (d1 * (list_sum ds + d))); [reflexivity|nia].
  - cbn [row_of]. destruct (Nat.ltb_spec (c - d1 * list_sum ds) (d1 * d)); destruct (Nat.ltb_spec c (d1 * (list_sum ds + d))); try nia; reflexivity.
Qed.

Section Reorder.
Variables (d1 D2 : nat) (A : mat).
(** the tensor products of [A] with the blocks *)
Definition krons (Bs : list (nat * mat)) : list (nat * mat) := map (fun b => ((d1 * fst b)%nat, kron (fst b) (fst b) A (snd b))) Bs.
Lemma krons_size : forall Bs, bsize (krons Bs) = (d1 * bsize Bs)%nat.
Proof. induction Bs as [|[d B] Bs IH]; cbn [krons map bsize fst]; [lia|]. fold (krons Bs). rewrite IH. lia. Qed.

Lemma row_place : forall ds q c, Forall (fun d => (0 < d)%nat) ds -> (q + list_sum ds <= D2)%nat -> (c < d1 * list_sum ds)%nat ->
  (row_of d1 D2 ds q c / D2 < d1)%nat /\ (q <= row_of d1 D2 ds q c mod D2 < q + list_sum ds)%nat.
Proof.
  induction ds as [|d ds IH]; intros q c F L Hc; cbn [list_sum fold_right] in *; [lia|]. fold (list_sum ds) in *. inversion F; subst. cbn [row_of].
  destruct (Nat.ltb_spec c (d1 * d)) as [H|H].
  - pose proof (Nat.mod_upper_bound c d ltac:(lia)).
    replace (q + c / d * D2 + c mod d)%nat with ((q + c mod d) + (c / d) * D2)%nat by lia.
    rewrite Nat.div_add, Nat.mod_add by lia. rewrite Nat.div_small, Nat.mod_small by lia.
    split; [|lia]. cbn. apply Nat.div_lt_upper_bound; [lia|]. rewrite Nat.mul_comm. exact H.
  - specialize (IH (q + d)%nat (c - d1 * d)%nat ltac:(assumption) ltac:(lia) ltac:(nia)). lia.
Qed.

Lemma row_bdiag : forall Bs q, Forall (fun b => (0 < fst b)%nat) Bs -> (q + bsize Bs <= D2)%nat ->
  forall c c', (c < d1 * bsize Bs)%nat -> (c' < d1 * bsize Bs)%nat ->
  bdiag (krons Bs) c c' = A (row_of d1 D2 (map fst Bs) q c / D2)%nat (row_of d1 D2 (map fst Bs) q c' / D2)%nat *
    bdiag Bs (row_of d1 D2 (map fst Bs) q c mod D2 - q)%nat (row_of d1 D2 (map fst Bs) q c' mod D2 - q)%nat.
Proof.
  assert (Sz : forall l : list (nat * mat), list_sum (map fst l) = bsize l) by (induction l as [|[? ?] l IH]; [reflexivity|cbn; f_equal; exact IH]).
  induction Bs as [|[d B] Bs IH]; intros q F L c c' Hc Hc'; cbn [bsize] in *; [lia|]. inversion F as [|? ? F1 F2]; subst. cbn [fst] in F1.
  cbn [krons map fst snd row_of bdiag]. fold (krons Bs).
  assert (Fd : Forall (fun d => (0 < d)%nat) (map fst Bs)) by (apply Forall_map; exact F2).
  assert (Head : forall x, (x < d1 * d)%nat -> ((q + x / d * D2 + x mod d) / D2 = x / d)%nat /\ ((q + x / d * D2 + x mod d) mod D2 - q = x mod d)%nat).
  { intros x Hx. pose proof (Nat.mod_upper_bound x d ltac:(lia)).
    replace (q + x / d * D2 + x mod d)%nat with ((q + x mod d) + (x / d) * D2)%nat by lia.
    rewrite Nat.div_add, Nat.mod_add by lia. rewrite Nat.div_small, Nat.mod_small by lia. split; [reflexivity|lia]. }
  assert (Tail : forall x, (d1 * d <= x)%nat -> (x < d1 * (d + bsize Bs))%nat ->
    (q + d <= row_of d1 D2 (map fst Bs) (q + d) (x - d1 * d) mod D2)%nat).
  { intros x H1 H2. apply (row_place (map fst Bs) (q + d) (x - d1 * d)); [exact Fd|rewrite Sz; lia|rewrite Sz; nia]. }
  destruct (Nat.ltb_spec c (d1 * d)) as [H|H]; destruct (Nat.ltb_spec c' (d1 * d)) as [H'|H'].
  - destruct (Head c H) as [-> ->]. destruct (Head c' H') as [-> ->].
    pose proof (Nat.mod_upper_bound c d ltac:(lia)). pose proof (Nat.mod_upper_bound c' d ltac:(lia)).
    destruct (Nat.ltb_spec (c mod d) d); [|lia]. destruct (Nat.ltb_spec (c' mod d) d); [reflexivity|lia].
  - destruct (Head c H) as [-> ->]. pose proof (Nat.mod_upper_bound c d ltac:(lia)). pose proof (Tail c' H' Hc').
    destruct (Nat.ltb_spec (c mod d) d); [|lia]. match goal with |- context [Nat.ltb ?x d] => destruct (Nat.ltb_spec x d); [lia|ring] end.
  - destruct (Head c' H') as [-> ->]. pose proof (Nat.mod_upper_bound c' d ltac:(lia)). pose proof (Tail c H Hc).
    destruct (Nat.ltb_spec (c' mod d) d); [|lia]. match goal with |- context [Nat.ltb ?x d] => destruct (Nat.ltb_spec x d); [lia|ring] end.
  - pose proof (Tail c H Hc). pose proof (Tail c' H' Hc'). rewrite (IH (q + d)%nat F2 ltac:(lia) (c - d1 * d)%nat (c' - d1 * d)%nat ltac:(nia) ltac:(nia)).
    do 2 (match goal with |- context [Nat.ltb ?x d] => destruct (Nat.ltb_spec x d); [lia|] end). f_equal. f_equal; lia.
Qed.
End Reorder.

(** the columns of the permutation are different *)
Lemma row_inj : forall d1 D2 ds, Forall (fun d => (0 < d)%nat) ds -> list_sum ds = D2 ->
  forall c c', (c < d1 * D2)%nat -> (c' < d1 * D2)%nat -> row_of d1 D2 ds 0 c = row_of d1 D2 ds 0 c' -> c = c'.
Proof.
  intros d1 D2 ds F E c c' Hc Hc' Q. set (Bs := map (fun d => (d, mid)) ds).
  assert (M : map fst Bs = ds) by (unfold Bs; rewrite map_map; cbn; apply map_id).
  assert (Sz : bsize Bs = D2).
  { subst D2. unfold Bs. clear. induction ds as [|d ds IH]; [reflexivity|]. cbn. f_equal. exact IH. }
  assert (Fb : Forall (fun b => (0 < fst b)%nat) Bs) by (unfold Bs; apply Forall_map; exact F).
  pose proof (row_bdiag d1 D2 mid Bs 0 Fb ltac:(lia) c c' ltac:(lia) ltac:(lia)) as R. rewrite M, Q in R.
  rewrite !Nat.sub_0_r in R.
  assert (Id : bdiag (krons d1 mid Bs) c c' = mid c c').
  { apply bdiag_mid; [|rewrite krons_size; lia|rewrite krons_size; lia].
    unfold krons, Bs. rewrite map_map. apply Forall_map. eapply Forall_impl; [|exact F]. intros d Hd. cbn [fst snd]. intros a b Ha Hb. exact (kron_mid d1 d a b Hd Ha Hb). }
  rewrite Id in R. pose proof (row_place d1 D2 ds 0 c' F ltac:(lia) ltac:(lia)) as [P1 P2].
  assert (Rt : bdiag Bs (row_of d1 D2 ds 0 c' mod D2)%nat (row_of d1 D2 ds 0 c' mod D2)%nat = 1).
  { unfold Bs. transitivity (mid (row_of d1 D2 ds 0 c' mod D2)%nat (row_of d1 D2 ds 0 c' mod D2)%nat); [|unfold mid; rewrite Nat.eqb_refl; reflexivity].
    apply bdiag_mid; [apply Forall_map; apply Forall_forall; intros; cbn; reflexivity| |]; fold Bs; lia. }
  rewrite Rt in R. unfold mid in R. rewrite Nat.eqb_refl in R. destruct (Nat.eqb_spec c c') as [|Ne]; [assumption|lra].
Qed.

(** the permutation is orthogonal and takes the tensor product with a direct sum to
    the direct sum of the tensor products *)
Lemma reorder : forall d1 D2 A Bs P, Forall (fun b => (0 < fst b)%nat) Bs -> bsize Bs = D2 ->
  (forall r c, (c < d1 * D2)%nat -> P r c = if Nat.eqb r (row_of d1 D2 (map fst Bs) 0 c) then 1 else 0) ->
  orthogonal (d1 * D2) P /\
  meq (d1 * D2) (d1 * D2) (mmul (d1 * D2) (kron D2 D2 A (bdiag Bs)) P) (mmul (d1 * D2) P (bdiag (krons d1 A Bs))).
Proof.
  intros d1 D2 A Bs P F E HP. set (n := (d1 * D2)%nat) in *.
  assert (Sz : list_sum (map fst Bs) = D2) by (subst D2; clear; induction Bs as [|[? ?] l IH]; [reflexivity|cbn; f_equal; exact IH]).
  assert (Fd : Forall (fun d => (0 < d)%nat) (map fst Bs)) by (apply Forall_map; exact F).
  set (row := row_of d1 D2 (map fst Bs) 0) in *.
  assert (Rw : forall c, (c < n)%nat -> (row c < n)%nat).
  { intros c Hc. destruct (row_place d1 D2 (map fst Bs) 0 c Fd ltac:(lia) ltac:(unfold n in Hc; lia)) as [H1 H2]. fold row in H1, H2.
    rewrite (Nat.div_mod (row c) D2) by lia. unfold n. nia. }
  assert (Col : forall X r c, (c < n)%nat -> mmul n X P r c = X r (row c)).
  { intros X r c Hc. unfold mmul. rewrite (sumn_single n (row c)).
    - rewrite HP by exact Hc. rewrite Nat.eqb_refl. ring.
    - apply Rw; exact Hc.
    - intros x _ Nx. rewrite HP by exact Hc. apply Nat.eqb_neq in Nx. rewrite Nx. ring. }
  assert (O : orthogonal n P).
  { apply orthogonal_columns. intros c c' Hc Hc'. rewrite Col by exact Hc'. unfold mtr. rewrite HP by exact Hc. unfold mid.
    destruct (Nat.eqb_spec (row c') (row c)) as [Q|Q]; destruct (Nat.eqb_spec c c') as [->|N]; try reflexivity.
    - exfalso. apply N. symmetry. exact (row_inj d1 D2 (map fst Bs) Fd Sz c' c Hc' Hc Q).
    - congruence. }
  split; [exact O|]. set (K := kron D2 D2 A (bdiag Bs)).
  assert (M : meq n n (bdiag (krons d1 A Bs)) (mmul n (mtr P) (mmul n K P))).
  { intros c c' Hc Hc'. rewrite (row_bdiag d1 D2 A Bs 0 F ltac:(lia) c c') by (unfold n in *; lia). fold row. rewrite !Nat.sub_0_r.
    transitivity (mmul n (mtr P) (mmul n K P) c c'); [|reflexivity].
    transitivity (sumn n (fun x => mtr P c x * K x (row c'))); [|unfold mmul at 1; apply sumn_ext; intros x _; rewrite Col by exact Hc'; reflexivity].
    rewrite (sumn_single n (row c)).
    - unfold mtr. rewrite HP by exact Hc. rewrite Nat.eqb_refl. unfold K, kron. ring.
    - apply Rw; exact Hc.
    - intros x _ Nx. unfold mtr. rewrite HP by exact Hc. apply Nat.eqb_neq in Nx. rewrite Nx. ring. }
  rewrite M. rewrite <- mmul_assoc_eq. rewrite (proj1 O), mid_l. reflexivity.
Qed.

(** a tensor product with a block diagonal first factor *)
Lemma kron_bdiag : forall D2 BB As, (0 < D2)%nat -> forall i j, (i < bsize As * D2)%nat -> (j < bsize As * D2)%nat ->
  kron D2 D2 (bdiag As) BB i j = bdiag (map (fun a => ((fst a * D2)%nat, kron D2 D2 (snd a) BB)) As) i j.
Proof.
  intros D2 BB As HD. induction As as [|[n A] As IH]; intros i j Hi Hj; cbn [bsize] in *; [lia|]. cbn [map bdiag fst snd]. unfold kron at 1. cbn [bdiag].
  assert (Lt : forall x, (x / D2 < n <-> x < n * D2)%nat).
  { intros x. split; intros H; [|apply Nat.div_lt_upper_bound; lia]. pose proof (Nat.div_mod x D2 ltac:(lia)). pose proof (Nat.mod_upper_bound x D2 ltac:(lia)). nia. }
  assert (Sh : forall x, (n * D2 <= x)%nat -> (x / D2 - n = (x - n * D2) / D2)%nat /\ (x mod D2 = (x - n * D2) mod D2)%nat).
  { intros x H. replace x with ((x - n * D2) + n * D2)%nat at 1 3 by lia. rewrite Nat.div_add, Nat.mod_add by lia. lia. }
  pose proof (Lt i). pose proof (Lt j).
  destruct (Nat.ltb_spec (i / D2) n); destruct (Nat.ltb_spec i (n * D2)); try lia;
    destruct (Nat.ltb_spec (j / D2) n); destruct (Nat.ltb_spec j (n * D2)); try lia; try ring; try reflexivity.
  destruct (Sh i ltac:(lia)) as [-> ->]. destruct (Sh j ltac:(lia)) as [-> ->]. rewrite <- IH by lia. reflexivity.
Qed.

(** block diagonal matrices that meet block by block *)
Lemma bsize_concat : forall ls, bsize (concat ls) = list_sum (map bsize ls).
Proof. induction ls as [|l ls IH]; [reflexivity|]. cbn [concat map list_sum fold_right]. rewrite bsize_app, IH. reflexivity. Qed.
(** a block: its size, the two matrices and the list of blocks they meet in *)
Definition meeting := (nat * mat * mat * list (nat * mat))%type.
Lemma bdiag_meets : forall l : list meeting,
  Forall (fun t => let '(n, K, Y, V) := t in bsize V = n /\ meq n n (mmul n K Y) (mmul n Y (bdiag V))) l ->
  let Ks := map (fun t => let '(n, K, Y, V) := t in (n, K)) l in
  let Ys := map (fun t => let '(n, K, Y, V) := t in (n, Y)) l in
  let Vs := concat (map snd l) in
  bsize Vs = bsize Ks /\ bsize Ys = bsize Ks /\ meq (bsize Ks) (bsize Ks) (mmul (bsize Ks) (bdiag Ks) (bdiag Ys)) (mmul (bsize Ks) (bdiag Ys) (bdiag Vs)).
Proof.
  intros l F. cbv zeta. set (Ks := map (fun t : meeting => let '(n, K, Y, V) := t in (n, K)) l). set (Ys := map (fun t : meeting => let '(n, K, Y, V) := t in (n, Y)) l). set (VV := map (fun v => (bsize v, bdiag v)) (map snd l)).
  assert (E1 : map fst Ks = map fst Ys) by (unfold Ks, Ys; rewrite !map_map; apply map_ext; intros [[[? ?] ?] ?]; reflexivity).
  assert (E2 : map fst Ys = map fst VV).
  { unfold Ys, VV. rewrite !map_map. clear - F. induction F as [|[[[n K] Y] V] l [H _] F IH]; [reflexivity|]. cbn. f_equal; [symmetry; exact H|exact IH]. }
  assert (Sz : forall a b : list (nat * mat), map fst a = map fst b -> bsize a = bsize b).
  { induction a as [|[? ?] a IH]; intros [|[? ?] b] E; try discriminate; [reflexivity|]. cbn in *. injection E as -> E. f_equal. apply IH; exact E. }
  assert (E3 : bsize (concat (map snd l)) = bsize VV).
  { rewrite bsize_concat. unfold VV. clear. induction (map snd l) as [|v m IH]; [reflexivity|]. cbn. f_equal. exact IH. }
  pose proof (Sz _ _ E1) as Z1. pose proof (Sz _ _ E2) as Z2.
  split; [exact (eq_trans E3 (eq_sym (eq_trans Z1 Z2)))|]. split; [exact (eq_sym Z1)|].
  change (meq (bsize Ks) (bsize Ks) (mmul (bsize Ks) (bdiag Ks) (bdiag Ys)) (mmul (bsize Ks) (bdiag Ys) (bdiag (concat (map snd l))))).
  pose proof (bdiag_mmul Ks Ys E1) as M1. pose proof (bdiag_mmul Ys VV E2) as M2.
  intros i j Hi Hj. rewrite (M1 i j Hi Hj).
  transitivity (mmul (bsize Ks) (bdiag Ys) (bdiag VV) i j); [|unfold mmul; apply sumn_ext; intros x _; unfold VV; rewrite bdiag_concat; reflexivity].
  rewrite Z1. rewrite (M2 i j ltac:(lia) ltac:(lia)).
  refine (proj1 (bdiag_ext _ _ _) i j _ _).
  - unfold Ks, Ys, VV. clear - F. induction F as [|[[[n K] Y] V] l [H1 H2] F IH]; [constructor|]. cbn [map combine fst snd]. constructor; [|exact IH]. cbn [fst snd]. split; [reflexivity|].
    exact H2.
  - assert (forall a b : list (nat * mat), map fst a = map fst b -> bsize (map (fun p => (fst (fst p), mmul (fst (fst p)) (snd (fst p)) (snd (snd p)))) (combine a b)) = bsize a) as Sc.
    { induction a as [|[? ?] a IH]; intros [|[? ?] b] E; try discriminate; [reflexivity|]. cbn in *. injection E as -> E. f_equal. apply IH; exact E. }
    rewrite (Sc _ _ E1). exact Hi.
  - assert (forall a b : list (nat * mat), map fst a = map fst b -> bsize (map (fun p => (fst (fst p), mmul (fst (fst p)) (snd (fst p)) (snd (snd p)))) (combine a b)) = bsize a) as Sc.
    { induction a as [|[? ?] a IH]; intros [|[? ?] b] E; try discriminate; [reflexivity|]. cbn in *. injection E as -> E. f_equal. apply IH; exact E. }
    rewrite (Sc _ _ E1). exact Hj.
Qed.
Lemma bdiag_orthogonal : forall l, Forall (fun p => orthogonal (fst p) (snd p)) l -> orthogonal (bsize l) (bdiag l).
Proof.
  intros l F. apply orthogonal_columns. intros i j Hi Hj.
  transitivity (mmul (bsize l) (bdiag (map (fun p => (fst p, mtr (snd p))) l)) (bdiag l) i j); [unfold mmul; apply sumn_ext; intros x _; rewrite bdiag_mtr; reflexivity|].
  assert (E : map fst (map (fun p : nat * mat => (fst p, mtr (snd p))) l) = map fst l) by (rewrite map_map; reflexivity).
  assert (Z : bsize (map (fun p : nat * mat => (fst p, mtr (snd p))) l) = bsize l) by (clear; induction l as [|[? ?] l IH]; [reflexivity|cbn; f_equal; exact IH]).
  pose proof (bdiag_mmul _ _ E) as M. rewrite Z in M. rewrite (M i j Hi Hj).
  assert (Z' : bsize (map (fun p : (nat * mat) * (nat * mat) => (fst (fst p), mmul (fst (fst p)) (snd (fst p)) (snd (snd p)))) (combine (map (fun p : nat * mat => (fst p, mtr (snd p))) l) l)) = bsize l)
    by (clear; induction l as [|[? ?] l IH]; [reflexivity|cbn; f_equal; exact IH]).
  apply bdiag_mid; [|rewrite Z'; exact Hi|rewrite Z'; exact Hj].
  clear - F. induction F as [|[n A] l H F IH]; [constructor|]. cbn [map combine fst snd]. constructor; [|exact IH]. cbn [fst snd] in *. destruct H; assumption.
Qed.
