(** Finite sums and matrices over R.  A matrix is a function of two natural
    indices; sizes are explicit and equality is pointwise inside the sizes. *)
From Coq Require Import Reals Arith List Permutation Lia Lra.
Import ListNotations.
Open Scope R_scope.

(** ** Finite sums *)

Fixpoint sumn (n : nat) (f : nat -> R) : R :=
  match n with O => 0 | S n' => sumn n' f + f n' end.

Lemma sumn_ext : forall n f g, (forall i, (i < n)%nat -> f i = g i) -> sumn n f = sumn n g.
Proof.
  induction n as [|n IH]; intros f g H; cbn; [reflexivity|].
  rewrite (IH f g), (H n); [reflexivity|lia|intros; apply H; lia].
Qed.

Lemma sumn_0 : forall n f, (forall i, (i < n)%nat -> f i = 0) -> sumn n f = 0.
Proof.
  induction n as [|n IH]; intros f H; cbn; [reflexivity|].
  rewrite IH, H by (intros; try apply H; lia); ring.
Qed.

Lemma sumn_plus : forall n f g, sumn n (fun i => f i + g i) = sumn n f + sumn n g.
Proof. induction n as [|n IH]; intros; cbn; [ring|rewrite IH; ring]. Qed.

Lemma sumn_minus : forall n f g, sumn n (fun i => f i - g i) = sumn n f - sumn n g.
Proof. induction n as [|n IH]; intros; cbn; [ring|rewrite IH; ring]. Qed.

Lemma sumn_scal_l : forall n c f, sumn n (fun i => c * f i) = c * sumn n f.
Proof. induction n as [|n IH]; intros; cbn; [ring|rewrite IH; ring]. Qed.

Lemma sumn_scal_r : forall n c f, sumn n (fun i => f i * c) = sumn n f * c.
Proof. induction n as [|n IH]; intros; cbn; [ring|rewrite IH; ring]. Qed.

Lemma sumn_opp : forall n f, sumn n (fun i => - f i) = - sumn n f.
Proof. induction n as [|n IH]; intros; cbn; [ring|rewrite IH; ring]. Qed.

Lemma sumn_const : forall n c, sumn n (fun _ => c) = INR n * c.
Proof. induction n as [|n IH]; intros; [cbn; ring|rewrite S_INR; cbn [sumn]; rewrite IH; ring]. Qed.

Lemma sumn_swap : forall n m f,
  sumn n (fun i => sumn m (fun j => f i j)) = sumn m (fun j => sumn n (fun i => f i j)).
Proof.
  induction n as [|n IH]; intros m f; cbn.
  - symmetry; apply sumn_0; reflexivity.
  - rewrite IH, <- sumn_plus; reflexivity.
Qed.

Lemma sumn_app : forall n m f, sumn (n + m) f = sumn n f + sumn m (fun i => f (n + i)%nat).
Proof.
  intros n m f; induction m as [|m IH]; cbn; [rewrite Nat.add_0_r; ring|].
  rewrite Nat.add_succ_r; cbn; rewrite IH; ring.
Qed.

Lemma sumn_S_first : forall n f, sumn (S n) f = f 0%nat + sumn n (fun i => f (S i)).
Proof. intros n f; change (S n) with (1 + n)%nat; rewrite sumn_app; cbn; ring. Qed.

(** A sum with one non-zero term. *)
Lemma sumn_single : forall n k f, (k < n)%nat ->
  (forall i, (i < n)%nat -> i <> k -> f i = 0) -> sumn n f = f k.
Proof.
  induction n as [|n IH]; intros k f Hk H; [lia|]; cbn.
  destruct (Nat.eq_dec k n) as [->|Hne].
  - rewrite sumn_0 by (intros i Hi; apply H; lia); ring.
  - rewrite (IH k), (H n) by (try lia; intros; apply H; lia); ring.
Qed.

(** Sum over a product range. *)
Lemma sumn_mul : forall n m f,
  sumn (n * m) f = sumn n (fun i => sumn m (fun j => f (i * m + j)%nat)).
Proof.
  induction n as [|n IH]; intros m f; [reflexivity|].
  cbn [sumn]; rewrite <- IH, <- sumn_app; f_equal; lia.
Qed.

Lemma sumn_nonneg : forall n f, (forall i, (i < n)%nat -> 0 <= f i) -> 0 <= sumn n f.
Proof.
  induction n as [|n IH]; intros f H; cbn; [lra|].
  pose proof (IH f ltac:(intros; apply H; lia)); pose proof (H n ltac:(lia)); lra.
Qed.

Lemma sumn_le : forall n f g, (forall i, (i < n)%nat -> f i <= g i) -> sumn n f <= sumn n g.
Proof.
  induction n as [|n IH]; intros f g H; cbn; [lra|].
  pose proof (IH f g ltac:(intros; apply H; lia)); pose proof (H n ltac:(lia)); lra.
Qed.

(** Telescoping. *)
Lemma sumn_telescope : forall n F,
  sumn n (fun i => F (S i) - F i) = F n - F 0%nat.
Proof. induction n as [|n IH]; intros F; cbn; [ring|rewrite IH; ring]. Qed.

(** Reindexing along a permutation of the range. *)
Lemma sumn_list : forall n f, sumn n f = fold_right Rplus 0 (map f (seq 0 n)).
Proof.
  intros n f.
  assert (G : forall l c, fold_right Rplus c l = fold_right Rplus 0 l + c).
  { induction l as [|x l IH]; intros c; cbn; [ring|rewrite IH; ring]. }
  induction n as [|n IH]; [reflexivity|].
  rewrite seq_S, map_app, fold_right_app; cbn [sumn map fold_right Nat.add].
  rewrite G, <- IH; ring.
Qed.

Lemma fold_right_Rplus_perm : forall l m, Permutation l m ->
  fold_right Rplus 0 l = fold_right Rplus 0 m.
Proof.
  intros l m H; induction H; cbn; try reflexivity.
  - rewrite IHPermutation; reflexivity.
  - ring.
  - etransitivity; eassumption.
Qed.

Lemma sumn_bij : forall n (s : nat -> nat) f,
  (forall i, (i < n)%nat -> (s i < n)%nat) ->
  (forall i j, (i < n)%nat -> (j < n)%nat -> s i = s j -> i = j) ->
  sumn n (fun i => f (s i)) = sumn n f.
Proof.
  intros n s f Hr Hi; rewrite !sumn_list.
  rewrite <- (map_map s f).
  apply fold_right_Rplus_perm, Permutation_map.
  apply NoDup_Permutation_bis.
  - assert (K : forall l, NoDup l -> (forall x, In x l -> (x < n)%nat) -> NoDup (map s l)).
    { induction 1 as [|x l Hx Hl IH]; intros B; cbn; constructor.
      - rewrite in_map_iff; intros (y & E & Hy).
        assert (y = x) by (apply Hi; [apply B; right; exact Hy|apply B; left; reflexivity|exact E]).
        subst; auto.
      - apply IH; intros; apply B; right; assumption. }
    apply K; [apply seq_NoDup|]; intros x Hx; apply in_seq in Hx; lia.
  - rewrite map_length, seq_length; lia.
  - intros x Hx; apply in_map_iff in Hx as (y & <- & Hy); apply in_seq in Hy.
    apply in_seq; pose proof (Hr y ltac:(lia)); lia.
Qed.

(** ** Matrices *)

Definition mat := nat -> nat -> R.

(** Equality of two r x c matrices. *)
Definition meq (r c : nat) (A B : mat) : Prop :=
  forall i j, (i < r)%nat -> (j < c)%nat -> A i j = B i j.

Definition mid : mat := fun i j => if Nat.eqb i j then 1 else 0.
Definition mzero : mat := fun _ _ => 0.
Definition mtr (A : mat) : mat := fun i j => A j i.
(** product of an r x k and a k x c matrix *)
Definition mmul (k : nat) (A B : mat) : mat := fun i j => sumn k (fun l => A i l * B l j).
Definition madd (A B : mat) : mat := fun i j => A i j + B i j.
Definition msub (A B : mat) : mat := fun i j => A i j - B i j.
Definition mopp (A : mat) : mat := fun i j => - A i j.
Definition mscal (c : R) (A : mat) : mat := fun i j => c * A i j.
Definition trace (n : nat) (A : mat) : R := sumn n (fun i => A i i).
(** matrix-vector product *)
Definition mvec (k : nat) (A : mat) (v : nat -> R) : nat -> R :=
  fun i => sumn k (fun l => A i l * v l).
(** Kronecker product with a p x q second factor *)
Definition kron (p q : nat) (A B : mat) : mat :=
  fun i j => A (i / p)%nat (j / q)%nat * B (i mod p)%nat (j mod q)%nat.

Lemma meq_refl : forall r c A, meq r c A A.
Proof. intros r c A i j _ _; reflexivity. Qed.
Lemma meq_sym : forall r c A B, meq r c A B -> meq r c B A.
Proof. intros r c A B H i j Hi Hj; symmetry; apply H; assumption. Qed.
Lemma meq_trans : forall r c A B C, meq r c A B -> meq r c B C -> meq r c A C.
Proof. intros r c A B C H K i j Hi Hj; rewrite H, K; auto. Qed.

Lemma mmul_ext : forall r k c A A' B B', meq r k A A' -> meq k c B B' ->
  meq r c (mmul k A B) (mmul k A' B').
Proof.
  intros r k c A A' B B' HA HB i j Hi Hj; unfold mmul; apply sumn_ext; intros l Hl.
  rewrite HA, HB; auto.
Qed.

Lemma mmul_assoc : forall k l A B C i j,
  mmul l (mmul k A B) C i j = mmul k A (mmul l B C) i j.
Proof.
  intros k l A B C i j; unfold mmul.
  transitivity (sumn l (fun x => sumn k (fun y => A i y * B y x * C x j))).
  - apply sumn_ext; intros x _; rewrite <- sumn_scal_r; reflexivity.
  - rewrite sumn_swap; apply sumn_ext; intros y _.
    rewrite <- sumn_scal_l; apply sumn_ext; intros x _; ring.
Qed.

Lemma mmul_assoc_eq : forall r k l c A B C,
  meq r c (mmul l (mmul k A B) C) (mmul k A (mmul l B C)).
Proof. intros r k l c A B C i j _ _; apply mmul_assoc. Qed.

Lemma mid_l : forall n c A, meq n c (mmul n mid A) A.
Proof.
  intros n c A i j Hi Hj; unfold mmul, mid.
  rewrite (sumn_single n i).
  - rewrite Nat.eqb_refl; ring.
  - exact Hi.
  - intros k _ Hk; apply Nat.eqb_neq in Hk; rewrite Nat.eqb_sym, Hk; ring.
Qed.

Lemma mid_r : forall n r A, meq r n (mmul n A mid) A.
Proof.
  intros n c A i j Hi Hj; unfold mmul, mid.
  rewrite (sumn_single n j).
  - rewrite Nat.eqb_refl; ring.
  - exact Hj.
  - intros k _ Hk; apply Nat.eqb_neq in Hk; rewrite Hk; ring.
Qed.

Lemma mtr_mmul : forall k A B i j, mtr (mmul k A B) i j = mmul k (mtr B) (mtr A) i j.
Proof. intros k A B i j; unfold mtr, mmul; apply sumn_ext; intros; ring. Qed.

Lemma mtr_mtr : forall A i j, mtr (mtr A) i j = A i j.
Proof. reflexivity. Qed.

Lemma mtr_ext : forall r c A B, meq r c A B -> meq c r (mtr A) (mtr B).
Proof. intros r c A B H i j Hi Hj; apply H; assumption. Qed.

Lemma mtr_mid : forall i j, mtr mid i j = mid i j.
Proof. intros i j; unfold mtr, mid; rewrite Nat.eqb_sym; reflexivity. Qed.

Lemma trace_ext : forall n A B, meq n n A B -> trace n A = trace n B.
Proof. intros n A B H; apply sumn_ext; intros i Hi; apply H; assumption. Qed.

Lemma trace_mmul_comm : forall n k A B, trace n (mmul k A B) = trace k (mmul n B A).
Proof.
  intros n k A B; unfold trace, mmul; rewrite sumn_swap.
  apply sumn_ext; intros; apply sumn_ext; intros; ring.
Qed.

Lemma mmul_madd_l : forall k A B C i j,
  mmul k (madd A B) C i j = mmul k A C i j + mmul k B C i j.
Proof. intros; unfold mmul, madd; rewrite <- sumn_plus; apply sumn_ext; intros; ring. Qed.

Lemma mmul_madd_r : forall k A B C i j,
  mmul k A (madd B C) i j = mmul k A B i j + mmul k A C i j.
Proof. intros; unfold mmul, madd; rewrite <- sumn_plus; apply sumn_ext; intros; ring. Qed.

Lemma mmul_mscal_l : forall k c A B i j, mmul k (mscal c A) B i j = c * mmul k A B i j.
Proof. intros; unfold mmul, mscal; rewrite <- sumn_scal_l; apply sumn_ext; intros; ring. Qed.

Lemma mmul_mscal_r : forall k c A B i j, mmul k A (mscal c B) i j = c * mmul k A B i j.
Proof. intros; unfold mmul, mscal; rewrite <- sumn_scal_l; apply sumn_ext; intros; ring. Qed.

Lemma mvec_mmul : forall k l A B v i, mvec l (mmul k A B) v i = mvec k A (mvec l B v) i.
Proof.
  intros k l A B v i; unfold mvec, mmul.
  transitivity (sumn l (fun x => sumn k (fun y => A i y * B y x * v x))).
  - apply sumn_ext; intros; rewrite <- sumn_scal_r; reflexivity.
  - rewrite sumn_swap; apply sumn_ext; intros; rewrite <- sumn_scal_l.
    apply sumn_ext; intros; ring.
Qed.

Lemma mvec_ext : forall r k A A' v v', meq r k A A' -> (forall i, (i < k)%nat -> v i = v' i) ->
  forall i, (i < r)%nat -> mvec k A v i = mvec k A' v' i.
Proof. intros r k A A' v v' HA Hv i Hi; apply sumn_ext; intros; rewrite HA, Hv; auto. Qed.

Lemma mvec_mid : forall n v i, (i < n)%nat -> mvec n mid v i = v i.
Proof.
  intros n v i Hi; unfold mvec; rewrite (sumn_single n i).
  - unfold mid; rewrite Nat.eqb_refl; ring.
  - exact Hi.
  - intros l _ Hl; unfold mid; apply Nat.eqb_neq in Hl; rewrite Nat.eqb_sym, Hl; ring.
Qed.

(** Mixed product property of the Kronecker product. *)
Lemma kron_mmul : forall k p q l A B C D i j, (0 < q)%nat ->
  mmul (k * q) (kron p q A B) (kron q l C D) i j =
  kron p l (mmul k A C) (mmul q B D) i j.
Proof.
  intros k p q l A B C D i j Hq; unfold mmul, kron; rewrite sumn_mul.
  transitivity (sumn k (fun x => sumn q (fun y =>
    (A (i / p)%nat x * C x (j / l)%nat) * (B (i mod p)%nat y * D y (j mod l)%nat)))).
  - apply sumn_ext; intros x Hx; apply sumn_ext; intros y Hy.
    replace ((x * q + y) / q)%nat with x
      by (rewrite Nat.add_comm, Nat.div_add by lia; rewrite Nat.div_small by lia; lia).
    replace ((x * q + y) mod q)%nat with y
      by (rewrite Nat.add_comm, Nat.mod_add by lia; rewrite Nat.mod_small by lia; lia).
    ring.
  - rewrite <- sumn_scal_r; apply sumn_ext; intros; rewrite <- sumn_scal_l; reflexivity.
Qed.

Lemma kron_ext : forall a b p q A A' B B', (0 < p)%nat -> (0 < q)%nat ->
  meq a b A A' -> meq p q B B' -> meq (a * p) (b * q) (kron p q A B) (kron p q A' B').
Proof.
  intros a b p q A A' B B' Hp Hq HA HB i j Hi Hj; unfold kron; rewrite HA, HB; try reflexivity.
  - apply Nat.mod_upper_bound; lia.
  - apply Nat.mod_upper_bound; lia.
  - apply Nat.div_lt_upper_bound; lia.
  - apply Nat.div_lt_upper_bound; lia.
Qed.

Lemma kron_mid : forall a p i j, (0 < p)%nat -> (i < a * p)%nat -> (j < a * p)%nat ->
  kron p p mid mid i j = mid i j.
Proof.
  intros a p i j Hp Hi Hj; unfold kron, mid.
  destruct (Nat.eqb_spec i j) as [->|Hne]; [rewrite !Nat.eqb_refl; ring|].
  destruct (Nat.eqb_spec (i / p) (j / p)) as [E|]; [|ring].
  destruct (Nat.eqb_spec (i mod p) (j mod p)) as [F|]; [|ring].
  exfalso; apply Hne; rewrite (Nat.div_mod i p), (Nat.div_mod j p) by lia; rewrite E, F; reflexivity.
Qed.

(** ** Block diagonal matrices *)

Fixpoint bsize (l : list (nat * mat)) : nat :=
  match l with [] => 0 | (n, _) :: l' => n + bsize l' end.

Fixpoint bdiag (l : list (nat * mat)) : mat :=
  match l with
  | [] => mzero
  | (n, A) :: l' => fun i j =>
      if Nat.ltb i n then (if Nat.ltb j n then A i j else 0%R)
      else if Nat.ltb j n then 0%R else bdiag l' (i - n) (j - n)
  end%nat.

Lemma bdiag_mmul : forall l m,
  map fst l = map fst m ->
  meq (bsize l) (bsize l) (mmul (bsize l) (bdiag l) (bdiag m))
    (bdiag (map (fun p => (fst (fst p), mmul (fst (fst p)) (snd (fst p)) (snd (snd p)))) (combine l m))).
Proof.
  induction l as [|[n A] l IH]; intros [|[n' B] m] E; try discriminate E.
  - intros i j Hi; cbn in Hi; lia.
  - cbn [map fst] in E; injection E as <- E; intros i j Hi Hj.
    cbn [bsize] in *; unfold mmul at 1; rewrite sumn_app.
    cbn [combine map fst snd bdiag].
    destruct (Nat.ltb_spec i n) as [Hin|Hin].
    + rewrite (sumn_0 (bsize l)).
      2:{ intros k _; rewrite (proj2 (Nat.ltb_ge (n + k) n)) by lia; ring. }
      destruct (Nat.ltb_spec j n) as [Hjn|Hjn].
      * rewrite Rplus_0_r; apply sumn_ext; intros k Hk.
        rewrite (proj2 (Nat.ltb_lt k n)) by lia; reflexivity.
      * rewrite sumn_0; [ring|]; intros k Hk.
        rewrite (proj2 (Nat.ltb_lt k n)) by lia; ring.
    + rewrite (sumn_0 n).
      2:{ intros k Hk; rewrite (proj2 (Nat.ltb_lt k n)) by lia; ring. }
      destruct (Nat.ltb_spec j n) as [Hjn|Hjn].
      * rewrite Rplus_0_l; apply sumn_0; intros k _.
        rewrite (proj2 (Nat.ltb_ge (n + k) n)) by lia; ring.
      * rewrite Rplus_0_l, <- (IH m E) by lia; apply sumn_ext; intros k _.
        rewrite (proj2 (Nat.ltb_ge (n + k) n)) by lia.
        replace (n + k - n)%nat with k by lia; reflexivity.
Qed.

Lemma bdiag_ext : forall l m,
  Forall2 (fun p q => fst p = fst q /\ meq (fst p) (fst p) (snd p) (snd q)) l m ->
  meq (bsize l) (bsize l) (bdiag l) (bdiag m) /\ bsize l = bsize m.
Proof.
  induction 1 as [|[n A] [n' B] l m [E H] _ [IH IHs]]; [split; [intros i j Hi; cbn in Hi; lia|reflexivity]|].
  cbn [fst snd] in *; subst n'; split; [|cbn; lia].
  intros i j Hi Hj; cbn [bdiag bsize] in *.
  destruct (Nat.ltb_spec i n), (Nat.ltb_spec j n); try reflexivity; [apply H; lia|apply IH; lia].
Qed.

Lemma bdiag_mid : forall l,
  Forall (fun p => meq (fst p) (fst p) (snd p) mid) l ->
  meq (bsize l) (bsize l) (bdiag l) mid.
Proof.
  induction 1 as [|[n A] l H _ IH]; intros i j Hi Hj; cbn [bsize bdiag fst snd] in *; [lia|].
  destruct (Nat.ltb_spec i n) as [Hin|Hin], (Nat.ltb_spec j n) as [Hjn|Hjn].
  - apply H; lia.
  - unfold mid; destruct (Nat.eqb_spec i j); [lia|reflexivity].
  - unfold mid; destruct (Nat.eqb_spec i j); [lia|reflexivity].
  - rewrite IH by lia; unfold mid.
    destruct (Nat.eqb_spec (i - n) (j - n)), (Nat.eqb_spec i j); try lia; reflexivity.
Qed.

Lemma bdiag_mtr : forall l i j,
  mtr (bdiag l) i j = bdiag (map (fun p => (fst p, mtr (snd p))) l) i j.
Proof.
  unfold mtr; induction l as [|[n A] l IH]; intros i j; [reflexivity|]; cbn [map bdiag fst snd].
  destruct (Nat.ltb i n), (Nat.ltb j n); try reflexivity; apply IH.
Qed.

Lemma bsize_app : forall l m, bsize (l ++ m) = (bsize l + bsize m)%nat.
Proof. induction l as [|[n A] l IH]; intros m; cbn; [reflexivity|rewrite IH; lia]. Qed.

Lemma bdiag_trace : forall l, trace (bsize l) (bdiag l) =
  fold_right Rplus 0 (map (fun p => trace (fst p) (snd p)) l).
Proof.
  induction l as [|[n A] l IH]; [reflexivity|].
  unfold trace in *; cbn [bsize map fold_right fst snd]; rewrite sumn_app, <- IH.
  f_equal; apply sumn_ext; intros i Hi; cbn [bdiag].
  - rewrite (proj2 (Nat.ltb_lt i n)) by lia; reflexivity.
  - rewrite (proj2 (Nat.ltb_ge (n + i) n)) by lia; replace (n + i - n)%nat with i by lia; reflexivity.
Qed.

(** ** Orthogonal matrices and conjugation *)

Definition orthogonal (n : nat) (A : mat) : Prop :=
  meq n n (mmul n A (mtr A)) mid /\ meq n n (mmul n (mtr A) A) mid.

(** [B] is the two-sided inverse of [A]. *)
Definition inverse_of (n : nat) (A B : mat) : Prop :=
  meq n n (mmul n A B) mid /\ meq n n (mmul n B A) mid.

Lemma inverse_unique : forall n A B C, inverse_of n A B -> inverse_of n A C -> meq n n B C.
Proof.
  intros n A B C [_ HB] [HC _].
  apply meq_trans with (mmul n B (mmul n A C)).
  - apply meq_sym; eapply meq_trans; [apply mmul_ext; [apply meq_refl|exact HC]|apply mid_r].
  - eapply meq_trans; [apply meq_sym, mmul_assoc_eq|].
    eapply meq_trans; [apply mmul_ext; [exact HB|apply meq_refl]|apply mid_l].
Qed.
