(** Rewriting with equality of matrices of a given shape, and more algebra. *)
From Coq Require Import Reals List Lia Lra Setoid Morphisms Arith.
From Verif Require Import LibMat.
Import ListNotations.
Open Scope R_scope.

#[global] Instance meq_equiv r c : Equivalence (meq r c).
Proof.
  split; [intros A; apply meq_refl|intros A B; apply meq_sym|intros A B C; apply meq_trans].
Qed.

#[global] Instance mmul_proper r k c : Proper (meq r k ==> meq k c ==> meq r c) (mmul k).
Proof. intros A A' HA B B' HB; apply mmul_ext; assumption. Qed.

#[global] Instance mtr_proper r c : Proper (meq r c ==> meq c r) mtr.
Proof. intros A B H; apply mtr_ext; exact H. Qed.

#[global] Instance madd_proper r c : Proper (meq r c ==> meq r c ==> meq r c) madd.
Proof. intros A A' HA B B' HB i j Hi Hj; unfold madd; rewrite HA, HB by assumption; reflexivity. Qed.

#[global] Instance mscal_proper r c a : Proper (meq r c ==> meq r c) (mscal a).
Proof. intros A A' HA i j Hi Hj; unfold mscal; rewrite HA by assumption; reflexivity. Qed.

#[global] Instance trace_proper n : Proper (meq n n ==> eq) (trace n).
Proof. intros A B H; apply trace_ext; exact H. Qed.

Lemma mul_assoc : forall r k l c A B C,
  meq r c (mmul l (mmul k A B) C) (mmul k A (mmul l B C)).
Proof. intros; apply mmul_assoc_eq. Qed.

Lemma mul_tr : forall r k c A B, meq r c (mtr (mmul k A B)) (mmul k (mtr B) (mtr A)).
Proof. intros r k c A B i j _ _; apply mtr_mmul. Qed.

Lemma tr_tr : forall r c A, meq r c (mtr (mtr A)) A.
Proof. intros r c A i j _ _; reflexivity. Qed.

Lemma tr_mid : forall r c, meq r c (mtr mid) mid.
Proof. intros r c i j _ _; apply mtr_mid. Qed.

Lemma inverse_of_sym : forall n A B, inverse_of n A B -> inverse_of n B A.
Proof. intros n A B [H K]; split; assumption. Qed.

Lemma inverse_of_mid : forall n, inverse_of n mid mid.
Proof. intros n; split; apply mid_l. Qed.

Lemma inverse_of_mul : forall n A A' B B', inverse_of n A A' -> inverse_of n B B' ->
  inverse_of n (mmul n A B) (mmul n B' A').
Proof.
  intros n A A' B B' [H1 H2] [K1 K2]; split.
  - rewrite mul_assoc, <- (mul_assoc n n n n B), K1, mid_l; exact H1.
  - rewrite mul_assoc, <- (mul_assoc n n n n A'), H2, mid_l; exact K2.
Qed.

Lemma inverse_of_ext : forall n A A' B B', meq n n A A' -> meq n n B B' ->
  inverse_of n A B -> inverse_of n A' B'.
Proof. intros n A A' B B' HA HB [H K]; split; rewrite <- HA, <- HB; assumption. Qed.

Lemma orthogonal_inverse : forall n A, orthogonal n A <-> inverse_of n A (mtr A).
Proof. intros n A; reflexivity. Qed.

(** conjugation *)
Lemma conj_mul : forall n Q P A B, inverse_of n Q P ->
  meq n n (mmul n (mmul n (mmul n Q A) P) (mmul n (mmul n Q B) P)) (mmul n (mmul n Q (mmul n A B)) P).
Proof.
  intros n Q P A B [_ K].
  rewrite !mul_assoc, <- (mul_assoc n n n n P Q), K, mid_l; reflexivity.
Qed.

Lemma conj_mid : forall n Q P, inverse_of n Q P -> meq n n (mmul n (mmul n Q mid) P) mid.
Proof. intros n Q P [K _]; rewrite mid_r; exact K. Qed.

Lemma conj_trace : forall n Q P A, inverse_of n Q P -> trace n (mmul n (mmul n Q A) P) = trace n A.
Proof.
  intros n Q P A [_ K]; rewrite trace_mmul_comm; apply trace_ext; rewrite <- mul_assoc, K, mid_l; reflexivity.
Qed.

Lemma conj_comp : forall n Q Qi P Pi A,
  meq n n (mmul n (mmul n Q (mmul n (mmul n P A) Pi)) Qi) (mmul n (mmul n (mmul n Q P) A) (mmul n Pi Qi)).
Proof. intros; rewrite !mul_assoc; reflexivity. Qed.

(** block diagonal matrices *)
Lemma bdiag_app_mid : forall l, Forall (fun p => meq (fst p) (fst p) (snd p) mid) l ->
  meq (bsize l) (bsize l) (bdiag l) mid.
Proof. intros l H; apply bdiag_mid; exact H. Qed.

Lemma bdiag_app : forall l m i j, bdiag (l ++ m) i j =
  (if Nat.ltb i (bsize l) then (if Nat.ltb j (bsize l) then bdiag l i j else 0)
   else if Nat.ltb j (bsize l) then 0 else bdiag m (i - bsize l)%nat (j - bsize l)%nat).
Proof.
  induction l as [|[n A] l IH]; intros m i j; cbn [app bsize bdiag].
  - rewrite !Nat.sub_0_r; reflexivity.
  - destruct (Nat.ltb_spec i n), (Nat.ltb_spec j n).
    + rewrite !(proj2 (Nat.ltb_lt _ _)) by lia; reflexivity.
    + rewrite (proj2 (Nat.ltb_lt i _)) by lia; destruct (Nat.ltb j _); reflexivity.
    + rewrite (proj2 (Nat.ltb_lt j (n + _))) by lia; destruct (Nat.ltb i _); reflexivity.
    + rewrite IH; destruct (Nat.ltb_spec (i - n) (bsize l)), (Nat.ltb_spec (j - n) (bsize l)),
        (Nat.ltb_spec i (n + bsize l)), (Nat.ltb_spec j (n + bsize l)); try lia; try reflexivity.
      f_equal; lia.
Qed.

Lemma bsize_concat : forall ll, bsize (concat ll) = bsize (map (fun l => (bsize l, bdiag l)) ll).
Proof. induction ll as [|l ll IH]; cbn; [reflexivity|]; rewrite bsize_app, IH; reflexivity. Qed.

Lemma bdiag_concat : forall ll i j, bdiag (concat ll) i j = bdiag (map (fun l => (bsize l, bdiag l)) ll) i j.
Proof.
  induction ll as [|l ll IH]; intros i j; cbn [concat map bdiag]; [reflexivity|].
  rewrite bdiag_app, IH; reflexivity.
Qed.

Lemma bsize_map : forall l, bsize l = list_sum (map fst l).
Proof. induction l as [|[n A] l IH]; cbn; [reflexivity|]; rewrite IH; reflexivity. Qed.

(** Pointwise product of two lists of blocks of the same shape. *)
Lemma bdiag_mul2 : forall {A} (l : list A) (n : A -> nat) (X Y : A -> mat),
  let b Z := map (fun a => (n a, Z a)) l in
  meq (bsize (b X)) (bsize (b X)) (mmul (bsize (b X)) (bdiag (b X)) (bdiag (b Y)))
    (bdiag (b (fun a => mmul (n a) (X a) (Y a)))).
Proof.
  intros A l n X Y b.
  assert (E : map fst (b X) = map fst (b Y)) by (unfold b; rewrite !map_map; reflexivity).
  rewrite (bdiag_mmul _ _ E).
  assert (C : forall l, map (fun p => (fst (fst p), mmul (fst (fst p)) (snd (fst p)) (snd (snd p))))
     (combine (map (fun a => (n a, X a)) l) (map (fun a => (n a, Y a)) l)) =
     map (fun a => (n a, mmul (n a) (X a) (Y a))) l).
  { clear; induction l as [|a l IH]; cbn; [reflexivity|]; rewrite IH; reflexivity. }
  unfold b; rewrite C; reflexivity.
Qed.

Lemma bdiag_inverse : forall {A} (l : list A) (n : A -> nat) (X Y : A -> mat),
  (forall a, In a l -> inverse_of (n a) (X a) (Y a)) ->
  inverse_of (list_sum (map n l)) (bdiag (map (fun a => (n a, X a)) l)) (bdiag (map (fun a => (n a, Y a)) l)).
Proof.
  intros A l n X Y H.
  assert (S : forall Z : A -> mat, bsize (map (fun a => (n a, Z a)) l) = list_sum (map n l)).
  { intros Z; rewrite bsize_map, map_map; reflexivity. }
  split.
  - rewrite <- (S X), bdiag_mul2, (S X), <- (S (fun a => mmul (n a) (X a) (Y a))); apply bdiag_mid.
    apply Forall_map, Forall_forall; intros a Ha; apply (H a Ha).
  - rewrite <- (S Y), bdiag_mul2, (S Y), <- (S (fun a => mmul (n a) (Y a) (X a))); apply bdiag_mid.
    apply Forall_map, Forall_forall; intros a Ha; apply (H a Ha).
Qed.

(** A square matrix with orthonormal rows is orthogonal: the symmetric
    idempotent 1 - A^T A has trace 0. *)
Lemma sumn_zero_inv : forall n f, (forall i, (i < n)%nat -> 0 <= f i) -> sumn n f = 0 ->
  forall i, (i < n)%nat -> f i = 0.
Proof.
  induction n as [|n IH]; intros f H E i Hi; [lia|]; cbn [sumn] in E.
  assert (P : 0 <= sumn n f) by (apply sumn_nonneg; intros; apply H; lia).
  pose proof (H n ltac:(lia)).
  destruct (Nat.eq_dec i n) as [->|]; [lra|apply IH; [intros; apply H; lia|lra|lia]].
Qed.

Lemma rows_orthogonal : forall n A, meq n n (mmul n A (mtr A)) mid -> orthogonal n A.
Proof.
  intros n A H; split; [exact H|].
  set (P := mmul n (mtr A) A).
  assert (PP : meq n n (mmul n P P) P).
  { unfold P; rewrite mul_assoc, <- (mul_assoc n n n n A), H, mid_l; reflexivity. }
  assert (PT : forall i j, P i j = P j i).
  { intros i j; unfold P, mmul, mtr; apply sumn_ext; intros; ring. }
  assert (TP : trace n P = INR n).
  { unfold P; rewrite trace_mmul_comm, (trace_ext n _ mid H); unfold trace, mid.
    rewrite (sumn_ext n _ (fun _ => 1)) by (intros i _; rewrite Nat.eqb_refl; reflexivity).
    rewrite sumn_const; ring. }
  set (D := fun i j => mid i j - P i j).
  assert (S : sumn n (fun i => sumn n (fun j => D i j * D i j)) = 0).
  { transitivity (sumn n (fun i => D i i)).
    - apply sumn_ext; intros i Hi; unfold D.
      rewrite (sumn_ext n _ (fun j => (mid i j * mid i j - mid i j * P i j) - (mid i j * P i j - P i j * P j i)))
        by (intros j Hj; rewrite (PT j i); ring).
      rewrite !sumn_minus.
      assert (E1 : sumn n (fun j => mid i j * mid i j) = mid i i).
      { rewrite (sumn_single n i) by (auto; intros j Hj Hij; unfold mid; destruct (Nat.eqb_spec i j); (congruence || ring)).
        unfold mid; rewrite Nat.eqb_refl; ring. }
      assert (E2 : sumn n (fun j => mid i j * P i j) = P i i).
      { rewrite (sumn_single n i) by (auto; intros j Hj Hij; unfold mid; destruct (Nat.eqb_spec i j); (congruence || ring)).
        unfold mid; rewrite Nat.eqb_refl; ring. }
      assert (E3 : sumn n (fun j => P i j * P j i) = P i i) by exact (PP i i Hi Hi).
      rewrite E1, E2, E3; ring.
    - unfold D; rewrite sumn_minus; change (sumn n (fun i => P i i)) with (trace n P); rewrite TP.
      rewrite (sumn_ext n _ (fun _ => 1)) by (intros i _; unfold mid; rewrite Nat.eqb_refl; reflexivity).
      rewrite sumn_const; ring. }
  intros i j Hi Hj.
  assert (Z : sumn n (fun j => D i j * D i j) = 0).
  { apply (sumn_zero_inv n (fun i => sumn n (fun j => D i j * D i j))); auto.
    intros k _; apply sumn_nonneg; intros l _; apply Rle_0_sqr. }
  assert (Z2 : D i j * D i j = 0).
  { apply (sumn_zero_inv n (fun j => D i j * D i j)); auto; intros l _; apply Rle_0_sqr. }
  apply Rsqr_0_uniq in Z2; unfold D in Z2; lra.
Qed.
