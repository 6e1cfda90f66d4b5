(** Tensor products of realified matrices and their restrictions to the factors. *)
From Coq Require Import Reals ZArith List Lia Lra Bool Arith.
From Verif Require Import LibRes LibMat LibMatS SpecRep ProdModel SpecProd ParamModel PlanarModel ProdIrrepModel SpecProdIrrep.
Import ListNotations.
Open Scope R_scope.

Notation I2 := (mid : mat).
Notation J2 := (mat2 0 (-1) 1 0).

(** ** Indices *)
Lemma split_index : forall a b r, (r < a * b)%nat -> exists x y, (x < a)%nat /\ (y < b)%nat /\ r = (x * b + y)%nat.
Proof.
  intros a b r H; assert (b <> 0)%nat by (intros ->; lia).
  exists (r / b)%nat, (r mod b)%nat; split; [apply Nat.div_lt_upper_bound; lia|split; [apply Nat.mod_upper_bound; assumption|]].
  pose proof (Nat.div_mod r b ltac:(assumption)); lia.
Qed.

Lemma div_index : forall b x y, (y < b)%nat -> ((x * b + y) / b = x)%nat.
Proof. intros b x y H; rewrite Nat.add_comm, Nat.div_add by lia; rewrite Nat.div_small by lia; lia. Qed.

Lemma mod_index : forall b x y, (y < b)%nat -> ((x * b + y) mod b = y)%nat.
Proof. intros b x y H; rewrite Nat.add_comm, Nat.mod_add by lia; apply Nat.mod_small; exact H. Qed.

Lemma index_lt : forall a b x y, (x < a)%nat -> (y < b)%nat -> (x * b + y < a * b)%nat.
Proof. intros a b x y Hx Hy; nia. Qed.

Lemma index_inj : forall b x y x' y', (y < b)%nat -> (y' < b)%nat -> (x * b + y = x' * b + y')%nat -> x = x' /\ y = y'.
Proof.
  intros b x y x' y' Hy Hy' E; split.
  - rewrite <- (div_index b x y), <- (div_index b x' y'), E by assumption; reflexivity.
  - rewrite <- (mod_index b x y), <- (mod_index b x' y'), E by assumption; reflexivity.
Qed.

Lemma kron_at : forall p q A B x y x' y', (y < p)%nat -> (y' < q)%nat ->
  kron p q A B (x * p + y)%nat (x' * q + y')%nat = A x x' * B y y'.
Proof. intros p q A B x y x' y' H H'; unfold kron; rewrite !div_index, !mod_index by assumption; reflexivity. Qed.

Lemma mid_at : forall b x y x' y', (y < b)%nat -> (y' < b)%nat ->
  mid (x * b + y)%nat (x' * b + y')%nat = mid x x' * mid y y'.
Proof.
  intros b x y x' y' H H'; unfold mid.
  destruct (Nat.eqb_spec (x * b + y) (x' * b + y')) as [E|E].
  - apply index_inj in E as [-> ->]; try assumption; rewrite !Nat.eqb_refl; ring.
  - destruct (Nat.eqb_spec x x') as [->|]; [|ring].
    destruct (Nat.eqb_spec y y') as [->|]; [congruence|ring].
Qed.

(** ** fill *)
Lemma fill_at : forall h re im e e' r r', (e < 2)%nat -> (e' < 2)%nat -> (r < h)%nat -> (r' < h)%nat ->
  fill h re im (e * h + r)%nat (e' * h + r')%nat = mid e e' * re r r' + J2 e e' * im r r'.
Proof.
  intros h re im e e' r r' He He' Hr Hr'; unfold fill, mid, mat2.
  destruct e as [|[|e]], e' as [|[|e']]; try lia; cbn [Nat.mul Nat.add Nat.eqb].
  - rewrite !(proj2 (Nat.ltb_lt _ _)) by assumption; ring.
  - rewrite (proj2 (Nat.ltb_lt _ _) Hr), (proj2 (Nat.ltb_ge _ _)) by lia.
    replace (h + 0 + r' - h)%nat with r' by lia; ring.
  - rewrite (proj2 (Nat.ltb_lt _ _) Hr'), (proj2 (Nat.ltb_ge _ _)) by lia.
    replace (h + 0 + r - h)%nat with r by lia; ring.
  - rewrite !(proj2 (Nat.ltb_ge _ _)) by lia.
    replace (h + 0 + r - h)%nat with r by lia; replace (h + 0 + r' - h)%nat with r' by lia; ring.
Qed.

Lemma fill_meq : forall h A re im, (forall e e' r r', (e < 2)%nat -> (e' < 2)%nat -> (r < h)%nat -> (r' < h)%nat ->
    A (e * h + r)%nat (e' * h + r')%nat = mid e e' * re r r' + J2 e e' * im r r') ->
  meq (2 * h) (2 * h) A (fill h re im).
Proof.
  intros h A re im H i j Hi Hj; apply split_index in Hi as (e & r & He & Hr & ->); apply split_index in Hj as (e' & r' & He' & Hr' & ->).
  rewrite H, fill_at by assumption; reflexivity.
Qed.

Lemma fill_ext : forall h re im re' im', meq h h re re' -> meq h h im im' ->
  meq (2 * h) (2 * h) (fill h re im) (fill h re' im').
Proof. intros h re im re' im' E F; apply fill_meq; intros; rewrite fill_at, E, F by assumption; reflexivity. Qed.

Lemma fill_mul : forall h re im re' im',
  meq (2 * h) (2 * h) (mmul (2 * h) (fill h re im) (fill h re' im'))
    (fill h (msub (mmul h re re') (mmul h im im')) (madd (mmul h re im') (mmul h im re'))).
Proof.
  intros h re im re' im'; apply fill_meq; intros e e' r r' He He' Hr Hr'.
  unfold mmul at 1; rewrite sumn_mul; cbn [sumn].
  rewrite (sumn_ext h _ (fun y => (mid e 0%nat * re r y + J2 e 0%nat * im r y) * (mid 0%nat e' * re' y r' + J2 0%nat e' * im' y r')))
    by (intros y Hy; rewrite !fill_at by (assumption || lia); reflexivity).
  rewrite (sumn_ext h (fun y => fill h re im (e * h + r)%nat (1 * h + y)%nat * _)
    (fun y => (mid e 1%nat * re r y + J2 e 1%nat * im r y) * (mid 1%nat e' * re' y r' + J2 1%nat e' * im' y r')))
    by (intros y Hy; rewrite !fill_at by (assumption || lia); reflexivity).
  unfold msub, madd, mmul.
  destruct e as [|[|e]], e' as [|[|e']]; try lia; unfold mid, mat2; cbn [Nat.eqb];
    rewrite ?Rmult_0_l, ?Rmult_1_l, ?Rplus_0_l, ?Rplus_0_r; unfold Rminus;
    rewrite ?Rmult_1_l, <- ?sumn_opp, <- !sumn_plus, ?Ropp_mult_distr_l; try (rewrite <- !sumn_scal_l, <- ?sumn_plus); apply sumn_ext; intros; ring.
Qed.

Lemma fill_tr : forall h re im,
  meq (2 * h) (2 * h) (mtr (fill h re im)) (fill h (mtr re) (mopp (mtr im))).
Proof.
  intros h re im; apply fill_meq; intros e e' r r' He He' Hr Hr'; unfold mtr at 1; rewrite fill_at by assumption.
  unfold mtr, mopp; destruct e as [|[|e]], e' as [|[|e']]; try lia; unfold mid, mat2; cbn [Nat.eqb]; ring.
Qed.

Lemma fill_one : forall h, meq (2 * h) (2 * h) mid (fill h mid mzero).
Proof.
  intros h; apply fill_meq; intros; rewrite mid_at by assumption; unfold mzero; ring.
Qed.

Lemma fill_trace : forall h re im, trace (2 * h) (fill h re im) = 2 * trace h re.
Proof.
  intros h re im; unfold trace; rewrite sumn_mul; cbn [sumn].
  rewrite (sumn_ext h _ (fun i => re i i)) by (intros i Hi; rewrite fill_at by (assumption || lia); unfold mid, mat2; cbn; ring).
  rewrite (sumn_ext h (fun i => fill h re im (1 * h + i)%nat _) (fun i => re i i))
    by (intros i Hi; rewrite fill_at by (assumption || lia); unfold mid, mat2; cbn; ring).
  ring.
Qed.

Lemma fill_realified : forall h re im, realified h (fill h re im).
Proof.
  intros h re im i j Hi Hj.
  replace (h + i)%nat with (1 * h + i)%nat by lia; replace (h + j)%nat with (1 * h + j)%nat by lia.
  replace i with (0 * h + i)%nat at 2 3 by lia; replace j with (0 * h + j)%nat at 2 4 by lia.
  rewrite !fill_at by (assumption || lia); unfold mid, mat2; cbn [Nat.eqb]; split; ring.
Qed.

Lemma realified_fill : forall h A, realified h A -> meq (2 * h) (2 * h) A (fill h A (lower h A)).
Proof.
  intros h A H; apply fill_meq; intros e e' r r' He He' Hr Hr'; destruct (H r r' Hr Hr') as [H1 H2]; unfold lower.
  destruct e as [|[|e]], e' as [|[|e']]; try lia; unfold mid, mat2; cbn [Nat.eqb]; rewrite ?Nat.mul_0_l, ?Nat.mul_1_l, ?Nat.add_0_l.
  - ring.
  - rewrite H2; ring.
  - ring.
  - rewrite H1; ring.
Qed.

Lemma realified_at : forall h A e e' r r', realified h A -> (e < 2)%nat -> (e' < 2)%nat -> (r < h)%nat -> (r' < h)%nat ->
  A (e * h + r)%nat (e' * h + r')%nat = mid e e' * A r r' + J2 e e' * lower h A r r'.
Proof.
  intros h A e e' r r' H He He' Hr Hr'; rewrite (realified_fill h A H) by (apply index_lt; assumption).
  apply fill_at; assumption.
Qed.

Lemma realified_tr : forall h A, realified h A -> realified h (mtr A).
Proof. intros h A H i j Hi Hj; destruct (H j i Hj Hi) as [H1 H2]; unfold mtr; rewrite H1, H2; split; ring. Qed.

Lemma realified_ext : forall h A A', meq (2 * h) (2 * h) A A' -> realified h A -> realified h A'.
Proof.
  intros h A A' E H i j Hi Hj; rewrite <- !E by lia; apply H; assumption.
Qed.

Lemma realified_mmul : forall h A A' i j, realified h A -> realified h A' -> (i < h)%nat -> (j < h)%nat ->
  mmul (2 * h) A A' i j = mmul h A A' i j - mmul h (lower h A) (lower h A') i j /\
  lower h (mmul (2 * h) A A') i j = mmul h A (lower h A') i j + mmul h (lower h A) A' i j.
Proof.
  intros h A A' i j H H' Hi Hj.
  assert (E : meq (2 * h) (2 * h) (mmul (2 * h) A A') (fill h (msub (mmul h A A') (mmul h (lower h A) (lower h A')))
    (madd (mmul h A (lower h A')) (mmul h (lower h A) A')))).
  { eapply meq_trans; [|apply fill_mul]; apply mmul_ext; apply realified_fill; assumption. }
  change (lower h (mmul (2 * h) A A') i j) with (mmul (2 * h) A A' (h + i)%nat j); split.
  - rewrite E by lia; replace i with (0 * h + i)%nat at 1 by lia; replace j with (0 * h + j)%nat at 1 by lia.
    rewrite fill_at by (assumption || lia); unfold mid, mat2, msub; cbn [Nat.eqb]; ring.
  - rewrite E by lia; replace (h + i)%nat with (1 * h + i)%nat by lia; replace j with (0 * h + j)%nat at 1 by lia.
    rewrite fill_at by (assumption || lia); unfold mid, mat2, madd; cbn [Nat.eqb]; ring.
Qed.

Lemma realified_trace : forall h A, realified h A -> trace (2 * h) A = 2 * trace h A.
Proof. intros h A H; rewrite (trace_ext _ _ _ (realified_fill h A H)); apply fill_trace. Qed.

(** J commutes with the realified matrices *)
Lemma J_fill : forall h, meq (2 * h) (2 * h) (kron h h J2 mid) (fill h mzero mid).
Proof. intros h; apply fill_meq; intros; rewrite kron_at by assumption; unfold mzero; ring. Qed.

Lemma realified_J : forall h A, realified h A ->
  meq (2 * h) (2 * h) (mmul (2 * h) A (kron h h J2 mid)) (mmul (2 * h) (kron h h J2 mid) A).
Proof.
  intros h A H; rewrite (realified_fill h A H), J_fill, !fill_mul.
  apply fill_ext; intros i j Hi Hj; unfold msub, madd.
  - rewrite (mid_l h h _ i j Hi Hj), (mid_r h h _ i j Hi Hj).
    unfold mmul, mzero; rewrite !sumn_0 by (intros; ring); ring.
  - rewrite (mid_l h h _ i j Hi Hj), (mid_r h h _ i j Hi Hj).
    unfold mmul, mzero; rewrite !sumn_0 by (intros; ring); ring.
Qed.
