(** Orthogonality, commutants and intertwiners of the tensor products. *)
From Coq Require Import Reals ZArith List Lia Lra Bool Arith.
From Verif Require Import LibRes LibMat LibMatS SpecGroup SpecRep ProdModel ProdProofs SpecProd ParamModel PlanarModel
  ProdIrrepModel SpecProdIrrep ProdIrrepProofs ProdIrrepThms.
Import ListNotations.
Open Scope R_scope.

(** ** Commutants with one or two units *)
Section Units.
  Context {T : Type} (mem : T -> Prop) (n : nat) (rho : T -> res (nat * mat)).

  Definition commuting (X : mat) : Prop := forall g A, mem g -> rho g = Ret (n, A) -> meq n n (mmul n A X) (mmul n X A).

  Lemma lincomb1 : forall c (E : mat) i j, lincomb [c] [E] i j = c * E i j.
  Proof. intros; cbn [lincomb]; unfold madd, mscal, mzero; ring. Qed.

  Lemma lincomb2 : forall c d (E F : mat) i j, lincomb [c; d] [E; F] i j = c * E i j + d * F i j.
  Proof. intros; cbn [lincomb]; unfold madd, mscal, mzero; ring. Qed.

  Lemma scalar_commutes : forall c X A, (forall i j, (i < n)%nat -> (j < n)%nat -> X i j = c * mid i j) ->
    meq n n (mmul n A X) (mmul n X A).
  Proof.
    intros c X A H; assert (E : meq n n X (mscal c mid)) by (intros i j Hi Hj; apply H; assumption).
    rewrite E; intros i j Hi Hj; rewrite mmul_mscal_l, mmul_mscal_r, (mid_l n n A i j), (mid_r n n A i j) by assumption; reflexivity.
  Qed.

  Lemma spans_R : (0 < n)%nat ->
    (forall X, commuting X -> exists c, forall i j, (i < n)%nat -> (j < n)%nat -> X i j = c * mid i j) ->
    spans_commutant mem n rho [mid] /\ irreducible mem n rho.
  Proof.
    intros Hn H; split; [split|split; [exact Hn|]].
    - intros X; split.
      + intros C; destruct (H X C) as [c E]; exists [c]; split; [reflexivity|]; intros i j Hi Hj; rewrite lincomb1; apply E; assumption.
      + intros ([|c [|]] & L & E); try discriminate L; intros g A _ _; apply (scalar_commutes c).
        intros i j Hi Hj; rewrite E, lincomb1 by assumption; reflexivity.
    - intros [|c [|]] L E; try discriminate L; repeat constructor.
      specialize (E 0%nat 0%nat Hn Hn); rewrite lincomb1 in E; unfold mid, mzero in E; cbn in E; lra.
    - intros X HI _ C; destruct (H X C) as [c E].
      assert (D : c * c = c).
      { pose proof (HI 0%nat 0%nat Hn Hn) as K.
        unfold mmul in K; rewrite (sumn_single n 0) in K; [|exact Hn|intros l Hl Hne; rewrite (E 0%nat l Hn Hl); unfold mid; destruct (Nat.eqb_spec 0 l); [congruence|ring]].
        rewrite !(E 0%nat 0%nat Hn Hn) in K; unfold mid in K; cbn in K; lra. }
      assert (D' : c = 0 \/ c - 1 = 0) by (apply Rmult_integral; lra).
      destruct D' as [->|D']; [left|right]; intros i j Hi Hj; rewrite E by assumption; unfold mzero; [ring|].
      replace c with 1 by lra; ring.
  Qed.

  Lemma spans_C : forall h, n = (2 * h)%nat -> (0 < h)%nat ->
    (forall g A, mem g -> rho g = Ret (n, A) -> realified h A) ->
    (forall X, commuting X -> exists c d, forall i j, (i < n)%nat -> (j < n)%nat -> X i j = c * mid i j + d * kron h h J2 mid i j) ->
    spans_commutant mem n rho [kron h h mid mid; kron h h J2 mid] /\ irreducible mem n rho.
  Proof.
    intros h En Hh HR H.
    assert (K1 : forall i j, (i < n)%nat -> (j < n)%nat -> kron h h mid mid i j = mid i j) by (intros; apply (kron_mid 2); lia).
    assert (J00 : kron h h J2 mid 0%nat 0%nat = 0).
    { replace (kron h h J2 mid 0%nat 0%nat) with (kron h h J2 mid (0 * h + 0)%nat (0 * h + 0)%nat) by reflexivity.
      rewrite kron_at by exact Hh; unfold mat2; ring. }
    assert (Jh0 : kron h h J2 mid h 0%nat = 1).
    { replace (kron h h J2 mid h 0%nat) with (kron h h J2 mid (1 * h + 0)%nat (0 * h + 0)%nat) by (f_equal; lia).
      rewrite kron_at by exact Hh; unfold mat2, mid; cbn; ring. }
    assert (J0h : kron h h J2 mid 0%nat h = -1).
    { replace (kron h h J2 mid 0%nat h) with (kron h h J2 mid (0 * h + 0)%nat (1 * h + 0)%nat) by (f_equal; lia).
      rewrite kron_at by exact Hh; unfold mat2, mid; cbn; ring. }
    assert (Mh0 : mid h 0%nat = 0) by (unfold mid; destruct (Nat.eqb_spec h 0); [lia|reflexivity]).
    assert (M0h : mid 0%nat h = 0) by (unfold mid; destruct (Nat.eqb_spec 0 h); [lia|reflexivity]).
    split; [split|split; [lia|]].
    - intros X; split.
      + intros C; destruct (H X C) as (c & d & E); exists [c; d]; split; [reflexivity|].
        intros i j Hi Hj; rewrite lincomb2, K1 by assumption; apply E; assumption.
      + intros ([|c [|d [|]]] & L & E); try discriminate L; intros g A Hg EA.
        assert (E' : meq n n X (madd (mscal c mid) (mscal d (kron h h J2 mid)))).
        { intros i j Hi Hj; rewrite E, lincomb2, K1 by assumption; reflexivity. }
        rewrite E'; intros i j Hi Hj; rewrite mmul_madd_l, mmul_madd_r, !mmul_mscal_l, !mmul_mscal_r.
        rewrite (mid_l n n A i j Hi Hj), (mid_r n n A i j Hi Hj); f_equal; f_equal.
        pose proof (realified_J h A (HR g A Hg EA)) as K; rewrite <- En in K; apply K; assumption.
    - intros [|c [|d [|]]] L E; try discriminate L.
      pose proof (E 0%nat 0%nat ltac:(lia) ltac:(lia)) as E0; pose proof (E h 0%nat ltac:(lia) ltac:(lia)) as E1.
      rewrite lincomb2, K1 in E0, E1 by lia; rewrite J00 in E0; rewrite Jh0, Mh0 in E1; unfold mid, mzero in E0, E1; cbn in E0.
      repeat constructor; lra.
    - intros X HI HS C; destruct (H X C) as (c & d & E).
      assert (D : d = 0).
      { pose proof (HS h 0%nat ltac:(lia) ltac:(lia)) as K; unfold mtr in K; rewrite !E, Jh0, J0h, Mh0, M0h in K by lia; lra. }
      subst d.
      assert (E' : forall i j, (i < n)%nat -> (j < n)%nat -> X i j = c * mid i j) by (intros i j Hi Hj; rewrite E by assumption; ring).
      assert (D : c * c = c).
      { pose proof (HI 0%nat 0%nat ltac:(lia) ltac:(lia)) as K.
        unfold mmul in K; rewrite (sumn_single n 0) in K; [|lia|intros l Hl Hne; rewrite (E' 0%nat l) by lia; unfold mid; destruct (Nat.eqb_spec 0 l); [congruence|ring]].
        rewrite !(E' 0%nat 0%nat) in K by lia; unfold mid in K; cbn in K; lra. }
      assert (D' : c = 0 \/ c - 1 = 0) by (apply Rmult_integral; lra).
      destruct D' as [->|D']; [left|right]; intros i j Hi Hj; rewrite E' by assumption; unfold mzero; [ring|].
      replace c with 1 by lra; ring.
  Qed.

  Lemma of_R : spans_commutant mem n rho [mid] -> (0 < n)%nat -> forall X, commuting X ->
    forall i j, (i < n)%nat -> (j < n)%nat -> X i j = X 0%nat 0%nat * mid i j.
  Proof.
    intros [S _] Hn X C i j Hi Hj; apply S in C as ([|c [|]] & L & E); try discriminate L.
    rewrite !E, !lincomb1 by assumption; unfold mid; cbn [Nat.eqb]; ring.
  Qed.

  Lemma of_C : forall h, n = (2 * h)%nat -> (0 < h)%nat ->
    spans_commutant mem n rho [kron h h mid mid; kron h h J2 mid] -> forall X, commuting X ->
    forall i j, (i < n)%nat -> (j < n)%nat -> X i j = X 0%nat 0%nat * mid i j + X h 0%nat * kron h h J2 mid i j.
  Proof.
    intros h En Hh [S _] X C i j Hi Hj; apply S in C as ([|c [|d [|]]] & L & E); try discriminate L.
    assert (K1 : forall i j, (i < n)%nat -> (j < n)%nat -> kron h h mid mid i j = mid i j) by (intros; apply (kron_mid 2); lia).
    rewrite !E, !lincomb2, !K1 by (assumption || lia).
    replace (kron h h J2 mid 0%nat 0%nat) with (kron h h J2 mid (0 * h + 0)%nat (0 * h + 0)%nat) by reflexivity.
    replace (kron h h J2 mid h 0%nat) with (kron h h J2 mid (1 * h + 0)%nat (0 * h + 0)%nat) by (f_equal; lia).
    rewrite !(kron_at h h J2 mid _ 0 _ 0) by exact Hh.
    replace (mid h 0%nat) with 0 by (unfold mid; destruct (Nat.eqb_spec h 0); [lia|reflexivity]).
    unfold mat2; replace (mid 0%nat 0%nat) with 1 by reflexivity; ring.
  Qed.
End Units.

(** ** Blocks of intertwiners *)
Definition blk (phi phi' : nat -> nat -> nat) (X : mat) (q q' : nat) : mat := fun i j => X (phi i q) (phi' j q').

Lemma copies_block : forall n s m phi n' s' m' phi' R A R' A' X,
  indexes n s m phi -> indexes n' s' m' phi' -> copies s m phi R A -> copies s' m' phi' R' A' ->
  meq n n' (mmul n R X) (mmul n' X R') ->
  forall q q', (q < m)%nat -> (q' < m')%nat ->
    meq s s' (mmul s A (blk phi phi' X q q')) (mmul s' (blk phi phi' X q q') A').
Proof.
  intros n s m phi n' s' m' phi' R A R' A' X [Su L O] [Su' L' O'] C C' H q q' Hq Hq' i j Hi Hj.
  specialize (H (phi i q) (phi' j q') (L i q Hi Hq) (L' j q' Hj Hq')); unfold mmul in H; rewrite Su, Su' in H.
  unfold mmul, blk; etransitivity; [|etransitivity; [exact H|]].
  - apply sumn_ext; intros k Hk; rewrite (sumn_single m q); [|exact Hq|].
    + rewrite C by assumption; unfold mid; rewrite Nat.eqb_refl; ring.
    + intros l Hl Hne; rewrite C by assumption; unfold mid; destruct (Nat.eqb_spec q l); [congruence|ring].
  - apply sumn_ext; intros k Hk; rewrite (sumn_single m' q'); [|exact Hq'|].
    + rewrite C' by assumption; unfold mid; rewrite Nat.eqb_refl; ring.
    + intros l Hl Hne; rewrite C' by assumption; unfold mid; destruct (Nat.eqb_spec l q'); [congruence|ring].
Qed.

(** ** Representations built by a tensor product *)
Section Build.
  Context {V1 V2 : Type} (G1 : gobj V1) (G2 : gobj V2).
  Let P := prod_grp G1 G2.

  Definition built (s1 s2 n : nat) f1 f2 (F : mat -> mat -> mat) (rho : gel (V1 * V2) -> res (nat * mat)) : Prop :=
    forall a b A B, el_mem G1 a -> el_mem G2 b -> f1 a = Ret (s1, A) -> f2 b = Ret (s2, B) ->
      rho (pr G1 G2 a b) = Ret (n, F A B).

  Definition holds {V} (G : gobj V) (f : gel V -> res (nat * mat)) (s : nat) (Q : mat -> Prop) : Prop :=
    forall g A, el_mem G g -> f g = Ret (s, A) -> Q A.

  Lemma built_orth : forall s1 s2 n f1 f2 F rho Q1 Q2,
    orth_rep (el_mem G1) (el_mul G1) (el_inv G1) (el_one G1) s1 f1 ->
    orth_rep (el_mem G2) (el_mul G2) (el_inv G2) (el_one G2) s2 f2 ->
    is_group (el_mem G1) (el_mul G1) (el_inv G1) (el_one G1) ->
    is_group (el_mem G2) (el_mul G2) (el_inv G2) (el_one G2) ->
    tensor s1 s2 n Q1 Q2 F -> (forall A, Q1 A -> Q1 (mtr A)) -> (forall A, Q2 A -> Q2 (mtr A)) ->
    holds G1 f1 s1 Q1 -> holds G2 f2 s2 Q2 -> built s1 s2 n f1 f2 F rho ->
    orth_rep (el_mem P) (el_mul P) (el_inv P) (el_one P) n rho.
  Proof.
    intros s1 s2 n f1 f2 F rho Q1 Q2 [t1 u1 m1 i1] [t2 u2 m2 i2] [e1 c1 v1 _ _ _ _ _] [e2 c2 v2 _ _ _ _ _] [TE TM TT TO] C1 C2 K1 K2 Bu.
    constructor.
    - intros g Hg; apply pr_inv in Hg as (a & b & Ha & Hb & ->).
      destruct (t1 a Ha) as (A & EA & O1 & O1'), (t2 b Hb) as (B & EB & O2 & O2').
      exists (F A B); split; [apply Bu; assumption|].
      pose proof (K1 a A Ha EA) as QA; pose proof (K2 b B Hb EB) as QB; split.
      + rewrite (TT A B QA QB), (TM A (mtr A) B (mtr B)); auto.
        rewrite (TE _ mid _ mid); auto.
      + rewrite (TT A B QA QB), (TM (mtr A) A (mtr B) B); auto.
        rewrite (TE _ mid _ mid); auto.
    - destruct u1 as (A & EA & HA), u2 as (B & EB & HB); exists (F A B); split.
      + unfold P; rewrite one_pr; apply Bu; assumption.
      + rewrite (TE A mid B mid); assumption.
    - intros g h Hg Hh; apply pr_inv in Hg as (a & b & Ha & Hb & ->); apply pr_inv in Hh as (c & d & Hc & Hd & ->).
      destruct (m1 a c Ha Hc) as (ac & A & A' & A'' & E1 & EA & EA' & EA'' & HA).
      destruct (m2 b d Hb Hd) as (bd & B & B' & B'' & E2 & EB & EB' & EB'' & HB).
      destruct (c1 a c Ha Hc) as (x & Ex & Hx); rewrite E1 in Ex; apply Ret_inj in Ex; subst x.
      destruct (c2 b d Hb Hd) as (y & Ey & Hy); rewrite E2 in Ey; apply Ret_inj in Ey; subst y.
      exists (pr G1 G2 ac bd), (F A B), (F A' B'), (F A'' B''); split; [unfold P; rewrite mul_pr, E1, E2 by assumption; reflexivity|].
      split; [apply Bu; assumption|split; [apply Bu; assumption|split; [apply Bu; assumption|]]].
      rewrite (TE _ _ _ _ HA HB); symmetry; apply TM.
      + apply (K1 a); assumption. + apply (K1 c); assumption. + apply (K2 b); assumption. + apply (K2 d); assumption.
    - intros g Hg; apply pr_inv in Hg as (a & b & Ha & Hb & ->).
      destruct (i1 a Ha) as (ai & A & A' & E1 & EA & EA' & HA), (i2 b Hb) as (bi & B & B' & E2 & EB & EB' & HB).
      destruct (v1 a Ha) as (x & Ex & Hx); rewrite E1 in Ex; apply Ret_inj in Ex; subst x.
      destruct (v2 b Hb) as (y & Ey & Hy); rewrite E2 in Ey; apply Ret_inj in Ey; subst y.
      exists (pr G1 G2 ai bi), (F A B), (F A' B'); split; [unfold P; rewrite inv_pr, E1, E2; reflexivity|].
      split; [apply Bu; assumption|split; [apply Bu; assumption|]].
      rewrite (TT A B) by eauto; apply TE; assumption.
  Qed.

  (** what intertwines two such representations intertwines their restrictions to the factors *)
  Lemma built_first : forall s1 s2 n f1 f2 F rho Q1 Q2 s1' s2' n' f1' f2' F' rho' Q1' Q2' X,
    orth_rep (el_mem G2) (el_mul G2) (el_inv G2) (el_one G2) s2 f2 ->
    orth_rep (el_mem G2) (el_mul G2) (el_inv G2) (el_one G2) s2' f2' ->
    is_group (el_mem G2) (el_mul G2) (el_inv G2) (el_one G2) ->
    tensor s1 s2 n Q1 Q2 F -> tensor s1' s2' n' Q1' Q2' F' ->
    built s1 s2 n f1 f2 F rho -> built s1' s2' n' f1' f2' F' rho' ->
    (forall g R R', el_mem P g -> rho g = Ret (n, R) -> rho' g = Ret (n', R') -> meq n n' (mmul n R X) (mmul n' X R')) ->
    forall a A A', el_mem G1 a -> f1 a = Ret (s1, A) -> f1' a = Ret (s1', A') ->
      meq n n' (mmul n (F A mid) X) (mmul n' X (F' A' mid)).
  Proof.
    intros s1 s2 n f1 f2 F rho Q1 Q2 s1' s2' n' f1' f2' F' rho' Q1' Q2' X R2 R2' HG T T' B B' H a A A' Ha EA EA'.
    destruct (or_unit _ _ _ _ _ _ R2) as (U & EU & HU), (or_unit _ _ _ _ _ _ R2') as (U' & EU' & HU').
    pose proof (grp_id _ _ _ _ HG) as He.
    specialize (H (pr G1 G2 a (el_one G2)) (F A U) (F' A' U') ltac:(apply pr_mem; assumption)
      (B a _ A U Ha He EA EU) (B' a _ A' U' Ha He EA' EU')).
    rewrite <- (t_ext _ _ _ _ _ _ T A A U mid (meq_refl _ _ A) HU).
    rewrite <- (t_ext _ _ _ _ _ _ T' A' A' U' mid (meq_refl _ _ A') HU'); exact H.
  Qed.

  Lemma built_second : forall s1 s2 n f1 f2 F rho Q1 Q2 s1' s2' n' f1' f2' F' rho' Q1' Q2' X,
    orth_rep (el_mem G1) (el_mul G1) (el_inv G1) (el_one G1) s1 f1 ->
    orth_rep (el_mem G1) (el_mul G1) (el_inv G1) (el_one G1) s1' f1' ->
    is_group (el_mem G1) (el_mul G1) (el_inv G1) (el_one G1) ->
    tensor s1 s2 n Q1 Q2 F -> tensor s1' s2' n' Q1' Q2' F' ->
    built s1 s2 n f1 f2 F rho -> built s1' s2' n' f1' f2' F' rho' ->
    (forall g R R', el_mem P g -> rho g = Ret (n, R) -> rho' g = Ret (n', R') -> meq n n' (mmul n R X) (mmul n' X R')) ->
    forall b B B', el_mem G2 b -> f2 b = Ret (s2, B) -> f2' b = Ret (s2', B') ->
      meq n n' (mmul n (F mid B) X) (mmul n' X (F' mid B')).
  Proof.
    intros s1 s2 n f1 f2 F rho Q1 Q2 s1' s2' n' f1' f2' F' rho' Q1' Q2' X R1 R1' HG T T' Bu Bu' H b B B' Hb EB EB'.
    destruct (or_unit _ _ _ _ _ _ R1) as (U & EU & HU), (or_unit _ _ _ _ _ _ R1') as (U' & EU' & HU').
    pose proof (grp_id _ _ _ _ HG) as He.
    specialize (H (pr G1 G2 (el_one G1) b) (F U B) (F' U' B') ltac:(apply pr_mem; assumption)
      (Bu _ b U B He Hb EU EB) (Bu' _ b U' B' He Hb EU' EB')).
    rewrite <- (t_ext _ _ _ _ _ _ T U mid B B HU (meq_refl _ _ B)).
    rewrite <- (t_ext _ _ _ _ _ _ T' U' mid B' B' HU' (meq_refl _ _ B')); exact H.
  Qed.
End Build.
