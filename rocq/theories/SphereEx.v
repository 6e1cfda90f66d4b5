(** Concrete grids. *)
From Coq Require Import Reals ZArith List Lia Lra.
From Verif Require Import LibRes LibMat SpaceModel SphereModel SpecSpace SpecSphere SpaceProofs SphereProofs SphereFrame
  SphereGrid SphereHealpix SphereThms.
Import ListNotations.
Open Scope R_scope.

(** Two poles and one point of the equator; the elements returned for them stand
    for the two poles and for the point opposite to the one of the grid. *)
Lemma small_grid :
  longlat 1 3 = Ret [Vec 0 0 1; Vec 1 0 0; Vec 0 0 (-1)] /\
  (exists noise l, so3_sphere_grid (Longlat 1 3) so3_id noise = Ret l) /\
  forall noise l, so3_sphere_grid (Longlat 1 3) so3_id noise = Ret l ->
    exists a b c, l = [a; b; c] /\ stands_for a (Vec 0 0 (-1)) /\ stands_for b (Vec (-1) 0 0) /\ stands_for c (Vec 0 0 1).
Proof.
  assert (E : longlat 1 3 = Ret [Vec 0 0 1; Vec 1 0 0; Vec 0 0 (-1)]).
  { unfold longlat, parallel, range; cbn [Z.ltb Z.compare Pos.compare Pos.compare_cont assert_ bind].
    change (Z.to_nat (3 - 0)) with 3%nat; cbn [seq map flat_map app].
    change (Z.to_nat (1 - 0)) with 1%nat; cbn - [Rdiv Rmult IZR sqrt].
    replace (1 * PI / (3 - 1)) with (PI / 2) by field; rewrite cos_PI2.
    replace (0 * 2 * PI / 1) with 0 by field; rewrite cos_0, sin_0.
    replace (1 - 0 * (0 * 1)) with 1 by ring; rewrite sqrt_1; repeat f_equal; ring. }
  split; [exact E|split; [apply so3_grid_runs; [cbn; lia|apply unit_id]|]].
  intros noise l H; destruct (so3_grid_ok (Longlat 1 3) so3_id noise) as (pts & Ep & F & _); [cbn; lia|apply unit_id|].
  rewrite points_so3_id, points_id in Ep; cbn [raw] in Ep; rewrite E in Ep; apply Ret_inj in Ep; subst pts.
  specialize (F l H).
  inversion F as [|a ? l1 ? A F1]; subst; inversion F1 as [|b ? l2 ? B F2]; subst; inversion F2 as [|c ? l3 ? C F3]; subst.
  inversion F3; subst; exists a, b, c; split; [reflexivity|].
  unfold opposite in *; cbn [vx vy vz] in *; rewrite Ropp_0 in *.
  replace (- -1) with 1 in C by ring; split; [exact A|split; [exact B|exact C]].
Qed.

(** A matrix turned into a quaternion: the half turn around X. *)
Lemma half_turn : orthogonal3 1 (mat3 1 0 0 0 (-1) 0 0 0 (-1)) /\
  from_matrix (mat3 1 0 0 0 (-1) 0 0 0 (-1)) = Quat 1 0 0 0.
Proof.
  split.
  - split; [|split]; [| |unfold det3, dot, cross; cbn; ring];
      intros i j Hi Hj; destruct i as [|[|[|i]]]; try lia; destruct j as [|[|[|j]]]; try lia;
      unfold mmul, mtr, mid; cbn; ring.
  - unfold from_matrix; cbn [mat3].
    destruct (Rle_dec (-1) 1); [|lra]; destruct (Rle_dec (1 + -1 + -1) 1); [|lra]; cbn [andb].
    unfold qscal, qnorm, qsq; cbn [qx qy qz qw].
    match goal with |- context [sqrt ?x] => replace x with (4 * 4) by ring end.
    rewrite sqrt_square by lra; f_equal; field.
Qed.
