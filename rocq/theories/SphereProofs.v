(** Proofs about rotation matrices and the elements standing for points. *)
From Coq Require Import Reals ZArith Bool List Lia Lra.
From Verif Require Import LibRes LibMat LibTrig ParamModel SpaceModel SphereModel SpecSpace SpecSphere SpaceProofs.
Import ListNotations.
Open Scope R_scope.

(** ** From a rotation matrix to a quaternion *)

(** Nine entries of a rotation matrix. *)
Record rot9 (a b c d e f g h k : R) : Prop := {
  r00 : a * a + b * b + c * c = 1; r11 : d * d + e * e + f * f = 1; r22 : g * g + h * h + k * k = 1;
  c00 : a * a + d * d + g * g = 1; c11 : b * b + e * e + h * h = 1; c22 : c * c + f * f + k * k = 1;
  r01 : a * d + b * e + c * f = 0; r02 : a * g + b * h + c * k = 0; r12 : d * g + e * h + f * k = 0;
  c01 : a * b + d * e + g * h = 0; c02 : a * c + d * f + g * k = 0; c12 : b * c + e * f + h * k = 0;
  fa : a = e * k - f * h; fb : b = f * g - d * k; fc : c = d * h - e * g;
  fd : d = c * h - b * k; fe : e = a * k - c * g; ff : f = b * g - a * h;
  fg : g = b * f - c * e; fh : h = c * d - a * f; fk : k = a * e - b * d }.

Lemma rot9_cycle : forall a b c d e f g h k, rot9 a b c d e f g h k -> rot9 e f d h k g b c a.
Proof. intros a b c d e f g h k []; constructor; lra. Qed.

(** Products of the numbers from which the quaternion is read. *)
Lemma by_trace : forall a b c d e f g h k, rot9 a b c d e f g h k ->
  (h - f) * (h - f) = (1 + (a + e + k)) * (1 + a - e - k) /\
  (c - g) * (c - g) = (1 + (a + e + k)) * (1 + e - a - k) /\
  (d - b) * (d - b) = (1 + (a + e + k)) * (1 + k - a - e) /\
  (h - f) * (c - g) = (1 + (a + e + k)) * (b + d) /\
  (h - f) * (d - b) = (1 + (a + e + k)) * (c + g) /\
  (c - g) * (d - b) = (1 + (a + e + k)) * (f + h).
Proof. intros a b c d e f g h k []; repeat split; lra. Qed.

Lemma by_first : forall a b c d e f g h k, rot9 a b c d e f g h k ->
  (b + d) * (b + d) = (1 + a - e - k) * (1 + e - a - k) /\
  (c + g) * (c + g) = (1 + a - e - k) * (1 + k - a - e) /\
  (h - f) * (h - f) = (1 + a - e - k) * (1 + (a + e + k)) /\
  (b + d) * (c + g) = (1 + a - e - k) * (f + h) /\
  (b + d) * (h - f) = (1 + a - e - k) * (c - g) /\
  (c + g) * (h - f) = (1 + a - e - k) * (d - b).
Proof. intros a b c d e f g h k []; repeat split; lra. Qed.

(** Normalising a quaternion divides its matrix by its square. *)
Lemma as_matrix_scal : forall q s, qsq q = s -> 0 < s ->
  unit (qscal (/ qnorm q) q) /\
  forall i j, (i < 3)%nat -> (j < 3)%nat ->
    as_matrix (qscal (/ qnorm q) q) i j = as_matrix q i j / s.
Proof.
  intros q s E P.
  assert (N : / qnorm q * / qnorm q = / s).
  { unfold qnorm; rewrite E, <- Rinv_mult, sqrt_sqrt by lra; reflexivity. }
  split.
  - unfold unit, qscal; cbn [qx qy qz qw]; unfold qsq in E; set (v := / qnorm q) in *.
    replace 1 with (/ s * s) by (field; lra); rewrite <- N, <- E; ring.
  - intros i j Hi Hj; set (v := / qnorm q) in *.
    assert (K : as_matrix (qscal v q) i j = v * v * as_matrix q i j).
    { destruct i as [|[|[|i]]]; try lia; destruct j as [|[|[|j]]]; try lia; cbn; ring. }
    rewrite K, N; unfold Rdiv; ring.
Qed.

Lemma cofactors : forall a b c d e f g h k,
  a * a + d * d + g * g = 1 -> b * b + e * e + h * h = 1 -> c * c + f * f + k * k = 1 ->
  a * b + d * e + g * h = 0 -> a * c + d * f + g * k = 0 -> b * c + e * f + h * k = 0 ->
  a * (e * k - f * h) + b * (f * g - d * k) + c * (d * h - e * g) = 1 ->
  a = e * k - f * h /\ b = f * g - d * k /\ c = d * h - e * g.
Proof.
  intros a b c d e f g h k C00 C11 C22 C01 C02 C12 D.
  set (A := e * k - f * h) in *; set (B := f * g - d * k) in *; set (C := d * h - e * g) in *.
  assert (Z1 : d * A + e * B + f * C = 0) by (unfold A, B, C; ring).
  assert (Z2 : g * A + h * B + k * C = 0) by (unfold A, B, C; ring).
  repeat split.
  - transitivity ((a * a + d * d + g * g) * A + (a * b + d * e + g * h) * B + (a * c + d * f + g * k) * C);
      [|rewrite C00, C01, C02; ring].
    transitivity (a * (a * A + b * B + c * C) + d * (d * A + e * B + f * C) + g * (g * A + h * B + k * C));
      [rewrite D, Z1, Z2; ring|ring].
  - transitivity ((a * b + d * e + g * h) * A + (b * b + e * e + h * h) * B + (b * c + e * f + h * k) * C);
      [|rewrite C11, C01, C12; ring].
    transitivity (b * (a * A + b * B + c * C) + e * (d * A + e * B + f * C) + h * (g * A + h * B + k * C));
      [rewrite D, Z1, Z2; ring|ring].
  - transitivity ((a * c + d * f + g * k) * A + (b * c + e * f + h * k) * B + (c * c + f * f + k * k) * C);
      [|rewrite C22, C02, C12; ring].
    transitivity (c * (a * A + b * B + c * C) + f * (d * A + e * B + f * C) + k * (g * A + h * B + k * C));
      [rewrite D, Z1, Z2; ring|ring].
Qed.

Lemma det_det3 : forall m, det m = det3 m.
Proof. intros m; unfold det, det3, dot, cross; cbn [sumn]; ring. Qed.

Lemma rotation_rot9 : forall m, orthogonal3 1 m ->
  rot9 (m 0 0)%nat (m 0 1)%nat (m 0 2)%nat (m 1 0)%nat (m 1 1)%nat (m 1 2)%nat
       (m 2 0)%nat (m 2 1)%nat (m 2 2)%nat.
Proof.
  intros m (RR & CC & D); rewrite <- det_det3 in D; unfold det in D.
  assert (E : forall i j, (i < 3)%nat -> (j < 3)%nat ->
     m i 0%nat * m j 0%nat + m i 1%nat * m j 1%nat + m i 2%nat * m j 2%nat = if Nat.eqb i j then 1 else 0).
  { intros i j Hi Hj; specialize (RR i j Hi Hj); unfold mmul, mtr, mid in RR; cbn [sumn] in RR.
    rewrite <- RR; ring. }
  assert (F : forall i j, (i < 3)%nat -> (j < 3)%nat ->
     m 0%nat i * m 0%nat j + m 1%nat i * m 1%nat j + m 2%nat i * m 2%nat j = if Nat.eqb i j then 1 else 0).
  { intros i j Hi Hj; specialize (CC i j Hi Hj); unfold mmul, mtr, mid in CC; cbn [sumn] in CC.
    rewrite <- CC; ring. }
  pose proof (E 0%nat 0%nat ltac:(lia) ltac:(lia)) as E00. pose proof (E 1%nat 1%nat ltac:(lia) ltac:(lia)) as E11.
  pose proof (E 2%nat 2%nat ltac:(lia) ltac:(lia)) as E22. pose proof (E 0%nat 1%nat ltac:(lia) ltac:(lia)) as E01.
  pose proof (E 0%nat 2%nat ltac:(lia) ltac:(lia)) as E02. pose proof (E 1%nat 2%nat ltac:(lia) ltac:(lia)) as E12.
  pose proof (F 0%nat 0%nat ltac:(lia) ltac:(lia)) as F00. pose proof (F 1%nat 1%nat ltac:(lia) ltac:(lia)) as F11.
  pose proof (F 2%nat 2%nat ltac:(lia) ltac:(lia)) as F22. pose proof (F 0%nat 1%nat ltac:(lia) ltac:(lia)) as F01.
  pose proof (F 0%nat 2%nat ltac:(lia) ltac:(lia)) as F02. pose proof (F 1%nat 2%nat ltac:(lia) ltac:(lia)) as F12.
  clear E F RR CC; cbn in E00, E11, E22, E01, E02, E12, F00, F11, F22, F01, F02, F12.
  set (a := m 0%nat 0%nat) in *; set (b := m 0%nat 1%nat) in *; set (c := m 0%nat 2%nat) in *.
  set (d := m 1%nat 0%nat) in *; set (e := m 1%nat 1%nat) in *; set (f := m 1%nat 2%nat) in *.
  set (g := m 2%nat 0%nat) in *; set (h := m 2%nat 1%nat) in *; set (k := m 2%nat 2%nat) in *.
  destruct (cofactors a b c d e f g h k) as (P1 & P2 & P3); try lra.
  destruct (cofactors d e f g h k a b c) as (P4 & P5 & P6); try lra.
  destruct (cofactors g h k a b c d e f) as (P7 & P8 & P9); try lra.
  constructor; lra.
Qed.

Lemma from_matrix_ok : forall m, orthogonal3 1 m ->
  unit (from_matrix m) /\ meq 3 3 (as_matrix (from_matrix m)) m.
Proof.
  intros m O; apply rotation_rot9 in O; unfold from_matrix; cbv beta iota zeta.
  set (a := m 0%nat 0%nat) in *; set (b := m 0%nat 1%nat) in *; set (c := m 0%nat 2%nat) in *.
  set (d := m 1%nat 0%nat) in *; set (e := m 1%nat 1%nat) in *; set (f := m 1%nat 2%nat) in *.
  set (g := m 2%nat 0%nat) in *; set (h := m 2%nat 1%nat) in *; set (k := m 2%nat 2%nat) in *.
  assert (Fin : forall q s, qsq q = s -> 0 < s ->
      (forall i j, (i < 3)%nat -> (j < 3)%nat -> as_matrix q i j = s * m i j) ->
      unit (qscal (/ qnorm q) q) /\ meq 3 3 (as_matrix (qscal (/ qnorm q) q)) m).
  { intros q s E P H; destruct (as_matrix_scal q s E P) as [U A]; split; [exact U|].
    intros i j Hi Hj; rewrite (A i j Hi Hj), (H i j Hi Hj); field; lra. }
  pose proof (by_trace _ _ _ _ _ _ _ _ _ O) as T.
  pose proof (by_first _ _ _ _ _ _ _ _ _ O) as T1.
  pose proof (by_first _ _ _ _ _ _ _ _ _ (rot9_cycle _ _ _ _ _ _ _ _ _ O)) as T2.
  pose proof (by_first _ _ _ _ _ _ _ _ _ (rot9_cycle _ _ _ _ _ _ _ _ _ (rot9_cycle _ _ _ _ _ _ _ _ _ O))) as T3.
  clear O.
  destruct T as (A1 & A2 & A3 & A4 & A5 & A6), T1 as (B1 & B2 & B3 & B4 & B5 & B6),
    T2 as (C1 & C2 & C3 & C4 & C5 & C6), T3 as (D1 & D2 & D3 & D4 & D5 & D6).
  destruct (Rle_dec e a) as [L1|L1]; cbn [andb].
  1: destruct (Rle_dec k a) as [L2|L2]; cbn [andb].
  1: destruct (Rle_dec (a + e + k) a) as [L3|L3]; cbn [andb].
  1: { apply (Fin _ (4 * (1 + a - e - k))); [unfold qsq; cbn [qx qy qz qw]; lra|lra|].
       intros i j Hi Hj; destruct i as [|[|[|i]]]; try lia; destruct j as [|[|[|j]]]; try lia;
         cbn [as_matrix mat3 qx qy qz qw]; fold a b c d e f g h k; lra. }
  all: destruct (Rle_dec k e) as [L4|L4]; cbn [andb].
  all: try (destruct (Rle_dec (a + e + k) e) as [L5|L5]; cbn [andb]).
  all: try (destruct (Rle_dec (a + e + k) k) as [L6|L6]; cbn [andb]).
  all: first
    [ exfalso; lra
    | apply (Fin _ (4 * (1 + e - a - k))); [unfold qsq; cbn [qx qy qz qw]; lra|lra|];
       intros i j Hi Hj; destruct i as [|[|[|i]]]; try lia; destruct j as [|[|[|j]]]; try lia;
         cbn [as_matrix mat3 qx qy qz qw]; fold a b c d e f g h k; lra
    | apply (Fin _ (4 * (1 + k - a - e))); [unfold qsq; cbn [qx qy qz qw]; lra|lra|];
       intros i j Hi Hj; destruct i as [|[|[|i]]]; try lia; destruct j as [|[|[|j]]]; try lia;
         cbn [as_matrix mat3 qx qy qz qw]; fold a b c d e f g h k; lra
    | apply (Fin _ (4 * (1 + (a + e + k)))); [unfold qsq; cbn [qx qy qz qw]; lra|lra|];
       intros i j Hi Hj; destruct i as [|[|[|i]]]; try lia; destruct j as [|[|[|j]]]; try lia;
         cbn [as_matrix mat3 qx qy qz qw]; fold a b c d e f g h k; lra ].
Qed.
