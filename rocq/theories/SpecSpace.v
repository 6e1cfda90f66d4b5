(** What the elements of SO(3), O(3) and of their subgroups are, as 3x3 matrices,
    said without the functions that compute with them. *)
From Coq Require Import Reals ZArith List Bool.
From Verif Require Import LibRes LibMat FinGroupModel SpecFinGroup PlanarModel SpecPlanar SpaceModel.
Import ListNotations.
Open Scope R_scope.

(** A valid element of SO(3): a quaternion of length one. *)
Definition unit (q : quat) : Prop :=
  qx q * qx q + qy q * qy q + qz q * qz q + qw q * qw q = 1.
(** A valid element of O(3). *)
Definition ounit (e : oval) : Prop := (fst e = 0 \/ fst e = 1)%Z /\ unit (snd e).

(** The cross and the dot product of two vectors. *)
Definition cross (u v : nat -> R) : nat -> R :=
  fun i => match i with
           | O => u 1%nat * v 2%nat - u 2%nat * v 1%nat
           | S O => u 2%nat * v 0%nat - u 0%nat * v 2%nat
           | _ => u 0%nat * v 1%nat - u 1%nat * v 0%nat
           end.
Definition dot (u v : nat -> R) : R := sumn 3 (fun i => u i * v i).

(** The vector part of a quaternion. *)
Definition axis_of (q : quat) : nat -> R :=
  fun i => match i with O => qx q | S O => qy q | _ => qz q end.

(** Rodrigues: the vector [v] rotated by the quaternion [q]. *)
Definition rotated (q : quat) (v : nat -> R) : nat -> R :=
  fun i => v i + 2 * (qw q * cross (axis_of q) v i + cross (axis_of q) (cross (axis_of q) v) i).

(** The determinant of a 3x3 matrix. *)
Definition det3 (A : mat) : R := dot (A 0%nat) (cross (A 1%nat) (A 2%nat)).

(** An orthogonal matrix of determinant [d]. *)
Definition orthogonal3 (d : R) (A : mat) : Prop :=
  meq 3 3 (mmul 3 A (mtr A)) mid /\ meq 3 3 (mmul 3 (mtr A) A) mid /\ det3 A = d.

(** The matrix of an element of O(3): minus the rotation when inverted. *)
Definition omat (e : oval) : mat :=
  mscal (if (fst e =? 0)%Z then 1 else -1) (as_matrix (snd e)).

(** Rotation by [t] around Z; half turn around X; reflection of Y. *)
Definition Rz (t : R) : mat := mat3 (cos t) (- sin t) 0 (sin t) (cos t) 0 0 0 1.
Definition halfX (f : Z) : mat := if (f =? 0)%Z then mid else mat3 1 0 0 0 (-1) 0 0 0 (-1).
Definition mirrorY (f : Z) : mat := if (f =? 0)%Z then mid else mat3 1 0 0 0 (-1) 0 0 0 1.

(** Angle and flip of an element of a planar group. *)
Definition angle_of (G : pgrp) (v : pval) : R :=
  match G, v with
  | Fin (Cyc N), VF (VC r) => 2 * PI / IZR N * IZR r
  | Fin (Dih N), VF (VD _ r) => 2 * PI / IZR N * IZR r
  | _, VS t => t
  | _, VO _ t => t
  | _, _ => 0
  end.
Definition flip_of (v : pval) : Z :=
  match v with VF (VD f _) => f | VO f _ => f | _ => 0%Z end.

(** Valid elements of the subgroups. *)
Definition smember (G : sgrp) (e : sval) : Prop :=
  match G, e with
  | GP G, EP v => pmember G v
  | GSO3, EQ q => unit q
  | GO3, EO e => ounit e
  | GCyl G, EC i v => (i = 0 \/ i = 1)%Z /\ pmember G v
  | _, _ => False
  end.

(** Two values of the same element: only the sign of a quaternion is free. *)
Definition same_elem (a b : sval) : Prop :=
  match a, b with
  | EQ p, EQ q => meq 3 3 (as_matrix p) (as_matrix q)
  | EO p, EO q => meq 3 3 (omat p) (omat q)
  | _, _ => a = b
  end.

(** The ids in the documentation of SO3, so3group.py:36-57. *)
Definition so3_documented (id : so3id) : Prop :=
  match id with S3Self => True | S3Plane _ N => (N = -1 \/ 0 < N)%Z end.

(** Whether a planar subgroup contains flips, and twice their axis. *)
Definition flips (f : flipspec) : bool := match f with FBool b => b | FFloat _ => true end.
Definition axis2 (f : flipspec) : R := match f with FBool _ => 0 | FFloat a => a end.

(** The group named by an id. *)
Definition plane_group (flip : bool) (N : Z) : pgrp :=
  if flip then if (N =? -1)%Z then O2 else if (N =? 1)%Z then Fin (Cyc 2) else Fin (Dih N)
  else if (N =? -1)%Z then SO2 else Fin (Cyc N).
Definition so3_group_of (id : so3id) : sgrp :=
  match id with S3Self => GSO3 | S3Plane f N => GP (plane_group (flips f) N) end.

(** Angle and flip of an element of that group: for N = 1 the group is C_2 and
    its non-trivial element is the flip. *)
Definition plane_angle (flip : bool) (N : Z) (v : pval) : R :=
  if flip && (N =? 1)%Z then 0 else angle_of (plane_group flip N) v.
Definition plane_flip (flip : bool) (N : Z) (v : pval) : Z :=
  if flip && (N =? 1)%Z then match v with VF (VC r) => r | _ => 0%Z end
  else flip_of v.

(** The rotation that an element of a planar subgroup stands for: a turn around
    Z, and for a flip the half turn around the axis at angle [axis2 / 2] in the
    XY plane. *)
Definition plane_matrix (f : flipspec) (N : Z) (v : pval) : mat :=
  let t := plane_angle (flips f) N v in
  let k := plane_flip (flips f) N v in
  mmul 3 (Rz (t + IZR k * axis2 f)) (halfX k).

Definition so3_matrix (id : so3id) (h : sval) : mat :=
  match id, h with
  | S3Self, EQ q => as_matrix q
  | S3Plane f N, EP v => plane_matrix f N v
  | _, _ => mid
  end.

(** [M] seen from the frame [A]. *)
Definition conjugate (A M : mat) : mat := mmul 3 (mtr A) (mmul 3 M A).

(** A subgroup of a group of 3x3 matrices: [G] the abstract group, [M] the matrix
    of each of its elements, [A] the frame. *)
Section Sub.
  Context {T : Type}.
  Variable valid : T -> Prop.
  Variable matrix : T -> mat.

  Record space_subgroup (A : mat) (G : sgrp) (M : sval -> mat) (s : ssub T) : Prop := {
    sub_group : s3_group s = G;
    (** inclusion: defined everywhere, with the right matrix *)
    sub_incl : forall h, smember G h ->
      exists g, s3_incl s h = Ret g /\ valid g /\ meq 3 3 (matrix g) (conjugate A (M h));
    (** it is multiplicative *)
    sub_mul : forall h k hk g1 g2 g12, smember G h -> smember G k -> smul G h k = Ret hk ->
      s3_incl s h = Ret g1 -> s3_incl s k = Ret g2 -> s3_incl s hk = Ret g12 ->
      meq 3 3 (matrix g12) (mmul 3 (matrix g1) (matrix g2));
    (** and injective *)
    sub_inj : forall h k g1 g2, smember G h -> smember G k ->
      s3_incl s h = Ret g1 -> s3_incl s k = Ret g2 -> meq 3 3 (matrix g1) (matrix g2) ->
      same_elem h k;
    (** restriction: never raises, and finds every element of the subgroup
        whatever quaternion it is written with *)
    sub_total : forall g, valid g -> exists o, s3_restr s g = Ret o;
    sub_restr : forall h g, smember G h -> valid g -> meq 3 3 (matrix g) (conjugate A (M h)) ->
      exists k, s3_restr s g = Ret (Some k) /\ smember G k /\ same_elem k h;
    (** it returns only elements whose matrix is the given one up to 1e-6 *)
    sub_sound : forall g k, valid g -> s3_restr s g = Ret (Some k) ->
      smember G k /\
      forall i j, (i < 3)%nat -> (j < 3)%nat ->
        Rabs (matrix g i j - conjugate A (M k) i j) <= / 10 ^ 6
  }.
End Sub.

(** The documented subgroups of a subgroup of SO(3). *)
Definition sub_documented (G : sgrp) (id : subid) : Prop :=
  match G, id with
  | GSO3, BSO3 id adj => so3_documented id /\ unit adj
  | GP SO2, BInt n => pdocumented SO2 (ISO2 n)
  | GP O2, BO2 axis n => pdocumented O2 (IO2 axis n)
  | GP (Fin (Cyc N)), BInt n => documented (Cyc N) (IdC n)
  | GP (Fin (Dih N)), BDih axis n => documented (Dih N) (IdD axis n)
  | _, _ => False
  end.

(** The two ways of including an element of the inner subgroup. *)
Definition agree (s1 s : ssub quat) (incl2 : sval -> res sval) (h : sval) : Prop :=
  exists g1 g2 g, incl2 h = Ret g1 /\ s3_incl s1 g1 = Ret g2 /\ s3_incl s h = Ret g /\
    meq 3 3 (as_matrix g) (as_matrix g2).
