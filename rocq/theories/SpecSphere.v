(** What points on the sphere, grids of them and the rotations standing for them
    are, said without the functions that build them. *)
From Coq Require Import Reals ZArith List.
From Verif Require Import LibRes LibMat SpaceModel SphereModel SpecSpace.
Import ListNotations.
Open Scope R_scope.

(** A point at distance one from the origin. *)
Definition on_sphere (p : vec) : Prop := vx p * vx p + vy p * vy p + vz p * vz p = 1.

(** The coordinates of a point. *)
Definition coord (p : vec) : nat -> R := fun i => match i with O => vx p | S O => vy p | _ => vz p end.

(** The north pole. *)
Definition pole : vec := Vec 0 0 1.

(** The opposite point; the point on the other side of the equator; the point
    turned by [t] around the axis through the poles. *)
Definition opposite (p : vec) : vec := Vec (- vx p) (- vy p) (- vz p).
Definition across (p : vec) : vec := Vec (vx p) (vy p) (- vz p).
Definition turned (t : R) (p : vec) : vec :=
  Vec (cos t * vx p - sin t * vy p) (sin t * vx p + cos t * vy p) (vz p).

(** A list of points is mapped into itself. *)
Definition closed_under (f : vec -> vec) (l : list vec) : Prop := forall p, In p l -> In (f p) l.

(** The element of SO(3) takes the pole to the point [p], that is, [p] is the
    point of the sphere SO(3) / SO(2) its coset stands for. *)
Definition stands_for (q : quat) (p : vec) : Prop :=
  unit q /\ forall i, (i < 3)%nat -> rotated q (coord pole) i = coord p i.

(** Two vectors pointing along the same line. *)
Definition parallel_to (p y : vec) : Prop := exists c, y = Vec (c * vx p) (c * vy p) (c * vz p).

(** The matrix with [m] applied to a point. *)
Definition moved_by (m : mat) (p p' : vec) : Prop :=
  forall i, (i < 3)%nat -> mvec 3 m (coord p) i = coord p' i.

(** The arguments a grid can be built from. *)
Definition proper (t : gtype) : Prop :=
  match t with
  | Rand draws => draws <> [] /\ Forall (fun y => y <> Vec 0 0 0) draws
  | Healpix N => (0 < N)%Z
  | Fibonacci N => (1 < N)%Z
  | Longlat N M => (1 < M)%Z
  end.
