(** The rotations of a cube, said without the functions that compute them. *)
From Coq Require Import Reals ZArith List.
From Verif Require Import LibRes LibMat FinGroupModel PlanarModel SpaceModel SpecSpace.
Open Scope R_scope.

(** A rotation that maps the cube with vertices (+-1, +-1, +-1) to itself: it
    permutes the axes up to sign. *)
Definition sign_or_zero (x : R) : Prop := x = -1 \/ x = 0 \/ x = 1.
Definition octahedral (q : quat) : Prop :=
  unit q /\ forall i j, (i < 3)%nat -> (j < 3)%nat -> sign_or_zero (as_matrix q i j).

(** The same rotation. *)
Definition same_rotation (p q : quat) : Prop := meq 3 3 (as_matrix p) (as_matrix q).

(** Rodrigues: rotation by [t] around the unit vector [u]. *)
Definition delta (j i : nat) : R := if Nat.eqb i j then 1 else 0.
Definition spin (u : nat -> R) (t : R) : mat :=
  fun i j => cos t * delta j i + sin t * cross u (delta j) i + (1 - cos t) * u j * u i.

(** The axis of the cyclic subgroup of order [N]: the diagonal of the cube for
    N = 3, the Z axis otherwise. *)
Definition fold_axis (N : Z) : nat -> R :=
  if (N =? 3)%Z then fun _ => / sqrt 3 else delta 2.

(** Vertices, centres of the faces and midpoints of the edges of the cube. *)
Definition point := nat -> R.
Definition is_sign (x : R) : Prop := x = 1 \/ x = -1.
Definition vertex (p : point) : Prop := is_sign (p 0%nat) /\ is_sign (p 1%nat) /\ is_sign (p 2%nat).
Definition edge (p : point) : Prop :=
  p 0%nat = 0 /\ is_sign (p 1%nat) /\ is_sign (p 2%nat) \/
  is_sign (p 0%nat) /\ p 1%nat = 0 /\ is_sign (p 2%nat) \/
  is_sign (p 0%nat) /\ is_sign (p 1%nat) /\ p 2%nat = 0.
Definition fixes (q : quat) (p : point) : Prop := forall i, (i < 3)%nat -> mvec 3 (as_matrix q) p i = p i.

Definition corner : point := fun _ => 1.
Definition top_face : point := delta 2.

(** The elements of the group of order [N]. *)
Definition turn_by (r : Z) : sval := EP (VF (VC r)).

(** A cyclic subgroup of order [N] seen from the frame [A], with its two maps:
    inclusion and restriction. *)
Record cyclic_subgroup (A : mat) (N : Z) (incl : sval -> res quat) (restr : quat -> res (option sval)) : Prop := {
  (** inclusion: an element of the group, with the right matrix *)
  cs_incl : forall r, (0 <= r < N)%Z -> exists g, incl (turn_by r) = Ret g /\ octahedral g /\
    meq 3 3 (as_matrix g) (conjugate A (spin (fold_axis N) (2 * PI / IZR N * IZR r)));
  (** it is multiplicative and injective *)
  cs_mul : forall r s g h k, (0 <= r < N)%Z -> (0 <= s < N)%Z ->
    incl (turn_by r) = Ret g -> incl (turn_by s) = Ret h -> incl (turn_by ((r + s) mod N)%Z) = Ret k ->
    meq 3 3 (as_matrix k) (mmul 3 (as_matrix g) (as_matrix h));
  cs_inj : forall r s g h, (0 <= r < N)%Z -> (0 <= s < N)%Z ->
    incl (turn_by r) = Ret g -> incl (turn_by s) = Ret h -> same_rotation g h -> r = s;
  (** restriction: never raises, inverts the inclusion, and returns an element
      only for its own rotation *)
  cs_total : forall g, octahedral g -> exists o, restr g = Ret o;
  cs_back : forall r g, (0 <= r < N)%Z -> incl (turn_by r) = Ret g -> restr g = Ret (Some (turn_by r));
  cs_sound : forall g h, octahedral g -> restr g = Ret (Some h) ->
    exists r k, (0 <= r < N)%Z /\ h = turn_by r /\ incl h = Ret k /\ same_rotation g k
}.
