(** What the characters of SO(3) and O(3) are. *)
From Coq Require Import Reals ZArith Bool List.
From Verif Require Import LibRes LibMat LibTrig PlanarModel SpaceModel SpecSpace SpecIrrep.
Import ListNotations.
Open Scope R_scope.

(** The trace at a rotation by [t] of a representation in which each of the
    frequencies -l, ..., l around the axis occurs once. *)
Definition wave (l : nat) (t : R) : R := 1 + 2 * sumn l (fun k => cos (INR (S k) * t)).

(** The same for O(3): the inversion, counted by [i], changes the sign if [j] is 1. *)
Definition owave (i j l : Z) (t : R) : R := (if (j =? 1)%Z && negb (i =? 0)%Z then -1 else 1) * wave (Z.to_nat l) t.

(** [t] is the angle of the rotation [q] (up to its sign): the trace of a rotation of
    space by [t] is 1 + 2 cos t. *)
Definition turns_by (q : quat) (t : R) : Prop := trace 3 (as_matrix q) = 1 + 2 * cos t.

(** Sine of half the angle of a unit quaternion. *)
Definition half_sine (q : quat) : R := sqrt (qx q * qx q + qy q * qy q + qz q * qz q).

(** The sum of the traces of blocks, and of values with multiplicities. *)
Definition traces (bs : list (nat * mat)) : R := fold_right Rplus 0 (map (fun b => trace (fst b) (snd b)) bs).
Definition weighted {A} (f : A -> R) (xs : list (A * nat)) : R :=
  fold_right Rplus 0 (map (fun x => INR (snd x) * f (fst x)) xs).
