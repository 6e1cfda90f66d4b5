(** The five irreps of the rotations of a cube, said by what they do to the axes. *)
From Coq Require Import Reals ZArith Bool List.
From Verif Require Import LibRes LibMat PlanarModel SpaceModel SpecSpace SpecOcta.
Import ListNotations.
Open Scope R_scope.

(** Which axis goes to which, without the signs, and the sign of this permutation. *)
Definition squares (M : mat) : mat := fun i j => M i j * M i j.
Definition axes_sign (M : mat) : R := det3 (squares M).

(** The rotation in the order y, z, x of the axes. *)
Definition yzx (M : mat) : mat := fun i j => M ((i + 1) mod 3)%nat ((j + 1) mod 3)%nat.

(** An orthonormal basis of the plane x + y + z = 0, its two vectors exchanged by
    the exchange of y and z. *)
Definition plane (a i : nat) : R :=
  let h := / sqrt 3 in
  match i with
  | O => h
  | _ => if Nat.eqb i (S a) then (1 - h) / 2 else (- 1 - h) / 2
  end.

(** The irrep [l] of the documentation: the trivial one, the rotation, the rotation
    times the sign, the action on the plane x + y + z = 0, and the sign. *)
Definition octa_size (l : Z) : nat :=
  if (l =? 2)%Z then 2%nat else if ((l =? 1) || (l =? -1))%Z then 3%nat else 1%nat.
Definition octa_value (l : Z) (q : quat) : mat :=
  let M := as_matrix q in
  if (l =? 0)%Z then mid
  else if (l =? 1)%Z then yzx M
  else if (l =? -1)%Z then mscal (axes_sign M) (yzx M)
  else if (l =? 2)%Z then fun a b => sumn 3 (fun i => sumn 3 (fun j => plane a i * squares M i j * plane b j))
  else fun _ _ => axes_sign M.

Definition in_range (l : Z) : Prop := (-1 <= l <= 3)%Z.
Definition octa_fun (l : Z) (q : quat) : res (nat * mat) := Ret (octa_size l, octa_value l q).
Definition char_of (l : Z) (q : quat) : R := trace (octa_size l) (octa_value l q).

(** [X] maps the representation [B] to the representation [A]. *)
Definition maps_reps (n m : nat) (A B : quat -> mat) (X : mat) : Prop :=
  forall q, octahedral q -> meq n m (mmul n (A q) X) (mmul m X (B q)).
