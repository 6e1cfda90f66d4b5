(** When two computations of arrays agree, and functions that depend on nothing but the entries of
    their arguments. *)
From Coq Require Import Reals String Ascii List.
From Verif Require Import LibRes LibMat GridModel SpecGrid.

(** both fail, or both return the same array *)
Definition same_result {A} (a b : res (array A)) : Prop :=
  match a, b with
  | Raise, Raise => True
  | Ret x, Ret y => same_array x y
  | _, _ => False
  end.

(** The interpolation of images sees the entries of the array and of the matrix only. *)
Definition reads_entries {A} (affine : array A -> mat -> nat -> res (array A)) : Prop :=
  forall x x' T T' n, same_array x x' -> meq n n T T' -> same_result (affine x T n) (affine x' T' n).

(** The name contains a dot. *)
Definition dotted (s : string) : Prop := exists i, String.get i s = Some "."%char.
