(** What a convolution layer is given. *)
From Coq Require Import String.
From Coq Require Import Reals ZArith List.
From Verif Require Import LibRes LibMat BlocksModel GridModel SpecGrid ImageModel SpecImage.
Import ListNotations.

(** No two different fields have the same escaped name. *)
Definition told_apart {A} (name : A -> string) (l : list A) : Prop :=
  forall a b, In a l -> In b l -> escape_name (name a) = escape_name (name b) -> a = b.
(** The fields are [groups] copies of one list. *)
Definition grouped {A} (groups : nat) (l : list A) : Prop := (groups <= 1)%nat \/ exists f, l = concat (repeat f groups).
(** The filter [f] has at the points of the grid the values of a kernel that is
    steerable for the element that acts by [M], [Bi] and [Bo]. *)
Definition filter_of_steerable (n k dil cout cin : nat) (M Bi Bo : mat) (f : nat -> nat -> nat -> R) : Prop :=
  exists K, kernel_on n cout cin K /\ steers n cout cin M Bi Bo K /\
    forall o i t, (o < cout)%nat -> (i < cin)%nat -> valid (repeat k n) t -> f o i (ravel k t) = K (grid_coords k dil (ravel k t)) o i.
(** The strides fit the padded axes exactly. *)
Definition fits (k p stride dil : nat) (ws : list nat) : Prop := Forall (fun w => (w + 2 * p - (dil * (k - 1) + 1)) mod stride = 0)%nat ws.
