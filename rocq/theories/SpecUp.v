(** Interpolation on a grid, said without the model. *)
From Coq Require Import Reals List Arith.
From Verif Require Import LibMat GridModel SpecGrid SpecSPool.
Import ListNotations.
Open Scope R_scope.

(** the hat function *)
Definition tent (t : R) : R := Rmax 0 (1 - Rabs t).
Definition clamp (w : nat) (t : R) : R := Rmax 0 (Rmin t (INR w - 1)).
(** Where the centre of cell [i] of [o] lies, in steps between the centres of the [w]
    cells of the input, kept within these *)
Definition centre (w o i : nat) : R := clamp w ((INR i + 1 / 2) * (INR w / INR o) - 1 / 2).
(** The same when the centres of the first cells and of the last cells coincide *)
Definition aligned (w o i : nat) : R := INR i * ((INR w - 1) / (INR o - 1)).

(** the product over the axes of [f w o i q] *)
Definition over_axes (f : nat -> nat -> nat -> nat -> R) (ws os pos q : list nat) : R :=
  fold_right Rmult 1 (map (fun a => f (nth a ws 0%nat) (nth a os 0%nat) (nth a pos 0%nat) (nth a q 0%nat)) (seq 0 (length ws))).
(** The value of the multilinear interpolation of [v] at output [pos]: every point of
    the grid counts with the product of its tents. *)
Definition interpolated (place : nat -> nat -> nat -> R) (ws os pos : list nat) (v : list nat -> R) (r : R) : Prop :=
  sums_to (valid ws) (fun q => over_axes (fun w o i j => tent (place w o i - INR j)) ws os pos q * v q) r.
(** The cell of the input that contains the left end of cell [i] of [o] *)
Definition left_cell (w o i q : nat) : Prop := (q < w /\ q * o <= i * w < (q + 1) * o)%nat.
(** The sizes [os] are the requested ones, or the integral parts of [scale] times [ws] *)
Definition upsized (size : option (list nat)) (scale : option R) (ws os : list nat) : Prop :=
  (size = Some os /\ scale = None) \/ (size = None /\ exists s, scale = Some s /\ Forall2 (fun w o => INR o <= INR w * s < INR o + 1) ws os).
(** The scale, if there is one, takes the sizes to integers *)
Definition whole (scale : option R) (ws : list nat) : Prop := forall s, scale = Some s -> Forall (fun w => exists m, INR w * s = INR m) ws.
