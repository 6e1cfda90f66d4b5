(** Pooling over windows of a grid, said without the model. *)
From Coq Require Import Reals List Arith.
From Verif Require Import LibMat GridModel SpecGrid.
Import ListNotations.
Open Scope R_scope.

(** The point [q] of a grid of sizes [ws] lies under the window at [pos], made of
    [k] taps [d] apart along each axis; windows are [s] apart and the first one
    starts [p] before the grid. *)
Definition under (k s p d : nat) (ws pos q : list nat) : Prop :=
  valid ws q /\ exists t, length t = length q /\ length pos = length q /\
    forall a, (a < length q)%nat -> (nth a t 0 < k)%nat /\ (nth a q 0 + p = s * nth a pos 0 + d * nth a t 0)%nat.

(** [v] is the largest value of [f] on the points [P]. *)
Definition largest (P : list nat -> Prop) (f : list nat -> R) (v : R) : Prop :=
  (exists q, P q /\ f q = v) /\ forall q, P q -> f q <= v.

(** [v] is the sum of [f] over the points [P]. *)
Definition sums_to (P : list nat -> Prop) (f : list nat -> R) (v : R) : Prop :=
  exists l, NoDup l /\ (forall q, In q l <-> P q) /\ v = fold_right Rplus 0 (map f l).

(** The windows reach the end of the padding along an axis of size [w]. *)
Definition fits (k s p d w : nat) : Prop := exists q, (w + 2 * p = d * (k - 1) + 1 + s * q)%nat.

(** The point [q] lies in the cell [pos] when each axis is cut into [o] cells: its
    pixel [q, q + 1) meets the interior of the cell [pos * w / o, (pos + 1) * w / o). *)
Definition in_cell (o : nat) (ws pos q : list nat) : Prop :=
  length q = length ws /\ forall a, (a < length ws)%nat ->
    (nth a q 0 < nth a ws 0 /\ nth a q 0 * o < (nth a pos 0 + 1) * nth a ws 0 /\ nth a pos 0 * nth a ws 0 < (nth a q 0 + 1) * o)%nat.

(** [m] taps of the window at [pos] fall on the padded grid. *)
Definition taps_on (k s p : nat) (ws pos : list nat) (m : nat) : Prop :=
  exists l, NoDup l /\ length l = m /\
    forall t, In t l <-> length t = length ws /\ forall a, (a < length ws)%nat -> (nth a t 0 < k /\ s * nth a pos 0 + nth a t 0 < nth a ws 0 + 2 * p)%nat.
