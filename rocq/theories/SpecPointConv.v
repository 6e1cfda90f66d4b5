(** What a convolution on a point cloud is. *)
From Coq Require Import String.
From Coq Require Import Reals List Arith.
From Verif Require Import LibMat.
Import ListNotations.
Local Open Scope R_scope.

(** The point [p] of R^d moved by the matrix [M], and by the vector [t]. *)
Definition turned (d : nat) (M : mat) (p : list R) : list R := map (fun o => sumn d (fun i => M o i * nth i p 0)) (seq 0 d).
Definition shifted (t p : list R) : list R := map (fun k => nth k p 0 + nth k t 0) (seq 0 (List.length p)).
(** From the point [q] to the point [p]. *)
Definition offset (d : nat) (p q : list R) : list R := map (fun k => nth k p 0 - nth k q 0) (seq 0 d).

(** [K] is a kernel on R^d, steerable for the element that acts by [M] on R^d, by
    [Bi] on the input and by [Bo] on the output. *)
Definition steerable_on (d cout cin : nat) (M Bi Bo : mat) (K : nat -> nat -> list R -> R) : Prop :=
  forall p, List.length p = d -> forall o i, (o < cout)%nat -> (i < cin)%nat ->
    sumn cin (fun j => K o j (turned d M p) * Bi j i) = sumn cout (fun j => Bo o j * K j i p).

(** The mean of a list of numbers; that of the empty list is 0. *)
Definition mean (l : list R) : R := fold_right Rplus 0 l / INR (Nat.max 1 (List.length l)).
(** Edges between the first [n] nodes; the edges that enter node [i]. *)
Definition between (n : nat) (edges : list (nat * nat)) : Prop := Forall (fun e => (fst e < n)%nat /\ (snd e < n)%nat) edges.
Definition entering {B} (i : nat) (edges : list ((nat * nat) * B)) : list ((nat * nat) * B) := filter (fun e => Nat.eqb (snd (fst e)) i) edges.
(** The displacements along the edges. *)
Definition along_edges (d : nat) (coords : list (list R)) (edges : list (nat * nat)) : list (list R) :=
  map (fun e => offset d (nth (fst e) coords []) (nth (snd e) coords [])) edges.
(** [s] renumbers [n] nodes. *)
Definition renumbers (n : nat) (s : nat -> nat) : Prop :=
  (forall i, (i < n)%nat -> (s i < n)%nat) /\ (forall i j, (i < n)%nat -> (j < n)%nat -> s i = s j -> i = j).
(** [L] is the integer that a number is cut down to: towards zero. *)
Definition cut_to (L : Z) (x : R) : Prop := (0 <= x -> IZR L <= x < IZR L + 1) /\ (x < 0 -> IZR L - 1 < x <= IZR L).
(** The largest value of [f] on the list [l]. *)
Definition largest (f : R -> R) (l : list R) (v : R) : Prop := (exists r, In r l /\ v = f r) /\ forall r, In r l -> f r <= v.
(** [n] points from 0 to [w], equally far apart. *)
Definition spaced (w : R) (n : nat) (l : list R) : Prop :=
  length l = n /\ (n = 1%nat -> l = [0]) /\ forall i, (1 < n)%nat -> (i < n)%nat -> nth i l 0 * INR (n - 1) = INR i * w.
