(** A group action seen through a change of coordinates. *)
From Coq Require Import Reals.
From Verif Require Import LibRes LibMat PolarModel SpecPolar.
Open Scope R_scope.

(** In the coordinates A x the action is [f]: x is sent to A^T f(A x). *)
Definition seen_through (A : mat) (f : point -> point) (x : point) : point := move (mtr A) (f (move A x)).
