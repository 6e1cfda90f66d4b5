(** Specification vocabulary for the delta-orthogonal initialization. *)
From Coq Require Import Reals List ZArith Arith.
From Verif Require Import LibMat HeModel DeltaModel.
Import ListNotations.
Open Scope R_scope.

(** A weight at the centre of the kernel between two copies of the irrep [k]. *)
Definition at_centre (k : key) (a : dattr) : Prop :=
  d_in a = k /\ d_out a = k /\ (d_radius a = None \/ d_radius a = Some 0).

(** [K] lists the positions at which [k] occurs as an input (an output) of such weights. *)
Definition lists_inputs (info : list dattr) (k : key) (K : list key) : Prop :=
  NoDup K /\ forall q, In q K <-> exists a, In a info /\ at_centre k a /\ d_ip a = q.
Definition lists_outputs (info : list dattr) (k : key) (K : list key) : Prop :=
  NoDup K /\ forall q, In q K <-> exists a, In a info /\ at_centre k a /\ d_op a = q.

(** The draws: orthogonal matrices, and samples of which no row vanishes. *)
Definition orthogonal_draw (ortho : nat -> mat) : Prop :=
  forall n i j, (i < n)%nat -> (j < n)%nat ->
    sumn n (fun q => ortho n i q * ortho n j q) = (if Nat.eqb i j then 1 else 0) /\
    sumn n (fun q => ortho n q i * ortho n q j) = (if Nat.eqb i j then 1 else 0).
Definition proper_noise (s : nat) (noise : mat) : Prop := forall o, 0 < sumn s (fun q => noise o q * noise o q).
