(** The action of a representation on points of the plane, and which steerable
    subspaces a filter keeps. *)
From Coq Require Import Reals List ZArith.
From Verif Require Import LibRes LibMat PlanarModel RepModel KernelModel PolarModel.
Import ListNotations.
Open Scope R_scope.

(** The image of a point under a 2 x 2 matrix. *)
Definition move (M : mat) (x : point) : point :=
  (M 0%nat 0%nat * fst x + M 0%nat 1%nat * snd x, M 1%nat 0%nat * fst x + M 1%nat 1%nat * snd x).
Definition act_of (r : repr pval) (g : pval) (x : point) : point :=
  match r_fun r g with Ret (_, M) => move M x | Raise => x end.

(** Radial profile number [i] with its parameters. *)
Definition profile_attr (p : gprofile) (i : nat) : rattr :=
  {| ra_radius := nth i (gp_radii p) 0; ra_sigma := nth i (gp_sigma p) 0; ra_idx := i |}.
(** The numbers of the radial profiles the filter keeps with the irrep [id]. *)
Definition wanted (flt : option (rattr * list Z -> bool)) (p : gprofile) (id : list Z) : list nat :=
  filter (fun i => match flt with None => true | Some f => f (profile_attr p i, id) end) (seq 0 (length (gp_radii p))).

(** Iterating over the attributes of the subspaces of frequency [j] yields the kept
    ones in order, and asking for one of them gives the same. *)
Definition lists_wanted (ar : arrangement) (flt : option (rattr * list Z -> bool)) (p : gprofile) (s : shells) (j : nat) : Prop :=
  exists l, steerable_attrs_j_iter ar s (ar_id ar j) = Ret l /\ map h_ridx l = wanted flt p (ar_id ar j) /\
    forall i, (i < length l)%nat -> exists h, nth_error l i = Some h /\ steerable_attrs_j ar s (ar_id ar j) i = Ret h.
(** The filter that keeps every frequency but 0. *)
Definition no_zero (x : rattr * list Z) : bool := match snd x with [_; k] => negb (k =? 0)%Z | _ => true end.

(** The bell of height 1, centre [c] and width [w]. *)
Definition bell (c w r : R) : R := exp (- (((r - c) / w) ^ 2 / 2)).
(** The wave number [o] of frequency [j] on the circle: cos j t or sin j t. *)
Definition wave (j o : nat) (t : R) : R := match o with O => cos (INR j * t) | _ => sin (INR j * t) end.
(** How many waves a frequency has. *)
Definition waves (j : nat) : nat := match j with O => 1%nat | _ => 2%nat end.
