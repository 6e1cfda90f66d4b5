(** Projections of a tensor square that commute with a group. *)
From Coq Require Import Reals List.
From Verif Require Import LibRes LibMat FieldModel RepModel RdConvModel.
Open Scope R_scope.

(** P(g) W = W (A(g) (x) A(g)) for every element [g] of the group, where A is the
    representation of [i], P that of the output type and the columns of [W] are
    numbered by pairs. *)
Definition commuting_projection {L T} (rep : L -> repr T) (mem : T -> Prop) (i : L) (outs : list L) (W : mat) : Prop :=
  let s := asize rep i in
  forall g A P, mem g -> r_fun (rep i) g = Ret (s, A) -> fiber_matrix rep outs g = Ret P ->
  forall r a b, (r < type_size (asize rep) outs)%nat -> (a < s)%nat -> (b < s)%nat ->
  sumn (type_size (asize rep) outs) (fun j => P r j * W j (a * s + b)%nat) =
  sumn s (fun c => sumn s (fun d => W r (c * s + d)%nat * (A c a * A d b))).
