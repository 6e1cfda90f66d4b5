(** Values that stand for group elements: several may stand for the same one.
    [c] maps a value to the element behind it. *)
From Coq Require Import List.
Import ListNotations.

(** [l] has one value of each element. *)
Record enumerates_by {T U} (c : T -> U) (mem : T -> Prop) (l : list T) : Prop := {
  eb_nodup : NoDup (map c l);
  eb_mem : Forall mem l;
  eb_all : forall x, mem x -> In (c x) (map c l)
}.

(** [eqb] tells whether two values stand for the same element. *)
Definition decides_by {T U} (c : T -> U) (mem : T -> Prop) (eqb : T -> T -> bool) : Prop :=
  forall x y, mem x -> mem y -> (eqb x y = true <-> c x = c y).
