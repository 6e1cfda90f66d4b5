(** Specification vocabulary for the initialization of weights. *)
From Coq Require Import Reals List ZArith.
From Verif Require Import HeModel.
Import ListNotations.
Open Scope R_scope.

(** The sum of [f] over the elements of a list that satisfy [P]. *)
Inductive sums_to {A} (P : A -> Prop) (f : A -> R) : list A -> R -> Prop :=
| sums_nil : sums_to P f [] 0
| sums_in x l s : P x -> sums_to P f l s -> sums_to P f (x :: l) (f x + s)
| sums_out x l s : ~ P x -> sums_to P f l s -> sums_to P f (x :: l) s.

(** A memory in which the variances of every manager are the right ones. *)
Definition cache_ok (infos : Z -> nat * list battr) (mem : list (Z * list R)) : Prop :=
  forall bm v, In (bm, v) mem -> he_vars (fst (infos bm)) (snd (infos bm)) = LibRes.Ret v.
