(** What InducedNormBatchNorm should do. *)
From Coq Require Import Reals List Arith Bool.
From Verif Require Import LibMat SpecField SpecNonlin.
Import ListNotations.
Open Scope R_scope.

Definition both_eqb (a b : nat * nat) : bool := Nat.eqb (fst a) (fst b) && Nat.eqb (snd a) (snd b).
(** The number kept for the [j]-th field with sizes [s]. *)
Definition kept2 (d : list ((nat * nat) * list R)) (s : nat * nat) (j : nat) : R :=
  match find (fun e => both_eqb (fst e) s) d with Some e => nth j (snd e) 0 | None => 0 end.
(** Field [i] is the [j]-th one of its size and with sub-fields of its size. *)
Definition rank2 {A} (size sub : A -> nat) (ft : list A) (i : nat) (s : nat * nat) (j : nat) : Prop :=
  nth_error (labelled both_eqb (map (fun r => (size r, sub r)) ft) s) j = Some i.
