(** Specification vocabulary for the ways to name an irrep of SO(3) or O(3). *)
From Coq Require Import String List ZArith.
From Verif Require Import LibRes IrrIdModel.
Import ListNotations.
Open Scope Z_scope.

(** The ids of the irreps. *)
Definition irr_ok (G : igroup) (id : list Z) : Prop :=
  match G with
  | GSO3 => exists l, id = [l] /\ 0 <= l
  | GO3 => exists j l, id = [j; l] /\ (j = 0 \/ j = 1) /\ 0 <= l
  end.

(** An argument that is the irrep with this id, its id, or its only frequency. *)
Definition denotes (G : igroup) (a : irr_arg) (id : list Z) : Prop :=
  a = AIrrep G id \/ a = ATuple id \/ exists n, a = AInt n /\ id = [n].
