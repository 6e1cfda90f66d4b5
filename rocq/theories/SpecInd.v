(** Restricted and induced representations, said without the model. *)
From Coq Require Import Reals ZArith List.
From Verif Require Import LibRes LibMat SpecRep RepModel SpecRepr.
Import ListNotations.
Open Scope R_scope.

(** [r] is the restriction of the irrep [rho] along [incl]. *)
Definition restriction_of {T S} (irrH : list Z -> res (girrep S)) (memH : S -> Prop) (incl : S -> res T)
    (rho : girrep T) (r : repr S) : Prop :=
  r_size r = gi_size rho /\ reproduces irrH memH r /\
  forall h, memH h -> exists g A B, incl h = Ret g /\ gi_rep rho g = Ret (gi_size rho, A) /\
    r_fun r h = Ret (gi_size rho, B) /\ meq (gi_size rho) (gi_size rho) A B.

(** Every listed endomorphism commutes with the irrep. *)
Definition endo_commutes {S} (memH : S -> Prop) (psi : girrep S) : Prop :=
  forall h P E, memH h -> gi_rep psi h = Ret (gi_size psi, P) -> In E (gi_endo psi) ->
    meq (gi_size psi) (gi_size psi) (mmul (gi_size psi) P E) (mmul (gi_size psi) E P).

(** [A] is the value at [g] of the representation induced from [psi] with coset
    representatives [reps]: in block (i, j) it is psi(h) if g r_j = r_i h and
    zero if g r_j is not in r_i H. *)
Definition induced_value {T S} (op : T -> T -> res T) (memH : S -> Prop) (incl : S -> res T) (psi : girrep S)
    (reps : list T) (g : T) (A : mat) : Prop :=
  let s := gi_size psi in
  forall i j x y z, nth_error reps i = Some x -> nth_error reps j = Some y -> op g y = Ret z ->
    (forall h k P, memH h -> incl h = Ret k -> op x k = Ret z -> gi_rep psi h = Ret (s, P) ->
       forall p q, (p < s)%nat -> (q < s)%nat -> A (i * s + p)%nat (j * s + q)%nat = P p q) /\
    ((~ exists h k, memH h /\ incl h = Ret k /\ op x k = Ret z) ->
       forall p q, (p < s)%nat -> (q < s)%nat -> A (i * s + p)%nat (j * s + q)%nat = 0).
