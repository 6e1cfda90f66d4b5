(** What an orthogonal representation, its character, a decomposition into
    blocks and a commutant are, said without any function of the model. *)
From Coq Require Import Reals List.
From Verif Require Import LibRes LibMat.
Import ListNotations.
Open Scope R_scope.

(** [rho] is a total homomorphism into orthogonal n x n matrices. *)
Record orth_rep {T} (mem : T -> Prop) (op : T -> T -> res T) (inv : T -> res T) (e : T)
    (n : nat) (rho : T -> res (nat * mat)) : Prop := {
  or_total : forall g, mem g -> exists A, rho g = Ret (n, A) /\ orthogonal n A;
  or_unit : exists A, rho e = Ret (n, A) /\ meq n n A mid;
  or_mul : forall g h, mem g -> mem h -> exists gh A B C,
    op g h = Ret gh /\ rho g = Ret (n, A) /\ rho h = Ret (n, B) /\ rho gh = Ret (n, C) /\
    meq n n C (mmul n A B);
  or_inv : forall g, mem g -> exists gi A B,
    inv g = Ret gi /\ rho g = Ret (n, A) /\ rho gi = Ret (n, B) /\ meq n n B (mtr A)
}.

(** [ch] is the trace of [rho]. *)
Definition is_character {T} (mem : T -> Prop) (n : nat) (rho : T -> res (nat * mat))
    (ch : T -> res R) : Prop :=
  forall g, mem g -> exists A, rho g = Ret (n, A) /\ ch g = Ret (trace n A).

(** On every [h], [rho h] is [cob] times the block diagonal matrix of
    [blocks h] times the transpose of the orthogonal matrix [cob]. *)
Definition decomposes {T} (mem : T -> Prop) (n : nat) (rho : T -> res (nat * mat))
    (cob : nat * mat) (blocks : T -> res (list (nat * mat))) : Prop :=
  fst cob = n /\ orthogonal n (snd cob) /\
  forall h, mem h -> exists A bs,
    rho h = Ret (n, A) /\ blocks h = Ret bs /\ bsize bs = n /\
    meq n n A (mmul n (mmul n (snd cob) (bdiag bs)) (mtr (snd cob))).

(** Linear combination of matrices. *)
Fixpoint lincomb (cs : list R) (bs : list mat) : mat :=
  match cs, bs with
  | c :: cs, b :: bs => madd (mscal c b) (lincomb cs bs)
  | _, _ => mzero
  end.

(** [basis] is a basis of the matrices commuting with every value of [rho]. *)
Definition spans_commutant {T} (mem : T -> Prop) (n : nat) (rho : T -> res (nat * mat))
    (basis : list mat) : Prop :=
  (forall X, (forall g A, mem g -> rho g = Ret (n, A) -> meq n n (mmul n A X) (mmul n X A)) <->
             exists cs, length cs = length basis /\ meq n n X (lincomb cs basis)) /\
  (forall cs, length cs = length basis -> meq n n (lincomb cs basis) mzero ->
     Forall (fun c => c = 0) cs).

(** No subspace other than 0 and the whole space is stable: an orthogonal
    projection (symmetric, idempotent) that commutes with every value of [rho]
    is 0 or the identity. *)
Definition irreducible {T} (mem : T -> Prop) (n : nat) (rho : T -> res (nat * mat)) : Prop :=
  (0 < n)%nat /\
  forall P, meq n n (mmul n P P) P -> meq n n (mtr P) P ->
    (forall g A, mem g -> rho g = Ret (n, A) -> meq n n (mmul n A P) (mmul n P A)) ->
    meq n n P mzero \/ meq n n P mid.
