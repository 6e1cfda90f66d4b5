(** Commutants of irreps, disjoint irreps and clear-cut restrictions, said
    without the model. *)
From Coq Require Import Reals ZArith List.
From Verif Require Import LibRes LibMat SpecRep RepModel SpecRepr SpecInd.
Import ListNotations.
Open Scope R_scope.

(** [Fs] are the units of one of the algebras R, C, H acting on R^n: the first
    is the identity, all are orthogonal, any two are orthogonal to each other,
    and their first rows have entries 0, 1, -1 only. *)
Record unit_basis (n : nat) (Fs : list mat) : Prop := {
  ub_first : exists F Fs', Fs = F :: Fs' /\ meq n n F mid;
  ub_orth : Forall (orthogonal n) Fs;
  ub_anti : ForallOrdPairs (fun F G => meq n n (mmul n F (mtr G)) (mopp (mmul n G (mtr F)))) Fs;
  ub_row : forall F j, In F Fs -> (j < n)%nat -> F 0%nat j = 0 \/ F 0%nat j = 1 \/ F 0%nat j = -1
}.

(** No matrix other than 0 intertwines [rho] and [rho']. *)
Definition disjoint_irreps {T} (mem : T -> Prop) (rho rho' : girrep T) : Prop :=
  forall X, (forall g A B, mem g -> gi_rep rho g = Ret (gi_size rho, A) -> gi_rep rho' g = Ret (gi_size rho', B) ->
               meq (gi_size rho) (gi_size rho') (mmul (gi_size rho) A X) (mmul (gi_size rho') X B)) ->
    meq (gi_size rho) (gi_size rho') X mzero.

(** The library's description of the commutant of [rho] is right. *)
Definition described {T} (mem : T -> Prop) (rho : girrep T) : Prop :=
  spans_commutant mem (gi_size rho) (gi_rep rho) (gi_endo rho) /\
  unit_basis (gi_size rho) (gi_endo rho) /\ length (gi_endo rho) = gi_sosc rho.

(** The change of basis of the restriction [r] of [rho] is orthogonal, and it
    takes the commutant of [rho] to matrices none of whose entries is tiny
    without being zero. *)
Definition clear_restriction {T S} (rho : girrep T) (r : repr S) : Prop :=
  let d := gi_size rho in
  orthogonal d (r_cob r) /\
  forall E i j, In E (gi_endo rho) -> (i < d)%nat -> (j < d)%nat ->
    let x := mmul d (mmul d (r_inv r) E) (r_cob r) i j in x = 0 \/ / 10 ^ 9 < x ^ 2.

(** The irrep [id] of G is an orthogonal representation, its commutant is
    described rightly, and so are its restrictions to H. *)
Definition inducible {T S} (mem : T -> Prop) (op : T -> T -> res T) (inv : T -> res T) (e : T) (memH : S -> Prop)
    (incl : S -> res T) (irrG : list Z -> res (girrep T)) (irrH : list Z -> res (girrep S))
    (restrict : list Z -> res (repr S)) (id : list Z) : Prop :=
  exists rho, irrG id = Ret rho /\ gi_id rho = id /\ sound_irrep irrG mem op e id /\
    orth_rep mem op inv e (gi_size rho) (gi_rep rho) /\ described mem rho /\
    forall r, restrict id = Ret r -> restriction_of irrH memH incl rho r /\ clear_restriction rho r.

(** No two of the irreps share a constituent. *)
Definition pairwise_disjoint {T} (mem : T -> Prop) (irrG : list Z -> res (girrep T)) (ids : list (list Z)) : Prop :=
  ForallOrdPairs (fun id id' => forall rho rho', irrG id = Ret rho -> irrG id' = Ret rho' -> disjoint_irreps mem rho rho') ids.
