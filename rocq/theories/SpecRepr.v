(** What it means for a [repr] to be a representation, to be described correctly
    by the data stored with it, and for matrix inversion to be correct. *)
From Coq Require Import Reals List ZArith.
From Verif Require Import LibRes LibMat FinGroupModel PlanarModel IrrepModel SpecRep SpecPlanar SpecIrrep RepModel.
Import ListNotations.
Open Scope R_scope.

(** [rho] is a total homomorphism into n x n matrices. *)
Record lin_rep {T} (mem : T -> Prop) (op : T -> T -> res T) (e : T)
    (n : nat) (rho : T -> res (nat * mat)) : Prop := {
  lr_total : forall g, mem g -> exists A, rho g = Ret (n, A);
  lr_unit : exists A, rho e = Ret (n, A) /\ meq n n A mid;
  lr_mul : forall g h, mem g -> mem h -> exists gh A B C,
    op g h = Ret gh /\ rho g = Ret (n, A) /\ rho h = Ret (n, B) /\ rho gh = Ret (n, C) /\
    meq n n C (mmul n A B)
}.

(** What the library promises about `group.irrep( *id )`. *)
Definition sound_irrep {T} (irr : list Z -> res (girrep T)) (mem : T -> Prop) (op : T -> T -> res T) (e : T)
    (id : list Z) : Prop :=
  exists r, irr id = Ret r /\ gi_id r = id /\ (0 < gi_size r)%nat /\
    lin_rep mem op e (gi_size r) (gi_rep r) /\ is_character mem (gi_size r) (gi_rep r) (gi_char r).

(** A correct inverse: what scipy computes for an invertible matrix up to
    rounding; it raises on a singular one. *)
Definition correct_inverse (linv : nat -> mat -> res mat) : Prop :=
  forall n A, (forall B, linv n A = Ret B -> inverse_of n A B) /\
              ((exists B, inverse_of n A B) -> exists B, linv n A = Ret B).

(** The total size of a list of irreps. *)
Definition total_size {T} (irr : list Z -> res (girrep T)) (ids : list (list Z)) (n : nat) : Prop :=
  exists l, mapM irr ids = Ret l /\ list_sum (map gi_size l) = n.

(** The values of the listed irreps at [g]. *)
Definition values {T} (irr : list Z -> res (girrep T)) (ids : list (list Z)) (g : T) : res (list (nat * mat)) :=
  mapM (fun id => r <- irr id ;; gi_rep r g) ids.

(** The irreps and the change of basis stored in [r] reproduce its values:
    r(g) = cob @ blockdiag(irreps at g) @ cob^-1. *)
Definition reproduces {T} (irr : list Z -> res (girrep T)) (mem : T -> Prop) (r : repr T) : Prop :=
  inverse_of (r_size r) (r_cob r) (r_inv r) /\
  forall g, mem g -> exists bs A,
    values irr (r_irreps r) g = Ret bs /\ bsize bs = r_size r /\ r_fun r g = Ret (r_size r, A) /\
    meq (r_size r) (r_size r) A (mmul (r_size r) (mmul (r_size r) (r_cob r) (bdiag bs)) (r_inv r)).

(** The change of basis is not one that `np.allclose` takes for the identity
    without being it. *)
Definition sharp (n : nat) (Q : mat) : Prop := meq n n Q mid \/ allclose n n Q mid = false.

(** [restr id] decomposes the restriction of the irrep [id] of G along
    [incl : H -> G] into irreps of H. *)
Definition sound_restriction {G H} (irrG : list Z -> res (girrep G)) (irrH : list Z -> res (girrep H))
    (memG : G -> Prop) (memH : H -> Prop) (opH : H -> H -> res H) (eH : H) (incl : H -> res G)
    (restr : list Z -> res ((nat * mat) * list (list Z))) (id : list Z) : Prop :=
  exists s Q hids, irrG id = Ret s /\ restr id = Ret ((gi_size s, Q), hids) /\
    (0 < gi_size s)%nat /\ orthogonal (gi_size s) Q /\ Forall (sound_irrep irrH memH opH eH) hids /\
    total_size irrH hids (gi_size s) /\
    forall h, memH h -> exists g A bs, incl h = Ret g /\ memG g /\ gi_rep s g = Ret (gi_size s, A) /\
      values irrH hids h = Ret bs /\ bsize bs = gi_size s /\
      meq (gi_size s) (gi_size s) A (mmul (gi_size s) (mmul (gi_size s) Q (bdiag bs)) (mtr Q)).

(** An inverse of [cob], given or left to the constructor. *)
Definition good_inv (n : nat) (cob : mat) (inv : option mat) : Prop :=
  match inv with None => exists B, inverse_of n cob B | Some i => inverse_of n cob i end.

(** A representation described correctly by sound irreps. *)
Definition proper {T} (irr : list Z -> res (girrep T)) (mem : T -> Prop) (op : T -> T -> res T) (e : T)
    (r : repr T) : Prop :=
  r_irreps r <> [] /\ Forall (sound_irrep irr mem op e) (r_irreps r) /\
  total_size irr (r_irreps r) (r_size r) /\ reproduces irr mem r.

(** The same for the irreps of C_N, D_N, SO(2), O(2). *)
Definition planar_repr (G : pgrp) (r : repr pval) : Prop :=
  r_irreps r <> [] /\ Forall (irrep_ok G) (r_irreps r) /\
  total_size (p_irr G) (r_irreps r) (r_size r) /\ reproduces (p_irr G) (pmember G) r.
