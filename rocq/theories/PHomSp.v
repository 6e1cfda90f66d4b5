(** C92: bases of intertwiners. *)
From Coq Require Import Reals List ZArith Arith.
From Verif Require Import LibRes LibMat SpecRep PlanarModel SpecPlanar FinGroupModel SpecIrrep RepModel SpecRepr HomSpModel SpecHomSp HomSpCor.
Import ListNotations.
Open Scope R_scope.

Theorem C92_intertwiners : forall (G : pgrp) (r1 r2 : repr pval),
  pvalid G ->
  planar_repr G r1 ->
  planar_repr G r2 ->
  exists l : list mat, homomorphism_space (p_irr G) r1 r2 = Ret l /\ basis_of (r_size r2) (r_size r1) (intertwines (pmember G) (r_size r1) (r_size r2) (r_fun r1) (r_fun r2)) l.
Proof. exact @planar_hom_basis. Qed.
Print Assumptions C92_intertwiners.
Theorem C92_endomorphisms : forall (G : pgrp) (r : repr pval), pvalid G -> planar_repr G r -> exists l : list mat, repr_endomorphisms (p_irr G) r = Ret l /\ spans_commutant (pmember G) (r_size r) (r_fun r) l.
Proof. exact @planar_endo_basis. Qed.
Print Assumptions C92_endomorphisms.
Theorem C92_dimension : forall (T : Type) (irr : list Z -> res (girrep T)) (r1 r2 : repr T) (l : list mat) (ins outs : list (girrep T)),
  mapM irr (r_irreps r1) = Ret ins ->
  mapM irr (r_irreps r2) = Ret outs ->
  homomorphism_space irr r1 r2 = Ret l ->
  length l = list_sum (map (fun x : girrep T => list_sum (map (fun y : girrep T => if list_eq_dec Z.eq_dec (gi_id y) (gi_id x) then gi_sosc x else 0%nat) outs)) ins).
Proof. exact @hom_count. Qed.
Print Assumptions C92_dimension.
Theorem C92_disjoint : forall (G : pgrp) (r1 r2 : repr pval),
  pvalid G ->
  planar_repr G r1 ->
  planar_repr G r2 ->
  (forall id : list Z, In id (r_irreps r1) -> In id (r_irreps r2) -> False) ->
  homomorphism_space (p_irr G) r1 r2 = Ret [] /\ (forall X : mat, intertwines (pmember G) (r_size r1) (r_size r2) (r_fun r1) (r_fun r2) X -> meq (r_size r2) (r_size r1) X mzero).
Proof. exact @planar_no_hom. Qed.
Print Assumptions C92_disjoint.

(** A representation of C_4 with a repeated irrep of complex type, in another basis:
    it meets the hypotheses, and its endomorphisms have dimension 1 + 2 * 4. *)
Example C92_ex : forall linv, correct_inverse linv -> exists r,
  mk_repr (p_irr (Fin (Cyc 4))) linv [[0%Z]; [1%Z]; [1%Z]] 5 skew (Some unskew) = Ret r /\ planar_repr (Fin (Cyc 4)) r /\ r_cob r = skew /\
  exists l, repr_endomorphisms (p_irr (Fin (Cyc 4))) r = Ret l /\ length l = 9%nat.
Proof. exact twice. Qed.
(** The trivial and a two dimensional irrep of O(2) are disjoint. *)
Example C92_disjoint_ex : exists x y, p_irr O2 [0%Z; 0%Z] = Ret x /\ p_irr O2 [1%Z; 2%Z] = Ret y /\ planar_repr O2 (repr_of_irrep x) /\ planar_repr O2 (repr_of_irrep y) /\
  (forall id, In id (r_irreps (repr_of_irrep x)) -> In id (r_irreps (repr_of_irrep y)) -> False).
Proof. exact apart. Qed.
