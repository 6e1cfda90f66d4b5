(** C86: bases of functions on homogeneous spaces. *)
From Coq Require Import Reals ZArith List.
From Verif Require Import LibRes LibMat SpecGroup SpecRep SpecNonlin PlanarModel SpecPlanar IrrepModel SpecIrrep RepModel SpecRepr SpecReg IndModel SpecInd SpecDis SpecSchur
  GSpaceModel SpecGSpace FieldMapModel FourierModel SpecFourier HomModel SpecHom HomCor HomPlanar HomSharp HomEx.
Import ListNotations.
Open Scope R_scope.

(** C86. HomSpace.basis: if it returns at one element then it returns at all of
    them. The slices are functions on G that transform like rho from the left and
    obey the constraint of psi from the right. Together with their images under the
    commutant of rho they are orthonormal at every element, and every function of
    that kind is a combination of them with the same coefficients everywhere.
    Their number is the one dimension_basis announces. *)
Theorem C86_basis : forall (T S : Type) (mem : T -> Prop) (op : T -> T -> res T) (inv : T -> res T) (e : T) (memH : S -> Prop) (opH : S -> S -> res S) (invH : S -> res S) (eH : S) 
  (incl : S -> res T) (irrG : list Z -> res (girrep T)) (irrH : list Z -> res (girrep S)) (restrict : list Z -> res (repr S))
  (components : nat -> (nat -> nat -> bool) -> nat * (nat -> nat)) (psi : girrep S),
  is_group mem op inv e ->
  is_group memH opH invH eH ->
  is_embedding mem op memH opH incl ->
  orth_rep memH opH invH eH (gi_size psi) (gi_rep psi) ->
  irrH (gi_id psi) = Ret psi ->
  (0 < gi_size psi)%nat ->
  described memH psi ->
  (forall (id : list Z) (r : girrep S) (h : S) (b : sqmat), irrH id = Ret r -> memH h -> gi_rep r h = Ret b -> fst b = gi_size r) ->
  correct_components components ->
  forall (id : list Z) (rho : girrep T),
  inducible mem op inv e memH incl irrG irrH restrict id ->
  irrG id = Ret rho ->
  (forall r : repr S, restrict id = Ret r -> told_apart memH irrH psi r) ->
  forall (g0 : T) (B : list mat),
  basis irrG irrH restrict components g0 id (gi_id psi) = Ret B ->
  exists F : T -> list mat,
  (forall g : T, mem g -> basis irrG irrH restrict components g id (gi_id psi) = Ret (F g)) /\
  basis_of_fields mem op memH incl rho psi (length B) F /\ basis_shape irrG irrH restrict id (gi_id psi) = Ret (gi_size rho, length B, gi_size psi).
Proof. exact @hom_basis. Qed.
Print Assumptions C86_basis.

(** For SO(2), O(2), C_N and D_N and all their subgroups it always returns. *)
Theorem C86_planar : forall (G : pgrp) (sid : sub_id) (sg : psubgroup) (linv : nat -> mat -> res mat),
  pvalid G ->
  listed G sid ->
  any_subgroup G sid = Ret sg ->
  correct_inverse linv ->
  forall components : nat -> (nat -> nat -> bool) -> nat * (nat -> nat),
  correct_components components ->
  forall (pid' : list Z) (psi : girrep pval),
  irrep_ok (ps_group sg) pid' ->
  p_irr (ps_group sg) pid' = Ret psi ->
  forall (id : list Z) (rho : girrep pval),
  irrep_ok G id ->
  p_irr G id = Ret rho ->
  sharp_at G sid id ->
  exists (n : nat) (F : pval -> list mat),
  (forall g : pval, pmember G g -> basis (p_irr G) (p_irr (ps_group sg)) (hom_restrict linv G sid (ps_group sg)) components g id pid' = Ret (F g)) /\
  basis_of_fields (pmember G) (pmul G) (pmember (ps_group sg)) (ps_incl sg) rho psi n F /\
  basis_shape (p_irr G) (p_irr (ps_group sg)) (hom_restrict linv G sid (ps_group sg)) id pid' = Ret (gi_size rho, n, gi_size psi).
Proof. exact @planar_basis. Qed.
Print Assumptions C86_planar.

(** The hypothesis on the change of basis holds unless the axis of the subgroup is tilted. *)
Theorem C86_sharp : forall (G : pgrp) (sid : sub_id) (id : list Z),
  pvalid G -> listed G sid -> untilted sid -> irrep_ok G id -> forall x : sqmat * list (list Z), any_restrict_irrep G sid id = Ret x -> sharp (fst (fst x)) (snd (fst x)).
Proof. exact @untilted_sharp. Qed.
Print Assumptions C86_sharp.

(** complete_basis lists the values of all functions at a point: moving the point
    is acting with the induced representation. *)
Theorem C86_complete : forall (T S : Type) (mem : T -> Prop) (op : T -> T -> res T) (inv : T -> res T) (e : T) (irrG : list Z -> res (girrep T)) (irrH : list Z -> res (girrep S))
  (restrict : list Z -> res (repr S)) (components : nat -> (nat -> nat -> bool) -> nat * (nat -> nat)) (psi : girrep S),
  is_group mem op inv e ->
  irrH (gi_id psi) = Ret psi ->
  (0 < gi_size psi)%nat ->
  forall linv : nat -> mat -> res mat,
  correct_inverse linv ->
  forall (ids : list (list Z)) (ind : repr T),
  Forall (usable_irrep irrG mem op inv e) ids ->
  spectral irrG restrict linv psi ids = Ret (Some ind) ->
  forall (g0 : T) (v0 : list R),
  complete_basis irrG irrH restrict components linv g0 (gi_id psi) ids = Ret v0 ->
  forall a g ag : T,
  mem a ->
  mem g ->
  op a g = Ret ag ->
  exists (A : mat) (v : list R),
  r_fun ind a = Ret (r_size ind, A) /\
  complete_basis irrG irrH restrict components linv g (gi_id psi) ids = Ret v /\
  length v = r_size ind /\ complete_basis irrG irrH restrict components linv ag (gi_id psi) ids = Ret (mv (r_size ind) A v).
Proof. exact @complete_moves. Qed.
Print Assumptions C86_complete.

Theorem C86_planar_complete : forall (G : pgrp) (sid : sub_id) (sg : psubgroup) (linv : nat -> mat -> res mat),
  pvalid G ->
  listed G sid ->
  any_subgroup G sid = Ret sg ->
  correct_inverse linv ->
  forall components : nat -> (nat -> nat -> bool) -> nat * (nat -> nat),
  correct_components components ->
  forall (pid' : list Z) (psi : girrep pval),
  irrep_ok (ps_group sg) pid' ->
  p_irr (ps_group sg) pid' = Ret psi ->
  forall ids : list (list Z),
  Forall (fun id : list Z => irrep_ok G id /\ sharp_at G sid id) ids ->
  NoDup ids ->
  ids <> [] ->
  exists ind : option (repr pval),
  spectral (p_irr G) (hom_restrict linv G sid (ps_group sg)) linv psi ids = Ret ind /\
  match ind with
  | Some r =>
  forall a g ag : pval,
  pmember G a ->
  pmember G g ->
  pmul G a g = Ret ag ->
  exists (A : mat) (v : list R),
  r_fun r a = Ret (r_size r, A) /\
  length v = r_size r /\
  complete_basis (p_irr G) (p_irr (ps_group sg)) (hom_restrict linv G sid (ps_group sg)) components linv g pid' ids = Ret v /\
  complete_basis (p_irr G) (p_irr (ps_group sg)) (hom_restrict linv G sid (ps_group sg)) components linv ag pid' ids = Ret (mv (r_size r) A v)
  | None => forall g : pval, complete_basis (p_irr G) (p_irr (ps_group sg)) (hom_restrict linv G sid (ps_group sg)) components linv g pid' ids = Ret []
  end.
Proof. exact @planar_complete. Qed.
Print Assumptions C86_planar_complete.

(** On the circle there is one function for each frequency, over the complex numbers. *)
Example C86_ex : forall linv components k, correct_inverse linv -> correct_components components -> (0 < k)%Z ->
  exists sg rho psi F, any_subgroup SO2 (IdP (ISO2 1)) = Ret sg /\ irrep_ok SO2 [k] /\ irrep_ok (ps_group sg) [0%Z] /\ listed SO2 (IdP (ISO2 1)) /\ untilted (IdP (ISO2 1)) /\
    p_irr SO2 [k] = Ret rho /\ p_irr (ps_group sg) [0%Z] = Ret psi /\ gi_size rho = 2%nat /\ length (gi_endo rho) = 2%nat /\
    (forall g, pmember SO2 g -> basis (p_irr SO2) (p_irr (ps_group sg)) (hom_restrict linv SO2 (IdP (ISO2 1)) (ps_group sg)) components g [k] [0%Z] = Ret [F g]) /\
    basis_of_fields (pmember SO2) (pmul SO2) (pmember (ps_group sg)) (ps_incl sg) rho psi 1 (fun g => [F g]).
Proof. exact circle_example. Qed.
