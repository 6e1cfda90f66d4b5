(** C22: coset representatives, regular and induced representations. *)
From Coq Require Import Reals ZArith Bool List Lia Lra.
From Verif Require Import LibRes LibMat LibMatS SpecGroup FinGroupModel SpecFinGroup FinGroupProofs PlanarModel SpecPlanar
  IrrepModel SpecRep SpecIrrep ExhaustProofs RepModel SpecRepr RegModel SpecReg RegProofs RegThms IndModel SpecInd IndProofs IndThms
  SpecDis SpecSchur SchurInd IndFinModel IndPlanar IndEx.
Import ListNotations.
Open Scope R_scope.

(** The loop finds one representative of every left coset, and there are
    |G| / |H| of them. *)
Theorem C22_representatives : forall T S (mem : T -> Prop) op inv e (memH : S -> Prop) opH invH eH incl eqb els sels,
  is_group mem op inv e -> is_group memH opH invH eH -> is_embedding mem op memH opH incl ->
  enumerates mem els -> enumerates memH sels -> decides mem eqb ->
  exists reps, representatives eqb op els sels incl = Ret reps /\
    transversal mem op memH incl reps /\ length els = (length reps * length sels)%nat.
Proof. exact @representatives_ok. Qed.
Print Assumptions C22_representatives.

Theorem C22_same_coset : forall T S (mem : T -> Prop) op inv e (memH : S -> Prop) opH incl,
  is_group mem op inv e -> is_embedding mem op memH opH incl ->
  forall restr, is_restriction mem memH incl restr -> forall g1 g2, mem g1 -> mem g2 ->
  exists b, same_coset op inv restr g1 g2 = Ret b /\
    (b = true <-> exists h g, memH h /\ incl h = Ret g /\ op g1 g = Ret g2).
Proof. exact same_coset_iff. Qed.
Print Assumptions C22_same_coset.

(** The regular representation of a finite group maps e_y to e_{g y} and is
    described correctly by its irreps and change of basis. *)
Theorem C22_regular : forall T (mem : T -> Prop) op inv e eqb els irr linv ids ss,
  is_group mem op inv e -> enumerates mem els -> decides mem eqb -> correct_inverse linv ->
  mapM irr ids = Ret ss -> Forall (fun s => irr (gi_id s) = Ret s) ss ->
  Forall (typed_irrep mem op inv e) ss -> complete_irreps mem e (length els) ss -> has_trivial mem ss ->
  exists r, regular_representation eqb op inv els irr linv ids = Ret r /\ r_size r = length els /\
    proper irr mem op e r /\
    r_irreps r = map gi_id (flat_map (fun s => repeat s (gi_size s / gi_sosc s)) ss) /\
    forall g, mem g -> exists A, r_fun r g = Ret (length els, A) /\ permutes op els g A.
Proof. exact @regular_ok. Qed.
Print Assumptions C22_regular.

(** The hypotheses hold for C_N and D_N. *)
Theorem C22_regular_planar : forall G linv, valid_grp G = true -> correct_inverse linv -> exists l r,
  elements G = Ret l /\ enumerates (member G) l /\
  regular_representation (peqb G) (pmul (Fin G)) (pinv (Fin G)) (map VF l) (p_irr (Fin G)) linv (built_irreps G) = Ret r /\
  r_size r = length l /\ proper (p_irr (Fin G)) (pmember (Fin G)) (pmul (Fin G)) (pid (Fin G)) r /\
  forall g, pmember (Fin G) g -> exists A, r_fun r g = Ret (length l, A) /\ permutes (pmul (Fin G)) (map VF l) g A.
Proof. exact regular_planar. Qed.
Print Assumptions C22_regular_planar.

(** Whenever the loop of `build_induced_representation` passes its checks the
    assembled change of basis is orthogonal, exactly and not only within the
    tolerance of the checks, and the representation built from it is the induced
    one. [sharp] excludes a basis within 1e-8 of the identity without being it,
    which the constructor would take for the identity (see C20). *)
Theorem C22_induced : forall T S (mem : T -> Prop) op inv e (memH : S -> Prop) opH invH eH incl irrH restrict components
    (psi : girrep S) (reps : list T),
  is_group mem op inv e -> is_group memH opH invH eH -> is_embedding mem op memH opH incl ->
  transversal mem op memH incl reps ->
  orth_rep memH opH invH eH (gi_size psi) (gi_rep psi) -> irrH (gi_id psi) = Ret psi -> (0 < gi_size psi)%nat ->
  described memH psi ->
  (forall id r h b, irrH id = Ret r -> memH h -> gi_rep r h = Ret b -> fst b = gi_size r) ->
  correct_components components ->
  forall irrG linv, correct_inverse linv -> forall same index ids ids' cob cobi,
  Forall (inducible mem op inv e memH incl irrG irrH restrict) ids -> pairwise_disjoint mem irrG ids ->
  build_induced irrG irrH restrict components same index ids psi reps = Ret (ids', cob, cobi) ->
  let n := (gi_size psi * length reps)%nat in
  orthogonal n cob /\
  (sharp n cob ->
   exists r, induced_representation irrG irrH restrict components linv same index ids psi reps = Ret r /\
     r_size r = n /\ proper irrG mem op e r /\ r_irreps r = ids' /\
     forall g, mem g -> exists A, r_fun r g = Ret (n, A) /\ orthogonal n A /\ induced_value op memH incl psi reps g A).
Proof. exact @induced_full. Qed.
Print Assumptions C22_induced.

(** All of it for the subgroups of C_N and D_N and every irrep of theirs. *)
Theorem C22_induced_planar : forall G sid sg linv,
  valid_grp G = true -> documented G sid -> subgroup G sid = Ret sg -> correct_inverse linv ->
  forall components psi same index reps ids' cob cobi id, correct_components components ->
  (forall id x, irrep_ok (Fin G) id -> fin_restrict_irrep G id sid = Ret x -> sharp (fst (fst x)) (snd (fst x))) ->
  irrep_ok (Fin (sg_group sg)) id -> p_irr (Fin (sg_group sg)) id = Ret psi ->
  transversal (pmember (Fin G)) (pmul (Fin G)) (pmember (Fin (sg_group sg))) (fin_incl sg) reps ->
  build_induced (p_irr (Fin G)) (p_irr (Fin (sg_group sg))) (fin_restrict linv G (sg_group sg) sid) components same index
    (built_irreps G) psi reps = Ret (ids', cob, cobi) ->
  let n := (gi_size psi * length reps)%nat in
  orthogonal n cob /\
  (sharp n cob ->
   exists r, induced_representation (p_irr (Fin G)) (p_irr (Fin (sg_group sg))) (fin_restrict linv G (sg_group sg) sid)
       components linv same index (built_irreps G) psi reps = Ret r /\
     r_size r = n /\ proper (p_irr (Fin G)) (pmember (Fin G)) (pmul (Fin G)) (pid (Fin G)) r /\ r_irreps r = ids' /\
     forall g, pmember (Fin G) g -> exists A, r_fun r g = Ret (n, A) /\ orthogonal n A /\
       induced_value (pmul (Fin G)) (pmember (Fin (sg_group sg))) (fin_incl sg) psi reps g A).
Proof. exact induced_planar. Qed.
Print Assumptions C22_induced_planar.

(** The condition on the restrictions holds for rotations and for reflections
    along the first axis. *)
Theorem C22_sharp_restrictions : forall G sid, valid_grp G = true -> documented G sid ->
  match sid with IdD (Some a) _ => a = 0%Z | _ => True end ->
  forall id x, irrep_ok (Fin G) id -> fin_restrict_irrep G id sid = Ret x -> sharp (fst (fst x)) (snd (fst x)).
Proof. exact sharp_simple. Qed.
Print Assumptions C22_sharp_restrictions.

(** No two irreps of SO(2), O(2), C_N or D_N with different ids are equivalent. *)
Theorem C22_irreps_disjoint : forall G id id' rho rho', pvalid G -> irrep_ok G id -> irrep_ok G id' -> id <> id' ->
  p_irr G id = Ret rho -> p_irr G id' = Ret rho' ->
  forall X, (forall g A B, pmember G g -> gi_rep rho g = Ret (gi_size rho, A) -> gi_rep rho' g = Ret (gi_size rho', B) ->
               meq (gi_size rho) (gi_size rho') (mmul (gi_size rho) A X) (mmul (gi_size rho') X B)) ->
  meq (gi_size rho) (gi_size rho') X mzero.
Proof. exact planar_disjoint. Qed.
Print Assumptions C22_irreps_disjoint.

(** Z/2 over the trivial group: the premises of [C22_induced] hold and the
    result swaps the two cosets. *)
Example C22_ex : exists comp linv r, correct_components comp /\ correct_inverse linv /\
  induced_representation toy_irrG toy_irrH toy_restrict comp linv toy_same (Some 2%nat)
    [[0%Z]; [1%Z]] toy_h [false; true] = Ret r /\
  exists A, r_fun r true = Ret (2%nat, A) /\ A 0%nat 1%nat = 1 /\ A 0%nat 0%nat = 0.
Proof. exact toy_induced. Qed.

(** C_2 over C_1: the premises of [C22_induced_planar] hold. *)
Example C22_planar_ex : exists comp linv r, correct_components comp /\ correct_inverse linv /\
  induced_representation (p_irr (Fin (Cyc 2))) (p_irr (Fin (Cyc 1))) (fin_restrict linv (Cyc 2) (Cyc 1) (IdC 1)) comp linv c2_same
    (Some 2%nat) (built_irreps (Cyc 2)) c1_trivial c2_reps = Ret r /\ r_irreps r = [[0%Z]; [1%Z]] /\
  exists A, r_fun r (VF (VC 1)) = Ret (2%nat, A) /\ A 0%nat 1%nat = 1 /\ A 0%nat 0%nat = 0.
Proof. exact c2_induced. Qed.

Example C22_regular_ex : valid_grp (Dih 3) = true /\ built_irreps (Dih 3) = [[0; 0]; [1; 0]; [1; 1]]%Z.
Proof. split; reflexivity. Qed.
