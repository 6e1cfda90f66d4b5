(** C23: irrep matrices generated from generators. *)
From Coq Require Import Reals ZArith Bool List Lia Permutation.
From Verif Require Import LibRes LibMat SpecGroup FinGroupModel SpecFinGroup PlanarModel SpecPlanar
  IrrepModel SpecRep SpecIrrep RepModel RegModel SpecReg GenModel GenProofs GenThms.
Import ListNotations.
Open Scope R_scope.

(** If an orthogonal representation agrees with the matrices given for the
    generators, the returned dictionary contains its value at every element,
    whatever the iteration order of Python sets. *)
Theorem C23_generation : forall T (mem : T -> Prop) eqb op inv e els order,
  is_group mem op inv e -> enumerates mem els -> decides mem eqb -> (forall l, Permutation l (order l)) ->
  forall gens, Forall mem (map fst gens) -> forall d F, gens <> [] ->
  orth_rep mem op inv e d F ->
  (forall g A, In (g, A) gens -> exists B, F g = Ret (d, B) /\ fst A = d /\ meq d d (snd A) B) ->
  (forall x, mem x -> generated op e (map fst gens) x) ->
  forall fuel, (length els < fuel)%nat ->
  exists rho, generate eqb op inv e els order fuel gens = Ret rho /\
    forall x, mem x -> exists A B, dget eqb rho x = Ret A /\ F x = Ret (d, B) /\ meq d d A B.
Proof. exact @generate_ok. Qed.
Print Assumptions C23_generation.

(** Whatever matrices were given, a returned dictionary has every element of
    the group as a key and is multiplicative within the tolerance of allclose. *)
Theorem C23_checked : forall T (mem : T -> Prop) eqb op inv e els order,
  is_group mem op inv e -> enumerates mem els -> decides mem eqb -> (forall l, Permutation l (order l)) ->
  forall gens, Forall mem (map fst gens) -> forall fuel rho, (length els < fuel)%nat ->
  generate eqb op inv e els order fuel gens = Ret rho -> exists g0 d A0 gs, gens = (g0, (d, A0)) :: gs /\
  forall a b, mem a -> mem b -> exists ai ab Ai A B AB,
    inv a = Ret ai /\ op a b = Ret ab /\ dget eqb rho ai = Ret Ai /\ dget eqb rho a = Ret A /\ dget eqb rho b = Ret B /\
    dget eqb rho ab = Ret AB /\
    (forall i j, (i < d)%nat -> (j < d)%nat -> Rabs (Ai i j - A j i) <= / 10 ^ 8 + / 10 ^ 5 * Rabs (A j i)) /\
    (forall i j, (i < d)%nat -> (j < d)%nat -> Rabs (mmul d A B i j - AB i j) <= / 10 ^ 8 + / 10 ^ 5 * Rabs (AB i j)).
Proof. exact @generate_checked. Qed.
Print Assumptions C23_checked.

(** The hypotheses hold for every irrep of C_N and D_N and the generators the
    groups list. *)
Theorem C23_planar : forall G id order, valid_grp G = true -> irrep_ok (Fin G) id ->
  (forall l, Permutation l (order l)) -> exists gens els r ms,
  generators G = Ret gens /\ elements G = Ret els /\ p_irrep (Fin G) id = Ret r /\
  mapM (fun g => A <- ir_rep r (VF g) ;; Ret (VF g, A)) gens = Ret ms /\
  forall fuel, gens <> [] -> (length els < fuel)%nat ->
    exists rho, generate (peqb G) (pmul (Fin G)) (pinv (Fin G)) (pid (Fin G)) (map VF els) order fuel ms = Ret rho /\
      forall x, pmember (Fin G) x -> exists A B,
        dget (peqb G) rho x = Ret A /\ ir_rep r x = Ret (ir_size r, B) /\ meq (ir_size r) (ir_size r) A B.
Proof. exact generate_planar. Qed.
Print Assumptions C23_planar.

Example C23_ex : valid_grp (Dih 4) = true /\ irrep_ok (Fin (Dih 4)) [1%Z; 1%Z] /\ generators (Dih 4) = Ret [VD 0 1; VD 1 0].
Proof. repeat split; cbn; lia. Qed.
