(** The generation of irrep matrices for C_N and D_N. *)
From Coq Require Import Reals ZArith Bool List Lia Arith Permutation.
From Verif Require Import LibRes LibMat SpecGroup FinGroupModel SpecFinGroup FinGroupProofs PlanarModel SpecPlanar
  IrrepModel SpecRep SpecIrrep IrrepProofs IrrepThms RepModel RegModel SpecReg RegThms GenModel GenProofs.
Import ListNotations.

Lemma generated_fin : forall G gens x, generated (gmul G) (gid G) gens x ->
  generated (pmul (Fin G)) (pid (Fin G)) (map VF gens) (VF x).
Proof.
  intros G gens x H; induction H as [|g x y I H IH E]; [apply gen_id|].
  eapply gen_mul; [apply in_map; exact I|exact IH|rewrite pmul_fin, E; reflexivity].
Qed.

Theorem generate_planar : forall G id order, valid_grp G = true -> irrep_ok (Fin G) id ->
  (forall l, Permutation l (order l)) -> exists gens els r ms,
  generators G = Ret gens /\ elements G = Ret els /\ p_irrep (Fin G) id = Ret r /\
  mapM (fun g => A <- ir_rep r (VF g) ;; Ret (VF g, A)) gens = Ret ms /\
  forall fuel, gens <> [] -> (length els < fuel)%nat ->
    exists rho, generate (peqb G) (pmul (Fin G)) (pinv (Fin G)) (pid (Fin G)) (map VF els) order fuel ms = Ret rho /\
      forall x, pmember (Fin G) x -> exists A B,
        dget (peqb G) rho x = Ret A /\ ir_rep r x = Ret (ir_size r, B) /\ meq (ir_size r) (ir_size r) A B.
Proof.
  intros G id order HG Hid Hord.
  destruct (generators_generate G HG) as (gens & Eg & Fg & Hg).
  destruct (elements_enumerate G HG) as (els & Ee & Hels & _).
  destruct (irrep_is_rep (Fin G) id HG Hid) as (r & Er & _ & HR & _).
  assert (X : exists ms, mapM (fun g => A <- ir_rep r (VF g) ;; Ret (VF g, A)) gens = Ret ms /\ map fst ms = map VF gens /\
    (forall g A, In (g, A) ms -> exists B, ir_rep r g = Ret (ir_size r, B) /\ fst A = ir_size r /\ meq (ir_size r) (ir_size r) (snd A) B)).
  { clear Eg Hg; induction gens as [|g gens IH]; [exists []; split; [reflexivity|split; [reflexivity|intros ? ? []]]|].
    inversion Fg as [|? ? Mg Fg']; subst; destruct (IH Fg') as (ms & Em & Mm & Hm).
    destruct (or_total _ _ _ _ _ _ HR (VF g) Mg) as (A & EA & _).
    exists ((VF g, (ir_size r, A)) :: ms); cbn [mapM]; rewrite EA; cbn [bind]; rewrite Em; cbn [bind]; split; [reflexivity|].
    split; [cbn; rewrite Mm; reflexivity|].
    intros h B [E|I]; [injection E as <- <-; exists A; split; [exact EA|split; [reflexivity|apply meq_refl]]|apply Hm; exact I]. }
  destruct X as (ms & Em & Mm & Hm).
  change (map (@fst pval (nat * mat)) ms = map VF gens) in Mm.
  exists gens, els, r, ms; do 4 (split; [assumption|]); intros fuel Hne Hf.
  apply (generate_ok (pmember (Fin G)) (peqb G) (pmul (Fin G)) (pinv (Fin G)) (pid (Fin G)) (map VF els) order).
  - apply pfin_group; exact HG.
  - apply fin_enum; exact Hels.
  - apply peqb_decides.
  - exact Hord.
  - rewrite Mm; apply Forall_forall; intros x I; apply in_map_iff in I as (v & <- & I); rewrite Forall_forall in Fg; exact (Fg v I).
  - intros ->; destruct gens; [congruence|discriminate Mm].
  - exact HR.
  - exact Hm.
  - intros [v| |] Mx; try contradiction; rewrite Mm; apply generated_fin, Hg; exact Mx.
  - rewrite map_length; exact Hf.
Qed.
