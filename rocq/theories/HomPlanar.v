(** Functions on the homogeneous spaces of the planar groups. *)
From Coq Require Import Reals ZArith Bool List Lia Lra Setoid Morphisms Arith.
From Verif Require Import LibRes LibList LibMat LibMatS LibTrig SpecGroup SpecRep ParamModel ParamProofs FinGroupModel PlanarModel SpecPlanar PlanarProofs FinGroupProofs IrrepModel SpecIrrep IrrepProofs EndoProofs RestrictThms
  RepModel SpecRepr RepProofs RepThms SpecReg RegModel RegProofs RegThms IndModel SpecInd IndProofs SpecDis SpecSchur SchurProofs SchurThms SchurCor SchurFin SchurInd IndFinModel IndPlanar
  GSpaceModel SpecGSpace GSpaceThms FieldMapModel FourierModel SpecFourier FourierThms FourierCor ProdIrrepEx HomModel SpecHom HomProofs HomThms HomCor HomRun.
Import ListNotations.
Open Scope R_scope.

Lemma filter_none : forall {A} (f : A -> bool) l, (forall x, In x l -> f x = false) -> filter f l = [].
Proof. intros A f l; induction l as [|a l IH]; intros F; [reflexivity|]; cbn; rewrite F by (left; reflexivity); apply IH; intros; apply F; right; assumption. Qed.

Section Planar.
Variables (G : pgrp) (sid : sub_id) (sg : psubgroup) (linv : nat -> mat -> res mat).
Hypothesis HG : pvalid G.
Hypothesis HD : listed G sid.
Hypothesis Esg : any_subgroup G sid = Ret sg.
Hypothesis Hinv : correct_inverse linv.
Notation H := (ps_group sg).

Lemma any_restricts : forall id, irrep_ok G id -> exists s x, p_irrep G id = Ret s /\ any_restrict_irrep G sid id = Ret x /\ restricts H (ps_incl sg) s x.
Proof.
  intros id Hid; pose proof HG as V; pose proof HD as L; pose proof Esg as E; clear HG HD Esg.
  destruct G as [F| |], sid as [i|i]; cbn in L; try contradiction; cbn [any_subgroup any_restrict_irrep] in *.
  - apply bind_Ret in E as (s & Es & E); apply Ret_inj in E; destruct (fin_restrict_ok F i id V L Hid) as (s' & r & x & E1 & E2 & E3 & R).
    rewrite Es in E1; apply Ret_inj in E1; subst s' sg; exists r, x; split; [exact E2|split; [exact E3|exact R]].
  - destruct (p_restrict_ok SO2 i id L Hid) as (s' & r & x & E1 & E2 & E3 & R); rewrite E in E1; apply Ret_inj in E1; subst s'; eauto.
  - destruct (p_restrict_ok O2 i id L Hid) as (s' & r & x & E1 & E2 & E3 & R); rewrite E in E1; apply Ret_inj in E1; subst s'; eauto.
Qed.

Lemma any_valid : pvalid H.
Proof.
  pose proof HG as V; pose proof HD as L; pose proof Esg as E; clear HG HD Esg.
  destruct G as [F| |], sid as [i|i]; cbn in L; try contradiction; cbn [any_subgroup] in E.
  - apply bind_Ret in E as (s & Es & E); apply Ret_inj in E; subst sg; destruct (subgroup_good F i s V L Es) as (Q & _); exact Q.
  - exact (ps_valid SO2 i sg L E).
  - exact (ps_valid O2 i sg L E).
Qed.

Notation sharp_at := (sharp_at G sid).

Lemma reproduces_known : forall (d : repr pval), reproduces (p_irr H) (pmember H) d -> Forall (irrep_ok H) (r_irreps d).
Proof.
  intros d [_ Rr]; destruct (Rr (pid H) (pid_member H any_valid)) as (bs & V & Ev & _).
  unfold values in Ev; apply mapM_Ret_inv in Ev; clear - Ev HG HD Esg Hinv; induction Ev as [|id b ids bs E F IH]; constructor; [|exact IH].
  apply bind_Ret in E as (q & Eq & _); unfold p_irr in Eq; apply bind_Ret in Eq as (q' & Eq' & _).
  apply (p_irrep_accepts H id any_valid); exists q'; exact Eq'.
Qed.

Lemma any_inducible : forall id, irrep_ok G id -> sharp_at id ->
  inducible (pmember G) (pmul G) (pinv G) (pid G) (pmember H) (ps_incl sg) (p_irr G) (p_irr H) (hom_restrict linv G sid H) id /\
  exists d, hom_restrict linv G sid H id = Ret d.
Proof.
  intros id Hid Sh; pose proof (p_irr_sound G id HG Hid) as Snd; pose proof Snd as (rho & Er & Id & Pr & _).
  destruct (any_restricts id Hid) as (s & x & Es & Ex & R).
  assert (Hin : forall h, pmember H h -> exists g, ps_incl sg h = Ret g /\ pmember G g) by exact (emb_mem _ _ _ _ _ (any_embedding G sid sg HG HD Esg)).
  pose proof (restricts_sound G H (ps_incl sg) (any_restrict_irrep G sid) id s x HG Hid any_valid Hin Es Ex R) as SR.
  pose proof (irrep_proper _ _ _ _ _ id rho Snd Er) as (P1 & P2 & P3 & P4).
  pose proof SR as (s0 & Q & hids & E1 & E2 & E3 & E4 & E5 & E6 & E7).
  rewrite Er in E1; apply Ret_inj in E1; subst s0.
  set (n := gi_size rho) in *.
  assert (MB : meq n n (mmul n mid (bdiag [(n, Q)])) Q).
  { rewrite mid_l; intros i j Hi Hj; cbn [bdiag]; apply Nat.ltb_lt in Hi, Hj; rewrite Hi, Hj; reflexivity. }
  assert (Shn : sharp n (mmul n mid (bdiag [(n, Q)]))).
  { pose proof (Sh _ E2) as S0; cbn [fst snd] in S0; destruct S0 as [S0|S0].
    - left; rewrite MB; exact S0.
    - right; destruct (allclose n n (mmul n mid (bdiag [(n, Q)])) mid) eqn:Ea; [|reflexivity].
      rewrite <- S0; symmetry; rewrite allclose_true in *; intros i j Hi Hj; rewrite <- (MB i j Hi Hj); apply Ea; assumption. }
  destruct (RepProofs.restrict_ok (p_irr G) (p_irr H) (pmember G) (pmember H) (pmul H) (pid H) (ps_incl sg)
    (any_restrict_irrep G sid) linv Hinv (repr_of_irrep rho) P1 P4 P3) as (d & Ed & Sd & Pd & Vd).
  { cbn [repr_of_irrep r_irreps]; rewrite Id; constructor; [exact SR|constructor]. }
  { cbn [repr_of_irrep r_irreps r_size r_cob]; rewrite Id; intros parts Ep; cbn [mapM] in Ep; rewrite E2 in Ep; cbn [bind] in Ep.
    apply Ret_inj in Ep; subst parts; exact Shn. }
  assert (ED : hom_restrict linv G sid H id = Ret d) by (unfold hom_restrict; rewrite Er; exact Ed).
  split; [|exists d; exact ED].
  exists rho; split; [exact Er|split; [exact Id|split; [exact Snd|split; [|split]]]].
  - destruct (p_irr_kind G id rho HG Hid Er) as (r & _ & -> & A); exact (proj1 (kind_orth_rep G id r _ HG A)).
  - exact (planar_described G id rho HG Hid Er).
  - intros d' Ed'; rewrite ED in Ed'; apply Ret_inj in Ed'; subst d'; cbn [repr_of_irrep r_size r_fun] in Sd, Vd; fold n in Sd, Vd.
    destruct Pd as (_ & _ & _ & Rep); split.
    + split; [exact Sd|split; [exact Rep|]]; intros h Hh; destruct (Vd h Hh) as (g & A & B & Eg & EA & EB & M).
      exists g, A, B; fold n; split; [exact Eg|split; [exact EA|split; [exact EB|symmetry; exact M]]].
    + assert (Cob : r_cob d = mmul n mid (bdiag [(n, Q)])).
      { unfold restrict_representation in Ed; cbn [repr_of_irrep r_irreps r_size r_cob] in Ed; rewrite Id in Ed; cbn [mapM] in Ed.
        rewrite E2, Er in Ed; cbn [bind fst] in Ed; fold n in Ed; rewrite Nat.eqb_refl in Ed; cbn [assert_ bind map fst] in Ed.
        apply assert_Ret in Ed as [_ Ed]; unfold mk_repr in Ed; apply assert_Ret in Ed as [_ Ed]; apply bind_Ret in Ed as (i & _ & Ed).
        apply assert_Ret in Ed as [_ Ed]; apply assert_Ret in Ed as [_ Ed]; apply bind_Ret in Ed as (_u & _ & Ed); apply bind_Ret in Ed as (f & _ & Ed).
        apply Ret_inj in Ed; subst d; reflexivity. }
      destruct Rep as [Ri _]; rewrite Sd in Ri.
      apply (commutant_clear G id rho d HG Hid Er); fold n; [|exact Ri].
      rewrite Cob; eapply orthogonal_ext; [exact MB|exact E4].
Qed.

(** the endomorphisms of a planar irrep *)
Lemma planar_endo : forall K id rho, pvalid K -> irrep_ok K id -> p_irr K id = Ret rho ->
  (gi_endo rho = [mid] /\ gi_sosc rho = 1%nat) \/
  (gi_size rho = 2%nat /\ gi_sosc rho = 2%nat /\ gi_endo rho = [kron 1 1 mid mid; kron 1 1 (mat2 0 (-1) 1 0) mid]).
Proof.
  intros K id rho V Hid E; destruct (p_irr_kind K id rho V Hid E) as (r & Er & -> & A).
  destruct A as (_ & _ & Es & _ & Ec & _ & _); cbn [girrep_of gi_size gi_endo gi_sosc]; unfold endomorphism_basis, ir_sosc.
  destruct (ir_complex r) eqn:C; [right|left; split; reflexivity].
  assert (S2 : ir_size r = 2%nat) by (rewrite Es; destruct K as [[?|?]| |], (irrep_kind _ id); try discriminate Ec; reflexivity).
  rewrite S2; change (2 / 2)%nat with 1%nat; auto.
Qed.

Lemma planar_nonnull : forall K id psi, pvalid K -> irrep_ok K id -> p_irr K id = Ret psi -> length (nonnull psi) = gi_sosc psi.
Proof.
  intros K id psi V Hid E.
  assert (Small : / 10 ^ 9 < 1) by (apply Rmult_lt_reg_l with (10 ^ 9); [lra|rewrite Rinv_r; lra]).
  assert (Pos : 0 < / 10 ^ 9) by (apply Rinv_0_lt_compat; lra).
  assert (P : (0 < gi_size psi)%nat).
  { destruct (p_irr_kind K id psi V Hid E) as (r & Er & -> & _); exact (ir_size_pos K id r V Hid Er). }
  assert (LB : forall x, x = 1 -> Rleb x (/ 10 ^ 9) = false).
  { intros x ->; destruct (Rleb 1 (/ 10 ^ 9)) eqn:Q; [apply Rleb_true in Q; lra|reflexivity]. }
  assert (LZ : forall x, x = 0 -> Rleb x (/ 10 ^ 9) = true) by (intros x ->; apply Rleb_true; lra).
  unfold nonnull; destruct (planar_endo K id psi V Hid E) as [[-> ->]|(-> & -> & ->)].
  - destruct (gi_size psi) as [|m]; [lia|]; cbn [seq filter map fold_right].
    rewrite LB by (unfold mid; cbn; ring); cbn [negb length]; f_equal; rewrite filter_none; [reflexivity|].
    intros b Hb; apply in_seq in Hb; rewrite LZ; [reflexivity|]; unfold mid; destruct b; [lia|]; cbn; ring.
  - cbn [seq filter map fold_right]; rewrite LB by (unfold kron, mid, mat2; cbn; ring); cbn [negb length]; f_equal.
    rewrite LB by (unfold kron, mid, mat2; cbn; ring); reflexivity.
Qed.

Lemma planar_full : forall id rho (d : repr pval), irrep_ok G id -> p_irr G id = Ret rho ->
  orthogonal (gi_size rho) (r_cob d) -> inverse_of (gi_size rho) (r_cob d) (r_inv d) -> (1 < gi_sosc rho)%nat -> gi_sosc rho = 2%nat /\ gi_size rho = 2%nat /\
  forall i j, (i < 2)%nat -> (j < 2)%nat -> / 10 ^ 9 < fold_right Rplus 0 (map (fun E => conj_entry rho d E i j ^ 2) (gi_endo rho)).
Proof.
  intros id rho d Hid E Q I L; destruct (planar_endo G id rho HG Hid E) as [[_ ?]|(S2 & K2 & Ee)]; [lia|].
  split; [exact K2|split; [exact S2|]]; intros i j Hi Hj; rewrite Ee; cbn [map fold_right].
  assert (Small : / 10 ^ 9 < 1) by (apply Rmult_lt_reg_l with (10 ^ 9); [lra|rewrite Rinv_r; lra]).
  assert (Mi : meq 2 2 (r_inv d) (mtr (r_cob d))).
  { rewrite S2 in *; apply (inverse_unique 2 (r_cob d)); [exact I|apply orthogonal_inverse; exact Q]. }
  unfold conj_entry; rewrite S2 in *.
  assert (Z1 : meq 2 2 (mmul 2 (mmul 2 (r_inv d) (kron 1 1 mid mid)) (r_cob d)) mid).
  { assert (K : meq 2 2 (kron 1 1 mid mid) mid) by (m22; unfold kron, mid; cbn; ring).
    rewrite K, mid_r; exact (proj2 I). }
  rewrite (Z1 i j Hi Hj).
  set (J := kron 1 1 (mat2 0 (-1) 1 0) mid) in *.
  assert (Z : meq 2 2 (mmul 2 (mmul 2 (r_inv d) J) (r_cob d)) (mmul 2 (mmul 2 (mtr (r_cob d)) J) (r_cob d))) by (rewrite Mi; reflexivity).
  rewrite (Z i j Hi Hj); clear Z; destruct Q as [Q1 Q2].
  pose proof (Q2 0%nat 0%nat ltac:(lia) ltac:(lia)) as A00; pose proof (Q2 0%nat 1%nat ltac:(lia) ltac:(lia)) as A01.
  pose proof (Q2 1%nat 1%nat ltac:(lia) ltac:(lia)) as A11.
  unfold mmul, mtr, mid in A00, A01, A11; cbn [sumn Nat.eqb] in A00, A01, A11.
  set (a := r_cob d 0%nat 0%nat) in *; set (b := r_cob d 0%nat 1%nat) in *;
    set (c := r_cob d 1%nat 0%nat) in *; set (e := r_cob d 1%nat 1%nat) in *.
  assert (Det : (a * e - b * c) ^ 2 = 1).
  { replace ((a * e - b * c) ^ 2) with ((0 + a * a + c * c) * (0 + b * b + e * e) - (0 + a * b + c * e) * (0 + a * b + c * e)) by ring.
    rewrite A00, A11, A01; ring. }
  destruct i as [|[|i]], j as [|[|j]]; try lia; unfold mmul, mtr, J, kron, mat2, mid; cbn; fold a b c e.
  1,4: match goal with |- _ < ?x => replace x with 1 by ring end; lra.
  all: match goal with |- _ < ?x => replace x with ((a * e - b * c) ^ 2) by ring end; rewrite Det; lra.
Qed.

Lemma planar_told : forall pid psi d, irrep_ok H pid -> p_irr H pid = Ret psi -> reproduces (p_irr H) (pmember H) d -> told_apart (pmember H) (p_irr H) psi d.
Proof.
  intros pid psi d Hp Ep Rd id s I Es N X HX.
  assert (Ii : gi_id psi = pid) by (destruct (p_irr_kind H pid psi any_valid Hp Ep) as (r & _ & -> & A); apply A).
  assert (Hid : irrep_ok H id) by (exact (proj1 (Forall_forall _ _) (reproduces_known d Rd) id I)).
  apply (planar_disjoint H id pid s psi any_valid Hid Hp); [rewrite <- Ii; exact N|exact Es|exact Ep|].
  intros h A B Hh EA EB; exact (HX h A B Hh EA EB).
Qed.

Variable components : nat -> (nat -> nat -> bool) -> nat * (nat -> nat).
Hypothesis Hcomp : correct_components components.
Notation pbasis := (basis (p_irr G) (p_irr H) (hom_restrict linv G sid H) components).

Lemma planar_sizes : forall id r h b, p_irr H id = Ret r -> pmember H h -> gi_rep r h = Ret b -> fst b = gi_size r.
Proof.
  intros id' r' h b E' Hh Eb.
  assert (Hok : irrep_ok H id') by (apply (p_irrep_accepts H id' any_valid); unfold p_irr in E'; apply bind_Ret in E' as (q & Eq & _); exists q; exact Eq).
  destruct (p_irr_kind H id' r' any_valid Hok E') as (q & _ & -> & (_ & _ & Es & _ & _ & _ & Hr)); cbn [girrep_of gi_rep gi_size] in *.
  destruct (Hr h Hh) as (B & EB & _); rewrite Eb in EB; apply Ret_inj in EB; subst b; cbn [fst]; symmetry; exact Es.
Qed.

Section Psi.
Variables (pid' : list Z) (psi : girrep pval).
Hypothesis Hp : irrep_ok H pid'.
Hypothesis Ep : p_irr H pid' = Ret psi.

Lemma psi_id : gi_id psi = pid'.
Proof. destruct (p_irr_kind H pid' psi any_valid Hp Ep) as (r & _ & -> & A); apply A. Qed.
Lemma psi_orth : orth_rep (pmember H) (pmul H) (pinv H) (pid H) (gi_size psi) (gi_rep psi).
Proof. destruct (p_irr_kind H pid' psi any_valid Hp Ep) as (r & _ & -> & A); exact (proj1 (kind_orth_rep H pid' r _ any_valid A)). Qed.
Lemma psi_pos : (0 < gi_size psi)%nat.
Proof. destruct (p_irr_kind H pid' psi any_valid Hp Ep) as (r & Er & -> & _); exact (ir_size_pos H pid' r any_valid Hp Er). Qed.
Lemma psi_known : p_irr H (gi_id psi) = Ret psi.
Proof. rewrite psi_id; exact Ep. Qed.

Theorem planar_dirac : forall id rho, irrep_ok G id -> p_irr G id = Ret rho -> sharp_at id ->
  exists B, dirac_kernel_ft (p_irr H) (hom_restrict linv G sid H) components rho psi = Ret B.
Proof.
  intros id rho Hid Er Sh; destruct (any_inducible id Hid Sh) as [Hind (d & Ed)].
  pose proof Hind as (rho' & Er' & Id & Snd & O & Drho & Hr); rewrite Er in Er'; apply Ret_inj in Er'; subst rho'.
  destruct (Hr d Ed) as [Hres Hclear].
  assert (Pr : (0 < gi_size rho)%nat) by (destruct (p_irr_kind G id rho HG Hid Er) as (r & Er' & -> & _); exact (ir_size_pos G id r HG Hid Er')).
  apply (dirac_total (pmember G) (pmul G) (pmember H) (pmul H) (pinv H) (pid H) (ps_incl sg) (p_irr H) (hom_restrict linv G sid H) components psi
    (pgroup H any_valid) (any_embedding G sid sg HG HD Esg) psi_orth psi_known psi_pos (planar_described H pid' psi any_valid Hp Ep) planar_sizes Hcomp rho d Pr Drho).
  - rewrite Id; exact Ed.
  - exact Hres.
  - exact Hclear.
  - apply (planar_told pid' psi d Hp Ep); apply Hres.
  - exact (planar_nonnull H pid' psi any_valid Hp Ep).
  - destruct Hres as (_ & Rep & _); eapply Forall_impl; [|exact (reproduces_known d Rep)]; intros i Hi; destruct (p_irr_sound H i any_valid Hi) as (q & Eq & _); exists q; exact Eq.
  - destruct Hres as (Sr & [Ri _] & _); rewrite Sr in Ri; exact (planar_full id rho d Hid Er (proj1 Hclear) Ri).
Qed.

Theorem planar_basis : forall id rho, irrep_ok G id -> p_irr G id = Ret rho -> sharp_at id ->
  exists n F, (forall g, pmember G g -> pbasis g id pid' = Ret (F g)) /\
    basis_of_fields (pmember G) (pmul G) (pmember H) (ps_incl sg) rho psi n F /\
    basis_shape (p_irr G) (p_irr H) (hom_restrict linv G sid H) id pid' = Ret (gi_size rho, n, gi_size psi).
Proof.
  intros id rho Hid Er Sh; destruct (planar_dirac id rho Hid Er Sh) as (B0 & E0); destruct (any_inducible id Hid Sh) as [Hind (d & Ed)].
  pose proof (field_basis (pmember G) (pmul G) (pinv G) (pid G) (pmember H) (ps_incl sg) (p_irr G) (p_irr H) (hom_restrict linv G sid H) components psi psi_known id rho Hind Er B0 E0
    (pid G) (pid_member G HG)) as EB.
  destruct (hom_basis (pmember G) (pmul G) (pinv G) (pid G) (pmember H) (pmul H) (pinv H) (pid H) (ps_incl sg) (p_irr G) (p_irr H) (hom_restrict linv G sid H) components psi
    (pgroup G HG) (pgroup H any_valid) (any_embedding G sid sg HG HD Esg) psi_orth psi_known psi_pos (planar_described H pid' psi any_valid Hp Ep) planar_sizes Hcomp
    id rho Hind Er) with (g0 := pid G) (B := field_at rho B0 (pid G)) as (F & F1 & F2 & F3).
  - intros r Hr; destruct Hind as (rho' & Er' & _ & _ & _ & _ & Hq); destruct (Hq r Hr) as [(_ & Rep & _) _]; exact (planar_told pid' psi r Hp Ep Rep).
  - exact EB.
  - rewrite psi_id in *; exists (length (field_at rho B0 (pid G))), F; auto.
Qed.

Theorem planar_complete : forall ids, Forall (fun id => irrep_ok G id /\ sharp_at id) ids -> NoDup ids -> ids <> [] ->
  exists ind, spectral (p_irr G) (hom_restrict linv G sid H) linv psi ids = Ret ind /\
  match ind with
  | None => forall g, complete_basis (p_irr G) (p_irr H) (hom_restrict linv G sid H) components linv g pid' ids = Ret []
  | Some r => forall a g ag, pmember G a -> pmember G g -> pmul G a g = Ret ag ->
      exists A v, r_fun r a = Ret (r_size r, A) /\ length v = r_size r /\
        complete_basis (p_irr G) (p_irr H) (hom_restrict linv G sid H) components linv g pid' ids = Ret v /\
        complete_basis (p_irr G) (p_irr H) (hom_restrict linv G sid H) components linv ag pid' ids = Ret (SpecNonlin.mv (r_size r) A v)
  end.
Proof.
  intros ids F ND NE.
  set (restr := hom_restrict linv G sid H) in *.
  assert (RS : exists rs, mapM (p_irr G) ids = Ret rs /\ map gi_id rs = ids /\
    Forall (fun r => p_irr G (gi_id r) = Ret r /\ orth (pmember G) (pmul G) (pinv G) (pid G) r /\ (0 < gi_size r)%nat /\ (0 < gi_sosc r)%nat) rs /\
    Forall (fun r => irrep_ok G (gi_id r) /\ sharp_at (gi_id r)) rs).
  { clear ND NE; induction F as [|id ids [Hid Sh] F (rs & E1 & E2 & E3 & E4)]; [exists []; repeat split; constructor|].
    destruct (p_irr_sound G id HG Hid) as (rho & Er & Id & Pr & _).
    exists (rho :: rs); cbn [mapM]; rewrite Er; cbn [bind]; rewrite E1; cbn [bind map]; rewrite Id, E2; split; [reflexivity|split; [reflexivity|]].
    split; constructor; try assumption; [|rewrite Id; split; assumption].
    rewrite Id; split; [exact Er|split; [|split; [exact Pr|]]].
    - destruct (p_irr_kind G id rho HG Hid Er) as (r & _ & -> & A); exact (proj1 (kind_orth_rep G id r _ HG A)).
    - destruct (planar_endo G id rho HG Hid Er) as [[_ ->]|(_ & -> & _)]; lia. }
  destruct RS as (rs & Ers & Ids & Frs & Fok).
  assert (DM : exists ms, Forall2 (fun r m => dimension_basis restr psi r = Ret m) rs ms).
  { clear - Frs Fok Hp Ep HG HD Esg Hinv Hcomp; revert Fok; induction Frs as [|r rs (Q1 & _) Frs IH]; intros Fok; [exists []; constructor|].
    apply Forall_cons_iff in Fok as [[Hid Sh] Fok]; destruct (IH Fok) as (ms & Fm).
    destruct (planar_basis (gi_id r) r Hid Q1 Sh) as (n & F & _ & _ & Bs); unfold basis_shape in Bs; rewrite Q1, Ep in Bs; cbn [bind] in Bs.
    apply bind_Ret in Bs as (m & Em & _); exists (m :: ms); constructor; assumption. }
  destruct DM as (ms & Dm).
  assert (L : length rs = length ms) by (clear - Dm; induction Dm; cbn; congruence).
  assert (Hd : Forall (fun r => exists B, dirac_kernel_ft (p_irr H) restr components r psi = Ret B) rs).
  { apply Forall_forall; intros r Ir; rewrite Forall_forall in Frs, Fok; destruct (Frs r Ir) as (Q1 & _), (Fok r Ir) as [Hid Sh]; exact (planar_dirac (gi_id r) r Hid Q1 Sh). }
  assert (Hu : Forall (usable_irrep (p_irr G) (pmember G) (pmul G) (pinv G) (pid G)) ids).
  { rewrite <- Ids; apply Forall_map; eapply Forall_impl; [|exact Frs]; intros r (Q1 & Q2 & Q3 & Q4); exists r; auto. }
  set (ps := map (fun p : girrep pval * nat => (repeat (gi_id (fst p)) (snd p), (snd p * gi_size (fst p))%nat)) (List.combine rs ms)).
  assert (Eps : mapM (fun id => r <- p_irr G id ;; m <- dimension_basis restr psi r ;; Ret (repeat id m, (m * gi_size r)%nat)) (map gi_id rs) = Ret ps).
  { unfold ps; clear - Dm Frs; revert Frs; induction Dm as [|r m rs ms D Dm IH]; intros Frs; [reflexivity|].
    apply Forall_cons_iff in Frs as [(Q1 & _) Frs]; cbn [map mapM List.combine fst snd]; rewrite Q1; cbn [bind]; rewrite D; cbn [bind]; rewrite (IH Frs); reflexivity. }
  assert (NR : no_repetition (map gi_id rs) = true).
  { unfold no_repetition; rewrite Ids, nodup_fixed_point by exact ND; apply Nat.eqb_refl. }
  assert (Spec : spectral (p_irr G) restr linv psi ids =
    if Nat.eqb (list_sum (map snd ps)) 0 then Ret None else r <- mk_repr (p_irr G) linv (flat_map fst ps) (list_sum (map snd ps)) mid None ;; Ret (Some r)).
  { unfold spectral; destruct ids as [|i ids']; [congruence|]; cbn [length Nat.ltb Nat.leb assert_ bind]; rewrite Ers; cbn [bind]; rewrite NR; cbn [assert_ bind].
    rewrite Eps; reflexivity. }
  destruct (Nat.eqb_spec (list_sum (map snd ps)) 0) as [Z|Z].
  - exists None; split; [exact Spec|]; intros g; unfold complete_basis; rewrite Ep; cbn [bind]; fold restr; rewrite Spec; reflexivity.
  - assert (SZ : list_sum (map snd ps) = tsize (copies rs ms)) by (unfold ps; rewrite map_map; symmetry; apply copies_size; exact L).
    assert (FI : flat_map fst ps = flat_map (fun p => repeat (gi_id (fst p)) (snd p)) (List.combine rs ms)).
    { unfold ps; clear; induction (List.combine rs ms) as [|p l IH]; [reflexivity|]; cbn [map flat_map fst]; rewrite IH; reflexivity. }
    assert (C : mapM (p_irr G) (flat_map fst ps) = Ret (copies rs ms)).
    { rewrite FI; apply copies_irr; [eapply Forall_impl; [|exact Frs]; intros r (Q1 & _); exact Q1|exact L]. }
    destruct (mk_repr_eq (p_irr G) linv Hinv (flat_map fst ps) (list_sum (map snd ps)) mid None (copies rs ms) C (eq_sym SZ) ltac:(lia)) as (i & _ & _ & Er').
    { exists mid; apply inverse_of_mid. }
    rewrite Er' in Spec; cbn [bind] in Spec; eexists; split; [exact Spec|]; cbv beta iota.
    match type of Spec with _ = Ret (Some ?q) => set (ind := q) in * end.
    assert (Szi : r_size ind = tsize (copies rs ms)) by (rewrite <- SZ; reflexivity).
    destruct (complete_eq (pmember G) (pmul G) (pinv G) (pid G) (p_irr G) (p_irr H) restr components psi psi_known linv ids rs ms ind (pid G) (pid_member G HG)
      (conj Ers Dm) Spec Frs Szi Hd) as [C0 _].
    intros a g ag Ha Hg Eag.
    destruct (complete_moves (pmember G) (pmul G) (pinv G) (pid G) (p_irr G) (p_irr H) restr components psi (pgroup G HG) psi_known psi_pos linv Hinv ids ind Hu Spec _ _ C0 a g ag Ha Hg Eag)
      as (A & v & R1 & R2 & R3 & R4).
    rewrite psi_id in R2, R4; exists A, v; auto.
Qed.
End Psi.
End Planar.
