(** The representation theorems for C_N, D_N, SO(2), O(2) and the inputs on which
    the constructor goes wrong. *)
From Coq Require Import Reals ZArith Bool List Lia Lra Setoid Morphisms Arith Classical ClassicalChoice.
From Verif Require Import LibRes LibList LibMat LibMatS LibTrig SpecGroup FinGroupModel SpecFinGroup FinGroupProofs
  ParamModel ParamProofs PlanarModel SpecPlanar PlanarProofs IrrepModel SpecRep SpecIrrep IrrepProofs
  RestrictThms IrrepThms RepModel SpecRepr RepProofs.
Import ListNotations.
Open Scope R_scope.

Lemma orth_lin : forall T (mem : T -> Prop) op inv e n rho, orth_rep mem op inv e n rho -> lin_rep mem op e n rho.
Proof.
  intros T mem op inv e n rho [A B C D]; split; [|exact B|exact C].
  intros g Hg; destruct (A g Hg) as (M & E & _); exists M; exact E.
Qed.

Lemma ir_size_pos : forall G id r, pvalid G -> irrep_ok G id -> p_irrep G id = Ret r -> (0 < ir_size r)%nat.
Proof.
  intros G id r HG Hid E; destruct (p_irrep_kind G id HG Hid) as (r' & E' & A); rewrite E in E'; apply Ret_inj in E'; subst r'.
  assert (S : ir_size r = kdim (irrep_kind G id)) by apply A; rewrite S; destruct (irrep_kind G id); cbn; lia.
Qed.

Theorem p_irr_sound : forall G id, pvalid G -> irrep_ok G id ->
  sound_irrep (p_irr G) (pmember G) (pmul G) (pid G) id.
Proof.
  intros G id HG Hid; destruct (irrep_is_rep G id HG Hid) as (r & E & I & O & C).
  exists (girrep_of r); unfold p_irr; rewrite E; split; [reflexivity|split; [exact I|split]].
  - exact (ir_size_pos G id r HG Hid E).
  - split; [exact (orth_lin _ _ _ _ _ _ _ O)|exact C].
Qed.

Lemma p_irr_list : forall G ids, pvalid G -> Forall (irrep_ok G) ids ->
  Forall (sound_irrep (p_irr G) (pmember G) (pmul G) (pid G)) ids.
Proof. intros G ids HG H; eapply Forall_impl; [|exact H]; intros id; apply p_irr_sound; exact HG. Qed.

Lemma values_blocks : forall G ids h, values (p_irr G) ids h = blocks G ids h.
Proof.
  intros G ids h; unfold values, blocks; induction ids as [|id ids IH]; [reflexivity|].
  cbn [mapM]; rewrite IH; unfold p_irr; destruct (p_irrep G id); reflexivity.
Qed.

(** total size from the blocks at one element *)
Lemma total_from_blocks : forall G ids h bs, pvalid G -> Forall (irrep_ok G) ids -> pmember G h ->
  blocks G ids h = Ret bs -> total_size (p_irr G) ids (bsize bs).
Proof.
  intros G ids h bs HG Hids Hh E.
  destruct (sound_list (p_irr G) (pmember G) (pmul G) (pid G) ids (p_irr_list G ids HG Hids)) as (l & El & _ & Hl).
  destruct (vals_total (pmember G) (pmul G) (pid G) l h Hh Hl) as (bs' & Eb & Fb & _).
  rewrite <- values_blocks in E; unfold values in E; rewrite (mapM_irr _ (fun x => gi_rep x h) _ _ El) in E.
  rewrite E in Eb; apply Ret_inj in Eb; subst bs'.
  exists l; split; [exact El|]; rewrite bsize_map, Fb; reflexivity.
Qed.

Lemma restricts_sound : forall G H incl restr id r x, pvalid G -> irrep_ok G id -> pvalid H ->
  (forall h, pmember H h -> exists g, incl h = Ret g /\ pmember G g) ->
  p_irrep G id = Ret r -> restr id = Ret x -> restricts H incl r x ->
  sound_restriction (p_irr G) (p_irr H) (pmember G) (pmember H) (pmul H) (pid H) incl restr id.
Proof.
  intros G H incl restr id r [[n Q] ids] HG Hid HH Hin Er Ex [Hok (Hn & HQ & HD)]; cbn [fst snd] in *; subst n.
  exists (girrep_of r), Q, ids; unfold p_irr at 1; rewrite Er; cbn [girrep_of gi_size gi_rep].
  split; [reflexivity|split; [exact Ex|split; [|split; [exact HQ|split; [|split]]]]].
  - exact (ir_size_pos G id r HG Hid Er).
  - apply p_irr_list; assumption.
  - pose proof (pid_member H HH) as Hi; destruct (HD _ Hi) as (A & bs & _ & E & S & _); rewrite <- S.
    exact (total_from_blocks H ids _ bs HH Hok Hi E).
  - intros h Hh; destruct (HD h Hh) as (A & bs & EA & E & S & M).
    destruct (Hin h Hh) as (g & Eg & Hg); rewrite Eg in EA; cbn [bind] in EA.
    exists g, A, bs; rewrite values_blocks; repeat split; assumption.
Qed.

Lemma ps_valid : forall G sid sg, pdocumented G sid -> p_subgroup G sid = Ret sg -> pvalid (ps_group sg).
Proof.
  intros [G| |] [M|a M] sg HD E; cbn in HD; try contradiction; cbn [p_subgroup] in E.
  - destruct (Z.ltb_spec 0 M) as [L|L].
    + apply Ret_inj in E; subst sg; cbn; apply Z.ltb_lt; exact L.
    + destruct (M =? -1)%Z; [|discriminate]; apply Ret_inj in E; subst sg; exact I.
  - apply assert_Ret in E as [_ E]; apply assert_Ret in E as [O E].
    assert (HM : (M =? -1)%Z = false -> (0 <? M)%Z = true) by (destruct (M =? -1)%Z; [discriminate|intros _; exact O]).
    destruct a as [a|].
    + destruct (M =? -1)%Z eqn:E1.
      * apply bind_Ret in E as (g & _ & E); apply bind_Ret in E as (g' & _ & E); apply Ret_inj in E; subst sg; exact I.
      * destruct (M =? 1)%Z; apply Ret_inj in E; subst sg; cbn; [reflexivity|apply HM; reflexivity].
    + destruct (M =? -1)%Z eqn:E1; apply Ret_inj in E; subst sg; cbn; [exact I|apply HM; reflexivity].
Qed.

Lemma fin_sub : forall G sid, valid_grp G = true -> documented G sid ->
  exists sg, subgroup G sid = Ret sg /\ pvalid (Fin (sg_group sg)) /\
    forall h, pmember (Fin (sg_group sg)) h -> exists g, fin_incl sg h = Ret g /\ pmember (Fin G) g.
Proof.
  intros [N|N] sid HG HD; apply Z.ltb_lt in HG.
  - destruct sid as [M|a M]; cbn in HD; [|contradiction]; destruct HD as [HM Hd].
    destruct (cyc_subgroups N M HG HM Hd) as (sg & E & Gs & Em & _); exists sg; rewrite Gs; split; [exact E|split; [apply Z.ltb_lt; exact HM|]].
    intros [h|t|f t] Hh; try contradiction; destruct (emb_mem _ _ _ _ _ Em h Hh) as (g & Eg & Mg).
    exists (VF g); cbn [fin_incl]; rewrite Eg; split; [reflexivity|exact Mg].
  - destruct (dih_subgroups N sid HG HD) as (sg & E & Gs & _ & Em & _); exists sg; split; [exact E|split].
    + rewrite Gs; destruct sid as [M|[a|] M]; cbn in HD; try contradiction; cbn; [destruct (M =? 1)%Z; cbn|]; try reflexivity; apply Z.ltb_lt; lia.
    + intros [h|t|f t] Hh; try contradiction; destruct (emb_mem _ _ _ _ _ Em h Hh) as (g & Eg & Mg).
      exists (VF g); cbn [fin_incl]; rewrite Eg; split; [reflexivity|exact Mg].
Qed.

Theorem fin_restrict_repr : forall linv, correct_inverse linv ->
  forall G sid r, valid_grp G = true -> documented G sid -> planar_repr (Fin G) r ->
  (forall parts, mapM (fun id => fin_restrict_irrep G id sid) (r_irreps r) = Ret parts ->
     sharp (r_size r) (mmul (r_size r) (r_cob r) (bdiag (map fst parts)))) ->
  exists sg d, subgroup G sid = Ret sg /\
    restrict_representation (p_irr (Fin G)) (p_irr (Fin (sg_group sg))) linv
      (fun id => fin_restrict_irrep G id sid) r = Ret d /\ r_size d = r_size r /\
    forall h, member (sg_group sg) h -> exists g A B, sg_incl sg h = Ret g /\
      r_fun r (VF g) = Ret (r_size r, A) /\ r_fun d (VF h) = Ret (r_size r, B) /\ meq (r_size r) (r_size r) B A.
Proof.
  intros linv Hinv G sid r HG HD (Hne & Hok & Hts & Hrep) Hsh.
  destruct (fin_sub G sid HG HD) as (sg & Es & Vs & Hin); exists sg.
  assert (HR : Forall (sound_restriction (p_irr (Fin G)) (p_irr (Fin (sg_group sg))) (pmember (Fin G))
     (pmember (Fin (sg_group sg))) (pmul (Fin (sg_group sg))) (pid (Fin (sg_group sg))) (fin_incl sg)
     (fun id => fin_restrict_irrep G id sid)) (r_irreps r)).
  { eapply Forall_impl; [|exact Hok]; intros id Hid.
    destruct (fin_restrict_ok G sid id HG HD Hid) as (sg' & s & x & Es' & Er & Ex & R).
    rewrite Es in Es'; apply Ret_inj in Es'; subst sg'.
    exact (restricts_sound (Fin G) (Fin (sg_group sg)) (fin_incl sg) (fun id => fin_restrict_irrep G id sid) id s x
      HG Hid Vs Hin Er Ex R). }
  destruct (restrict_ok _ _ _ _ _ _ _ _ linv Hinv r Hne Hrep Hts HR Hsh) as (d & Ed & Sd & _ & V).
  exists d; split; [exact Es|split; [exact Ed|split; [exact Sd|]]].
  intros h Hh; destruct (V (VF h) Hh) as (g & A & B & Eg & X).
  cbn [fin_incl] in Eg; apply bind_Ret in Eg as (g' & Eg & E); apply Ret_inj in E; subst g.
  exists g', A, B; split; assumption.
Qed.

Theorem p_restrict_repr : forall linv, correct_inverse linv ->
  forall G sid r, pdocumented G sid -> planar_repr G r ->
  (forall parts, mapM (fun id => p_restrict_irrep G id sid) (r_irreps r) = Ret parts ->
     sharp (r_size r) (mmul (r_size r) (r_cob r) (bdiag (map fst parts)))) ->
  exists sg d, p_subgroup G sid = Ret sg /\
    restrict_representation (p_irr G) (p_irr (ps_group sg)) linv
      (fun id => p_restrict_irrep G id sid) r = Ret d /\ r_size d = r_size r /\
    forall h, pmember (ps_group sg) h -> exists g A B, ps_incl sg h = Ret g /\
      r_fun r g = Ret (r_size r, A) /\ r_fun d h = Ret (r_size r, B) /\ meq (r_size r) (r_size r) B A.
Proof.
  intros linv Hinv G sid r HD (Hne & Hok & Hts & Hrep) Hsh.
  destruct (planar_embedding G sid HD) as (sg & Es & Em); exists sg.
  assert (HG : pvalid G) by (destruct G; [destruct sid; contradiction|exact I|exact I]).
  pose proof (ps_valid G sid sg HD Es) as Vs.
  assert (HR : Forall (sound_restriction (p_irr G) (p_irr (ps_group sg)) (pmember G)
     (pmember (ps_group sg)) (pmul (ps_group sg)) (pid (ps_group sg)) (ps_incl sg)
     (fun id => p_restrict_irrep G id sid)) (r_irreps r)).
  { eapply Forall_impl; [|exact Hok]; intros id Hid.
    destruct (p_restrict_ok G sid id HD Hid) as (sg' & s & x & Es' & Er & Ex & R).
    rewrite Es in Es'; apply Ret_inj in Es'; subst sg'.
    exact (restricts_sound G (ps_group sg) (ps_incl sg) (fun id => p_restrict_irrep G id sid) id s x
      HG Hid Vs (emb_mem _ _ _ _ _ Em) Er Ex R). }
  destruct (restrict_ok _ _ _ _ _ _ _ _ linv Hinv r Hne Hrep Hts HR Hsh) as (d & Ed & Sd & _ & V).
  exists d; split; [exact Es|split; [exact Ed|split; [exact Sd|exact V]]].
Qed.

(** ** where the constructor goes wrong *)

(** One irrep and an identity of another size are accepted; the representation
    then claims a size its values do not have. *)
Theorem single_irrep_size : forall T (irr : list Z -> res (girrep T)) (mem : T -> Prop) op e linv id s n,
  correct_inverse linv -> sound_irrep irr mem op e id -> irr id = Ret s -> (0 < n)%nat ->
  exists r, mk_repr irr linv [id] n mid None = Ret r /\ r_size r = n /\
    forall g, mem g -> exists A, r_fun r g = Ret (gi_size s, A).
Proof.
  intros T irr mem op e linv id s n Hinv (s' & Es' & _ & _ & L & C) Es Hn; rewrite Es in Es'; apply Ret_inj in Es'; subst s'.
  destruct (Hinv n mid) as [H1 H2]; destruct H2 as [B EB]; [eexists; apply inverse_of_mid|]; specialize (H1 B EB).
  eexists; split; [|split; [|]].
  - unfold mk_repr; rewrite (proj2 (Nat.ltb_lt 0 n) Hn); cbn [assert_ bind]; rewrite EB; cbn [bind].
    rewrite (allclose_meq _ _ _ _ (proj1 H1)), (allclose_meq _ _ _ _ (proj2 H1)); cbn [assert_ bind length Nat.ltb Nat.leb].
    rewrite (allclose_meq n n mid mid) by reflexivity.
    unfold direct_sum_factory, irreps_size; cbn [mapM]; rewrite Es; cbn [bind]; reflexivity.
  - reflexivity.
  - intros g Hg; cbn [r_fun]; destruct (C g Hg) as (A & EA & _); exists (bdiag [(gi_size s, A)]).
    unfold irrep_blocks; cbn [mapM]; rewrite Es; cbn [bind]; rewrite EA; cbn [bind bsize]; rewrite Nat.add_0_r; reflexivity.
Qed.

(** A shear by [t] of the 2-dimensional space. *)
Definition shear (t : R) : mat := mat2 1 t 0 1.

Lemma shear_inverse : forall t, inverse_of 2 (shear t) (shear (- t)).
Proof.
  intros t; split; intros [|[|i]] [|[|j]] Hi Hj; try lia; unfold mmul, shear, mid, mat2; cbn; ring.
Qed.

Lemma shear_close : forall t, 0 <= t <= / 10 ^ 8 -> allclose 2 2 (shear t) mid = true.
Proof.
  intros t [H1 H2]; apply allclose_true; intros [|[|i]] [|[|j]] Hi Hj; try lia; unfold shear, mid, mat2; cbn [Nat.eqb].
  - apply np_isclose_refl, tol_pos.
  - unfold np_isclose, Rleb; rewrite Rminus_0_r, Rabs_R0, (Rabs_right t) by lra.
    destruct (Rle_dec t (/ 10 ^ 8 + / 10 ^ 5 * 0)); [reflexivity|exfalso; lra].
  - apply np_isclose_refl, tol_pos.
  - apply np_isclose_refl, tol_pos.
Qed.

(** A small shear of C_4's frequency-1 irrep is dropped: the stored change of
    basis does not reproduce the values. *)
Theorem small_basis_dropped : forall linv t, correct_inverse linv -> 0 < t <= / 10 ^ 8 ->
  exists r, mk_repr (p_irr (Fin (Cyc 4))) linv [[1%Z]] 2 (shear t) None = Ret r /\
    r_size r = 2%nat /\ inverse_of 2 (r_cob r) (r_inv r) /\
    exists A B, r_fun r (VF (VC 1)) = Ret (2%nat, A) /\
      values (p_irr (Fin (Cyc 4))) [[1%Z]] (VF (VC 1)) = Ret [(2%nat, B)] /\
      ~ meq 2 2 A (mmul 2 (mmul 2 (r_cob r) (bdiag [(2%nat, B)])) (r_inv r)).
Proof.
  intros linv t Hinv Ht.
  assert (Hs : Forall (sound_irrep (p_irr (Fin (Cyc 4))) (pmember (Fin (Cyc 4))) (pmul (Fin (Cyc 4))) (pid (Fin (Cyc 4)))) [[1%Z]])
    by (apply p_irr_list; [reflexivity|repeat constructor; cbn; lia]).
  set (l := [girrep_of {| ir_id := [1%Z]; ir_size := 2; ir_complex := true; ir_freq := 1; ir_flip := None;
           ir_rep := build_irrep_cn 4 1; ir_char := build_char_cn 4 1 |}]).
  assert (El : mapM (p_irr (Fin (Cyc 4))) [[1%Z]] = Ret l) by reflexivity.
  destruct (mk_repr_eq (p_irr (Fin (Cyc 4))) linv Hinv [[1%Z]] 2 (shear t) None l El eq_refl) as (i & Mi & Ei & E);
    [lia|eexists; apply shear_inverse|].
  rewrite E, shear_close by lra.
  eexists; split; [reflexivity|]; cbn [r_size r_cob r_inv r_fun]; split; [reflexivity|split; [exact Mi|]].
  assert (EV : values (p_irr (Fin (Cyc 4))) [[1%Z]] (VF (VC 1)) = Ret [(2%nat, psi (ang 4 1) 1 0)]).
  { unfold values; cbn [mapM]; unfold p_irr, p_irrep, cn_irrep; cbn -[to_radians1]; rewrite to_radians1_cyc by lia; reflexivity. }
  rewrite EV; cbn [bind].
  assert (M2 : meq 2 2 i (shear (- t))) by exact (inverse_unique _ _ _ _ Mi (shear_inverse t)).
  eexists _, _; split; [reflexivity|split; [reflexivity|]].
  rewrite M2; intros X; specialize (X 0%nat 0%nat ltac:(lia) ltac:(lia)).
  assert (EA : 1 * ang 4 1 + 0 = PI / 2) by (unfold ang; field).
  unfold mmul, shear, mat2, bdiag, psi, mat2, sumn in X; cbn [Nat.ltb Nat.leb Nat.sub] in X.
  rewrite EA, cos_PI2, sin_PI2 in X; cbn in X; lra.
Qed.

(** ** the hypotheses can be met *)

Lemma irrep_proper : forall T (irr : list Z -> res (girrep T)) (mem : T -> Prop) op e id s,
  sound_irrep irr mem op e id -> irr id = Ret s -> proper irr mem op e (repr_of_irrep s).
Proof.
  intros T irr mem op e id s H Es; pose proof H as (s' & Es' & I & P & L & C).
  rewrite Es in Es'; apply Ret_inj in Es'; subst s'.
  unfold proper, repr_of_irrep; cbn [r_irreps r_size]; rewrite I; split; [discriminate|split; [|split]].
  - constructor; [exact H|constructor].
  - exists [s]; cbn; rewrite Es; split; [reflexivity|cbn; lia].
  - split; cbn [r_size r_cob r_inv r_irreps r_fun]; [apply inverse_of_mid|].
    intros g Hg; destruct (C g Hg) as (A & EA & _); exists [(gi_size s, A)], A.
    unfold values; cbn [mapM]; rewrite Es; cbn [bind]; rewrite EA; cbn [bind bsize]; rewrite Nat.add_0_r.
    repeat split; rewrite mid_l, mid_r; intros i j Hi Hj; cbn [bdiag].
    rewrite (proj2 (Nat.ltb_lt _ _) Hi), (proj2 (Nat.ltb_lt _ _) Hj); reflexivity.
Qed.

Lemma planar_irrep_repr : forall G id s, pvalid G -> irrep_ok G id -> p_irr G id = Ret s ->
  planar_repr G (repr_of_irrep s).
Proof.
  intros G id s HG Hid E; pose proof (p_irr_sound G id HG Hid) as HS.
  destruct (irrep_proper _ _ _ _ _ id s HS E) as (A & B & C & D).
  repeat split; try assumption; try apply D.
  destruct HS as (s' & E' & I & _); rewrite E in E'; apply Ret_inj in E'; subst s'.
  cbn [repr_of_irrep r_irreps]; rewrite I; constructor; [exact Hid|constructor].
Qed.

(** A correct inverse exists. *)
Lemma inverse_exists : exists linv, correct_inverse linv.
Proof.
  destruct (choice (fun (x : nat * mat) (y : res mat) =>
    (forall B, y = Ret B -> inverse_of (fst x) (snd x) B) /\
    ((exists B, inverse_of (fst x) (snd x) B) -> exists B, y = Ret B))) as [f Hf].
  - intros [n A]; destruct (classic (exists B, inverse_of n A B)) as [[B H]|H].
    + exists (Ret B); split; [intros B' E; apply Ret_inj in E; subst; exact H|intros _; exists B; reflexivity].
    + exists Raise; split; [discriminate|intros X; contradiction].
  - exists (fun n A => f (n, A)); intros n A; exact (Hf (n, A)).
Qed.
