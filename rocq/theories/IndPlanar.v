(** Irreps of C_N, D_N, SO(2), O(2): their commutants, their disjointness, and
    the representations of C_N and D_N induced from their subgroups. *)
From Coq Require Import Reals ZArith Bool List Lia Lra Setoid Morphisms Arith.
From Verif Require Import LibRes LibList LibMat LibMatS LibTrig SpecGroup FinGroupModel SpecFinGroup FinGroupProofs
  ParamModel ParamProofs PlanarModel SpecPlanar PlanarProofs IrrepModel SpecRep SpecIrrep IrrepProofs IrrepThms EndoProofs
  RestrictThms ExhaustProofs RepModel SpecRepr RepProofs RepThms RegModel SpecReg RegProofs RegThms
  IndModel IndFinModel SpecInd IndProofs SpecDis SpecSchur SchurProofs SchurInd.
Import ListNotations.
Open Scope R_scope.

Definition kfreq (kd : kind) : Z := match kd with K1 _ k => k | K2 k => k end.

Lemma p_irr_kind : forall G id rho, pvalid G -> irrep_ok G id -> p_irr G id = Ret rho ->
  exists r, p_irrep G id = Ret r /\ rho = girrep_of r /\ irrep_as G id r (irrep_kind G id).
Proof.
  intros G id rho HG Hid E; destruct (p_irrep_kind G id HG Hid) as (r & Er & A); exists r; unfold p_irr in E; rewrite Er in E.
  apply Ret_inj in E; subst rho; repeat split; assumption || apply A.
Qed.

Lemma planar_described : forall G id rho, pvalid G -> irrep_ok G id -> p_irr G id = Ret rho -> described (pmember G) rho.
Proof.
  intros G id rho HG Hid E; destruct (p_irr_kind G id rho HG Hid E) as (r & Er & -> & A).
  destruct (endomorphisms G id r HG Hid Er) as [Sp _]; cbn [girrep_of gi_size gi_rep gi_endo gi_sosc].
  split; [exact Sp|]; cbn [girrep_of gi_size gi_rep gi_endo gi_sosc].
  destruct A as (_ & _ & Es & _ & Ec & _ & _); unfold endomorphism_basis, ir_sosc.
  destruct (ir_complex r) eqn:C.
  - assert (S2 : ir_size r = 2%nat) by (rewrite Es; destruct G as [[?|?]| |], (irrep_kind _ id); try discriminate Ec; reflexivity).
    rewrite S2; change (2 / 2)%nat with 1%nat; split; [|reflexivity]; split.
    + eexists _, _; split; [reflexivity|]; m22; unfold kron, mid; cbn; ring.
    + repeat constructor; m22; unfold kron, mid, mat2; cbn; ring.
    + repeat constructor; m22; unfold mopp, mmul, mtr, kron, mid, mat2; cbn; ring.
    + intros F j [<-|[<-|[]]] Hj; destruct j as [|[|j]]; try lia; unfold kron, mid, mat2; cbn; lra.
  - split; [|reflexivity]; split.
    + exists mid, []; split; reflexivity.
    + repeat constructor; rewrite ?tr_mid, mid_l; reflexivity.
    + repeat constructor.
    + intros F j [<-|[]] Hj; unfold mid; destruct (Nat.eqb 0 j); lra.
Qed.

(** an angle that tells two frequencies apart *)
Lemma telling_rotation : forall G id id', pvalid G -> irrep_ok G id -> irrep_ok G id' ->
  kfreq (irrep_kind G id) <> kfreq (irrep_kind G id') ->
  exists g, pmember G g /\ fl G g = 0%Z /\ cos (IZR (kfreq (irrep_kind G id)) * th G g) <> cos (IZR (kfreq (irrep_kind G id')) * th G g).
Proof.
  intros G id id' HG H1 H2 N; set (k := kfreq (irrep_kind G id)) in *; set (l := kfreq (irrep_kind G id')) in *.
  pose proof PI_RGT_0 as HP.
  assert (Inj : forall t, 0 <= IZR k * t <= PI -> 0 <= IZR l * t <= PI -> 0 < t -> cos (IZR k * t) <> cos (IZR l * t)).
  { intros t Hk Hl Ht Ec; destruct (Z.lt_trichotomy k l) as [L|[L|L]]; [|contradiction|]; apply IZR_lt in L.
    - assert (IZR k * t < IZR l * t) by (apply Rmult_lt_compat_r; assumption).
      pose proof (cos_decreasing_1 (IZR k * t) (IZR l * t)); lra.
    - assert (IZR l * t < IZR k * t) by (apply Rmult_lt_compat_r; assumption).
      pose proof (cos_decreasing_1 (IZR l * t) (IZR k * t)); lra. }
  assert (FinC : forall M, (0 < M)%Z -> (0 <= 2 * k <= M)%Z -> (0 <= 2 * l <= M)%Z -> cos (IZR k * ang M 1) <> cos (IZR l * ang M 1)).
  { intros M HM Hk Hl; pose proof (IZR_pos M HM) as HMr.
    assert (B : forall j, (0 <= 2 * j <= M)%Z -> 0 <= IZR j * ang M 1 <= PI).
    { intros j [J1 J2]; apply IZR_le in J2; rewrite mult_IZR in J2; assert (0 <= IZR j) by (apply IZR_le; lia); unfold ang.
      replace (IZR j * (2 * PI / IZR M * 1)) with (PI * (2 * IZR j / IZR M)) by (field; lra).
      assert (0 <= 2 * IZR j / IZR M <= 1).
      { split; [apply Rmult_le_pos; [lra|apply Rlt_le, Rinv_0_lt_compat; lra]|].
        apply Rmult_le_reg_r with (IZR M); [lra|]; unfold Rdiv; rewrite Rmult_assoc, Rinv_l by lra; lra. }
      split; [apply Rmult_le_pos; lra|]; rewrite <- (Rmult_1_r PI) at 2; apply Rmult_le_compat_l; lra. }
    apply Inj; try (apply B; assumption); unfold ang; rewrite Rmult_1_r; apply Rdiv_lt_0_compat; lra. }
  assert (Cont : (0 <= k)%Z -> (0 <= l)%Z -> 0 <= PI / IZR (k + l) < 2 * PI /\
                 cos (IZR k * (PI / IZR (k + l))) <> cos (IZR l * (PI / IZR (k + l)))).
  { intros Hk Hl; assert (S1 : 1 <= IZR (k + l)) by (apply IZR_le; lia).
    assert (T : 0 < PI / IZR (k + l) <= PI).
    { split; [apply Rdiv_lt_0_compat; lra|].
      apply Rmult_le_reg_r with (IZR (k + l)); [lra|]; unfold Rdiv; rewrite Rmult_assoc, Rinv_l by lra.
      apply Rmult_le_compat_l; lra. }
    assert (B : forall j, (0 <= j <= k + l)%Z -> 0 <= IZR j * (PI / IZR (k + l)) <= PI).
    { intros j [J1 J2]; apply IZR_le in J1, J2; split; [apply Rmult_le_pos; lra|].
      apply Rmult_le_reg_r with (IZR (k + l)); [lra|]; unfold Rdiv; rewrite !Rmult_assoc, Rinv_l by lra.
      rewrite Rmult_1_r, Rmult_comm; apply Rmult_le_compat_l; lra. }
    split; [lra|]; apply Inj; try apply B; lia || lra. }
  destruct G as [[M|M]| |]; cbn [irrep_ok] in H1, H2.
  - destruct id as [|k' [|]], id' as [|l' [|]]; try contradiction; apply Z.ltb_lt in HG.
    assert (k = k') by (unfold k; cbn [irrep_kind]; destruct ((k' =? 0)%Z || (2 * k' =? M)%Z); reflexivity).
    assert (l = l') by (unfold l; cbn [irrep_kind]; destruct ((l' =? 0)%Z || (2 * l' =? M)%Z); reflexivity).
    destruct (Z.eq_dec M 1); [lia|]; exists (VF (VC 1)); cbn; split; [lia|split; [reflexivity|apply FinC; lia]].
  - destruct id as [|j1 [|k' [|]]], id' as [|j2 [|l' [|]]]; try contradiction; apply Z.ltb_lt in HG.
    assert (k = k') by (unfold k; cbn [irrep_kind]; destruct ((k' =? 0)%Z || (2 * k' =? M)%Z); reflexivity).
    assert (l = l') by (unfold l; cbn [irrep_kind]; destruct ((l' =? 0)%Z || (2 * l' =? M)%Z); reflexivity).
    destruct (Z.eq_dec M 1); [lia|]; exists (VF (VD 0 1)); cbn; split; [lia|split; [reflexivity|apply FinC; lia]].
  - destruct id as [|k' [|]], id' as [|l' [|]]; try contradiction.
    assert (k = k') by (unfold k; cbn [irrep_kind]; destruct (k' =? 0)%Z; reflexivity).
    assert (l = l') by (unfold l; cbn [irrep_kind]; destruct (l' =? 0)%Z; reflexivity).
    destruct (Cont ltac:(lia) ltac:(lia)) as [C1 C2]; exists (VS (PI / IZR (k + l))); cbn; auto.
  - destruct id as [|j1 [|k' [|]]], id' as [|j2 [|l' [|]]]; try contradiction.
    assert (k = k') by (unfold k; cbn [irrep_kind]; destruct (k' =? 0)%Z; reflexivity).
    assert (l = l') by (unfold l; cbn [irrep_kind]; destruct (l' =? 0)%Z; reflexivity).
    destruct (Cont ltac:(lia) ltac:(lia)) as [C1 C2]; exists (VO 0 (PI / IZR (k + l))); cbn; auto.
Qed.

(** R + R^T = 2 cos *)
Lemma kmat_sym : forall kd t, meq (kdim kd) (kdim kd) (madd (kmat kd 0 t) (mtr (kmat kd 0 t))) (mscal (2 * cos (IZR (kfreq kd) * t)) mid).
Proof.
  intros [s k|k] t; cbn [kdim kmat kfreq].
  - m11; unfold madd, mscal, mid, mtr, mat1, rsign; rewrite Z.mul_0_r; cbn; ring.
  - m22; unfold madd, mscal, mid, mtr, mat2, rsign; cbn; ring.
Qed.

Theorem planar_disjoint : forall G id id' rho rho', pvalid G -> irrep_ok G id -> irrep_ok G id' -> id <> id' ->
  p_irr G id = Ret rho -> p_irr G id' = Ret rho' -> disjoint_irreps (pmember G) rho rho'.
Proof.
  intros G id id' rho rho' HG H1 H2 N E E'.
  destruct (p_irr_kind G id rho HG H1 E) as (r & Er & -> & A), (p_irr_kind G id' rho' HG H2 E') as (r' & Er' & -> & A').
  pose proof A as (Ko & _ & Es & _ & _ & _ & Hr); pose proof A' as (Ko' & _ & Es' & _ & _ & _ & Hr').
  intros X HX; cbn [girrep_of gi_size gi_rep] in *; rewrite Es, Es' in *.
  set (kd := irrep_kind G id) in *; set (kd' := irrep_kind G id') in *.
  destruct (Z.eq_dec (kfreq kd) (kfreq kd')) as [Ef|Nf].
  - (* equal frequency: two signs *)
    assert (F : exists s s' k, kd = K1 s k /\ kd' = K1 s' k /\ s <> s' /\ (s = 0 \/ s = 1)%Z /\ (s' = 0 \/ s' = 1)%Z /\ has_flips G = true).
    { unfold kd, kd' in *; destruct G as [[M|M]| |]; cbn [irrep_ok irrep_kind has_flips] in *.
      - destruct id as [|k [|]], id' as [|q [|]]; try contradiction; exfalso; apply N; f_equal.
        destruct ((k =? 0)%Z || (2 * k =? M)%Z), ((q =? 0)%Z || (2 * q =? M)%Z); exact Ef.
      - destruct id as [|j [|k [|]]], id' as [|j' [|q [|]]]; try contradiction.
        assert (k = q) by (destruct ((k =? 0)%Z || (2 * k =? M)%Z), ((q =? 0)%Z || (2 * q =? M)%Z); exact Ef); subst q.
        assert (Nj : j <> j') by congruence.
        assert (D : ((k =? 0)%Z || (2 * k =? M)%Z) = true) by (destruct (Z.eqb_spec k 0), (Z.eqb_spec (2 * k) M); cbn; try reflexivity; lia).
        rewrite D; exists j, j', k; repeat split; auto; lia.
      - destruct id as [|k [|]], id' as [|q [|]]; try contradiction; exfalso; apply N; f_equal.
        destruct (k =? 0)%Z, (q =? 0)%Z; exact Ef.
      - destruct id as [|j [|k [|]]], id' as [|j' [|q [|]]]; try contradiction.
        assert (k = q) by (destruct (k =? 0)%Z, (q =? 0)%Z; exact Ef); subst q.
        assert (Nj : j <> j') by congruence.
        assert (D : (k =? 0)%Z = true) by (destruct (Z.eqb_spec k 0); [reflexivity|lia]).
        rewrite D; exists j, j', k; repeat split; auto; lia. }
    destruct F as (s & s' & k & -> & -> & Ns & Hs & Hs' & HF); cbn [kdim] in *.
    destruct (pure_flip G HG HF) as (g & Hg & Fg & Tg).
    destruct (Hr g Hg) as (B & EB & MB & _), (Hr' g Hg) as (B' & EB' & MB' & _).
    specialize (HX g B B' Hg EB EB' 0%nat 0%nat ltac:(lia) ltac:(lia)).
    unfold mmul in HX; cbn [sumn] in HX; rewrite MB, MB' in HX by lia; cbn [kmat] in HX; rewrite Fg, Tg, Rmult_0_r, cos_0 in HX.
    intros i j Hi Hj; assert (i = 0%nat) by lia; assert (j = 0%nat) by lia; subst; unfold mzero, mat1, rsign in *.
    destruct Hs as [-> | ->], Hs' as [-> | ->]; try (exfalso; apply Ns; reflexivity); cbn in HX; lra.
  - (* different frequencies *)
    destruct (telling_rotation G id id' HG H1 H2 Nf) as (g & Hg & Fg & Tg); fold kd kd' in Tg.
    destruct (Hr g Hg) as (B & EB & MB & _), (Hr' g Hg) as (B' & EB' & MB' & _).
    rewrite Fg in MB, MB'; specialize (HX g B B' Hg EB EB').
    set (t := th G g) in *; set (n := kdim kd) in *; set (m := kdim kd') in *.
    assert (OB : orthogonal n B).
    { eapply orthogonal_ext; [exact MB|]; apply kmat_orth; destruct kd; [apply Ko; exact Hg|exact I]. }
    assert (OB' : orthogonal m B').
    { eapply orthogonal_ext; [exact MB'|]; apply kmat_orth; destruct kd'; [apply Ko'; exact Hg|exact I]. }
    assert (HX' : meq n m (mmul n (mtr B) X) (mmul m X (mtr B'))).
    { destruct OB as [_ O2], OB' as [O1 _].
      transitivity (mmul n (mtr B) (mmul m (mmul m X B') (mtr B'))).
      - rewrite mul_assoc, O1, mid_r; reflexivity.
      - rewrite <- HX, <- !mul_assoc, O2, mid_l; reflexivity. }
    assert (SB : meq n n (madd B (mtr B)) (mscal (2 * cos (IZR (kfreq kd) * t)) mid)).
    { intros i j Hi Hj; unfold madd, mtr; rewrite !MB by assumption; exact (kmat_sym kd t i j Hi Hj). }
    assert (SB' : meq m m (madd B' (mtr B')) (mscal (2 * cos (IZR (kfreq kd') * t)) mid)).
    { intros i j Hi Hj; unfold madd, mtr; rewrite !MB' by assumption; exact (kmat_sym kd' t i j Hi Hj). }
    intros i j Hi Hj; unfold mzero.
    assert (L : mmul n (madd B (mtr B)) X i j = 2 * cos (IZR (kfreq kd) * t) * X i j).
    { transitivity (mmul n (mscal (2 * cos (IZR (kfreq kd) * t)) mid) X i j).
      - unfold mmul; apply sumn_ext; intros q Hq; rewrite (SB i q Hi Hq); reflexivity.
      - unfold mmul, mscal; rewrite (sumn_single n i); [unfold mid; rewrite Nat.eqb_refl; ring|exact Hi|].
        intros q Hq Nq; unfold mid; destruct (Nat.eqb_spec i q); [congruence|ring]. }
    assert (R : mmul m X (madd B' (mtr B')) i j = 2 * cos (IZR (kfreq kd') * t) * X i j).
    { transitivity (mmul m X (mscal (2 * cos (IZR (kfreq kd') * t)) mid) i j).
      - unfold mmul; apply sumn_ext; intros q Hq; rewrite (SB' q j Hq Hj); reflexivity.
      - unfold mmul, mscal; rewrite (sumn_single m j); [unfold mid; rewrite Nat.eqb_refl; ring|exact Hj|].
        intros q Hq Nq; unfold mid; destruct (Nat.eqb_spec q j); [congruence|ring]. }
    assert (LR : mmul n (madd B (mtr B)) X i j = mmul m X (madd B' (mtr B')) i j).
    { transitivity (mmul n B X i j + mmul n (mtr B) X i j).
      - unfold mmul, madd; rewrite <- sumn_plus; apply sumn_ext; intros; ring.
      - rewrite (HX i j Hi Hj), (HX' i j Hi Hj); unfold mmul, madd; rewrite <- sumn_plus; apply sumn_ext; intros; ring. }
    rewrite L, R in LR; apply Rmult_eq_reg_l with (cos (IZR (kfreq kd) * t) - cos (IZR (kfreq kd') * t)); lra.
Qed.

(** ** induction within C_N and D_N *)

Lemma commutant_clear : forall G id rho (d : repr pval), pvalid G -> irrep_ok G id -> p_irr G id = Ret rho ->
  orthogonal (gi_size rho) (r_cob d) -> inverse_of (gi_size rho) (r_cob d) (r_inv d) -> clear_restriction rho d.
Proof.
  intros G id rho d HG Hid E Q I; split; [exact Q|]; intros F i j IF Hi Hj; cbn zeta.
  set (n := gi_size rho) in *.
  assert (Mi : meq n n (r_inv d) (mtr (r_cob d))) by (apply (inverse_unique n (r_cob d)); [exact I|apply orthogonal_inverse; exact Q]).
  destruct (p_irr_kind G id rho HG Hid E) as (r & Er & -> & A); cbn [girrep_of gi_size gi_endo] in *; fold n in Hi, Hj.
  destruct A as (_ & _ & Es & _ & Ec & _ & _); unfold endomorphism_basis in IF.
  assert (Small : / 10 ^ 9 < 1) by (apply Rmult_lt_reg_l with (10 ^ 9); [lra|rewrite Rinv_r; lra]).
  assert (Unit : meq n n F mid -> let x := mmul n (mmul n (r_inv d) F) (r_cob d) i j in x = 0 \/ / 10 ^ 9 < x ^ 2).
  { intros MF; cbn zeta.
    assert (Z : meq n n (mmul n (mmul n (r_inv d) F) (r_cob d)) mid) by (rewrite MF, mid_r; exact (proj2 I)).
    rewrite (Z i j Hi Hj); unfold mid; destruct (Nat.eqb i j); [right; lra|left; ring]. }
  destruct (ir_complex r) eqn:C.
  - assert (S2 : n = 2%nat) by (unfold n; rewrite Es; destruct G as [[?|?]| |], (irrep_kind _ id); try discriminate Ec; reflexivity).
    unfold n in S2; rewrite S2 in IF; change (2 / 2)%nat with 1%nat in IF; fold n in S2.
    destruct IF as [<-|[<-|[]]].
    + apply Unit; rewrite S2; m22; unfold kron, mid; cbn; ring.
    + set (J := kron 1 1 (mat2 0 (-1) 1 0) mid) in *.
      assert (Z : mmul n (mmul n (r_inv d) J) (r_cob d) i j = mmul n (mmul n (mtr (r_cob d)) J) (r_cob d) i j).
      { assert (Z : meq n n (mmul n (mmul n (r_inv d) J) (r_cob d)) (mmul n (mmul n (mtr (r_cob d)) J) (r_cob d))) by (rewrite Mi; reflexivity).
        exact (Z i j Hi Hj). }
      rewrite Z; clear Z; destruct Q as [Q1 Q2]; fold n in Q1, Q2; rewrite S2 in *.
      pose proof (Q2 0%nat 0%nat ltac:(lia) ltac:(lia)) as A00; pose proof (Q2 0%nat 1%nat ltac:(lia) ltac:(lia)) as A01.
      pose proof (Q2 1%nat 1%nat ltac:(lia) ltac:(lia)) as A11.
      unfold mmul, mtr, mid in A00, A01, A11; cbn [sumn Nat.eqb] in A00, A01, A11.
      set (a := r_cob d 0%nat 0%nat) in *; set (b := r_cob d 0%nat 1%nat) in *;
        set (c := r_cob d 1%nat 0%nat) in *; set (e := r_cob d 1%nat 1%nat) in *.
      assert (Det : (a * e - b * c) ^ 2 = 1).
      { replace ((a * e - b * c) ^ 2) with ((0 + a * a + c * c) * (0 + b * b + e * e) - (0 + a * b + c * e) * (0 + a * b + c * e)) by ring.
        rewrite A00, A11, A01; ring. }
      destruct i as [|[|i]], j as [|[|j]]; try lia; unfold mmul, mtr, J, kron, mat2, mid; cbn; fold a b c e.
      * left; ring.
      * right; match goal with |- _ < ?x => replace x with ((a * e - b * c) ^ 2) by ring end; rewrite Det; lra.
      * right; match goal with |- _ < ?x => replace x with ((a * e - b * c) ^ 2) by ring end; rewrite Det; lra.
      * left; ring.
  - destruct IF as [<-|[]]; apply Unit; reflexivity.
Qed.

Section Fin.
Variables (G : grp) (sid : sgid) (sg : subgroup_data) (linv : nat -> mat -> res mat).
Hypothesis HG : valid_grp G = true.
Hypothesis HD : documented G sid.
Hypothesis Esg : subgroup G sid = Ret sg.
Hypothesis Hinv : correct_inverse linv.
Notation H := (sg_group sg).

Lemma sub_valid : valid_grp H = true.
Proof. destruct (subgroup_good G sid sg HG HD Esg) as (V & _); exact V. Qed.

Lemma fin_embedding : is_embedding (pmember (Fin G)) (pmul (Fin G)) (pmember (Fin H)) (pmul (Fin H)) (fin_incl sg).
Proof.
  destruct (subgroup_good G sid sg HG HD Esg) as (_ & E & _); split.
  - intros [h| |] Hh; try contradiction; destruct (emb_mem _ _ _ _ _ E h Hh) as (g & Eg & Mg); exists (VF g); cbn [fin_incl].
    rewrite Eg; split; [reflexivity|exact Mg].
  - intros [h| |] [k| |] Hh Hk; try contradiction; cbn [fin_incl]; intros X; f_equal.
    destruct (emb_mem _ _ _ _ _ E h Hh) as (g & Eg & _), (emb_mem _ _ _ _ _ E k Hk) as (g' & Eg' & _).
    apply (emb_inj _ _ _ _ _ E h k Hh Hk); rewrite Eg, Eg' in *; cbn [bind] in X; apply Ret_inj in X; injection X as ->; reflexivity.
  - intros [h| |] [k| |] hk g g' Hh Hk; try contradiction; rewrite pmul_fin; cbn [fin_incl]; intros X Y Z.
    apply bind_Ret in X as (w & Ew & X), Y as (u & Eu & Y), Z as (v & Ev & Z); apply Ret_inj in X, Y, Z; subst.
    rewrite pmul_fin; cbn [fin_incl]; rewrite (emb_mul _ _ _ _ _ E h k w u v Hh Hk Ew Eu Ev); reflexivity.
Qed.

(** no restriction is within the tolerance of the identity without being it *)
Definition sharp_restrictions : Prop := forall id x, irrep_ok (Fin G) id -> fin_restrict_irrep G id sid = Ret x ->
  sharp (fst (fst x)) (snd (fst x)).

Lemma fin_inducible : sharp_restrictions -> forall id, irrep_ok (Fin G) id ->
  inducible (pmember (Fin G)) (pmul (Fin G)) (pinv (Fin G)) (pid (Fin G)) (pmember (Fin H)) (fin_incl sg)
    (p_irr (Fin G)) (p_irr (Fin H)) (fin_restrict linv G H sid) id.
Proof.
  intros Sh id Hid; pose proof (p_irr_sound (Fin G) id HG Hid) as Snd; pose proof Snd as (rho & Er & Id & Pr & _).
  exists rho; split; [exact Er|split; [exact Id|split; [exact Snd|split; [|split]]]].
  - destruct (p_irr_kind (Fin G) id rho HG Hid Er) as (r & _ & -> & A); exact (proj1 (kind_orth_rep (Fin G) id r _ HG A)).
  - exact (planar_described (Fin G) id rho HG Hid Er).
  - intros d Ed; unfold fin_restrict in Ed; rewrite Er in Ed; cbn [bind] in Ed.
    destruct (fin_restrict_ok G sid id HG HD Hid) as (sg' & s & x & Es' & Es & Ex & R).
    rewrite Esg in Es'; apply Ret_inj in Es'; subst sg'.
    assert (Hin : forall h, pmember (Fin H) h -> exists g, fin_incl sg h = Ret g /\ pmember (Fin G) g) by exact (emb_mem _ _ _ _ _ fin_embedding).
    pose proof (restricts_sound (Fin G) (Fin H) (fin_incl sg) (fun id => fin_restrict_irrep G id sid) id s x HG Hid sub_valid Hin Es Ex R) as SR.
    pose proof (irrep_proper _ _ _ _ _ id rho Snd Er) as (P1 & P2 & P3 & P4).
    assert (Rs : rho = girrep_of s) by (unfold p_irr in Er; rewrite Es in Er; apply Ret_inj in Er; symmetry; exact Er).
    destruct SR as (s0 & Q & hids & E1 & E2 & E3 & E4 & E5 & E6 & E7); pose proof (ex_intro _ s0 (ex_intro _ Q (ex_intro _ hids
      (conj E1 (conj E2 (conj E3 (conj E4 (conj E5 (conj E6 E7)))))))) : sound_restriction (p_irr (Fin G)) (p_irr (Fin H))
        (pmember (Fin G)) (pmember (Fin H)) (pmul (Fin H)) (pid (Fin H)) (fin_incl sg) (fun id => fin_restrict_irrep G id sid) id) as SR.
    rewrite Er in E1; apply Ret_inj in E1; subst s0.
    set (n := gi_size rho) in *.
    assert (MB : meq n n (mmul n mid (bdiag [(n, Q)])) Q).
    { rewrite mid_l; intros i j Hi Hj; cbn [bdiag]; apply Nat.ltb_lt in Hi, Hj; rewrite Hi, Hj; reflexivity. }
    assert (Shn : sharp n (mmul n mid (bdiag [(n, Q)]))).
    { pose proof (Sh id _ Hid E2) as S0; cbn [fst snd] in S0; destruct S0 as [S0|S0].
      - left; rewrite MB; exact S0.
      - right; destruct (allclose n n (mmul n mid (bdiag [(n, Q)])) mid) eqn:Ea; [|reflexivity].
        rewrite <- S0; symmetry; rewrite allclose_true in *; intros i j Hi Hj; rewrite <- (MB i j Hi Hj); apply Ea; assumption. }
    destruct (restrict_ok (p_irr (Fin G)) (p_irr (Fin H)) (pmember (Fin G)) (pmember (Fin H)) (pmul (Fin H)) (pid (Fin H)) (fin_incl sg)
      (fun id => fin_restrict_irrep G id sid) linv Hinv (repr_of_irrep rho) P1 P4 P3) as (d' & Ed' & Sd & Pd & Vd).
    { cbn [repr_of_irrep r_irreps]; rewrite Id; constructor; [exact SR|constructor]. }
    { cbn [repr_of_irrep r_irreps r_size r_cob]; rewrite Id; intros parts Ep; cbn [mapM] in Ep; rewrite E2 in Ep; cbn [bind] in Ep.
      apply Ret_inj in Ep; subst parts; exact Shn. }
    rewrite Ed in Ed'; apply Ret_inj in Ed'; subst d'; cbn [repr_of_irrep r_size r_fun] in Sd, Vd; fold n in Sd, Vd.
    destruct Pd as (_ & _ & _ & Rep); split.
    + split; [exact Sd|split; [exact Rep|]]; intros h Hh; destruct (Vd h Hh) as (g & A & B & Eg & EA & EB & M).
      exists g, A, B; fold n; split; [exact Eg|split; [exact EA|split; [exact EB|symmetry; exact M]]].
    + assert (Cob : r_cob d = mmul n mid (bdiag [(n, Q)])).
      { unfold restrict_representation in Ed; cbn [repr_of_irrep r_irreps r_size r_cob] in Ed; rewrite Id in Ed; cbn [mapM] in Ed.
        rewrite E2, Er in Ed; cbn [bind fst] in Ed; fold n in Ed; rewrite Nat.eqb_refl in Ed; cbn [assert_ bind map fst] in Ed.
        apply assert_Ret in Ed as [_ Ed]; unfold mk_repr in Ed; apply assert_Ret in Ed as [_ Ed]; apply bind_Ret in Ed as (i & _ & Ed).
        apply assert_Ret in Ed as [_ Ed]; apply assert_Ret in Ed as [_ Ed]; apply bind_Ret in Ed as (_u & _ & Ed); apply bind_Ret in Ed as (f & _ & Ed).
        apply Ret_inj in Ed; subst d; reflexivity. }
      destruct Rep as [Ri _]; rewrite Sd in Ri.
      apply (commutant_clear (Fin G) id rho d HG Hid Er); fold n; [|exact Ri].
      rewrite Cob; eapply orthogonal_ext; [exact MB|exact E4].
Qed.

Lemma built_disjoint : pairwise_disjoint (pmember (Fin G)) (p_irr (Fin G)) (built_irreps G).
Proof.
  destruct (built_irreps_exact G HG) as [Nd Hb]; unfold pairwise_disjoint.
  assert (Hok : forall id, In id (built_irreps G) -> irrep_ok (Fin G) id) by (intros id I; apply Hb; exact I).
  clear Hb; induction Nd as [|id ids Ni Nd IH]; constructor.
  - apply Forall_forall; intros id' I rho rho' E E'; apply (planar_disjoint (Fin G) id id'); auto.
    + apply Hok; left; reflexivity.
    + apply Hok; right; exact I.
    + intros ->; contradiction.
  - apply IH; intros id' I; apply Hok; right; exact I.
Qed.

Theorem induced_planar : forall components psi same index reps ids' cob cobi id,
  correct_components components -> sharp_restrictions ->
  irrep_ok (Fin H) id -> p_irr (Fin H) id = Ret psi ->
  transversal (pmember (Fin G)) (pmul (Fin G)) (pmember (Fin H)) (fin_incl sg) reps ->
  build_induced (p_irr (Fin G)) (p_irr (Fin H)) (fin_restrict linv G H sid) components same index (built_irreps G) psi reps = Ret (ids', cob, cobi) ->
  let n := (gi_size psi * length reps)%nat in
  orthogonal n cob /\
  (sharp n cob -> exists r,
    induced_representation (p_irr (Fin G)) (p_irr (Fin H)) (fin_restrict linv G H sid) components linv same index (built_irreps G) psi reps = Ret r /\
    r_size r = n /\ proper (p_irr (Fin G)) (pmember (Fin G)) (pmul (Fin G)) (pid (Fin G)) r /\ r_irreps r = ids' /\
    forall g, pmember (Fin G) g -> exists A, r_fun r g = Ret (n, A) /\ orthogonal n A /\
      induced_value (pmul (Fin G)) (pmember (Fin H)) (fin_incl sg) psi reps g A).
Proof.
  intros components psi same index reps ids' cob cobi id Hc Sh Hid Ep Ht E.
  pose proof sub_valid as VH; destruct (p_irr_kind (Fin H) id psi VH Hid Ep) as (r & Er & Epsi & A).
  assert (Ii : gi_id psi = id) by (subst psi; apply A).
  refine (induced_full (pmember (Fin G)) (pmul (Fin G)) (pinv (Fin G)) (pid (Fin G)) (pmember (Fin H)) (pmul (Fin H)) (pinv (Fin H)) (pid (Fin H))
    (fin_incl sg) (p_irr (Fin H)) (fin_restrict linv G H sid) components psi reps (pfin_group G HG) (pfin_group H VH) fin_embedding Ht _ _ _ _ _ Hc
    (p_irr (Fin G)) linv Hinv same index (built_irreps G) ids' cob cobi _ built_disjoint E).
  - subst psi; exact (proj1 (kind_orth_rep (Fin H) id r _ VH A)).
  - rewrite Ii; exact Ep.
  - subst psi; exact (ir_size_pos (Fin H) id r VH Hid Er).
  - exact (planar_described (Fin H) id psi VH Hid Ep).
  - intros id' r' h b E' Hh Eb.
    assert (Hok : irrep_ok (Fin H) id').
    { apply (p_irrep_accepts (Fin H) id' VH); unfold p_irr in E'; apply bind_Ret in E' as (q & Eq & _); exists q; exact Eq. }
    destruct (p_irr_kind (Fin H) id' r' VH Hok E') as (q & _ & -> & (_ & _ & Es & _ & _ & _ & Hr)); cbn [girrep_of gi_rep gi_size] in *.
    destruct (Hr h Hh) as (B & EB & _); rewrite Eb in EB; apply Ret_inj in EB; subst b; cbn [fst]; symmetry; exact Es.
  - apply Forall_forall; intros id' I; apply fin_inducible; [exact Sh|]; apply (built_irreps_exact G HG); exact I.
Qed.
End Fin.

(** a reflection is far from the identity *)
Lemma reflection_sharp : forall n (Q : mat), (1 < n)%nat -> Q 1%nat 1%nat = -1 -> sharp n Q.
Proof.
  intros n Q L E; right; destruct (allclose n n Q mid) eqn:C; [|reflexivity]; exfalso.
  rewrite allclose_true in C; specialize (C 1%nat 1%nat L L); rewrite E in C; unfold mid in C; cbn [Nat.eqb] in C.
  unfold np_isclose in C; apply Rleb_true in C.
  replace (-1 - 1) with (-2) in C by ring; rewrite Rabs_R1 in C; rewrite Rabs_left in C by lra.
  assert (0 < / 10 ^ 8 < 1) by (split; [apply Rinv_0_lt_compat; lra|apply Rmult_lt_reg_l with (10 ^ 8); [lra|rewrite Rinv_r; lra]]).
  assert (0 < / 10 ^ 5 < / 2) by (split; [apply Rinv_0_lt_compat; lra|apply Rinv_lt_contravar; lra]).
  lra.
Qed.

(** restricting to rotations, or along the axis 0, is always sharp *)
Lemma sharp_simple : forall G sid, valid_grp G = true -> documented G sid ->
  (match sid with IdD (Some a) _ => a = 0%Z | _ => True end) -> sharp_restrictions G sid.
Proof.
  intros G sid HG HD Ha id x Hid E.
  assert (Rot0 : forall N k, meq 2 2 (psi (1 / 2 * 0 * 2 * PI / IZR N) k 0) mid).
  { intros N k; unfold psi; replace (IZR k * (1 / 2 * 0 * 2 * PI / IZR N) + 0) with 0 by (unfold Rdiv; ring).
    rewrite cos_0, sin_0; m22; ring. }
  destruct G as [N|N], sid as [M|a M]; cbn [documented] in HD; try contradiction; cbn [fin_restrict_irrep] in E.
  - unfold cn_restrict_irrep in E; apply bind_Ret in E as (r & Er & E); apply bind_Ret in E as (sg & Es & E).
    apply bind_Ret in E as (s & _ & E); apply Ret_inj in E; subst x; cbn [fst].
    destruct (M <? 2 * (ir_freq r mod M))%Z; cbn [snd fst]; [apply reflection_sharp; [lia|reflexivity]|left; reflexivity].
  - unfold dn_restrict_irrep in E; apply bind_Ret in E as (r & Er & E); apply bind_Ret in E as (sg & Es & E).
    destruct a as [a|].
    + subst a; destruct (M =? 1)%Z.
      * apply bind_Ret in E as (j & _ & E); destruct (Nat.ltb 1 (ir_size r)); apply Ret_inj in E; subst x; left; [apply Rot0|reflexivity].
      * apply bind_Ret in E as (j & _ & E); apply bind_Ret in E as (c & Ec & E); unfold chi in Ec; cbn in Ec; apply Ret_inj in Ec; subst c.
        apply bind_Ret in E as (s & _ & E).
        destruct (Nat.eqb_spec (ir_size r) 2) as [S2|_].
        -- apply bind_Ret in E as (cob & Ec & E); apply Ret_inj in E; subst x; cbn [fst].
           unfold sq_mul in Ec; apply assert_Ret in Ec as [Ed Ec]; apply Ret_inj in Ec; subst cob; cbn [fst snd].
           destruct (M <? 2 * (ir_freq r mod M))%Z; cbn [fst snd].
           ++ apply reflection_sharp; [lia|]; unfold mmul; cbn [sumn]; rewrite !Rot0 by lia; unfold mid, mat2, rsign; cbn; ring.
           ++ left; rewrite Rot0, mid_l; reflexivity.
        -- apply Ret_inj in E; subst x; cbn [fst].
           destruct (M <? 2 * (ir_freq r mod M))%Z; cbn [fst snd]; [apply reflection_sharp; [lia|reflexivity]|left; reflexivity].
    + apply bind_Ret in E as (c & Ec & E); unfold chi in Ec; cbn in Ec; apply Ret_inj in Ec; subst c.
      apply bind_Ret in E as (s & _ & E); apply Ret_inj in E; subst x; cbn [fst].
      destruct (M <? 2 * (ir_freq r mod M))%Z; cbn [fst snd]; [apply reflection_sharp; [lia|reflexivity]|left; reflexivity].
Qed.
