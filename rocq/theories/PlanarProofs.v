(** Proofs about SO(2), O(2) and their subgroups. *)
From Coq Require Import Reals ZArith Bool List Lia Lra Setoid Morphisms.
From Verif Require Import LibRes LibMat LibTrig SpecGroup FinGroupModel SpecFinGroup FinGroupProofs
  ParamModel ParamProofs PlanarModel SpecPlanar.
Import ListNotations.
Open Scope R_scope.

Notation m x := (rmod x (2 * PI)).

(** ** Angles modulo 2 pi *)

#[global] Instance sa_equiv : Equivalence same_angle.
Proof.
  constructor.
  - intros x; exists 0%Z; ring.
  - intros x y [n ->]; exists (- n)%Z; rewrite opp_IZR; ring.
  - intros x y z [n ->] [k ->]; exists (n + k)%Z; rewrite plus_IZR; ring.
Qed.

#[global] Instance sa_plus : Proper (same_angle ==> same_angle ==> same_angle) Rplus.
Proof. intros x x' [n ->] y y' [k ->]; exists (n + k)%Z; rewrite plus_IZR; ring. Qed.

#[global] Instance sa_opp : Proper (same_angle ==> same_angle) Ropp.
Proof. intros x x' [n ->]; exists (- n)%Z; rewrite opp_IZR; ring. Qed.

#[global] Instance sa_minus : Proper (same_angle ==> same_angle ==> same_angle) Rminus.
Proof. intros x x' [n ->] y y' [k ->]; exists (n - k)%Z; rewrite minus_IZR; ring. Qed.

Lemma sa_mult : forall z x y, same_angle x y -> same_angle (IZR z * x) (IZR z * y).
Proof. intros z x y [n ->]; exists (z * n)%Z; rewrite mult_IZR; ring. Qed.

#[global] Instance sa_multZ z : Proper (same_angle ==> same_angle) (Rmult (IZR z)).
Proof. intros x y H; apply sa_mult; exact H. Qed.

Lemma sa_m : forall x, same_angle (m x) x.
Proof.
  intros x; destruct (rmod_cong x (2 * PI) two_pi_pos) as [n E]; exists (- n)%Z.
  rewrite opp_IZR; lra.
Qed.

Lemma m_eq : forall x y, same_angle x y -> m x = m y.
Proof. intros x y [n E]; apply rmod_eq with n; [apply two_pi_pos|exact E]. Qed.

Lemma m_id : forall x, 0 <= x < 2 * PI -> m x = x.
Proof. intros x H; apply rmod_small; exact H. Qed.

Lemma m_range : forall x, 0 <= m x < 2 * PI.
Proof. intros x; apply rmod_range, two_pi_pos. Qed.

Lemma m_idem : forall x, m (m x) = m x.
Proof. intros x; apply m_id, m_range. Qed.

Lemma m_eq_id : forall x y, 0 <= y < 2 * PI -> same_angle x y -> m x = y.
Proof. intros x y H S; rewrite (m_eq x y S); apply m_id; exact H. Qed.

Lemma sa_eq : forall x y, x = y -> same_angle x y.
Proof. intros x y ->; reflexivity. Qed.

Lemma sa_range : forall x y, 0 <= x < 2 * PI -> 0 <= y < 2 * PI -> same_angle x y -> x = y.
Proof. intros x y Hx Hy S; rewrite <- (m_id x Hx); apply m_eq_id; assumption. Qed.

Lemma sa_turns : forall x z, same_angle (x + 2 * PI * IZR z) x.
Proof. intros x z; exists z; reflexivity. Qed.

(** ** The operations in closed form *)

Lemma so2_norm_eq : forall t, so2_norm t = Ret (m t).
Proof. reflexivity. Qed.

Lemma o2_norm_eq : forall f t, o2_norm f t = Ret (f, m t).
Proof. reflexivity. Qed.

Lemma pelement_so2 : forall t, pelement SO2 (VS t) = Ret (VS (m t)).
Proof. reflexivity. Qed.

Lemma pelement_o2 : forall f t, (f = 0 \/ f = 1)%Z -> pelement O2 (VO f t) = Ret (VO f (m t)).
Proof. intros f t [->| ->]; reflexivity. Qed.

Lemma pmul_so2 : forall a b, pmul SO2 (VS a) (VS b) = Ret (VS (m (a + b))).
Proof.
  intros a b; unfold pmul, pcombine; repeat (rewrite so2_norm_eq; cbn [bind]).
  rewrite pelement_so2, !m_idem; do 2 f_equal; apply m_eq; rewrite !sa_m; reflexivity.
Qed.

Lemma pinv_so2 : forall a, pinv SO2 (VS a) = Ret (VS (m (- a))).
Proof.
  intros a; unfold pinv, pinverse; repeat (rewrite so2_norm_eq; cbn [bind]).
  rewrite pelement_so2, !m_idem; do 2 f_equal; apply m_eq; rewrite !sa_m; reflexivity.
Qed.

Lemma flip_add : forall f g, (f = 0 \/ f = 1)%Z -> (g = 0 \/ g = 1)%Z ->
  ((f + g) mod 2 = 0 \/ (f + g) mod 2 = 1)%Z.
Proof. intros f g [->| ->] [->| ->]; cbn; auto. Qed.

Lemma pmul_o2 : forall f a g b, (f = 0 \/ f = 1)%Z -> (g = 0 \/ g = 1)%Z ->
  pmul O2 (VO f a) (VO g b) = Ret (VO ((f + g) mod 2) (m (a + IZR (pysign f) * b))).
Proof.
  intros f a g b Hf Hg; unfold pmul, pcombine; rewrite !o2_norm_eq; cbn [bind fst snd].
  rewrite !o2_norm_eq; cbn [bind fst snd]; rewrite pelement_o2 by (apply flip_add; assumption).
  rewrite !m_idem; do 2 f_equal; apply m_eq; rewrite !sa_m; reflexivity.
Qed.

Lemma pinv_o2 : forall f a, (f = 0 \/ f = 1)%Z ->
  pinv O2 (VO f a) = Ret (VO f (m (- a * IZR (pysign f)))).
Proof.
  intros f a Hf; unfold pinv, pinverse; rewrite !o2_norm_eq; cbn [bind fst snd].
  rewrite !o2_norm_eq; cbn [bind fst snd]; rewrite pelement_o2 by assumption.
  rewrite !m_idem; do 2 f_equal; apply m_eq.
  rewrite !(Rmult_comm _ (IZR (pysign f))), !sa_m; reflexivity.
Qed.

Ltac flips := repeat match goal with
  | H : (?f = 0 \/ ?f = 1)%Z |- _ => destruct H as [H|H]; subst f end.

Lemma so2_group : is_group (pmember SO2) (pmul SO2) (pinv SO2) (pid SO2).
Proof.
  pose proof two_pi_pos as P; constructor.
  - cbn; lra.
  - intros [|a|] [|b|] Ha Hb; try contradiction; eexists; split; [apply pmul_so2|apply m_range].
  - intros [|a|] Ha; try contradiction; eexists; split; [apply pinv_so2|apply m_range].
  - intros [|a|] [|b|] [|c|] ab bc Ha Hb Hc E F; try contradiction.
    rewrite pmul_so2 in E, F; apply Ret_inj in E; apply Ret_inj in F; subst.
    rewrite !pmul_so2; do 2 f_equal; apply m_eq; rewrite !sa_m; apply sa_eq; ring.
  - intros [|a|] Ha; try contradiction; cbn [pid]; rewrite pmul_so2, Rplus_0_l, m_id; auto.
  - intros [|a|] Ha; try contradiction; cbn [pid]; rewrite pmul_so2, Rplus_0_r, m_id; auto.
  - intros [|a|] b Ha E; try contradiction; rewrite pinv_so2 in E; apply Ret_inj in E; subst.
    rewrite pmul_so2; unfold pid; do 2 f_equal; apply m_eq_id; [lra|]; rewrite !sa_m; apply sa_eq; ring.
  - intros [|a|] b Ha E; try contradiction; rewrite pinv_so2 in E; apply Ret_inj in E; subst.
    rewrite pmul_so2; unfold pid; do 2 f_equal; apply m_eq_id; [lra|]; rewrite !sa_m; apply sa_eq; ring.
Qed.

Lemma o2_group : is_group (pmember O2) (pmul O2) (pinv O2) (pid O2).
Proof.
  pose proof two_pi_pos as P; constructor.
  - cbn; split; [auto|lra].
  - intros [| |f a] [| |g b] Ha Hb; try contradiction; destruct Ha as [Hf Ha], Hb as [Hg Hb].
    eexists; split; [apply pmul_o2; assumption|split; [apply flip_add; assumption|apply m_range]].
  - intros [| |f a] Ha; try contradiction; destruct Ha as [Hf Ha].
    eexists; split; [apply pinv_o2; assumption|split; [assumption|apply m_range]].
  - intros [| |f a] [| |g b] [| |h c] ab bc Ha Hb Hc E F; try contradiction.
    destruct Ha as [Hf Ha], Hb as [Hg Hb], Hc as [Hh Hc].
    rewrite pmul_o2 in E by assumption; rewrite pmul_o2 in F by assumption.
    apply Ret_inj in E; apply Ret_inj in F; subst.
    rewrite !pmul_o2 by (try apply flip_add; assumption).
    f_equal; f_equal.
    + rewrite Zplus_mod_idemp_l, Zplus_mod_idemp_r; f_equal; ring.
    + apply m_eq; rewrite !sa_m; apply sa_eq; flips; cbn; ring.
  - intros [| |f a] Ha; try contradiction; destruct Ha as [Hf Ha]; cbn [pid].
    rewrite pmul_o2 by auto; do 2 f_equal; [flips; reflexivity|].
    apply m_eq_id; [assumption|apply sa_eq; cbn; ring].
  - intros [| |f a] Ha; try contradiction; destruct Ha as [Hf Ha]; cbn [pid].
    rewrite pmul_o2 by auto; do 2 f_equal; [flips; reflexivity|].
    apply m_eq_id; [assumption|apply sa_eq; ring].
  - intros [| |f a] b Ha E; try contradiction; destruct Ha as [Hf Ha].
    rewrite pinv_o2 in E by assumption; apply Ret_inj in E; subst.
    rewrite pmul_o2 by assumption; unfold pid; do 2 f_equal; [flips; reflexivity|].
    apply m_eq_id; [lra|]; rewrite !sa_m; apply sa_eq; flips; cbn; ring.
  - intros [| |f a] b Ha E; try contradiction; destruct Ha as [Hf Ha].
    rewrite pinv_o2 in E by assumption; apply Ret_inj in E; subst.
    rewrite pmul_o2 by assumption; unfold pid; do 2 f_equal; [flips; reflexivity|].
    apply m_eq_id; [lra|]; rewrite !sa_m; apply sa_eq; flips; cbn; ring.
Qed.

(** ** Inclusions *)

(** the angle of the r-th rotation of C_M *)
Definition ang (M r : Z) : R := 2 * PI / IZR M * IZR r.

Lemma ang_form : forall M r, (0 < M)%Z -> IZR r * 2 * PI / IZR M = ang M r.
Proof. intros M r H; pose proof (IZR_pos M H); unfold ang; field; lra. Qed.

Lemma ang_form' : forall M r, (0 < M)%Z -> IZR r * (2 * PI) / IZR M = ang M r.
Proof. intros M r H; pose proof (IZR_pos M H); unfold ang; field; lra. Qed.

Lemma ang_range : forall M r, (0 < M)%Z -> (0 <= r < M)%Z -> 0 <= ang M r < 2 * PI.
Proof.
  intros M r HM Hr; pose proof (IZR_pos M HM) as HM'; pose proof two_pi_pos as P; unfold ang.
  assert (0 <= IZR r) by (apply (IZR_le 0); lia).
  assert (IZR r < IZR M) by (apply IZR_lt; lia).
  assert (Q : 0 < 2 * PI / IZR M) by (apply Rdiv_lt_0_compat; lra).
  split; [apply Rmult_le_pos; lra|].
  replace (2 * PI) with (2 * PI / IZR M * IZR M) at 2 by (field; lra).
  apply Rmult_lt_compat_l; assumption.
Qed.

Lemma ang_mod : forall M r, (0 < M)%Z -> same_angle (ang M (r mod M)) (ang M r).
Proof.
  intros M r HM; pose proof (IZR_pos M HM); exists (- (r / M))%Z; unfold ang.
  rewrite Z.mod_eq, minus_IZR, mult_IZR, opp_IZR by lia; field; lra.
Qed.

Lemma ang_add : forall M r s, ang M (r + s) = ang M r + ang M s.
Proof. intros; unfold ang; rewrite plus_IZR; ring. Qed.

Lemma ang_mult : forall M z r, ang M (z * r) = IZR z * ang M r.
Proof. intros; unfold ang; rewrite mult_IZR; ring. Qed.

Lemma ang_inj : forall M r s, (0 < M)%Z -> (0 <= r < M)%Z -> (0 <= s < M)%Z ->
  same_angle (ang M r) (ang M s) -> r = s.
Proof.
  intros M r s HM Hr Hs H; pose proof (IZR_pos M HM); pose proof PI_RGT_0.
  apply sa_range in H; [|apply ang_range; assumption..].
  unfold ang in H; apply eq_IZR.
  apply Rmult_eq_reg_l with (2 * PI / IZR M); [exact H|].
  apply Rgt_not_eq, Rdiv_lt_0_compat; lra.
Qed.

Lemma gmul_cyc : forall M r s, (0 < M)%Z -> (0 <= r < M)%Z -> (0 <= s < M)%Z ->
  pmul (Fin (Cyc M)) (VF (VC r)) (VF (VC s)) = Ret (VF (VC ((r + s) mod M))).
Proof.
  intros M r s HM Hr Hs; cbn; unfold element, is_element.
  pose proof (Z.mod_pos_bound (r + s) M HM).
  destruct (Z.leb_spec 0 ((r + s) mod M)); [|lia].
  destruct (Z.ltb_spec ((r + s) mod M) M); [|lia]; reflexivity.
Qed.

Lemma gmul_dih : forall M f r g s, (0 < M)%Z -> (f = 0 \/ f = 1)%Z -> (g = 0 \/ g = 1)%Z ->
  pmul (Fin (Dih M)) (VF (VD f r)) (VF (VD g s)) =
  Ret (VF (VD ((f + g) mod 2) ((r + pysign f * s) mod M))).
Proof.
  intros M f r g s HM Hf Hg.
  unfold pmul, pcombine, pelement, combine, element, is_element; cbn [bind].
  pose proof (Z.mod_pos_bound (r + pysign f * s) M HM) as B.
  destruct (Z.leb_spec 0 ((r + pysign f * s) mod M)); [|lia].
  destruct (Z.ltb_spec ((r + pysign f * s) mod M) M); [|lia].
  destruct (flip_add f g Hf Hg) as [->| ->]; reflexivity.
Qed.

Ltac unpack := repeat match goal with
  | H : Ret ?a = Ret ?b |- _ => apply Ret_inj in H
  | H : pmember (Fin (Cyc _)) ?h |- _ => destruct h as [[?|? ?]|?|? ?]; cbn in H; try contradiction
  | H : pmember (Fin (Dih _)) ?h |- _ => destruct h as [[?|? ?]|?|? ?]; cbn in H; try contradiction
  | H : pmember SO2 ?h |- _ => destruct h as [?|?|? ?]; cbn in H; try contradiction
  | H : pmember O2 ?h |- _ => destruct h as [?|?|? ?]; cbn in H; try contradiction
  end.

Lemma so2_parent_eq : forall M r, (0 < M)%Z -> so2_parent M (VF (VC r)) = Ret (VS (m (ang M r))).
Proof. intros M r HM; unfold so2_parent; rewrite pelement_so2, ang_form by exact HM; reflexivity. Qed.

Lemma emb_so2_cyc : forall M, (0 < M)%Z ->
  is_embedding (pmember SO2) (pmul SO2) (pmember (Fin (Cyc M))) (pmul (Fin (Cyc M))) (so2_parent M).
Proof.
  intros M HM; constructor.
  - intros h Hh; unpack; rewrite so2_parent_eq by exact HM; eexists; split; [reflexivity|apply m_range].
  - intros h1 h2 H1 H2 E; unpack; rewrite !so2_parent_eq in E by exact HM; apply Ret_inj in E.
    injection E as E; do 2 f_equal.
    apply (ang_inj M); [assumption..|].
    rewrite <- (sa_m (ang M _)), E, sa_m; reflexivity.
  - intros h1 h2 h12 g1 g2 H1 H2 E E1 E2; unpack.
    rewrite gmul_cyc in E by assumption; rewrite so2_parent_eq in E1, E2 by exact HM; unpack; subst.
    rewrite so2_parent_eq, pmul_so2 by exact HM; do 2 f_equal; apply m_eq.
    rewrite ang_mod, ang_add, !sa_m by exact HM; reflexivity.
Qed.

Lemma to_radians1_cyc : forall M r, (0 < M)%Z -> to_radians1 (Fin (Cyc M)) (VF (VC r)) = Ret (ang M r).
Proof. intros M r HM; cbn; rewrite ang_form' by exact HM; reflexivity. Qed.

Lemma so2_to_o2_cyc : forall M r, (0 < M)%Z ->
  so2_to_o2 (Fin (Cyc M)) (VF (VC r)) = Ret (VO 0 (m (ang M r))).
Proof.
  intros M r HM; unfold so2_to_o2; rewrite to_radians1_cyc by exact HM; cbn [bind].
  apply pelement_o2; auto.
Qed.

Lemma so2_to_o2_so2 : forall t, so2_to_o2 SO2 (VS t) = Ret (VO 0 (m t)).
Proof.
  intros t; unfold so2_to_o2, to_radians1; rewrite so2_norm_eq; cbn [bind].
  rewrite pelement_o2, m_idem by auto; reflexivity.
Qed.

Lemma emb_o2_cyc : forall M, (0 < M)%Z ->
  is_embedding (pmember O2) (pmul O2) (pmember (Fin (Cyc M))) (pmul (Fin (Cyc M))) (so2_to_o2 (Fin (Cyc M))).
Proof.
  intros M HM; constructor.
  - intros h Hh; unpack; rewrite so2_to_o2_cyc by exact HM; eexists; split; [reflexivity|split; [auto|apply m_range]].
  - intros h1 h2 H1 H2 E; unpack; rewrite !so2_to_o2_cyc in E by exact HM; apply Ret_inj in E.
    injection E as E; do 2 f_equal.
    apply (ang_inj M); [assumption..|].
    rewrite <- (sa_m (ang M _)), E, sa_m; reflexivity.
  - intros h1 h2 h12 g1 g2 H1 H2 E E1 E2; unpack.
    rewrite gmul_cyc in E by assumption; rewrite so2_to_o2_cyc in E1, E2 by exact HM; unpack; subst.
    rewrite so2_to_o2_cyc, pmul_o2 by auto; do 2 f_equal; apply m_eq.
    rewrite ang_mod, ang_add, !sa_m by exact HM; apply sa_eq; cbn; ring.
Qed.

Lemma emb_o2_so2 :
  is_embedding (pmember O2) (pmul O2) (pmember SO2) (pmul SO2) (so2_to_o2 SO2).
Proof.
  constructor.
  - intros h Hh; unpack; rewrite so2_to_o2_so2; eexists; split; [reflexivity|split; [auto|apply m_range]].
  - intros h1 h2 H1 H2 E; unpack; rewrite !so2_to_o2_so2 in E; apply Ret_inj in E.
    injection E as E; rewrite !m_id in E by assumption; subst; reflexivity.
  - intros h1 h2 h12 g1 g2 H1 H2 E E1 E2; unpack.
    rewrite pmul_so2 in E; rewrite so2_to_o2_so2 in E1, E2; unpack; subst.
    rewrite so2_to_o2_so2, pmul_o2 by auto; do 2 f_equal; apply m_eq.
    rewrite !sa_m; apply sa_eq; cbn; ring.
Qed.

Lemma flip_to_o2_eq : forall a f, (f = 0 \/ f = 1)%Z -> flip_to_o2 a (VF (VC f)) = Ret (VO f (m (IZR f * a))).
Proof.
  intros a f [->| ->]; unfold flip_to_o2; cbn [Z.eqb].
  - unfold pid; do 2 f_equal; rewrite Rmult_0_l, rmod_0 by apply two_pi_pos; reflexivity.
  - rewrite pelement_o2 by auto; do 2 f_equal; rewrite Rmult_1_l; reflexivity.
Qed.

Lemma emb_o2_flip : forall a,
  is_embedding (pmember O2) (pmul O2) (pmember (Fin (Cyc 2))) (pmul (Fin (Cyc 2))) (flip_to_o2 a).
Proof.
  intros a; constructor.
  - intros h Hh; unpack; assert (r = 0 \/ r = 1)%Z by lia.
    rewrite flip_to_o2_eq by assumption; eexists; split; [reflexivity|split; [assumption|apply m_range]].
  - intros h1 h2 H1 H2 E; unpack; rewrite !flip_to_o2_eq in E by lia; apply Ret_inj in E.
    injection E as -> _; reflexivity.
  - intros h1 h2 h12 g1 g2 H1 H2 E E1 E2; unpack.
    assert (Hr : (r = 0 \/ r = 1)%Z) by lia; assert (Hr0 : (r0 = 0 \/ r0 = 1)%Z) by lia.
    rewrite gmul_cyc in E by lia; rewrite flip_to_o2_eq in E1, E2 by assumption; unpack; subst.
    rewrite flip_to_o2_eq by (apply flip_add; assumption).
    rewrite pmul_o2 by assumption; do 2 f_equal; apply m_eq; rewrite !sa_m.
    clear H1 H2; flips; cbn; apply sa_eq; ring.
Qed.

Lemma dn_to_o2_eq : forall a M f r, (0 < M)%Z -> (f = 0 \/ f = 1)%Z ->
  dn_to_o2 a M (VF (VD f r)) = Ret (VO f (m (ang M r + IZR f * a))).
Proof.
  intros a M f r HM Hf; unfold dn_to_o2; rewrite pelement_o2, ang_form by assumption; reflexivity.
Qed.

Lemma emb_o2_dih : forall a M, (0 < M)%Z ->
  is_embedding (pmember O2) (pmul O2) (pmember (Fin (Dih M))) (pmul (Fin (Dih M))) (dn_to_o2 a M).
Proof.
  intros a M HM; constructor.
  - intros h Hh; unpack; destruct Hh as [Hf Hr]; rewrite dn_to_o2_eq by assumption.
    eexists; split; [reflexivity|split; [assumption|apply m_range]].
  - intros h1 h2 H1 H2 E; unpack; destruct H1 as [Hf Hr], H2 as [Hf0 Hr0].
    rewrite !dn_to_o2_eq in E by assumption; apply Ret_inj in E.
    injection E as <- E; do 2 f_equal.
    apply (ang_inj M); [assumption..|].
    transitivity (m (ang M r0 + IZR f0 * a) - IZR f0 * a); [rewrite sa_m; apply sa_eq; ring|].
    rewrite E, sa_m; apply sa_eq; ring.
  - intros h1 h2 h12 g1 g2 H1 H2 E E1 E2; unpack; destruct H1 as [Hf Hr], H2 as [Hf0 Hr0].
    rewrite gmul_dih in E by assumption; rewrite dn_to_o2_eq in E1, E2 by assumption; unpack; subst.
    rewrite dn_to_o2_eq by (try apply flip_add; assumption).
    rewrite pmul_o2 by assumption; do 2 f_equal; apply m_eq; rewrite !sa_m.
    rewrite ang_mod, ang_add, ang_mult by exact HM.
    flips; cbn; apply sa_eq; ring.
Qed.

Lemma adjoint_eq : forall b f t, (f = 0 \/ f = 1)%Z ->
  adjoint_map (VO 0 b) (VO f t) = Ret (VO f (m (t + IZR f * (2 * b)))).
Proof.
  intros b f t Hf; unfold adjoint_map; rewrite pinv_o2 by auto; cbn [bind].
  rewrite pmul_o2 by auto; cbn [bind].
  replace ((0 + f) mod 2)%Z with f by (flips; reflexivity).
  rewrite pmul_o2 by auto; replace ((f + 0) mod 2)%Z with f by (flips; reflexivity).
  do 2 f_equal; apply m_eq; rewrite !sa_m; apply sa_eq; flips; cbn; ring.
Qed.

Lemma emb_o2_o2 : forall b,
  is_embedding (pmember O2) (pmul O2) (pmember O2) (pmul O2) (adjoint_map (VO 0 b)).
Proof.
  intros b; constructor.
  - intros h Hh; unpack; destruct Hh as [Hf Ht]; rewrite adjoint_eq by assumption.
    eexists; split; [reflexivity|split; [assumption|apply m_range]].
  - intros h1 h2 H1 H2 E; unpack; destruct H1 as [Hf Ht], H2 as [Hf0 Ht0].
    rewrite !adjoint_eq in E by assumption; apply Ret_inj in E; injection E as <- E; f_equal.
    apply sa_range; [assumption..|].
    transitivity (m (t0 + IZR f0 * (2 * b)) - IZR f0 * (2 * b)); [rewrite sa_m; apply sa_eq; ring|].
    rewrite E, sa_m; apply sa_eq; ring.
  - intros h1 h2 h12 g1 g2 H1 H2 E E1 E2; unpack; destruct H1 as [Hf Ht], H2 as [Hf0 Ht0].
    rewrite pmul_o2 in E by assumption; rewrite adjoint_eq in E1, E2 by assumption; unpack; subst.
    rewrite adjoint_eq by (apply flip_add; assumption).
    rewrite pmul_o2 by assumption; do 2 f_equal; apply m_eq; rewrite !sa_m.
    flips; cbn; apply sa_eq; ring.
Qed.

Lemma axis_ok : forall a, 0 <= a <= 2 * PI -> (Rleb 0 a && Rleb a (2 * PI)) = true.
Proof. intros a [H1 H2]; apply andb_true_intro; split; apply Rleb_true; assumption. Qed.

(** The subgroup object for each documented id. *)
Inductive sub_case : pgrp -> psgid -> psubgroup -> Prop :=
| SC1 : forall M, (0 < M)%Z -> sub_case SO2 (ISO2 M)
    {| ps_group := Fin (Cyc M); ps_incl := so2_parent M; ps_restr := so2_child M |}
| SC2 : sub_case SO2 (ISO2 (-1))
    {| ps_group := SO2; ps_incl := fun e => Ret e; ps_restr := fun e => Ret (Some e) |}
| SC3 : forall a, 0 <= a <= 2 * PI -> sub_case O2 (IO2 (Some a) (-1))
    {| ps_group := O2; ps_incl := adjoint_map (VO 0 (m (a / 2)));
       ps_restr := fun e => some_ (adjoint_map (VO 0 (m (- a / 2))) e) |}
| SC4 : forall a, 0 <= a <= 2 * PI -> sub_case O2 (IO2 (Some a) 1)
    {| ps_group := Fin (Cyc 2); ps_incl := flip_to_o2 a; ps_restr := o2_to_flip a |}
| SC5 : forall a M, 0 <= a <= 2 * PI -> (1 < M)%Z -> sub_case O2 (IO2 (Some a) M)
    {| ps_group := Fin (Dih M); ps_incl := dn_to_o2 a M; ps_restr := o2_to_dn a M |}
| SC6 : sub_case O2 (IO2 None (-1))
    {| ps_group := SO2; ps_incl := so2_to_o2 SO2; ps_restr := o2_to_so2 SO2 |}
| SC7 : forall M, (0 < M)%Z -> sub_case O2 (IO2 None M)
    {| ps_group := Fin (Cyc M); ps_incl := so2_to_o2 (Fin (Cyc M));
       ps_restr := o2_to_so2 (Fin (Cyc M)) |}.

Lemma p_subgroup_cases : forall G id, pdocumented G id ->
  exists sg, p_subgroup G id = Ret sg /\ sub_case G id sg.
Proof.
  intros [G| |] [M|[a|] M] D; cbn in D; try contradiction.
  - destruct D as [HM| ->].
    + unfold p_subgroup; destruct (Z.ltb_spec 0 M); [|lia]; eexists; split; [reflexivity|constructor; lia].
    + eexists; split; [reflexivity|constructor].
  - destruct D as [D Ha]; unfold p_subgroup; rewrite (axis_ok a Ha); cbn [assert_ bind].
    destruct D as [HM| ->].
    + replace ((M =? -1)%Z || (0 <? M)%Z) with true
        by (symmetry; apply orb_true_intro; right; apply Z.ltb_lt; exact HM).
      cbn [assert_ bind]; destruct (Z.eqb_spec M (-1)); [lia|].
      destruct (Z.eqb_spec M 1) as [->|]; eexists; (split; [reflexivity|]); constructor; auto; lia.
    + cbn [Z.eqb Z.ltb orb assert_ bind Pos.eqb]; rewrite !pelement_o2 by auto; cbn [bind].
      eexists; split; [reflexivity|]; constructor; exact Ha.
  - unfold p_subgroup; destruct D as [HM| ->].
    + replace ((M =? -1)%Z || (0 <? M)%Z) with true
        by (symmetry; apply orb_true_intro; right; apply Z.ltb_lt; exact HM).
      cbn [assert_ bind]; destruct (Z.eqb_spec M (-1)); [lia|].
      eexists; split; [reflexivity|]; constructor; exact HM.
    + eexists; split; [reflexivity|constructor].
Qed.

Lemma emb_self : forall G, is_embedding (pmember G) (pmul G) (pmember G) (pmul G) (fun e => Ret e).
Proof.
  intros G; constructor.
  - intros h Hh; eauto.
  - intros h1 h2 _ _ E; apply Ret_inj in E; exact E.
  - intros h1 h2 h12 g1 g2 _ _ E E1 E2; apply Ret_inj in E1; apply Ret_inj in E2; subst; symmetry; exact E.
Qed.

Lemma planar_embedding : forall G id, pdocumented G id ->
  exists sg, p_subgroup G id = Ret sg /\
    is_embedding (pmember G) (pmul G) (pmember (ps_group sg)) (pmul (ps_group sg)) (ps_incl sg).
Proof.
  intros G id D; destruct (p_subgroup_cases G id D) as (sg & E & C); exists sg; split; [exact E|].
  destruct C; cbn [ps_group ps_incl].
  - apply emb_so2_cyc; assumption.
  - apply emb_self.
  - apply emb_o2_o2.
  - apply emb_o2_flip.
  - apply emb_o2_dih; lia.
  - apply emb_o2_so2.
  - apply emb_o2_cyc; assumption.
Qed.

(** The image of the inclusion. *)
Lemma ang_hits : forall M z, (0 < M)%Z -> same_angle (ang M (z mod M)) (ang M z) /\ (0 <= z mod M < M)%Z.
Proof. intros M z HM; split; [apply ang_mod; exact HM|apply Z.mod_pos_bound; exact HM]. Qed.

Lemma planar_image : forall G id sg g, pdocumented G id -> p_subgroup G id = Ret sg -> pmember G g ->
  (in_psubgroup id g <-> exists h, pmember (ps_group sg) h /\ ps_incl sg h = Ret g).
Proof.
  intros G id sg g D E Hg; destruct (p_subgroup_cases G id D) as (sg' & E' & C).
  assert (sg' = sg) by congruence; subst sg'; clear E E' D.
  destruct C; cbn [ps_group ps_incl]; unpack; cbn [in_psubgroup].
  - split.
    + intros [->|[z S]]; [lia|]; destruct (ang_hits M z H) as [A B].
      exists (VF (VC (z mod M))); split; [exact B|]; rewrite so2_parent_eq by exact H.
      do 2 f_equal; apply m_eq_id; [exact Hg|]; rewrite A, S; reflexivity.
    + intros (h & Hh & E); unpack; rewrite so2_parent_eq in E by exact H; apply Ret_inj in E.
      injection E as <-; right; exists r; apply sa_m.
  - split; [intros _; exists (VS t); auto|auto].
  - split; [intros _|auto]; destruct Hg as [Hf Ht].
    exists (VO f (m (t - IZR f * (2 * m (a / 2))))); split; [split; [assumption|apply m_range]|].
    rewrite adjoint_eq by assumption; do 2 f_equal; apply m_eq_id; [exact Ht|].
    rewrite sa_m; apply sa_eq; ring.
  - destruct Hg as [Hf Ht]; split.
    + intros [C|[z S]]; [discriminate C|]; exists (VF (VC f)); split; [cbn; lia|].
      rewrite flip_to_o2_eq by assumption; do 2 f_equal; apply m_eq_id; [exact Ht|].
      rewrite S; exists (- z)%Z; rewrite opp_IZR; field.
    + intros (h & Hh & E); unpack; rewrite flip_to_o2_eq in E by lia; apply Ret_inj in E.
      injection E as <- <-; right; exists 0%Z; rewrite sa_m; apply sa_eq; ring.
  - destruct Hg as [Hf Ht]; split.
    + intros [C|[z S]]; [subst; lia|]; destruct (ang_hits M z ltac:(lia)) as [A B].
      exists (VF (VD f (z mod M))); split; [cbn; auto|]; rewrite dn_to_o2_eq by (auto; lia).
      do 2 f_equal; apply m_eq_id; [exact Ht|]; rewrite A, S; reflexivity.
    + intros (h & Hh & E); unpack; destruct Hh as [Hf' Hr']; rewrite dn_to_o2_eq in E by (auto; lia).
      apply Ret_inj in E; injection E as <- <-; right; exists r; apply sa_m.
  - destruct Hg as [Hf Ht]; split.
    + intros [-> _]; exists (VS t); split; [exact Ht|]; rewrite so2_to_o2_so2, m_id by exact Ht; reflexivity.
    + intros (h & Hh & E); unpack; rewrite so2_to_o2_so2 in E; apply Ret_inj in E; injection E as <- _; auto.
  - destruct Hg as [Hf Ht]; split.
    + intros [-> [->|[z S]]]; [lia|]; destruct (ang_hits M z H) as [A B].
      exists (VF (VC (z mod M))); split; [exact B|]; rewrite so2_to_o2_cyc by exact H.
      do 2 f_equal; apply m_eq_id; [exact Ht|]; rewrite A, S; reflexivity.
    + intros (h & Hh & E); unpack; rewrite so2_to_o2_cyc in E by exact H; apply Ret_inj in E.
      injection E as <- <-; split; [reflexivity|]; right; exists r; apply sa_m.
Qed.

(** ** Restrictions *)

Lemma decode_ang : forall M z, (0 < M)%Z ->
  cycle_isclose (ang M z) 0 (2 * PI / IZR M) = true /\ pyround (ang M z * IZR M / (2 * PI)) = z.
Proof.
  intros M z HM; pose proof (IZR_pos M HM); pose proof PI_RGT_0; split.
  - apply cycle_isclose_exact with z; [apply Rdiv_lt_0_compat; lra|unfold ang; lra].
  - replace (ang M z * IZR M / (2 * PI)) with (IZR z) by (unfold ang; field; lra); apply pyround_IZR.
Qed.

Lemma pelement_cyc : forall M r, (0 <= r < M)%Z -> pelement (Fin (Cyc M)) (VF (VC r)) = Ret (VF (VC r)).
Proof.
  intros M r H; cbn; unfold element, is_element.
  destruct (Z.leb_spec 0 r); [|lia]; destruct (Z.ltb_spec r M); [|lia]; reflexivity.
Qed.

Lemma pelement_cyc_out : forall M r, ~ (0 <= r < M)%Z -> pelement (Fin (Cyc M)) (VF (VC r)) = Raise.
Proof.
  intros M r H; cbn; unfold element, is_element.
  destruct (Z.leb_spec 0 r); [|reflexivity]; destruct (Z.ltb_spec r M); [lia|reflexivity].
Qed.

Lemma pelement_dih : forall M f r, (f = 0 \/ f = 1)%Z -> (0 <= r < M)%Z ->
  pelement (Fin (Dih M)) (VF (VD f r)) = Ret (VF (VD f r)).
Proof.
  intros M f r Hf H; cbn; unfold element, is_element.
  destruct (Z.leb_spec 0 r); [|lia]; destruct (Z.ltb_spec r M); [|lia]; destruct Hf as [->| ->]; reflexivity.
Qed.

Lemma pelement_dih_out : forall M f r, ~ (0 <= r < M)%Z -> pelement (Fin (Dih M)) (VF (VD f r)) = Raise.
Proof.
  intros M f r H; cbn; unfold element, is_element.
  destruct ((f =? 0)%Z || (f =? 1)%Z); [|reflexivity].
  destruct (Z.leb_spec 0 r); [|reflexivity]; destruct (Z.ltb_spec r M); [lia|reflexivity].
Qed.

Lemma so2_child_ang : forall M r, (0 < M)%Z -> (0 <= r < M)%Z ->
  so2_child M (VS (m (ang M r))) = Ret (Some (VF (VC r))).
Proof.
  intros M r HM Hr; unfold so2_child, to_radians1; rewrite so2_norm_eq; cbn [bind].
  rewrite m_idem, m_id by (apply ang_range; assumption).
  destruct (decode_ang M r HM) as [-> ->]; cbn [negb]; rewrite pelement_cyc by exact Hr; reflexivity.
Qed.

Lemma o2_to_flip_inv : forall a f, (f = 0 \/ f = 1)%Z ->
  o2_to_flip a (VO f (m (IZR f * a))) = Ret (Some (VF (VC f))).
Proof.
  intros a f Hf; unfold o2_to_flip, to_radians2; rewrite o2_norm_eq; cbn [bind fst snd]; rewrite m_idem.
  destruct Hf as [->| ->]; cbn [Z.eqb Pos.eqb andb].
  - rewrite Rmult_0_l, rmod_0 by apply two_pi_pos.
    rewrite (cycle_isclose_exact 0 0 _ 0) by (try apply two_pi_pos; ring); reflexivity.
  - rewrite Rmult_1_l; destruct (sa_m a) as [n E].
    rewrite (cycle_isclose_exact _ a _ n) by (try apply two_pi_pos; exact E).
    rewrite pelement_cyc by lia; reflexivity.
Qed.

Lemma element_radians_ang : forall M r, (0 < M)%Z -> (0 <= r < M)%Z ->
  element_radians (Fin (Cyc M)) (ang M r) = Ret (VF (VC r)).
Proof.
  intros M r HM Hr; unfold element_radians.
  rewrite (cn_from_radians M (ang M r) r PInt HM eq_refl), Z.mod_small by exact Hr.
  cbn [cn_change_param bind fst snd]; unfold is_element.
  destruct (Z.leb_spec 0 r); [|lia]; destruct (Z.ltb_spec r M); [|lia]; reflexivity.
Qed.

Lemma o2_to_dn_inv : forall a M f r, (0 < M)%Z -> (f = 0 \/ f = 1)%Z -> (0 <= r < M)%Z ->
  (f = 1%Z -> 0 <= a /\ ang M r + a < 2 * PI) ->
  o2_to_dn a M (VO f (m (ang M r + IZR f * a))) = Ret (Some (VF (VD f r))).
Proof.
  intros a M f r HM Hf Hr Ha; unfold o2_to_dn, to_radians2; rewrite o2_norm_eq; cbn [bind fst snd].
  pose proof (ang_range M r HM Hr) as A.
  assert (E : m (ang M r + IZR f * a) = ang M r + IZR f * a).
  { apply m_id; destruct Hf as [->| ->]; [lra|]; pose proof (Ha eq_refl); lra. }
  rewrite E, E; replace (ang M r + IZR f * a - IZR f * a) with (ang M r) by ring.
  destruct (decode_ang M r HM) as [-> ->]; rewrite pelement_dih by assumption; reflexivity.
Qed.

Lemma o2_to_dn_overflow : forall a M r, (0 < M)%Z -> (0 <= r < M)%Z -> a <= 2 * PI ->
  2 * PI <= ang M r + a ->
  o2_to_dn a M (VO 1 (m (ang M r + IZR 1 * a))) = Raise.
Proof.
  intros a M r HM Hr Ha H; unfold o2_to_dn, to_radians2; rewrite o2_norm_eq; cbn [bind fst snd].
  pose proof (ang_range M r HM Hr) as A; pose proof (IZR_pos M HM).
  assert (E : m (ang M r + 1 * a) = ang M r + a - 2 * PI).
  { apply m_eq_id; [lra|exists 1%Z; ring]. }
  rewrite E, m_id by lra.
  replace (ang M r + a - 2 * PI - 1 * a) with (ang M (r - M)) by (unfold ang; rewrite minus_IZR; field; lra).
  destruct (decode_ang M (r - M) HM) as [-> ->]; rewrite pelement_dih_out by lia; reflexivity.
Qed.

Lemma planar_restriction_inverts : forall G id sg h g, pdocumented G id -> p_subgroup G id = Ret sg ->
  pmember (ps_group sg) h -> ~ past_full_turn id h -> ps_incl sg h = Ret g ->
  ps_restr sg g = Ret (Some h).
Proof.
  intros G id sg h g D E Hh Hp Eg; destruct (p_subgroup_cases G id D) as (sg' & E' & C).
  assert (sg' = sg) by congruence; subst sg'; clear E E' D.
  destruct C; cbn [ps_group ps_incl ps_restr] in *; unpack.
  - rewrite so2_parent_eq in Eg by assumption; apply Ret_inj in Eg; subst g.
    apply so2_child_ang; assumption.
  - subst; reflexivity.
  - destruct Hh as [Hf Ht]; rewrite adjoint_eq in Eg by assumption; apply Ret_inj in Eg; subst g.
    rewrite adjoint_eq by assumption; cbn [some_ bind]; do 3 f_equal; apply m_eq_id; [exact Ht|].
    rewrite sa_m.
    replace (t + IZR f * (2 * m (a / 2)) + IZR f * (2 * m (- a / 2)))
      with (t + IZR (f * 2) * (m (a / 2)) + IZR (f * 2) * m (- a / 2)) by (rewrite mult_IZR; ring).
    rewrite !sa_m; rewrite mult_IZR; apply sa_eq; field.
  - rewrite flip_to_o2_eq in Eg by lia; apply Ret_inj in Eg; subst g; apply o2_to_flip_inv; lia.
  - destruct Hh as [Hf Hr]; rewrite dn_to_o2_eq in Eg by (auto; lia); apply Ret_inj in Eg; subst g.
    apply o2_to_dn_inv; [lia|assumption..|].
    intros ->; split; [lra|]; cbn in Hp; fold (ang M r) in Hp.
    destruct (Rlt_le_dec (ang M r + a) (2 * PI)); [assumption|exfalso; apply Hp; auto].
  - rewrite so2_to_o2_so2 in Eg; apply Ret_inj in Eg; subst g.
    unfold o2_to_so2, to_radians2; rewrite o2_norm_eq; cbn [bind fst snd Z.eqb element_radians].
    rewrite pelement_so2, !m_idem, m_id by exact Hh; reflexivity.
  - rewrite so2_to_o2_cyc in Eg by assumption; apply Ret_inj in Eg; subst g.
    unfold o2_to_so2, to_radians2; rewrite o2_norm_eq; cbn [bind fst snd Z.eqb].
    rewrite m_idem, m_id by (apply ang_range; assumption).
    rewrite element_radians_ang by assumption; reflexivity.
Qed.

Lemma planar_restriction_overflow : forall a M sg h g, 0 <= a <= 2 * PI -> (1 < M)%Z ->
  p_subgroup O2 (IO2 (Some a) M) = Ret sg -> pmember (ps_group sg) h ->
  past_full_turn (IO2 (Some a) M) h -> ps_incl sg h = Ret g -> ps_restr sg g = Raise.
Proof.
  intros a M sg h g Ha HM E Hh Hp Eg.
  destruct (p_subgroup_cases O2 (IO2 (Some a) M)) as (sg' & E' & C); [cbn; split; [lia|exact Ha]|].
  assert (sg' = sg) by congruence; subst sg'; clear E E'.
  inversion C; subst; try lia; cbn [ps_group ps_incl ps_restr] in *; unpack.
  destruct Hh as [Hf Hr], Hp as [-> Hp].
  rewrite dn_to_o2_eq in Eg by (auto; lia); apply Ret_inj in Eg; subst g.
  apply o2_to_dn_overflow; [lia|assumption|lra|exact Hp].
Qed.

Lemma o2_dihedral_restriction_iff : forall a M sg, 0 <= a <= 2 * PI -> (1 < M)%Z ->
  p_subgroup O2 (IO2 (Some a) M) = Ret sg ->
  ((forall h g, pmember (ps_group sg) h -> ps_incl sg h = Ret g -> ps_restr sg g = Ret (Some h))
   <-> a < 2 * PI / IZR M).
Proof.
  intros a M sg Ha HM E; pose proof (IZR_pos M ltac:(lia)) as HM'; pose proof PI_RGT_0.
  assert (D : pdocumented O2 (IO2 (Some a) M)) by (cbn; split; [lia|exact Ha]).
  destruct (p_subgroup_cases O2 _ D) as (sg' & E' & C).
  assert (sg' = sg) by congruence; subst sg'; clear E'.
  inversion C; subst; try lia; cbn [ps_group] in *.
  split.
  - intros A; destruct (Rlt_le_dec a (2 * PI / IZR M)) as [|L]; [assumption|exfalso].
    set (h := VF (VD 1 (M - 1))).
    assert (Hh : pmember (Fin (Dih M)) h) by (cbn; split; [auto|lia]).
    assert (Eg : exists g, dn_to_o2 a M h = Ret g)
      by (unfold h; rewrite dn_to_o2_eq by (auto; lia); eauto).
    destruct Eg as [g Eg]; pose proof (A h g Hh Eg) as R.
    rewrite (planar_restriction_overflow a M _ h g Ha HM E Hh) in R; [discriminate| |exact Eg].
    split; [reflexivity|].
    rewrite minus_IZR; replace (2 * PI / IZR M * (IZR M - 1)) with (2 * PI - 2 * PI / IZR M) by (field; lra); lra.
  - intros L h g Hh Eg; eapply planar_restriction_inverts; [exact D|exact E|exact Hh| |exact Eg].
    unpack; destruct Hh as [Hf Hr]; intros [-> Q].
    assert (IZR r <= IZR M - 1) by (rewrite <- minus_IZR; apply IZR_le; lia).
    assert (2 * PI / IZR M * IZR r <= 2 * PI / IZR M * (IZR M - 1))
      by (apply Rmult_le_compat_l; [left; apply Rdiv_lt_0_compat; lra|assumption]).
    replace (2 * PI / IZR M * (IZR M - 1)) with (2 * PI - 2 * PI / IZR M) in * by (field; lra); lra.
Qed.

(** Elements of the subgroup are never reported as missing. *)
Lemma planar_restriction_not_none : forall G id sg g, pdocumented G id -> p_subgroup G id = Ret sg ->
  pmember G g -> in_psubgroup id g -> ps_restr sg g <> Ret None.
Proof.
  intros G id sg g D E Hg Hi; apply (planar_image G id sg g D E Hg) in Hi as (h & Hh & Eg).
  assert (Dec : past_full_turn id h \/ ~ past_full_turn id h).
  { destruct id as [M|[a|] M]; cbn; auto; destruct h as [[|f r]| |]; auto.
    destruct (Z.eq_dec f 1), (Rle_dec (2 * PI) (2 * PI / IZR M * IZR r + a)); tauto. }
  destruct Dec as [P|P].
  - destruct (p_subgroup_cases G id D) as (sg' & E' & C); assert (sg' = sg) by congruence; subst sg'; clear E'.
    clear Hg; destruct C; cbn in P; try contradiction;
      try (cbn [ps_group] in Hh; unpack; destruct P as [-> P]; try contradiction).
    + rewrite (planar_restriction_overflow a M _ (VF (VD 1 r)) g H H0 E); [discriminate|exact Hh|split; auto|exact Eg].
  - rewrite (planar_restriction_inverts G id sg h g D E Hh P Eg); discriminate.
Qed.

(** ** Tolerance *)

Lemma tol9_bound : / 10 ^ 9 = 1 / 1000000000.
Proof. field. Qed.
Lemma tol11_bound : / 10 ^ 11 = 1 / 100000000000.
Proof. field. Qed.

Lemma isclose_sound : forall a b S, 0 < S <= 2 * PI -> cycle_isclose a b S = true ->
  exists n, Rabs (a - b - S * IZR n) <= / 10 ^ 8.
Proof.
  intros a b S HS H; unfold cycle_isclose in H.
  pose proof (rmod_range (a - b) S ltac:(lra)) as R; destruct (rmod_cong (a - b) S ltac:(lra)) as [n E].
  set (d := rmod (a - b) S) in *; pose proof PI_4.
  replace (/ 10 ^ 8) with (1 / 100000000) by field.
  apply orb_prop in H as [H|H]; apply andb_prop in H as [H _]; apply Rleb_true in H;
    rewrite tol9_bound, tol11_bound in H.
  - exists n; rewrite E; replace (d + S * IZR n - S * IZR n) with d by ring.
    rewrite Rminus_0_r, Rabs_R0, (Rabs_right d) in H by lra; rewrite (Rmax_left d 0) in H by lra.
    rewrite (Rabs_right d) by lra.
    eapply Rle_trans; [exact H|]; apply Rmax_lub; [|lra].
    unfold Rmax in H; destruct (Rle_dec (1 / 1000000000 * d) (1 / 100000000000)); lra.
  - exists (n + 1)%Z; rewrite E, plus_IZR; replace (d + S * IZR n - S * (IZR n + 1)) with (d - S) by ring.
    rewrite (Rabs_right d), (Rabs_right S), (Rmax_right d S) in H by lra.
    eapply Rle_trans; [exact H|]; apply Rmax_lub; lra.
Qed.

Lemma S_range : forall M, (0 < M)%Z -> 0 < 2 * PI / IZR M <= 2 * PI.
Proof.
  intros M HM; pose proof (IZR_pos M HM); pose proof PI_RGT_0; split; [apply Rdiv_lt_0_compat; lra|].
  apply Rmult_le_reg_r with (IZR M); [assumption|].
  unfold Rdiv; rewrite Rmult_assoc, Rinv_l by lra.
  assert (1 <= IZR M) by (apply IZR_le; lia).
  apply Rmult_le_compat_l; lra.
Qed.

Lemma planar_restriction_sound : forall G id sg g h, pdocumented G id -> p_subgroup G id = Ret sg ->
  pmember G g -> ps_restr sg g = Ret (Some h) -> near_psubgroup (/ 10 ^ 8) id g.
Proof.
  intros G id sg g h D E Hg R; destruct (p_subgroup_cases G id D) as (sg' & E' & C).
  assert (sg' = sg) by congruence; subst sg'; clear E E' D.
  destruct C; cbn [ps_restr] in R; unpack; cbn [near_psubgroup]; try (left; reflexivity).
  - right; unfold so2_child, to_radians1 in R; rewrite so2_norm_eq, m_id in R by exact Hg; cbn [bind] in R.
    destruct (cycle_isclose t 0 (2 * PI / IZR M)) eqn:C; [|discriminate R].
    apply isclose_sound in C as [n C]; [|apply S_range; assumption].
    exists n, (2 * PI / IZR M * IZR n); split; [reflexivity|]; rewrite Rminus_0_r in C; exact C.
  - destruct Hg as [Hf Ht]; right.
    unfold o2_to_flip, to_radians2 in R; rewrite o2_norm_eq, m_id in R by exact Ht; cbn [bind fst snd] in R.
    pose proof two_pi_pos.
    destruct ((f =? 0)%Z && cycle_isclose t 0 (2 * PI)) eqn:B.
    + apply andb_prop in B as [B1 B2]; apply Z.eqb_eq in B1; subst f.
      apply isclose_sound in B2 as [n B2]; [|lra]; exists n, (2 * PI * IZR n); split.
      * apply sa_eq; field.
      * rewrite Rminus_0_r in B2; exact B2.
    + destruct ((f =? 1)%Z && cycle_isclose t a (2 * PI)) eqn:B'; [|discriminate R].
      apply andb_prop in B' as [B1 B2]; apply Z.eqb_eq in B1; subst f.
      apply isclose_sound in B2 as [n B2]; [|lra]; exists n, (a + 2 * PI * IZR n); split.
      * apply sa_eq; field.
      * replace (t - (a + 2 * PI * IZR n)) with (t - a - 2 * PI * IZR n) by ring; exact B2.
  - destruct Hg as [Hf Ht]; right.
    unfold o2_to_dn, to_radians2 in R; rewrite o2_norm_eq, m_id in R by exact Ht; cbn [bind fst snd] in R.
    destruct (cycle_isclose (t - IZR f * a) 0 (2 * PI / IZR M)) eqn:B; [|discriminate R].
    apply isclose_sound in B as [n B]; [|apply S_range; lia].
    exists n, (2 * PI / IZR M * IZR n + IZR f * a); split; [reflexivity|].
    replace (t - (2 * PI / IZR M * IZR n + IZR f * a)) with (t - IZR f * a - 0 - 2 * PI / IZR M * IZR n) by ring.
    exact B.
  - destruct Hg as [Hf Ht]; unfold o2_to_so2, to_radians2 in R; rewrite o2_norm_eq in R; cbn [bind fst snd] in R.
    destruct (Z.eqb_spec f 0); [|discriminate R]; auto.
  - destruct Hg as [Hf Ht]; unfold o2_to_so2, to_radians2 in R; rewrite o2_norm_eq, m_id in R by exact Ht.
    cbn [bind fst snd] in R; destruct (Z.eqb_spec f 0); [|discriminate R]; split; [assumption|right].
    unfold element_radians, cn_change_param in R; cbn [bind fst snd] in R.
    destruct (cycle_isclose t 0 (2 * PI / IZR M)) eqn:C; [|discriminate R].
    apply isclose_sound in C as [k C]; [|apply S_range; assumption].
    exists k, (2 * PI / IZR M * IZR k); split; [reflexivity|]; rewrite Rminus_0_r in C; exact C.
Qed.

(** An angle just below a full turn passes the tolerance test and is then
    rounded to the invalid rotation M. *)
Lemma so2_child_raises : forall M, (0 < M)%Z ->
  exists t, 0 <= t < 2 * PI /\ so2_child M (VS t) = Raise.
Proof.
  intros M HM; pose proof (S_range M HM) as HS; pose proof (IZR_pos M HM) as HM'; pose proof PI_RGT_0.
  set (S := 2 * PI / IZR M) in *; set (e := S / 2000000000).
  exists (2 * PI - e); unfold e; split; [split; lra|]; fold e.
  unfold so2_child, to_radians1; rewrite so2_norm_eq, m_id by (unfold e; lra); cbn [bind]; fold S.
  assert (M1 : 1 <= IZR M) by (apply IZR_le; lia).
  assert (SM : 2 * PI = S * IZR M) by (unfold S; field; lra).
  assert (C : cycle_isclose (2 * PI - e) 0 S = true).
  { unfold cycle_isclose; rewrite Rminus_0_r.
    rewrite (rmod_unique (2 * PI - e) (S - e) S (M - 1)).
    - apply orb_true_intro; right; apply andb_true_intro; split; apply Rleb_true; [|unfold e; lra].
      replace (S - e - S) with (- e) by ring; rewrite Rabs_Ropp, (Rabs_right e) by (unfold e; lra).
      eapply Rle_trans; [|apply Rmax_l].
      rewrite (Rabs_right S) by lra; rewrite tol9_bound.
      apply Rle_trans with (1 / 1000000000 * S); [unfold e; lra|].
      apply Rmult_le_compat_l; [lra|apply Rmax_r].
    - unfold e; lra.
    - rewrite SM, minus_IZR; ring. }
  rewrite C; cbn [negb].
  assert (P : pyround ((2 * PI - e) * IZR M / (2 * PI)) = M).
  { apply pyround_near.
    replace ((2 * PI - e) * IZR M / (2 * PI) - IZR M) with (- (1 / 2000000000)) by (unfold e, S; field; lra).
    rewrite Rabs_Ropp, Rabs_right; lra. }
  rewrite P, pelement_cyc_out by lia; reflexivity.
Qed.

(** ** Equality and hashing *)

Lemma pequal_fin : forall G v w, pmember (Fin G) v -> pmember (Fin G) w ->
  exists b, pequal (Fin G) v w = Ret b /\ (b = true <-> v = w).
Proof.
  intros [N|N] [[a|f a]| |] [[b|g b]| |] Hv Hw; cbn in Hv, Hw; try contradiction; eexists; (split; [reflexivity|]).
  - rewrite Z.eqb_eq; split; [intros ->; reflexivity|intros E; injection E; auto].
  - rewrite andb_true_iff, !Z.eqb_eq; split; [intros [-> ->]; reflexivity|intros E; injection E; auto].
Qed.

Lemma phash_fin : forall G v, pmember (Fin G) v -> exists k, phash_key (Fin G) v = Ret k.
Proof. intros [N|N] [[a|f a]| |] Hv; cbn in Hv; try contradiction; eexists; reflexivity. Qed.

Lemma pequal_so2_eq : forall a b, 0 <= a < 2 * PI -> 0 <= b < 2 * PI ->
  pequal SO2 (VS a) (VS b) = Ret (cycle_isclose a b (2 * PI)).
Proof. intros a b Ha Hb; cbn; rewrite !rmod_small by assumption; reflexivity. Qed.

Lemma pequal_refl : forall G v, pmember G v -> pequal G v v = Ret true.
Proof.
  intros [[N|N]| |] [[a|f a]|t|f t] Hv; cbn in Hv; try contradiction; cbn.
  - rewrite Z.eqb_refl; reflexivity.
  - rewrite !Z.eqb_refl; reflexivity.
  - rewrite (cycle_isclose_exact _ _ _ 0) by (try apply two_pi_pos; ring); reflexivity.
  - rewrite Z.eqb_refl, (cycle_isclose_exact _ _ _ 0) by (try apply two_pi_pos; ring); reflexivity.
Qed.

(** The tolerance is 1e-11 above and 1e-9 * 2 pi below. *)
Lemma isclose_down : cycle_isclose 0 (1 / 1000000000) (2 * PI) = true.
Proof.
  pose proof PI2_3_2; unfold cycle_isclose.
  rewrite (rmod_unique _ (2 * PI - 1 / 1000000000) _ (-1)) by lra.
  apply orb_true_intro; right; apply andb_true_intro; split; apply Rleb_true; [|lra].
  rewrite (Rabs_left (2 * PI - 1 / 1000000000 - 2 * PI)) by lra.
  eapply Rle_trans; [|apply Rmax_l]; rewrite (Rabs_right (2 * PI)), tol9_bound by lra.
  apply Rle_trans with (1 / 1000000000 * (2 * PI)); [lra|].
  apply Rmult_le_compat_l; [lra|apply Rmax_r].
Qed.

Lemma isclose_up : cycle_isclose (1 / 1000000000) 0 (2 * PI) = false.
Proof.
  pose proof PI2_3_2; unfold cycle_isclose; pose proof PI_4.
  rewrite Rminus_0_r, rmod_small by lra.
  apply orb_false_intro; apply andb_false_intro1, Rleb_false; rewrite tol9_bound, tol11_bound.
  - rewrite Rminus_0_r, Rabs_R0, (Rabs_right (1 / 1000000000)), (Rmax_left (1 / 1000000000) 0) by lra.
    apply Rmax_lub_lt; lra.
  - rewrite (Rabs_left (1 / 1000000000 - 2 * PI)) by lra.
    rewrite (Rabs_right (1 / 1000000000)), (Rabs_right (2 * PI)), (Rmax_right (1 / 1000000000) (2 * PI)) by lra.
    apply Rmax_lub_lt; lra.
Qed.

Lemma so2_equal_not_symmetric : exists a b, pmember SO2 a /\ pmember SO2 b /\
  pequal SO2 a b = Ret true /\ pequal SO2 b a = Ret false.
Proof.
  pose proof PI2_3_2; exists (VS 0), (VS (1 / 1000000000)).
  split; [cbn; lra|split; [cbn; lra|]].
  rewrite !pequal_so2_eq, isclose_down, isclose_up by lra; auto.
Qed.

Lemma o2_equal_not_symmetric : exists a b, pmember O2 a /\ pmember O2 b /\
  pequal O2 a b = Ret true /\ pequal O2 b a = Ret false.
Proof.
  pose proof PI2_3_2; exists (VO 0 0), (VO 0 (1 / 1000000000)).
  split; [cbn; split; [auto|lra]|split; [cbn; split; [auto|lra]|]].
  cbn; rewrite !rmod_small, isclose_down, isclose_up by lra; auto.
Qed.

(** Two equal rotations on the two sides of a rounding boundary. *)
Lemma hash_boundary : exists a b, 0 <= a < 2 * PI /\ 0 <= b < 2 * PI /\
  cycle_isclose a b (2 * PI) = true /\ around5 (cos a) <> around5 (cos b).
Proof.
  pose proof PI2_3_2 as P; pose proof PI_4 as P4.
  set (x0 := 1 / 200000); set (a := acos x0).
  assert (Ha : cos a = x0) by (apply cos_acos; unfold x0; lra).
  assert (Ra : 0 < a < PI).
  { unfold a; pose proof (acos_bound x0) as [B1 B2]; fold a in B1, B2 |- *; split.
    - destruct B1 as [B1|B1]; [exact B1|]; rewrite <- B1, cos_0 in Ha; unfold x0 in Ha; lra.
    - destruct B2 as [B2|B2]; [exact B2|]; rewrite B2, cos_PI in Ha; unfold x0 in Ha; lra. }
  assert (Ra2 : 1 < a).
  { destruct (Rlt_le_dec 1 a) as [|L]; [assumption|exfalso].
    assert (Q : cos 1 <= cos a) by (apply cos_decr_1; lra).
    assert (cos (PI / 3) < cos 1) by (apply cos_decreasing_1; lra).
    rewrite cos_PI3 in H; unfold x0 in Ha; lra. }
  set (e := 1 / 1000000000000).
  exists a, (a - e); unfold e; repeat split; try lra; fold e.
  - assert (D : rmod (a - (a - e)) (2 * PI) = e).
    { replace (a - (a - e)) with e by ring; apply rmod_small; unfold e; lra. }
    unfold cycle_isclose; rewrite D.
    apply orb_true_intro; left; apply andb_true_intro; split; apply Rleb_true; [|unfold e; lra].
    rewrite Rminus_0_r, (Rabs_right e) by (unfold e; lra); eapply Rle_trans; [|apply Rmax_r].
    rewrite tol11_bound; unfold e; lra.
  - assert (L1 : cos a < cos (a - e)) by (apply cos_decreasing_1; unfold e; lra).
    assert (L2 : cos (a - e) <= x0 + e).
    { assert (S1 : cos (a - e) - cos a = 2 * (sin (a - e / 2) * sin (e / 2))).
      { replace (a - e) with ((a - e / 2) - e / 2) by field.
        replace a with ((a - e / 2) + e / 2) at 2 by field.
        rewrite cos_minus, cos_plus; ring. }
      pose proof (SIN_bound (a - e / 2)) as [_ B].
      assert (B2 : sin (e / 2) <= e / 2) by (left; apply sin_lt_x; unfold e; lra).
      assert (B3 : 0 <= sin (e / 2)) by (apply sin_ge_0; unfold e; lra).
      assert (sin (a - e / 2) * sin (e / 2) <= 1 * sin (e / 2)) by (apply Rmult_le_compat_r; assumption).
      rewrite Ha in S1; lra. }
    rewrite Ha in *; unfold around5.
    replace (x0 * 10 ^ 5) with (1 / 2) by (unfold x0; field).
    assert (F1 : pyround (1 / 2) = 0%Z).
    { unfold pyround; rewrite (floorZ_unique (1 / 2) 0) by lra.
      destruct (Rlt_dec (1 / 2 - 0) (1 / 2)); [reflexivity|].
      destruct (Rlt_dec (1 / 2) (1 / 2 - 0)); [lra|reflexivity]. }
    assert (F2 : pyround (cos (a - e) * 10 ^ 5) = 1%Z).
    { apply pyround_near; unfold x0, e in *; apply Rabs_def1; lra. }
    rewrite F1, F2; lra.
Qed.

Lemma so2_hash_refuted : exists a b, pmember SO2 a /\ pmember SO2 b /\
  pequal SO2 a b = Ret true /\ phash_key SO2 a <> phash_key SO2 b.
Proof.
  destruct hash_boundary as (a & b & Ha & Hb & E & N); exists (VS a), (VS b).
  split; [exact Ha|split; [exact Hb|]]; rewrite pequal_so2_eq, E by assumption; split; [reflexivity|].
  unfold phash_key; rewrite !so2_norm_eq, !m_id by assumption; cbn [bind]; intros Q; apply Ret_inj in Q.
  injection Q as Q _; contradiction.
Qed.

Lemma o2_hash_refuted : exists a b, pmember O2 a /\ pmember O2 b /\
  pequal O2 a b = Ret true /\ phash_key O2 a <> phash_key O2 b.
Proof.
  destruct hash_boundary as (a & b & Ha & Hb & E & N); exists (VO 0 a), (VO 0 b).
  split; [split; auto|split; [split; auto|]]; split.
  - cbn; rewrite !rmod_small, E by assumption; reflexivity.
  - unfold phash_key; rewrite !o2_norm_eq, !m_id by assumption; cbn [bind fst snd]; intros Q; apply Ret_inj in Q.
    injection Q as Q _; contradiction.
Qed.
