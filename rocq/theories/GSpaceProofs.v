(** Subgroups of subgroups of O(2). *)
From Coq Require Import Reals ZArith Bool List Lia Lra Setoid.
From Verif Require Import LibRes LibMat LibTrig FinGroupModel SpecFinGroup FinGroupProofs ParamModel PlanarModel SpecPlanar PlanarProofs ParamProofs IrrepModel SpecIrrep RepModel GSpaceModel SpecGSpace.
Import ListNotations.
Open Scope R_scope.

Lemma ang_scale : forall q M r, (0 < M)%Z -> (0 < q)%Z -> ang (q * M) (r * q) = ang M r.
Proof.
  intros q M r HM HN. unfold ang. rewrite !mult_IZR.
  assert (IZR M <> 0) by (apply not_0_IZR; lia). assert (IZR q <> 0) by (apply not_0_IZR; lia). field. auto.
Qed.

(** every id of the documentation is accepted *)
Lemma listed_subgroup : forall G id, pvalid G -> listed G id -> exists sg, any_subgroup G id = Ret sg.
Proof.
  intros [G| |] [id|id] V H; cbn in H; try contradiction; cbn [any_subgroup].
  - destruct (documented_accepted G id V H) as (s & E). rewrite E. cbn [bind]. eauto.
  - destruct (p_subgroup_cases SO2 id H) as (sg & E & _). eauto.
  - destruct (p_subgroup_cases O2 id H) as (sg & E & _). eauto.
Qed.

Definition agrees (id : psgid) (sg1 sg2 : psubgroup) : Prop :=
  pdocumented O2 id /\ exists sg, p_subgroup O2 id = Ret sg /\ ps_group sg = ps_group sg2 /\
    forall h, pmember (ps_group sg2) h -> ps_incl sg h = (m <- ps_incl sg2 h ;; ps_incl sg1 m).

Lemma agrees_intro : forall id sg1 sg2, pdocumented O2 id ->
  (forall sg, sub_case O2 id sg -> ps_group sg = ps_group sg2 /\ forall h, pmember (ps_group sg2) h -> ps_incl sg h = (m <- ps_incl sg2 h ;; ps_incl sg1 m)) -> agrees id sg1 sg2.
Proof. intros id sg1 sg2 D H. split; [exact D|]. destruct (p_subgroup_cases _ _ D) as (sg & E & C). exists sg. split; [exact E|]. exact (H sg C). Qed.

(** past 2 pi the axis is refused *)
Lemma axis_refused : forall b n, 2 * PI < b -> p_subgroup O2 (IO2 (Some b) n) = Raise.
Proof.
  intros b n H. cbn [p_subgroup]. replace (Rleb 0 b && Rleb b (2 * PI)) with false; [reflexivity|].
  symmetry. apply andb_false_intro2. destruct (Rleb b (2 * PI)) eqn:E; [|reflexivity]. apply Rleb_true in E. lra.
Qed.

Lemma ratio : forall M n, (0 < n)%Z -> (n | M)%Z -> (0 < M)%Z -> exists q, (M = q * n)%Z /\ (0 < q)%Z /\ (M / n = q)%Z.
Proof. intros M n Hn [q ->] HM. exists q. split; [reflexivity|]. split; [nia|apply Z.div_mul; lia]. Qed.


(** inside SO(2) and the rotations *)
Lemma combine_rot : forall M sg1 id2 sg2, (0 < M \/ M = -1)%Z -> sub_case O2 (IO2 None M) sg1 -> listed (ps_group sg1) id2 -> any_subgroup (ps_group sg1) id2 = Ret sg2 ->
  exists n, o2_combine (IO2 None M) id2 = Ret (IO2 None n) /\ agrees (IO2 None n) sg1 sg2.
Proof.
  intros M sg1 id2 sg2 HM C1 L E2. destruct (p_subgroup_cases O2 (IO2 None M) HM) as (sg1' & E1 & C1'). unfold o2_combine. rewrite E1. cbn [bind].
  inversion C1; subst; cbn [ps_group] in L, E2.
  - destruct id2 as [[n|? ?]|?]; cbn in L; try contradiction. exists n. split; [reflexivity|]. cbn [any_subgroup] in E2. destruct (p_subgroup_cases SO2 (ISO2 n) L) as (x & Ex & Cx). rewrite E2 in Ex. apply Ret_inj in Ex. subst x.
    apply agrees_intro; [exact L|]. intros sg C. inversion Cx; subst; inversion C; subst; cbn [ps_group ps_incl]; try lia; (split; [reflexivity|]); intros h Hh; unpack.
    + rewrite so2_parent_eq by assumption. cbn [bind]. rewrite so2_to_o2_cyc, so2_to_o2_so2 by assumption. do 2 f_equal. rewrite m_idem. reflexivity.
    + cbn [bind]. reflexivity.
  - destruct id2 as [|[n|? ?]]; cbn in L; try contradiction. exists n. split; [reflexivity|]. destruct L as [Hn Dn].
    assert (0 < M)%Z as PM by assumption. destruct (divide_ratio M n PM Hn Dn) as (q & -> & Hq & Hr & Hm0).
    cbn [any_subgroup subgroup] in E2. rewrite Hm0 in E2. replace (0 <? n)%Z with true in E2 by lia. cbn [Z.eqb assert_ bind] in E2. apply Ret_inj in E2. subst sg2. cbn [ps_group ps_incl sg_group sg_incl].
    apply agrees_intro; [left; exact Hn|]. intros sg C. inversion C; subst; cbn [ps_group ps_incl]; [lia|]. split; [reflexivity|]. intros h Hh; unpack. rewrite incl_C by assumption. cbn [bind].
    rewrite !so2_to_o2_cyc by assumption. do 2 f_equal. f_equal. symmetry. apply ang_scale; assumption.
Qed.

(** inside a group of reflections about one axis *)
Lemma combine_flip : forall a sg1 id2 sg2, 0 <= a <= 2 * PI -> sub_case O2 (IO2 (Some a) 1) sg1 -> listed (ps_group sg1) id2 -> any_subgroup (ps_group sg1) id2 = Ret sg2 ->
  exists id, o2_combine (IO2 (Some a) 1) id2 = Ret id /\ agrees id sg1 sg2.
Proof.
  intros a sg1 id2 sg2 Ha C1 L E2. assert (pdocumented O2 (IO2 (Some a) 1)) as D1 by (split; [lia|exact Ha]).
  destruct (p_subgroup_cases _ _ D1) as (sg1' & E1 & _). unfold o2_combine. rewrite E1. cbn [bind Z.eqb Pos.eqb].
  inversion C1; subst; [|lia]. cbn [ps_group] in L, E2. destruct id2 as [|[n|? ?]]; cbn in L; try contradiction. destruct L as [Hn Dn].
  destruct (divide_ratio 2 n ltac:(lia) Hn Dn) as (q & Eq & Hq & Hr & Hm0).
  cbn [any_subgroup subgroup] in E2. rewrite Hm0 in E2. replace (0 <? n)%Z with true in E2 by lia. cbn [Z.eqb assert_ bind] in E2. apply Ret_inj in E2. subst sg2. cbn [ps_group ps_incl sg_group sg_incl is_two].
  clear Hr. eexists. split; [reflexivity|]. assert (n = 2 \/ n = 1)%Z as [-> | ->] by nia; cbn [Z.eqb Pos.eqb].
  - apply agrees_intro; [exact D1|]. intros sg C. inversion C; subst; cbn [ps_group ps_incl]; [|lia]. split; [reflexivity|]. intros h Hh; unpack.
    assert (q = 1)%Z by lia. subst q. pose proof (incl_C 1 2 r ltac:(lia) ltac:(lia) Hh) as I1. change (1 * 2)%Z with 2%Z in I1. rewrite I1. cbn [bind]. rewrite Z.mul_1_r. reflexivity.
  - apply agrees_intro; [left; lia|]. intros sg C. inversion C; subst; cbn [ps_group ps_incl]. split; [reflexivity|]. intros h Hh; unpack.
    assert (q = 2)%Z by lia. subst q. pose proof (incl_C 2 1 r ltac:(lia) ltac:(lia) Hh) as I1. change (2 * 1)%Z with 2%Z in I1. rewrite I1. cbn [bind]. assert (r = 0)%Z by lia. subst r. cbn [Z.mul].
    rewrite so2_to_o2_cyc, flip_to_o2_eq by lia. do 2 f_equal. f_equal. unfold ang. cbn. field.
Qed.

Lemma sa_shift : forall x y z, same_angle x y -> same_angle (x + z) (y + z).
Proof. intros x y z [n ->]. exists n. ring. Qed.

(** inside O(2) about an axis *)
Lemma combine_o2 : forall a sg1 id2 sg2, 0 <= a <= 2 * PI -> sub_case O2 (IO2 (Some a) (-1)) sg1 -> listed (ps_group sg1) id2 -> any_subgroup (ps_group sg1) id2 = Ret sg2 ->
  exists id, o2_combine (IO2 (Some a) (-1)) id2 = Ret id /\
    match id2 with
    | IdP (IO2 (Some b) n) => id = IO2 (Some (a + m b)) n /\ (a + m b <= 2 * PI -> agrees id sg1 sg2)
    | _ => agrees id sg1 sg2
    end.
Proof.
  intros a sg1 id2 sg2 Ha C1 L E2. assert (pdocumented O2 (IO2 (Some a) (-1))) as D1 by (split; [lia|exact Ha]).
  destruct (p_subgroup_cases _ _ D1) as (sg1' & E1 & C1'). inversion C1'; subst; try lia. clear C1'. unfold o2_combine. rewrite E1. cbn [bind Z.eqb Pos.eqb ps_group ps_incl]. clear E1.
  inversion C1; subst; [|lia]. clear C1. cbn [ps_group] in L, E2. destruct id2 as [[|[b|] n]|]; cbn in L; try contradiction.
  - destruct L as [Hn Hb]. cbn [any_subgroup] in E2. destruct (p_subgroup_cases O2 (IO2 (Some b) n) (conj Hn Hb)) as (x & Ex & Cx). rewrite E2 in Ex. apply Ret_inj in Ex. subst x.
    rewrite pelement_o2 by auto. cbn [bind]. rewrite adjoint_eq by auto. cbn [bind to_radians2]. rewrite o2_norm_eq. cbn [bind snd]. rewrite !m_idem. cbn [IZR]. rewrite Rmult_0_l, Rplus_0_r, m_idem.
    eexists. split; [reflexivity|]. split; [reflexivity|]. intros Le. pose proof (m_range b) as Rb.
    apply agrees_intro; [split; [exact Hn|lra]|]. intros sg C. inversion Cx; subst; inversion C; subst; cbn [ps_group ps_incl]; try lia; (split; [reflexivity|]); intros h Hh; unpack.
    + destruct Hh as [Hf Ht]. rewrite adjoint_eq by exact Hf. rewrite adjoint_eq by exact Hf. cbn [bind]. rewrite adjoint_eq by exact Hf. do 2 f_equal. apply m_eq.
      rewrite !sa_m. replace (2 * ((a + m b) / 2)) with (a + m b) by field. rewrite !sa_m. apply sa_eq. field.
    + rewrite !flip_to_o2_eq by lia. cbn [bind]. rewrite adjoint_eq by lia. do 2 f_equal. apply m_eq. rewrite !sa_m. apply sa_eq. field.
    + destruct Hh as [Hf Hr]. rewrite !dn_to_o2_eq by (lia || exact Hf). cbn [bind]. rewrite adjoint_eq by exact Hf. do 2 f_equal. apply m_eq. rewrite !sa_m. apply sa_eq. field.
  - eexists. split; [reflexivity|]. cbn [any_subgroup] in E2. destruct (p_subgroup_cases O2 (IO2 None n) L) as (x & Ex & Cx). rewrite E2 in Ex. apply Ret_inj in Ex. subst x.
    apply agrees_intro; [exact L|]. intros sg C. inversion Cx; subst; inversion C; subst; cbn [ps_group ps_incl]; try lia; (split; [reflexivity|]); intros h Hh; unpack.
    + rewrite so2_to_o2_so2. cbn [bind]. rewrite adjoint_eq by auto. do 2 f_equal. cbn [IZR]. rewrite Rmult_0_l, Rplus_0_r, m_idem. reflexivity.
    + rewrite so2_to_o2_cyc by assumption. cbn [bind]. rewrite adjoint_eq by auto. do 2 f_equal. cbn [IZR]. rewrite Rmult_0_l, Rplus_0_r, m_idem. reflexivity.
Qed.

(** inside D_M about an axis *)
Lemma combine_dih : forall a M sg1 id2 sg2, 0 <= a <= 2 * PI -> (1 < M)%Z -> sub_case O2 (IO2 (Some a) M) sg1 -> listed (ps_group sg1) id2 -> any_subgroup (ps_group sg1) id2 = Ret sg2 ->
  exists id, o2_combine (IO2 (Some a) M) id2 = Ret id /\
    match id2 with
    | IdF (IdD (Some k) n) => id = IO2 (Some (a + ang M k)) n /\ (a + ang M k <= 2 * PI -> agrees id sg1 sg2)
    | _ => agrees id sg1 sg2
    end.
Proof.
  intros a M sg1 id2 sg2 Ha HM C1 L E2. assert (pdocumented O2 (IO2 (Some a) M)) as D1 by (split; [lia|exact Ha]).
  destruct (p_subgroup_cases _ _ D1) as (sg1' & E1 & C1'). inversion C1'; subst; try lia. clear C1'. unfold o2_combine. rewrite E1. cbn [bind ps_group ps_incl]. clear E1.
  destruct (Z.eqb_spec M 1) as [|NM]; [lia|]. inversion C1; subst; try lia. clear C1. cbn [ps_group] in L, E2. destruct id2 as [|[|[k|] n]]; cbn in L; try contradiction.
  - destruct L as (Hn & Dn & Hk). destruct (divide_ratio M n ltac:(lia) Hn Dn) as (q & -> & Hq & Hr & Hm0). rewrite Hr in Hk. clear Hr.
    assert (0 <= k < q * n)%Z as Hk' by nia.
    cbn [any_subgroup subgroup] in E2. rewrite Hm0 in E2. replace (1 <=? n)%Z with true in E2 by lia. replace (0 <=? k)%Z with true in E2 by lia. replace (k <? q * n)%Z with true in E2 by lia. cbn [Z.eqb assert_ bind andb] in E2.
    cbn [pelement]. rewrite element_member by (split; [auto|exact Hk']). cbn [bind]. rewrite dn_to_o2_eq by (auto; lia). cbn [bind to_radians2]. rewrite o2_norm_eq. cbn [bind snd IZR]. rewrite Rmult_0_l, Rplus_0_r, m_idem, m_id by (apply ang_range; lia).
    eexists. split; [reflexivity|]. split; [reflexivity|]. intros Le. pose proof (ang_range (q * n) k ltac:(lia) Hk') as Rk.
    apply agrees_intro; [split; [left; exact Hn|lra]|]. intros sg C. inversion C; subst; try lia; cbn [ps_group ps_incl].
    + cbn [Z.eqb Pos.eqb bind] in E2. apply Ret_inj in E2. subst sg2. cbn [ps_group ps_incl sg_group sg_incl]. split; [reflexivity|]. intros h Hh; unpack. rewrite flip_to_o2_eq by lia.
      cbn [flip_to_dn]. destruct (Z.eqb_spec r 0) as [->|Nr]; cbn [bind].
      * rewrite dn_to_o2_eq by (auto; lia). do 2 f_equal. f_equal. unfold ang. cbn [IZR]. ring.
      * assert (r = 1)%Z by lia. subst r. rewrite element_member by (split; [auto|exact Hk']). cbn [bind]. rewrite dn_to_o2_eq by (auto; lia). do 2 f_equal. f_equal. cbn [IZR IPR]. ring.
    + destruct (Z.eqb_spec n 1); [lia|]. cbn [bind] in E2. apply Ret_inj in E2. subst sg2. cbn [ps_group ps_incl sg_group sg_incl]. split; [reflexivity|]. intros h Hh; unpack. destruct Hh as [Hf Hi].
      rewrite incl_DD by assumption. cbn [bind]. rewrite !dn_to_o2_eq by (auto; lia). do 2 f_equal. f_equal. rewrite ang_add, ang_scale by assumption. rewrite ang_mult. ring.
  - destruct L as (Hn & Dn). destruct (divide_ratio M n ltac:(lia) Hn Dn) as (q & -> & Hq & Hr & Hm0). clear Hr.
    cbn [any_subgroup subgroup] in E2. rewrite Hm0 in E2. replace (1 <=? n)%Z with true in E2 by lia. cbn [Z.eqb assert_ bind] in E2. apply Ret_inj in E2. subst sg2. cbn [ps_group ps_incl sg_group sg_incl].
    eexists. split; [reflexivity|]. apply agrees_intro; [left; exact Hn|]. intros sg C. inversion C; subst; try lia; cbn [ps_group ps_incl]. split; [reflexivity|]. intros h Hh; unpack.
    rewrite incl_CD by assumption. cbn [bind]. rewrite dn_to_o2_eq by (auto; lia). rewrite so2_to_o2_cyc by assumption. do 2 f_equal. f_equal. rewrite ang_scale by assumption. cbn [IZR]. ring.
Qed.

(** O2._combine_subgroups *)
Theorem combine_ok : forall id1 id2 sg1 sg2, pdocumented O2 id1 -> p_subgroup O2 id1 = Ret sg1 -> listed (ps_group sg1) id2 -> any_subgroup (ps_group sg1) id2 = Ret sg2 ->
  exists id, o2_combine id1 id2 = Ret id /\
    ((forall b, joint_axis id1 id2 b -> b <= 2 * PI) -> agrees id sg1 sg2) /\
    (forall b, joint_axis id1 id2 b -> 2 * PI < b -> p_subgroup O2 id = Raise).
Proof.
  intros id1 id2 sg1 sg2 D1 E1 L E2. destruct (p_subgroup_cases _ _ D1) as (x & Ex & C1). rewrite E1 in Ex. apply Ret_inj in Ex. subst x.
  destruct id1 as [|[a|] M]; cbn in D1; [contradiction| |].
  - destruct D1 as [HM Ha]. destruct (Z.eq_dec M 1) as [->|N1]; [|destruct HM as [HM| ->]].
    + destruct (combine_flip a sg1 id2 sg2 Ha C1 L E2) as (id & E & A). exists id. split; [exact E|]. split; [intros _; exact A|].
      intros b J. exfalso. destruct id2 as [[|[?|] ?]|[|[?|] ?]]; cbn in J; try contradiction; destruct J; lia.
    + destruct (combine_dih a M sg1 id2 sg2 Ha ltac:(lia) C1 L E2) as (id & E & A). exists id. split; [exact E|].
      inversion C1; subst; try lia. destruct id2 as [[|[?|] ?]|[|[k|] ?]]; cbn in L; try contradiction.
      * destruct A as [-> A]. split; [intros H; apply A, H; split; [exact N1|reflexivity]|]. intros b (_ & ->) H. apply axis_refused. exact H.
      * split; [intros _; exact A|]. intros b J. contradiction J.
    + destruct (combine_o2 a sg1 id2 sg2 Ha C1 L E2) as (id & E & A). exists id. split; [exact E|].
      inversion C1; subst; try lia. destruct id2 as [[|[t|] ?]|]; cbn in L; try contradiction.
      * destruct A as [-> A]. destruct L as [_ Ht]. pose proof PI_RGT_0 as P.
        assert (t < 2 * PI /\ m t = t \/ t = 2 * PI /\ m t = 0) as Q.
        { destruct (Rlt_dec t (2 * PI)) as [Lt|Nt]; [left; split; [exact Lt|apply m_id; lra]|right]. assert (t = 2 * PI) as -> by lra. split; [reflexivity|]. apply m_eq_id; [lra|]. exists 1%Z. lra. }
        split.
        -- intros H. apply A. apply H. split; [exact N1|]. destruct Q as [[Lt ->]|[Eq ->]]; [left; auto|right]. split; [exact Eq|ring].
        -- intros b (_ & J) H. apply axis_refused. destruct Q as [[Lt ->]|[Eq ->]]; destruct J as [[? ->]|[? ->]]; lra.
      * split; [intros _; exact A|]. intros b J. contradiction J.
  - destruct (combine_rot M sg1 id2 sg2 D1 C1 L E2) as (n & E & A). exists (IO2 None n). split; [exact E|]. split; [intros _; exact A|]. intros b J. contradiction J.
Qed.
