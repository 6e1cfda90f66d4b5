(** The restriction functions of the four groups. *)
From Coq Require Import Reals ZArith Bool List Lia Lra Setoid Morphisms.
From Verif Require Import LibRes LibMat LibTrig SpecGroup FinGroupModel SpecFinGroup FinGroupProofs
  ParamModel ParamProofs PlanarModel SpecPlanar PlanarProofs IrrepModel SpecRep SpecIrrep IrrepProofs
  RestrictProofs.
Import ListNotations.
Open Scope R_scope.

Lemma half_reduces : forall q M k, (0 < M)%Z -> (2 * k = q * M)%Z ->
  (2 * (k mod M) = M \/ k mod M = 0)%Z.
Proof.
  intros q M k HM E; destruct (Z.Even_or_Odd q) as [[p ->]|[p ->]].
  - right; replace k with (p * M)%Z by nia; apply Z.mod_mul; lia.
  - left.
    pose proof (Z.div_mod k M ltac:(lia)); pose proof (Z.mod_pos_bound k M HM).
    assert ((k / M = p)%Z) as Ep by nia; nia.
Qed.

Lemma sub_size_c : forall M k, (0 < M)%Z -> (0 <= 2 * k <= M)%Z ->
  exists s, p_irrep (Fin (Cyc M)) [k] = Ret s /\
    ir_size s = (if (k =? 0)%Z || (2 * k =? M)%Z then 1 else 2)%nat.
Proof.
  intros M k HM Hk; destruct (p_irrep_kind (Fin (Cyc M)) [k]) as (s & E & A).
  - cbn; apply Z.ltb_lt; exact HM.
  - exact Hk.
  - exists s; split; [exact E|]; destruct A as (_ & _ & Es & _); rewrite Es; cbn [irrep_kind].
    destruct ((k =? 0)%Z || (2 * k =? M)%Z); reflexivity.
Qed.

Lemma sub_size_d : forall M j k, (0 < M)%Z -> irrep_ok (Fin (Dih M)) [j; k] ->
  exists s, p_irrep (Fin (Dih M)) [j; k] = Ret s /\
    ir_size s = (if (k =? 0)%Z || (2 * k =? M)%Z then 1 else 2)%nat.
Proof.
  intros M j k HM Hk; destruct (p_irrep_kind (Fin (Dih M)) [j; k]) as (s & E & A).
  - cbn; apply Z.ltb_lt; exact HM.
  - exact Hk.
  - exists s; split; [exact E|]; destruct A as (_ & _ & Es & _); rewrite Es; cbn [irrep_kind].
    destruct ((k =? 0)%Z || (2 * k =? M)%Z); reflexivity.
Qed.

Lemma valid_c : forall M, (0 < M)%Z -> pvalid (Fin (Cyc M)).
Proof. intros M H; cbn; apply Z.ltb_lt; exact H. Qed.
Lemma valid_d : forall M, (0 < M)%Z -> pvalid (Fin (Dih M)).
Proof. intros M H; cbn; apply Z.ltb_lt; exact H. Qed.

(** what the shared code of the C_M branches computes *)
Lemma red_pair : forall M k n,
  (if (M <? 2 * (k mod M))%Z then ((M - k mod M)%Z, (2%nat, chi1)) else ((k mod M)%Z, (n, mid)))
  = (red_k M k, (red_n M k n, red_P M k)).
Proof. intros M k n; unfold red_k, red_n, red_P; destruct (_ <? _)%Z; reflexivity. Qed.

Lemma restricts_cyc : forall G incl id r M, (0 < M)%Z -> irrep_as G id r (irrep_kind G id) ->
  sign_on M (irrep_kind G id) ->
  (forall i, (0 <= i < M)%Z -> exists g, incl (VF (VC i)) = Ret g /\ pmember G g /\
     fl G g = 0%Z /\ same_angle (th G g) (ang M i)) ->
  restricts (Fin (Cyc M)) incl r
    ((red_n M (ir_freq r) (ir_size r), red_P M (ir_freq r)), c_ids M (red_k M (ir_freq r)) (ir_size r)).
Proof.
  intros G incl id r M HM A HS Hincl.
  pose proof A as (_ & _ & Es & Ef & _); rewrite Es, Ef.
  set (kd := irrep_kind G id) in *; fold (freq_of kd).
  destruct (cyc_decomp M kd 0 HM ltac:(lia) HS) as (Hids & HP & Hn & _).
  split; [exact Hids|]; cbn [fst snd]; rewrite Hn.
  apply (decomposes_intro G _ incl id r kd); auto using valid_c.
  intros h Hh; unpack.
  destruct (Hincl r0 Hh) as (g & Eg & Hg & Eflip & Eth).
  destruct (cyc_decomp M kd r0 HM Hh HS) as (_ & _ & _ & Hb & Hm).
  exists g; repeat split; auto.
  rewrite Eflip, (kmat_sa _ _ _ _ Eth); exact Hm.
Qed.

(** ** C_N *)

Lemma sign_on_fin : forall N M q id G, (0 < M)%Z -> N = (q * M)%Z -> (G = Fin (Cyc N) \/ G = Fin (Dih N)) ->
  irrep_ok G id -> sign_on M (irrep_kind G id).
Proof.
  intros N M q id G HM E HG H; destruct HG as [-> | ->]; destruct id as [|j [|k [|]]]; cbn [irrep_ok] in H;
    try contradiction; cbn [irrep_kind].
  - destruct ((j =? 0)%Z || (2 * j =? N)%Z) eqn:B; [|exact I]; cbn [sign_on].
    apply orb_prop in B as [B|B]; apply Z.eqb_eq in B.
    + subst j; right; apply Z.mod_0_l; lia.
    + apply (half_reduces q); lia.
  - destruct ((k =? 0)%Z || (2 * k =? N)%Z) eqn:B; [|exact I]; cbn [sign_on].
    apply orb_prop in B as [B|B]; apply Z.eqb_eq in B.
    + subst k; right; apply Z.mod_0_l; lia.
    + apply (half_reduces q); lia.
Qed.

Lemma ang_sub : forall q M i, (0 < q)%Z -> (0 < M)%Z -> ang (q * M) (i * q) = ang M i.
Proof.
  intros q M i Hq HM; unfold ang; rewrite !mult_IZR; pose proof (IZR_pos q Hq); pose proof (IZR_pos M HM).
  field; lra.
Qed.

Lemma cn_restrict_ok : forall N M id, (0 < N)%Z -> documented (Cyc N) (IdC M) -> irrep_ok (Fin (Cyc N)) id ->
  exists sg r x, subgroup (Cyc N) (IdC M) = Ret sg /\ p_irrep (Fin (Cyc N)) id = Ret r /\
    cn_restrict_irrep N id M = Ret x /\ restricts (Fin (sg_group sg)) (fin_incl sg) r x.
Proof.
  intros N M id HN HD Hid; pose proof HD as [HM Hdiv].
  destruct (divide_ratio N M HN HM Hdiv) as (q & -> & Hq & Hr & Hm).
  assert (Esg : subgroup (Cyc (q * M)) (IdC M) = Ret {| sg_group := Cyc M;
     sg_incl := parent_c (q * M) M; sg_restr := child_c (q * M) M |}).
  { cbn [subgroup]; rewrite Hm; replace (0 <? M)%Z with true by (symmetry; apply Z.ltb_lt; exact HM).
    reflexivity. }
  destruct (p_irrep_kind (Fin (Cyc (q * M))) id (valid_c _ HN) Hid) as (r & Er & A).
  eexists _, r, _; split; [exact Esg|]; split; [exact Er|].
  unfold cn_restrict_irrep; rewrite Er, Esg; cbn [bind sg_group].
  change (mat2 1 0 0 (-1)) with chi1; rewrite red_pair; cbn [fst snd].
  destruct (sub_size_c M (red_k M (ir_freq r)) HM (red_k_range M _ HM)) as (s & E & Es).
  rewrite E; cbn [bind]; rewrite Es; split; [reflexivity|].
  apply (restricts_cyc (Fin (Cyc (q * M))) _ id r M HM A).
  - eapply sign_on_fin; eauto.
  - intros i Hi; cbn [fin_incl sg_incl]; rewrite incl_C by assumption; cbn [bind].
    eexists; split; [reflexivity|]; cbn; rewrite ang_sub by assumption; repeat split; try nia; reflexivity.
Qed.

(** ** D_N *)

Lemma freq_half : forall N k a, (0 < N)%Z -> (2 * k = N)%Z -> same_angle (IZR k * ang N a) (PI * IZR a).
Proof.
  intros N k a HN <-; apply sa_eq; unfold ang; rewrite mult_IZR; field.
  apply not_0_IZR; lia.
Qed.

Lemma psi_axis : forall N a k, (0 < N)%Z ->
  psi (1 / 2 * IZR a * 2 * PI / IZR N) k 0 = psi (1 / 2 * ang N a) k 0.
Proof.
  intros N a k HN; unfold psi; replace (1 / 2 * IZR a * 2 * PI / IZR N) with (1 / 2 * ang N a); [reflexivity|].
  unfold ang; field; pose proof (IZR_pos N HN); lra.
Qed.

Lemma flip_incl : forall N a f, (0 < N)%Z -> (0 <= a < N)%Z -> (f = 0 \/ f = 1)%Z ->
  flip_to_dn a N (VC f) = Ret (VD f (f * a)).
Proof.
  intros N a f HN Ha [-> | ->]; [reflexivity|].
  cbn [flip_to_dn]; change (1 =? 0)%Z with false; cbn iota; rewrite Z.mul_1_l.
  apply element_member, member_D; lia.
Qed.

Lemma dih_kind : forall N j k, irrep_ok (Fin (Dih N)) [j; k] ->
  (irrep_kind (Fin (Dih N)) [j; k] = K2 k /\ j = 1%Z /\ k <> 0%Z /\ (2 * k <> N)%Z) \/
  (irrep_kind (Fin (Dih N)) [j; k] = K1 j k /\ (k = 0 \/ 2 * k = N)%Z).
Proof.
  intros N j k [Hk Hj]; cbn [irrep_kind].
  destruct (Z.eqb_spec k 0), (Z.eqb_spec (2 * k) N); cbn [orb]; auto.
  left; repeat split; auto; lia.
Qed.

Lemma dn_restrict_ok : forall N a M id, (0 < N)%Z -> documented (Dih N) (IdD a M) -> irrep_ok (Fin (Dih N)) id ->
  exists sg r x, subgroup (Dih N) (IdD a M) = Ret sg /\ p_irrep (Fin (Dih N)) id = Ret r /\
    dn_restrict_irrep N id a M = Ret x /\ restricts (Fin (sg_group sg)) (fin_incl sg) r x.
Proof.
  intros N a M id HN HD Hid.
  destruct (documented_accepted (Dih N) (IdD a M) (proj2 (Z.ltb_lt _ _) HN) HD) as [sg Esg].
  destruct (p_irrep_kind (Fin (Dih N)) id (valid_d _ HN) Hid) as (r & Er & A).
  exists sg, r; unfold dn_restrict_irrep; rewrite Er, Esg; cbn [bind].
  assert (HM : (0 < M)%Z) by (destruct a; apply HD).
  destruct id as [|j [|k [|]]]; cbn [irrep_ok] in Hid; try contradiction.
  pose proof A as (Hok & _ & Es & Ef & _ & Efl & _).
  fold (freq_of (irrep_kind (Fin (Dih N)) [j; k])) in Ef.
  assert (Efk : ir_freq r = k) by (rewrite Ef; cbn [irrep_kind]; destruct (_ || _); reflexivity).
  assert (Hj01 : (j = 0 \/ j = 1)%Z) by lia.
  destruct a as [a|].
  - destruct HD as (_ & Hdiv & Ha).
    destruct (divide_ratio N M HN HM Hdiv) as (q & -> & Hq & Hr & Hm); rewrite Hr in Ha.
    assert (HaN : (0 <= a < q * M)%Z) by nia.
    assert (Hsub : subgroup (Dih (q * M)) (IdD (Some a) M) =
      if (M =? 1)%Z then Ret {| sg_group := Cyc 2; sg_incl := flip_to_dn a (q * M); sg_restr := dn_to_flip a |}
      else Ret {| sg_group := Dih M; sg_incl := dm_to_dn a (q * M) M; sg_restr := dn_to_dm a (q * M) M |}).
    { cbn [subgroup]; rewrite Hm.
      replace (1 <=? M)%Z with true by (symmetry; apply Z.leb_le; lia).
      replace (0 <=? a)%Z with true by (symmetry; apply Z.leb_le; lia).
      replace (a <? q * M)%Z with true by (symmetry; apply Z.ltb_lt; lia); reflexivity. }
    rewrite Hsub in Esg; unfold flip_freq; rewrite Efl; cbn [bind]; rewrite Efk.
    (* the sign on the axis *)
    set (d := if (2 * k =? q * M)%Z then a else 0%Z).
    assert (Ej : (if (2 * k =? q * M)%Z then (j + a) mod 2 else j)%Z = ((j + d) mod 2)%Z).
    { unfold d; destruct (2 * k =? q * M)%Z; [reflexivity|]; rewrite Z.add_0_r.
      destruct Hj01 as [-> | ->]; reflexivity. }
    assert (Hsd : (k = 0 \/ 2 * k = q * M)%Z -> same_angle (IZR k * ang (q * M) a) (PI * IZR d)).
    { intros B; unfold d; destruct (Z.eqb_spec (2 * k) (q * M)) as [E|E].
      - apply freq_half; [exact HN|exact E].
      - destruct B as [-> | B]; [|contradiction]; apply sa_eq; ring. }
    destruct (Z.eqb_spec M 1) as [->|HM1].
    + apply Ret_inj in Esg; subst sg; cbn [sg_group sg_incl].
      rewrite Es, psi_axis by exact HN; rewrite Ej.
      destruct (dih_kind _ j k Hid) as [(Ek & -> & Hk0 & Hk2)|(Ek & B)]; rewrite Ek in *; cbn [kdim Nat.ltb Nat.leb].
      * eexists; split; [reflexivity|]; split; [reflexivity|]; split; [reflexivity|].
        unfold d; rewrite (proj2 (Z.eqb_neq _ _) Hk2); change ((1 + 0) mod 2)%Z with 1%Z.
        split; [fa|]; apply (decomposes_intro (Fin (Dih (q * 1))) _ _ [1%Z; k] r (K2 k)); auto; try reflexivity.
        -- fa.
        -- apply orth_psi.
        -- intros h Hh; unpack; assert (Hf : (r0 = 0 \/ r0 = 1)%Z) by lia.
           cbn [fin_incl sg_incl]; rewrite flip_incl by assumption; cbn [bind].
           eexists; split; [reflexivity|]; split; [cbn; split; [exact Hf|destruct Hf as [-> | ->]; lia]|].
           split; [reflexivity|]; cbn [phase fst snd]; rewrite ang_mult; apply flip_decomp2; exact Hf.
      * eexists; split; [reflexivity|]; split; [reflexivity|]; split; [reflexivity|].
        assert (Hj' : (0 <= (j + d) mod 2 < 2)%Z) by (apply Z.mod_pos_bound; lia).
        split; [fa|]; apply (decomposes_intro (Fin (Dih (q * 1))) _ _ [j; k] r (K1 j k)); auto; try reflexivity.
        -- fa.
        -- apply orth_mid.
        -- intros h Hh; unpack; assert (Hf : (r0 = 0 \/ r0 = 1)%Z) by lia.
           cbn [fin_incl sg_incl]; rewrite flip_incl by assumption; cbn [bind].
           eexists; split; [reflexivity|]; split; [cbn; split; [exact Hf|destruct Hf as [-> | ->]; lia]|].
           split.
           ++ cbn [map snd]; unfold kblk; cbn [irrep_kind].
              rewrite orb_half by (clear - Hj'; set (z := ((j + d) mod 2)%Z) in *; lia); reflexivity.
           ++ cbn [phase fst snd]; rewrite ang_mult; apply flip_decomp1; auto.
    + apply Ret_inj in Esg; subst sg; cbn [sg_group sg_incl].
      change (chi 1) with (Ret (mat2 1 0 0 (-1))); cbn [bind].
      change (mat2 1 0 0 (-1)) with chi1; rewrite red_pair; cbn [fst snd]; rewrite Ej, Es.
      rewrite psi_axis by exact HN.
      assert (Hincl : forall f i, (f = 0 \/ f = 1)%Z -> (0 <= i < M)%Z ->
        exists g, fin_incl {| sg_group := Dih M; sg_incl := dm_to_dn a (q * M) M; sg_restr := dn_to_dm a (q * M) M |}
            (VF (VD f i)) = Ret g /\ pmember (Fin (Dih (q * M))) g /\
          fl (Fin (Dih (q * M))) g = f /\ th (Fin (Dih (q * M))) g = ang M i + IZR f * ang (q * M) a).
      { intros f i Hf Hi; cbn [fin_incl sg_incl]; rewrite incl_DD by assumption; cbn [bind].
        eexists; split; [reflexivity|]; cbn; split; [split; [exact Hf|destruct Hf as [-> | ->]; nia]|].
        split; [reflexivity|]; rewrite ang_add, ang_sub, ang_mult by assumption; reflexivity. }
      destruct (dih_kind _ j k Hid) as [(Ek & -> & Hk0 & Hk2)|(Ek & B)]; rewrite Ek in *; cbn [kdim].
      * assert (Ed : ((1 + d) mod 2 = 1)%Z) by (unfold d; rewrite (proj2 (Z.eqb_neq _ _) Hk2); reflexivity).
        rewrite Ed.
        destruct (dih_decomp2 M k 0 0 (ang (q * M) a) HM (or_introl eq_refl)) as (Hids & HP & Hn & _).
        destruct (sub_size_d M 1 (red_k M k) HM) as (s & E & Ess).
        { pose proof (red_k_range M k HM); cbn [irrep_ok]; lia. }
        rewrite E; cbn [bind]; rewrite Ess; cbn [Nat.eqb]; rewrite Hn; unfold sq_mul; cbn [fst snd Nat.eqb assert_ bind].
        eexists; split; [reflexivity|]; split; [reflexivity|]; split; [reflexivity|].
        split; [exact Hids|].
        apply (decomposes_intro (Fin (Dih (q * M))) (Fin (Dih M)) _ [1%Z; k] r (K2 k)); auto using valid_d.
        intros h Hh; unpack; destruct Hh as [Hf Hi].
        destruct (Hincl f r0 Hf Hi) as (g & Eg & Hg & Efg & Etg); exists g; split; [exact Eg|split; [exact Hg|]].
        rewrite Efg, Etg.
        destruct (dih_decomp2 M k f r0 (ang (q * M) a) HM Hf) as (_ & _ & _ & Hb & Hmm); split; assumption.
      * assert (HS : sign_on M (K1 j k)).
        { rewrite <- Ek; apply (sign_on_fin (q * M) M q); auto. }
        destruct (dih_decomp1 M j k d 0 0 (ang (q * M) a) HM (or_introl eq_refl) Hj01 HS (Hsd B))
          as (Hids & HP & Hn & _).
        destruct (sub_size_d M ((j + d) mod 2) (red_k M k) HM) as (s & E & Ess).
        { unfold d_ids in Hids; destruct (sign_red M j k HM HS) as (_ & E2 & _).
          rewrite (orb_half _ _ E2) in Hids; cbn [Nat.ltb Nat.leb] in Hids; inversion Hids; assumption. }
        rewrite E; cbn [bind]; rewrite Ess, Hn, HP; cbn [Nat.eqb].
        eexists; split; [reflexivity|]; split; [reflexivity|]; split; [reflexivity|].
        split; [exact Hids|].
        apply (decomposes_intro (Fin (Dih (q * M))) (Fin (Dih M)) _ [j; k] r (K1 j k)); auto using valid_d, orth_mid.
        intros h Hh; unpack; destruct Hh as [Hf Hi].
        destruct (Hincl f r0 Hf Hi) as (g & Eg & Hg & Efg & Etg); exists g; split; [exact Eg|split; [exact Hg|]].
        rewrite Efg, Etg.
        destruct (dih_decomp1 M j k d f r0 (ang (q * M) a) HM Hf Hj01 HS (Hsd B)) as (_ & _ & _ & Hb & Hmm);
          split; assumption.
  - destruct HD as (_ & Hdiv).
    destruct (divide_ratio N M HN HM Hdiv) as (q & -> & Hq & Hr & Hm).
    assert (Hsub : subgroup (Dih (q * M)) (IdD None M) =
      Ret {| sg_group := Cyc M; sg_incl := cn_to_dn (q * M) M; sg_restr := dn_to_cn (q * M) M |}).
    { cbn [subgroup]; rewrite Hm.
      replace (1 <=? M)%Z with true by (symmetry; apply Z.leb_le; lia); reflexivity. }
    rewrite Hsub in Esg; apply Ret_inj in Esg; subst sg; cbn [sg_group sg_incl].
    change (chi 1) with (Ret (mat2 1 0 0 (-1))); cbn [bind].
    change (mat2 1 0 0 (-1)) with chi1; rewrite red_pair; cbn [fst snd].
    destruct (sub_size_c M (red_k M (ir_freq r)) HM (red_k_range M _ HM)) as (s & E & Ess).
    rewrite E; cbn [bind]; rewrite Ess.
    eexists; split; [reflexivity|]; split; [reflexivity|]; split; [reflexivity|].
    apply (restricts_cyc (Fin (Dih (q * M))) _ [j; k] r M HM A).
    + apply (sign_on_fin (q * M) M q); auto.
    + intros i Hi; cbn [fin_incl sg_incl]; rewrite incl_CD by assumption; cbn [bind].
      eexists; split; [reflexivity|]; cbn; rewrite ang_sub by assumption; repeat split; auto; try nia; reflexivity.
Qed.

Theorem fin_restrict_ok : forall G sid id, valid_grp G = true -> documented G sid -> irrep_ok (Fin G) id ->
  exists sg r x, subgroup G sid = Ret sg /\ p_irrep (Fin G) id = Ret r /\
    fin_restrict_irrep G id sid = Ret x /\ restricts (Fin (sg_group sg)) (fin_incl sg) r x.
Proof.
  intros [N|N] [M|a M] id HG HD Hid; try (cbn in HD; contradiction).
  - apply cn_restrict_ok; auto; apply Z.ltb_lt; exact HG.
  - apply dn_restrict_ok; auto; apply Z.ltb_lt; exact HG.
Qed.

(** ** SO(2) and O(2) *)

Lemma o2_kind : forall j k, irrep_ok O2 [j; k] ->
  (irrep_kind O2 [j; k] = K2 k /\ j = 1%Z /\ k <> 0%Z) \/
  (irrep_kind O2 [j; k] = K1 j 0 /\ k = 0%Z).
Proof.
  intros j k [Hk Hj]; cbn [irrep_kind]; destruct (Z.eqb_spec k 0) as [->|]; auto.
  left; repeat split; auto; lia.
Qed.

Lemma sign_on_cont : forall G M id, (0 < M)%Z -> (G = SO2 \/ G = O2) -> sign_on M (irrep_kind G id).
Proof.
  intros G M id HM [-> | ->]; destruct id as [|j [|k [|]]]; cbn [irrep_kind]; try exact I.
  - destruct (Z.eqb_spec j 0) as [->|]; [|exact I]; cbn [sign_on]; right; apply Z.mod_0_l; lia.
  - destruct (Z.eqb_spec k 0) as [->|]; [|exact I]; cbn [sign_on]; right; apply Z.mod_0_l; lia.
Qed.

Lemma c_ids_alt : forall M k n, (if Nat.ltb (if (k =? 0)%Z || (2 * k =? M)%Z then 1 else 2) n
  then [[k]] else []) ++ [[k]] = c_ids M k n.
Proof. intros M k n; unfold c_ids; destruct (Nat.ltb _ _); reflexivity. Qed.

Lemma d_ids_alt : forall M j k n, (if Nat.ltb (if (k =? 0)%Z || (2 * k =? M)%Z then 1 else 2) n
  then [[0%Z; k]] else []) ++ [[j; k]] = d_ids M j k n.
Proof. intros M j k n; unfold d_ids; destruct (Nat.ltb _ _); reflexivity. Qed.

Lemma so2_restrict_ok : forall M id, pdocumented SO2 (ISO2 M) -> irrep_ok SO2 id ->
  exists sg r x, p_subgroup SO2 (ISO2 M) = Ret sg /\ p_irrep SO2 id = Ret r /\
    so2_restrict_irrep id M = Ret x /\ restricts (ps_group sg) (ps_incl sg) r x.
Proof.
  intros M id HD Hid.
  destruct (p_subgroup_cases SO2 (ISO2 M) HD) as (sg & Esg & C).
  destruct (p_irrep_kind SO2 id I Hid) as (r & Er & A); exists sg, r.
  unfold so2_restrict_irrep; rewrite Er, Esg; cbn [bind].
  inversion C as [M0 HM|  | | | | | ]; subst; cbn [ps_group ps_incl].
  - rewrite (proj2 (Z.eqb_neq M (-1))) by lia.
    change (mat2 1 0 0 (-1)) with chi1; rewrite red_pair; cbn [fst snd].
    destruct (sub_size_c M (red_k M (ir_freq r)) HM (red_k_range M _ HM)) as (s & E & Es).
    rewrite E; cbn [bind]; rewrite Es.
    eexists; split; [reflexivity|]; split; [reflexivity|]; split; [reflexivity|].
    apply (restricts_cyc SO2 _ id r M HM A).
    + apply sign_on_cont; auto.
    + intros i Hi; rewrite so2_parent_eq by exact HM; eexists; split; [reflexivity|]; cbn.
      split; [apply m_range|split; [reflexivity|apply sa_m]].
  - cbn [Z.eqb Pos.eqb]; eexists; split; [reflexivity|]; split; [reflexivity|]; split; [reflexivity|].
    pose proof A as (_ & Eid & Es & _).
    split; [rewrite Eid; cbn [snd]; constructor; [exact Hid|constructor]|]; cbn [fst snd].
    rewrite Eid, Es at 1; rewrite Es.
    rewrite <- Es at 1; apply (decomposes_intro SO2 SO2 _ id r (irrep_kind SO2 id)); auto.
    + exact I.
    + apply orth_mid.
    + intros h Hh; exists h; split; [reflexivity|split; [exact Hh|]].
      cbn [map]; unfold kblk; split; [cbn [bsize]; apply Nat.add_0_r|].
      eapply meq_trans; [|apply meq_sym, conj_mid]; apply meq_sym, bdiag1.
Qed.

Lemma so2_kind_of_o2 : forall j k, irrep_ok O2 [j; k] ->
  irrep_kind SO2 [k] = match irrep_kind O2 [j; k] with K1 _ k => K1 0 k | K2 k => K2 k end.
Proof. intros j k _; cbn [irrep_kind]; destruct (k =? 0)%Z; reflexivity. Qed.

Lemma o2_restrict_ok : forall a M id, pdocumented O2 (IO2 a M) -> irrep_ok O2 id ->
  exists sg r x, p_subgroup O2 (IO2 a M) = Ret sg /\ p_irrep O2 id = Ret r /\
    o2_restrict_irrep id a M = Ret x /\ restricts (ps_group sg) (ps_incl sg) r x.
Proof.
  intros a M id HD Hid.
  destruct (p_subgroup_cases O2 (IO2 a M) HD) as (sg & Esg & C).
  destruct (p_irrep_kind O2 id I Hid) as (r & Er & A); exists sg, r.
  destruct id as [|j [|k [|]]]; try contradiction.
  pose proof A as (Hok & Eid & Es & Ef & _ & Efl & _); fold (freq_of (irrep_kind O2 [j; k])) in Ef.
  assert (Hj01 : (j = 0 \/ j = 1)%Z) by (cbn [irrep_ok] in Hid; lia).
  assert (Hk : (0 <= k)%Z) by (cbn [irrep_ok] in Hid; lia).
  unfold o2_restrict_irrep; rewrite Er, Esg; cbn [bind].
  inversion C as [ | |b Hb|b Hb|b M0 Hb HM| |M0 HM]; subst;
    (assert (Efk : ir_freq r = k) by (rewrite Ef; cbn [irrep_kind]; destruct (k =? 0)%Z; reflexivity));
    cbn [ps_group ps_incl].
  - (* O(2) about an axis *)
    cbn [Z.eqb Pos.eqb]; rewrite Eid, Es.
    assert (Hincl : forall f t, (f = 0 \/ f = 1)%Z -> exists g,
      adjoint_map (VO 0 (m (b / 2))) (VO f t) = Ret g /\ pmember O2 g /\ fl O2 g = f /\
      same_angle (th O2 g) (t + IZR f * b)).
    { intros f t Hf; rewrite adjoint_eq by exact Hf; eexists; split; [reflexivity|]; cbn.
      split; [split; [exact Hf|apply m_range]|split; [reflexivity|]].
      change 2 with (IZR 2); rewrite sa_m, sa_m; apply sa_eq; field. }
    destruct (o2_kind j k Hid) as [(Ek & -> & Hk0)|(Ek & ->)]; rewrite Ek in *; cbn [kdim Nat.eqb].
    + unfold sq_mul; cbn [fst snd Nat.eqb assert_ bind].
      eexists; split; [reflexivity|]; split; [reflexivity|]; split; [reflexivity|].
      split; [constructor; [exact Hid|constructor]|]; cbn [fst snd].
      apply (decomposes_intro O2 O2 _ [1%Z; k] r (K2 k)); try exact I; try reflexivity; auto.
      * apply orth_mul; [apply orth_psi|apply orth_mid].
      * intros h Hh; unpack; destruct Hh as [Hf Ht].
        destruct (Hincl f t Hf) as (g & Eg & Hg & Efg & Etg); exists g; split; [exact Eg|split; [exact Hg|]].
        cbn [map]; unfold kblk; rewrite Ek; split; [reflexivity|].
        rewrite Efg, (kmat_sa _ _ _ _ Etg).
        eapply meq_trans; [apply conj_psi; exact Hf|].
        eapply meq_trans; [|apply meq_sym, conj_mul]; rewrite Efk; apply conj_ext.
        eapply meq_trans; [|apply meq_sym, conj_mid]; apply meq_sym, bdiag1.
    + eexists; split; [reflexivity|]; split; [reflexivity|]; split; [reflexivity|].
      split; [constructor; [exact Hid|constructor]|]; cbn [fst snd].
      apply (decomposes_intro O2 O2 _ [j; 0%Z] r (K1 j 0)); try exact I; try reflexivity; auto.
      * apply orth_mid.
      * intros h Hh; unpack; destruct Hh as [Hf Ht].
        destruct (Hincl f t Hf) as (g & Eg & Hg & Efg & Etg); exists g; split; [exact Eg|split; [exact Hg|]].
        cbn [map]; unfold kblk; rewrite Ek; split; [reflexivity|].
        rewrite Efg; eapply meq_trans; [|apply meq_sym, conj_mid]; eapply meq_trans; [|apply meq_sym, bdiag1].
        cbn [kmat]; rewrite !Rmult_0_l; apply meq_refl.
  - (* a reflection *)
    cbn [Z.eqb Pos.eqb]; unfold flip_freq; rewrite Efl; cbn [bind]; rewrite Efk, Es.
    assert (Hincl : forall f, (f = 0 \/ f = 1)%Z -> exists g,
      flip_to_o2 b (VF (VC f)) = Ret g /\ pmember O2 g /\ fl O2 g = f /\
      same_angle (th O2 g) (IZR f * b)).
    { intros f Hf; rewrite flip_to_o2_eq by exact Hf; eexists; split; [reflexivity|]; cbn.
      split; [split; [exact Hf|apply m_range]|split; [reflexivity|apply sa_m]]. }
    destruct (o2_kind j k Hid) as [(Ek & -> & Hk0)|(Ek & ->)]; rewrite Ek in *; cbn [kdim Nat.ltb Nat.leb].
    + eexists; split; [reflexivity|]; split; [reflexivity|]; split; [reflexivity|].
      split; [fa|]; cbn [fst snd].
      apply (decomposes_intro O2 _ _ [1%Z; k] r (K2 k)); try exact I; try reflexivity; auto.
      * fa.
      * apply orth_psi.
      * intros h Hh; unpack; assert (Hf : (r0 = 0 \/ r0 = 1)%Z) by lia.
        destruct (Hincl r0 Hf) as (g & Eg & Hg & Efg & Etg); exists g; split; [exact Eg|split; [exact Hg|]].
        split; [reflexivity|]; rewrite Efg, (kmat_sa _ _ _ _ Etg); apply flip_decomp2; exact Hf.
    + eexists; split; [reflexivity|]; split; [reflexivity|]; split; [reflexivity|].
      split; [fa|]; cbn [fst snd].
      apply (decomposes_intro O2 _ _ [j; 0%Z] r (K1 j 0)); try exact I; try reflexivity; auto.
      * fa.
      * apply orth_mid.
      * intros h Hh; unpack; assert (Hf : (r0 = 0 \/ r0 = 1)%Z) by lia.
        destruct (Hincl r0 Hf) as (g & Eg & Hg & Efg & Etg); exists g; split; [exact Eg|split; [exact Hg|]].
        split.
        -- cbn [map]; unfold kblk; cbn [irrep_kind]; rewrite orb_half by lia; reflexivity.
        -- rewrite Efg, (kmat_sa _ _ _ _ Etg).
           assert (Ejj : ((j + 0) mod 2 = j)%Z) by (destruct Hj01 as [-> | ->]; reflexivity).
           pose proof (flip_decomp1 j 0 0 r0 b Hf Hj01 ltac:(apply sa_eq; ring)) as X.
           rewrite Ejj in X; exact X.
  - (* D_M about an axis *)
    rewrite (proj2 (Z.eqb_neq M (-1))), (proj2 (Z.eqb_neq M 1)) by lia.
    unfold flip_freq; rewrite Efl; cbn [bind]; rewrite Efk, Es.
    change (mat2 1 0 0 (-1)) with chi1; rewrite red_pair; cbn [fst snd].
    assert (HM0 : (0 < M)%Z) by lia.
    assert (Hincl : forall f i, (f = 0 \/ f = 1)%Z -> exists g,
      dn_to_o2 b M (VF (VD f i)) = Ret g /\ pmember O2 g /\ fl O2 g = f /\
      same_angle (th O2 g) (ang M i + IZR f * b)).
    { intros f i Hf; rewrite dn_to_o2_eq by assumption; eexists; split; [reflexivity|]; cbn.
      split; [split; [exact Hf|apply m_range]|split; [reflexivity|apply sa_m]]. }
    destruct (o2_kind j k Hid) as [(Ek & -> & Hk0)|(Ek & ->)]; rewrite Ek in *; cbn [kdim].
    + destruct (dih_decomp2 M k 0 0 b HM0 (or_introl eq_refl)) as (Hids & HP & Hn & _).
      destruct (sub_size_d M 1 (red_k M k) HM0) as (s & E & Ess).
      { pose proof (red_k_range M k HM0); cbn [irrep_ok]; lia. }
      rewrite E; cbn [bind]; rewrite Ess, Hn; cbn [Nat.eqb]; unfold sq_mul; cbn [fst snd Nat.eqb assert_ bind].
      rewrite d_ids_alt.
      eexists; split; [reflexivity|]; split; [reflexivity|]; split; [reflexivity|].
      split; [exact Hids|]; cbn [fst snd].
      apply (decomposes_intro O2 (Fin (Dih M)) _ [1%Z; k] r (K2 k)); auto using valid_d.
      intros h Hh; unpack; destruct Hh as [Hf Hi].
      destruct (Hincl f r0 Hf) as (g & Eg & Hg & Efg & Etg); exists g; split; [exact Eg|split; [exact Hg|]].
      rewrite Efg, (kmat_sa _ _ _ _ Etg).
      destruct (dih_decomp2 M k f r0 b HM0 Hf) as (_ & _ & _ & Hbb & Hmm); split; assumption.
    + assert (HS : sign_on M (K1 j 0)) by (cbn [sign_on]; right; apply Z.mod_0_l; lia).
      assert (Hsd : same_angle (IZR 0 * b) (PI * IZR 0)) by (apply sa_eq; ring).
      assert (Ejj : ((j + 0) mod 2 = j)%Z) by (destruct Hj01 as [-> | ->]; reflexivity).
      destruct (dih_decomp1 M j 0 0 0 0 b HM0 (or_introl eq_refl) Hj01 HS Hsd) as (Hids & HP & Hn & _).
      rewrite Ejj in Hids.
      destruct (sub_size_d M j (red_k M 0) HM0) as (s & E & Ess).
      { unfold d_ids in Hids; destruct (sign_red M j 0 HM0 HS) as (_ & E2 & _).
        rewrite (orb_half _ _ E2) in Hids; cbn [Nat.ltb Nat.leb] in Hids; inversion Hids; assumption. }
      rewrite E; cbn [bind]; rewrite Ess, Hn, HP; cbn [Nat.eqb]; rewrite d_ids_alt.
      eexists; split; [reflexivity|]; split; [reflexivity|]; split; [reflexivity|].
      split; [exact Hids|]; cbn [fst snd].
      apply (decomposes_intro O2 (Fin (Dih M)) _ [j; 0%Z] r (K1 j 0)); auto using valid_d, orth_mid.
      intros h Hh; unpack; destruct Hh as [Hf Hi].
      destruct (Hincl f r0 Hf) as (g & Eg & Hg & Efg & Etg); exists g; split; [exact Eg|split; [exact Hg|]].
      rewrite Efg, (kmat_sa _ _ _ _ Etg).
      destruct (dih_decomp1 M j 0 0 f r0 b HM0 Hf Hj01 HS Hsd) as (_ & _ & _ & Hbb & Hmm).
      rewrite Ejj in Hbb, Hmm; split; assumption.
  - (* SO(2) *)
    cbn [Z.eqb Pos.eqb]; rewrite Efk, Es.
    eexists; split; [reflexivity|]; split; [reflexivity|]; split; [reflexivity|].
    split; [constructor; [exact Hk|constructor]|]; cbn [fst snd].
    apply (decomposes_intro O2 SO2 _ [j; k] r (irrep_kind O2 [j; k])); try exact I; try reflexivity; auto.
    + apply orth_mid.
    + intros h Hh; unpack; rewrite so2_to_o2_so2; eexists; split; [reflexivity|].
      split; [split; [left; reflexivity|apply m_range]|].
      cbn [map]; unfold kblk; rewrite (so2_kind_of_o2 j k Hid).
      split; [destruct (irrep_kind O2 [j; k]); reflexivity|].
      eapply meq_trans; [|apply meq_sym, conj_mid].
      assert (Ed : kdim (match irrep_kind O2 [j; k] with K1 _ k => K1 0 k | K2 k => K2 k end) = kdim (irrep_kind O2 [j; k]))
        by (destruct (irrep_kind O2 [j; k]); reflexivity).
      rewrite Ed; eapply meq_trans; [|apply meq_sym, bdiag1].
      cbn [phase fst snd]; rewrite (m_id _ Hh).
      destruct (irrep_kind O2 [j; k]) as [s0 k0|k0]; cbn [kmat]; rewrite ?Z.mul_0_r; apply meq_refl.
  - (* C_M *)
    rewrite (proj2 (Z.eqb_neq M (-1))) by lia.
    change (chi 1) with (Ret (mat2 1 0 0 (-1))); cbn [bind].
    change (mat2 1 0 0 (-1)) with chi1; rewrite red_pair; cbn [fst snd].
    destruct (sub_size_c M (red_k M (ir_freq r)) HM (red_k_range M _ HM)) as (s & E & Ess).
    rewrite E; cbn [bind]; rewrite Ess, c_ids_alt.
    eexists; split; [reflexivity|]; split; [reflexivity|]; split; [reflexivity|].
    apply (restricts_cyc O2 _ [j; k] r M HM A).
    + apply sign_on_cont; auto.
    + intros i Hi; rewrite so2_to_o2_cyc by exact HM; eexists; split; [reflexivity|]; cbn.
      split; [split; [left; reflexivity|apply m_range]|split; [reflexivity|apply sa_m]].
Qed.

Theorem p_restrict_ok : forall G sid id, pdocumented G sid -> irrep_ok G id ->
  exists sg r x, p_subgroup G sid = Ret sg /\ p_irrep G id = Ret r /\
    p_restrict_irrep G id sid = Ret x /\ restricts (ps_group sg) (ps_incl sg) r x.
Proof.
  intros [G| |] [M|a M] id HD Hid; try (cbn in HD; contradiction).
  - apply so2_restrict_ok; assumption.
  - apply o2_restrict_ok; assumption.
Qed.
