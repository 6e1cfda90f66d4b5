(** Proofs about nested subgroups of direct products. *)
From Coq Require Import List ZArith Bool Lia.
From Verif Require Import LibRes LibList SpecGroup SpecFinGroup FinGroupModel FinGroupProofs ProdModel
  SpecProd ProdProofs PCombModel SpecPComb.
Import ListNotations.
Open Scope Z_scope.

Lemma to_of_sgid : forall i, to_sgid (of_sgid i) = Ret i.
Proof. intros [M|[a|] M]; reflexivity. Qed.

(** On the ids of subgroups the composition is the one of the factors. *)
Lemma leaf_combine_ok : forall G i j k, combine_subgroups G i j = Ret k ->
  (exists N, G = Cyc N) \/ (exists ax M, i = IdD ax M /\ (ax <> None -> M = 1 -> exists m, j = IdC m)) ->
  leaf_combine G (of_sgid i) (of_sgid j) = Ret (of_sgid k).
Proof.
  intros G i j k E HC; unfold leaf_combine; rewrite to_of_sgid; cbn [bind].
  destruct G as [N|N].
  - cbn [combine_subgroups] in E; destruct (subgroup (Cyc N) i) as [|sg]; cbn [bind] in *; [discriminate|].
    injection E as <-; reflexivity.
  - unfold combine_subgroups in E; destruct (subgroup (Dih N) i) as [|sg]; cbn [bind] in *; [discriminate|].
    destruct i as [M|[a|] M]; [discriminate| |].
    + destruct (M =? 1) eqn:EM.
      * apply Z.eqb_eq in EM; subst M.
        destruct HC as [(n & Hn)|(ax & M & Ei & Hj)]; [discriminate|]; injection Ei as <- <-.
        destruct (Hj ltac:(discriminate) eq_refl) as (m & ->); injection E as <-.
        cbn [of_sgid]; destruct (m =? 2) eqn:Em; [apply Z.eqb_eq in Em; subst m; reflexivity|].
        apply Z.eqb_neq in Em; cbn [of_sgid].
        destruct m as [|[|[| |]|]|]; try reflexivity; congruence.
      * destruct j as [m|[b|] m]; [discriminate| |injection E as <-; reflexivity].
        cbn [of_sgid]; destruct (element (sg_group sg) (VD 0 b)) as [|e]; cbn [bind] in *; [discriminate|].
        destruct (sg_incl sg e) as [|[v|f r]]; cbn [bind] in *; try discriminate.
        injection E as <-; reflexivity.
    + destruct j as [m|ax m]; [|discriminate]; injection E as <-; reflexivity.
Qed.

Lemma fin_incl_El : forall G id sg h, documented G id -> subgroup G id = Ret sg ->
  fin_incl G id (El (NFin (subgroup_type id)) h) = (v <- sg_incl sg h ;; Ret (El (NFin G) v)).
Proof.
  intros G id sg h HD Hsg; unfold fin_incl.
  destruct G as [N|N], id as [M|[a|] M]; cbn [documented] in HD; try contradiction;
    cbn [subgroup_type el_grp el_val]; cbn [subgroup] in Hsg; rewrite !assert_Ret in Hsg.
  - destruct Hsg as (_ & _ & E); injection E as <-; reflexivity.
  - destruct Hsg as (_ & _ & _ & E); destruct (M =? 1)%Z; injection E as <-; reflexivity.
  - destruct Hsg as (_ & _ & _ & E); injection E as <-; reflexivity.
Qed.

(** One factor: the composed id, its group and its inclusion. *)
Lemma leaf_nested : forall G i j, valid_grp G = true -> documented G i -> documented (subgroup_type i) j ->
  exists k S, leaf_combine G (of_sgid i) (of_sgid j) = Ret (of_sgid k) /\ documented G k /\
    subgroup_type k = subgroup_type j /\ fin_sub G k = Ret S /\ s_grp S = fin_obj (subgroup_type j) /\
    good_sub (fin_obj G) S /\
    forall e, el_mem (fin_obj (subgroup_type j)) e ->
      s_incl S e = (m <- fin_incl (subgroup_type i) j e ;; fin_incl G i m).
Proof.
  intros G i j HG Hi Hj.
  destruct (documented_accepted G i HG Hi) as (sg1 & E1).
  pose proof (subgroup_type_ok G i sg1 Hi E1) as T1.
  destruct (subgroup_good G i sg1 HG Hi E1) as (HV & _ & _); rewrite T1 in HV.
  destruct (documented_accepted _ j HV Hj) as (sg2 & E2).
  pose proof (subgroup_type_ok _ j sg2 Hj E2) as T2.
  destruct (combine_subgroups_ok G i j sg1 sg2 HG Hi E1) as (k & sg & Ek & Hk & Esg & Eg & Inc);
    [rewrite T1; exact Hj|rewrite T1; exact E2|].
  pose proof (subgroup_type_ok G k sg Hk Esg) as T3.
  assert (Tk : subgroup_type k = subgroup_type j) by congruence.
  destruct (fin_sub_good G k HG Hk) as (S & ES & EgS & GS).
  exists k, S; split.
  { apply leaf_combine_ok; [exact Ek|].
    destruct G as [N|N]; [left; eauto|right].
    destruct i as [M|ax M]; [destruct Hi|]; exists ax, M; split; [reflexivity|].
    intros Hax ->; destruct ax as [a|]; [|congruence]; cbn in Hj.
    destruct j as [m|ax' m]; [eauto|destruct Hj]. }
  split; [exact Hk|split; [exact Tk|split; [exact ES|]]].
  split; [rewrite EgS, Tk; reflexivity|split; [exact GS|]].
  intros [n v] He; apply fin_el_mem in He as [En Hv]; cbn in En, Hv; subst n.
  assert (SI : s_incl S = fin_incl G k).
  { unfold fin_sub in ES; rewrite Esg in ES; cbn [bind] in ES; injection ES as <-; reflexivity. }
  rewrite SI, <- Tk, (fin_incl_El G k sg v Hk Esg), Tk, (fin_incl_El _ j sg2 v Hj E2).
  rewrite Inc by (rewrite T2; exact Hv).
  destruct (sg_incl sg2 v) as [|m]; cbn [bind]; [reflexivity|].
  rewrite (fin_incl_El G i sg1 m Hi E1); reflexivity.
Qed.

Lemma order_fin : forall G, valid_grp G = true ->
  g_order (fin_obj G) = match G with Cyc N => N | Dih N => 2 * N end.
Proof.
  intros G H; destruct (elements_enumerate G H) as (l & E & _ & _ & L).
  unfold g_order; cbn [fin_obj g_elements]; rewrite E; exact L.
Qed.

Lemma trivial_order : forall G i, valid_grp G = true -> documented G i ->
  (g_order (fin_obj (subgroup_type i)) = 1 <-> trivial_id i).
Proof.
  intros G i HG Hi; destruct (documented_accepted G i HG Hi) as (sg & E).
  pose proof (subgroup_type_ok G i sg Hi E) as T.
  destruct (subgroup_good G i sg HG Hi E) as (HV & _ & _); rewrite T in HV.
  rewrite (order_fin _ HV); unfold trivial_id; destruct i as [M|[a|] M]; cbn [subgroup_type].
  - split; [intros ->; auto|intros [X|X]; congruence].
  - destruct (M =? 1); split; try lia; intros [X|X]; discriminate.
  - split; [intros ->; auto|intros [X|X]; congruence].
Qed.

Lemma fin_sub_parts : forall G i, valid_grp G = true -> documented G i ->
  exists S, fin_sub G i = Ret S /\ s_grp S = fin_obj (subgroup_type i) /\ s_incl S = fin_incl G i /\
    good_sub (fin_obj G) S /\ valid_grp (subgroup_type i) = true.
Proof.
  intros G i HG Hi; destruct (fin_sub_good G i HG Hi) as (S & E & T & Gd).
  exists S; split; [exact E|split; [exact T|]].
  destruct (documented_accepted G i HG Hi) as (sg & Esg).
  pose proof (subgroup_type_ok G i sg Hi Esg) as Ts.
  destruct (subgroup_good G i sg HG Hi Esg) as (HV & _ & _); rewrite Ts in HV.
  unfold fin_sub in E; rewrite Esg in E; cbn [bind] in E; injection E as <-; auto.
Qed.

Lemma fin_one : forall G, valid_grp G = true -> el_mem (fin_obj G) (el_one (fin_obj G)).
Proof. intros G H; apply (grp_id _ _ _ _ (gg_group _ (fin_good G H))). Qed.

(** A subgroup map takes the identity to the identity. *)
Lemma incl_one : forall V (G : gobj V) (S : sub V), good_gobj G -> good_sub G S ->
  s_incl S (el_one (s_grp S)) = Ret (el_one G).
Proof.
  intros V G S [HG _] [[HH _] [m _ u] _].
  pose proof (grp_id _ _ _ _ HH) as M1.
  destruct (m _ M1) as (g & Eg & Mg); rewrite Eg; f_equal.
  pose proof (u _ _ _ g g M1 M1 (grp_id_l _ _ _ _ HH _ M1) Eg Eg) as E; rewrite Eg in E.
  destruct (grp_inv _ _ _ _ HG g Mg) as (h & Eh & Mh).
  pose proof (grp_inv_l _ _ _ _ HG g h Mg Eh) as L.
  pose proof (grp_assoc _ _ _ _ HG h g g _ _ Mh Mg Mg L (eq_sym E)) as A.
  rewrite (grp_id_l _ _ _ _ HG g Mg), L in A; apply Ret_inj in A; exact A.
Qed.

Lemma of_pair_sub : forall G1 G2 i1 i2 S1 S2, fin_sub G1 i1 = Ret S1 -> fin_sub G2 i2 = Ret S2 ->
  prod_sub_of G1 G2 (PPair (of_sgid i1) (of_sgid i2)) = Ret (prod_subgroup (fin_obj G1) (fin_obj G2) S1 S2).
Proof. intros G1 G2 i1 i2 S1 S2 E1 E2; unfold prod_sub_of; rewrite !to_of_sgid; cbn [bind]; rewrite E1, E2; reflexivity. Qed.

Theorem prod_combine_nested : forall G1 G2 i1 i2 j1 j2,
  valid_grp G1 = true -> valid_grp G2 = true -> documented G1 i1 -> documented G2 i2 ->
  ~ trivial_id i1 -> ~ trivial_id i2 ->
  documented (subgroup_type i1) j1 -> documented (subgroup_type i2) j2 ->
  exists k1 k2 up down T S,
    prod_combine G1 G2 (PPair (of_sgid i1) (of_sgid i2)) (PPair (of_sgid j1) (of_sgid j2))
      = Ret (PPair (of_sgid k1) (of_sgid k2)) /\
    documented G1 k1 /\ documented G2 k2 /\
    prod_sub_of G1 G2 (PPair (of_sgid i1) (of_sgid i2))
      = Ret (SubProd (prod_grp (fin_obj (subgroup_type i1)) (fin_obj (subgroup_type i2))) up down) /\
    prod_sub_of (subgroup_type i1) (subgroup_type i2) (PPair (of_sgid j1) (of_sgid j2)) = Ret S /\
    prod_sub_of G1 G2 (PPair (of_sgid k1) (of_sgid k2)) = Ret T /\ nested_in T S up.
Proof.
  intros G1 G2 i1 i2 j1 j2 V1 V2 D1 D2 N1 N2 J1 J2.
  destruct (fin_sub_parts G1 i1 V1 D1) as (I1 & EI1 & TI1 & MI1 & GI1 & W1).
  destruct (fin_sub_parts G2 i2 V2 D2) as (I2 & EI2 & TI2 & MI2 & GI2 & W2).
  destruct (fin_sub_parts _ j1 W1 J1) as (L1 & EL1 & TL1 & ML1 & GL1 & X1).
  destruct (fin_sub_parts _ j2 W2 J2) as (L2 & EL2 & TL2 & ML2 & GL2 & X2).
  destruct (leaf_nested G1 i1 j1 V1 D1 J1) as (k1 & K1 & C1 & Dk1 & Tk1 & EK1 & TK1 & GK1 & F1).
  destruct (leaf_nested G2 i2 j2 V2 D2 J2) as (k2 & K2 & C2 & Dk2 & Tk2 & EK2 & TK2 & GK2 & F2).
  rewrite <- ML1, <- MI1 in F1; rewrite <- ML2, <- MI2 in F2.
  assert (O1 : (g_order (s_grp I1) =? 1) = false).
  { apply Z.eqb_neq; rewrite TI1; intros E; apply (trivial_order G1 i1 V1 D1) in E; auto. }
  assert (O2 : (g_order (s_grp I2) =? 1) = false).
  { apply Z.eqb_neq; rewrite TI2; intros E; apply (trivial_order G2 i2 V2 D2) in E; auto. }
  pose proof (of_pair_sub G1 G2 i1 i2 I1 I2 EI1 EI2) as PI.
  unfold prod_subgroup in PI; rewrite O1, O2 in PI.
  exists k1, k2; do 4 eexists; split.
  { cbn [prod_combine]; rewrite C1, C2; reflexivity. }
  split; [exact Dk1|split; [exact Dk2|split]].
  { rewrite PI, <- TI1, <- TI2; reflexivity. }
  split; [apply of_pair_sub; eassumption|split; [apply of_pair_sub; eassumption|]].
  (* the inclusions of the factors *)
  assert (S1 : forall a, el_mem (s_grp K1) a -> exists b c, s_incl L1 a = Ret b /\ el_mem (s_grp I1) b /\
            s_incl I1 b = Ret c /\ el_mem (fin_obj G1) c /\ s_incl K1 a = Ret c).
  { intros a Ha; rewrite TK1 in Ha.
    destruct GL1 as [_ [m _ _] _], GI1 as [_ [m' _ _] _].
    rewrite TL1 in m; destruct (m a Ha) as (b & Eb & Mb); rewrite <- TI1 in Mb.
    destruct (m' b Mb) as (c & Ec & Mc); exists b, c.
    rewrite (F1 a Ha), Eb; cbn [bind]; auto. }
  assert (S2 : forall a, el_mem (s_grp K2) a -> exists b c, s_incl L2 a = Ret b /\ el_mem (s_grp I2) b /\
            s_incl I2 b = Ret c /\ el_mem (fin_obj G2) c /\ s_incl K2 a = Ret c).
  { intros a Ha; rewrite TK2 in Ha.
    destruct GL2 as [_ [m _ _] _], GI2 as [_ [m' _ _] _].
    rewrite TL2 in m; destruct (m a Ha) as (b & Eb & Mb); rewrite <- TI2 in Mb.
    destruct (m' b Mb) as (c & Ec & Mc); exists b, c.
    rewrite (F2 a Ha), Eb; cbn [bind]; auto. }
  pose proof (incl_one _ _ I1 (fin_good G1 V1) GI1) as U1.
  pose proof (incl_one _ _ I2 (fin_good G2 V2) GI2) as U2.
  pose proof (fin_one _ V1) as Z1; pose proof (fin_one _ V2) as Z2.
  pose proof (fin_one _ W1) as Y1; pose proof (fin_one _ W2) as Y2; rewrite <- TI1 in Y1; rewrite <- TI2 in Y2.
  unfold prod_subgroup; rewrite <- !TI1, <- !TI2.
  rewrite TL1, TL2, <- TK1, <- TK2.
  destruct (g_order (s_grp K1) =? 1) eqn:Q1; [|destruct (g_order (s_grp K2) =? 1) eqn:Q2];
    cbn [nested_in]; (split; [reflexivity|]).
  - intros e He; destruct (S2 e He) as (b & c & Eb & Mb & Ec & Mc & EK).
    unfold inclusion_right; rewrite (proj1 He), gname_eqb_refl; cbn [assert_ bind].
    rewrite EK, Eb; cbn [bind].
    change (mkel (prod_grp (s_grp I1) (s_grp I2)) (g_one (s_grp I1), el_val b))
      with (mkel (prod_grp (s_grp I1) (s_grp I2)) (el_val (pr (s_grp I1) (s_grp I2) (el_one (s_grp I1)) b))).
    rewrite mkel_mem by (apply pr_mem; assumption); cbn [bind].
    rewrite (prod_incl_pr _ _ _ _ _ _ _ _ Y1 Mb U1 Ec Z1 Mc).
    change (mkel (prod_grp (fin_obj G1) (fin_obj G2)) (g_one (fin_obj G1), el_val c))
      with (mkel (prod_grp (fin_obj G1) (fin_obj G2)) (el_val (pr (fin_obj G1) (fin_obj G2) (el_one (fin_obj G1)) c))).
    apply mkel_mem, pr_mem; assumption.
  - intros e He; destruct (S1 e He) as (b & c & Eb & Mb & Ec & Mc & EK).
    unfold inclusion_left; rewrite (proj1 He), gname_eqb_refl; cbn [assert_ bind].
    rewrite EK, Eb; cbn [bind].
    change (mkel (prod_grp (s_grp I1) (s_grp I2)) (el_val b, g_one (s_grp I2)))
      with (mkel (prod_grp (s_grp I1) (s_grp I2)) (el_val (pr (s_grp I1) (s_grp I2) b (el_one (s_grp I2))))).
    rewrite mkel_mem by (apply pr_mem; assumption); cbn [bind].
    rewrite (prod_incl_pr _ _ _ _ _ _ _ _ Mb Y2 Ec U2 Mc Z2).
    change (mkel (prod_grp (fin_obj G1) (fin_obj G2)) (el_val c, g_one (fin_obj G2)))
      with (mkel (prod_grp (fin_obj G1) (fin_obj G2)) (el_val (pr (fin_obj G1) (fin_obj G2) c (el_one (fin_obj G2))))).
    apply mkel_mem, pr_mem; assumption.
  - intros e He; apply pr_inv in He as (a & a' & Ha & Ha' & ->).
    destruct (S1 a Ha) as (b & c & Eb & Mb & Ec & Mc & EK).
    destruct (S2 a' Ha') as (b' & c' & Eb' & Mb' & Ec' & Mc' & EK').
    rewrite (prod_incl_pr _ _ _ _ _ _ _ _ Ha Ha' EK EK' Mc Mc').
    assert (R1 : s_grp K1 = s_grp L1) by congruence; assert (R2 : s_grp K2 = s_grp L2) by congruence.
    rewrite R1, R2 in *.
    rewrite (prod_incl_pr _ _ _ _ _ _ _ _ Ha Ha' Eb Eb' Mb Mb'); cbn [bind].
    rewrite (prod_incl_pr _ _ _ _ _ _ _ _ Mb Mb' Ec Ec' Mc Mc'); reflexivity.
Qed.

(** When a factor is trivial, subgroup() returns the other factor; its own
    subgroups have ids that are no product ids. *)
Theorem prod_combine_collapsed : forall G1 G2 i1 i2,
  valid_grp G1 = true -> valid_grp G2 = true -> documented G1 i1 -> documented G2 i2 ->
  trivial_id i1 \/ trivial_id i2 ->
  exists H up down, prod_sub_of G1 G2 (PPair (of_sgid i1) (of_sgid i2)) = Ret (SubOne (fin_obj H) up down) /\
    forall j, documented H j ->
      prod_combine G1 G2 (PPair (of_sgid i1) (of_sgid i2)) (of_sgid j) = Raise.
Proof.
  intros G1 G2 i1 i2 V1 V2 D1 D2 N.
  destruct (fin_sub_parts G1 i1 V1 D1) as (I1 & EI1 & TI1 & MI1 & GI1 & W1).
  destruct (fin_sub_parts G2 i2 V2 D2) as (I2 & EI2 & TI2 & MI2 & GI2 & W2).
  pose proof (of_pair_sub G1 G2 i1 i2 I1 I2 EI1 EI2) as PI; unfold prod_subgroup in PI.
  destruct (g_order (s_grp I1) =? 1) eqn:O1.
  - rewrite TI2 in PI; do 3 eexists; split; [exact PI|].
    intros j Hj; destruct j as [m|ax m]; [reflexivity|].
    assert (X : forall a, leaf_combine G2 (of_sgid i2) (PInt a) = Raise).
    { intros a; destruct i2 as [M|[b|] M]; cbn [subgroup_type] in Hj; try (destruct Hj; fail).
      destruct (M =? 1) eqn:EM; [destruct Hj|].
      unfold leaf_combine; cbn [to_sgid of_sgid bind].
      destruct (subgroup G2 (IdD (Some b) M)); cbn [bind]; [reflexivity|].
      destruct G2; [destruct D2|]; rewrite EM; reflexivity. }
    destruct ax as [a|]; cbn [of_sgid prod_combine]; rewrite X;
      destruct (leaf_combine G1 _ _); reflexivity.
  - assert (O2 : (g_order (s_grp I2) =? 1) = true).
    { apply Z.eqb_eq; rewrite TI2; apply (trivial_order G2 i2 V2 D2).
      destruct N as [N|N]; [|exact N].
      apply (trivial_order G1 i1 V1 D1) in N; rewrite <- TI1 in N; rewrite N in O1; discriminate. }
    rewrite O2, TI1 in PI; do 3 eexists; split; [exact PI|].
    intros j Hj; destruct j as [m|ax m]; [reflexivity|].
    destruct i1 as [M|[b|] M]; cbn [subgroup_type] in Hj; try (destruct Hj; fail).
    destruct (M =? 1) eqn:EM; [destruct Hj|].
    assert (X : forall p, (exists a, p = PInt a) \/ p = PNone -> leaf_combine G1 (of_sgid (IdD (Some b) M)) p = Raise).
    { intros p Hp; unfold leaf_combine; cbn [to_sgid of_sgid bind].
      destruct (subgroup G1 (IdD (Some b) M)); cbn [bind]; [reflexivity|].
      destruct G1; [destruct D1|]; rewrite EM; destruct Hp as [(a & ->)| ->]; reflexivity. }
    destruct ax as [a|]; cbn [of_sgid prod_combine]; cbn [of_sgid] in X; rewrite X by eauto; reflexivity.
Qed.
