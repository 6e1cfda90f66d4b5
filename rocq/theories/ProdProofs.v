From Coq Require Import List ZArith Bool Lia.
From Verif Require Import LibRes LibList SpecGroup SpecFinGroup FinGroupModel FinGroupProofs ProdModel SpecProd.
Import ListNotations.

Lemma grp_eqb_eq : forall G H, grp_eqb G H = true <-> G = H.
Proof.
  intros [n|n] [m|m]; cbn; try (split; discriminate);
    rewrite Z.eqb_eq; split; congruence.
Qed.

Lemma gname_eqb_eq : forall a b, gname_eqb a b = true <-> a = b.
Proof.
  induction a as [G|n|a1 IH1 a2 IH2]; intros [H|m|b1 b2]; cbn; try (split; discriminate).
  - rewrite grp_eqb_eq; split; congruence.
  - rewrite Z.eqb_eq; split; congruence.
  - rewrite andb_true_iff, IH1, IH2; split; [intros [-> ->]; reflexivity|].
    intros E; injection E; auto.
Qed.

Lemma gname_eqb_refl : forall a, gname_eqb a a = true.
Proof. intros; apply gname_eqb_eq; reflexivity. Qed.

Lemma el_eta : forall V (e : gel V), e = El (el_grp e) (el_val e).
Proof. intros V []; reflexivity. Qed.

Lemma mkel_Ret : forall V (G : gobj V) v e,
  mkel G v = Ret e <-> e = El (g_name G) v /\ g_is G v = true.
Proof.
  intros V G v e; unfold mkel; destruct (g_is G v); split; intros H;
    try (destruct H; congruence); try discriminate.
  injection H as <-; auto.
Qed.

Lemma mkel_mem : forall V (G : gobj V) e, el_mem G e -> mkel G (el_val e) = Ret e.
Proof. intros V G [n v] [Hn Hv]; cbn in *; apply mkel_Ret; subst; auto. Qed.

Lemma mkel_is : forall V (G : gobj V) v e, mkel G v = Ret e -> el_mem G e.
Proof. intros V G v e H; apply mkel_Ret in H as [-> H]; split; auto. Qed.

Lemma el_mul_eq : forall V (G : gobj V) a b, el_mem G a -> el_mem G b ->
  el_mul G a b = (v <- g_comb G (el_val a) (el_val b) ;; mkel G v).
Proof.
  intros V G a b [Ha _] [Hb _]; unfold el_mul; rewrite Ha, Hb, gname_eqb_refl; reflexivity.
Qed.

Section ProdProofs.
  Context {V1 V2 : Type} (G1 : gobj V1) (G2 : gobj V2).
  Let P := prod_grp G1 G2.

  (** Pairing element objects. *)
  Definition pr (a : gel V1) (b : gel V2) : gel (V1 * V2) :=
    El (g_name P) (el_val a, el_val b).

  Lemma pr_mem : forall a b, el_mem G1 a -> el_mem G2 b -> el_mem P (pr a b).
  Proof.
    intros a b [_ Ha] [_ Hb]; split; [reflexivity|]; cbn; rewrite Ha, Hb; reflexivity.
  Qed.

  Lemma pr_inv : forall e, el_mem P e -> exists a b,
    el_mem G1 a /\ el_mem G2 b /\ e = pr a b.
  Proof.
    intros [n [x y]] [Hn Hv]; cbn in *; apply andb_prop in Hv as [Hx Hy].
    exists (El (g_name G1) x), (El (g_name G2) y); repeat split; auto.
    subst n; reflexivity.
  Qed.

  Lemma pr_inj : forall a b a' b', el_mem G1 a -> el_mem G2 b -> el_mem G1 a' -> el_mem G2 b' ->
    pr a b = pr a' b' -> a = a' /\ b = b'.
  Proof.
    intros [n x] [m y] [n' x'] [m' y'] [H1 _] [H2 _] [H3 _] [H4 _] E; cbn in *; subst.
    injection E as -> ->; auto.
  Qed.

  Lemma pair_ok : forall a b, el_mem G1 a -> el_mem G2 b ->
    pair_elements G1 G2 a b = Ret (pr a b).
  Proof.
    intros a b Ha Hb; unfold pair_elements.
    rewrite (proj1 Ha), (proj1 Hb), !gname_eqb_refl; cbn [assert_ bind].
    apply (mkel_mem _ P (pr a b)), pr_mem; assumption.
  Qed.

  Lemma split_ok : forall a b, el_mem G1 a -> el_mem G2 b ->
    split_element G1 G2 (pr a b) = Ret (a, b).
  Proof.
    intros a b Ha Hb; unfold split_element; cbn [pr el_grp el_val fst snd P prod_grp g_name].
    rewrite gname_eqb_refl; cbn [assert_ bind].
    rewrite (mkel_mem _ G1 a Ha), (mkel_mem _ G2 b Hb); reflexivity.
  Qed.

  Lemma mul_pr : forall a b c d, el_mem G1 a -> el_mem G2 b -> el_mem G1 c -> el_mem G2 d ->
    el_mul P (pr a b) (pr c d) = (x <- el_mul G1 a c ;; y <- el_mul G2 b d ;; Ret (pr x y)).
  Proof.
    intros a b c d Ha Hb Hc Hd.
    rewrite !el_mul_eq by (try apply pr_mem; assumption).
    cbn [pr el_val P prod_grp g_comb fst snd].
    destruct (g_comb G1 (el_val a) (el_val c)) as [|x]; cbn [bind]; [reflexivity|].
    destruct (g_comb G2 (el_val b) (el_val d)) as [|y]; cbn [bind].
    - destruct (mkel G1 x); reflexivity.
    - unfold mkel, P, pr; cbn [g_is fst snd g_name prod_grp].
      destruct (g_is G1 x), (g_is G2 y); reflexivity.
  Qed.

  Lemma inv_pr : forall a b,
    el_inv P (pr a b) = (x <- el_inv G1 a ;; y <- el_inv G2 b ;; Ret (pr x y)).
  Proof.
    intros a b; unfold el_inv; cbn [pr el_val P prod_grp g_inv fst snd].
    destruct (g_inv G1 (el_val a)) as [|x]; cbn [bind]; [reflexivity|].
    destruct (g_inv G2 (el_val b)) as [|y]; cbn [bind].
    - destruct (mkel G1 x); reflexivity.
    - unfold mkel, P, pr; cbn [g_is fst snd g_name prod_grp].
      destruct (g_is G1 x), (g_is G2 y); reflexivity.
  Qed.

  Lemma one_pr : el_one P = pr (el_one G1) (el_one G2).
  Proof. reflexivity. Qed.

  Hypothesis HG1 : is_group (el_mem G1) (el_mul G1) (el_inv G1) (el_one G1).
  Hypothesis HG2 : is_group (el_mem G2) (el_mul G2) (el_inv G2) (el_one G2).

  Theorem prod_is_group : is_group (el_mem P) (el_mul P) (el_inv P) (el_one P).
  Proof.
    destruct HG1 as [i1 o1 n1 a1 l1 r1 il1 ir1], HG2 as [i2 o2 n2 a2 l2 r2 il2 ir2].
    constructor.
    - rewrite one_pr; apply pr_mem; assumption.
    - intros e f He Hf; apply pr_inv in He as (a & b & Ha & Hb & ->).
      apply pr_inv in Hf as (c & d & Hc & Hd & ->).
      destruct (o1 a c Ha Hc) as (x & Ex & Hx), (o2 b d Hb Hd) as (y & Ey & Hy).
      exists (pr x y); rewrite mul_pr, Ex, Ey by assumption; split; [reflexivity|].
      apply pr_mem; assumption.
    - intros e He; apply pr_inv in He as (a & b & Ha & Hb & ->).
      destruct (n1 a Ha) as (x & Ex & Hx), (n2 b Hb) as (y & Ey & Hy).
      exists (pr x y); rewrite inv_pr, Ex, Ey; split; [reflexivity|].
      apply pr_mem; assumption.
    - intros e f g ef fg He Hf Hg.
      apply pr_inv in He as (a & b & Ha & Hb & ->).
      apply pr_inv in Hf as (c & d & Hc & Hd & ->).
      apply pr_inv in Hg as (k & m & Hk & Hm & ->).
      destruct (o1 a c Ha Hc) as (x & Ex & Hx), (o2 b d Hb Hd) as (y & Ey & Hy).
      destruct (o1 c k Hc Hk) as (z & Ez & Hz), (o2 d m Hd Hm) as (w & Ew & Hw).
      rewrite !mul_pr by assumption; rewrite Ex, Ey, Ez, Ew; cbn [bind].
      intros E1 E2; apply Ret_inj in E1; apply Ret_inj in E2; subst ef fg.
      rewrite !mul_pr by assumption.
      rewrite (a1 a c k x z Ha Hc Hk Ex Ez), (a2 b d m y w Hb Hd Hm Ey Ew); reflexivity.
    - intros e He; apply pr_inv in He as (a & b & Ha & Hb & ->).
      rewrite one_pr, mul_pr, l1, l2 by assumption; reflexivity.
    - intros e He; apply pr_inv in He as (a & b & Ha & Hb & ->).
      rewrite one_pr, mul_pr, r1, r2 by assumption; reflexivity.
    - intros e f He; apply pr_inv in He as (a & b & Ha & Hb & ->).
      destruct (n1 a Ha) as (x & Ex & Hx), (n2 b Hb) as (y & Ey & Hy).
      rewrite inv_pr, Ex, Ey; cbn [bind]; intros E; apply Ret_inj in E; subst f.
      rewrite mul_pr, (il1 a x Ha Ex), (il2 b y Hb Ey) by assumption; reflexivity.
    - intros e f He; apply pr_inv in He as (a & b & Ha & Hb & ->).
      destruct (n1 a Ha) as (x & Ex & Hx), (n2 b Hb) as (y & Ey & Hy).
      rewrite inv_pr, Ex, Ey; cbn [bind]; intros E; apply Ret_inj in E; subst f.
      rewrite mul_pr, (ir1 a x Ha Ex), (ir2 b y Hb Ey) by assumption; reflexivity.
  Qed.

  Theorem prod_elements_ok : forall l1 l2,
    g_elements G1 = Some l1 -> g_elements G2 = Some l2 ->
    enumerates (fun v => g_is G1 v = true) l1 ->
    enumerates (fun v => g_is G2 v = true) l2 ->
    exists l, prod_elements G1 G2 = Ret l /\ enumerates (el_mem P) l /\
      length l = (length l1 * length l2)%nat /\
      g_elements P = Some (map el_val l).
  Proof.
    intros l1 l2 E1 E2 [N1 M1] [N2 M2].
    exists (map (fun p => El (g_name P) p) (list_prod l1 l2)).
    split; [|split; [split|split]].
    - unfold prod_elements; rewrite E1, E2.
      apply mapM_Ret_map; intros [x y] Hp; apply in_prod_iff in Hp as [Hx Hy].
      apply M1 in Hx; apply M2 in Hy.
      rewrite pair_ok by (split; cbn; auto); reflexivity.
    - apply NoDup_map_inj_in; [|apply NoDup_list_prod; assumption].
      intros x y _ _ E; injection E; auto.
    - intros e; rewrite in_map_iff; split.
      + intros ([x y] & <- & Hp); apply in_prod_iff in Hp as [Hx Hy].
        apply M1 in Hx; apply M2 in Hy; split; [reflexivity|]; cbn; rewrite Hx, Hy; reflexivity.
      + intros He; apply pr_inv in He as (a & b & [_ Ha] & [_ Hb] & ->).
        exists (el_val a, el_val b); split; [reflexivity|].
        apply in_prod_iff; split; [apply M1|apply M2]; assumption.
    - rewrite map_length, prod_length; reflexivity.
    - cbn; rewrite E1, E2, <- list_prod_flat_map, map_map, map_id; reflexivity.
  Qed.

  Theorem prod_generators_ok :
    Forall (fun v => g_is G1 v = true) (g_gens G1) ->
    Forall (fun v => g_is G2 v = true) (g_gens G2) ->
    (forall x, el_mem G1 x -> generated (el_mul G1) (el_one G1) (map (El (g_name G1)) (g_gens G1)) x) ->
    (forall x, el_mem G2 x -> generated (el_mul G2) (el_one G2) (map (El (g_name G2)) (g_gens G2)) x) ->
    exists gens, prod_generators G1 G2 = Ret gens /\ Forall (el_mem P) gens /\
      forall x, el_mem P x -> generated (el_mul P) (el_one P) gens x.
  Proof.
    intros F1 F2 K1 K2; rewrite Forall_forall in F1, F2.
    destruct HG1 as [i1 o1 n1 a1 l1 r1 il1 ir1], HG2 as [i2 o2 n2 a2 l2 r2 il2 ir2].
    set (A := map (fun g => pr (El (g_name G1) g) (el_one G2)) (g_gens G1)).
    set (B := map (fun g => pr (el_one G1) (El (g_name G2) g)) (g_gens G2)).
    assert (M1 : forall g, In g (g_gens G1) -> el_mem G1 (El (g_name G1) g)) by (split; cbn; auto).
    assert (M2 : forall g, In g (g_gens G2) -> el_mem G2 (El (g_name G2) g)) by (split; cbn; auto).
    exists (A ++ B); split; [|split].
    - unfold prod_generators.
      rewrite (mapM_Ret_map _ _ _ (fun g => pr (El (g_name G1) g) (el_one G2)))
        by (intros g Hg; apply pair_ok; auto); cbn [bind].
      rewrite (mapM_Ret_map _ _ _ (fun g => pr (el_one G1) (El (g_name G2) g)))
        by (intros g Hg; apply pair_ok; auto); reflexivity.
    - apply Forall_forall; intros e He; apply in_app_or in He as [He|He];
        apply in_map_iff in He as (g & <- & Hg); apply pr_mem; auto.
    - intros x Hx; apply pr_inv in Hx as (a & b & Ha & Hb & ->).
      assert (Hb' : forall y, generated (el_mul G2) (el_one G2) (map (El (g_name G2)) (g_gens G2)) y ->
                 el_mem G2 y /\ generated (el_mul P) (el_one P) (A ++ B) (pr (el_one G1) y)).
      { intros y Hy; induction Hy as [|g x y Hg Hx [IHm IH] E]; [split; [exact i2|apply gen_id]|].
        apply in_map_iff in Hg as (g' & <- & Hg').
        assert (Hm : el_mem G2 y).
        { destruct (o2 _ _ (M2 _ Hg') IHm) as (z & Ez & Hz). rewrite E in Ez.
          apply Ret_inj in Ez; subst; exact Hz. }
        split; [exact Hm|].
        apply gen_mul with (g := pr (el_one G1) (El (g_name G2) g')) (x := pr (el_one G1) x).
        - apply in_or_app; right; apply in_map_iff; eauto.
        - exact IH.
        - rewrite mul_pr by auto; rewrite l1 by assumption; cbn [bind]; rewrite E; reflexivity. }
      destruct (Hb' b (K2 b Hb)) as [_ Hb''].
      assert (Ha' : forall y, generated (el_mul G1) (el_one G1) (map (El (g_name G1)) (g_gens G1)) y ->
                 el_mem G1 y /\ generated (el_mul P) (el_one P) (A ++ B) (pr y b)).
      { intros y Hy; induction Hy as [|g x y Hg Hx [IHm IH] E]; [split; [exact i1|exact Hb'']|].
        apply in_map_iff in Hg as (g' & <- & Hg').
        assert (Hm : el_mem G1 y).
        { destruct (o1 _ _ (M1 _ Hg') IHm) as (z & Ez & Hz). rewrite E in Ez.
          apply Ret_inj in Ez; subst; exact Hz. }
        split; [exact Hm|].
        apply gen_mul with (g := pr (El (g_name G1) g') (el_one G2)) (x := pr x b).
        - apply in_or_app; left; apply in_map_iff; eauto.
        - exact IH.
        - rewrite mul_pr by auto; rewrite E; cbn [bind]; rewrite l2 by assumption; reflexivity. }
      apply (proj2 (Ha' a (K1 a Ha))).
  Qed.

  (** Coordinate inclusions. *)
  Theorem inclusion1_ok : is_embedding (el_mem P) (el_mul P) (el_mem G1) (el_mul G1) (inclusion1 G1 G2).
  Proof.
    destruct HG2 as [i2 _ _ _ l2 _ _ _], HG1 as [_ o1 _ _ _ _ _ _]; unfold inclusion1; constructor.
    - intros a Ha; exists (pr a (el_one G2)); split; [apply pair_ok|apply pr_mem]; assumption.
    - intros a b Ha Hb; rewrite !pair_ok by assumption; intros E; apply Ret_inj in E.
      apply pr_inj in E as [E _]; assumption.
    - intros a b c x y Ha Hb E; destruct (o1 a b Ha Hb) as (c' & Ec & Hc).
      rewrite E in Ec; apply Ret_inj in Ec; subst c'.
      rewrite !pair_ok by assumption; intros Ex Ey; apply Ret_inj in Ex, Ey; subst x y.
      rewrite mul_pr, E by assumption; cbn [bind]; rewrite l2 by assumption; reflexivity.
  Qed.

  Theorem inclusion2_ok : is_embedding (el_mem P) (el_mul P) (el_mem G2) (el_mul G2) (inclusion2 G1 G2).
  Proof.
    destruct HG1 as [i1 _ _ _ l1 _ _ _], HG2 as [_ o2 _ _ _ _ _ _]; unfold inclusion2; constructor.
    - intros a Ha; exists (pr (el_one G1) a); split; [apply pair_ok|apply pr_mem]; assumption.
    - intros a b Ha Hb; rewrite !pair_ok by assumption; intros E; apply Ret_inj in E.
      apply pr_inj in E as [_ E]; assumption.
    - intros a b c x y Ha Hb E; destruct (o2 a b Ha Hb) as (c' & Ec & Hc).
      rewrite E in Ec; apply Ret_inj in Ec; subst c'.
      rewrite !pair_ok by assumption; intros Ex Ey; apply Ret_inj in Ex, Ey; subst x y.
      rewrite mul_pr, l1 by assumption; cbn [bind]; rewrite E; reflexivity.
  Qed.

  (** split_element is total on the product, inverts pair_elements and is a
      homomorphism in both coordinates. *)
  Theorem split_hom : forall e f ef, el_mem P e -> el_mem P f -> el_mul P e f = Ret ef ->
    exists a b c d ac bd,
      split_element G1 G2 e = Ret (a, b) /\ split_element G1 G2 f = Ret (c, d) /\
      el_mul G1 a c = Ret ac /\ el_mul G2 b d = Ret bd /\
      split_element G1 G2 ef = Ret (ac, bd).
  Proof.
    intros e f ef He Hf E; apply pr_inv in He as (a & b & Ha & Hb & ->).
    apply pr_inv in Hf as (c & d & Hc & Hd & ->).
    destruct (grp_op _ _ _ _ HG1 a c Ha Hc) as (x & Ex & Hx).
    destruct (grp_op _ _ _ _ HG2 b d Hb Hd) as (y & Ey & Hy).
    rewrite mul_pr, Ex, Ey in E by assumption; apply Ret_inj in E; subst ef.
    exists a, b, c, d, x, y; rewrite !split_ok by assumption; auto.
  Qed.

  Theorem pair_split : forall e, el_mem P e ->
    exists a b, split_element G1 G2 e = Ret (a, b) /\ el_mem G1 a /\ el_mem G2 b /\
      pair_elements G1 G2 a b = Ret e.
  Proof.
    intros e He; apply pr_inv in He as (a & b & Ha & Hb & ->).
    exists a, b; rewrite split_ok, pair_ok by assumption; auto.
  Qed.

  Theorem split_pair : forall a b, el_mem G1 a -> el_mem G2 b ->
    exists e, pair_elements G1 G2 a b = Ret e /\ el_mem P e /\ split_element G1 G2 e = Ret (a, b).
  Proof.
    intros a b Ha Hb; exists (pr a b); rewrite split_ok, pair_ok by assumption.
    split; [reflexivity|]; split; [apply pr_mem; assumption|reflexivity].
  Qed.
End ProdProofs.

(** ** Subgroups of products *)

Lemma restr_intro : forall T S (memG : T -> Prop) (memH : S -> Prop) incl restr,
  (forall g, memG g ->
     (exists h, restr g = Ret (Some h) /\ memH h /\ incl h = Ret g) \/
     (restr g = Ret None /\ forall h, memH h -> incl h <> Ret g)) ->
  (forall h1 h2, memH h1 -> memH h2 -> incl h1 = incl h2 -> h1 = h2) ->
  is_restriction memG memH incl restr.
Proof.
  intros T S memG memH incl restr H Hinj; constructor.
  - intros g Hg; destruct (H g Hg) as [(h & E & _)|[E _]]; eauto.
  - intros g h Hg; destruct (H g Hg) as [(h' & E & Hm & Ei)|[E Hn]]; rewrite E; split.
    + intros X; injection X as <-; auto.
    + intros [Hm' Ei']; do 2 f_equal; apply Hinj; auto; congruence.
    + discriminate.
    + intros [Hm Ei]; destruct (Hn h Hm Ei).
  - intros g Hg; destruct (H g Hg) as [(h' & E & Hm & Ei)|[E Hn]]; rewrite E; split.
    + discriminate.
    + intros X; destruct X; eauto.
    + intros _ (h & Hm & Ei); apply (Hn h Hm Ei).
    + reflexivity.
Qed.

Lemma restr_cases : forall T S (memG : T -> Prop) (memH : S -> Prop) incl restr,
  is_restriction memG memH incl restr -> forall g, memG g ->
     (exists h, restr g = Ret (Some h) /\ memH h /\ incl h = Ret g) \/
     (restr g = Ret None /\ forall h, memH h -> incl h <> Ret g).
Proof.
  intros T S memG memH incl restr [Ht Hs Hn] g Hg.
  destruct (Ht g Hg) as ([h|] & E).
  - left; exists h; split; [exact E|]; apply Hs; assumption.
  - right; split; [exact E|]; intros h Hm Ei; apply (proj1 (Hn g Hg) E); eauto.
Qed.

Section SubProofs.
  Context {V : Type} (G1 G2 : gobj V) (S1 S2 : sub V).
  Hypothesis HG1 : good_gobj G1.
  Hypothesis HG2 : good_gobj G2.
  Hypothesis HS1 : good_sub G1 S1.
  Hypothesis HS2 : good_sub G2 S2.
  Let P := prod_grp G1 G2.
  Let H1 := s_grp S1.
  Let H2 := s_grp S2.
  Let Q := prod_grp H1 H2.

  Lemma prod_incl_pr : forall a b x y, el_mem H1 a -> el_mem H2 b ->
    s_incl S1 a = Ret x -> s_incl S2 b = Ret y -> el_mem G1 x -> el_mem G2 y ->
    prod_inclusion G1 G2 H1 H2 (s_incl S1) (s_incl S2) (pr H1 H2 a b) = Ret (pr G1 G2 x y).
  Proof.
    intros a b x y Ha Hb Ex Ey Hx Hy; unfold prod_inclusion.
    rewrite split_ok by assumption; cbn [bind fst snd]; rewrite Ex, Ey; cbn [bind].
    apply (mkel_mem _ P (pr G1 G2 x y)), pr_mem; assumption.
  Qed.

  Theorem prod_inclusion_embedding :
    is_embedding (el_mem P) (el_mul P) (el_mem Q) (el_mul Q)
      (prod_inclusion G1 G2 H1 H2 (s_incl S1) (s_incl S2)).
  Proof.
    destruct HS1 as [[K1 _] [m1 i1 u1] _], HS2 as [[K2 _] [m2 i2 u2] _]; constructor.
    - intros e He; apply pr_inv in He as (a & b & Ha & Hb & ->).
      destruct (m1 a Ha) as (x & Ex & Hx), (m2 b Hb) as (y & Ey & Hy).
      exists (pr G1 G2 x y); split; [apply prod_incl_pr; assumption|apply pr_mem; assumption].
    - intros e f He Hf; apply pr_inv in He as (a & b & Ha & Hb & ->).
      apply pr_inv in Hf as (c & d & Hc & Hd & ->).
      destruct (m1 a Ha) as (x & Ex & Hx), (m2 b Hb) as (y & Ey & Hy).
      destruct (m1 c Hc) as (z & Ez & Hz), (m2 d Hd) as (w & Ew & Hw).
      rewrite (prod_incl_pr a b x y), (prod_incl_pr c d z w) by assumption.
      intros E; apply Ret_inj in E; apply pr_inj in E as [-> ->]; try assumption.
      rewrite (i1 a c), (i2 b d); auto; congruence.
    - intros e f ef p q He Hf; apply pr_inv in He as (a & b & Ha & Hb & ->).
      apply pr_inv in Hf as (c & d & Hc & Hd & ->).
      destruct (m1 a Ha) as (x & Ex & Hx), (m2 b Hb) as (y & Ey & Hy).
      destruct (m1 c Hc) as (z & Ez & Hz), (m2 d Hd) as (w & Ew & Hw).
      destruct (grp_op _ _ _ _ K1 a c Ha Hc) as (ac & Eac & Hac).
      destruct (grp_op _ _ _ _ K2 b d Hb Hd) as (bd & Ebd & Hbd).
      unfold Q; rewrite mul_pr by assumption; fold H1 in Eac; fold H2 in Ebd; rewrite Eac, Ebd; cbn [bind].
      intros E; apply Ret_inj in E; subst ef.
      rewrite (prod_incl_pr a b x y), (prod_incl_pr c d z w) by assumption.
      intros E1 E2; apply Ret_inj in E1, E2; subst p q.
      destruct (m1 ac Hac) as (s & Es & Hs), (m2 bd Hbd) as (t & Et & Ht).
      rewrite (prod_incl_pr ac bd s t) by assumption.
      unfold P; rewrite mul_pr by assumption.
      rewrite <- (u1 a c ac x z Ha Hc Eac Ex Ez), <- (u2 b d bd y w Hb Hd Ebd Ey Ew), Es, Et.
      reflexivity.
  Qed.

  (** What the code would compute with the two restriction maps in place. *)
  Theorem prod_restrict_good :
    is_restriction (el_mem P) (el_mem Q)
      (prod_inclusion G1 G2 H1 H2 (s_incl S1) (s_incl S2))
      (prod_restrict G1 G2 H1 H2 (s_restr S1) (s_restr S2)).
  Proof.
    pose proof prod_inclusion_embedding as Hemb.
    destruct HS1 as [[K1 _] [m1 i1 u1] R1], HS2 as [[K2 _] [m2 i2 u2] R2].
    apply restr_intro; [|apply (emb_inj _ _ _ _ _ Hemb)].
    intros g Hg; apply pr_inv in Hg as (a & b & Ha & Hb & ->).
    unfold prod_restrict; rewrite split_ok by assumption; cbn [bind fst snd].
    destruct (restr_cases _ _ _ _ _ _ R1 a Ha) as [(c & Ec & Hc & Ic)|[Ec Nc]];
      destruct (restr_cases _ _ _ _ _ _ R2 b Hb) as [(d & Ed & Hd & Id)|[Ed Nd]];
      rewrite Ec, Ed; cbn [bind].
    - left; exists (pr H1 H2 c d).
      change (el_val c, el_val d) with (el_val (pr H1 H2 c d)).
      rewrite (mkel_mem _ (prod_grp H1 H2) (pr H1 H2 c d)) by (apply pr_mem; assumption).
      split; [reflexivity|]; split; [apply pr_mem; assumption|].
      apply prod_incl_pr; assumption.
    - right; split; [reflexivity|]; intros h Hh; apply pr_inv in Hh as (x & y & Hx & Hy & ->).
      destruct (m1 x Hx) as (p & Ep & Hp), (m2 y Hy) as (q & Eq & Hq).
      rewrite (prod_incl_pr x y p q) by assumption; intros E; apply Ret_inj in E.
      apply pr_inj in E as [-> ->]; try assumption; apply (Nd y Hy Eq).
    - right; split; [reflexivity|]; intros h Hh; apply pr_inv in Hh as (x & y & Hx & Hy & ->).
      destruct (m1 x Hx) as (p & Ep & Hp), (m2 y Hy) as (q & Eq & Hq).
      rewrite (prod_incl_pr x y p q) by assumption; intros E; apply Ret_inj in E.
      apply pr_inj in E as [-> ->]; try assumption; apply (Nc x Hx Ep).
    - right; split; [reflexivity|]; intros h Hh; apply pr_inv in Hh as (x & y & Hx & Hy & ->).
      destruct (m1 x Hx) as (p & Ep & Hp), (m2 y Hy) as (q & Eq & Hq).
      rewrite (prod_incl_pr x y p q) by assumption; intros E; apply Ret_inj in E.
      apply pr_inj in E as [-> ->]; try assumption; apply (Nc x Hx Ep).
  Qed.

  Lemma incl_left_pr : forall a x, el_mem H1 a -> s_incl S1 a = Ret x -> el_mem G1 x ->
    inclusion_left G1 G2 H1 (s_incl S1) a = Ret (pr G1 G2 x (el_one G2)).
  Proof.
    intros a x Ha Ex Hx; unfold inclusion_left; rewrite (proj1 Ha), gname_eqb_refl.
    cbn [assert_ bind]; rewrite Ex; cbn [bind].
    apply (mkel_mem _ P (pr G1 G2 x (el_one G2))), pr_mem; [assumption|].
    apply (grp_id _ _ _ _ (gg_group _ HG2)).
  Qed.

  Lemma incl_right_pr : forall b y, el_mem H2 b -> s_incl S2 b = Ret y -> el_mem G2 y ->
    inclusion_right G1 G2 H2 (s_incl S2) b = Ret (pr G1 G2 (el_one G1) y).
  Proof.
    intros a x Ha Ex Hx; unfold inclusion_right; rewrite (proj1 Ha), gname_eqb_refl.
    cbn [assert_ bind]; rewrite Ex; cbn [bind].
    apply (mkel_mem _ P (pr G1 G2 (el_one G1) x)), pr_mem; [|assumption].
    apply (grp_id _ _ _ _ (gg_group _ HG1)).
  Qed.

  Theorem left_good :
    is_embedding (el_mem P) (el_mul P) (el_mem H1) (el_mul H1)
      (inclusion_left G1 G2 H1 (s_incl S1)) /\
    is_restriction (el_mem P) (el_mem H1) (inclusion_left G1 G2 H1 (s_incl S1))
      (restrict_left G1 G2 (s_restr S1)).
  Proof.
    destruct HS1 as [[K1 _] [m1 i1 u1] R1].
    pose proof (gg_group _ HG2) as K2; pose proof (grp_id _ _ _ _ K2) as I2.
    assert (E : is_embedding (el_mem P) (el_mul P) (el_mem H1) (el_mul H1)
      (inclusion_left G1 G2 H1 (s_incl S1))).
    { constructor.
      - intros a Ha; destruct (m1 a Ha) as (x & Ex & Hx).
        exists (pr G1 G2 x (el_one G2)); split; [apply incl_left_pr; assumption|].
        apply pr_mem; assumption.
      - intros a b Ha Hb; destruct (m1 a Ha) as (x & Ex & Hx), (m1 b Hb) as (y & Ey & Hy).
        rewrite (incl_left_pr a x), (incl_left_pr b y) by assumption.
        intros E; apply Ret_inj in E; apply pr_inj in E as [-> _]; try assumption.
        apply i1; try assumption; congruence.
      - intros a b ab p q Ha Hb Eab.
        destruct (m1 a Ha) as (x & Ex & Hx), (m1 b Hb) as (y & Ey & Hy).
        rewrite (incl_left_pr a x), (incl_left_pr b y) by assumption.
        intros E1 E2; apply Ret_inj in E1, E2; subst p q.
        destruct (grp_op _ _ _ _ K1 a b Ha Hb) as (ab' & Eab' & Hab).
        unfold H1 in Eab; rewrite Eab in Eab'; apply Ret_inj in Eab'; subst ab'.
        destruct (m1 ab Hab) as (z & Ez & Hz).
        rewrite (incl_left_pr ab z) by assumption; unfold P; rewrite mul_pr by assumption.
        rewrite <- (u1 a b ab x y Ha Hb Eab Ex Ey), Ez; cbn [bind].
        rewrite (grp_id_l _ _ _ _ K2) by assumption; reflexivity. }
    split; [exact E|]; apply restr_intro; [|apply (emb_inj _ _ _ _ _ E)].
    intros g Hg; apply pr_inv in Hg as (a & b & Ha & Hb & ->).
    unfold restrict_left; rewrite split_ok by assumption; cbn [bind fst snd].
    destruct (el_eq G2 b (el_one G2)) eqn:Eb; cbn [negb].
    - apply (gg_eq _ HG2) in Eb; [subst b|assumption|assumption].
      destruct (restr_cases _ _ _ _ _ _ R1 a Ha) as [(c & Ec & Hc & Ic)|[Ec Nc]].
      + left; exists c; split; [exact Ec|]; split; [exact Hc|]; apply incl_left_pr; assumption.
      + right; split; [exact Ec|]; intros h Hh; destruct (m1 h Hh) as (x & Ex & Hx).
        rewrite (incl_left_pr h x) by assumption; intros X; apply Ret_inj in X.
        apply pr_inj in X as [-> _]; try assumption; apply (Nc h Hh Ex).
    - right; split; [reflexivity|]; intros h Hh; destruct (m1 h Hh) as (x & Ex & Hx).
      rewrite (incl_left_pr h x) by assumption; intros X; apply Ret_inj in X.
      apply pr_inj in X as [_ X]; try assumption.
      assert (Y : el_eq G2 b (el_one G2) = true) by (apply (gg_eq _ HG2); auto).
      congruence.
  Qed.

  Theorem right_good :
    is_embedding (el_mem P) (el_mul P) (el_mem H2) (el_mul H2)
      (inclusion_right G1 G2 H2 (s_incl S2)) /\
    is_restriction (el_mem P) (el_mem H2) (inclusion_right G1 G2 H2 (s_incl S2))
      (restrict_right G1 G2 (s_restr S2)).
  Proof.
    destruct HS2 as [[K2 _] [m2 i2 u2] R2].
    pose proof (gg_group _ HG1) as K1; pose proof (grp_id _ _ _ _ K1) as I1.
    assert (E : is_embedding (el_mem P) (el_mul P) (el_mem H2) (el_mul H2)
      (inclusion_right G1 G2 H2 (s_incl S2))).
    { constructor.
      - intros a Ha; destruct (m2 a Ha) as (x & Ex & Hx).
        exists (pr G1 G2 (el_one G1) x); split; [apply incl_right_pr; assumption|].
        apply pr_mem; assumption.
      - intros a b Ha Hb; destruct (m2 a Ha) as (x & Ex & Hx), (m2 b Hb) as (y & Ey & Hy).
        rewrite (incl_right_pr a x), (incl_right_pr b y) by assumption.
        intros E; apply Ret_inj in E; apply pr_inj in E as [_ ->]; try assumption.
        apply i2; try assumption; congruence.
      - intros a b ab p q Ha Hb Eab.
        destruct (m2 a Ha) as (x & Ex & Hx), (m2 b Hb) as (y & Ey & Hy).
        rewrite (incl_right_pr a x), (incl_right_pr b y) by assumption.
        intros E1 E2; apply Ret_inj in E1, E2; subst p q.
        destruct (grp_op _ _ _ _ K2 a b Ha Hb) as (ab' & Eab' & Hab).
        unfold H2 in Eab; rewrite Eab in Eab'; apply Ret_inj in Eab'; subst ab'.
        destruct (m2 ab Hab) as (z & Ez & Hz).
        rewrite (incl_right_pr ab z) by assumption; unfold P; rewrite mul_pr by assumption.
        rewrite (grp_id_l _ _ _ _ K1) by assumption; cbn [bind].
        rewrite <- (u2 a b ab x y Ha Hb Eab Ex Ey), Ez; reflexivity. }
    split; [exact E|]; apply restr_intro; [|apply (emb_inj _ _ _ _ _ E)].
    intros g Hg; apply pr_inv in Hg as (a & b & Ha & Hb & ->).
    unfold restrict_right; rewrite split_ok by assumption; cbn [bind fst snd].
    destruct (el_eq G1 a (el_one G1)) eqn:Eb; cbn [negb].
    - apply (gg_eq _ HG1) in Eb; [subst a|assumption|assumption].
      destruct (restr_cases _ _ _ _ _ _ R2 b Hb) as [(c & Ec & Hc & Ic)|[Ec Nc]].
      + left; exists c; split; [exact Ec|]; split; [exact Hc|]; apply incl_right_pr; assumption.
      + right; split; [exact Ec|]; intros h Hh; destruct (m2 h Hh) as (x & Ex & Hx).
        rewrite (incl_right_pr h x) by assumption; intros X; apply Ret_inj in X.
        apply pr_inj in X as [_ ->]; try assumption; apply (Nc h Hh Ex).
    - right; split; [reflexivity|]; intros h Hh; destruct (m2 h Hh) as (x & Ex & Hx).
      rewrite (incl_right_pr h x) by assumption; intros X; apply Ret_inj in X.
      apply pr_inj in X as [X _]; try assumption.
      assert (Y : el_eq G1 a (el_one G1) = true) by (apply (gg_eq _ HG1); auto).
      congruence.
  Qed.

  (** The defect: line 492 applies the second restriction to both coordinates. *)
  Theorem prod_restrict_raises :
    g_order H1 <> 1%Z -> g_order H2 <> 1%Z ->
    g_name G1 <> g_name G2 ->
    (forall e, el_grp e <> g_name G2 -> s_restr S2 e = Raise) ->
    exists H incl restr, prod_subgroup G1 G2 S1 S2 = SubProd H incl restr /\
      forall e, el_mem P e -> restr e = Raise.
  Proof.
    intros O1 O2 Hne Hr; unfold prod_subgroup; fold H1 H2.
    apply Z.eqb_neq in O1, O2; rewrite O1, O2; do 3 eexists; split; [reflexivity|].
    intros e He; apply pr_inv in He as (a & b & Ha & Hb & ->).
    unfold prod_restrict; rewrite split_ok by assumption; cbn [bind fst snd].
    rewrite Hr; [reflexivity|]; rewrite (proj1 Ha); exact Hne.
  Qed.
End SubProofs.

Theorem double_good : forall V (G : gobj V) (HG : good_gobj G),
  is_embedding (el_mem (prod_grp G G)) (el_mul (prod_grp G G)) (el_mem G) (el_mul G)
    (diag_inclusion G) /\
  is_restriction (el_mem (prod_grp G G)) (el_mem G) (diag_inclusion G) (diag_restriction G).
Proof.
  intros V G HG; pose proof (gg_group _ HG) as K.
  assert (D : forall a, el_mem G a -> diag_inclusion G a = Ret (pr G G a a)).
  { intros a Ha; unfold diag_inclusion; rewrite (proj1 Ha), gname_eqb_refl; cbn [assert_ bind].
    apply (mkel_mem _ (prod_grp G G) (pr G G a a)), pr_mem; assumption. }
  assert (E : is_embedding (el_mem (prod_grp G G)) (el_mul (prod_grp G G)) (el_mem G) (el_mul G)
    (diag_inclusion G)).
  { constructor.
    - intros a Ha; exists (pr G G a a); split; [apply D, Ha|apply pr_mem; assumption].
    - intros a b Ha Hb; rewrite !D by assumption; intros E; apply Ret_inj in E.
      apply pr_inj in E as [E _]; assumption.
    - intros a b ab x y Ha Hb Eab; rewrite !D by assumption.
      intros E1 E2; apply Ret_inj in E1, E2; subst x y.
      destruct (grp_op _ _ _ _ K a b Ha Hb) as (ab' & Eab' & Hab).
      rewrite Eab in Eab'; apply Ret_inj in Eab'; subst ab'.
      rewrite D, mul_pr, Eab by assumption; reflexivity. }
  split; [exact E|]; apply restr_intro; [|apply (emb_inj _ _ _ _ _ E)].
  intros g Hg; apply pr_inv in Hg as (a & b & Ha & Hb & ->).
  unfold diag_restriction; rewrite split_ok by assumption; cbn [bind fst snd].
  destruct (el_eq G a b) eqn:Eb.
  - apply (gg_eq _ HG) in Eb; [subst b|assumption|assumption].
    left; exists a; split; [reflexivity|]; split; [assumption|apply D; assumption].
  - right; split; [reflexivity|]; intros h Hh; rewrite D by assumption.
    intros X; apply Ret_inj in X; apply pr_inj in X as [-> ->]; try assumption.
    assert (Y : el_eq G b b = true) by (apply (gg_eq _ HG); auto); congruence.
Qed.

(** Same factor and same id on both sides: the code is right. *)
Theorem prod_restrict_same : forall V (G : gobj V) (S : sub V),
  good_gobj G -> good_sub G S -> g_order (s_grp S) <> 1%Z ->
  exists H incl restr, prod_subgroup G G S S = SubProd H incl restr /\
    is_embedding (el_mem (prod_grp G G)) (el_mul (prod_grp G G)) (el_mem H) (el_mul H) incl /\
    is_restriction (el_mem (prod_grp G G)) (el_mem H) incl restr.
Proof.
  intros V G S HG HS O; unfold prod_subgroup; apply Z.eqb_neq in O; rewrite O.
  do 3 eexists; split; [reflexivity|]; split.
  - apply prod_inclusion_embedding; assumption.
  - apply prod_restrict_good; assumption.
Qed.

(** ** C_N and D_N are instances *)

Lemma fin_el_mem : forall G e, el_mem (fin_obj G) e <-> el_grp e = NFin G /\ member G (el_val e).
Proof. intros G e; unfold el_mem; cbn; rewrite is_element_member; reflexivity. Qed.

Lemma fin_mul : forall G a b, member G a -> member G b ->
  el_mul (fin_obj G) (El (NFin G) a) (El (NFin G) b) =
  (v <- gmul G a b ;; Ret (El (NFin G) v)).
Proof.
  intros G a b Ha Hb; rewrite el_mul_eq by (apply fin_el_mem; cbn; auto).
  unfold gmul, mkel, element; cbn [el_val fin_obj g_comb g_is g_name].
  destruct (combine G a b) as [|v]; cbn [bind]; [reflexivity|].
  destruct (is_element G v); reflexivity.
Qed.

Lemma fin_inv : forall G a, el_inv (fin_obj G) (El (NFin G) a) =
  (v <- ginv G a ;; Ret (El (NFin G) v)).
Proof.
  intros G a; unfold el_inv, ginv, mkel, element; cbn [el_val fin_obj g_inv g_is g_name].
  destruct (inverse G a) as [|v]; cbn [bind]; [reflexivity|].
  destruct (is_element G v); reflexivity.
Qed.

Lemma val_eqb_eq : forall a b, val_eqb a b = true <-> a = b.
Proof.
  intros [x|f x] [y|g y]; cbn; try (split; discriminate).
  - rewrite Z.eqb_eq; split; congruence.
  - rewrite andb_true_iff, !Z.eqb_eq; split; [intros [-> ->]; reflexivity|].
    intros E; injection E; auto.
Qed.

Theorem fin_good : forall G, valid_grp G = true -> good_gobj (fin_obj G).
Proof.
  intros G HG; pose proof (any_is_group G HG) as [i o n a l r il ir]; split.
  - assert (inv : forall e, el_mem (fin_obj G) e -> exists v, e = El (NFin G) v /\ member G v).
    { intros [m v] H; apply fin_el_mem in H as [E H]; cbn in *; subst; eauto. }
    assert (mk : forall v, member G v -> el_mem (fin_obj G) (El (NFin G) v))
      by (intros; apply fin_el_mem; auto).
    constructor.
    + apply mk, i.
    + intros x y Hx Hy; apply inv in Hx as (v & -> & Hv); apply inv in Hy as (w & -> & Hw).
      rewrite fin_mul by assumption; destruct (o v w Hv Hw) as (c & Ec & Hc); rewrite Ec.
      eexists; split; [reflexivity|apply mk, Hc].
    + intros x Hx; apply inv in Hx as (v & -> & Hv); rewrite fin_inv.
      destruct (n v Hv) as (c & Ec & Hc); rewrite Ec.
      eexists; split; [reflexivity|apply mk, Hc].
    + intros x y z xy yz Hx Hy Hz; apply inv in Hx as (u & -> & Hu).
      apply inv in Hy as (v & -> & Hv); apply inv in Hz as (w & -> & Hw).
      rewrite !fin_mul by assumption.
      destruct (o u v Hu Hv) as (c & Ec & Hc), (o v w Hv Hw) as (d & Ed & Hd).
      rewrite Ec, Ed; cbn [bind]; intros E1 E2; apply Ret_inj in E1, E2; subst xy yz.
      rewrite !fin_mul by assumption; rewrite (a u v w c d); auto.
    + intros x Hx; apply inv in Hx as (v & -> & Hv).
      unfold el_one; cbn [fin_obj g_name g_one]; rewrite fin_mul, l by assumption; reflexivity.
    + intros x Hx; apply inv in Hx as (v & -> & Hv).
      unfold el_one; cbn [fin_obj g_name g_one]; rewrite fin_mul, r by assumption; reflexivity.
    + intros x y Hx; apply inv in Hx as (v & -> & Hv); rewrite fin_inv.
      destruct (n v Hv) as (c & Ec & Hc); rewrite Ec; intros E; apply Ret_inj in E; subst y.
      rewrite fin_mul, (il v c) by assumption; reflexivity.
    + intros x y Hx; apply inv in Hx as (v & -> & Hv); rewrite fin_inv.
      destruct (n v Hv) as (c & Ec & Hc); rewrite Ec; intros E; apply Ret_inj in E; subst y.
      rewrite fin_mul, (ir v c) by assumption; reflexivity.
  - intros x y [Hx _] [Hy _]; unfold el_eq; rewrite Hx, Hy, gname_eqb_refl; cbn [andb fin_obj g_eq].
    rewrite val_eqb_eq, (el_eta _ x), (el_eta _ y), Hx, Hy; cbn; split; congruence.
Qed.

Theorem fin_sub_good : forall G id, valid_grp G = true -> documented G id ->
  exists S, fin_sub G id = Ret S /\ s_grp S = fin_obj (subgroup_type id) /\
    good_sub (fin_obj G) S.
Proof.
  intros G id HG HD; destruct (documented_accepted G id HG HD) as (sg & Hsg).
  unfold fin_sub; rewrite Hsg; cbn [bind]; eexists; split; [reflexivity|].
  pose proof (subgroup_type_ok G id sg HD Hsg) as Ht; cbn [s_grp].
  rewrite Ht; split; [reflexivity|].
  destruct (subgroup_good G id sg HG HD Hsg) as (HV & [m i u] & HR).
  rewrite Ht in HV, m, i, u, HR.
  assert (I : forall h, fin_incl G id (El (NFin (subgroup_type id)) h) =
                        (v <- sg_incl sg h ;; Ret (El (NFin G) v))).
  { clear - HD Hsg Ht; intros h; unfold fin_incl.
    destruct G as [N|N], id as [M|[a|] M]; cbn [documented] in HD; try contradiction;
      cbn [subgroup_type el_grp el_val]; cbn [subgroup] in Hsg; rewrite !assert_Ret in Hsg.
    - destruct Hsg as (_ & _ & E); injection E as <-; reflexivity.
    - destruct Hsg as (_ & _ & _ & E); destruct (M =? 1)%Z; injection E as <-; reflexivity.
    - destruct Hsg as (_ & _ & _ & E); injection E as <-; reflexivity. }
  assert (R : forall g, fin_restr G id (El (NFin G) g) =
                (o <- sg_restr sg g ;; Ret (match o with
                   | Some v => Some (El (NFin (subgroup_type id)) v) | None => None end))).
  { clear - HD Hsg Ht; intros g; unfold fin_restr; rewrite Hsg, <- Ht; cbn [bind].
    destruct G as [N|N], id as [M|[a|] M]; cbn [documented] in HD; try contradiction;
      cbn [subgroup_type el_grp el_val]; cbn [subgroup] in Hsg; rewrite !assert_Ret in Hsg.
    - rewrite gname_eqb_refl; cbn [assert_ bind].
      destruct Hsg as (_ & _ & E); injection E as <-; reflexivity.
    - destruct Hsg as (_ & _ & _ & E); destruct (M =? 1)%Z; injection E as <-; reflexivity.
    - destruct Hsg as (_ & _ & _ & E); injection E as <-; reflexivity. }
  assert (inv : forall G e, el_mem (fin_obj G) e -> exists v, e = El (NFin G) v /\ member G v).
  { intros G' [n v] H; apply fin_el_mem in H as [E H]; cbn in *; subst; eauto. }
  assert (Emb : is_embedding (el_mem (fin_obj G)) (el_mul (fin_obj G))
     (el_mem (fin_obj (subgroup_type id))) (el_mul (fin_obj (subgroup_type id))) (fin_incl G id)).
  { constructor.
    - intros h Hh; apply inv in Hh as (v & -> & Hv); rewrite I.
      destruct (m v Hv) as (w & Ew & Hw); rewrite Ew; eexists; split; [reflexivity|].
      apply fin_el_mem; auto.
    - intros h k Hh Hk; apply inv in Hh as (v & -> & Hv); apply inv in Hk as (w & -> & Hw).
      rewrite !I; destruct (m v Hv) as (x & Ex & _), (m w Hw) as (y & Ey & _); rewrite Ex, Ey.
      cbn [bind]; intros E; injection E as ->; f_equal; apply i; congruence.
    - intros h k hk x y Hh Hk; apply inv in Hh as (v & -> & Hv); apply inv in Hk as (w & -> & Hw).
      rewrite fin_mul by assumption; rewrite !I.
      destruct (m v Hv) as (p & Ep & Hp), (m w Hw) as (q & Eq & Hq); rewrite Ep, Eq; cbn [bind].
      destruct (grp_op _ _ _ _ (any_is_group _ HV) v w Hv Hw) as (vw & Evw & Hvw).
      rewrite Evw; cbn [bind]; intros E Ex Ey; apply Ret_inj in E, Ex, Ey; subst hk x y.
      rewrite I, fin_mul, (u v w vw p q) by assumption; reflexivity. }
  constructor; cbn [s_grp s_incl s_restr].
  - apply fin_good, HV.
  - exact Emb.
  - apply restr_intro; [|apply (emb_inj _ _ _ _ _ Emb)].
    intros g Hg; apply inv in Hg as (v & -> & Hvm); rewrite R.
    destruct (restr_cases _ _ _ _ _ _ HR v Hvm) as [(h & Eh & Hh & Ih)|[Eh Nh]]; rewrite Eh; cbn [bind].
    + left; eexists; split; [reflexivity|]; split; [apply fin_el_mem; auto|].
      rewrite I, Ih; reflexivity.
    + right; split; [reflexivity|]; intros k Hk; apply inv in Hk as (w & -> & Hw); rewrite I.
      destruct (m w Hw) as (x & Ex & _); rewrite Ex; cbn [bind]; intros E; injection E as ->.
      apply (Nh w Hw Ex).
Qed.

(** ** The statements used by the property file *)

Lemma prod_pairing : forall {V1 V2} (G1 : gobj V1) (G2 : gobj V2),
  is_group (el_mem G1) (el_mul G1) (el_inv G1) (el_one G1) ->
  is_group (el_mem G2) (el_mul G2) (el_inv G2) (el_one G2) ->
  let P := prod_grp G1 G2 in
  is_embedding (el_mem P) (el_mul P) (el_mem G1) (el_mul G1) (inclusion1 G1 G2) /\
  is_embedding (el_mem P) (el_mul P) (el_mem G2) (el_mul G2) (inclusion2 G1 G2) /\
  (forall a b, el_mem G1 a -> el_mem G2 b -> exists e,
     pair_elements G1 G2 a b = Ret e /\ el_mem P e /\ split_element G1 G2 e = Ret (a, b)) /\
  (forall e, el_mem P e -> exists a b,
     split_element G1 G2 e = Ret (a, b) /\ el_mem G1 a /\ el_mem G2 b /\
     pair_elements G1 G2 a b = Ret e) /\
  (forall e f ef, el_mem P e -> el_mem P f -> el_mul P e f = Ret ef ->
     exists a b c d ac bd,
       split_element G1 G2 e = Ret (a, b) /\ split_element G1 G2 f = Ret (c, d) /\
       el_mul G1 a c = Ret ac /\ el_mul G2 b d = Ret bd /\
       split_element G1 G2 ef = Ret (ac, bd)).
Proof.
  intros V1 V2 G1 G2 K1 K2 P; split; [apply inclusion1_ok; assumption|].
  split; [apply inclusion2_ok; assumption|]; split; [intros; apply split_pair; assumption|].
  split; [intros; apply pair_split; assumption|intros; apply split_hom; assumption].
Qed.

Lemma fin_instances : forall G,
  match G with Cyc N => (0 < N)%Z | Dih N => (0 < N)%Z end ->
  is_group (el_mem (fin_obj G)) (el_mul (fin_obj G)) (el_inv (fin_obj G)) (el_one (fin_obj G)) /\
  (exists l, g_elements (fin_obj G) = Some l /\ enumerates (fun v => g_is (fin_obj G) v = true) l) /\
  Forall (fun v => g_is (fin_obj G) v = true) (g_gens (fin_obj G)) /\
  forall x, el_mem (fin_obj G) x ->
    generated (el_mul (fin_obj G)) (el_one (fin_obj G)) (map (El (NFin G)) (g_gens (fin_obj G))) x.
Proof.
  intros G HG; assert (V : valid_grp G = true) by (destruct G; apply Z.ltb_lt; exact HG).
  split; [apply gg_group, fin_good, V|].
  destruct (elements_enumerate G V) as (l & El_ & [Nd Hin] & _).
  destruct (generators_generate G V) as (gens & Eg & Fg & Hg).
  split; [|split].
  - exists l; cbn; rewrite El_; split; [reflexivity|]; split; [exact Nd|].
    intros x; rewrite Hin, is_element_member; reflexivity.
  - cbn; rewrite Eg; eapply Forall_impl; [|exact Fg]; intros v; apply is_element_member.
  - intros x Hx; apply fin_el_mem in Hx as [E Hx]; rewrite (el_eta _ x), E.
    specialize (Hg _ Hx); cbn [fin_obj g_gens]; rewrite Eg.
    rewrite Forall_forall in Fg.
    assert (Gm : forall y, generated (gmul G) (gid G) gens y -> member G y /\
       generated (el_mul (fin_obj G)) (el_one (fin_obj G)) (map (El (NFin G)) gens) (El (NFin G) y)).
    { pose proof (any_is_group G V) as K.
      intros y Hy; induction Hy as [|g u v Hgin _ [IHm IH] Ev].
      - split; [apply (grp_id _ _ _ _ K)|apply gen_id].
      - split.
        + destruct (grp_op _ _ _ _ K g u (Fg _ Hgin) IHm) as (w & Ew & Hw).
          rewrite Ev in Ew; apply Ret_inj in Ew; subst; exact Hw.
        + apply gen_mul with (g := El (NFin G) g) (x := El (NFin G) u).
          * apply in_map, Hgin.
          * exact IH.
          * rewrite fin_mul, Ev by auto; reflexivity. }
    apply Gm, Hg.
Qed.

Lemma fin_sub_instances : forall G id,
  match G with Cyc N => (0 < N)%Z | Dih N => (0 < N)%Z end -> documented G id ->
  good_gobj (fin_obj G) /\
  exists S, fin_sub G id = Ret S /\ s_grp S = fin_obj (subgroup_type id) /\
    good_sub (fin_obj G) S.
Proof.
  intros G id HG HD; assert (V : valid_grp G = true) by (destruct G; apply Z.ltb_lt; exact HG).
  split; [apply fin_good, V|apply fin_sub_good; assumption].
Qed.

Lemma prod_sub_one : forall V (G1 G2 : gobj V) (S1 S2 : sub V),
  good_gobj G1 -> good_gobj G2 -> good_sub G1 S1 -> good_sub G2 S2 ->
  g_order (s_grp S1) = 1%Z \/ g_order (s_grp S2) = 1%Z ->
  exists H incl restr, prod_subgroup G1 G2 S1 S2 = SubOne H incl restr /\
    is_embedding (el_mem (prod_grp G1 G2)) (el_mul (prod_grp G1 G2)) (el_mem H) (el_mul H) incl /\
    is_restriction (el_mem (prod_grp G1 G2)) (el_mem H) incl restr.
Proof.
  intros V G1 G2 S1 S2 HG1 HG2 HS1 HS2 HO; unfold prod_subgroup.
  destruct (g_order (s_grp S1) =? 1)%Z eqn:O1.
  - do 3 eexists; split; [reflexivity|]; apply right_good; assumption.
  - destruct HO as [HO|HO]; [apply Z.eqb_neq in O1; contradiction|].
    apply Z.eqb_eq in HO; rewrite HO.
    do 3 eexists; split; [reflexivity|]; apply left_good; assumption.
Qed.

Lemma c08_witness : exists S1 S2,
  fin_sub (Cyc 4) (IdC 2) = Ret S1 /\ fin_sub (Cyc 6) (IdC 3) = Ret S2 /\
  g_order (s_grp S1) = 2%Z /\ g_order (s_grp S2) = 3%Z /\
  forall e, el_grp e <> NFin (Cyc 6) -> s_restr S2 e = Raise.
Proof.
  do 2 eexists; split; [reflexivity|]; split; [reflexivity|].
  do 2 (split; [reflexivity|]); intros [n v] H; cbn [el_grp] in H.
  cbn [s_restr fin_restr el_grp].
  destruct (gname_eqb n (NFin (Cyc 6))) eqn:E; [apply gname_eqb_eq in E; contradiction|].
  unfold fin_restr; cbn [el_grp]; rewrite E; reflexivity.
Qed.

Lemma c08_wrong_element : exists S1 S2 H incl restr e1 e2 h,
  fin_sub (Cyc 4) (IdC 4) = Ret S1 /\ fin_sub (Cyc 4) (IdC 2) = Ret S2 /\
  prod_subgroup (fin_obj (Cyc 4)) (fin_obj (Cyc 4)) S1 S2 = SubProd H incl restr /\
  restr e1 = Ret (Some h) /\ incl h <> Ret e1 /\
  restr e2 = Ret None /\ exists k, el_mem H k /\ incl k = Ret e2.
Proof.
  pose (n := NProd (NFin (Cyc 4)) (NFin (Cyc 4))); pose (m := NProd (NFin (Cyc 4)) (NFin (Cyc 2))).
  do 5 eexists; exists (El n (VC 2, VC 0)%Z), (El n (VC 1, VC 0)%Z), (El m (VC 1, VC 0)%Z).
  split; [reflexivity|]; split; [reflexivity|]; split; [reflexivity|].
  split; [vm_compute; reflexivity|]; split; [vm_compute; discriminate|].
  split; [vm_compute; reflexivity|]; exists (El m (VC 1, VC 0)%Z).
  split; [split; vm_compute; reflexivity|vm_compute; reflexivity].
Qed.
