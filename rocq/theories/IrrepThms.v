(** Statements about irreps assembled from [p_irrep_kind]. *)
From Coq Require Import Reals ZArith Bool List Lia Lra Setoid Morphisms.
From Verif Require Import LibRes LibList LibMat LibTrig SpecGroup FinGroupModel SpecFinGroup FinGroupProofs
  ParamModel ParamProofs PlanarModel SpecPlanar PlanarProofs IrrepModel SpecRep SpecIrrep IrrepProofs
  RestrictThms ExhaustProofs.
Import ListNotations.
Open Scope R_scope.

Theorem irrep_is_rep : forall G id, pvalid G -> irrep_ok G id ->
  exists r, p_irrep G id = Ret r /\ ir_id r = id /\
    orth_rep (pmember G) (pmul G) (pinv G) (pid G) (ir_size r) (ir_rep r) /\
    is_character (pmember G) (ir_size r) (ir_rep r) (ir_char r).
Proof.
  intros G id HG Hid; destruct (p_irrep_kind G id HG Hid) as (r & E & A).
  exists r; split; [exact E|split; [apply A|]]; exact (kind_orth_rep G id r _ HG A).
Qed.

Theorem irrep_mod_2pi : forall id r t u, same_angle t u ->
  (p_irrep SO2 id = Ret r ->
     ir_rep r (VS t) = ir_rep r (VS u) /\ ir_char r (VS t) = ir_char r (VS u)) /\
  (p_irrep O2 id = Ret r -> forall f,
     ir_rep r (VO f t) = ir_rep r (VO f u) /\ ir_char r (VO f t) = ir_char r (VO f u)).
Proof.
  intros id r t u S; split; intros E; destruct id as [|j [|k [|]]]; cbn [p_irrep] in E; try discriminate E.
  - assert (N : to_radians1 SO2 (VS t) = to_radians1 SO2 (VS u)).
    { unfold to_radians1; rewrite !so2_norm_eq, (m_eq t u S); reflexivity. }
    unfold so2_irrep in E; apply assert_Ret in E as [_ E]; destruct (j =? 0)%Z; apply Ret_inj in E; subst r;
      cbn [ir_rep ir_char]; unfold build_irrep_so2, build_char_so2; rewrite N; split; reflexivity.
  - intros f; assert (N : to_radians2 O2 (VO f t) = to_radians2 O2 (VO f u)).
    { unfold to_radians2; rewrite !o2_norm_eq, (m_eq t u S); reflexivity. }
    unfold o2_irrep in E; apply assert_Ret in E as [_ E]; apply assert_Ret in E as [_ E].
    destruct (j =? 0)%Z; [|]; destruct (k =? 0)%Z; try discriminate E; apply Ret_inj in E; subst r;
      cbn [ir_rep ir_char]; unfold build_irrep_o2, build_char_o2; rewrite N; split; reflexivity.
Qed.

(** ** band-limited ids *)

Theorem bl_irreps_exact : forall G L, pvalid G ->
  (bl_range G L -> exists l, bl_irreps G L = Ret l /\ NoDup l /\
    forall id, In id l <-> (exists r, p_irrep G id = Ret r /\ (ir_freq r <= L)%Z)) /\
  (~ bl_range G L -> bl_irreps G L = Raise).
Proof.
  intros G L HG.
  assert (Freq : forall id, (exists r, p_irrep G id = Ret r /\ (ir_freq r <= L)%Z) <->
    irrep_ok G id /\ (match irrep_kind G id with K1 _ k => k | K2 k => k end <= L)%Z).
  { intros id; split.
    - intros (r & E & H); assert (O : irrep_ok G id) by (apply p_irrep_accepts; eauto).
      split; [exact O|]; destruct (p_irrep_kind G id HG O) as (r' & E' & _ & _ & _ & F & _).
      rewrite E in E'; apply Ret_inj in E'; subst r'; rewrite <- F; exact H.
    - intros [O H]; destruct (p_irrep_kind G id HG O) as (r & E & _ & _ & _ & F & _).
      exists r; split; [exact E|rewrite F; exact H]. }
  assert (Inj1 : FinFun.Injective (fun l : Z => [l])) by (intros x y E; injection E as E; exact E).
  assert (Inj2 : FinFun.Injective (fun l : Z => [1%Z; l])) by (intros x y E; injection E as E; exact E).
  assert (Half : forall N, (0 <=? L)%Z && (L <=? N / 2)%Z = true <-> (0 <= 2 * L <= N)%Z).
  { intros N; rewrite andb_true_iff, !Z.leb_le; pose proof (half_le N L); lia. }
  assert (Zr : forall k, In k (zrange (L + 1)) <-> (0 <= k <= L)%Z) by (intros k; rewrite zrange_In; lia).
  destruct G as [[N|N]| |]; cbn [bl_irreps bl_range].
  - split; intros H; [apply Half in H as E; rewrite E; cbn [assert_ bind]|].
    + eexists; split; [reflexivity|split; [apply FinFun.Injective_map_NoDup; [exact Inj1|apply zrange_NoDup]|]].
      intros id; rewrite Freq, in_map_iff; split.
      * intros (k & <- & Hk); apply Zr in Hk; cbn [irrep_ok irrep_kind]; destruct (_ || _); lia.
      * destruct id as [|k [|]]; cbn [irrep_ok irrep_kind]; try tauto; intros [O F]; exists k; split; [reflexivity|].
        apply Zr; destruct (_ || _) in F; lia.
    + destruct ((0 <=? L)%Z && (L <=? N / 2)%Z) eqn:E; [apply Half in E; contradiction|reflexivity].
  - split; intros H; [apply Half in H as E; rewrite E; cbn [assert_ bind]|].
    + rewrite half_eq; eexists; split; [reflexivity|split].
      * constructor.
        -- intros X; apply in_app_or in X as [X|X].
           ++ apply in_map_iff in X as (k & D & _); discriminate D.
           ++ apply Z.ltb_lt in HG; destruct (Z.eqb_spec (2 * L) N); [|contradiction].
              destruct X as [X|[]]; injection X as X; lia.
        -- apply NoDup_app_intro.
           ++ apply FinFun.Injective_map_NoDup; [exact Inj2|apply zrange_NoDup].
           ++ destruct (2 * L =? N)%Z; repeat constructor; intros [].
           ++ intros x X1 X2; apply in_map_iff in X1 as (k & <- & _).
              destruct (2 * L =? N)%Z; [destruct X2 as [X2|[]]; discriminate X2|contradiction].
      * intros id; rewrite Freq; split.
        -- intros [<-|X]; [cbn [irrep_ok irrep_kind Z.eqb orb]; lia|].
           apply in_app_or in X as [X|X].
           ++ apply in_map_iff in X as (k & <- & Hk); apply Zr in Hk; cbn [irrep_ok irrep_kind]; destruct (_ || _); lia.
           ++ destruct (Z.eqb_spec (2 * L) N) as [EL|]; [|contradiction]; destruct X as [<-|[]].
              cbn [irrep_ok irrep_kind]; destruct (_ || _); lia.
        -- destruct id as [|j [|k [|]]]; cbn [irrep_ok irrep_kind]; try tauto; intros [[O J] F].
           assert (F' : (k <= L)%Z) by (destruct (_ || _) in F; exact F).
           destruct J as [-> | [-> [-> | J]]].
           ++ right; apply in_or_app; left; apply in_map_iff; exists k; split; [reflexivity|apply Zr; lia].
           ++ left; reflexivity.
           ++ right; apply in_or_app; right; destruct (Z.eqb_spec (2 * L) N); [left; do 2 f_equal; lia|lia].
    + destruct ((0 <=? L)%Z && (L <=? N / 2)%Z) eqn:E; [apply Half in E; contradiction|reflexivity].
  - split; intros H; [apply Z.leb_le in H as E; rewrite E; cbn [assert_ bind]|].
    + eexists; split; [reflexivity|split; [apply FinFun.Injective_map_NoDup; [exact Inj1|apply zrange_NoDup]|]].
      intros id; rewrite Freq, in_map_iff; split.
      * intros (k & <- & Hk); apply Zr in Hk; cbn [irrep_ok irrep_kind]; destruct (k =? 0)%Z; lia.
      * destruct id as [|k [|]]; cbn [irrep_ok irrep_kind]; try tauto; intros [O F]; exists k; split; [reflexivity|].
        apply Zr; destruct (k =? 0)%Z; lia.
    + destruct (Z.leb_spec 0 L); [contradiction|reflexivity].
  - split; intros H; [apply Z.leb_le in H as E; rewrite E; cbn [assert_ bind]|].
    + eexists; split; [reflexivity|split].
      * constructor; [intros X; apply in_map_iff in X as (k & D & _); discriminate D|].
        apply FinFun.Injective_map_NoDup; [exact Inj2|apply zrange_NoDup].
      * intros id; rewrite Freq; split.
        -- intros [<-|X]; [cbn [irrep_ok irrep_kind Z.eqb]; lia|].
           apply in_map_iff in X as (k & <- & Hk); apply Zr in Hk; cbn [irrep_ok irrep_kind]; destruct (k =? 0)%Z; lia.
        -- destruct id as [|j [|k [|]]]; cbn [irrep_ok irrep_kind]; try tauto; intros [[O J] F].
           assert (F' : (k <= L)%Z) by (destruct (k =? 0)%Z; exact F).
           destruct J as [-> | [-> ->]]; [right|left; reflexivity].
           apply in_map_iff; exists k; split; [reflexivity|apply Zr; lia].
    + destruct (Z.leb_spec 0 L); [contradiction|reflexivity].
Qed.
