(** Biases for C_N, D_N, SO(2) and O(2): the irreps other than the trivial one
    fix no vector. *)
From Coq Require Import Reals ZArith Bool List Arith Lia Lra.
From Verif Require Import LibRes LibMat LibTrig FieldModel FieldProofs FinGroupModel SpecFinGroup ParamModel PlanarModel SpecPlanar PlanarProofs IrrepModel SpecRep SpecIrrep IrrepProofs EndoProofs IrrepThms
  RepModel SpecRepr RepProofs RepThms SpecNonlin NonlinProofs LayerModel SpecLayer BiasThms.
Import ListNotations.
Open Scope R_scope.

Theorem irreducible_fixes_nothing : forall T (mem : T -> Prop) n (rho : T -> res (nat * mat)), irreducible mem n rho ->
  (forall g A, mem g -> rho g = Ret (n, A) -> orthogonal n A) -> (exists g A, mem g /\ rho g = Ret (n, A) /\ ~ meq n n A mid) -> nothing_fixed mem n rho.
Proof.
  intros T mem n rho [Pos Irr] Orth (g0 & A0 & Hg0 & EA0 & N0) v [Lv Fx].
  destruct (Rlt_le_dec 0 (sumn n (fun i => nth i v 0 * nth i v 0))) as [Sp|Sn].
  - exfalso. set (s := sumn n (fun i => nth i v 0 * nth i v 0)) in *. set (P := fun i j => nth i v 0 * nth j v 0 / s).
    assert (forall g A i, mem g -> rho g = Ret (n, A) -> (i < n)%nat -> sumn n (fun k => A i k * nth k v 0) = nth i v 0) as Fix1.
    { intros g A i Hg EA Hi. rewrite <- (mv_nth n A v i Hi). rewrite (Fx g A Hg EA). reflexivity. }
    assert (forall g A j, mem g -> rho g = Ret (n, A) -> (j < n)%nat -> sumn n (fun k => nth k v 0 * A k j) = nth j v 0) as Fix2.
    { intros g A j Hg EA Hj. destruct (Orth g A Hg EA) as [_ O1].
      transitivity (sumn n (fun k => sumn n (fun m => (mtr A j k * A k m) * nth m v 0))).
      - apply sumn_ext. intros k Hk. rewrite <- (Fix1 g A k Hg EA Hk) at 1. unfold mtr. rewrite Rmult_comm, <- sumn_scal_l. apply sumn_ext. intros; ring.
      - rewrite sumn_swap. rewrite (sumn_single n j _ Hj).
        + rewrite sumn_scal_r. pose proof (O1 j j Hj Hj) as Q. unfold mmul in Q. rewrite Q. unfold mid. rewrite Nat.eqb_refl. lra.
        + intros m Hm Ne. rewrite sumn_scal_r. pose proof (O1 j m Hj Hm) as Q. unfold mmul in Q. rewrite Q. unfold mid. destruct (Nat.eqb_spec j m); [congruence|lra]. }
    destruct (Irr P) as [Z0|I1].
    + intros i j Hi Hj. unfold mmul, P.
      rewrite (sumn_ext n _ (fun l => (nth i v 0 * nth j v 0 / (s * s)) * (nth l v 0 * nth l v 0))) by (intros; field; lra). rewrite sumn_scal_l. fold s. field. lra.
    + intros i j Hi Hj. unfold mtr, P. field. lra.
    + intros g A Hg EA i j Hi Hj. unfold mmul, P.
      rewrite (sumn_ext n _ (fun l => (A i l * nth l v 0) * (nth j v 0 / s))) by (intros; field; lra). rewrite sumn_scal_r, (Fix1 g A i Hg EA Hi).
      rewrite (sumn_ext n (fun l => nth i v 0 * nth l v 0 / s * A l j) (fun l => (nth i v 0 / s) * (nth l v 0 * A l j))) by (intros; field; lra). rewrite sumn_scal_l, (Fix2 g A j Hg EA Hj). field. lra.
    + assert (s = 0); [|lra]. unfold s. apply sumn_0. intros i Hi. specialize (Z0 i i Hi Hi). unfold P, mzero in Z0.
      apply Rmult_eq_reg_r with (/ s); [|apply Rinv_neq_0_compat; lra]. unfold Rdiv in Z0. lra.
    + apply N0. intros i j Hi Hj. rewrite <- (I1 i j Hi Hj).
      transitivity (sumn n (fun k => A0 i k * P k j)).
      * rewrite (sumn_single n j _ Hj); [rewrite (I1 j j Hj Hj); unfold mid; rewrite Nat.eqb_refl; lra|].
        intros k Hk Ne. rewrite (I1 k j Hk Hj). unfold mid. destruct (Nat.eqb_spec k j); [lia|lra].
      * unfold P. rewrite (sumn_ext n _ (fun l => (A0 i l * nth l v 0) * (nth j v 0 / s))) by (intros; field; lra). rewrite sumn_scal_r, (Fix1 g0 A0 i Hg0 EA0 Hi). field. lra.
  - apply Forall_forall. intros a Ha. apply In_nth with (d := 0) in Ha. destruct Ha as (i & Hi & <-). rewrite Lv in Hi.
    assert (nth i v 0 * nth i v 0 <= sumn n (fun i => nth i v 0 * nth i v 0)) as Le.
    { clear - Hi. assert (forall m (f : nat -> R), (forall k, 0 <= f k) -> (i < m)%nat -> f i <= sumn m f) as G.
      { induction m as [|m IH]; intros f Hf Him; [lia|]. cbn [sumn]. destruct (Nat.eq_dec i m) as [->|Ne].
        - pose proof (sumn_nonneg m f (fun k _ => Hf k)). lra.
        - pose proof (IH f Hf ltac:(lia)). pose proof (Hf m). lra. }
      apply (G n (fun i => nth i v 0 * nth i v 0)); [intros; apply Rle_0_sqr|exact Hi]. }
    assert (nth i v 0 * nth i v 0 = 0) as Q by (pose proof (Rle_0_sqr (nth i v 0)) as Q; unfold Rsqr in Q; lra).
    apply Rmult_integral in Q. destruct Q; assumption.
Qed.

Lemma planar_trivial : forall G, pvalid G -> forall i, p_irr G (p_trivial_id G) = Ret i -> trivial_rep (pmember G) (gi_size i) (gi_rep i).
Proof.
  intros G HG i E. assert (irrep_ok G (p_trivial_id G)) as Ok by (destruct G as [[N|N]| |]; cbn in *; try (apply Z.ltb_lt in HG); lia).
  unfold p_irr in E. destruct (p_irrep_kind G _ HG Ok) as (r & Er & A). rewrite Er in E. cbn [bind] in E. apply Ret_inj in E. subst i. cbn [girrep_of gi_size gi_rep].
  assert (irrep_kind G (p_trivial_id G) = K1 0 0) as K by (destruct G as [[N|N]| |]; reflexivity). rewrite K in A.
  destruct A as (_ & _ & Es & _ & _ & _ & Hr). split; [rewrite Es; reflexivity|]. intros g Hg. destruct (Hr g Hg) as (M & EM & MM & _). exists M. split; [exact EM|].
  rewrite (MM 0%nat 0%nat); [|cbn; lia..]. cbn. unfold mat1, rsign. cbn. rewrite Rmult_0_l, cos_0. lra.
Qed.
Lemma planar_moves : forall G id r, pvalid G -> irrep_ok G id -> p_irrep G id = Ret r -> id <> p_trivial_id G ->
  exists g A, pmember G g /\ ir_rep r g = Ret (ir_size r, A) /\ ~ meq (ir_size r) (ir_size r) A mid.
Proof.
  intros G id r HG Hid E Ne. destruct (p_irrep_kind G id HG Hid) as (r' & E' & A). rewrite E in E'. apply Ret_inj in E'. subst r'.
  destruct (irrep_kind G id) as [s k|k] eqn:HK; destruct A as (_ & _ & Es & _ & _ & _ & Hr); cbn [kdim kmat] in *; rewrite Es.
  - assert (exists g, pmember G g /\ rsign (s * fl G g) * cos (IZR k * th G g) <> 1) as (g & Hg & Hne).
    { pose proof PI_RGT_0. assert (forall N, (0 < N)%Z -> (2 * k = N)%Z -> cos (IZR k * ang N 1) = -1) as Half.
      { intros N HN Hk. assert (0 < IZR k) by (apply IZR_lt; lia). replace (IZR k * ang N 1) with PI; [apply cos_PI|]. unfold ang. rewrite <- Hk, mult_IZR. field. lra. }
      destruct G as [[N|N]| |]; cbn [irrep_ok irrep_kind p_trivial_id] in *.
      - destruct id as [|k' [|]]; try contradiction. apply Z.ltb_lt in HG. destruct (Z.eqb_spec k' 0) as [->|Nz]; [congruence|].
        destruct (Z.eqb_spec (2 * k') N); cbn [orb] in HK; [|discriminate]. injection HK as <- ->. exists (VF (VC 1)). split; [cbn; lia|]. change (th (Fin (Cyc N)) (VF (VC 1))) with (ang N 1). rewrite (Half N HG e). cbn. unfold rsign. cbn. lra.
      - destruct id as [|j [|k' [|]]]; try contradiction. apply Z.ltb_lt in HG. destruct (Z.eqb_spec k' 0) as [->|Nz].
        + cbn [orb] in HK. injection HK as <- <-. destruct Hid as [_ [Hj|[Hj _]]]; [|congruence]. subst j. exists (VF (VD 1 0)). split; [cbn; lia|]. cbn. rewrite Rmult_0_l, cos_0. unfold rsign. cbn. lra.
        + destruct (Z.eqb_spec (2 * k') N); cbn [orb] in HK; [|discriminate]. injection HK as <- ->. exists (VF (VD 0 1)). split; [cbn; lia|]. change (th (Fin (Dih N)) (VF (VD 0 1))) with (ang N 1). change (fl (Fin (Dih N)) (VF (VD 0 1))) with 0%Z. rewrite (Half N HG e). rewrite Z.mul_0_r. unfold rsign. cbn. lra.
      - destruct id as [|k' [|]]; try contradiction. destruct (Z.eqb_spec k' 0) as [->|Nz]; [congruence|discriminate].
      - destruct id as [|j [|k' [|]]]; try contradiction. destruct (Z.eqb_spec k' 0) as [->|Nz]; [|discriminate]. injection HK as <- <-.
        destruct Hid as [_ [Hj|[Hj _]]]; [|congruence]. subst j. exists (VO 1 0). split; [cbn; split; [auto|lra]|]. cbn. rewrite Rmult_0_l, cos_0. unfold rsign. cbn. lra. }
    destruct (Hr g Hg) as (M & EM & MM & _). exists g, M. split; [exact Hg|]. split; [exact EM|]. intros Bad.
    apply Hne. transitivity (M 0%nat 0%nat); [symmetry; exact (MM 0%nat 0%nat ltac:(lia) ltac:(lia))|]. exact (Bad 0%nat 0%nat ltac:(lia) ltac:(lia)).
  - destruct (generic_rotation G id k HG Hid HK) as (g & Hg & _ & Hs). destruct (Hr g Hg) as (M & EM & MM & _). exists g, M. split; [exact Hg|]. split; [exact EM|]. intros Bad.
    apply Hs. specialize (Bad 1%nat 0%nat ltac:(lia) ltac:(lia)). rewrite (MM 1%nat 0%nat) in Bad by lia. exact Bad.
Qed.
Theorem planar_fixes_nothing : forall G id i, pvalid G -> irrep_ok G id -> id <> p_trivial_id G -> p_irr G id = Ret i -> nothing_fixed (pmember G) (gi_size i) (gi_rep i).
Proof.
  intros G id i HG Hid Ne E. unfold p_irr in E. apply bind_Ret in E. destruct E as (r & Er & E). apply Ret_inj in E. subst i. cbn [girrep_of gi_size gi_rep].
  apply irreducible_fixes_nothing; [apply (endomorphisms G id r HG Hid Er)| |exact (planar_moves G id r HG Hid Er Ne)].
  intros g A Hg EA. destruct (irrep_is_rep G id HG Hid) as (r' & E' & _ & O & _). rewrite Er in E'. apply Ret_inj in E'. subst r'.
  destruct (or_total _ _ _ _ _ _ O g Hg) as (A' & EA' & OA). rewrite EA in EA'. apply Ret_inj in EA'. assert (A = A') by congruence. subst A'. exact OA.
Qed.

Lemma proper_fields : forall T irr (mem : T -> Prop) op e ft, Forall (proper irr mem op e) ft -> fields_sound irr mem op e ft /\ Forall (reproduces irr mem) ft.
Proof. intros T irr mem op e ft H. split; (eapply Forall_impl; [|exact H]); intros r (_ & A & B & C); auto. Qed.
Theorem bias_invariant_ok : forall T (irr : list Z -> res (girrep T)) mem op e tid bias ft m b v g rho, (forall i, irr tid = Ret i -> trivial_rep mem (gi_size i) (gi_rep i)) ->
  Forall (proper irr mem op e) ft -> mk_bias irr tid bias ft = Ret m -> expand_bias ft m b = Some v -> mem g ->
  (forall r, In r ft -> r_fun r g = Ret (r_size r, rho r)) -> acts r_size ft rho v v.
Proof.
  intros T irr mem op e tid bias ft m b v g rho Tr H Em Ev Hg Hrho. destruct (proper_fields _ _ _ _ _ _ H) as [H1 H2].
  exact (bias_invariant irr mem op e tid Tr bias ft m b v g rho H1 H2 Em Ev Hg Hrho).
Qed.
Theorem bias_built : forall T (irr : list Z -> res (girrep T)) mem op e tid ft, Forall (proper irr mem op e) ft -> forall bias, exists m, mk_bias irr tid bias ft = Ret m /\
  (m <> None <-> bias = true /\ exists r id i, In r ft /\ In id (r_irreps r) /\ irr id = Ret i /\ gi_id i = tid).
Proof.
  intros T irr mem op e tid ft H bias. destruct bias; [|exists None; split; [reflexivity|split; [congruence|intros [? _]; discriminate]]].
  destruct (proper_fields _ _ _ _ _ _ H) as [H1 _]. destruct (bias_value irr mem op e tid ft H1) as (ls & Els & F2 & N0 & N1).
  assert ((0 < length (concat ls))%nat <-> exists r id i, In r ft /\ In id (r_irreps r) /\ irr id = Ret i /\ gi_id i = tid) as Cnt.
  { assert (forall ids n, count_trivials irr tid ids = Ret n -> (0 < n)%nat <-> exists id i, In id ids /\ irr id = Ret i /\ gi_id i = tid) as G.
    { induction ids as [|id ids IH]; intros n E; cbn [count_trivials] in E.
      - apply Ret_inj in E. subst n. split; [lia|intros (id & i & [] & _)].
      - apply bind_Ret in E. destruct E as (i & Ei & E). apply bind_Ret in E. destruct E as (n' & En & E). apply Ret_inj in E. subst n. specialize (IH n' En).
        unfold is_trivial. destruct (list_eq_dec Z.eq_dec tid (gi_id i)) as [Et|Nt].
        + split; [intros _; exists id, i; cbn; auto|lia].
        + rewrite IH. split; [intros (id' & i' & Hin & Ei' & Et); exists id', i'; cbn; auto|intros (id' & i' & [<- |Hin] & Ei' & Et); [congruence|exists id', i'; auto]]. }
    rewrite (G _ _ (tposs_count irr tid ft ls Els)). split.
    - intros (id & i & Hin & Ei & Et). apply in_flat_map in Hin. destruct Hin as (r & Hr & Hid). exists r, id, i. auto.
    - intros (r & id & i & Hr & Hid & Ei & Et). exists id, i. split; [apply in_flat_map; exists r; auto|auto]. }
  destruct (Nat.eq_dec (length (concat ls)) 0) as [Z0|Nz].
  - exists None. split; [exact (N0 Z0)|]. split; [congruence|]. intros [_ Q]. apply Cnt in Q. lia.
  - destruct (N1 ltac:(lia)) as (M & EM & _). exists (Some (length (concat ls), M)). split; [exact EM|]. split; [intros _; split; [reflexivity|apply Cnt; lia]|discriminate].
Qed.
Theorem bias_complete_ok : forall T (irr : list Z -> res (girrep T)) mem op e tid ft m x, (forall i, irr tid = Ret i -> trivial_rep mem (gi_size i) (gi_rep i)) ->
  (forall r id i, In r ft -> In id (r_irreps r) -> id <> tid -> irr id = Ret i -> nothing_fixed mem (gi_size i) (gi_rep i)) ->
  Forall (proper irr mem op e) ft -> mk_bias irr tid true ft = Ret m -> length x = list_sum (map r_size ft) ->
  (forall g rho, mem g -> (forall r, In r ft -> r_fun r g = Ret (r_size r, rho r)) -> acts r_size ft rho x x) ->
  match m with
  | None => Forall (fun a => a = 0) x
  | Some (t, M) => exists b, length b = t /\ expand_bias ft m b = Some x
  end.
Proof.
  intros T irr mem op e tid ft m x Tr Nf H Em Lx Fx. destruct (proper_fields _ _ _ _ _ _ H) as [H1 H2].
  exact (bias_complete irr mem op e tid Tr ft m x H1 H2 Nf Em Lx Fx).
Qed.
Lemma planar_proper : forall G r, pvalid G -> planar_repr G r -> proper (p_irr G) (pmember G) (pmul G) (pid G) r.
Proof. intros G r HG (A & B & C & D). split; [exact A|]. split; [exact (p_irr_list G _ HG B)|]. split; assumption. Qed.
Theorem bias_planar : forall G ft, pvalid G -> Forall (planar_repr G) ft ->
  (forall bias m b v g rho, mk_bias (p_irr G) (p_trivial_id G) bias ft = Ret m -> expand_bias ft m b = Some v -> pmember G g ->
     (forall r, In r ft -> r_fun r g = Ret (r_size r, rho r)) -> acts r_size ft rho v v) /\
  exists m, mk_bias (p_irr G) (p_trivial_id G) true ft = Ret m /\
    forall x, length x = list_sum (map r_size ft) ->
      (forall g rho, pmember G g -> (forall r, In r ft -> r_fun r g = Ret (r_size r, rho r)) -> acts r_size ft rho x x) ->
      match m with
      | None => Forall (fun a => a = 0) x
      | Some (t, M) => exists b, length b = t /\ expand_bias ft m b = Some x
      end.
Proof.
  intros G ft HG H. assert (Forall (proper (p_irr G) (pmember G) (pmul G) (pid G)) ft) as P by (eapply Forall_impl; [|exact H]; intros r; apply planar_proper, HG).
  split.
  - intros bias m b v g rho. exact (bias_invariant_ok _ _ _ _ _ _ bias ft m b v g rho (planar_trivial G HG) P).
  - destruct (bias_built _ _ _ _ _ (p_trivial_id G) ft P true) as (m & Em & _). exists m. split; [exact Em|]. intros x Lx Fx.
    apply (bias_complete_ok _ (p_irr G) (pmember G) (pmul G) (pid G) (p_trivial_id G) ft m x (planar_trivial G HG)); try assumption.
    intros r id i Hr Hid Ne Ei. rewrite Forall_forall in H. destruct (H r Hr) as (_ & B & _). rewrite Forall_forall in B. exact (planar_fixes_nothing G id i HG (B id Hid) Ne Ei).
Qed.
