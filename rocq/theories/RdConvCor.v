(** R2Conv for groups of rotations: built, run and equivariant. *)
From Coq Require Import String.
From Coq Require Import Reals ZArith Bool List Arith Lia Lra Permutation.
From Verif Require Import LibRes LibMat LibMatS LibTrig FieldModel SpecField FinGroupModel SpecFinGroup FinGroupProofs ParamModel ParamProofs PlanarModel SpecPlanar PlanarProofs IrrepModel SpecRep SpecIrrep IrrepProofs
  RepModel SpecRepr RepProofs RepThms KernelModel SpecKernel KernelProofs PolarModel SpecPolar PolarProofs PolarThms KernelPlanar KernelCor
  BlocksModel SpecBlocks BlocksCor LayerModel SpecLayer BiasThms BiasCor GridModel SpecGrid GridProofs GridThms ImageModel SpecImage ImageProofs MaskThms ConvThms SpecRdConv RdConvModel RdConvProofs RdConvThms RdConvPlane.
Import ListNotations.
Open Scope R_scope.

Lemma planar_size : forall G r, pvalid G -> planar_repr G r -> (0 < r_size r)%nat.
Proof.
  intros G r HG (Ne & Ok & (l & El & <-) & _). destruct (r_irreps r) as [|id ids]; [contradiction|].
  cbn [mapM] in El. apply bind_Ret in El as (x & Ex & El). apply bind_Ret in El as (l' & _ & El). apply Ret_inj in El. subst l. cbn [map].
  inversion Ok as [|? ? Hid _]; subst. destruct (planar_irr_data G id HG Hid) as (x' & Ex' & K). rewrite Ex in Ex'. apply Ret_inj in Ex'. subst x'.
  assert (0 < gi_size x)%nat by (destruct K as (? & ?); lia). unfold list_sum; cbn. lia.
Qed.

Section Built.
Context {A : Type}.
Variable rep : A -> repr pval.
Variable name : A -> string.
Variable aeqb : A -> A -> bool.
Variable order : list A -> list A.
Variable sort : list (string * string) -> list (string * string).
Hypothesis aeqb_ok : forall a b, aeqb a b = true <-> a = b.
Hypothesis order_ok : forall l, Permutation (order l) l.
Hypothesis sort_ok : forall l, Permutation (sort l) l.
Variables (N : Z) (sg : psubgroup) (linv : nat -> mat -> res mat) (L : nat) (radii sigma : list R).
Hypothesis HN : (0 < N \/ N = -1)%Z.
Hypothesis Es : p_subgroup O2 (IO2 None N) = Ret sg.
Hypothesis Hinv : correct_inverse linv.
Hypothesis Hp : exists p, mk_profile radii sigma = Ret p.
Variables ins outs : list A.
Hypothesis Pin : Forall (fun a => planar_repr (ps_group sg) (rep a) /\ sharp (r_size (rep a)) (r_inv (rep a))) ins.
Hypothesis Pout : Forall (fun a => planar_repr (ps_group sg) (rep a) /\ sharp (r_size (rep a)) (r_cob (rep a))) outs.
Hypothesis Nin : told_apart name ins.
Hypothesis Nout : told_apart name outs.
Variables (k p : nat) (mode : pad_mode) (stride dil groups : nat) (bias : bool) (bf : option (attr (sattr hattr) -> bool)).
Notation size := (asize rep).
Notation gen := (r2_generator rep linv (IO2 None N) L radii sigma k dil).
Notation build := (mk_r2conv rep name aeqb order sort linv (IO2 None N) L radii sigma ins outs k p mode stride dil groups bias bf).

Lemma gen_ok : forall i o, In i ins -> In o outs -> exists r, gen i o = Ret r /\
  forall kb, r = Some kb -> kb_out kb = size o /\ kb_in kb = size i /\
    forall e, In e (kb_elements kb) -> forall h t, pmember (ps_group sg) h -> ps_incl sg h = Ret (VO 0 t) -> forall M, meq 2 2 M (rot2 t) ->
      along 2 k dil (size o) (size i) M (value_at h (rep i)) (value_at h (rep o)) (el_sample e).
Proof.
  intros i o Hi Ho. rewrite Forall_forall in Pin, Pout. destruct (Pin i Hi) as [Pi Si]. destruct (Pout o Ho) as [Po So].
  exact (generator_works N sg linv HN Es Hinv rep L radii sigma k dil Hp i o Pi Po Si So).
Qed.
Lemma gen_shape : forall i o, In i ins -> In o outs -> exists r, gen i o = Ret r /\ forall kb, r = Some kb -> kb_out kb = size o /\ kb_in kb = size i.
Proof. intros i o Hi Ho. destruct (gen_ok i o Hi Ho) as (r & E & H). exists r. split; [exact E|]. intros kb K. destruct (H kb K) as (? & ? & _). auto. Qed.
Lemma valid_sg : pvalid (ps_group sg).
Proof. exact (rot_valid N sg HN Es). Qed.
Lemma sizes_in : Forall (fun a => (0 < size a)%nat) ins.
Proof. eapply Forall_impl; [|exact Pin]. intros a [H _]. exact (planar_size _ _ valid_sg H). Qed.
Lemma sizes_out : Forall (fun a => (0 < size a)%nat) outs.
Proof. eapply Forall_impl; [|exact Pout]. intros a [H _]. exact (planar_size _ _ valid_sg H). Qed.
Lemma proper_in : Forall (fun a => proper (p_irr (ps_group sg)) (pmember (ps_group sg)) (pmul (ps_group sg)) (pid (ps_group sg)) (rep a)) ins.
Proof. eapply Forall_impl; [|exact Pin]. intros a [H _]. exact (planar_proper _ _ valid_sg H). Qed.
Lemma proper_out : Forall (fun a => proper (p_irr (ps_group sg)) (pmember (ps_group sg)) (pmul (ps_group sg)) (pid (ps_group sg)) (rep a)) outs.
Proof. eapply Forall_impl; [|exact Pout]. intros a [H _]. exact (planar_proper _ _ valid_sg H). Qed.

Lemma grouped_check : forall l, (1 < groups)%nat -> grouped groups l <->
  Nat.eqb (length l mod groups) 0 = true /\ equal_groups aeqb l (length l / groups) = true.
Proof.
  intros l G. split.
  - intros [|[f ->]]; [lia|]. rewrite concat_repeat_length, Nat.mul_comm, Nat.mod_mul, Nat.div_mul by lia. split; [reflexivity|].
    unfold equal_groups. apply forallb_forall. intros i Hi. apply in_seq in Hi. rewrite concat_repeat_length in Hi.
    assert (Lf : (0 < length f)%nat) by (destruct f; [cbn in Hi; lia|cbn; lia]).
    rewrite !concat_repeat_nth; [|apply Nat.lt_le_trans with (1 * length f)%nat; [rewrite Nat.mul_1_l; apply Nat.mod_upper_bound; lia|apply Nat.mul_le_mono_r; lia]|lia].
    rewrite Nat.mod_mod by lia. destruct (nth_error f (i mod length f)) as [a|] eqn:E; [apply aeqb_ok; reflexivity|].
    apply nth_error_None in E. pose proof (Nat.mod_upper_bound i (length f) ltac:(lia)). lia.
  - intros [E H]. right. apply Nat.eqb_eq in E. eexists. exact (equal_groups_ok aeqb aeqb_ok l groups ltac:(lia) E H).
Qed.

Lemma blocks_nonempty : forall first b, (forall x, In x first -> In x ins) -> mk_blocks (k ^ 2) name size aeqb order sort first outs gen bf = Ret b ->
  (bb_dim b <> 0%nat <-> exists i o, In i first /\ In o outs /\ elements_of (k ^ 2) gen bf i o <> []).
Proof.
  intros first b Hf Eb.
  destruct (blocks_ok (k ^ 2) name size (fun _ => 0%nat) aeqb order sort gen bf first outs aeqb_ok order_ok sort_ok) as (b' & infos & Eb' & _ & Li & Hd & _ & _ & Hall & _); auto.
  - pose proof sizes_in as S. rewrite Forall_forall in *. auto.
  - exact sizes_out.
  - intros i o Hi Ho. apply gen_shape; auto.
  - rewrite Eb in Eb'. apply Ret_inj in Eb'. subst b'. split.
    + intros Nz. destruct infos as [|f infos]; [cbn in Li; lia|]. destruct (Hd 0%nat f eq_refl) as ((ri & ro & a & s & Ei & Eo & Ee & _) & _).
      exists ri, ro. split; [exact (nth_error_In _ _ Ei)|]. split; [exact (nth_error_In _ _ Eo)|]. intros Z. rewrite Z in Ee. destruct (block_id f); discriminate.
    + intros (i & o & Hi & Ho & Ne). apply In_nth_error in Hi. apply In_nth_error in Ho. destruct Hi as [ni Ei]. destruct Ho as [no Eo].
      specialize (Hall no ni 0%nat o i Eo Ei). destruct (elements_of (k ^ 2) gen bf i o); [contradiction|]. specialize (Hall ltac:(cbn; lia)).
      apply (in_map_iff slot) in Hall. destruct Hall as (f & _ & Hin). destruct infos; [contradiction|]. cbn in Li. lia.
Qed.

Theorem r2conv_built : (exists c, build = Ret c) <->
  grouped groups ins /\ grouped groups outs /\ exists i o, In i ins /\ In o outs /\ elements_of (k ^ 2) gen bf i o <> [].
Proof.
  unfold mk_r2conv. rewrite Es. cbn [bind].
  assert (BB : forall first, (forall x, In x first -> In x ins) -> exists b, mk_blocks (k ^ 2) name size aeqb order sort first outs gen bf = Ret b).
  { intros first Hf. destruct (blocks_ok (k ^ 2) name size (fun _ => 0%nat) aeqb order sort gen bf first outs aeqb_ok order_ok sort_ok) as (b & infos & Eb & _); auto.
    - pose proof sizes_in as S. rewrite Forall_forall in *. auto.
    - exact sizes_out.
    - intros i o Hi Ho. apply gen_shape; auto.
    - exists b. exact Eb. }
  assert (Em : exists m, mk_bias (p_irr (ps_group sg)) (p_trivial_id (ps_group sg)) bias (map rep outs) = Ret m).
  { destruct (bias_built _ _ (pmember (ps_group sg)) (pmul (ps_group sg)) (pid (ps_group sg)) (p_trivial_id (ps_group sg)) (map rep outs) (proj2 (Forall_map _ _ _) proper_out) bias) as (m & E & _). eauto. }
  destruct Em as (m & Em).
  split.
  - intros (c & Ec). destruct (mk_rdconv_inv rep name aeqb order sort gen bf aeqb_ok _ _ _ _ _ _ _ _ _ _ _ _ _ Ec) as (first & m' & b & _ & Eb & Nz & Hf & Hg & _).
    assert (grouped groups ins /\ grouped groups outs) as [Gi Go].
    { destruct (Nat.le_gt_cases groups 1); [split; left; assumption|]. destruct (Hg ltac:(lia)) as (E1 & fo & E2). split; right; eauto. }
    split; [exact Gi|]. split; [exact Go|]. apply (blocks_nonempty first b Hf Eb) in Nz. destruct Nz as (i & o & Hi & Ho & Ne). exists i, o. auto.
  - intros (Gi & Go & (i & o & Hi & Ho & Ne)). unfold mk_rdconv. destruct (Nat.ltb_spec 1 groups) as [G1|G1].
    + apply grouped_check in Gi as [E1 E2]; [|exact G1]. apply grouped_check in Go as [E3 E4]; [|exact G1]. rewrite E1, E2, E3, E4. cbn [assert_ bind]. rewrite Em. cbn [bind].
      set (first := firstn (length ins / groups) ins). assert (Hf : forall x, In x first -> In x ins).
      { intros x Hx. rewrite <- (firstn_skipn (length ins / groups)). apply in_or_app. left. exact Hx. }
      destruct (BB first Hf) as (b & Eb). rewrite Eb. cbn [bind].
      assert (bb_dim b <> 0%nat) as Nz.
      { apply (blocks_nonempty first b Hf Eb). exists i, o. split; [|auto]. apply Nat.eqb_eq in E1.
        rewrite (equal_groups_ok aeqb aeqb_ok ins groups ltac:(lia) E1 E2) in Hi. apply in_concat in Hi. destruct Hi as (l & Hl & Hi). apply repeat_spec in Hl. subst l. exact Hi. }
      apply Nat.eqb_neq in Nz. rewrite Nz. cbn [negb assert_ bind]. eauto.
    + cbn [bind]. rewrite Em. cbn [bind]. destruct (BB ins (fun x H => H)) as (b & Eb). rewrite Eb. cbn [bind].
      assert (bb_dim b <> 0%nat) as Nz by (apply (blocks_nonempty ins b (fun x H => H) Eb); exists i, o; auto).
      apply Nat.eqb_neq in Nz. rewrite Nz. cbn [negb assert_ bind]. eauto.
Qed.

Theorem r2conv_runs : forall c w b x B ws, build = Ret c -> length w = bb_dim (rc_expansion c) ->
  shape x = B :: type_size size ins :: ws -> length ws = 2%nat ->
  ((exists y, rc_forward rep name aeqb c w b (ins, x) = Ret y) <->
   (0 < groups)%nat /\ (0 < stride)%nat /\ (0 < dil)%nat /\ (0 < k)%nat /\ forallb (pad_ok mode p) ws = true /\ Forall (fun v => dil * (k - 1) + 1 <= v + 2 * p)%nat ws).
Proof.
  intros c w b x B ws Ec Lw Ex Lws. unfold mk_r2conv in Ec. rewrite Es in Ec. cbn [bind] in Ec.
  destruct (mk_rdconv_inv rep name aeqb order sort gen bf aeqb_ok _ _ _ _ _ _ _ _ _ _ _ _ _ Ec) as (first & m & bl & Em & Ebl & Nz & Hfi & Hgr & ->). cbn [rc_expansion] in Lw.
  destruct (blocks_ok (k ^ 2) name size (fun _ => 0%nat) aeqb order sort gen bf first outs aeqb_ok order_ok sort_ok) as (b' & infos & Eb' & _ & _ & _ & _ & _ & _ & Hf & _); auto.
  { pose proof sizes_in as S. rewrite Forall_forall in *. auto. }
  { exact sizes_out. }
  { intros i o Hi Ho. apply gen_shape; auto. }
  rewrite Ebl in Eb'. apply Ret_inj in Eb'. subst b'.
  assert (exists dflt : info (sattr hattr), True) as [dflt _].
  { destruct (blocks_nonempty first bl Hfi Ebl) as [H _]. destruct (H Nz) as (i & o & _ & _ & Ne). destruct (elements_of (k ^ 2) gen bf i o) as [|[a s] l]; [contradiction|].
    exists {| in_irreps_position := 0; out_irreps_position := 0; in_repr := ""%string; out_repr := ""%string; in_field_position := 0; out_field_position := 0; block_id := 0; i_attr := a |}. exact I. }
  destruct (Hf w dflt Lw (fun _ => Nz)) as (f & Ef & _).
  unfold rc_forward, rc_expand. cbn [fst snd rc_in rc_out rc_d rc_k rc_padding rc_mode rc_stride rc_dilation rc_groups rc_bias rc_expansion].
  rewrite (proj2 (same_type_ok aeqb aeqb_ok ins ins) eq_refl), Ef. cbn [assert_ bind fst snd]. rewrite (built_in rep name aeqb order sort gen bf first outs _ bl Ebl).
  set (FL := reshape_filter (type_size size outs) (type_size size first) k 2 f). set (bb := expand_bias (map rep outs) m b).
  assert (Lb : match bb with Some v => length v = type_size size outs | None => True end).
  { destruct bb as [v|] eqn:E; [|exact I]. exact (expand_bias_length rep outs m b v E). }
  transitivity (exists y, conv_forward mode p groups stride dil FL bb x = Ret y).
  { split; intros [y H].
    - apply bind_Ret in H as (y0 & H & _). eauto.
    - rewrite H. cbn [bind]. eauto. }
  unfold conv_forward. split.
  - intros [y H]. apply bind_Ret in H as (xp & Hpad & H).
    assert (O : forallb (pad_ok mode p) ws = true) by (unfold pad in Hpad; rewrite Ex in Hpad; cbn [skipn] in Hpad; apply assert_Ret in Hpad as (O & _); exact O).
    destruct (pad_reads mode p x B _ ws Ex O) as (xp' & Ep & Sp & _). rewrite Hpad in Ep. apply Ret_inj in Ep. subst xp'.
    pose proof (proj1 (conv_accepts groups stride dil _ _ k 2 f bb xp B _ _ Sp ltac:(rewrite map_length; exact Lws)) (ex_intro _ y H)) as G. clear H. rename G into H.
    destruct H as (G1 & G2 & G3 & G4 & _ & _ & _ & G8). repeat split; try assumption; [destruct G4; [discriminate|assumption]|].
    rewrite Forall_forall in G8 |- *. intros v Hv. apply G8. apply in_map_iff. eauto.
  - intros (G1 & G2 & G3 & G4 & O & G8). destruct (pad_reads mode p x B _ ws Ex O) as (xp & Ep & Sp & _). rewrite Ep. cbn [bind].
    apply (conv_accepts groups stride dil _ _ k 2 f bb xp B _ _ Sp ltac:(rewrite map_length; exact Lws)).
    destruct (Hgr G1) as (Ei & fo & Eo).
    repeat split; try assumption; [right; exact G4|..|rewrite Forall_forall in G8 |- *; intros v Hv; apply in_map_iff in Hv as (v' & <- & Hv); exact (G8 v' Hv)].
    + rewrite Eo, type_size_repeat, Nat.mul_comm. apply Nat.mod_mul. lia.
    + rewrite Ei at 1. apply type_size_repeat.
Qed.

Theorem r2conv_equivariant : forall half, half 0 = 0 -> half 1 = 1 -> half (-1) = -1 ->
  forall affine base h M c w b x y B ws, build = Ret c -> r2_action linv (IO2 None N) sg = Ret base ->
  pmember (ps_group sg) h -> r_fun base h = Ret (2%nat, M) -> signed_perm 2 M ->
  length w = bb_dim (rc_expansion c) -> shape x = B :: type_size size ins :: ws -> length ws = 2%nat -> fits k p stride dil ws ->
  rc_forward rep name aeqb c w b (ins, x) = Ret (outs, y) ->
  exists x' y' z, field_transform rep half affine (r_fun base) ins h x = Ret x' /\ rc_forward rep name aeqb c w b (ins, x') = Ret (outs, y') /\
    field_transform rep half affine (r_fun base) outs h y = Ret z /\ same_array y' z.
Proof.
  intros half H0 H1 Hm affine base h M c w b x y B ws Ec Eb Hh EM SM Lw Ex Lws Hd Hy. unfold mk_r2conv in Ec. rewrite Es in Ec. cbn [bind] in Ec.
  apply (layer_equivariant rep name aeqb order sort gen bf aeqb_ok order_ok sort_ok half H0 H1 Hm affine (r_fun base) (p_irr (ps_group sg)) (pmember (ps_group sg)) (pmul (ps_group sg)) (pid (ps_group sg))
    (p_trivial_id (ps_group sg)) ins outs 2 k p mode stride dil groups bias c h M w b x y B ws); auto.
  - intros i E. exact (planar_trivial _ valid_sg i E).
  - exact proper_in.
  - exact proper_out.
  - exact sizes_in.
  - exact sizes_out.
  - exact gen_shape.
  - intros i o Hi Ho kb e Eg He. destruct (gen_ok i o Hi Ho) as (r & Er & Hr). rewrite Eg in Er. apply Ret_inj in Er. subst r.
    destruct (Hr kb eq_refl) as (_ & _ & K). destruct (rot_incl N sg HN Es h Hh) as (t & Et & _).
    destruct (rot_base N sg linv HN Es Hinv) as (base' & Eb' & HB). rewrite Eb in Eb'. apply Ret_inj in Eb'. subst base'.
    destruct (HB h t Hh Et) as (B' & EB & MB). rewrite EM in EB. apply Ret_inj in EB. injection EB as <-.
    exact (K e He h t Hh Et M MB).
Qed.
End Built.

(** ** The rotations of the pixel grid *)
Lemma signed_perm_meq : forall n M M', meq n n M M' -> signed_perm n M -> signed_perm n M'.
Proof.
  intros n M M' E (p & s & H1 & H2 & H3 & H4). exists p, s. split; [exact H1|]. split; [exact H2|]. split; [exact H3|].
  intros i j Hi Hj. rewrite <- (E i j Hi Hj). exact (H4 i j Hi Hj).
Qed.
Lemma signed_rot : forall c s, (s = 0 /\ (c = 1 \/ c = -1)) \/ (c = 0 /\ (s = 1 \/ s = -1)) -> signed_perm 2 (mat2 c (- s) s c).
Proof.
  intros c s [[Hs Hc]|[Hc Hs]].
  - exists (fun i => i), (fun _ => c). repeat split; auto. intros i j Hi Hj.
    destruct i as [|[|i]]; destruct j as [|[|j]]; try lia; cbn; lra.
  - exists (fun i => 1 - i)%nat, (fun i => match i with O => - s | _ => s end). repeat split; [lia|lia|intros i Hi; destruct i; lra|]. intros i j Hi Hj.
    destruct i as [|[|i]]; destruct j as [|[|j]]; try lia; cbn; lra.
Qed.
Lemma rot_signed : forall t, signed_perm 2 (rot2 t) -> cos t = 0 \/ cos t = 1 \/ cos t = -1.
Proof.
  intros t (p & s & _ & _ & H3 & H4). specialize (H4 0%nat 0%nat ltac:(lia) ltac:(lia)). change (rot2 t 0%nat 0%nat) with (cos t) in H4. rewrite H4.
  destruct (Nat.eqb 0 (p 0%nat)); [|auto]. destruct (H3 0%nat ltac:(lia)); auto.
Qed.
Lemma same_angle_rot : forall x y, same_angle x y -> cos x = cos y /\ sin x = sin y.
Proof. intros x y (n & ->). split; [apply cos_2PI_Z|apply sin_2PI_Z]. Qed.

Theorem quarter_turns : forall N sg linv, (0 < N)%Z -> p_subgroup O2 (IO2 None N) = Ret sg -> correct_inverse linv ->
  exists base, r2_action linv (IO2 None N) sg = Ret base /\
    ((forall h, pmember (ps_group sg) h -> exists M, r_fun base h = Ret (2%nat, M) /\ signed_perm 2 M) <-> (N = 1 \/ N = 2 \/ N = 4)%Z).
Proof.
  intros N sg linv HN Es Hinv. destruct (rot_base N sg linv (or_introl HN) Es Hinv) as (base & Eb & HB). exists base. split; [exact Eb|].
  destruct (rot_case N sg (or_introl HN) Es) as [(E & _)|(_ & EG & EI)]; [lia|]. rewrite EG in *.
  assert (HR : forall r, (0 <= r < N)%Z -> exists M t, r_fun base (VF (VC r)) = Ret (2%nat, M) /\ meq 2 2 M (rot2 t) /\ cos t = cos (ang N r) /\ sin t = sin (ang N r)).
  { intros r Hr. assert (Hm : pmember (Fin (Cyc N)) (VF (VC r))) by exact Hr.
    assert (Ei : ps_incl sg (VF (VC r)) = Ret (VO 0 (rmod (ang N r) (2 * PI)))) by (rewrite EI; apply so2_to_o2_cyc; exact HN).
    destruct (HB (VF (VC r)) _ Hm Ei) as (B & E & MB). exists B, (rmod (ang N r) (2 * PI)). split; [exact E|]. split; [exact MB|]. apply same_angle_rot, sa_m. }
  pose proof PI_RGT_0 as Ppi. split.
  - intros H. destruct (Z.eq_dec N 1) as [|N1]; [auto|]. destruct (HR 1%Z ltac:(lia)) as (B & t & E & MB & Ec & _).
    destruct (H (VF (VC 1)) ltac:(cbn; lia)) as (B' & E' & SB). rewrite E in E'. apply Ret_inj in E'. injection E' as <-.
    pose proof (rot_signed t (signed_perm_meq _ _ _ MB SB)) as K. rewrite Ec in K. unfold ang in K. rewrite Rmult_1_r in K.
    destruct (Z.eq_dec N 2) as [|N2]; [auto|]. destruct (Z.eq_dec N 4) as [|N4]; [auto|]. exfalso.
    destruct (Z.eq_dec N 3) as [->|N3].
    + replace (2 * PI / 3) with (2 * (PI / 3)) in K by field. rewrite cos_2a, cos_PI3, sin_PI3 in K.
      assert (Q : sqrt 3 * sqrt 3 = 3) by (apply sqrt_sqrt; lra). set (q := sqrt 3) in *.
      replace (1 / 2 * (1 / 2) - q / 2 * (q / 2)) with (1 / 4 - (q * q) / 4) in K by field. rewrite Q in K. lra.
    + assert (5 <= IZR N) as F by (apply IZR_le; lia).
      assert (0 < 2 * PI / IZR N) as P1 by (apply Rdiv_lt_0_compat; lra).
      assert (2 * PI / IZR N < PI / 2) as P2.
      { apply Rmult_lt_reg_r with (IZR N); [lra|]. unfold Rdiv at 1. rewrite Rmult_assoc, Rinv_l, Rmult_1_r by lra.
        assert (5 * PI <= IZR N * PI) by (apply Rmult_le_compat_r; lra). replace (PI / 2 * IZR N) with ((IZR N * PI) / 2) by field. lra. }
      assert (0 < cos (2 * PI / IZR N)) by (apply cos_gt_0; lra).
      assert (cos (2 * PI / IZR N) < 1) by (rewrite <- cos_0; apply cos_decreasing_1; lra). lra.
  - intros H h Hh. destruct h as [[r|]| |]; try contradiction. cbn in Hh. destruct (HR r Hh) as (B & t & E & MB & Ec & Esn). exists B. split; [exact E|].
    assert (E1 : meq 2 2 (rot2 t) B) by (intros i j Hi Hj; symmetry; exact (MB i j Hi Hj)).
    apply (signed_perm_meq _ _ _ E1). unfold rot2. apply signed_rot. rewrite Ec, Esn. unfold ang.
    assert (C : (IZR r = 0 \/ (N = 2 /\ r = 1)%Z \/ (N = 4 /\ r = 1)%Z \/ (N = 4 /\ r = 2)%Z \/ (N = 4 /\ r = 3)%Z)%R).
    { destruct (Z.eq_dec r 0) as [->|]; [auto|]. right. lia. }
    destruct C as [->|[[-> ->]|[[-> ->]|[[-> ->]|[-> ->]]]]].
    + rewrite Rmult_0_r, cos_0, sin_0. lra.
    + replace (2 * PI / 2 * 1) with PI by field. rewrite cos_PI, sin_PI. lra.
    + replace (2 * PI / 4 * 1) with (PI / 2) by field. rewrite cos_PI2, sin_PI2. lra.
    + replace (2 * PI / 4 * 2) with PI by field. rewrite cos_PI, sin_PI. lra.
    + replace (2 * PI / 4 * 3) with (3 * (PI / 2)) by field. rewrite cos_3PI2, sin_3PI2. lra.
Qed.

(** ** The statement for any group *)
Theorem layer_ok : forall A X T (rep : A -> repr T) name aeqb order sort (generator : A -> A -> res (option (BlocksModel.kbasis X nat))) bf,
  (forall a b, aeqb a b = true <-> a = b) -> (forall l, Permutation (order l) l) -> (forall l, Permutation (sort l) l) ->
  forall half, half 0 = 0 -> half 1 = 1 -> half (-1) = -1 ->
  forall affine base irr mem op e tid ins outs n k p mode stride dil groups bias c g M w b x y B ws,
  (forall i, irr tid = Ret i -> trivial_rep mem (gi_size i) (gi_rep i)) ->
  Forall (fun a => proper irr mem op e (rep a) /\ (0 < r_size (rep a))%nat) (ins ++ outs) -> told_apart name ins -> told_apart name outs ->
  (forall i o, In i ins -> In o outs -> exists kb, generator i o = Ret kb /\ forall q, kb = Some q -> kb_out q = r_size (rep o) /\ kb_in q = r_size (rep i)) ->
  mem g -> base g = Ret (n, M) -> signed_perm n M ->
  (forall i o kb el Bi Bo, In i ins -> In o outs -> generator i o = Ret (Some kb) -> In el (kb_elements kb) ->
     r_fun (rep i) g = Ret (r_size (rep i), Bi) -> r_fun (rep o) g = Ret (r_size (rep o), Bo) ->
     filter_of_steerable n k dil (r_size (rep o)) (r_size (rep i)) M Bi Bo (el_sample el)) ->
  mk_rdconv rep name aeqb order sort irr tid generator ins outs n k p mode stride dil groups bias bf = Ret c ->
  length w = bb_dim (rc_expansion c) -> shape x = B :: type_size (asize rep) ins :: ws -> length ws = n -> fits k p stride dil ws ->
  rc_forward rep name aeqb c w b (ins, x) = Ret (outs, y) ->
  exists x' y' z, field_transform rep half affine base ins g x = Ret x' /\ rc_forward rep name aeqb c w b (ins, x') = Ret (outs, y') /\
    field_transform rep half affine base outs g y = Ret z /\ same_array y' z.
Proof.
  intros A X T rep name aeqb order sort generator bf Ha Ho Hs half H0 H1 Hm affine base irr mem op e tid ins outs n k p mode stride dil groups bias c g M w b x y B ws
    Ht Hp Ni No Hg Hmem Hb Hsp Hst Hc Lw Ex Lws Hf Hy.
  rewrite Forall_forall in Hp.
  assert (Run : forall a, In a (ins ++ outs) -> exists D, r_fun (rep a) g = Ret (r_size (rep a), D)).
  { intros a I. destruct (Hp a I) as [(_ & _ & _ & (_ & Hrep)) _]. destruct (Hrep g Hmem) as (bs & A' & _ & _ & E & _). eauto. }
  refine (layer_equivariant rep name aeqb order sort generator bf Ha Ho Hs half H0 H1 Hm affine base irr mem op e tid ins outs n k p mode stride dil groups bias c g M w b x y B ws
    Ht _ _ Ni No _ _ Hg Hmem Hb Hsp _ Hc Lw Ex Lws Hf Hy).
  - apply Forall_forall. intros a I. apply Hp, in_or_app. auto.
  - apply Forall_forall. intros a I. apply Hp, in_or_app. auto.
  - apply Forall_forall. intros a I. apply Hp, in_or_app. auto.
  - apply Forall_forall. intros a I. apply Hp, in_or_app. auto.
  - intros i o Ii Io kb el Eg Iel. destruct (Run i (in_or_app _ _ _ (or_introl Ii))) as (Bi & Ei). destruct (Run o (in_or_app _ _ _ (or_intror Io))) as (Bo & Eo).
    unfold value_at. rewrite Ei, Eo. exact (Hst i o kb el Bi Bo Ii Io Eg Iel Ei Eo).
Qed.
