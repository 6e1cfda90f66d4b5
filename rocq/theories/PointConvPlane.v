(** R2PointConv commutes with every rotation of its group. *)
From Coq Require Import String Ascii.
From Coq Require Import Reals ZArith Bool List Arith Lia Lra Permutation.
From Verif Require Import LibRes LibPy LibMat LibMatS LibTrig FieldModel SpecField FinGroupModel SpecFinGroup FinGroupProofs ParamModel ParamProofs PlanarModel SpecPlanar PlanarProofs IrrepModel SpecRep SpecIrrep IrrepProofs
  RepModel SpecRepr RepProofs RepThms KernelModel SpecKernel KernelProofs PolarModel SpecPolar PolarProofs PolarThms KernelPlanar KernelCor
  BlocksModel SpecBlocks BlocksCor SamplerModel SpecSampler SamplerCor LayerModel SpecLayer BiasThms BiasCor GridModel SpecGrid GridProofs GridThms ImageModel SpecImage ImageProofs MaskThms ConvThms SpecRdConv RdConvModel RdConvProofs RdConvThms RdConvPlane RdConvCor
  SpecPointConv PointConvModel PointConvProofs PointConvThms PointConvEquiv.
Import ListNotations.
Open Scope R_scope.

Lemma point_generator_works : forall (N : Z) (sg : psubgroup) (linv : nat -> mat -> res mat), (0 < N \/ N = -1)%Z -> p_subgroup O2 (IO2 None N) = Ret sg -> correct_inverse linv ->
  forall {A} (rep : A -> repr pval) L radii sigma, (exists p, mk_profile radii sigma = Ret p) -> forall i o,
  planar_repr (ps_group sg) (rep i) -> planar_repr (ps_group sg) (rep o) -> sharp (r_size (rep i)) (r_inv (rep i)) -> sharp (r_size (rep o)) (r_cob (rep o)) ->
  exists r, point_generator rep linv (IO2 None N) L radii sigma i o = Ret r /\
  forall kb, r = Some kb -> kb_out kb = asize rep o /\ kb_in kb = asize rep i /\
    forall e, In e (kb_elements kb) -> forall h t, pmember (ps_group sg) h -> ps_incl sg h = Ret (VO 0 t) -> forall M, meq 2 2 M (rot2 t) ->
      steerable_on 2 (asize rep o) (asize rep i) M (value_at h (rep i)) (value_at h (rep o)) (el_sample e).
Proof.
  intros N sg linv HN Es Hinv A rep L radii sigma Hp i o Pi Po Si So.
  destruct (kernels_on_plane_ok linv (IO2 None N) sg L radii sigma None (PI / 2) (rep i) (rep o) Hinv (rot_doc N HN) Es (rot_rot N sg HN Es)
    (fun j n Q ids => rot_sharp_restrict N L j n Q ids) Hp sharp_quarter Pi Po Si So) as (ob & act & Eo & Ea & H).
  unfold point_generator. rewrite Eo. cbn [bind]. destruct ob as [[[sg' s] kb]|]; [|exists None; split; [reflexivity|discriminate]].
  destruct (H sg' s kb eq_refl) as (-> & St & At). specialize (At eq_refl). destruct At as (attrs & Eit & La & _).
  destruct (kernels_shape N sg linv _ _ _ _ _ _ _ _ _ Eo) as [So' Si']. set (F := circ_filters s (PI / 2)) in *.
  unfold at_points. rewrite Eit. cbn [bind]. eexists. split; [reflexivity|]. intros kb' Ekb. injection Ekb as <-. cbn [kb_out kb_in kb_elements].
  split; [exact So'|]. split; [exact Si'|]. intros e He h t Hh Ht M MM.
  apply in_map_iff in He. destruct He as ([at' idx] & <- & He). cbn [fst snd el_sample].
  apply in_combine_r in He. apply in_seq in He.
  intros p Lp a b Ha Hb. destruct (St idx ltac:(lia) h (nth 0 p 0, nth 1 p 0) Hh) as (f & K & K' & Ao & Bi & Bin & Ef & EK & EK' & EA & EB & [I1 I2] & MK).
  rewrite Ht in Ef. cbn [bind] in Ef. apply Ret_inj in Ef. subst f.
  rewrite (rot_axis N sg linv HN Es Hinv (PI / 2) act h t _ sharp_quarter Ea Hh Ht) in EK'.
  assert (move (rot2 t) (nth 0 p 0, nth 1 p 0) = (nth 0 (turned 2 M p) 0, nth 1 (turned 2 M p) 0)) as Em.
  { unfold move, turned. cbn [seq map nth sumn fst snd]. rewrite !MM by lia. f_equal; ring. }
  rewrite Em in EK'. rewrite EK'. rewrite EK. unfold value_at. rewrite EA, EB.
  unfold asize in *. transitivity (mmul (r_size (rep i)) K' Bi a b); [reflexivity|].
  transitivity (mmul (r_size (rep o)) Ao K a b); [|reflexivity].
  assert (meq (r_size (rep o)) (r_size (rep i)) (mmul (r_size (rep i)) K' Bi) (mmul (r_size (rep o)) Ao K)) as X; [|exact (X a b Ha Hb)].
  rewrite MK, mul_assoc, I2, LibMat.mid_r. reflexivity.
Qed.

Section Built.
Context {A : Type}.
Variable rep : A -> repr pval.
Variable name : A -> string.
Variable aeqb : A -> A -> bool.
Variable order : list A -> list A.
Variable sort : list (string * string) -> list (string * string).
Hypothesis aeqb_ok : forall a b, aeqb a b = true <-> a = b.
Hypothesis order_ok : forall l, Permutation (order l) l.
Hypothesis sort_ok : forall l, Permutation (sort l) l.
Variables (N : Z) (sg : psubgroup) (linv : nat -> mat -> res mat).
Hypothesis HN : (0 < N \/ N = -1)%Z.
Hypothesis Es : p_subgroup O2 (IO2 None N) = Ret sg.
Hypothesis Hinv : correct_inverse linv.
Variables ins outs : list A.
Hypothesis Pin : Forall (fun a => planar_repr (ps_group sg) (rep a) /\ sharp (r_size (rep a)) (r_inv (rep a))) ins.
Hypothesis Pout : Forall (fun a => planar_repr (ps_group sg) (rep a) /\ sharp (r_size (rep a)) (r_cob (rep a))) outs.
Hypothesis Din : forall a, In a ins -> dotless (name a).
Hypothesis Dout : forall a, In a outs -> dotless (name a).
Hypothesis Nin : forall a a', In a ins -> In a' ins -> name a = name a' -> a = a'.
Hypothesis Nout : forall a a', In a outs -> In a' outs -> name a = name a' -> a = a'.
Notation size := (asize rep).

Theorem r2pointconv_commutes : forall groups bias sigma width n_rings cutoff rings custom bf radii sig L base h c w b rows coords x edges dl y,
  point_params cutoff rings sigma width n_rings custom = Ret (bf, radii, sig, L) -> (exists p, mk_profile radii sig = Ret p) ->
  mk_r2pointconv rep name aeqb order sort linv (IO2 None N) ins outs groups bias sigma width n_rings cutoff rings custom = Ret c ->
  r2_action linv (IO2 None N) sg = Ret base -> pmember (ps_group sg) h ->
  mk_cloud rep 2 ins rows coords = Ret x -> pt_forward rep name aeqb c w b x edges dl = Ret y ->
  exists t M x' y', ps_incl sg h = Ret (VO 0 t) /\ r_fun base h = Ret (2%nat, M) /\ meq 2 2 M (rot2 t) /\
    cloud_transform rep (r_fun base) h x = Ret x' /\ cloud_transform rep (r_fun base) h y = Ret y' /\
    pt_forward rep name aeqb c w b x' edges (option_map (map (turned 2 M)) dl) = Ret y'.
Proof.
  intros groups bias sigma width n_rings cutoff rings custom bf radii sig L base h c w b rows coords x edges dl y Ep Hp Ec Eb Hh Ex Hy.
  unfold mk_r2pointconv in Ec. rewrite Ep in Ec. cbn [bind] in Ec. apply assert_Ret in Ec as (_ & Ec). rewrite Es in Ec. cbn [bind] in Ec.
  destruct (rot_incl N sg HN Es h Hh) as (t & Et & _).
  destruct (rot_base N sg linv HN Es Hinv) as (base' & Eb' & HB). rewrite Eb in Eb'. apply Ret_inj in Eb'. subst base'.
  destruct (HB h t Hh Et) as (M & EM & MM). exists t, M.
  assert (GW : forall i o, In i ins -> In o outs -> exists r, point_generator rep linv (IO2 None N) (Z.to_nat L) radii sig i o = Ret r /\
    forall kb, r = Some kb -> kb_out kb = asize rep o /\ kb_in kb = asize rep i /\
      forall e, In e (kb_elements kb) -> forall h t, pmember (ps_group sg) h -> ps_incl sg h = Ret (VO 0 t) -> forall M, meq 2 2 M (rot2 t) ->
        steerable_on 2 (asize rep o) (asize rep i) M (value_at h (rep i)) (value_at h (rep o)) (el_sample e)).
  { intros i o Hi Ho. rewrite Forall_forall in Pin, Pout. destruct (Pin i Hi). destruct (Pout o Ho). apply (point_generator_works N sg linv HN Es Hinv); assumption. }
  pose proof (valid_sg N sg HN Es) as VG.
  destruct (pointconv_commutes rep name aeqb order sort (point_generator rep linv (IO2 None N) (Z.to_nat L) radii sig) (Some bf) aeqb_ok order_ok sort_ok
    (r_fun base) (p_irr (ps_group sg)) (pmember (ps_group sg)) (pmul (ps_group sg)) (pid (ps_group sg)) (p_trivial_id (ps_group sg)) ins outs 2 groups bias c h M w b rows coords x edges dl y)
    as (x' & y' & H1 & H2 & H3); auto.
  - intros i E. exact (planar_trivial _ VG i E).
  - eapply Forall_impl; [|exact Pin]. intros a [H _]. exact (planar_proper _ _ VG H).
  - eapply Forall_impl; [|exact Pout]. intros a [H _]. exact (planar_proper _ _ VG H).
  - eapply Forall_impl; [|exact Pin]. intros a [H _]. exact (planar_size _ _ VG H).
  - eapply Forall_impl; [|exact Pout]. intros a [H _]. exact (planar_size _ _ VG H).
  - intros i o Hi Ho. destruct (GW i o Hi Ho) as (r & E & H). exists r. split; [exact E|]. intros kb K. destruct (H kb K) as (? & ? & _). auto.
  - intros i o kb el Hi Ho Eg He. destruct (GW i o Hi Ho) as (r & Er & Hr). rewrite Eg in Er. apply Ret_inj in Er. subst r.
    destruct (Hr kb eq_refl) as (_ & _ & K). exact (K el He h t Hh Et M MM).
  - exists x', y'. auto 10.
Qed.
End Built.
