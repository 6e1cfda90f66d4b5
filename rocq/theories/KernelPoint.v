(** Kernels on a point: equivariant linear maps. *)
From Coq Require Import Reals List ZArith Arith Bool Lia Lra.
From Verif Require Import LibRes LibMat LibMatS SpecGroup FinGroupModel PlanarModel SpecPlanar
  IrrepModel SpecRep SpecIrrep IrrepProofs IrrepThms RepModel SpecRepr RepProofs RepThms
  KernelModel SpecKernel KernelProofs KernelThms KernelSThms KernelPlanar PolarModel.
Import ListNotations.
Open Scope R_scope.

(** The irrep [triv] is the trivial one. *)
Definition trivial_irrep {T} (mem : T -> Prop) (irr : list Z -> res (girrep T)) (triv : list Z) : Prop :=
  exists r, irr triv = Ret r /\ gi_size r = 1%nat /\ forall g, mem g -> exists D, gi_rep r g = Ret (1%nat, D) /\ D 0%nat 0%nat = 1.

Lemma point_steerable : forall {T} P (mem : T -> Prop) irr triv, trivial_irrep mem irr triv ->
  steerable_filters mem irr (fun _ x => x) (point_filters P triv).
Proof.
  intros T P mem irr triv (r & Er & Sr & V) j Hj. cbn in Hj. destruct Hj as [<-|[]].
  exists r; split; [exact Er|]. intros g x Hg. destruct (V g Hg) as (D & ED & D1).
  assert (forall x, exists Y, harmonics irr (point_filters P triv) x triv = Ret Y /\ forall i o, Y i o = 1) as HY.
  { intros y. unfold harmonics. cbn [point_filters f_js split_blocks]. rewrite Er; cbn [bind].
    unfold lookup; cbn [last_of]. rewrite id_eqb_refl. eexists; split; [reflexivity|]. reflexivity. }
  destruct (HY x) as (Y & EY & Y1). exists Y, Y, D. split; [exact EY|]. split; [exact EY|].
  rewrite Sr. split; [exact ED|]. intros i o Hi Ho. assert (o = 0%nat) as -> by lia.
  cbn [sumn]. rewrite !Y1, D1. ring.
Qed.
Lemma point_listed : forall P triv, listed_attrs (point_filters P triv).
Proof.
  intros P triv j Hj. cbn in Hj. destruct Hj as [<-|[]].
  unfold multiplicity, get_or. cbn [point_filters f_js f_attrs f_attr last_of]. rewrite id_eqb_refl.
  exists [tt]. split; [reflexivity|]. split; [reflexivity|]. intros i Hi. assert (i = 0%nat) as -> by lia.
  exists tt. split; reflexivity.
Qed.

Lemma kernels_on_point_good : forall {T} P (mem : T -> Prop) ok irr tpi cg triv (rin rout : repr T),
  kernel_data mem ok irr tpi cg -> (exists e, mem e) -> trivial_irrep mem irr triv ->
  reproduces irr mem rin -> reproduces irr mem rout -> Forall ok (r_irreps rin) -> Forall ok (r_irreps rout) ->
  sharp (r_size rin) (r_inv rin) -> sharp (r_size rout) (r_cob rout) ->
  exists o, kernels_on_point P irr tpi cg triv rin rout = Ret o /\
    forall k, o = Some k ->
      (forall idx (x : P), (idx < sk_dim k)%nat ->
         exists K, sk_sample irr (point_filters P triv) k x idx = Ret K /\
           forall g, mem g -> exists A B, r_fun rout g = Ret (r_size rout, A) /\ r_fun rin g = Ret (r_size rin, B) /\
             meq (r_size rout) (r_size rin) (mmul (r_size rin) K B) (mmul (r_size rout) A K)) /\
      index_agrees (sk_dim k) (sk_get k) (sk_iter k).
Proof.
  intros T P mem ok irr tpi cg triv rin rout KD [e Me] Tr Rin Rout Oin Oout Sin Sout.
  pose proof (point_steerable P mem irr triv Tr) as SF.
  assert (NoDup (map fst (f_js (point_filters P triv)))) as NF by (cbn; repeat constructor; intros []).
  destruct (mk_skb_good mem (fun _ => Ret (fun x : P => x)) irr irr (mk_we irr tpi cg (point_filters P triv)) triv
    (point_filters P triv) ok) with (rin := rin) (rout := rout) as (o & Eo & Ho); try assumption.
  - intros j Hj. destruct (kd_irr _ _ _ _ _ KD j Hj) as (r & Er & _ & _ & _ & Hr). exists r; split; [exact Er|].
    intros g Hg. destruct (Hr g Hg) as (D & ED & OD & _). eauto.
  - intros i o Hi Ho. exact (mk_we_good mem ok irr tpi cg (fun _ x => x) (point_filters P triv) KD SF i o Hi Ho).
  - exists o. split; [exact Eo|]. intros k ->. destruct (Ho k eq_refl) as [St At]. split; [|apply At, point_listed].
    intros idx x Li. specialize (St idx Li).
    assert (forall g K, mem g -> sk_sample irr (point_filters P triv) k x idx = Ret K ->
      exists A B, r_fun rout g = Ret (r_size rout, A) /\ r_fun rin g = Ret (r_size rin, B) /\
             meq (r_size rout) (r_size rin) (mmul (r_size rin) K B) (mmul (r_size rout) A K)) as Hg.
    { intros g K Hg EK. destruct (St g x Hg) as (f & K1 & K2 & A & B & Bi & Ef & E1 & E2 & EA & EB & IB & M).
      apply Ret_inj in Ef; subst f. cbv beta in E1, E2. rewrite EK in E1, E2. apply Ret_inj in E1; apply Ret_inj in E2; subst K1 K2.
      exists A, B. split; [exact EA|]. split; [exact EB|].
      destruct IB as [_ IB]. transitivity (mmul (r_size rin) (mmul (r_size rin) (mmul (r_size rout) A K) Bi) B).
      - rewrite <- M. reflexivity.
      - rewrite mul_assoc, IB, mid_r. reflexivity. }
    destruct (sk_sample irr (point_filters P triv) k x idx) as [|K] eqn:EK.
    + destruct (St e x Me) as (f & K1 & _ & _ & _ & _ & _ & E1 & _). rewrite EK in E1; discriminate.
    + exists K. split; [reflexivity|]. intros g Mg. apply (Hg g K Mg eq_refl).
Qed.

Theorem rotations_on_point : forall P G rin rout, pvalid G -> rotations G -> planar_repr G rin -> planar_repr G rout ->
  sharp (r_size rin) (r_inv rin) -> sharp (r_size rout) (r_cob rout) ->
  exists o, kernels_on_point P (p_irr G) (p_tensor G) (p_cg G) [0%Z] rin rout = Ret o /\
    forall k, o = Some k ->
      (forall idx (x : P), (idx < sk_dim k)%nat ->
         exists K, sk_sample (p_irr G) (point_filters P [0%Z]) k x idx = Ret K /\
           forall g, pmember G g -> exists A B, r_fun rout g = Ret (r_size rout, A) /\ r_fun rin g = Ret (r_size rin, B) /\
             meq (r_size rout) (r_size rin) (mmul (r_size rin) K B) (mmul (r_size rout) A K)) /\
      index_agrees (sk_dim k) (sk_get k) (sk_iter k).
Proof.
  intros P G rin rout HG HR (_ & Oin & _ & Rin) (_ & Oout & _ & Rout) Sin Sout.
  assert (irrep_ok G [0%Z]) as O0.
  { destruct G as [[N|N]| |]; try contradiction HR; cbn; [|lia]. cbn in HG. apply Z.ltb_lt in HG. lia. }
  apply (kernels_on_point_good P (pmember G) (irrep_ok G)); try assumption.
  - apply rotations_data; assumption.
  - exists (pid G). apply pid_member; exact HG.
  - destruct (p_irrep_kind G [0%Z] HG O0) as (r & E & A). exists (girrep_of r). unfold p_irr; rewrite E.
    split; [reflexivity|].
    assert (irrep_kind G [0%Z] = K1 0 0) as K by (destruct G as [[N|N]| |]; try contradiction HR; reflexivity).
    rewrite K in A. destruct A as (_ & _ & Sz & _ & _ & _ & V). cbn [girrep_of gi_size gi_rep]. split; [exact Sz|].
    intros g Hg. destruct (V g Hg) as (D & ED & MD & _). cbn [kdim] in *. exists D. split; [exact ED|].
    rewrite (MD 0%nat 0%nat) by lia. cbn [kmat]. unfold mat1. rewrite Z.mul_0_l, Rmult_0_l, cos_0. unfold rsign; cbn. ring.
Qed.

