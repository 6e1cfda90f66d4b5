(** The kernel bases, from construction to samples and attributes. *)
From Coq Require Import Reals List ZArith Arith Bool Lia Lra.
From Verif Require Import LibRes LibMat LibMatS IrrepModel SpecRep SpecIrrep PlanarModel SpecPlanar RepModel SpecRepr RepProofs RepThms
  KernelModel SpecKernel KernelProofs KernelThms KernelRThms KernelSThms PolarModel SpecPolar KernelPlanar KernelPoint KernelEx.
Import ListNotations.
Open Scope R_scope.

Lemma we_steerable : forall T P A (mem : T -> Prop) ok irr tpi cg (act : T -> P -> P) (F : filters P A) m n,
  kernel_data mem ok irr tpi cg -> steerable_filters mem irr act F -> ok m -> ok n ->
  exists rm rn ob, irr m = Ret rm /\ irr n = Ret rn /\ mk_we irr tpi cg F m n = Ret ob /\
    forall b, ob = Some b ->
      (forall idx, (idx < b_dim b)%nat -> steerable_kernel mem (fun g => Ret (act g)) (gi_size rn) (gi_size rm)
         (gi_rep rn) (gi_rep rm) (fun x => b_sample irr F b x idx)) /\
      (listed_attrs F -> index_agrees (b_dim b) (b_get b) (b_iter b)).
Proof.
  intros T P A mem ok irr tpi cg act F m n KD SF Hm Hn.
  destruct (mk_we_good mem ok irr tpi cg act F KD SF m n Hm Hn) as (rm & rn & ob & Em & En & Eo & H).
  exists rm, rn, ob. do 3 (split; [assumption|]). intros b Eb. destruct (H b Eb) as (E1 & E2 & Gb). split.
  - intros idx Li. rewrite <- E1, <- E2. apply good_sample; assumption.
  - intros HF. eapply good_index; eassumption.
Qed.

Lemma rwe_steerable : forall G T P A (memG : G -> Prop) (mem : T -> Prop) ok irrF irr incl restr tpi cg
    (act : G -> P -> P) (F : filters P A) m n,
  kernel_data mem ok irr tpi cg -> steerable_filters memG irrF act F ->
  (forall j, In j (map fst (f_js F)) -> sound_restricted memG mem ok irrF irr incl restr j) -> ok m -> ok n ->
  exists rm rn ob, irr m = Ret rm /\ irr n = Ret rn /\ mk_rwe irrF irr restr tpi cg F m n = Ret ob /\
    forall b, ob = Some b ->
      (forall idx, (idx < b_dim b)%nat -> steerable_kernel mem (fun h => g <- incl h ;; Ret (act g)) (gi_size rn) (gi_size rm)
         (gi_rep rn) (gi_rep rm) (fun x => b_sample irrF F b x idx)) /\
      (listed_attrs F -> index_agrees (b_dim b) (b_get b) (b_iter b)).
Proof.
  intros G T P A memG mem ok irrF irr incl restr tpi cg act F m n KD SF SR Hm Hn.
  destruct (mk_rwe_good memG mem ok irrF irr incl restr tpi cg act F KD SF SR m n Hm Hn) as (rm & rn & ob & Em & En & Eo & H).
  exists rm, rn, ob. do 3 (split; [assumption|]). intros b Eb. destruct (H b Eb) as (E1 & E2 & Gb). split.
  - intros idx Li. rewrite <- E1, <- E2. apply good_sample; assumption.
  - intros HF. eapply good_index; eassumption.
Qed.

Lemma skb_we_steerable : forall T P A (mem : T -> Prop) ok irr tpi cg (act : T -> P -> P) (F : filters P A) triv rin rout,
  kernel_data mem ok irr tpi cg -> steerable_filters mem irr act F -> NoDup (map fst (f_js F)) ->
  reproduces irr mem rin -> reproduces irr mem rout -> Forall ok (r_irreps rin) -> Forall ok (r_irreps rout) ->
  sharp (r_size rin) (r_inv rin) -> sharp (r_size rout) (r_cob rout) ->
  exists o, mk_skb irr (mk_we irr tpi cg F) triv F rin rout = Ret o /\
    forall k, o = Some k ->
      (forall idx, (idx < sk_dim k)%nat -> steerable_kernel mem (fun g => Ret (act g)) (r_size rout) (r_size rin)
         (r_fun rout) (r_fun rin) (fun x => sk_sample irr F k x idx)) /\
      (listed_attrs F -> index_agrees (sk_dim k) (sk_get k) (sk_iter k)).
Proof.
  intros T P A mem ok irr tpi cg act F triv rin rout KD SF NF Rin Rout Oin Oout Sin Sout.
  apply (mk_skb_good mem (fun g => Ret (act g)) irr irr (mk_we irr tpi cg F) triv F ok) with (rin := rin) (rout := rout); try assumption.
  - intros j Hj. destruct (kd_irr _ _ _ _ _ KD j Hj) as (r & Er & _ & _ & _ & Hr). exists r; split; [exact Er|].
    intros g Hg. destruct (Hr g Hg) as (D & ED & OD & _). eauto.
  - intros i o Hi Ho. apply (mk_we_good mem ok irr tpi cg act F KD SF); assumption.
Qed.

Lemma skb_rwe_steerable : forall G T P A (memG : G -> Prop) (mem : T -> Prop) ok irrF irr incl restr tpi cg
    (act : G -> P -> P) (F : filters P A) triv rin rout,
  kernel_data mem ok irr tpi cg -> steerable_filters memG irrF act F ->
  (forall j, In j (map fst (f_js F)) -> sound_restricted memG mem ok irrF irr incl restr j) -> NoDup (map fst (f_js F)) ->
  reproduces irr mem rin -> reproduces irr mem rout -> Forall ok (r_irreps rin) -> Forall ok (r_irreps rout) ->
  sharp (r_size rin) (r_inv rin) -> sharp (r_size rout) (r_cob rout) ->
  exists o, mk_skb irr (mk_rwe irrF irr restr tpi cg F) triv F rin rout = Ret o /\
    forall k, o = Some k ->
      (forall idx, (idx < sk_dim k)%nat -> steerable_kernel mem (fun h => g <- incl h ;; Ret (act g)) (r_size rout) (r_size rin)
         (r_fun rout) (r_fun rin) (fun x => sk_sample irrF F k x idx)) /\
      (listed_attrs F -> index_agrees (sk_dim k) (sk_get k) (sk_iter k)).
Proof.
  intros G T P A memG mem ok irrF irr incl restr tpi cg act F triv rin rout KD SF SR NF Rin Rout Oin Oout Sin Sout.
  apply (mk_skb_good mem (fun h => g <- incl h ;; Ret (act g)) irrF irr (mk_rwe irrF irr restr tpi cg F) triv F ok)
    with (rin := rin) (rout := rout); try assumption.
  - intros j Hj. destruct (kd_irr _ _ _ _ _ KD j Hj) as (r & Er & _ & _ & _ & Hr). exists r; split; [exact Er|].
    intros g Hg. destruct (Hr g Hg) as (D & ED & OD & _). eauto.
  - intros i o Hi Ho. apply (mk_rwe_good memG mem ok irrF irr incl restr tpi cg act F KD SF SR); assumption.
Qed.

Lemma rot_sharp_restrict : forall (M : Z) L j n Q ids, (j <= L)%nat ->
  p_restrict_irrep O2 (ar_id circular j) (IO2 None M) = Ret ((n, Q), ids) -> sharp n Q.
Proof.
  intros M L j n Q ids _ E. eapply (rot_restrict_sharp M); [|exact E].
  apply PolarThms.circ_ok.
Qed.

Lemma union_index : forall P X (idx_of : X -> nat) (bs : list (kbasis P X)) u,
  mk_union idx_of bs = Ret (Some u) -> Forall (fun b => index_agrees (k_dim b) (k_get b) (k_iter b)) bs ->
  index_agrees (k_dim u) (k_get u) (k_iter u).
Proof. intros P X idx_of bs u E H. exact (proj1 (union_good idx_of bs u E) H). Qed.
Lemma union_samples : forall P X (idx_of : X -> nat) (bs : list (kbasis P X)) u,
  mk_union idx_of bs = Ret (Some u) -> forall idx, (idx < k_dim u)%nat ->
  exists b i, In b bs /\ (i < k_dim b)%nat /\ k_shape b = k_shape u /\ forall x, k_sample u x idx = k_sample b x i.
Proof. intros P X idx_of bs u E. exact (proj2 (union_good idx_of bs u E)). Qed.

Lemma we_example : exists b, mk_we (p_irr SO2) (p_tensor SO2) (p_cg SO2) (point_filters unit [0%Z]) [1%Z] [1%Z] = Ret (Some b) /\
  b_dim b = 2%nat.
Proof. eexists; split; [unfold mk_we; cbn -[IZR Rmult Rplus cos sin]; reflexivity|reflexivity]. Qed.
