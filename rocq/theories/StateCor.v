(** The layers of C77 for groups of rotations, and the statements for any group. *)
From Coq Require Import String.
From Coq Require Import Reals ZArith Bool List Arith Lia Lra Permutation.
From Verif Require Import LibRes LibMat LibMatS FieldModel SpecField FinGroupModel PlanarModel SpecPlanar PlanarProofs IrrepModel SpecRep SpecIrrep IrrepProofs RepModel SpecRepr RepProofs RepThms KernelModel SpecKernel KernelProofs PolarModel SpecPolar KernelPlanar KernelPoint
  BlocksModel SpecBlocks BlocksCor LayerModel SpecLayer BiasThms BiasCor GridModel SpecGrid GridProofs ImageModel SpecImage ImageProofs ConvThms TransposedModel TransposedThms SpecRdConv RdConvModel RdConvProofs RdConvThms RdConvPlane RdConvCor
  SeqModel ExportModel ExportThms LinearModel StateThms.
Import ListNotations.
Open Scope R_scope.

(** ** The plane *)
Section Plane.
Context {A : Type}.
Variable rep : A -> repr pval.
Variable name : A -> string.
Variable aeqb : A -> A -> bool.
Variable order : list A -> list A.
Variable sort : list (string * string) -> list (string * string).
Hypothesis aeqb_ok : forall a b, aeqb a b = true <-> a = b.
Hypothesis order_ok : forall l, Permutation (order l) l.
Hypothesis sort_ok : forall l, Permutation (sort l) l.
Variables (N : Z) (sg : psubgroup) (linv : nat -> mat -> res mat) (L : nat) (radii sigma : list R).
Hypothesis HN : (0 < N \/ N = -1)%Z.
Hypothesis Es : p_subgroup O2 (IO2 None N) = Ret sg.
Hypothesis Hinv : correct_inverse linv.
Hypothesis Hp : exists p, mk_profile radii sigma = Ret p.
Variables ins outs : list A.
Hypothesis Pin : Forall (fun a => planar_repr (ps_group sg) (rep a) /\ sharp (r_size (rep a)) (r_inv (rep a))) ins.
Hypothesis Pout : Forall (fun a => planar_repr (ps_group sg) (rep a) /\ sharp (r_size (rep a)) (r_cob (rep a))) outs.
Hypothesis Nin : told_apart name ins.
Hypothesis Nout : told_apart name outs.
Variables (k p : nat) (mode : pad_mode) (stride dil groups : nat) (bias : bool) (bf : option (attr (sattr hattr) -> bool)).
Notation size := (asize rep).
Notation gen := (r2_generator rep linv (IO2 None N) L radii sigma k dil).

Lemma proper_all : Forall (fun a => proper (p_irr (ps_group sg)) (pmember (ps_group sg)) (pmul (ps_group sg)) (pid (ps_group sg)) (rep a) /\ (0 < r_size (rep a))%nat) (ins ++ outs).
Proof.
  pose proof (valid_sg N sg HN Es) as V. apply Forall_app. split.
  - eapply Forall_impl; [|exact Pin]. intros a [H _]. split; [exact (planar_proper _ _ V H)|exact (planar_size _ _ V H)].
  - eapply Forall_impl; [|exact Pout]. intros a [H _]. split; [exact (planar_proper _ _ V H)|exact (planar_size _ _ V H)].
Qed.
Lemma gen_steers : forall base h M, r2_action linv (IO2 None N) sg = Ret base -> pmember (ps_group sg) h -> r_fun base h = Ret (2%nat, M) ->
  forall i o kb el Bi Bo, In i ins -> In o outs -> gen i o = Ret (Some kb) -> In el (kb_elements kb) ->
  r_fun (rep i) h = Ret (r_size (rep i), Bi) -> r_fun (rep o) h = Ret (r_size (rep o), Bo) ->
  filter_of_steerable 2 k dil (r_size (rep o)) (r_size (rep i)) M Bi Bo (el_sample el).
Proof.
  intros base h M Eb Hh EM i o kb el Bi Bo Hi Ho Eg He Ei Eo.
  rewrite Forall_forall in Pin, Pout. destruct (Pin i Hi) as [Pi Si]. destruct (Pout o Ho) as [Po So].
  destruct (generator_works N sg linv HN Es Hinv rep L radii sigma k dil Hp i o Pi Po Si So) as (r & Er & Hr). rewrite Eg in Er. apply Ret_inj in Er. subst r.
  destruct (Hr kb eq_refl) as (_ & _ & K). destruct (rot_incl N sg HN Es h Hh) as (t & Et & _).
  destruct (rot_base N sg linv HN Es Hinv) as (base' & Eb' & HB). rewrite Eb in Eb'. apply Ret_inj in Eb'. subst base'.
  destruct (HB h t Hh Et) as (B' & EB & MB). rewrite EM in EB. apply Ret_inj in EB. injection EB as <-.
  pose proof (K el He h t Hh Et M MB) as Q. unfold value_at in Q. rewrite Ei, Eo in Q. exact Q.
Qed.
Lemma gen_shapes : forall i o, In i ins -> In o outs -> exists kb, gen i o = Ret kb /\ forall q, kb = Some q -> kb_out q = r_size (rep o) /\ kb_in q = r_size (rep i).
Proof. exact (gen_shape rep N sg linv L radii sigma HN Es Hinv Hp ins outs Pin Pout k dil). Qed.

Theorem r2conv_states : forall half, half 0 = 0 -> half 1 = 1 -> half (-1) = -1 ->
  forall affine base h M c w0 zeros ops m, mk_r2conv rep name aeqb order sort linv (IO2 None N) L radii sigma ins outs k p mode stride dil groups bias bf = Ret c ->
  r2_action linv (IO2 None N) sg = Ret base -> pmember (ps_group sg) h -> r_fun base h = Ret (2%nat, M) -> signed_perm 2 M ->
  length (fst w0) = bb_dim (rc_expansion c) -> (forall w, In (SetParams w) ops -> length (fst w) = bb_dim (rc_expansion c)) ->
  obj_run (conv_expand rep name c) false ops (new_layer w0 zeros) = Ret m ->
  forall x y B ws, shape x = B :: type_size size ins :: ws -> length ws = 2%nat -> fits k p stride dil ws -> conv_call rep name aeqb c m (ins, x) = Ret (outs, y) ->
  exists x' y' z, field_transform rep half affine (r_fun base) ins h x = Ret x' /\ conv_call rep name aeqb c m (ins, x') = Ret (outs, y') /\
    field_transform rep half affine (r_fun base) outs h y = Ret z /\ same_array y' z.
Proof.
  intros half H0 H1 Hm affine base h M c w0 zeros ops m Ec Eb Hh EM SM. unfold mk_r2conv in Ec. rewrite Es in Ec. cbn [bind] in Ec.
  exact (fun L0 Fo Hr => conv_states rep name aeqb order sort gen bf aeqb_ok order_ok sort_ok (p_irr (ps_group sg)) (pmember (ps_group sg)) (pmul (ps_group sg)) (pid (ps_group sg)) (p_trivial_id (ps_group sg)) ins outs
    (planar_trivial _ (valid_sg N sg HN Es)) proper_all Nin Nout gen_shapes h half affine (r_fun base) 2 M H0 H1 Hm Hh EM SM k p stride dil groups bias (gen_steers base h M Eb Hh EM) mode c w0 zeros ops m Ec L0 Fo Hr).
Qed.

Theorem r2convt_states : forall half, half 0 = 0 -> half 1 = 1 -> half (-1) = -1 ->
  forall affine base h M c w0 zeros ops m,
  mk_rdconvt rep name aeqb order sort (p_irr (ps_group sg)) (p_trivial_id (ps_group sg)) gen ins outs 2 k p 0 stride dil groups bias bf = Ret c ->
  r2_action linv (IO2 None N) sg = Ret base -> pmember (ps_group sg) h -> r_fun base h = Ret (2%nat, M) -> signed_perm 2 M ->
  length (fst w0) = bb_dim (rt_expansion c) -> (forall w, In (SetParams w) ops -> length (fst w) = bb_dim (rt_expansion c)) ->
  obj_run (convt_expand rep name c) false ops (new_layer w0 zeros) = Ret m ->
  forall x y B ws, shape x = B :: type_size size ins :: ws -> length ws = 2%nat -> convt_call rep name aeqb c m (ins, x) = Ret (outs, y) ->
  exists x' y' z, field_transform rep half affine (r_fun base) ins h x = Ret x' /\ convt_call rep name aeqb c m (ins, x') = Ret (outs, y') /\
    field_transform rep half affine (r_fun base) outs h y = Ret z /\ same_array y' z.
Proof.
  intros half H0 H1 Hm affine base h M c w0 zeros ops m Ec Eb Hh EM SM.
  exact (fun L0 Fo Hr => convt_states rep name aeqb order sort gen bf aeqb_ok order_ok sort_ok (p_irr (ps_group sg)) (pmember (ps_group sg)) (pmul (ps_group sg)) (pid (ps_group sg)) (p_trivial_id (ps_group sg)) ins outs
    (planar_trivial _ (valid_sg N sg HN Es)) proper_all Nin Nout gen_shapes h half affine (r_fun base) 2 M H0 H1 Hm Hh EM SM k p stride dil groups bias (gen_steers base h M Eb Hh EM) c w0 zeros ops m Ec L0 Fo Hr).
Qed.
End Plane.

(** ** The point *)
Section Rotations.
Context {A : Type}.
Variable rep : A -> repr pval.
Variable name : A -> string.
Variable aeqb : A -> A -> bool.
Variable order : list A -> list A.
Variable sort : list (string * string) -> list (string * string).
Hypothesis aeqb_ok : forall a b, aeqb a b = true <-> a = b.
Hypothesis order_ok : forall l, Permutation (order l) l.
Hypothesis sort_ok : forall l, Permutation (sort l) l.
Variable G : pgrp.
Hypothesis HG : pvalid G.
Hypothesis HR : rotations G.
Variables ins outs : list A.
Hypothesis Pin : Forall (fun a => planar_repr G (rep a) /\ sharp (r_size (rep a)) (r_inv (rep a))) ins.
Hypothesis Pout : Forall (fun a => planar_repr G (rep a) /\ sharp (r_size (rep a)) (r_cob (rep a))) outs.
Hypothesis Nin : told_apart name ins.
Hypothesis Nout : told_apart name outs.
Notation size := (asize rep).
Notation gen := (point_generator rep (p_irr G) (p_tensor G) (p_cg G) (p_trivial_id G)).
Lemma triv0 : p_trivial_id G = [0%Z].
Proof. clear - HR. destruct G as [[N|N]| |]; try contradiction HR; reflexivity. Qed.

Lemma point_works : forall i o, planar_repr G (rep i) -> planar_repr G (rep o) -> sharp (r_size (rep i)) (r_inv (rep i)) -> sharp (r_size (rep o)) (r_cob (rep o)) ->
  exists r, gen i o = Ret r /\ forall kb, r = Some kb -> kb_out kb = r_size (rep o) /\ kb_in kb = r_size (rep i) /\
    forall el, In el (kb_elements kb) -> forall g, pmember G g -> exists Bi Bo, r_fun (rep i) g = Ret (r_size (rep i), Bi) /\ r_fun (rep o) g = Ret (r_size (rep o), Bo) /\
      meq (r_size (rep o)) (r_size (rep i)) (mmul (r_size (rep i)) (fun a b => el_sample el a b 0%nat) Bi) (mmul (r_size (rep o)) Bo (fun a b => el_sample el a b 0%nat)).
Proof.
  intros i o Pi Po Si So. destruct (rotations_on_point point G (rep i) (rep o) HG HR Pi Po Si So) as (ob & Eo & H).
  unfold point_generator. rewrite triv0, Eo. cbn [bind]. destruct ob as [kb|]; [|exists None; split; [reflexivity|discriminate]].
  destruct (H kb eq_refl) as (St & attrs & Eit & La & _). 
  assert (Sz : sk_size_out kb = r_size (rep o) /\ sk_size_in kb = r_size (rep i)).
  { unfold kernels_on_point, mk_skb in Eo. apply bind_Ret in Eo as (ps & _ & Eo). destruct (Nat.eqb _ 0); [discriminate|]. apply Ret_inj in Eo. injection Eo as <-. split; reflexivity. }
  set (F := point_filters point [0%Z]) in *.
  set (kern := fun idx x => match sk_sample (p_irr G) F kb x idx with Ret K => K | Raise => mzero end).
  unfold sampled. rewrite Eit. cbn [bind].
  rewrite (mapM_Ret_map _ _ _ (fun idx => map (kern idx) [(0, 0)]) (seq 0 (sk_dim kb))).
  2:{ intros idx Hi. apply in_seq in Hi. apply mapM_Ret_map. intros x _. destruct (St idx x ltac:(lia)) as (K & EK & _). unfold kern. rewrite EK. reflexivity. }
  cbn [bind]. eexists. split; [reflexivity|]. intros kb' Ekb. injection Ekb as <-. cbn [kb_out kb_in kb_elements]. destruct Sz as [So' Si'].
  split; [exact So'|]. split; [exact Si'|]. intros el He g Hg.
  apply in_map_iff in He. destruct He as ([at' vals] & <- & He). cbn [fst snd el_sample].
  apply in_combine_r in He. apply in_map_iff in He. destruct He as (idx & <- & Hidx). apply in_seq in Hidx. cbn [map nth].
  destruct (St idx (0, 0) ltac:(lia)) as (K & EK & V). destruct (V g Hg) as (Bo & Bi & E1 & E2 & MK). exists Bi, Bo. split; [exact E2|]. split; [exact E1|].
  unfold kern. rewrite EK. exact MK.
Qed.
Lemma point_shapes : forall i o, In i ins -> In o outs -> exists kb, gen i o = Ret kb /\ forall q, kb = Some q -> kb_out q = r_size (rep o) /\ kb_in q = r_size (rep i).
Proof.
  intros i o Hi Ho. rewrite Forall_forall in Pin, Pout. destruct (Pin i Hi) as [Pi Si]. destruct (Pout o Ho) as [Po So].
  destruct (point_works i o Pi Po Si So) as (r & E & H). exists r. split; [exact E|]. intros q Q. destruct (H q Q) as (? & ? & _). auto.
Qed.
Lemma proper_fields0 : Forall (fun a => proper (p_irr G) (pmember G) (pmul G) (pid G) (rep a) /\ (0 < r_size (rep a))%nat) (ins ++ outs).
Proof.
  apply Forall_app. split.
  - eapply Forall_impl; [|exact Pin]. intros a [H _]. split; [exact (planar_proper _ _ HG H)|exact (planar_size _ _ HG H)].
  - eapply Forall_impl; [|exact Pout]. intros a [H _]. split; [exact (planar_proper _ _ HG H)|exact (planar_size _ _ HG H)].
Qed.

Definition no_info : info (sattr unit).
Proof. repeat constructor. Defined.

Theorem rotations_linear : forall bias c w0 zeros ops m,
  mk_linear rep name aeqb order sort (p_irr G) (p_trivial_id G) gen ins outs bias = Ret c -> length (fst w0) = bb_dim (ll_expansion c) ->
  (forall w, In (SetParams w) ops -> length (fst w) = bb_dim (ll_expansion c)) -> obj_run (linear_expand rep name c) true ops (new_layer w0 zeros) = Ret m ->
  forall g x y, pmember G g -> linear_call rep name aeqb c m (ins, x) = Ret (outs, y) ->
  exists x' y' z, transform0 rep ins g x = Ret x' /\ linear_call rep name aeqb c m (ins, x') = Ret (outs, y') /\ transform0 rep outs g y = Ret z /\ same_array y' z.
Proof.
  intros bias c w0 zeros ops m Ec L0 Fo Hr g x y Hg Hy.
  apply (linear_states rep name aeqb order sort gen aeqb_ok order_ok sort_ok (p_irr G) (pmember G) (pmul G) (pid G) (p_trivial_id G) ins outs (planar_trivial _ HG) proper_fields0 Nin Nout point_shapes g bias no_info Hg)
    with (w0 := w0) (zeros := zeros) (ops := ops); try assumption.
  intros i o kb el Bi Bo Hi Ho Eg He Ei Eo. rewrite Forall_forall in Pin, Pout. destruct (Pin i Hi) as [Pi Si]. destruct (Pout o Ho) as [Po So].
  destruct (point_works i o Pi Po Si So) as (r & Er & H). rewrite Eg in Er. apply Ret_inj in Er. subst r. destruct (H kb eq_refl) as (_ & _ & K).
  destruct (K el He g Hg) as (Bi' & Bo' & E1 & E2 & MK). rewrite Ei in E1. rewrite Eo in E2. apply Ret_inj in E1. apply Ret_inj in E2. injection E1 as <-. injection E2 as <-. exact MK.
Qed.
End Rotations.

(** ** The statements for any group *)
Theorem conv_any : forall A X T (rep : A -> repr T) name aeqb order sort (generator : A -> A -> res (option (BlocksModel.kbasis X nat))) bf,
  (forall a b, aeqb a b = true <-> a = b) -> (forall l, Permutation (order l) l) -> (forall l, Permutation (sort l) l) ->
  forall half, half 0 = 0 -> half 1 = 1 -> half (-1) = -1 ->
  forall affine base irr mem op e tid ins outs n k p mode stride dil groups bias c g M,
  (forall i, irr tid = Ret i -> trivial_rep mem (gi_size i) (gi_rep i)) ->
  Forall (fun a => proper irr mem op e (rep a) /\ (0 < r_size (rep a))%nat) (ins ++ outs) -> told_apart name ins -> told_apart name outs ->
  (forall i o, In i ins -> In o outs -> exists kb, generator i o = Ret kb /\ forall q, kb = Some q -> kb_out q = r_size (rep o) /\ kb_in q = r_size (rep i)) ->
  mem g -> base g = Ret (n, M) -> signed_perm n M ->
  (forall i o kb el Bi Bo, In i ins -> In o outs -> generator i o = Ret (Some kb) -> In el (kb_elements kb) ->
     r_fun (rep i) g = Ret (r_size (rep i), Bi) -> r_fun (rep o) g = Ret (r_size (rep o), Bo) ->
     filter_of_steerable n k dil (r_size (rep o)) (r_size (rep i)) M Bi Bo (el_sample el)) ->
  mk_rdconv rep name aeqb order sort irr tid generator ins outs n k p mode stride dil groups bias bf = Ret c ->
  forall w0 zeros ops m, length (fst w0) = bb_dim (rc_expansion c) -> (forall w, In (SetParams w) ops -> length (fst w) = bb_dim (rc_expansion c)) ->
  obj_run (conv_expand rep name c) false ops (new_layer w0 zeros) = Ret m ->
  forall x y B ws, shape x = B :: type_size (asize rep) ins :: ws -> length ws = n -> fits k p stride dil ws -> conv_call rep name aeqb c m (ins, x) = Ret (outs, y) ->
  exists x' y' z, field_transform rep half affine base ins g x = Ret x' /\ conv_call rep name aeqb c m (ins, x') = Ret (outs, y') /\
    field_transform rep half affine base outs g y = Ret z /\ same_array y' z.
Proof.
  intros A X T rep name aeqb order sort generator bf Ha Ho Hs half H0 H1 Hm affine base irr mem op e tid ins outs n k p mode stride dil groups bias c g M Tr Pr Ni No Gen Hg EM SM St Ec w0 zeros ops m L0 Fo Hr.
  exact (conv_states rep name aeqb order sort generator bf Ha Ho Hs irr mem op e tid ins outs Tr Pr Ni No Gen g half affine base n M H0 H1 Hm Hg EM SM k p stride dil groups bias St mode c w0 zeros ops m Ec L0 Fo Hr).
Qed.
Theorem convt_any : forall A X T (rep : A -> repr T) name aeqb order sort (generator : A -> A -> res (option (BlocksModel.kbasis X nat))) bf,
  (forall a b, aeqb a b = true <-> a = b) -> (forall l, Permutation (order l) l) -> (forall l, Permutation (sort l) l) ->
  forall half, half 0 = 0 -> half 1 = 1 -> half (-1) = -1 ->
  forall affine base irr mem op e tid ins outs n k p stride dil groups bias c g M,
  (forall i, irr tid = Ret i -> trivial_rep mem (gi_size i) (gi_rep i)) ->
  Forall (fun a => proper irr mem op e (rep a) /\ (0 < r_size (rep a))%nat) (ins ++ outs) -> told_apart name ins -> told_apart name outs ->
  (forall i o, In i ins -> In o outs -> exists kb, generator i o = Ret kb /\ forall q, kb = Some q -> kb_out q = r_size (rep o) /\ kb_in q = r_size (rep i)) ->
  mem g -> base g = Ret (n, M) -> signed_perm n M ->
  (forall i o kb el Bi Bo, In i ins -> In o outs -> generator i o = Ret (Some kb) -> In el (kb_elements kb) ->
     r_fun (rep i) g = Ret (r_size (rep i), Bi) -> r_fun (rep o) g = Ret (r_size (rep o), Bo) ->
     filter_of_steerable n k dil (r_size (rep o)) (r_size (rep i)) M Bi Bo (el_sample el)) ->
  mk_rdconvt rep name aeqb order sort irr tid generator ins outs n k p 0 stride dil groups bias bf = Ret c ->
  forall w0 zeros ops m, length (fst w0) = bb_dim (rt_expansion c) -> (forall w, In (SetParams w) ops -> length (fst w) = bb_dim (rt_expansion c)) ->
  obj_run (convt_expand rep name c) false ops (new_layer w0 zeros) = Ret m ->
  forall x y B ws, shape x = B :: type_size (asize rep) ins :: ws -> length ws = n -> convt_call rep name aeqb c m (ins, x) = Ret (outs, y) ->
  exists x' y' z, field_transform rep half affine base ins g x = Ret x' /\ convt_call rep name aeqb c m (ins, x') = Ret (outs, y') /\
    field_transform rep half affine base outs g y = Ret z /\ same_array y' z.
Proof.
  intros A X T rep name aeqb order sort generator bf Ha Ho Hs half H0 H1 Hm affine base irr mem op e tid ins outs n k p stride dil groups bias c g M Tr Pr Ni No Gen Hg EM SM St Ec w0 zeros ops m L0 Fo Hr.
  exact (convt_states rep name aeqb order sort generator bf Ha Ho Hs irr mem op e tid ins outs Tr Pr Ni No Gen g half affine base n M H0 H1 Hm Hg EM SM k p stride dil groups bias St c w0 zeros ops m Ec L0 Fo Hr).
Qed.
Theorem linear_any : forall A X T (rep : A -> repr T) name aeqb order sort (generator : A -> A -> res (option (BlocksModel.kbasis X nat))),
  (forall a b, aeqb a b = true <-> a = b) -> (forall l, Permutation (order l) l) -> (forall l, Permutation (sort l) l) -> inhabited X ->
  forall irr mem op e tid ins outs bias c g,
  (forall i, irr tid = Ret i -> trivial_rep mem (gi_size i) (gi_rep i)) ->
  Forall (fun a => proper irr mem op e (rep a) /\ (0 < r_size (rep a))%nat) (ins ++ outs) -> told_apart name ins -> told_apart name outs ->
  (forall i o, In i ins -> In o outs -> exists kb, generator i o = Ret kb /\ forall q, kb = Some q -> kb_out q = r_size (rep o) /\ kb_in q = r_size (rep i)) ->
  mem g ->
  (forall i o kb el Bi Bo, In i ins -> In o outs -> generator i o = Ret (Some kb) -> In el (kb_elements kb) ->
     r_fun (rep i) g = Ret (r_size (rep i), Bi) -> r_fun (rep o) g = Ret (r_size (rep o), Bo) ->
     meq (r_size (rep o)) (r_size (rep i)) (mmul (r_size (rep i)) (fun a b => el_sample el a b 0%nat) Bi) (mmul (r_size (rep o)) Bo (fun a b => el_sample el a b 0%nat))) ->
  mk_linear rep name aeqb order sort irr tid generator ins outs bias = Ret c ->
  forall w0 zeros ops m, length (fst w0) = bb_dim (ll_expansion c) -> (forall w, In (SetParams w) ops -> length (fst w) = bb_dim (ll_expansion c)) ->
  obj_run (linear_expand rep name c) true ops (new_layer w0 zeros) = Ret m ->
  forall x y, linear_call rep name aeqb c m (ins, x) = Ret (outs, y) ->
  exists x' y' z, transform0 rep ins g x = Ret x' /\ linear_call rep name aeqb c m (ins, x') = Ret (outs, y') /\ transform0 rep outs g y = Ret z /\ same_array y' z.
Proof.
  intros A X T rep name aeqb order sort generator Ha Ho Hs [x0] irr mem op e tid ins outs bias c g Tr Pr Ni No Gen Hg St Ec w0 zeros ops m L0 Fo Hr.
  assert (d0 : info X) by exact {| in_irreps_position := 0; out_irreps_position := 0; in_repr := ""%string; out_repr := ""%string; in_field_position := 0; out_field_position := 0; block_id := 0;
    i_attr := {| at_in := 0; at_out := 0; at_id := 0; at_rest := x0 |} |}.
  exact (linear_states rep name aeqb order sort generator Ha Ho Hs irr mem op e tid ins outs Tr Pr Ni No Gen g bias d0 Hg St c w0 zeros ops m Ec L0 Fo Hr).
Qed.
