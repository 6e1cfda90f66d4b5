(** The projections a TensorProductModule of a group of rotations can learn. *)
From Coq Require Import String.
From Coq Require Import Reals ZArith Bool List Arith Lia Lra Permutation Classical.
From Verif Require Import LibRes LibMat LibMatS FieldModel SpecField FinGroupModel ParamModel PlanarModel SpecPlanar PlanarProofs IrrepModel SpecRep SpecIrrep IrrepProofs RepModel SpecRepr RepProofs RepThms KernelModel SpecKernel KernelProofs PolarModel SpecPolar KernelPlanar KernelPoint
  BlocksModel SpecBlocks BlocksCor LayerModel SpecLayer BiasThms BiasCor GridModel SpecGrid ImageModel SpecImage SpecRdConv RdConvModel RdConvProofs RdConvThms RdConvCor
  SeqModel ExportModel LinearModel StateThms StateCor SpecComplete SpecLinear CompleteThms CompleteCor CompletePlanar TensorModel SpecTensor TensorThms TensorCor TensorModModel SpecTensorMod TensorModThms TensorModCor.
Import ListNotations.
Open Scope R_scope.

Section Rotations.
Context {A : Type}.
Variable rep : A -> repr pval.
Variable name : A -> string.
Variable hname : string.
Variable aeqb : A -> A -> bool.
Variable order : list (option A) -> list (option A).
Variable sort : list (string * string) -> list (string * string).
Hypothesis aeqb_ok : forall a b, aeqb a b = true <-> a = b.
Hypothesis order_ok : forall l, Permutation (order l) l.
Hypothesis sort_ok : forall l, Permutation (sort l) l.
Variables (G : pgrp) (linv : nat -> mat -> res mat).
Hypothesis HG : pvalid G.
Hypothesis HR : rotations G.
Hypothesis Hinv : correct_inverse linv.
Variables ins outs : list A.
Notation size := (asize rep).
Notation product := (tensor_product (p_irr G) linv (p_tensor G) (p_cg G)).
Notation gen := (fun rep' : option A -> repr pval => point_generator rep' (p_irr G) (p_tensor G) (p_cg G) (p_trivial_id G)).
Hypothesis Pin : Forall (fun a => planar_repr G (rep a) /\ orthogonal (size a) (r_cob (rep a)) /\ forall hid, product (rep a) (rep a) = Ret hid -> sharp (r_size hid) (r_cob hid)) ins.
Hypothesis Pout : Forall (fun a => planar_repr G (rep a) /\ sharp (size a) (r_cob (rep a)) /\ orthogonal (size a) (r_cob (rep a))) outs.
Notation mk := (mk_tensor_module rep name hname aeqb order sort product gen).
Variables (i o : A) (C : nat).
Hypothesis PC : (0 < C)%nat.
Hypothesis Ei : ins = repeat i C.
Hypothesis Eo : outs = repeat o C.

Lemma Pout' : Forall (fun a => planar_repr G (rep a) /\ sharp (size a) (r_cob (rep a))) outs.
Proof using Pout. eapply Forall_impl; [|exact Pout]. intros a (H1 & H2 & _). auto. Qed.
Lemma Ii : In i ins.
Proof using PC Ei. clear - PC Ei. rewrite Ei. destruct C; [lia|left; reflexivity]. Qed.

Lemma fiber_hidden : forall hid g H, r_fun hid g = Ret (r_size hid, H) -> exists Q, fiber_matrix (with_hidden hid rep) [None] g = Ret Q /\ meq (r_size hid) (r_size hid) Q H.
Proof using.
  clear PC. intros hid g H E. exists (bdiag [(r_size hid, H)]). unfold fiber_matrix. cbn [mapM with_hidden]. rewrite E. cbn [bind]. split; [reflexivity|].
  intros a b Ha Hb. cbn [bdiag]. destruct (Nat.ltb_spec a (r_size hid)), (Nat.ltb_spec b (r_size hid)); try lia. reflexivity.
Qed.
Lemma fiber_some : forall hid g, fiber_matrix (with_hidden hid rep) (map Some outs) g = fiber_matrix rep outs g.
Proof using.
  intros hid g. unfold fiber_matrix. f_equal. generalize outs. intros l. induction l as [|a l IH]; [reflexivity|]. cbn [map mapM with_hidden]. rewrite IH. reflexivity.
Qed.

(** the two ways to say that a projection commutes *)
Lemma commuting_iff : forall hid W, product (rep i) (rep i) = Ret hid ->
  (equivariant_matrix (with_hidden hid rep) (pmember G) [None] (map Some outs) W <-> commuting_projection rep (pmember G) i outs W).
Proof using HG HR Hinv Pin Pout PC Ei.
  intros hid W Eh. destruct (mod_hidden rep G linv HG HR Hinv ins Pin i hid Ii Eh) as (Ph & _ & Sh & V).
  pose proof (mod_proper rep G linv HG ins outs Pin Pout') as Pr. rewrite Forall_forall in Pr. destruct (Pr i (in_or_app _ _ _ (or_introl Ii))) as [(_ & _ & _ & _ & Vi) Pi].
  assert (S1 : type_size (asize (with_hidden hid rep)) [None] = r_size hid) by (unfold type_size; cbn; unfold asize; cbn; lia).
  unfold equivariant_matrix, commuting_projection. split.
  - intros H g B P Hg EB EP r a b Hr Ha Hb. destruct (V g B Hg EB) as (K & EK & HT). destruct (fiber_hidden hid g K EK) as (Q & EQ & MQ).
    specialize (H g P Q Hg). rewrite fiber_some, S1, size_some in H. specialize (H EP EQ r (a * size i + b)%nat Hr ltac:(rewrite Sh; nia)). unfold mmul in H. rewrite H.
    rewrite Sh. unfold asize in *. rewrite sumn_mul. apply sumn_ext. intros c Hc. apply sumn_ext. intros d Hd. rewrite (MQ (c * r_size (rep i) + d)%nat) by (rewrite Sh; nia). rewrite (HT c a d b) by assumption. reflexivity.
  - intros H g P Q Hg EP EQ. rewrite fiber_some in EP. rewrite S1, size_some. destruct (Vi g Hg) as (_ & B & _ & _ & EB & _). destruct (V g B Hg EB) as (K & EK & HT). destruct (fiber_hidden hid g K EK) as (Q' & EQ' & MQ).
    rewrite EQ in EQ'. apply Ret_inj in EQ'. subst Q'. intros r q Hr Hq. set (s := size i) in *. assert (Hq' : (q < s * s)%nat) by (rewrite <- Sh; exact Hq). assert (Ps : (0 < s)%nat) by exact Pi.
    assert (Hd : (q / s < s)%nat) by (apply Nat.div_lt_upper_bound; lia). assert (Hm : (q mod s < s)%nat) by (apply Nat.mod_upper_bound; lia).
    assert (Eq : q = (q / s * s + q mod s)%nat) by (pose proof (Nat.div_mod q s); lia).
    specialize (H g B P Hg EB EP r (q / s)%nat (q mod s)%nat Hr Hd Hm). rewrite <- Eq in H. unfold mmul. refine (eq_trans H _). rewrite Sh. rewrite sumn_mul. apply sumn_ext. intros c Hc. apply sumn_ext. intros d Hd'.
    rewrite (MQ (c * s + d)%nat q) by (try exact Hq; rewrite Sh; nia). pose proof (HT c (q / s) d (q mod s) Hc Hd Hd' Hm)%nat as T. rewrite <- Eq in T. rewrite T. reflexivity.
Qed.

(** the module as a linear layer *)
Lemma as_linear : forall c, mk ins outs = Ret c -> exists l, product (rep i) (rep i) = Ret (tp_hidden c) /\
  mk_linear (with_hidden (tp_hidden c) rep) (with_hidden hname name) (option_eqb aeqb) order sort (p_irr G) (p_trivial_id G) (gen (with_hidden (tp_hidden c) rep)) [None] (map Some outs) false = Ret l /\
  ll_expansion l = tp_expansion c /\ bb_dim (tp_expansion c) <> 0%nat /\ forall w, linear_expand (with_hidden (tp_hidden c) rep) (with_hidden hname name) l w = tensor_expand rep name hname c w.
Proof using aeqb_ok PC Ei.
  intros c Ec. destruct (module_inv rep name hname aeqb order sort product gen aeqb_ok ins outs c Ec) as (i1 & o1 & C1 & hid & b & _ & Ei1 & _ & Eh & Eb & Nz & ->). cbn [tp_hidden tp_expansion].
  assert (i1 = i) by (pose proof Ii as Q; rewrite Ei1 in Q; symmetry; exact (repeat_spec _ _ _ Q)). subst i1.
  unfold mk_linear. cbn [mk_bias bind]. rewrite Eb. cbn [bind]. eexists. split; [exact Eh|]. split; [reflexivity|]. split; [reflexivity|]. split; [exact Nz|].
  intros w. unfold linear_expand, tensor_expand. cbn [ll_expansion ll_in ll_out ll_bias tp_hidden tp_expansion tp_out]. rewrite size_some.
  assert (S1 : type_size (asize (with_hidden hid rep)) [None] = r_size hid) by (unfold type_size; cbn; unfold asize; cbn; lia). rewrite S1. reflexivity.
Qed.

Lemma linear_facts : forall hid l, product (rep i) (rep i) = Ret hid ->
  mk_linear (with_hidden hid rep) (with_hidden hname name) (option_eqb aeqb) order sort (p_irr G) (p_trivial_id G) (gen (with_hidden hid rep)) [None] (map Some outs) false = Ret l ->
  (forall w f, length (fst w) = bb_dim (ll_expansion l) -> linear_expand (with_hidden hid rep) (with_hidden hname name) l w = Ret f -> commuting_projection rep (pmember G) i outs (fun r q => entry (fst f) [r; q])) /\
  (forall W, commuting_projection rep (pmember G) i outs W -> exists w, length w = bb_dim (ll_expansion l) /\
     (forall v f, linear_expand (with_hidden hid rep) (with_hidden hname name) l (w, v) = Ret f -> forall r q, (r < type_size size outs)%nat -> (q < r_size hid)%nat -> entry (fst f) [r; q] = W r q) /\
     (bb_dim (ll_expansion l) = 0%nat -> meq (type_size size outs) (r_size hid) W mzero)) /\
  (forall w w' f f', length (fst w) = bb_dim (ll_expansion l) -> length (fst w') = bb_dim (ll_expansion l) ->
     linear_expand (with_hidden hid rep) (with_hidden hname name) l w = Ret f -> linear_expand (with_hidden hid rep) (with_hidden hname name) l w' = Ret f' ->
     (forall r q, (r < type_size size outs)%nat -> (q < r_size hid)%nat -> entry (fst f) [r; q] = entry (fst f') [r; q]) -> fst w = fst w').
Proof using aeqb_ok order_ok sort_ok HG HR Hinv Pin Pout PC Ei Eo.
  intros hid l Eh El. destruct (mod_hidden rep G linv HG HR Hinv ins Pin i hid Ii Eh) as (Ph & Sh & _ & _).
  assert (Oh : orthogonal (r_size hid) (r_cob hid)).
  { rewrite Forall_forall in Pin. destruct (Pin i Ii) as (Pi & Oi & _). destruct (rot_tensor_product G HG HR linv Hinv (rep i) (rep i) Pi Pi) as (r & Er & _ & Or & _). rewrite Eh in Er. apply Ret_inj in Er. subst r. exact (Or Oi Oi). }
  destruct (rotations_linear_complete (with_hidden hid rep) (with_hidden hname name) (option_eqb aeqb) order sort (option_eqb_ok A aeqb aeqb_ok) order_ok sort_ok G HG HR [None] (map Some outs)) with (bias := false) (c := l) as (L1 & L2 & L3).
  - constructor; [|constructor]. auto.
  - apply Forall_map. exact Pout.
  - apply hidden_apart.
  - rewrite Eo. apply copies_apart.
  - exact El.
  - assert (S1 : type_size (asize (with_hidden hid rep)) [None] = r_size hid) by (unfold type_size; cbn; unfold asize; cbn; lia).
    rewrite size_some, S1 in L2, L3. split; [|split].
    + intros w f Lw Ef. apply (commuting_iff hid _ Eh). exact (L1 w f Lw Ef).
    + intros W HW. apply (commuting_iff hid _ Eh) in HW. exact (L2 W HW).
    + exact L3.
Qed.

Theorem rotations_tensor_complete :
  (forall c w M, mk ins outs = Ret c -> length (fst w) = bb_dim (tp_expansion c) -> tensor_expand rep name hname c w = Ret M ->
     commuting_projection rep (pmember G) i outs (fun r q => entry (fst M) [r; q])) /\
  (forall c W, mk ins outs = Ret c -> commuting_projection rep (pmember G) i outs W -> exists w, length w = bb_dim (tp_expansion c) /\
     forall v M, tensor_expand rep name hname c (w, v) = Ret M -> forall r q, (r < type_size size outs)%nat -> (q < size i * size i)%nat -> entry (fst M) [r; q] = W r q) /\
  (forall c w w' M M', mk ins outs = Ret c -> length (fst w) = bb_dim (tp_expansion c) -> length (fst w') = bb_dim (tp_expansion c) ->
     tensor_expand rep name hname c w = Ret M -> tensor_expand rep name hname c w' = Ret M' ->
     (forall r q, (r < type_size size outs)%nat -> (q < size i * size i)%nat -> entry (fst M) [r; q] = entry (fst M') [r; q]) -> fst w = fst w') /\
  ((exists c, mk ins outs = Ret c) <-> exists W r q, commuting_projection rep (pmember G) i outs W /\ (r < type_size size outs)%nat /\ (q < size i * size i)%nat /\ W r q <> 0).
Proof using aeqb_ok order_ok sort_ok HG HR Hinv Pin Pout PC Ei Eo.
  assert (Hs : forall hid, product (rep i) (rep i) = Ret hid -> r_size hid = (size i * size i)%nat) by (intros hid Eh; apply (mod_hidden rep G linv HG HR Hinv ins Pin i hid Ii Eh)).
  destruct (rotations_tensor_built rep name hname aeqb order sort aeqb_ok order_ok sort_ok G linv HG HR Hinv ins outs Pin Pout' i o C PC Ei Eo) as (hid & b & Eh & Eb & Iff & Exp).
  assert (P1 : forall c w M, mk ins outs = Ret c -> length (fst w) = bb_dim (tp_expansion c) -> tensor_expand rep name hname c w = Ret M -> commuting_projection rep (pmember G) i outs (fun r q => entry (fst M) [r; q])).
  { intros c w M Ec Lw EM. destruct (as_linear c Ec) as (l & Eh' & El & Ell & _ & Ex). destruct (linear_facts _ l Eh' El) as (L1 & _). rewrite Ell in L1. apply (L1 w M Lw). rewrite Ex. exact EM. }
  assert (P3 : forall c w w' M M', mk ins outs = Ret c -> length (fst w) = bb_dim (tp_expansion c) -> length (fst w') = bb_dim (tp_expansion c) ->
     tensor_expand rep name hname c w = Ret M -> tensor_expand rep name hname c w' = Ret M' ->
     (forall r q, (r < type_size size outs)%nat -> (q < size i * size i)%nat -> entry (fst M) [r; q] = entry (fst M') [r; q]) -> fst w = fst w').
  { intros c w w' M M' Ec Lw Lw' EM EM' Same. destruct (as_linear c Ec) as (l & Eh' & El & Ell & _ & Ex). destruct (linear_facts _ l Eh' El) as (_ & _ & L3). rewrite Ell in L3.
    apply (L3 w w' M M' Lw Lw'); [rewrite Ex; exact EM|rewrite Ex; exact EM'|]. rewrite (Hs _ Eh'). exact Same. }
  split; [exact P1|]. split; [|split; [exact P3|]].
  - intros c W Ec HW. destruct (as_linear c Ec) as (l & Eh' & El & Ell & _ & Ex). destruct (linear_facts _ l Eh' El) as (_ & L2 & _). rewrite Ell in L2. destruct (L2 W HW) as (w & Lw & V & _). exists w. split; [exact Lw|].
    intros v M EM. rewrite <- (Hs _ Eh'). apply (V v M). rewrite Ex. exact EM.
  - split.
    + intros (c & Ec). destruct (as_linear c Ec) as (l & Eh' & El & Ell & Nz & Ex). apply NNPP. intros No.
      assert (Z : forall w M, length (fst w) = bb_dim (tp_expansion c) -> tensor_expand rep name hname c w = Ret M -> forall r q, (r < type_size size outs)%nat -> (q < size i * size i)%nat -> entry (fst M) [r; q] = 0).
      { intros w M Lw EM r q Hr Hq. destruct (Req_dec (entry (fst M) [r; q]) 0) as [E|N]; [exact E|]. exfalso. apply No. exists (fun r q => entry (fst M) [r; q]), r, q. split; [exact (P1 c w M Ec Lw EM)|auto]. }
      set (n := bb_dim (tp_expansion c)) in *.
      destruct (Exp c (repeat 0 n, []) Ec ltac:(cbn; apply repeat_length)) as (M & EM). destruct (Exp c (repeat 1 n, []) Ec ltac:(cbn; apply repeat_length)) as (M' & EM').
      assert (E : fst (repeat 0 n, @nil R) = fst (repeat 1 n, @nil R)).
      { apply (P3 c _ _ M M' Ec); [cbn; apply repeat_length|cbn; apply repeat_length|exact EM|exact EM'|]. intros r q Hr Hq.
        rewrite (Z (repeat 0 n, []) M (repeat_length _ _) EM r q Hr Hq), (Z (repeat 1 n, []) M' (repeat_length _ _) EM' r q Hr Hq). reflexivity. }
      cbn [fst] in E. destruct n as [|n]; [lia|]. cbn [repeat] in E. injection E as E _. lra.
    + intros (W & r & q & HW & Hr & Hq & Nz). apply Iff. intros Z.
      assert (exists l, mk_linear (with_hidden hid rep) (with_hidden hname name) (option_eqb aeqb) order sort (p_irr G) (p_trivial_id G) (gen (with_hidden hid rep)) [None] (map Some outs) false = Ret l /\ ll_expansion l = b) as (l & El & Ell).
      { unfold mk_linear. cbn [mk_bias bind]. rewrite Eb. cbn [bind]. eexists. split; reflexivity. }
      destruct (linear_facts hid l Eh El) as (_ & L2 & _). destruct (L2 W HW) as (w & _ & _ & Zero). rewrite Ell in Zero. apply Nz. exact (Zero Z r q Hr ltac:(rewrite (Hs _ Eh); exact Hq)).
Qed.
End Rotations.
