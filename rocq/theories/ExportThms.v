(** Exported layers compute what the layers compute. *)
From Coq Require Import String.
From Coq Require Import Reals ZArith Bool List Arith Lia Lra.
From Verif Require Import LibRes LibMat FieldModel RepModel BlocksModel LayerModel GridModel ImageModel TransposedModel RdConvModel RdConvThms SeqModel ExportModel.
Import ListNotations.
Open Scope R_scope.

Section Object.
Variable expand : params -> res expansion.
Variable always has_bias : bool.
(** the expansion has a bias if the layer has one *)
Hypothesis biased : forall w f, expand w = Ret f -> is_some (snd f) = has_bias.
Local Notation state := (@layer params expansion).

(** in evaluation mode the buffers hold an expansion of parameters *)
Definition filled (m : state) : Prop := ly_training m = false -> exists w f, expand w = Ret f /\ ly_buffer m = Some f.
Lemma filled_step : forall o m m', filled m -> obj_step expand always o m = Ret m' -> filled m'.
Proof.
  intros [mode|w] m m' F H; cbn [obj_step] in H.
  - unfold obj_train in H. destruct mode; [apply Ret_inj in H; subst m'; intros E; discriminate|].
    destruct (always || ly_training m) eqn:Q.
    + apply bind_Ret in H as (f & Ef & H). apply Ret_inj in H. subst m'. intros _. exists (ly_params m), f. auto.
    + apply Ret_inj in H. subst m'. intros _. cbn [ly_buffer]. apply orb_false_iff in Q as (_ & Q). exact (F Q).
  - apply Ret_inj in H. subst m'. exact F.
Qed.
Lemma filled_run : forall ops m m', filled m -> obj_run expand always ops m = Ret m' -> filled m'.
Proof.
  induction ops as [|o ops IH]; intros m m' F H; cbn [obj_run] in H; [apply Ret_inj in H; subst m'; exact F|].
  apply bind_Ret in H as (m1 & H1 & H). exact (IH m1 m' (filled_step o m m1 F H1) H).
Qed.
Lemma filled_new : forall w z, filled (new_layer w z).
Proof. intros w z E. discriminate. Qed.

Lemma bias_same : forall w (f : expansion), expand w = Ret f -> (if has_bias then match snd f with Some b => Ret (Some b) | None => Raise end else Ret None) = Ret (snd f).
Proof. intros w f E. specialize (biased w f E). destruct has_bias, (snd f); cbn in biased; congruence. Qed.

(** What an export gives: the expansion that forward uses afterwards *)
Lemma export_after : forall m m' e, filled m -> obj_export expand always has_bias m = Ret (m', e) ->
  ly_training m' = false /\ ly_params m' = ly_params m /\ obj_used expand m' = Ret e /\ filled m'.
Proof.
  intros m m' e F H. unfold obj_export in H. apply bind_Ret in H as (m1 & H1 & H). apply bind_Ret in H as (f & Hf & H).
  apply bind_Ret in H as (b & Hb & H). apply Ret_inj in H. injection H as -> <-.
  assert (F1 : filled m') by exact (filled_step (Train false) m m' F H1).
  assert (T : ly_training m' = false /\ ly_params m' = ly_params m).
  { unfold obj_train in H1. destruct (always || ly_training m); [apply bind_Ret in H1 as (? & _ & H1)|]; apply Ret_inj in H1; subst m'; auto. }
  destruct T as (T & P). split; [exact T|split; [exact P|split; [|exact F1]]].
  unfold obj_used. rewrite T. cbn [negb]. destruct (F1 T) as (w & f' & Ew & Eb). rewrite Eb in Hf |- *. apply Ret_inj in Hf. subst f'.
  rewrite (bias_same w f Ew) in Hb. apply Ret_inj in Hb. subst b. destruct f; reflexivity.
Qed.
(** ... and before, unless the layer expands at every call of eval and is in
    evaluation mode *)
Lemma export_before : forall m m' e, filled m -> always && negb (ly_training m) = false -> obj_export expand always has_bias m = Ret (m', e) ->
  obj_used expand m = Ret e.
Proof.
  intros m m' e F Q H. destruct (export_after m m' e F H) as (T & P & U & _). rewrite <- U.
  unfold obj_export in H. apply bind_Ret in H as (m1 & H1 & H). apply bind_Ret in H as (f & Hf & H). apply bind_Ret in H as (b & Hb & H).
  apply Ret_inj in H. injection H as -> _. unfold obj_train in H1. unfold obj_used at 2. rewrite T. cbn [negb]. unfold obj_used.
  destruct (ly_training m) eqn:E; cbn [negb].
  - rewrite orb_true_r in H1. apply bind_Ret in H1 as (g & Eg & H1). apply Ret_inj in H1. subst m'. cbn [ly_buffer]. exact Eg.
  - cbn [negb] in Q. rewrite andb_true_r in Q. rewrite Q in H1. cbn [orb] in H1. apply Ret_inj in H1. subst m'. reflexivity.
Qed.
(** when it returns *)
Lemma export_returns : forall m f, filled m -> obj_used expand m = Ret f -> always && negb (ly_training m) = false -> exists m' e, obj_export expand always has_bias m = Ret (m', e).
Proof.
  intros m f F U Q. unfold obj_export, obj_train. destruct (always || ly_training m) eqn:E.
  - assert (ly_training m = true) as T by (destruct (ly_training m), always; cbn in *; congruence). unfold obj_used in U. rewrite T in U. cbn [negb] in U. rewrite U. cbn [bind ly_buffer].
    rewrite (bias_same _ _ U). cbn [bind]. do 2 eexists. reflexivity.
  - apply orb_false_iff in E as (_ & T). destruct (F T) as (w & g & Ew & Eb). cbn [bind ly_buffer]. rewrite Eb. cbn [bind].
    rewrite (bias_same _ _ Ew). cbn [bind]. do 2 eexists. reflexivity.
Qed.
End Object.

Section Layers.
Context {A X T : Type}.
Variable rep : A -> repr T.
Variable name : A -> string.
Variable aeqb : A -> A -> bool.
Variable order : list A -> list A.
Variable sort : list (string * string) -> list (string * string).
Hypothesis aeqb_ok : forall a b, aeqb a b = true <-> a = b.
Local Notation size := (asize rep).

Lemma expand_bias_some : forall ft m b, is_some (@expand_bias T ft m b) = is_some m.
Proof. intros ft [[t M]|] b; reflexivity. Qed.
Lemma conv_biased : forall (c : rdconv A X) w f, conv_expand rep name c w = Ret f -> is_some (snd f) = is_some (rc_bias c).
Proof. intros c w f H. apply bind_Ret in H as (g & _ & H). apply Ret_inj in H. subst f. apply expand_bias_some. Qed.
Lemma convt_biased : forall (c : @rdconvt A X) w f, convt_expand rep name c w = Ret f -> is_some (snd f) = is_some (rt_bias c).
Proof. intros c w f H. apply bind_Ret in H as (g & _ & H). apply Ret_inj in H. subst f. apply expand_bias_some. Qed.
Lemma linear_biased : forall (c : @linear_layer A X) w f, linear_expand rep name c w = Ret f -> is_some (snd f) = is_some (ll_bias c).
Proof. intros c w f H. apply bind_Ret in H as (g & _ & H). apply Ret_inj in H. subst f. apply expand_bias_some. Qed.

Lemma groups_ok_mul : forall g a b, (0 < g)%nat -> torch_groups_ok (g * a) (g * b) g = true.
Proof.
  intros g a b H. unfold torch_groups_ok. rewrite (proj2 (Nat.ltb_lt 0 g) H), !(Nat.mul_comm g), !Nat.mod_mul by lia. reflexivity.
Qed.

(** ** Convolutions *)
Section Conv.
Variables (irr : list Z -> res (girrep T)) (tid : list Z) (generator : A -> A -> res (option (BlocksModel.kbasis X nat))).
Variables (ins outs : list A) (d k p : nat) (mode : pad_mode) (stride dil groups : nat) (bias : bool) (bf : option (attr X -> bool)).
Variable c : rdconv A X.
Hypothesis built : mk_rdconv rep name aeqb order sort irr tid generator ins outs d k p mode stride dil groups bias bf = Ret c.
Variables (w0 : params) (zeros : expansion) (ops : list obj_op) (m : @layer params expansion).
Hypothesis reached : obj_run (conv_expand rep name c) false ops (new_layer w0 zeros) = Ret m.

Lemma conv_parts : rc_in c = ins /\ rc_out c = outs /\ rc_mode c = mode /\ rc_groups c = groups /\ rc_stride c = stride /\ rc_dilation c = dil /\ rc_padding c = p /\
  ((0 < groups)%nat -> torch_groups_ok (type_size size ins) (type_size size outs) groups = true).
Proof.
  destruct (mk_rdconv_inv rep name aeqb order sort generator bf aeqb_ok _ _ _ _ _ _ _ _ _ _ _ _ _ built) as (first & mb & b & _ & _ & _ & _ & G & ->).
  cbn. repeat (split; [reflexivity|]). intros Hg. destruct (G Hg) as (-> & fo & ->). rewrite !type_size_repeat. apply groups_ok_mul. exact Hg.
Qed.
Lemma conv_filled : filled (conv_expand rep name c) m.
Proof. exact (filled_run _ _ _ _ _ (filled_new _ _ _) reached). Qed.

(** the exported module is the layer with zero padding *)
Lemma conv_export_call : forall m' t, conv_export rep name c m = Ret (m', t) ->
  ly_training m' = false /\ ly_params m' = ly_params m /\
  (forall x, conv_call rep name aeqb c m' x = conv_call rep name aeqb c m x) /\
  exists e, obj_used (conv_expand rep name c) m = Ret e /\
    t = {| tc_weight := fst e; tc_bias := snd e; tc_padding := p; tc_stride := stride; tc_dilation := dil; tc_groups := groups |}.
Proof.
  intros m' t H. unfold conv_export in H. apply bind_Ret in H as ((m1 & e) & He & H). apply assert_Ret in H as (_ & H). apply Ret_inj in H.
  cbn [fst snd] in H. injection H as -> <-.
  destruct (export_after _ _ _ (conv_biased c) m m' e conv_filled He) as (T1 & T2 & T3 & _).
  pose proof (export_before _ false _ (conv_biased c) m m' e conv_filled eq_refl He) as B.
  destruct conv_parts as (_ & _ & _ & -> & -> & -> & -> & _).
  split; [exact T1|split; [exact T2|split]].
  - intros x. unfold conv_call. rewrite T3, B. reflexivity.
  - exists e. split; [exact B|reflexivity].
Qed.
Lemma conv_call_groups : forall x y, conv_call rep name aeqb c m x = Ret y -> (0 < groups)%nat.
Proof.
  intros x y H. unfold conv_call in H. apply assert_Ret in H as (_ & H). apply bind_Ret in H as (f & _ & H). apply bind_Ret in H as (z & H & _).
  unfold conv_forward in H. apply bind_Ret in H as (xp & _ & H). unfold conv in H. apply assert_Ret in H as (_ & H). apply assert_Ret in H as (H & _).
  destruct conv_parts as (_ & _ & _ & Eg & _). rewrite Eg in H. rewrite !andb_true_iff in H. apply Nat.ltb_lt. tauto.
Qed.
(** the export returns whenever some input can be convolved *)
Lemma conv_exports : forall x y, conv_call rep name aeqb c m x = Ret y -> exists m' t, conv_export rep name c m = Ret (m', t).
Proof.
  intros x y H. pose proof (conv_call_groups x y H) as Hg. unfold conv_call in H. apply assert_Ret in H as (_ & H). apply bind_Ret in H as (f & Hf & _).
  destruct (export_returns _ false _ (conv_biased c) m f conv_filled Hf eq_refl) as (m' & e & He).
  unfold conv_export. rewrite He. cbn [bind]. destruct conv_parts as (-> & -> & _ & -> & _ & _ & _ & G). rewrite (G Hg). cbn [assert_ bind]. do 2 eexists. reflexivity.
Qed.
Theorem conv_export_same : mode = PadZeros -> forall m' t, conv_export rep name c m = Ret (m', t) ->
  forall x y, conv_call rep name aeqb c m (ins, x) = Ret (outs, y) <-> torch_conv_call t x = Ret y.
Proof.
  intros Em m' t H x y. destruct (conv_export_call m' t H) as (_ & _ & _ & e & U & ->). unfold conv_call, torch_conv_call. cbn [fst snd tc_padding tc_groups tc_stride tc_dilation tc_weight tc_bias].
  destruct conv_parts as (-> & -> & -> & -> & -> & -> & -> & _). rewrite (proj2 (same_type_ok aeqb aeqb_ok ins ins) eq_refl). cbn [assert_ bind]. rewrite U. cbn [bind]. rewrite Em.
  destruct (conv_forward _ _ _ _ _ _ _ _) as [|z]; cbn [bind]; split; intros E; try discriminate; apply Ret_inj in E; [injection E as ->; reflexivity|subst z; reflexivity].
Qed.
End Conv.

(** ** Transposed convolutions *)
Section ConvT.
Variables (irr : list Z -> res (girrep T)) (tid : list Z) (generator : A -> A -> res (option (BlocksModel.kbasis X nat))).
Variables (ins outs : list A) (d k p op : nat) (stride dil groups : nat) (bias : bool) (bf : option (attr X -> bool)).
Variable c : @rdconvt A X.
Hypothesis built : mk_rdconvt rep name aeqb order sort irr tid generator ins outs d k p op stride dil groups bias bf = Ret c.

Lemma mk_rdconvt_inv : exists first mb b, mk_bias irr tid bias (map rep outs) = Ret mb /\
    mk_blocks (k ^ d)%nat name size aeqb order sort ins first generator bf = Ret b /\ bb_dim b <> 0%nat /\
    (forall x, In x first -> In x outs) /\
    ((0 < groups)%nat -> outs = concat (repeat first groups) /\ exists fi, ins = concat (repeat fi groups)) /\
    c = {| rt_in := ins; rt_out := outs; rt_d := d; rt_k := k; rt_padding := p; rt_output_padding := op; rt_stride := stride;
           rt_dilation := dil; rt_groups := groups; rt_bias := mb; rt_expansion := b |}.
Proof.
  pose proof built as H. unfold mk_rdconvt in H.
  apply bind_Ret in H as (first & H1 & H). apply bind_Ret in H as (mb & H2 & H). apply bind_Ret in H as (b & H3 & H).
  apply assert_Ret in H as (H4 & H). apply Ret_inj in H. exists first, mb, b.
  split; [exact H2|]. split; [exact H3|]. split; [apply negb_true_iff, Nat.eqb_neq in H4; exact H4|].
  destruct (Nat.ltb_spec 1 groups).
  - do 4 apply assert_Ret in H1 as (? & H1). apply Ret_inj in H1. subst first. split; [intros x Hx; rewrite <- (firstn_skipn (length outs / groups)); apply in_or_app; left; exact Hx|].
    split; [|symmetry; exact H]. intros Hg. split.
    + apply (equal_groups_ok aeqb aeqb_ok); [lia|apply Nat.eqb_eq; assumption|assumption].
    + eexists. apply (equal_groups_ok aeqb aeqb_ok); [lia|apply Nat.eqb_eq; assumption|assumption].
  - apply Ret_inj in H1. subst first. split; [auto|]. split; [|symmetry; exact H]. intros Hg. assert (groups = 1%nat) as -> by lia. cbn [repeat concat]. rewrite app_nil_r. split; [reflexivity|].
    exists ins. rewrite app_nil_r. reflexivity.
Qed.

Variables (w0 : params) (zeros : expansion) (ops : list obj_op) (m : @layer params expansion).
Hypothesis reached : obj_run (convt_expand rep name c) false ops (new_layer w0 zeros) = Ret m.
Lemma convt_parts : rt_in c = ins /\ rt_out c = outs /\ rt_groups c = groups /\ rt_stride c = stride /\ rt_dilation c = dil /\ rt_padding c = p /\ rt_output_padding c = op /\
  ((0 < groups)%nat -> torch_groups_ok (type_size size ins) (type_size size outs) groups = true).
Proof.
  destruct mk_rdconvt_inv as (first & mb & b & _ & _ & _ & _ & G & ->).
  cbn. repeat (split; [reflexivity|]). intros Hg. destruct (G Hg) as (-> & fo & ->). rewrite !type_size_repeat. apply groups_ok_mul. exact Hg.
Qed.
Lemma convt_filled : filled (convt_expand rep name c) m.
Proof. exact (filled_run _ _ _ _ _ (filled_new _ _ _) reached). Qed.
Lemma convt_export_call : forall m' t, convt_export rep name c m = Ret (m', t) ->
  ly_training m' = false /\ ly_params m' = ly_params m /\
  (forall x, convt_call rep name aeqb c m' x = convt_call rep name aeqb c m x) /\
  exists e, obj_used (convt_expand rep name c) m = Ret e /\
    t = {| tt_weight := fst e; tt_bias := snd e; tt_padding := p; tt_output_padding := 0; tt_stride := stride; tt_dilation := dil; tt_groups := groups |}.
Proof.
  intros m' t H. unfold convt_export in H. apply bind_Ret in H as ((m1 & e) & He & H). apply assert_Ret in H as (_ & H). apply Ret_inj in H.
  cbn [fst snd] in H. injection H as -> <-.
  destruct (export_after _ _ _ (convt_biased c) m m' e convt_filled He) as (T1 & T2 & T3 & _).
  pose proof (export_before _ false _ (convt_biased c) m m' e convt_filled eq_refl He) as B.
  destruct convt_parts as (_ & _ & -> & -> & -> & -> & _ & _).
  split; [exact T1|split; [exact T2|split]].
  - intros x. unfold convt_call. rewrite T3, B. reflexivity.
  - exists e. split; [exact B|reflexivity].
Qed.
Lemma convt_exports : forall x y, convt_call rep name aeqb c m x = Ret y -> exists m' t, convt_export rep name c m = Ret (m', t).
Proof.
  intros x y H. assert (0 < groups)%nat as Hg.
  { unfold convt_call in H. apply assert_Ret in H as (_ & H). apply bind_Ret in H as (f & _ & H). apply bind_Ret in H as (z & H & _).
    unfold conv_transpose in H. apply assert_Ret in H as (_ & H). apply assert_Ret in H as (H & _).
    destruct convt_parts as (_ & _ & Eg & _). rewrite Eg in H. rewrite !andb_true_iff in H. apply Nat.ltb_lt. tauto. }
  unfold convt_call in H. apply assert_Ret in H as (_ & H). apply bind_Ret in H as (f & Hf & _).
  destruct (export_returns _ false _ (convt_biased c) m f convt_filled Hf eq_refl) as (m' & e & He).
  unfold convt_export. rewrite He. cbn [bind]. destruct convt_parts as (-> & -> & -> & _ & _ & _ & _ & G). rewrite (G Hg). cbn [assert_ bind]. do 2 eexists. reflexivity.
Qed.
Theorem convt_export_same : op = 0%nat -> forall m' t, convt_export rep name c m = Ret (m', t) ->
  forall x y, convt_call rep name aeqb c m (ins, x) = Ret (outs, y) <-> torch_convt_call t x = Ret y.
Proof.
  intros Em m' t H x y. destruct (convt_export_call m' t H) as (_ & _ & _ & e & U & ->). unfold convt_call, torch_convt_call. cbn [fst snd tt_padding tt_output_padding tt_groups tt_stride tt_dilation tt_weight tt_bias].
  destruct convt_parts as (-> & -> & -> & -> & -> & -> & -> & _). rewrite (proj2 (same_type_ok aeqb aeqb_ok ins ins) eq_refl). cbn [assert_ bind]. rewrite U. cbn [bind]. rewrite Em.
  destruct (conv_transpose _ _ _ _ _ _ _ _) as [|z]; cbn [bind]; split; intros E; try discriminate; apply Ret_inj in E; [injection E as ->; reflexivity|subst z; reflexivity].
Qed.
(** with output_padding the two outputs never have the same shape *)
Theorem convt_export_shape : (0 < op)%nat -> forall m' t, convt_export rep name c m = Ret (m', t) ->
  forall x y y', convt_call rep name aeqb c m (ins, x) = Ret (outs, y) -> torch_convt_call t x = Ret y' -> (2 < length (shape x))%nat -> shape y <> shape y'.
Proof.
  intros Po m' t H x y y' Hy Hy' D E. destruct (convt_export_call m' t H) as (_ & _ & _ & e & U & ->).
  unfold convt_call in Hy. apply assert_Ret in Hy as (_ & Hy). apply bind_Ret in Hy as (e' & He' & Hy). rewrite U in He'. apply Ret_inj in He'. subst e'.
  apply bind_Ret in Hy as (z & Hz & Hy). apply Ret_inj in Hy. injection Hy as Eo ->. cbn [snd] in Hz.
  destruct convt_parts as (_ & _ & Eg & Es & Ed & Ep & Eop & _). rewrite Eg, Es, Ed, Ep, Eop in Hz.
  unfold torch_convt_call in Hy'. cbn [tt_padding tt_output_padding tt_groups tt_stride tt_dilation tt_weight tt_bias] in Hy'.
  unfold conv_transpose in Hz, Hy'. apply assert_Ret in Hz as (Q & Hz). apply assert_Ret in Hy' as (_ & Hy').
  do 4 apply assert_Ret in Hz as (_ & Hz). do 4 apply assert_Ret in Hy' as (_ & Hy'). apply assert_Ret in Hz as (Q1 & Hz). apply assert_Ret in Hy' as (Q2 & Hy').
  apply Ret_inj in Hz. apply Ret_inj in Hy'. subst y y'. cbn [shape] in E. apply (f_equal (@tl nat)) in E. apply (f_equal (@tl nat)) in E. cbn [tl] in E.
  rewrite andb_true_iff in Q. destruct Q as (_ & Q). apply Nat.eqb_eq in Q.
  destruct (skipn 2 (shape x)) as [|w ws] eqn:Ew; [apply (f_equal (@length nat)) in Ew; rewrite skipn_length in Ew; cbn in Ew; lia|].
  destruct (skipn 2 (shape (fst e))) as [|q qs]; [discriminate|]. cbn [combine map forallb fst snd] in E, Q1, Q2.
  apply andb_true_iff in Q1 as (Q1 & _). apply andb_true_iff in Q2 as (Q2 & _). apply Z.leb_le in Q1, Q2. injection E as E _.
  unfold transposed_size in E, Q1, Q2. lia.
Qed.
End ConvT.

(** ** Linear layers *)
Section Lin.
Variable c : @linear_layer A X.
Variables (w0 : params) (zeros : expansion) (ops : list obj_op) (m : @layer params expansion).
Hypothesis reached : obj_run (linear_expand rep name c) true ops (new_layer w0 zeros) = Ret m.
Lemma linear_filled : filled (linear_expand rep name c) m.
Proof. exact (filled_run _ _ _ _ _ (filled_new _ _ _) reached). Qed.
Theorem linear_export_same : forall m' t, linear_export rep name c m = Ret (m', t) ->
  ly_training m' = false /\ ly_params m' = ly_params m /\
  (forall x y, linear_call rep name aeqb c m' (ll_in c, x) = Ret (ll_out c, y) <-> linear (fst t) (snd t) x = Ret y) /\
  (ly_training m = true -> forall x y, linear_call rep name aeqb c m (ll_in c, x) = Ret (ll_out c, y) <-> linear (fst t) (snd t) x = Ret y).
Proof.
  intros m' t H. destruct (export_after _ _ _ (linear_biased c) m m' t linear_filled H) as (T1 & T2 & T3 & _).
  assert (G : forall n, obj_used (linear_expand rep name c) n = Ret t -> forall x y, linear_call rep name aeqb c n (ll_in c, x) = Ret (ll_out c, y) <-> linear (fst t) (snd t) x = Ret y).
  { intros n U x y. unfold linear_call. cbn [fst snd]. rewrite (proj2 (same_type_ok aeqb aeqb_ok (ll_in c) (ll_in c)) eq_refl). cbn [assert_ bind]. rewrite U. cbn [bind].
    destruct (linear (fst t) (snd t) x) as [|z]; cbn [bind]; split; intros E; try discriminate; apply Ret_inj in E; [injection E as ->; reflexivity|subst z; reflexivity]. }
  split; [exact T1|split; [exact T2|split; [exact (G m' T3)|]]]. intros E. apply G.
  apply (export_before _ true _ (linear_biased c) m m' t linear_filled); [rewrite E; reflexivity|exact H].
Qed.
(** the export of a layer whose weights can be expanded returns *)
Theorem linear_exports : (exists m' t, linear_export rep name c m = Ret (m', t)) <-> exists e, linear_expand rep name c (ly_params m) = Ret e.
Proof.
  unfold linear_export, obj_export, obj_train. cbn [orb]. split.
  - intros (m' & t & H). apply bind_Ret in H as (m1 & H & _). apply bind_Ret in H as (e & H & _). exists e. exact H.
  - intros (e & E). rewrite E. cbn [bind ly_buffer]. rewrite (bias_same _ _ (linear_biased c) _ _ E). cbn [bind]. do 2 eexists. reflexivity.
Qed.
End Lin.
End Layers.

(** ** Sequences *)
Section Seq.
Context {M T X E Y : Type}.
Variables (tin tout : M -> T) (run : M -> X -> res X) (typ : X -> T) (teqb : T -> T -> bool) (tensor : X -> Y) (export : M -> res E) (call : E -> Y -> res Y).
(** what is known of the members: the exported module computes the tensor *)
Theorem seq_export_same : forall (s : seq_state M T) l,
  (forall m e, In m (map snd (s_mods s)) -> export m = Ret e -> forall x y, run m x = Ret y -> call e (tensor x) = Ret (tensor y)) ->
  seq_export export s = Ret l -> map fst l = map fst (s_mods s) /\
  forall x y, forward run typ teqb s x = Ret y -> torch_seq_call call l (tensor x) = Ret (tensor y).
Proof.
  intros s l members H. unfold seq_export in H. apply mapM_Ret_inv in H. split.
  - clear members. induction H as [|[n m] ne ms l H F IH]; [reflexivity|]. cbn [map fst]. rewrite IH. cbn [snd fst] in H. apply bind_Ret in H as (e & _ & H). apply Ret_inj in H. subst ne. reflexivity.
  - intros x y R. unfold forward in R. apply assert_Ret in R as (_ & R). apply bind_Ret in R as (z & R & R'). apply assert_Ret in R' as (_ & R'). apply Ret_inj in R'. subst z.
    unfold torch_seq_call. revert x R. induction H as [|[n m] ne ms l H F IH]; intros x R; cbn [map snd fold_left] in *.
    + apply Ret_inj in R. subst y. reflexivity.
    + apply bind_Ret in H as (e & He & H). apply Ret_inj in H. subst ne. cbn [snd fst bind] in *. destruct (run m x) as [|x1] eqn:E1.
      * exfalso. clear -R. induction ms as [|a ms IH]; cbn in R; [discriminate|]. exact (IH R).
      * rewrite (members m e (or_introl eq_refl) He x x1 E1). apply (IH (fun m' e' I => members m' e' (or_intror I)) x1 R).
Qed.
End Seq.

(** A sequence of convolutions with zero padding, in any states they can reach *)
Section SeqConv.
Context {A X T : Type}.
Variables (rep : A -> repr T) (name : A -> string) (aeqb : A -> A -> bool) (order : list A -> list A) (sort : list (string * string) -> list (string * string)).
Hypothesis aeqb_ok : forall a b, aeqb a b = true <-> a = b.
Definition zero_padded (cm : rdconv A X * @layer params expansion) : Prop :=
  exists irr tid generator ins outs d k p stride dil groups bias bf w0 zeros ops,
    mk_rdconv rep name aeqb order sort irr tid generator ins outs d k p PadZeros stride dil groups bias bf = Ret (fst cm) /\
    obj_run (conv_expand rep name (fst cm)) false ops (new_layer w0 zeros) = Ret (snd cm).
Theorem conv_seq_export : forall teqb (s : seq_state (rdconv A X * @layer params expansion) (list A)) l, Forall zero_padded (map snd (s_mods s)) ->
  seq_export (fun cm => e <- conv_export rep name (fst cm) (snd cm) ;; Ret (snd e)) s = Ret l ->
  forall x y, forward (fun cm => conv_call rep name aeqb (fst cm) (snd cm)) fst teqb s x = Ret y ->
  torch_seq_call torch_conv_call l (snd x) = Ret (snd y).
Proof.
  intros teqb s l F H. refine (proj2 (seq_export_same _ fst teqb snd _ _ s l _ H)).
  intros [c m] t Hin E [xt x] [yt y] R. cbn [fst snd] in *. apply bind_Ret in E as ([m' t'] & E & E'). apply Ret_inj in E'. cbn [snd] in E'. subst t'.
  rewrite Forall_forall in F. destruct (F _ Hin) as (irr & tid & generator & ins & outs & d & k & p & stride & dil & groups & bias & bf & w0 & zeros & ops & Ec & Em). cbn [fst snd] in Ec, Em.
  destruct (conv_parts rep name aeqb order sort aeqb_ok _ _ _ _ _ _ _ _ _ _ _ _ _ _ _ Ec _ _ _ _ Em) as (Ei & Eo & _).
  assert (xt = ins /\ yt = outs) as (-> & ->).
  { unfold conv_call in R. apply assert_Ret in R as (Q & R). cbn [fst] in Q. apply (same_type_ok aeqb aeqb_ok) in Q. apply bind_Ret in R as (f & _ & R). apply bind_Ret in R as (z & _ & R). apply Ret_inj in R. injection R as <- _. split; congruence. }
  exact (proj1 (conv_export_same rep name aeqb order sort aeqb_ok _ _ _ _ _ _ _ _ _ _ _ _ _ _ _ Ec _ _ _ _ Em eq_refl m' t E x y) R).
Qed.
End SeqConv.
