(** Convolutions, transposed convolutions and Linear are equivariant in every state. *)
From Coq Require Import String.
From Coq Require Import Reals ZArith Bool List Arith Lia Lra Permutation.
From Verif Require Import LibRes LibMat LibMatS FieldModel SpecField SpecRep SpecIrrep RepModel SpecRepr BlocksModel SpecBlocks BlocksCor LayerModel SpecLayer BiasThms BiasCor
  GridModel SpecGrid GridProofs GridThms ImageModel SpecImage ImageProofs MaskThms ConvThms TransposedModel TransposedThms SpecRdConv RdConvModel RdConvProofs RdConvThms RdConvCor SeqModel ExportModel ExportThms LinearModel.
Import ListNotations.
Open Scope R_scope.

(** ** The parameters a state uses *)
Section Used.
Variable expand : params -> res expansion.
Variable always : bool.
Variable P : params -> Prop.
Definition from (m : @layer params expansion) : Prop :=
  P (ly_params m) /\ (ly_training m = false -> exists w f, P w /\ expand w = Ret f /\ ly_buffer m = Some f).
Definition sets_ok (o : obj_op) : Prop := match o with SetParams w => P w | Train _ => True end.
Lemma from_step : forall o m m', sets_ok o -> from m -> obj_step expand always o m = Ret m' -> from m'.
Proof.
  intros [mode|w] m m' Ho (F1 & F2) H; cbn [obj_step] in H.
  - unfold obj_train in H. destruct mode; [apply Ret_inj in H; subst m'; split; [exact F1|intros E; discriminate]|].
    destruct (always || ly_training m) eqn:Q.
    + apply bind_Ret in H as (f & Ef & H). apply Ret_inj in H. subst m'. split; [exact F1|]. intros _. exists (ly_params m), f. auto.
    + apply Ret_inj in H. subst m'. split; [exact F1|]. intros _. cbn [ly_buffer]. apply orb_false_iff in Q as (_ & Q). exact (F2 Q).
  - apply Ret_inj in H. subst m'. split; [exact Ho|exact F2].
Qed.
Lemma from_run : forall ops m m', (forall w, In (SetParams w) ops -> P w) -> from m -> obj_run expand always ops m = Ret m' -> from m'.
Proof.
  induction ops as [|o ops IH]; intros m m' Fo F H; cbn [obj_run] in H; [apply Ret_inj in H; subst m'; exact F|].
  apply bind_Ret in H as (m1 & H1 & H). apply (IH m1 m' (fun w Hw => Fo w (or_intror Hw))); [|exact H]. apply (from_step o m m1); [|exact F|exact H1].
  destruct o as [|w]; [exact I|exact (Fo w (or_introl eq_refl))].
Qed.
Lemma from_new : forall w z, P w -> from (new_layer w z).
Proof. intros w z H. split; [exact H|intros E; discriminate]. Qed.
Lemma used_from : forall m f, from m -> obj_used expand m = Ret f -> exists w, P w /\ expand w = Ret f.
Proof.
  intros m f (F1 & F2) H. unfold obj_used in H. destruct (ly_training m) eqn:E; cbn [negb] in H; [exists (ly_params m); auto|].
  destruct (F2 eq_refl) as (w & f' & Pw & Ew & Eb). rewrite Eb in H. apply Ret_inj in H. subst f'. exists w. auto.
Qed.
End Used.

Lemma built_out : forall {A X} (S0 : nat) (name : A -> string) (size : A -> nat) aeqb order sort ins outs generator bf (b : blocks A X nat),
  mk_blocks S0 name size aeqb order sort ins outs generator bf = Ret b -> bb_out b = outs.
Proof.
  intros A X S0 name size aeqb order sort ins outs generator bf b H. unfold mk_blocks, build_blocks in H.
  apply bind_Ret in H as (m & _ & H). apply bind_Ret in H as (ci & _ & H). apply bind_Ret in H as (co & _ & H).
  apply bind_Ret in H as ([[[c i] r] d] & _ & H). apply Ret_inj in H. subst b. reflexivity.
Qed.

Lemma apply_twice : forall n c (B : mat) v (r : nat -> R), sumn n (fun i => r i * sumn c (fun j => B i j * v j)) = sumn c (fun j => sumn n (fun l => r l * B l j) * v j).
Proof.
  intros n c B v r. transitivity (sumn n (fun i => sumn c (fun j => r i * B i j * v j))).
  - apply sumn_ext. intros i Hi. rewrite <- sumn_scal_l. apply sumn_ext. intros; ring.
  - rewrite sumn_swap. apply sumn_ext. intros j Hj. apply sumn_scal_r.
Qed.

Section Layers.
Context {A X T : Type}.
Variable rep : A -> repr T.
Variable name : A -> string.
Variable aeqb : A -> A -> bool.
Variable order : list A -> list A.
Variable sort : list (string * string) -> list (string * string).
Variable generator : A -> A -> res (option (BlocksModel.kbasis X nat)).
Variable bf : option (attr X -> bool).
Hypothesis aeqb_ok : forall a b, aeqb a b = true <-> a = b.
Hypothesis order_ok : forall l, Permutation (order l) l.
Hypothesis sort_ok : forall l, Permutation (sort l) l.
Notation size := (asize rep).
Variables (irr : list Z -> res (girrep T)) (mem : T -> Prop) (op : T -> T -> res T) (e : T) (tid : list Z) (ins outs : list A).
Hypothesis Tr : forall i, irr tid = Ret i -> trivial_rep mem (gi_size i) (gi_rep i).
Hypothesis Pr : Forall (fun a => proper irr mem op e (rep a) /\ (0 < r_size (rep a))%nat) (ins ++ outs).
Hypothesis Nin : told_apart name ins.
Hypothesis Nout : told_apart name outs.
Hypothesis Gen : forall i o, In i ins -> In o outs -> exists kb, generator i o = Ret kb /\ forall q, kb = Some q -> kb_out q = r_size (rep o) /\ kb_in q = r_size (rep i).

Lemma conv_state : forall (c : rdconv A X) w0 zeros ops m, length (fst w0) = bb_dim (rc_expansion c) ->
  (forall w, In (SetParams w) ops -> length (fst w) = bb_dim (rc_expansion c)) -> obj_run (conv_expand rep name c) false ops (new_layer w0 zeros) = Ret m ->
  forall x y, conv_call rep name aeqb c m x = Ret y -> exists w, length (fst w) = bb_dim (rc_expansion c) /\ forall x', conv_call rep name aeqb c m x' = rc_forward rep name aeqb c (fst w) (snd w) x'.
Proof.
  intros c w0 zeros ops m L0 Fo Hm x y H. unfold conv_call in H. apply assert_Ret in H as (_ & H). apply bind_Ret in H as (fb & Efb & _).
  pose proof (from_run _ _ _ ops _ _ Fo (from_new (conv_expand rep name c) (fun w => length (fst w) = bb_dim (rc_expansion c)) w0 zeros L0) Hm) as F.
  destruct (used_from _ _ m fb F Efb) as (w & Pw & Ew). exists w. split; [exact Pw|]. intros x'. unfold conv_call, rc_forward. rewrite Efb. unfold conv_expand in Ew. rewrite Ew. reflexivity.
Qed.

Section At.
Variables (g : T) (half : R -> R) (affine : array R -> mat -> nat -> res (array R)) (base : T -> res (nat * mat)) (n : nat) (M : mat).
Hypotheses (H0 : half 0 = 0) (H1 : half 1 = 1) (Hm : half (-1) = -1).
Hypothesis Hg : mem g.
Hypothesis EM : base g = Ret (n, M).
Hypothesis SM : signed_perm n M.
Variables (k p stride dil groups : nat) (bias : bool).
Hypothesis St : forall i o kb el Bi Bo, In i ins -> In o outs -> generator i o = Ret (Some kb) -> In el (kb_elements kb) ->
  r_fun (rep i) g = Ret (r_size (rep i), Bi) -> r_fun (rep o) g = Ret (r_size (rep o), Bo) ->
  filter_of_steerable n k dil (r_size (rep o)) (r_size (rep i)) M Bi Bo (el_sample el).

Theorem conv_states : forall mode c w0 zeros ops m,
  mk_rdconv rep name aeqb order sort irr tid generator ins outs n k p mode stride dil groups bias bf = Ret c -> length (fst w0) = bb_dim (rc_expansion c) ->
  (forall w, In (SetParams w) ops -> length (fst w) = bb_dim (rc_expansion c)) -> obj_run (conv_expand rep name c) false ops (new_layer w0 zeros) = Ret m ->
  forall x y B ws, shape x = B :: type_size size ins :: ws -> length ws = n -> fits k p stride dil ws -> conv_call rep name aeqb c m (ins, x) = Ret (outs, y) ->
  exists x' y' z, field_transform rep half affine base ins g x = Ret x' /\ conv_call rep name aeqb c m (ins, x') = Ret (outs, y') /\
    field_transform rep half affine base outs g y = Ret z /\ same_array y' z.
Proof.
  intros mode c w0 zeros ops m Ec L0 Fo Hr x y B ws Ex Lw Hf Hy. destruct (conv_state c w0 zeros ops m L0 Fo Hr _ _ Hy) as (w & Pw & Same).
  rewrite Same in Hy. destruct (layer_ok A X T rep name aeqb order sort generator bf aeqb_ok order_ok sort_ok half H0 H1 Hm affine base irr mem op e tid ins outs n k p mode stride dil groups bias c g M (fst w) (snd w) x y B ws)
    as (x' & y' & z & E1 & E2 & E3 & E4); auto.
  exists x', y', z. rewrite Same. auto.
Qed.

Lemma values : forall ft, (forall a, In a ft -> In a (ins ++ outs)) -> Forall (fun a => exists C, r_fun (rep a) g = Ret (size a, C)) ft.
Proof.
  intros ft Hft. apply Forall_forall. intros a Ha. rewrite Forall_forall in Pr. destruct (Pr a (Hft a Ha)) as ((_ & _ & _ & _ & R) & _). destruct (R g Hg) as (_ & C & _ & _ & E & _). exists C. exact E.
Qed.
Lemma steer_values : forall i o, In i ins -> In o outs -> samples_steerable rep generator n k dil M (fun a => value_at g (rep a)) i o.
Proof.
  intros i o Hi Ho kb el Eg He. pose proof (values (ins ++ outs) (fun a H => H)) as V. rewrite Forall_forall in V. destruct (V i (in_or_app _ _ _ (or_introl Hi))) as (Bi & Ei). destruct (V o (in_or_app _ _ _ (or_intror Ho))) as (Bo & Eo).
  unfold value_at. rewrite Ei, Eo. exact (St i o kb el Bi Bo Hi Ho Eg He Ei Eo).
Qed.
Lemma bias_fixed : forall mb b v, mk_bias irr tid bias (map rep outs) = Ret mb -> expand_bias (map rep outs) mb b = Some v -> forall o, (o < type_size size outs)%nat ->
  sumn (type_size size outs) (fun j => dg size (fun a => value_at g (rep a)) outs o j * nth j v 0) = nth o v 0.
Proof.
  intros mb b v Em Ev o Ho. apply (fixed_sum rep (value_at g)); [|exact Ho]. apply (bias_invariant_ok T irr mem op e tid bias (map rep outs) mb b v g (value_at g)); auto.
  - apply Forall_map. apply Forall_forall. intros a Ha. rewrite Forall_forall in Pr. apply (Pr a), in_or_app. right. exact Ha.
  - intros r Hr. apply in_map_iff in Hr as (a & <- & Ha). pose proof (values outs (fun a H => in_or_app _ _ _ (or_intror H))) as V. rewrite Forall_forall in V. destruct (V a Ha) as (C & EC). unfold value_at. rewrite EC. reflexivity.
Qed.

Theorem convt_states : forall c w0 zeros ops m,
  mk_rdconvt rep name aeqb order sort irr tid generator ins outs n k p 0 stride dil groups bias bf = Ret c -> length (fst w0) = bb_dim (rt_expansion c) ->
  (forall w, In (SetParams w) ops -> length (fst w) = bb_dim (rt_expansion c)) -> obj_run (convt_expand rep name c) false ops (new_layer w0 zeros) = Ret m ->
  forall x y B ws, shape x = B :: type_size size ins :: ws -> length ws = n -> convt_call rep name aeqb c m (ins, x) = Ret (outs, y) ->
  exists x' y' z, field_transform rep half affine base ins g x = Ret x' /\ convt_call rep name aeqb c m (ins, x') = Ret (outs, y') /\
    field_transform rep half affine base outs g y = Ret z /\ same_array y' z.
Proof.
  intros c w0 zeros ops m Ec L0 Fo Hr x y B ws Ex Lws Hy.
  assert (exists w, length (fst w) = bb_dim (rt_expansion c) /\ convt_expand rep name c w = obj_used (convt_expand rep name c) m) as (w & Lw & Ew).
  { unfold convt_call in Hy. apply assert_Ret in Hy as (_ & Hy). apply bind_Ret in Hy as (fb & Efb & _).
    pose proof (from_run _ _ _ ops _ _ Fo (from_new (convt_expand rep name c) (fun w => length (fst w) = bb_dim (rt_expansion c)) w0 zeros L0) Hr) as F.
    destruct (used_from _ _ m fb F Efb) as (w & Pw & Ew). exists w. rewrite Efb. auto. }
  unfold convt_call in Hy |- *. rewrite <- Ew in Hy |- *. clear Ew Hr Fo L0 w0.
  destruct (mk_rdconvt_inv rep name aeqb order sort aeqb_ok irr tid generator ins outs n k p 0 stride dil groups bias bf c Ec) as (first & mb & bl & Em & Ebl & Nz & Hfi & Hgr & ->).
  cbn [rt_expansion] in Lw.
  assert (Pin : Forall (fun a => (0 < size a)%nat) ins) by (apply Forall_forall; intros a Ha; rewrite Forall_forall in Pr; apply (Pr a), in_or_app; left; exact Ha).
  assert (Pout : Forall (fun a => (0 < size a)%nat) first) by (apply Forall_forall; intros a Ha; rewrite Forall_forall in Pr; apply (Pr a), in_or_app; right; exact (Hfi a Ha)).
  destruct (filter_steers rep name aeqb order sort generator bf aeqb_ok order_ok sort_ok ins first) with (n := n) (k := k) (dil := dil) (M := M) (rho := fun a => value_at g (rep a)) (b := bl) (w := fst w)
    as (f & Ef & (K & HK & HKS & HF)); auto.
  { intros i o Hi Ho. destruct (Gen i o Hi (Hfi o Ho)) as (kb & E & H). exists kb. auto. }
  { intros i o Hi Ho. exact (steer_values i o Hi (Hfi o Ho)). }
  pose proof (built_out _ _ _ _ _ _ _ _ _ _ _ Ebl) as Eout.
  unfold field_transform.
  rewrite (fiber_matrix_ok rep ins g (values ins (fun a H => in_or_app _ _ _ (or_introl H)))), (fiber_matrix_ok rep outs g (values outs (fun a H => in_or_app _ _ _ (or_intror H)))), EM. cbn [bind fst snd].
  unfold convt_expand in Hy |- *. cbn [fst snd rt_in rt_out rt_d rt_k rt_padding rt_output_padding rt_stride rt_dilation rt_groups rt_bias rt_expansion] in Hy |- *.
  rewrite (proj2 (same_type_ok aeqb aeqb_ok ins ins) eq_refl) in Hy |- *. rewrite Ef in Hy |- *. cbn [assert_ bind fst snd] in Hy |- *. rewrite Eout in Hy |- *.
  apply bind_Ret in Hy as (y0 & Hy & E). apply Ret_inj in E. injection E as ->.
  assert (Gp : (0 < groups)%nat).
  { unfold conv_transpose in Hy. apply assert_Ret in Hy as (_ & Hy). apply assert_Ret in Hy as (Hy & _). do 3 apply andb_true_iff in Hy as (Hy & _). apply Nat.ltb_lt in Hy. exact Hy. }
  destruct (Hgr Gp) as (Ego & fi & Egi).
  set (rho := fun a => value_at g (rep a)) in *.
  assert (Ro : repeats groups (type_size size first) (dg size rho outs) (dg size rho first)) by (rewrite Ego; apply dg_repeat).
  assert (Ri : in_blocks groups (type_size size ins) (dg size rho ins)).
  { rewrite Egi at 1. rewrite type_size_repeat. apply repeats_blocks with (B := dg size rho fi); [exact Gp|]. rewrite Egi. apply dg_repeat. }
  assert (So : type_size size outs = (groups * type_size size first)%nat) by (rewrite Ego at 1; apply type_size_repeat).
  rewrite So.
  destruct (transposed_equivariant_gen half H0 H1 Hm affine n M groups stride p dil (type_size size first) (type_size size ins) k K f
     (expand_bias (map rep outs) mb (snd w)) (dg size rho ins) (dg size rho first) (dg size rho outs) x y B ws) as (x' & y' & z & E1 & E2 & E3 & E4); auto.
  - intros v Ev o Ho. rewrite <- So in Ho |- *. exact (bias_fixed mb (snd w) v Em Ev o Ho).
  - exists x', y', z. unfold transposed_forward in E2. split; [exact E1|]. split; [rewrite E2; reflexivity|]. split; [exact E3|exact E4].
Qed.
End At.

(** ** Linear *)
Lemma built_npairs : forall S0 b, mk_blocks S0 name size aeqb order sort ins outs generator None = Ret b ->
  bb_npairs b = (length (as_set aeqb order ins) * length (as_set aeqb order outs))%nat.
Proof.
  intros S0 b H. unfold mk_blocks, build_blocks in H.
  apply bind_Ret in H as (m & _ & H). apply bind_Ret in H as (ci & _ & H). apply bind_Ret in H as (co & _ & H).
  apply bind_Ret in H as ([[[c i] r] d] & _ & H). apply Ret_inj in H. subst b. reflexivity.
Qed.
Lemma linear_built : forall bias, exists c, mk_linear rep name aeqb order sort irr tid generator ins outs bias = Ret c.
Proof.
  intros bias. assert (Pin : Forall (fun a => (0 < size a)%nat) ins) by (apply Forall_forall; intros a Ha; rewrite Forall_forall in Pr; apply (Pr a), in_or_app; left; exact Ha).
  assert (Pout : Forall (fun a => proper irr mem op e (rep a) /\ (0 < size a)%nat) outs) by (apply Forall_forall; intros a Ha; rewrite Forall_forall in Pr; apply (Pr a), in_or_app; right; exact Ha).
  destruct (blocks_ok 1 name size (fun _ => 0%nat) aeqb order sort generator None ins outs aeqb_ok order_ok sort_ok Nin Nout Pin (Forall_impl _ (fun a H => proj2 H) Pout) Gen) as (b & infos & Eb & _).
  destruct (bias_built _ irr mem op e tid (map rep outs) (proj2 (Forall_map _ _ _) (Forall_impl _ (fun a H => proj1 H) Pout)) bias) as (mb & Em & _).
  unfold mk_linear. rewrite Em. cbn [bind]. rewrite Eb. cbn [bind]. eauto.
Qed.
Lemma linear_expands : forall bias (d0 : info X) c w, mk_linear rep name aeqb order sort irr tid generator ins outs bias = Ret c -> length (fst w) = bb_dim (ll_expansion c) ->
  ((exists f, linear_expand rep name c w = Ret f) <-> ((length (as_set aeqb order ins) * length (as_set aeqb order outs))%nat = 1%nat -> bb_dim (ll_expansion c) <> 0%nat)).
Proof.
  intros bias d0 c w Ec Lw. unfold mk_linear in Ec. apply bind_Ret in Ec as (mb & Em & Ec). apply bind_Ret in Ec as (bl & Ebl & Ec). apply Ret_inj in Ec. subst c. cbn [ll_expansion] in *.
  rewrite <- (built_npairs 1 bl Ebl). assert (Pin : Forall (fun a => (0 < size a)%nat) ins) by (apply Forall_forall; intros a Ha; rewrite Forall_forall in Pr; apply (Pr a), in_or_app; left; exact Ha).
  assert (Pout : Forall (fun a => (0 < size a)%nat) outs) by (apply Forall_forall; intros a Ha; rewrite Forall_forall in Pr; apply (Pr a), in_or_app; right; exact Ha).
  destruct (blocks_ok 1 name size (fun _ => 0%nat) aeqb order sort generator None ins outs aeqb_ok order_ok sort_ok Nin Nout Pin Pout Gen) as (b' & infos & Eb' & _ & _ & _ & _ & _ & _ & Hf & Hno).
  rewrite Ebl in Eb'. apply Ret_inj in Eb'. subst b'. unfold linear_expand. cbn [ll_expansion ll_in ll_out ll_bias]. split.
  - intros (f & E) E1 E0. rewrite (Hno _ E1 E0) in E. discriminate.
  - intros Nz. destruct (Hf (fst w) d0 Lw Nz) as (F & EF & _). rewrite EF. cbn [bind]. eauto.
Qed.
Lemma linear_accepts : forall bias c m f x B, mk_linear rep name aeqb order sort irr tid generator ins outs bias = Ret c -> obj_used (linear_expand rep name c) m = Ret f ->
  (exists w, linear_expand rep name c w = Ret f) -> shape x = [B; type_size size ins] -> exists y, linear_call rep name aeqb c m (ins, x) = Ret (outs, y) /\ shape y = [B; type_size size outs].
Proof.
  intros bias c m f x B Ec U (w & Ew) Ex. unfold linear_call. rewrite U. unfold mk_linear in Ec. apply bind_Ret in Ec as (mb & Em & Ec). apply bind_Ret in Ec as (bl & Ebl & Ec). apply Ret_inj in Ec. subst c.
  cbn [ll_in ll_out fst snd]. rewrite (proj2 (same_type_ok aeqb aeqb_ok ins ins) eq_refl). cbn [assert_ bind]. unfold linear_expand in Ew. cbn [ll_in ll_out ll_expansion ll_bias] in Ew.
  apply bind_Ret in Ew as (F & _ & Ew). apply Ret_inj in Ew. subst f. unfold linear. cbn [fst snd shape reshape_filter nth]. rewrite Ex. cbn [length nth]. rewrite !Nat.eqb_refl. cbn [andb assert_ bind].
  assert (match expand_bias (map rep outs) mb (snd w) with Some b => Nat.eqb (length b) (type_size size outs) | None => true end = true) as ->.
  { destruct (expand_bias (map rep outs) mb (snd w)) as [v|] eqn:E; [|reflexivity]. apply Nat.eqb_eq. exact (expand_bias_length rep outs mb (snd w) v E). }
  cbn [assert_ bind]. eexists. split; reflexivity.
Qed.
Section Point.
Variables (g : T) (bias : bool) (d0 : info X).
Hypothesis Hg : mem g.
Hypothesis St : forall i o kb el Bi Bo, In i ins -> In o outs -> generator i o = Ret (Some kb) -> In el (kb_elements kb) ->
  r_fun (rep i) g = Ret (r_size (rep i), Bi) -> r_fun (rep o) g = Ret (r_size (rep o), Bo) ->
  meq (r_size (rep o)) (r_size (rep i)) (mmul (r_size (rep i)) (fun a b => el_sample el a b 0%nat) Bi) (mmul (r_size (rep o)) Bo (fun a b => el_sample el a b 0%nat)).
Notation rho := (fun a => value_at g (rep a)).

Lemma point_along : forall i o kb el, In i ins -> In o outs -> generator i o = Ret (Some kb) -> In el (kb_elements kb) ->
  along 0 1 1 (size o) (size i) (fun _ _ => 0) (value_at g (rep i)) (value_at g (rep o)) (el_sample el).
Proof.
  intros i o kb el Hi Ho Eg He. pose proof (values g Hg (ins ++ outs) (fun a H => H)) as V. rewrite Forall_forall in V. destruct (V i (in_or_app _ _ _ (or_introl Hi))) as (Bi & Ei). destruct (V o (in_or_app _ _ _ (or_intror Ho))) as (Bo & Eo).
  unfold value_at. rewrite Ei, Eo. exists (fun _ a b => el_sample el a b 0%nat). split; [intros x y _ a b _ _; reflexivity|]. split.
  - intros x a b Ha Hb. exact (St i o kb el Bi Bo Hi Ho Eg He Ei Eo a b Ha Hb).
  - intros a b [|? ?] _ _ V'; [reflexivity|inversion V'].
Qed.

Lemma linear_filter : forall b w F, mk_blocks 1 name size aeqb order sort ins outs generator None = Ret b -> length w = bb_dim b -> BlocksModel.forward 1 name size b w = Ret F ->
  meq (type_size size outs) (type_size size ins) (mmul (type_size size ins) (fun o i => F o i 0%nat) (dg size rho ins)) (mmul (type_size size outs) (dg size rho outs) (fun o i => F o i 0%nat)).
Proof.
  intros b w F Eb Lw EF.
  assert (Pin : Forall (fun a => (0 < size a)%nat) ins) by (apply Forall_forall; intros a Ha; rewrite Forall_forall in Pr; apply (Pr a), in_or_app; left; exact Ha).
  assert (Pout : Forall (fun a => (0 < size a)%nat) outs) by (apply Forall_forall; intros a Ha; rewrite Forall_forall in Pr; apply (Pr a), in_or_app; right; exact Ha).
  destruct (blocks_ok 1 name size (fun _ => 0%nat) aeqb order sort generator None ins outs aeqb_ok order_ok sort_ok Nin Nout Pin Pout Gen) as (b' & infos & Eb' & _ & Li & Hd & _ & _ & _ & Hf & Hno).
  rewrite Eb in Eb'. apply Ret_inj in Eb'. subst b'.
  assert (Nz : bb_npairs b = 1%nat -> bb_dim b <> 0%nat) by (intros E1 E0; rewrite (Hno w E1 E0) in EF; discriminate).
  destruct (Hf w d0 Lw Nz) as (F' & EF' & VF). rewrite EF in EF'. apply Ret_inj in EF'. subst F'.
  assert (AL : along 0 1 1 (type_size size outs) (type_size size ins) (fun _ _ => 0) (dg size rho ins) (dg size rho outs) F).
  { apply along_ext with (f := fun r c p => sumn (bb_dim b) (fun j => nth j w 0 * element_at size (elements_of 1 generator None) ins outs (nth j infos d0) r c p)); [intros o i p Ho Hi; symmetry; apply VF; assumption|].
    apply along_sum. intros j Hj. destruct (nth_error infos j) as [f|] eqn:Ej; [|apply nth_error_None in Ej; lia]. rewrite (nth_error_nth _ _ d0 Ej).
    destruct (Hd j f Ej) as ((ri & ro & a & s & Ei & Eo & Ee & _) & _).
    eapply along_ext; [|apply (along_block size 0 1 1 (fun _ _ => 0) rho ins outs (in_field_position f) (out_field_position f) ri ro s Ei Eo)];
      [intros r c p _ _; unfold element_at; rewrite Ei, Eo, Ee; reflexivity|].
    unfold elements_of in Ee. destruct (generator ri ro) as [|[kb|]] eqn:Eg; try (destruct (block_id f); discriminate).
    apply nth_error_In in Ee. unfold kept in Ee. apply in_map_iff in Ee. destruct Ee as (el & E & He). injection E as _ <-. apply filter_In in He. destruct He as [He _].
    eapply along_ext; [|exact (along_lin 0 1 1 _ _ (fun _ _ => 0) _ _ (fun _ _ _ => 0) (el_sample el) (/ unit_scale 1 (kb_out kb) (kb_in kb) (el_dim el) (el_sample el)) (along_0 0 1 1 _ _ _ _ _)
       (point_along ri ro kb el (nth_error_In _ _ Ei) (nth_error_In _ _ Eo) Eg He))].
    intros r c p _ _. unfold unit_sample, Rdiv. ring. }
  destruct AL as (K & HK & HS & HV). intros o i Ho Hi. unfold mmul. set (q := grid_coords 1 1 (ravel 1 [])).
  assert (V0 : valid (repeat 1%nat 0) []) by (cbn; first [exact I|constructor]).
  transitivity (sumn (type_size size ins) (fun j => K (mvec 0 (fun _ _ => 0) q) o j * dg size rho ins j i)).
  - apply sumn_ext. intros j Hj. f_equal. transitivity (K q o j); [exact (HV o j [] Ho Hj V0)|]. apply HK; [intros; lia|exact Ho|exact Hj].
  - rewrite (HS q o i Ho Hi). apply sumn_ext. intros j Hj. f_equal. symmetry. exact (HV j i [] Hj Hi V0).
Qed.

Theorem linear_states : forall c w0 zeros ops m,
  mk_linear rep name aeqb order sort irr tid generator ins outs bias = Ret c -> length (fst w0) = bb_dim (ll_expansion c) ->
  (forall w, In (SetParams w) ops -> length (fst w) = bb_dim (ll_expansion c)) -> obj_run (linear_expand rep name c) true ops (new_layer w0 zeros) = Ret m ->
  forall x y, linear_call rep name aeqb c m (ins, x) = Ret (outs, y) ->
  exists x' y' z, transform0 rep ins g x = Ret x' /\ linear_call rep name aeqb c m (ins, x') = Ret (outs, y') /\ transform0 rep outs g y = Ret z /\ same_array y' z.
Proof.
  intros c w0 zeros ops m Ec L0 Fo Hr x y Hy.
  assert (exists w, length (fst w) = bb_dim (ll_expansion c) /\ linear_expand rep name c w = obj_used (linear_expand rep name c) m) as (w & Lw & Ew).
  { unfold linear_call in Hy. apply assert_Ret in Hy as (_ & Hy). apply bind_Ret in Hy as (fb & Efb & _).
    pose proof (from_run _ _ _ ops _ _ Fo (from_new (linear_expand rep name c) (fun w => length (fst w) = bb_dim (ll_expansion c)) w0 zeros L0) Hr) as F.
    destruct (used_from _ _ m fb F Efb) as (w & Pw & Ew). exists w. rewrite Efb. auto. }
  unfold linear_call in Hy |- *. rewrite <- Ew in Hy |- *. clear Ew Hr Fo L0 w0.
  unfold mk_linear in Ec. apply bind_Ret in Ec as (mb & Em & Ec). apply bind_Ret in Ec as (bl & Ebl & Ec). apply Ret_inj in Ec. subst c.
  cbn [ll_in ll_out ll_expansion] in *. unfold linear_expand in Hy |- *. cbn [ll_in ll_out ll_expansion ll_bias fst snd] in *.
  apply assert_Ret in Hy as (Es & Hy). rewrite Es. cbn [assert_ bind]. apply bind_Ret in Hy as (fb & Efb & Hy). apply bind_Ret in Efb as (F & EF & Efb). apply Ret_inj in Efb. subst fb.
  cbn [fst snd] in Hy. apply bind_Ret in Hy as (y0 & Hy & E). apply Ret_inj in E. injection E as ->. rewrite EF. cbn [bind fst snd].
  pose proof (linear_filter bl (fst w) F Ebl Lw EF) as Int. set (bb := expand_bias (map rep outs) mb (snd w)) in *.
  assert (Bf : forall v, bb = Some v -> forall o, (o < type_size size outs)%nat -> sumn (type_size size outs) (fun j => dg size rho outs o j * nth j v 0) = nth o v 0)
    by (intros v Ev o Ho; exact (bias_fixed g Hg bias mb (snd w) v Em Ev o Ho)).
  clearbody bb. unfold linear in Hy |- *. cbn [shape entry reshape_filter nth repeat skipn] in Hy |- *.
  apply assert_Ret in Hy as (Sx & Hy). apply assert_Ret in Hy as (Sb & Hy). apply Ret_inj in Hy.
  apply andb_true_iff in Sx as (S1 & S2). apply Nat.eqb_eq in S1. apply Nat.eqb_eq in S2.
  unfold transform0. rewrite (fiber_matrix_ok rep ins g (values g Hg ins (fun a H => in_or_app _ _ _ (or_introl H)))), (fiber_matrix_ok rep outs g (values g Hg outs (fun a H => in_or_app _ _ _ (or_intror H)))).
  unfold transform_fibers. cbn [bind]. subst y. cbn [shape nth length entry]. rewrite S1, S2, !Nat.eqb_refl. cbn [Nat.leb andb assert_ bind]. do 3 eexists. split; [reflexivity|]. split.
  { cbn [shape bind entry]. rewrite S1, S2, !Nat.eqb_refl. cbn [andb assert_ bind]. rewrite Sb. cbn [assert_ bind]. reflexivity. }
  split; [reflexivity|]. split; [reflexivity|]. cbn [shape entry]. intros idx V.
  apply valid_nth in V as (Li & V). cbn [length] in Li. destruct idx as [|b [|o [|]]]; try discriminate Li. specialize (V 1%nat ltac:(cbn; lia)). cbn [nth skipn ravel fold_left] in V |- *.
  set (co := type_size size outs) in *. set (ci := type_size size ins) in *.
  transitivity (sumn ci (fun j => mmul ci (fun a c => F a c 0%nat) (dg size rho ins) o j * entry x [b; j]) + match bb with Some v => nth o v 0 | None => 0 end).
  { f_equal. exact (apply_twice ci ci (dg size rho ins) (fun c => entry x [b; c]) (fun i => F o i 0%nat)). }
  transitivity (sumn ci (fun j => mmul co (dg size rho outs) (fun a c => F a c 0%nat) o j * entry x [b; j]) + match bb with Some v => nth o v 0 | None => 0 end).
  { f_equal. apply sumn_ext. intros j Hj. rewrite (Int o j V Hj). reflexivity. }
  unfold mmul. rewrite <- (apply_twice co ci (fun a c => F a c 0%nat) (fun c => entry x [b; c]) (dg size rho outs o)).
  transitivity (sumn co (fun i => dg size rho outs o i * sumn ci (fun c => F i c 0%nat * entry x [b; c])) + sumn co (fun i => dg size rho outs o i * match bb with Some v => nth i v 0 | None => 0 end)).
  - f_equal. destruct bb as [v|]; [symmetry; exact (Bf v eq_refl o V)|]. symmetry. apply sumn_0. intros; ring.
  - rewrite <- sumn_plus. apply sumn_ext. intros i Hi. ring.
Qed.
End Point.
End Layers.
