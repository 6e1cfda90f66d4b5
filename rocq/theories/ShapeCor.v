(** Corollaries on shapes. *)
From Coq Require Import Reals ZArith Bool List Lia.
From Verif Require Import LibRes ShapeModel SpecShape ShapeThms.
Import ListNotations.
Open Scope Z_scope.

Lemma inside_axes : forall ks ws, length ws = length ks ->
  (Forall (fun kw => last_inside (fst kw) (snd kw)) (combine ks ws) <->
   last_windows_start_inside ks ws (map (fun kw => plain_size true (fst kw) (snd kw)) (combine ks ws))).
Proof.
  induction ks as [|k ks IH]; intros [|w ws] L; try discriminate L.
  - cbn; split; [intros _ a k E; destruct a; discriminate E|constructor].
  - injection L; intros L'. specialize (IH ws L'). cbn [combine map]. split.
    + intros F; inversion F as [|? ? F1 F2]; subst. apply IH in F2. intros [|a] k' E; cbn [nth_error nth] in *; [injection E; intros <-; exact F1|exact (F2 a k' E)].
    + intros H; constructor; [exact (H 0%nat k eq_refl)|]. apply IH. intros a k' E; exact (H (S a) k' E).
Qed.

Lemma pool_ceil_windows : forall c ks sh o, pool_forward_shape c ks true sh = Ret o ->
  exists p, pool_eval_shape c ks true sh = Ret p /\ Forall2 (fun a b => a = b \/ a = b + 1) p o /\
  (p = o <-> last_windows_start_inside ks (skipn 2 sh) (skipn 2 p)).
Proof.
  intros c ks sh o H; pose proof H as G; apply pool_ceil in H; destruct H as (p & E & F & I). exists p; split; [exact E|split; [exact F|]].
  rewrite I. rewrite inside_axes.
  - pose proof (pool_eval_general c ks true sh o G) as (P & _). rewrite P in E; apply Ret_inj in E; subst p; reflexivity.
  - unfold pool_forward_shape in G. apply assert_Ret in G; destruct G as (L & _). apply Nat.eqb_eq in L. rewrite skipn_length; lia.
Qed.

(** Windows of one pixel, every second pixel, on an even number of pixels: the
    prediction has one row too many. *)
Lemma pool_ceil_wrong : forall b c m, 1 <= m ->
  pool_forward_shape c [simple_window 1 2] true [b; c; 2 * m] = Ret [b; c; m] /\
  pool_eval_shape c [simple_window 1 2] true [b; c; 2 * m] = Ret [b; c; m + 1].
Proof.
  intros b c m Hm.
  assert (P : plain_size true (simple_window 1 2) (2 * m) = m + 1).
  { unfold plain_size, simple_window; cbn [w_kernel w_stride w_padding w_dilation]. replace (2 * m + 2 * 0 - 1 * (1 - 1) - 1 + (2 - 1)) with (m * 2) by lia. rewrite Z.div_mul by lia; reflexivity. }
  assert (F : pool_forward_shape c [simple_window 1 2] true [b; c; 2 * m] = Ret [b; c; m]).
  { unfold pool_forward_shape. cbn [length Nat.add Nat.eqb assert_ bind nth]. rewrite Z.eqb_refl. cbn [assert_ bind skipn combine mapM fst snd].
    unfold torch_pool_size. fold (plain_size true (simple_window 1 2) (2 * m)). rewrite P. cbn [simple_window w_kernel w_stride w_padding w_dilation].
    change (0 <? 1) with true; change (0 <? 2) with true; change (0 <=? 0) with true; change (0 <=? 1 / 2) with true. cbn [andb assert_ bind].
    replace ((m + 1 - 1) * 2 >=? 2 * m + 0) with true by (symmetry; rewrite Z.geb_leb; apply Z.leb_le; lia).
    replace (1 <=? m + 1 - 1) with true by (symmetry; apply Z.leb_le; lia). cbn [assert_ bind]. do 4 f_equal. lia. }
  split; [exact F|]. apply pool_eval_general in F. destruct F as (F & _). rewrite F. cbn [nth skipn combine map fst snd]. rewrite P; reflexivity.
Qed.

(** NormMaxPool with ceil_mode, 2 x 2 windows on an odd number of pixels: the
    pooling itself succeeds, the layer raises. *)
Lemma norm_max_ceil_raises : forall b c m groups, 1 <= m -> Forall (fun fs => 0 < fst fs) groups -> groups <> [] ->
  pool_forward_shape c [simple_window 2 2; simple_window 2 2] true [b; c; 2 * m + 1; 2 * m + 1] = Ret [b; c; m + 1; m + 1] /\
  norm_max_eval_shape c (simple_window 2 2) (simple_window 2 2) [b; c; 2 * m + 1; 2 * m + 1] = Ret [b; c; m; m] /\
  norm_max_forward_shape c (simple_window 2 2) (simple_window 2 2) true groups [b; c; 2 * m + 1; 2 * m + 1] = Raise.
Proof.
  intros b c m groups Hm P N.
  assert (P1 : plain_size true (simple_window 2 2) (2 * m + 1) = m + 1).
  { unfold plain_size, simple_window; cbn [w_kernel w_stride w_padding w_dilation]. replace (2 * m + 1 + 2 * 0 - 1 * (2 - 1) - 1 + (2 - 1)) with (m * 2) by lia. rewrite Z.div_mul by lia; reflexivity. }
  assert (P0 : plain_size false (simple_window 2 2) (2 * m + 1) = m).
  { unfold plain_size, simple_window; cbn [w_kernel w_stride w_padding w_dilation]. replace (2 * m + 1 + 2 * 0 - 1 * (2 - 1) - 1 + 0) with (1 + (m - 1) * 2) by lia. rewrite Z.div_add by lia. change (1 / 2) with 0; lia. }
  assert (T1 : torch_pool_size true (simple_window 2 2) (2 * m + 1) = Ret (m + 1)).
  { unfold torch_pool_size. fold (plain_size true (simple_window 2 2) (2 * m + 1)). rewrite P1. cbn [simple_window w_kernel w_stride w_padding w_dilation].
    change (0 <? 1) with true; change (0 <? 2) with true; change (0 <=? 0) with true; change (0 <=? 2 / 2) with true. cbn [andb assert_ bind].
    replace ((m + 1 - 1) * 2 >=? 2 * m + 1 + 0) with false by (symmetry; rewrite Z.geb_leb; apply Z.leb_gt; lia).
    replace (1 <=? m + 1) with true by (symmetry; apply Z.leb_le; lia). reflexivity. }
  assert (T0 : torch_pool_size false (simple_window 2 2) (2 * m + 1) = Ret m).
  { unfold torch_pool_size. fold (plain_size false (simple_window 2 2) (2 * m + 1)). rewrite P0. cbn [simple_window w_kernel w_stride w_padding w_dilation].
    change (0 <? 1) with true; change (0 <? 2) with true; change (0 <=? 0) with true; change (0 <=? 2 / 2) with true. cbn [andb assert_ bind].
    replace (1 <=? m) with true by (symmetry; apply Z.leb_le; lia). reflexivity. }
  assert (F : forall ceil o, torch_pool_size ceil (simple_window 2 2) (2 * m + 1) = Ret o ->
    pool_forward_shape c [simple_window 2 2; simple_window 2 2] ceil [b; c; 2 * m + 1; 2 * m + 1] = Ret [b; c; o; o]).
  { intros ceil o T; unfold pool_forward_shape. cbn [length Nat.add Nat.eqb assert_ bind nth]. rewrite Z.eqb_refl. cbn [assert_ bind skipn combine mapM fst snd]. rewrite T; reflexivity. }
  assert (E : norm_max_eval_shape c (simple_window 2 2) (simple_window 2 2) [b; c; 2 * m + 1; 2 * m + 1] = Ret [b; c; m; m]) by (apply pool_floor, F, T0).
  split; [apply F, T1|split; [exact E|]].
  destruct (norm_max_forward_shape c (simple_window 2 2) (simple_window 2 2) true groups [b; c; 2 * m + 1; 2 * m + 1]) as [|o] eqn:H; [reflexivity|exfalso].
  apply norm_max_runs in H; [|exact P|exact N]. destruct H as (H1 & H2). rewrite E in H1. rewrite (F true (m + 1) T1) in H2. apply Ret_inj in H1, H2. subst o. injection H2; lia.
Qed.

Lemma norm_max_iff : forall c kh kw ceil groups sh o, Forall (fun fs => 0 < fst fs) groups -> groups <> [] -> 0 <= nth 0 sh 0 -> 0 <= c ->
  (norm_max_forward_shape c kh kw ceil groups sh = Ret o <-> pool_forward_shape c [kh; kw] ceil sh = Ret o /\ norm_max_eval_shape c kh kw sh = Ret o).
Proof.
  intros c kh kw ceil groups sh o P N Hb Hc; split.
  - intros H; apply norm_max_runs in H; [|exact P|exact N]. destruct H; split; assumption.
  - intros (H1 & H2). unfold norm_max_forward_shape. rewrite H2; cbn [bind].
    unfold pool_forward_shape in H1. apply assert_Ret in H1; destruct H1 as (L & H1). apply assert_Ret in H1; destruct H1 as (C & H1).
    apply bind_Ret in H1; destruct H1 as (o' & H1 & O). apply Ret_inj in O.
    destruct sh as [|b [|c' [|h [|w [|? ?]]]]]; try discriminate L. cbn [length Nat.eqb assert_ bind].
    cbn [skipn combine mapM fst snd] in H1. apply bind_Ret in H1; destruct H1 as (po & T1 & H1). apply bind_Ret in H1; destruct H1 as (o2 & H1 & O2). apply Ret_inj in O2; subst o'.
    apply bind_Ret in H1; destruct H1 as (pw & T2 & H1). apply Ret_inj in H1; subst o2. subst o. cbn [nth] in *.
    rewrite T1, T2. cbn [bind].
    apply torch_size in T1; apply torch_size in T2. destruct T1 as (_ & T1 & _), T2 as (_ & T2 & _).
    cbn [forallb]. replace (0 <=? b) with true by (symmetry; apply Z.leb_le; exact Hb). replace (0 <=? c) with true by (symmetry; apply Z.leb_le; exact Hc).
    replace (0 <=? po) with true by (symmetry; apply Z.leb_le; lia). replace (0 <=? pw) with true by (symmetry; apply Z.leb_le; lia). cbn [andb assert_ bind].
    replace (forallb (group_fits po pw po pw) groups) with true; [reflexivity|symmetry; apply forallb_forall].
    intros (f, s) _. unfold group_fits; cbn [fst snd]. assert (Z0 : po * pw <> 0) by lia.
    rewrite <- Z.mul_assoc, Z.mod_mul, Z.div_mul by exact Z0.
    rewrite Z.leb_refl, !Z.eqb_refl. replace (po * pw =? 0) with false by (symmetry; apply Z.eqb_neq; exact Z0). reflexivity.
Qed.
