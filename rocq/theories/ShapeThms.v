(** Predicted and computed shapes. *)
From Coq Require Import Reals ZArith Bool List Lia Lra.
From Verif Require Import LibRes LibMat LibTrig GridModel ImageModel TransposedModel ShapeModel.
Import ListNotations.
Open Scope Z_scope.

(** ** Floors of quotients of integers *)
Lemma Int_part_eq : forall x n, (IZR n <= x < IZR n + 1)%R -> Int_part x = n.
Proof. intros x n H; unfold Int_part; apply (floorZ_unique x n H). Qed.

Lemma div_bounds : forall a b, 0 < b -> (IZR (a / b) <= IZR a / IZR b < IZR (a / b) + 1)%R.
Proof.
  intros a b Hb; assert (P : (0 < IZR b)%R) by (apply IZR_lt; exact Hb).
  pose proof (Z.div_mod a b ltac:(lia)) as D; pose proof (Z.mod_pos_bound a b Hb) as M.
  assert (E : (IZR a = IZR (a / b) * IZR b + IZR (a mod b))%R) by (rewrite <- mult_IZR, <- plus_IZR; f_equal; lia).
  assert (Q : (IZR a / IZR b = IZR (a / b) + IZR (a mod b) / IZR b)%R) by (rewrite E; field; lra).
  assert (M1 : (0 <= IZR (a mod b))%R) by (apply IZR_le; lia). assert (M2 : (IZR (a mod b) < IZR b)%R) by (apply IZR_lt; lia).
  assert (0 <= IZR (a mod b) / IZR b)%R by (apply Rmult_le_pos; [exact M1|left; apply Rinv_0_lt_compat; exact P]).
  assert (IZR (a mod b) / IZR b < 1)%R by (apply (Rmult_lt_reg_r (IZR b)); [exact P|]; unfold Rdiv; rewrite Rmult_assoc, Rinv_l by lra; lra).
  lra.
Qed.

Lemma floor_div : forall a b, 0 < b -> math_floor (IZR a / IZR b + 1) = a / b + 1.
Proof. intros a b Hb; apply Int_part_eq; rewrite plus_IZR; pose proof (div_bounds a b Hb); lra. Qed.

Lemma ceil_div : forall a b, 0 < b -> math_ceil (IZR a / IZR b + 1) = (a + b - 1) / b + 1.
Proof.
  intros a b Hb; unfold math_ceil. rewrite (Int_part_eq _ (- ((a + b - 1) / b + 1))); [lia|].
  rewrite opp_IZR, plus_IZR.
  assert (E : (a + b - 1) / b = - (- a / b)).
  { pose proof (Z.div_mod (- a) b ltac:(lia)) as D; pose proof (Z.mod_pos_bound (- a) b Hb) as M.
    symmetry; apply (Z.div_unique _ _ _ (b - 1 - (- a) mod b)); [left; lia|lia]. }
  rewrite E, opp_IZR; pose proof (div_bounds (- a) b Hb) as D; rewrite opp_IZR in D.
  replace (- IZR a / IZR b)%R with (- (IZR a / IZR b))%R in D by (field; apply not_0_IZR; lia). lra.
Qed.

(** ** Convolutions *)
Lemma mapM_ext_Ret : forall A B (f : A -> res B) (g : A -> B) l, (forall a, In a l -> f a = Ret (g a)) -> mapM f l = Ret (map g l).
Proof. exact mapM_Ret_map. Qed.

Lemma firstn_exact : forall (A : Type) (l : list A) n, length l = n -> firstn n l = l.
Proof. intros A l n <-; apply firstn_all. Qed.

Lemma conv_size_Z : forall k stride dil p w, (0 < k)%nat -> (0 < stride)%nat -> (dil * (k - 1) + 1 <= w + 2 * p)%nat ->
  Z.of_nat (conv_size k stride dil (w + 2 * p)) = (Z.of_nat w + 2 * Z.of_nat p - Z.of_nat dil * (Z.of_nat k - 1) - 1) / Z.of_nat stride + 1.
Proof.
  intros k stride dil p w Hk Hs H; unfold conv_size.
  rewrite Nat2Z.inj_add, Nat2Z.inj_div, Nat2Z.inj_sub by exact H. rewrite !Nat2Z.inj_add, !Nat2Z.inj_mul, Nat2Z.inj_sub by lia.
  f_equal; f_equal; lia.
Qed.

Lemma pad_ok_shape : forall m p x xp, pad m p x = Ret xp -> shape xp = firstn 2 (shape x) ++ map (fun w => w + 2 * p)%nat (skipn 2 (shape x)).
Proof. intros m p x xp H; unfold pad in H; apply assert_Ret in H; destruct H as (_ & H); apply Ret_inj in H; subst xp; reflexivity. Qed.

Lemma conv_predicted : forall m p groups stride dil cout cin k n f bias x y,
  conv_forward m p groups stride dil (reshape_filter cout cin k n f) bias x = Ret y ->
  conv_eval_shape (Z.of_nat (groups * cin)) (Z.of_nat cout) n (Z.of_nat k) (Z.of_nat stride) (PadInt (Z.of_nat p)) (Z.of_nat dil) (map Z.of_nat (shape x)) =
  Ret (map Z.of_nat (shape y)).
Proof.
  intros m p groups stride dil cout cin k n f bias x y H; unfold conv_forward in H.
  apply bind_Ret in H; destruct H as (xp & HP & H). apply pad_ok_shape in HP; unfold conv in H.
  apply assert_Ret in H; destruct H as (H1 & H). apply assert_Ret in H; destruct H as (H2 & H). apply assert_Ret in H; destruct H as (H3 & H).
  apply assert_Ret in H; destruct H as (_ & H). apply assert_Ret in H; destruct H as (H4 & H). apply Ret_inj in H; subst y.
  apply andb_true_iff in H1; destruct H1 as (H1 & H1'). apply Nat.leb_le in H1; apply Nat.eqb_eq in H1'.
  rewrite !andb_true_iff in H2; destruct H2 as (((G & Hs) & Hd) & Hk). apply Nat.ltb_lt in Hs.
  apply andb_true_iff in H3; destruct H3 as (_ & H3); apply Nat.eqb_eq in H3.
  destruct (shape x) as [|B [|c ws]] eqn:E.
  1,2: exfalso; rewrite HP in H1; cbn in H1; lia.
  cbn [firstn skipn app reshape_filter shape] in *. rewrite HP in *. cbn [nth skipn length reshape_filter shape] in *.
  rewrite map_length, repeat_length in H1'.
  cbn [map]. unfold conv_eval_shape. cbn [length]. rewrite !map_length, H1', Nat.eqb_refl. cbn [assert_ bind nth].
  rewrite H3, Z.eqb_refl. cbn [assert_ bind nth skipn].
  rewrite (firstn_exact _ _ n) by (rewrite map_length; exact H1').
  rewrite forallb_forall in H4, Hk.
  rewrite (mapM_Ret_map _ _ _ (fun w => (w + 2 * Z.of_nat p - Z.of_nat dil * (Z.of_nat k - 1) - 1) / Z.of_nat stride + 1)).
  - cbn [bind]. do 3 f_equal. rewrite !map_map. clear HP E H1 H3.
    apply (nth_ext _ _ 0 0); [rewrite !map_length, combine_length, map_length, repeat_length; lia|].
    rewrite map_length. intros a Ha.
    rewrite (nth_indep _ 0 ((fun w => (Z.of_nat w + 2 * Z.of_nat p - Z.of_nat dil * (Z.of_nat k - 1) - 1) / Z.of_nat stride + 1) 0%nat)) by (rewrite map_length; exact Ha).
    rewrite (map_nth (fun w => (Z.of_nat w + 2 * Z.of_nat p - Z.of_nat dil * (Z.of_nat k - 1) - 1) / Z.of_nat stride + 1)).
    set (F := fun kw : nat * nat => Z.of_nat (conv_size (fst kw) stride dil (snd kw))).
    assert (Lc : (a < length (combine (repeat k n) (map (fun w => w + 2 * p)%nat ws)))%nat) by (rewrite combine_length, map_length, repeat_length; lia).
    rewrite (nth_indep (map F _) 0 (F (0, 0)%nat)) by (rewrite map_length; exact Lc). rewrite (map_nth F).
    rewrite combine_nth by (rewrite map_length, repeat_length; lia). unfold F; cbn [fst snd].
    assert (R1 : nth a (repeat k n) 0%nat = k). { apply (repeat_spec n k). apply nth_In; rewrite repeat_length; lia. }
    assert (R2 : nth a (map (fun w => w + 2 * p)%nat ws) 0%nat = (nth a ws 0 + 2 * p)%nat).
    { rewrite (nth_indep _ 0%nat (0 + 2 * p)%nat) by (rewrite map_length; lia). exact (map_nth (fun w => w + 2 * p)%nat ws 0%nat a). }
    rewrite R1, R2. symmetry; apply conv_size_Z.
    + apply Nat.ltb_lt, Hk. pose proof (nth_In (repeat k n) 0%nat (n := a) ltac:(rewrite repeat_length; lia)) as I; rewrite R1 in I; exact I.
    + exact Hs.
    + specialize (H4 (k, nth a ws 0 + 2 * p)%nat). cbn [fst snd] in H4. apply Nat.leb_le, H4.
      pose proof (nth_In _ (0, 0)%nat Lc) as I. rewrite combine_nth in I by (rewrite map_length, repeat_length; lia). rewrite R1, R2 in I; exact I.
  - intros w _. cbn [twice_padding bind]. unfold py_div. replace (Z.of_nat stride =? 0) with false by (symmetry; apply Z.eqb_neq; lia).
    cbn [bind]. rewrite floor_div by lia. reflexivity.
Qed.

Lemma transposed_predicted : forall groups stride p op dil cout cin k n f bias x y,
  transposed_forward groups stride p op dil cout cin k n f bias x = Ret y ->
  transposed_eval_shape (Z.of_nat cin) (Z.of_nat (groups * cout)) n (Z.of_nat k) (Z.of_nat stride) (PadInt (Z.of_nat p)) (PadInt (Z.of_nat op)) (Z.of_nat dil) (map Z.of_nat (shape x)) =
  Ret (map Z.of_nat (shape y)).
Proof.
  intros groups stride p op dil cout cin k n f bias x y H; unfold transposed_forward, conv_transpose in H.
  apply assert_Ret in H; destruct H as (H1 & H). apply assert_Ret in H; destruct H as (_ & H). apply assert_Ret in H; destruct H as (_ & H).
  apply assert_Ret in H; destruct H as (H3 & H). apply assert_Ret in H; destruct H as (_ & H). apply assert_Ret in H; destruct H as (H4 & H). apply Ret_inj in H; subst y.
  apply andb_true_iff in H1; destruct H1 as (H1 & H1'). apply Nat.leb_le in H1; apply Nat.eqb_eq in H1'.
  apply andb_true_iff in H3; destruct H3 as (_ & H3); apply Nat.eqb_eq in H3.
  destruct (shape x) as [|B [|c ws]] eqn:E.
  1,2: exfalso; cbn in H1; lia.
  cbn [nth skipn transpose01 reshape_filter shape] in *. rewrite repeat_length in H1'. subst c.
  cbn [map]. unfold transposed_eval_shape. cbn [length]. rewrite !map_length, H1', Nat.eqb_refl. cbn [assert_ bind nth].
  rewrite Z.eqb_refl. cbn [assert_ bind nth skipn].
  rewrite (firstn_exact _ _ n) by (rewrite map_length; exact H1').
  rewrite (mapM_Ret_map _ _ _ (fun w => (w - 1) * Z.of_nat stride - 2 * Z.of_nat p + Z.of_nat dil * (Z.of_nat k - 1) + Z.of_nat op + 1)).
  2: { intros w _; reflexivity. }
  cbn [bind]. do 3 f_equal. rewrite map_map. clear E H1. revert n H1' H4; induction ws as [|w ws IH]; intros n L H4; [destruct n; reflexivity|].
  destruct n as [|n]; [discriminate L|]. cbn [repeat combine map forallb] in *. apply andb_true_iff in H4; destruct H4 as (A & H4). cbn [fst snd] in *.
  apply Z.leb_le in A. f_equal; [|apply (IH n); [injection L; auto|exact H4]].
  rewrite Z2Nat.id by lia. reflexivity.
Qed.

Lemma tuple_padding_raises : forall cin cout d k stride l dil sh, (0 < d)%nat -> conv_eval_shape cin cout d k stride (PadTuple l) dil sh = Raise.
Proof.
  intros cin cout d k stride l dil sh Hd; unfold conv_eval_shape.
  destruct (Nat.eqb (length sh) (2 + d)) eqn:E; cbn [assert_ bind]; [|reflexivity]. apply Nat.eqb_eq in E.
  destruct (nth 1 sh 0 =? cin); cbn [assert_ bind]; [|reflexivity].
  destruct sh as [|a [|b [|w sh]]]; cbn in E; try lia. destruct d; [lia|]. reflexivity.
Qed.

Lemma tuple_padding_raises_t : forall cin cout d k stride q r dil sh, (0 < d)%nat -> (exists l, q = PadTuple l \/ r = PadTuple l) ->
  transposed_eval_shape cin cout d k stride q r dil sh = Raise.
Proof.
  intros cin cout d k stride q r dil sh Hd (l & T); unfold transposed_eval_shape.
  destruct (Nat.eqb (length sh) (2 + d)) eqn:E; cbn [assert_ bind]; [|reflexivity]. apply Nat.eqb_eq in E.
  destruct (nth 1 sh 0 =? cin); cbn [assert_ bind]; [|reflexivity].
  destruct sh as [|a [|b [|w sh]]]; cbn in E; try lia. destruct d; [lia|]. destruct T as [-> | ->]; [reflexivity|]; destruct q; reflexivity.
Qed.

(** ** Pooling *)
(** the size torch computes, before the last window is dropped *)
Definition plain_size (ceil : bool) (k : window) (w : Z) : Z :=
  (w + 2 * w_padding k - w_dilation k * (w_kernel k - 1) - 1 + (if ceil then w_stride k - 1 else 0)) / w_stride k + 1.

Lemma torch_size : forall ceil k w o, torch_pool_size ceil k w = Ret o ->
  0 < w_stride k /\ 1 <= o /\
  o = if ceil && ((plain_size ceil k w - 1) * w_stride k >=? w + w_padding k) then plain_size ceil k w - 1 else plain_size ceil k w.
Proof.
  intros ceil k w o H; unfold torch_pool_size in H. apply assert_Ret in H; destruct H as (H1 & H). apply assert_Ret in H; destruct H as (_ & H).
  apply assert_Ret in H; destruct H as (H2 & H). apply Ret_inj in H. rewrite !andb_true_iff in H1; destruct H1 as ((_ & H1) & _).
  apply Z.ltb_lt in H1. apply Z.leb_le in H2. rewrite H in H2. unfold plain_size. repeat split; [exact H1|exact H2|symmetry; exact H].
Qed.

Lemma eval_size : forall (ceil : bool) k w, 0 < w_stride k ->
  py_div (w + 2 * w_padding k - w_dilation k * (w_kernel k - 1) - 1) (w_stride k) = Ret (IZR (w + 2 * w_padding k - w_dilation k * (w_kernel k - 1) - 1)%Z / IZR (w_stride k))%R /\
  (if ceil then math_ceil else math_floor) (IZR (w + 2 * w_padding k - w_dilation k * (w_kernel k - 1) - 1)%Z / IZR (w_stride k) + 1)%R = plain_size ceil k w.
Proof.
  intros ceil k w H; unfold py_div; replace (w_stride k =? 0) with false by (symmetry; apply Z.eqb_neq; lia). split; [reflexivity|].
  unfold plain_size; destruct ceil; [rewrite ceil_div by exact H; f_equal; f_equal; lia|rewrite floor_div by exact H; f_equal; f_equal; lia].
Qed.

(** Whenever the layer runs, the prediction is made, and along every axis it is
    torch's size before the last window is dropped. *)
Lemma pool_eval_general : forall c ks ceil sh o, pool_forward_shape c ks ceil sh = Ret o ->
  pool_eval_shape c ks ceil sh = Ret (nth 0 sh 0 :: c :: map (fun kw => plain_size ceil (fst kw) (snd kw)) (combine ks (skipn 2 sh))) /\
  exists o', o = nth 0 sh 0 :: c :: o' /\ Forall2 (fun kw s => torch_pool_size ceil (fst kw) (snd kw) = Ret s) (combine ks (skipn 2 sh)) o'.
Proof.
  intros c ks ceil sh o H; unfold pool_forward_shape in H. apply assert_Ret in H; destruct H as (H1 & H). apply assert_Ret in H; destruct H as (H2 & H).
  apply bind_Ret in H; destruct H as (o' & H3 & H); apply Ret_inj in H; subst o. apply mapM_Ret_inv in H3. split; [|exists o'; split; [reflexivity|exact H3]].
  unfold pool_eval_shape; rewrite H1, H2; cbn [assert_ bind].
  assert (A : forall kw, In kw (combine ks (skipn 2 sh)) -> 0 < w_stride (fst kw)).
  { intros kw I. clear - H3 I. induction H3 as [|a b l l' T F IH]; [destruct I|]. destruct I as [<- | I]; [apply torch_size in T; apply T|exact (IH I)]. }
  rewrite (mapM_Ret_map _ _ _ (fun kw => (IZR (snd kw + 2 * w_padding (fst kw) - w_dilation (fst kw) * (w_kernel (fst kw) - 1) - 1) / IZR (w_stride (fst kw)) + 1)%R)).
  - cbn [bind]. rewrite map_map. do 3 f_equal. apply map_ext_in; intros kw I. apply (eval_size ceil (fst kw) (snd kw)); apply A; exact I.
  - intros kw I. destruct (eval_size ceil (fst kw) (snd kw) (A kw I)) as (E & _). rewrite E; reflexivity.
Qed.

(** the last window of ceil mode starts inside the input or the left padding *)
Definition last_inside (k : window) (w : Z) : Prop := (plain_size true k w - 1) * w_stride k < w + w_padding k.

Lemma pool_floor : forall c ks sh o, pool_forward_shape c ks false sh = Ret o -> pool_eval_shape c ks false sh = Ret o.
Proof.
  intros c ks sh o H; apply pool_eval_general in H; destruct H as (-> & o' & -> & F). do 3 f_equal.
  induction F as [|a b l l' T F IH]; [reflexivity|]. cbn [map]; rewrite IH; f_equal. apply torch_size in T; destruct T as (_ & _ & ->); reflexivity.
Qed.

Lemma axis_ceil : forall k w s, torch_pool_size true k w = Ret s -> (plain_size true k w = s \/ plain_size true k w = s + 1) /\ (plain_size true k w = s <-> last_inside k w).
Proof.
  intros k w s T; apply torch_size in T; destruct T as (_ & _ & T); cbn [andb] in T. unfold last_inside.
  rewrite Z.geb_leb in T. destruct (w + w_padding k <=? (plain_size true k w - 1) * w_stride k) eqn:E; [apply Z.leb_le in E|apply Z.leb_gt in E]; lia.
Qed.

Lemma pool_ceil : forall c ks sh o, pool_forward_shape c ks true sh = Ret o ->
  exists p, pool_eval_shape c ks true sh = Ret p /\
  Forall2 (fun a b => a = b \/ a = b + 1) p o /\
  (p = o <-> Forall (fun kw => last_inside (fst kw) (snd kw)) (combine ks (skipn 2 sh))).
Proof.
  intros c ks sh o H; apply pool_eval_general in H; destruct H as (-> & o' & -> & F). eexists; split; [reflexivity|].
  assert (G : Forall2 (fun a b => a = b \/ a = b + 1) (map (fun kw => plain_size true (fst kw) (snd kw)) (combine ks (skipn 2 sh))) o' /\
    (map (fun kw => plain_size true (fst kw) (snd kw)) (combine ks (skipn 2 sh)) = o' <-> Forall (fun kw => last_inside (fst kw) (snd kw)) (combine ks (skipn 2 sh)))).
  { induction F as [|a b l l' T F IH]; [split; [constructor|split; [constructor|reflexivity]]|]. destruct IH as (I1 & I2). apply axis_ceil in T; destruct T as (T1 & T2).
    cbn [map]; split; [constructor; assumption|]. split.
    - intros E; injection E; intros E1 E2; constructor; [apply T2; exact E2|apply I2; exact E1].
    - intros X; inversion X as [|? ? X1 X2]; subst; f_equal; [apply T2; exact X1|apply I2; exact X2]. }
  destruct G as (G1 & G2). split; [constructor; [left; reflexivity|constructor; [left; reflexivity|exact G1]]|].
  rewrite <- G2; split; [intros E; injection E; auto|intros ->; reflexivity].
Qed.

(** ** NormMaxPool *)
Lemma floor_le : forall ceil k w o, torch_pool_size ceil k w = Ret o -> plain_size false k w <= o.
Proof.
  intros ceil k w o T; pose proof T as X; apply torch_size in T; destruct T as (S1 & _ & T). unfold plain_size in *. destruct ceil; [|cbn [andb] in T; lia].
  cbn [andb] in T. rewrite Z.geb_leb in T.
  set (a := w + 2 * w_padding k - w_dilation k * (w_kernel k - 1) - 1) in *.
  pose proof (Z.div_le_mono (a + 0) (a + (w_stride k - 1)) (w_stride k) S1 ltac:(lia)) as D.
  destruct (w + w_padding k <=? ((a + (w_stride k - 1)) / w_stride k + 1 - 1) * w_stride k) eqn:E; [|lia]. apply Z.leb_le in E.
  pose proof (Z.mul_div_le (a + 0) (w_stride k) S1) as D2.
  unfold torch_pool_size in X. apply assert_Ret in X; destruct X as (X1 & X). apply assert_Ret in X; destruct X as (X2 & _).
  rewrite !andb_true_iff, !Z.ltb_lt in X1. rewrite andb_true_iff, !Z.leb_le in X2. destruct X1 as ((K & _) & Dl), X2 as (P0 & P2).
  assert (w_kernel k - 1 <= w_dilation k * (w_kernel k - 1)) by (destruct (Z.eq_dec (w_kernel k) 1) as [-> | ]; [lia|]; rewrite Z.mul_comm; apply Z.le_mul_diag_r; lia).
  assert (w_padding k < w_dilation k * (w_kernel k - 1) + 1) by (pose proof (Z.mul_div_le (w_kernel k) 2 ltac:(lia)); lia).
  destruct (Z.eq_dec ((a + 0) / w_stride k) ((a + (w_stride k - 1)) / w_stride k)) as [Q|Q]; [rewrite <- Q in E; replace ((a + 0) / w_stride k + 1 - 1) with ((a + 0) / w_stride k) in E by lia; rewrite Z.mul_comm in E; unfold a in *; lia|lia].
Qed.

Lemma norm_max_runs : forall c kh kw ceil groups sh o, Forall (fun fs => 0 < fst fs) groups -> groups <> [] ->
  norm_max_forward_shape c kh kw ceil groups sh = Ret o ->
  norm_max_eval_shape c kh kw sh = Ret o /\ pool_forward_shape c [kh; kw] ceil sh = Ret o.
Proof.
  intros c kh kw ceil groups sh o P N H; unfold norm_max_forward_shape in H.
  apply assert_Ret in H; destruct H as (H1 & H). apply bind_Ret in H; destruct H as (o1 & H2 & H). apply assert_Ret in H; destruct H as (HN & H).
  apply bind_Ret in H; destruct H as (po & HP & H). apply bind_Ret in H; destruct H as (pw & HW & H). apply assert_Ret in H; destruct H as (H3 & H). apply Ret_inj in H; subst o1.
  split; [exact H2|]. destruct sh as [|b [|c' [|h [|w [|? ?]]]]]; try discriminate H1. cbn [nth] in HP, HW.
  unfold norm_max_eval_shape, pool_eval_shape in H2. apply assert_Ret in H2; destruct H2 as (H0 & H2). apply assert_Ret in H2; destruct H2 as (H4 & H2).
  pose proof HP as TP; pose proof HW as TW.
  apply torch_size in TP; apply torch_size in TW. destruct TP as (S1 & O1 & _), TW as (S2 & O2 & _).
  cbn [skipn combine mapM fst snd] in H2.
  destruct (eval_size false kh h S1) as (Q1 & E1). destruct (eval_size false kw w S2) as (Q2 & E2). rewrite Q1, Q2 in H2. cbn [bind map nth] in H2. rewrite E1, E2 in H2. apply Ret_inj in H2.
  unfold pool_forward_shape; cbn [length Nat.add]. cbn [length Nat.add] in H0; rewrite H0, H4. cbn [skipn combine mapM fst snd nth assert_ bind]. rewrite HP, HW. cbn [bind]. subst o. cbn [nth] in H3, HN.
  destruct groups as [|(f, s) gs]; [congruence|]. inversion P as [|? ? P1 _]; subst. cbn [fst] in P1. cbn [forallb] in H3. apply andb_true_iff in H3; destruct H3 as (H3 & _).
  unfold group_fits in H3; cbn [fst snd] in H3.
  pose proof (floor_le ceil kh h po HP) as HA; pose proof (floor_le ceil kw w pw HW) as HB. cbn [forallb] in HN.
  set (ho := plain_size false kh h) in *; set (wo := plain_size false kw w) in *.
  rewrite !andb_true_iff in H3; rewrite !andb_true_iff in HN. destruct H3 as (((Z0 & Z1) & Z2) & _). destruct HN as (_ & _ & N1 & N2 & _). apply Z.leb_le in N1, N2.
  apply negb_true_iff, Z.eqb_neq in Z0. apply Z.eqb_eq in Z1. apply Z.leb_le in Z2.
  assert (1 <= ho) by (destruct (Z.eq_dec ho 0) as [Q|Q]; [rewrite Q in Z0; lia|lia]). assert (1 <= wo) by (destruct (Z.eq_dec wo 0) as [Q|Q]; [rewrite Q in Z0; lia|lia]).
  pose proof (Z.div_mod (f * po * pw) (ho * wo) Z0) as D. rewrite Z1, Z.add_0_r in D.
  assert (L : f * (po * pw) <= f * (ho * wo)). { rewrite (Z.mul_assoc f po pw), D, (Z.mul_comm f (ho * wo)). apply Z.mul_le_mono_nonneg_l; [apply Z.mul_nonneg_nonneg; lia|exact Z2]. }
  apply Z.mul_le_mono_pos_l in L; [|exact P1].
  assert (po = ho). { destruct (Z.eq_dec po ho) as [Q|Q]; [exact Q|exfalso]. assert (ho * wo < po * pw); [|lia].
    apply Z.lt_le_trans with (po * wo); [apply Z.mul_lt_mono_pos_r; lia|apply Z.mul_le_mono_nonneg_l; lia]. }
  assert (pw = wo). { destruct (Z.eq_dec pw wo) as [Q|Q]; [exact Q|exfalso]. assert (ho * wo < po * pw); [|lia].
    apply Z.lt_le_trans with (ho * pw); [apply Z.mul_lt_mono_pos_l; lia|apply Z.mul_le_mono_nonneg_r; lia]. }
  congruence.
Qed.

(** ** Modules made of modules *)
Lemma multiple_raises : forall (L : Type) c (labels : list (L * Z)) merge sh, multiple_eval_shape c labels merge sh = Raise.
Proof.
  intros L c labels merge sh; unfold multiple_eval_shape.
  destruct (Nat.ltb 1 (length sh)); cbn [assert_ bind]; [|reflexivity]. destruct (nth 1 sh 0 =? c); cbn [assert_ bind]; [|reflexivity].
  destruct (Nat.eqb (length sh) 4); cbn [assert_ bind]; reflexivity.
Qed.

Lemma point_raises : forall cin cout sh o, point_forward_shape cin cout sh = Ret o -> point_eval_shape cin cout sh = Raise.
Proof. intros cin cout [|n [|c [|? ?]]] o H; try discriminate H; reflexivity. Qed.

Lemma sequential_predicted : forall (X : Type) (size : X -> list Z) c (mods : list ((X -> res X) * (list Z -> res (list Z)))),
  (forall m, In m mods -> forall x y, fst m x = Ret y -> snd m (size x) = Ret (size y)) ->
  forall x y, (1 < length (size x))%nat -> nth 1 (size x) 0 = c ->
  fold_left (fun s m => t <- s ;; fst m t) mods (Ret x) = Ret y -> sequential_eval_shape c (map snd mods) (size x) = Ret (size y).
Proof.
  intros X size c mods HM x y H1 H2 H; unfold sequential_eval_shape. replace (Nat.ltb 1 (length (size x))) with true by (symmetry; apply Nat.ltb_lt; exact H1).
  rewrite H2, Z.eqb_refl. cbn [assert_ bind]. clear H1 H2. revert x H; induction mods as [|m mods IH]; intros x H; cbn [fold_left map] in *; [congruence|].
  destruct (fst m x) as [|z] eqn:E.
  - exfalso. cbn [bind] in H. rewrite E in H. clear - H. induction mods as [|m' mods IH]; cbn [fold_left bind] in H; [discriminate H|exact (IH H)].
  - cbn [bind]. rewrite (HM m (or_introl eq_refl) x z E). apply (IH (fun m' I => HM m' (or_intror I)) z). cbn [bind] in H; rewrite E in H; exact H.
Qed.
