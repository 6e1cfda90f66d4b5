(** Exports, shapes, constant images and adaptive pooling. *)
From Coq Require Import Reals ZArith Lia Lra Bool List Arith Permutation.
From Verif Require Import LibRes LibMat LibList GridModel SpecGrid GridProofs GridThms ImageModel SpecImage ImageProofs MaskThms ShapeModel ShapeThms ConvThms SPoolModel SpecSPool SpecPool SPoolProofs SPoolThms SPoolBlur.
Import ListNotations.
Open Scope R_scope.

(** ** Exports *)
Lemma pool_size_mode : forall k s p d w, fits k s p d w -> pool_size true k s p d w = pool_size false k s p d w.
Proof.
  intros k s p d w F. destruct (Nat.eq_dec k 0) as [->|Hk]; [reflexivity|]. destruct (Nat.eq_dec s 0) as [->|Hs]; [unfold pool_size, torch_pool_size; cbn; rewrite andb_false_r; reflexivity|].
  destruct (Nat.eq_dec d 0) as [->|Hd]; [unfold pool_size, torch_pool_size; cbn [w_dilation pool_window]; rewrite andb_false_r; reflexivity|].
  destruct (le_lt_dec p (k / 2)) as [Hp|Hp]; [rewrite !pool_size_fits by (auto; lia); reflexivity|].
  unfold pool_size, torch_pool_size; cbn [w_kernel w_stride w_padding w_dilation pool_window].
  assert (Z.of_nat (k / 2) = (Z.of_nat k / 2)%Z) by (rewrite Nat2Z.inj_div; reflexivity).
  replace (Z.of_nat p <=? Z.of_nat k / 2)%Z with false by (symmetry; apply Z.leb_gt; lia). rewrite andb_false_r.
  destruct (_ && _ && _); reflexivity.
Qed.
Lemma mapM_ext_in : forall A C (f g : A -> res C) l, (forall a, In a l -> f a = g a) -> mapM f l = mapM g l.
Proof. intros A C f g l; induction l as [|a l IH]; intros H; [reflexivity|]; cbn [mapM]; rewrite H, IH by (intros; try apply H; cbn; auto); reflexivity. Qed.
Lemma export_same : forall l x B c ws, shape x = B :: c :: ws ->
  m_ceil l = false \/ Forall (fits (m_kernel l) (m_stride l) (m_padding l) (m_dilation l)) ws ->
  torch_max (max_export l) x = max_forward l x.
Proof.
  intros l x B c ws Ex H; unfold torch_max, max_forward, max_export; cbn [m_kernel m_stride m_padding m_dilation m_ceil].
  destruct (m_ceil l) eqn:E; [|reflexivity]. destruct H as [H|H]; [discriminate|].
  unfold max_pool; rewrite Ex; cbn [length Nat.leb assert_ skipn bind firstn].
  rewrite (mapM_ext_in _ _ (pool_size true _ _ _ _) (pool_size false (m_kernel l) (m_stride l) (m_padding l) (m_dilation l))); [reflexivity|].
  intros w Hw; apply pool_size_mode; rewrite Forall_forall in H; apply H; exact Hw.
Qed.

(** ** Shapes *)
Lemma eval_floor : forall k s p d c n B ws, (0 < k)%nat -> (0 < s)%nat -> length ws = n -> Forall (fun w => d * (k - 1) + 1 <= w + 2 * p)%nat ws ->
  pool_eval_shape (Z.of_nat c) (repeat (pool_window k s p d) n) false (map Z.of_nat (B :: c :: ws)) =
  Ret (map Z.of_nat (B :: c :: map (fun w => conv_size k s d (w + 2 * p)) ws)).
Proof.
  intros k s p d c n B ws Hk Hs L F; unfold pool_eval_shape. rewrite map_length, repeat_length; cbn [length]; rewrite L, Nat.eqb_refl; cbn [assert_ bind map nth]; rewrite Z.eqb_refl; cbn [assert_ bind skipn].
  assert (G : mapM (fun kw : window * Z => q <- py_div (snd kw + 2 * w_padding (fst kw) - w_dilation (fst kw) * (w_kernel (fst kw) - 1) - 1) (w_stride (fst kw)) ;; Ret (q + 1)%R)
    (combine (repeat (pool_window k s p d) n) (map Z.of_nat ws)) = Ret (map (fun w => (IZR (Z.of_nat w + 2 * Z.of_nat p - Z.of_nat d * (Z.of_nat k - 1) - 1)%Z / IZR (Z.of_nat s) + 1)%R) ws)).
  { revert n L; clear - Hs; induction ws as [|w ws IH]; intros n L; cbn in L; destruct n as [|n]; try discriminate; [reflexivity|]. injection L as L.
    cbn [repeat map combine mapM fst snd pool_window w_padding w_dilation w_kernel w_stride]. unfold py_div at 1.
    replace (Z.of_nat s =? 0)%Z with false by (symmetry; apply Z.eqb_neq; lia). cbn [bind]. rewrite (IH n L); reflexivity. }
  rewrite G; cbn [bind]. do 3 f_equal. rewrite !map_map. apply map_ext_in; intros w Hw. rewrite Forall_forall in F.
  rewrite floor_div by lia. rewrite conv_size_Z by auto. reflexivity.
Qed.

Lemma pool_size_floor : forall k s p d w o, pool_size false k s p d w = Ret o -> (d * (k - 1) + 1 <= w + 2 * p)%nat /\ o = conv_size k s d (w + 2 * p).
Proof.
  intros k s p d w o H; pose proof (pool_size_ok _ _ _ _ _ _ _ H) as (Hk & Hs & Hd & Hp & Ho).
  unfold pool_size in H; apply bind_Ret in H as (z & H & E); apply Ret_inj in E; subst o.
  unfold torch_pool_size in H; cbn [w_kernel w_stride w_padding w_dilation pool_window andb] in H.
  apply assert_Ret in H as (_ & H); apply assert_Ret in H as (_ & H); cbv zeta in H; apply assert_Ret in H as (H3 & H). apply Ret_inj in H. rewrite Z.leb_le in H3.
  rewrite Z.add_0_r in *. assert (G : (0 <= (Z.of_nat w + 2 * Z.of_nat p - Z.of_nat d * (Z.of_nat k - 1) - 1) / Z.of_nat s)%Z) by lia.
  assert (G2 : (0 <= Z.of_nat w + 2 * Z.of_nat p - Z.of_nat d * (Z.of_nat k - 1) - 1)%Z).
  { destruct (Z_lt_le_dec (Z.of_nat w + 2 * Z.of_nat p - Z.of_nat d * (Z.of_nat k - 1) - 1) 0) as [N|N]; [|exact N].
    pose proof (Z.div_lt_upper_bound (Z.of_nat w + 2 * Z.of_nat p - Z.of_nat d * (Z.of_nat k - 1) - 1) (Z.of_nat s) 0 ltac:(lia) ltac:(lia)); lia. }
  assert (G3 : (d * (k - 1) + 1 <= w + 2 * p)%nat).
  { apply Nat2Z.inj_le. rewrite !Nat2Z.inj_add, !Nat2Z.inj_mul, Nat2Z.inj_sub by lia. change (Z.of_nat 1) with 1%Z; change (Z.of_nat 2) with 2%Z. lia. }
  split; [exact G3|]. apply Nat2Z.inj. rewrite conv_size_Z, Z2Nat.id by (auto; lia). lia.
Qed.
Lemma sizes_floor : forall k s p d ws os, mapM (pool_size false k s p d) ws = Ret os ->
  Forall (fun w => d * (k - 1) + 1 <= w + 2 * p)%nat ws /\ os = map (fun w => conv_size k s d (w + 2 * p)) ws.
Proof.
  intros k s p d ws os H; apply mapM_Ret_inv in H; induction H as [|w o l m Hw Hl (I1 & I2)]; [split; constructor|].
  apply pool_size_floor in Hw as (F & ->). split; [constructor; assumption|cbn; f_equal; exact I2].
Qed.

Lemma max_predicted : forall l x y B c ws n, shape x = B :: c :: ws -> length ws = n -> (0 < n)%nat -> m_ceil l = false -> max_forward l x = Ret y ->
  max_eval_shape l c n (map Z.of_nat (shape x)) = Ret (map Z.of_nat (shape y)).
Proof.
  intros l x y B c ws n Ex L Hn Hc H; unfold max_forward in H; rewrite Hc in H. destruct (max_pool_inv _ _ _ _ _ _ _ _ _ _ Ex H) as (os & Eo & Sy & _).
  destruct (params_ok _ _ _ _ _ _ _ Eo ltac:(intros ->; cbn in L; lia)) as (Hk & Hs & _). apply sizes_floor in Eo as (F & ->).
  unfold max_eval_shape; rewrite Hc, Ex, Sy. apply eval_floor; assumption.
Qed.

Lemma osize_map : forall k s d ws, osize k s d ws = map (conv_size k s d) ws.
Proof.
  intros k s d ws; unfold osize; induction ws as [|w ws IH]; [reflexivity|]; cbn [length repeat combine map fst snd]; rewrite IH; reflexivity.
Qed.

Lemma amax_shape : forall rounds sigma l x y B c ws n, shape x = B :: c :: ws -> length ws = n -> (0 < n)%nat -> amax_forward rounds sigma l n c x = Ret y ->
  (0 < m_kernel l)%nat /\ (0 < m_stride l)%nat /\ m_dilation l = 1%nat /\ Forall (fun w => m_kernel l <= w + 2 * m_padding l)%nat ws /\
  shape y = B :: c :: map (fun w => (w + 4 * m_padding l - m_kernel l) / m_stride l + 1)%nat ws.
Proof.
  intros rounds sigma l x y B c ws n Ex L Hn H; unfold amax_forward in H.
  apply assert_Ret in H as (Q1 & H); apply assert_Ret in H as (Q2 & H); cbv zeta in H. apply Nat.eqb_eq in Q1; rewrite Q1 in *. apply bind_Ret in H as (y0 & E0 & H).
  destruct (max_pool_inv _ _ _ _ _ _ _ _ _ _ Ex E0) as (os & Eo & Sy0 & _). destruct (dense_sizes _ _ _ _ _ Eo) as (F1 & Eos & F2).
  destruct (params_ok _ _ _ _ _ _ _ Eo ltac:(intros ->; cbn in L; lia)) as (Hk & _).
  assert (Lo : length os = n) by (rewrite Eos, map_length; exact L).
  destruct (blur_inv _ _ _ _ _ _ _ _ _ _ Sy0 Lo H) as (Hc & Hs & F & Sy & _).
  split; [exact Hk|split; [exact Hs|split; [reflexivity|split; [exact F2|]]]]. rewrite Sy, osize_map, Eos, !map_map. do 2 f_equal. apply map_ext_in; intros w Hw.
  rewrite Forall_forall in F2; specialize (F2 w Hw). unfold conv_size. do 2 f_equal.
  replace ((2 * rounds (4 * sigma)%R + 1 - 1) / 2)%nat with (rounds (4 * sigma)%R) by (rewrite Nat.add_sub, Nat.mul_comm, Nat.div_mul; lia). lia.
Qed.
Lemma amax_predicted : forall rounds sigma l x y B c ws n, shape x = B :: c :: ws -> length ws = n -> (0 < n)%nat -> m_ceil l = false -> m_padding l = 0%nat ->
  amax_forward rounds sigma l n c x = Ret y -> max_eval_shape l c n (map Z.of_nat (shape x)) = Ret (map Z.of_nat (shape y)).
Proof.
  intros rounds sigma l x y B c ws n Ex L Hn Hc Hp H; destruct (amax_shape _ _ _ _ _ _ _ _ _ Ex L Hn H) as (Hk & Hs & Hd & F & Sy).
  unfold max_eval_shape; rewrite Hc, Ex, Sy, Hd, Hp in *. rewrite eval_floor; [|exact Hk|exact Hs|exact L|eapply Forall_impl; [|exact F]; cbv beta; intros; lia].
  do 4 f_equal. apply map_ext; intros w; unfold conv_size; do 2 f_equal; lia.
Qed.
Lemma amax_mispredicted : forall rounds sigma l x y B c ws n, shape x = B :: c :: ws -> length ws = n -> (0 < n)%nat -> m_ceil l = false -> (m_stride l <= 2 * m_padding l)%nat ->
  amax_forward rounds sigma l n c x = Ret y -> max_eval_shape l c n (map Z.of_nat (shape x)) <> Ret (map Z.of_nat (shape y)).
Proof.
  intros rounds sigma l x y B c ws n Ex L Hn Hc Hp H; destruct (amax_shape _ _ _ _ _ _ _ _ _ Ex L Hn H) as (Hk & Hs & Hd & F & Sy).
  unfold max_eval_shape; rewrite Hc, Ex, Sy, Hd in *. rewrite eval_floor; [|exact Hk|exact Hs|exact L|eapply Forall_impl; [|exact F]; cbv beta; intros; lia].
  intros E; apply Ret_inj in E; cbn [map] in E; injection E as E. destruct ws as [|w ws]; [cbn in L; lia|]. cbn [map] in E; injection E as E _. apply Nat2Z.inj in E.
  inversion F as [|? ? Fw _]; subst.
  assert (E' : conv_size (m_kernel l) (m_stride l) 1 (w + 2 * m_padding l) = ((w + 4 * m_padding l - m_kernel l) / m_stride l + 1)%nat) by exact E. clear E. unfold conv_size in E'.
  assert (G : ((w + 2 * m_padding l - (1 * (m_kernel l - 1) + 1)) / m_stride l + 1 <= (w + 4 * m_padding l - m_kernel l) / m_stride l)%nat); [|lia].
  rewrite <- (Nat.div_add _ 1) by lia. apply Nat.div_le_mono; lia.
Qed.
Lemma aavg_predicted : forall rounds sigma stride padding x y B c ws n, shape x = B :: c :: ws -> length ws = n -> aavg_forward rounds sigma stride padding n c x = Ret y ->
  aavg_eval_shape rounds sigma stride padding c n (map Z.of_nat (shape x)) = Ret (map Z.of_nat (shape y)).
Proof.
  intros rounds sigma stride padding x y B c ws n Ex L H; unfold aavg_forward in H; apply assert_Ret in H as (_ & H); cbv zeta in H.
  destruct (blur_inv _ _ _ _ _ _ _ _ _ _ Ex L H) as (Hc & Hs & F & Sy & _). unfold aavg_eval_shape; cbv zeta. rewrite Ex, Sy, osize_map, map_map.
  apply eval_floor; [lia|exact Hs|exact L|eapply Forall_impl; [|exact F]; cbv beta; intros; lia].
Qed.

(** with the default padding the filter is centred on every [s]-th point *)
Lemma aavg_default_shape : forall rounds sigma s x y B c ws n, shape x = B :: c :: ws -> length ws = n -> aavg_forward rounds sigma (Some s) None n c x = Ret y ->
  shape y = B :: c :: map (fun w => ((w - 1) / s + 1)%nat) ws.
Proof.
  intros rounds sigma s x y B c ws n Ex L H; unfold aavg_forward in H; apply assert_Ret in H as (_ & H); cbv zeta in H. cbn [aavg_padding] in H.
  destruct (blur_inv _ _ _ _ _ _ _ _ _ _ Ex L H) as (Hc & Hs & F & Sy & _). rewrite Sy, osize_map, map_map. do 2 f_equal. apply map_ext_in. intros w Hw. rewrite Forall_forall in F. specialize (F w Hw). unfold conv_size.
  set (k := rounds (3 * sigma)%R) in *. replace ((2 * k + 1 - 1) / 2)%nat with k in * by (replace (2 * k + 1 - 1)%nat with (k * 2)%nat by lia; rewrite Nat.div_mul; lia).
  do 2 f_equal. lia.
Qed.

(** ** Constant images *)
Lemma blur_total : forall size n sigma, (0 < size)%nat -> 0 < rsum (map (blur_weight size sigma) (all_indices (repeat size n))).
Proof.
  intros size n sigma Hz. assert (G : forall l, l <> [] -> 0 < rsum (map (blur_weight size sigma) l)).
  { intros l; induction l as [|t l IH]; intros N; [congruence|]. unfold rsum in *; cbn [map fold_right]. pose proof (exp_pos (- rsum (map (fun i => (INR i - (INR size - 1) / 2) ^ 2) t) / (2 * sigma ^ 2))) as P.
    fold (blur_weight size sigma t) in P. destruct l as [|u l]; [cbn; lra|]. specialize (IH ltac:(discriminate)); lra. }
  apply G. assert (I : In (repeat 0%nat n) (all_indices (repeat size n))).
  { apply all_indices_In, valid_nth; rewrite !repeat_length; split; [reflexivity|]; intros i Hi; rewrite !nth_repeat_lt by exact Hi; exact Hz. }
  intros E; rewrite E in I; destruct I.
Qed.
Lemma aavg_constant : forall rounds sigma stride x y B c ws n v, shape x = B :: c :: ws -> length ws = n -> aavg_forward rounds sigma stride (Some 0%nat) n c x = Ret y ->
  (forall idx, valid (shape x) idx -> entry x idx = v) -> forall idx, valid (shape y) idx -> entry y idx = v.
Proof.
  intros rounds sigma stride x y B c ws n v Ex L H Hv idx V; unfold aavg_forward in H; apply assert_Ret in H as (_ & H); cbv zeta in H; cbn [aavg_padding] in H.
  set (size := (2 * rounds (3 * sigma)%R + 1)%nat) in *. set (s := match stride with Some s => s | None => size end) in *.
  destruct (blur_inv _ _ _ _ _ _ _ _ _ _ Ex L H) as (Hc & Hs & F & Sy & Vy). rewrite Sy in V.
  inversion V as [|bt ? l1 ? Hb V1]; subst; inversion V1 as [|o ? pos ? Ho V2]; subst. rewrite Vy, map_map; cbn [fst snd]. unfold blur_points; rewrite rsum_flat_map.
  set (total := rsum (map (blur_weight size sigma) _)).
  rewrite (rsum_ext _ _ (fun t => v / total * blur_weight size sigma t)).
  - rewrite rsum_scal. fold total. field. pose proof (blur_total size (length ws) sigma ltac:(unfold size; lia)); unfold total; lra.
  - intros t Ht; apply all_indices_In in Ht.
    assert (Vp : valid (map (fun w => w + 2 * 0)%nat ws) (place s 1 pos t)).
    { apply (place_valid size); [exact Hs| |exact V2|rewrite map_length; exact Ht]. apply Forall_forall; intros w Hw; apply in_map_iff in Hw as (w0 & <- & Hw). rewrite Forall_forall in F; specialize (F w0 Hw); lia. }
    destruct (reads PadZeros 0 ws (place s 1 pos t)) as [q|] eqn:E.
    + cbn [map fst snd]; rewrite rsum_one. rewrite Hv; [unfold Rdiv; ring|]. rewrite Ex. constructor; [exact Hb|constructor; [exact Ho|]].
      apply (reads_valid PadZeros 0 ws _ q (zeros_ok _ _) Vp E).
    + exfalso. apply valid_nth in Vp as (Lp & Vp); rewrite map_length in *. apply reads_None in E as (a & Ha & E); [|lia]. specialize (Vp a Ha); rewrite map_nth_nat in Vp by lia.
      unfold pad_read in E; cbn [Nat.leb andb] in E. destruct (Nat.ltb_spec (nth a (place s 1 pos t) 0%nat) (0 + nth a ws 0)%nat); [discriminate|lia].
Qed.

(** ** Adaptive pooling *)
Lemma cell_axis : forall o w i j, (i < o)%nat -> (0 < w)%nat ->
  ((cell_start o w i <= j < cell_end o w i)%nat <-> (j < w /\ j * o < (i + 1) * w /\ i * w < (j + 1) * o)%nat).
Proof.
  intros o w i j Hi Hw; unfold cell_start, cell_end. rewrite Nat.div_small, Nat.mod_small by exact Hi; cbn [Nat.mul Nat.add].
  assert (A : (i * w / o <= j <-> i * w < (j + 1) * o)%nat).
  { pose proof (Nat.div_mod (i * w) o ltac:(lia)) as D; pose proof (Nat.mod_upper_bound (i * w) o ltac:(lia)) as U. split; intros G.
    - assert (o * (i * w / o) <= o * j)%nat by (apply Nat.mul_le_mono_l; exact G). replace ((j + 1) * o)%nat with (o * j + o)%nat by ring. lia.
    - assert (i * w / o < j + 1)%nat by (apply Nat.div_lt_upper_bound; lia). lia. }
  assert (Hp : (0 < (i + 1) * w)%nat) by (apply Nat.mul_pos_pos; lia).
  assert (E : (j < 1 + ((i + 1) * w - 1) / o <-> j * o < (i + 1) * w)%nat).
  { pose proof (Nat.div_mod ((i + 1) * w - 1) o ltac:(lia)) as D; pose proof (Nat.mod_upper_bound ((i + 1) * w - 1) o ltac:(lia)) as U. split; intros G.
    - assert (j * o <= o * (((i + 1) * w - 1) / o))%nat by (rewrite (Nat.mul_comm j); apply Nat.mul_le_mono_l; lia). lia.
    - assert (j <= ((i + 1) * w - 1) / o)%nat; [|lia]. apply Nat.div_le_lower_bound; lia. }
  change (S (((i + 1) * w - 1) / o)) with (1 + ((i + 1) * w - 1) / o)%nat. rewrite A, E. split; [intros (G1 & G2)|tauto]. split; [|tauto].
  apply (Nat.mul_lt_mono_pos_r o); [lia|]. apply Nat.lt_le_trans with ((i + 1) * w)%nat; [exact G2|]. rewrite (Nat.mul_comm w). apply Nat.mul_le_mono_r; lia.
Qed.
Lemma cell_points_In : forall o ws pos q, Forall (fun w => 0 < w)%nat ws -> valid (repeat o (length ws)) pos -> (In q (cell_points o ws pos) <-> in_cell o ws pos q).
Proof.
  intros o ws; induction ws as [|w ws IH]; intros pos q Hw V.
  - cbn. split; [intros [<-|[]]; split; [reflexivity|intros a Ha; cbn in Ha; lia]|intros (L & _); destruct q; [left; reflexivity|discriminate]].
  - cbn [length repeat] in V; inversion V as [|i ? pos' ? Hi V']; subst. inversion Hw as [|? ? W1 W2]; subst. unfold cell_points; cbn [combine fold_right fst snd]. fold (cell_points o ws pos').
    rewrite in_flat_map; split.
    + intros (j & Hj & Hq); apply in_map_iff in Hq as (q' & <- & Hq). apply (IH pos' q' W2 V') in Hq as (Lq & Hq). apply in_seq in Hj.
      assert (Hj' : (cell_start o w i <= j < cell_end o w i)%nat) by lia. apply cell_axis in Hj'; [|exact Hi|exact W1].
      split; [cbn; lia|]. intros [|a] Ha; cbn [nth]; [exact Hj'|apply Hq; cbn in Ha; lia].
    + intros (Lq & Hq). destruct q as [|j q]; [discriminate|]. exists j; split.
      * pose proof (Hq 0%nat ltac:(cbn; lia)) as H; cbn [nth] in H. apply cell_axis in H; [|exact Hi|exact W1]. apply in_seq; lia.
      * apply in_map, (IH pos' q W2 V'); split; [cbn in Lq; lia|]. intros a Ha; apply (Hq (S a)); cbn; lia.
Qed.
Lemma cell_points_NoDup : forall o ws pos, NoDup (cell_points o ws pos).
Proof.
  intros o ws; induction ws as [|w ws IH]; intros [|i pos]; try (cbn; constructor; [intros []|constructor]).
  unfold cell_points; cbn [combine fold_right fst snd]. fold (cell_points o ws pos). apply flat_map_NoDup; [apply seq_NoDup| |].
  - intros j _; apply FinFun.Injective_map_NoDup; [intros u v E; injection E; auto|apply IH].
  - intros j j' q _ _ H1 H2; apply in_map_iff in H1 as (u & <- & _), H2 as (v & E & _). injection E; auto.
Qed.
Lemma in_cell_valid : forall o ws pos q, in_cell o ws pos q -> valid ws q.
Proof. intros o ws pos q (L & H); apply valid_nth; split; [exact L|]; intros a Ha; apply H; exact Ha. Qed.
Lemma in_cell_act : forall n pi b o ws pos q, ImageProofs.permutes n pi -> length ws = n -> valid (repeat o n) pos -> valid ws q ->
  (in_cell o (pshape n pi ws) (act n pi b (repeat o n) pos) (act n pi b ws q) <-> in_cell o ws pos q).
Proof.
  intros n pi b o ws pos q P L V Vq; apply valid_nth in V as (Lp & V), Vq as (Lq & Vq); rewrite repeat_length in *.
  assert (G : forall a, (a < n)%nat -> (nth a (act n pi b ws q) 0 < nth a (pshape n pi ws) 0 /\ nth a (act n pi b ws q) 0 * o < (nth a (act n pi b (repeat o n) pos) 0 + 1) * nth a (pshape n pi ws) 0 /\
      nth a (act n pi b (repeat o n) pos) 0 * nth a (pshape n pi ws) 0 < (nth a (act n pi b ws q) 0 + 1) * o)%nat <->
    (nth (pi a) q 0 < nth (pi a) ws 0 /\ nth (pi a) q 0 * o < (nth (pi a) pos 0 + 1) * nth (pi a) ws 0 /\ nth (pi a) pos 0 * nth (pi a) ws 0 < (nth (pi a) q 0 + 1) * o)%nat).
  { intros a Ha; pose proof (proj1 P a Ha) as Hpa. rewrite !act_nth, pshape_nth, nth_repeat_lt by assumption. specialize (V (pi a) Hpa); rewrite nth_repeat_lt in V by exact Hpa. specialize (Vq (pi a) ltac:(lia)).
    destruct (b a); [|tauto]. set (j := nth (pi a) q 0%nat) in *; set (i := nth (pi a) pos 0%nat) in *; set (w := nth (pi a) ws 0%nat) in *.
    destruct (Nat.le_exists_sub (j + 1) w ltac:(lia)) as (j' & Ej & _), (Nat.le_exists_sub (i + 1) o ltac:(lia)) as (i' & Ei & _). rewrite Ej, Ei.
    replace (j' + (j + 1) - 1 - j)%nat with j' by lia. replace (i' + (i + 1) - 1 - i)%nat with i' by lia.
    rewrite !Nat.mul_add_distr_l, !Nat.mul_add_distr_r, !Nat.mul_1_l, !Nat.mul_1_r. rewrite ?(Nat.mul_comm j' i'), ?(Nat.mul_comm j' i), ?(Nat.mul_comm j i'), ?(Nat.mul_comm j i). lia. }
  unfold in_cell; rewrite act_length, pshape_length, L. split; intros (_ & H); (split; [first [reflexivity|lia]|]).
  - intros a Ha; destruct (permutes_onto n pi P a Ha) as (a' & Ha' & <-). apply (G a' Ha'), H; exact Ha'.
  - intros a Ha; apply G; [exact Ha|]. apply H, P; exact Ha.
Qed.
Lemma cell_points_act : forall n pi b o ws pos, ImageProofs.permutes n pi -> length ws = n -> Forall (fun w => 0 < w)%nat ws -> valid (repeat o n) pos ->
  Permutation (cell_points o (pshape n pi ws) (act n pi b (repeat o n) pos)) (map (act n pi b ws) (cell_points o ws pos)).
Proof.
  intros n pi b o ws pos P L W V. pose proof (Forall_pshape n pi _ ws P L W) as W'.
  assert (V' : valid (repeat o (length (pshape n pi ws))) (act n pi b (repeat o n) pos)) by (rewrite pshape_length, <- (repeat_pshape n pi o P) at 1; apply act_valid; [exact P|apply repeat_length|exact V]).
  assert (V2 : valid (repeat o (length ws)) pos) by (rewrite L; exact V).
  apply NoDup_Permutation.
  - apply cell_points_NoDup.
  - apply NoDup_map_inj_in; [|apply cell_points_NoDup]. intros u v Hu Hv; apply (cell_points_In o ws pos _ W V2) in Hu, Hv. apply act_inj; eauto using in_cell_valid.
  - intros q'; rewrite cell_points_In, in_map_iff by assumption; split.
    + intros H. destruct (act_onto n pi b ws q' P L (in_cell_valid _ _ _ _ H)) as (q & Vq & <-). exists q; split; [reflexivity|]. apply (cell_points_In o ws pos _ W V2). apply (in_cell_act n pi b o ws pos q P L V Vq); exact H.
    + intros (q & <- & H); apply (cell_points_In o ws pos _ W V2) in H. apply (in_cell_act n pi b o ws pos q P L V); [eapply in_cell_valid|]; eassumption.
Qed.

Lemma adaptive_inv : forall f o x y B c ws, shape x = B :: c :: ws -> adaptive_pool f o x = Ret y ->
  Forall (fun w => 0 < w)%nat ws /\ shape y = B :: c :: repeat o (length ws) /\
  forall bt ch pos, entry y (bt :: ch :: pos) = f (map (fun q => entry x (bt :: ch :: q)) (cell_points o ws pos)).
Proof.
  intros f o x y B c ws Ex H; unfold adaptive_pool in H; rewrite Ex in H; cbn [skipn firstn length] in H; apply assert_Ret in H as (_ & H); apply assert_Ret in H as (W & H). apply Ret_inj in H; subst y.
  split; [|split; reflexivity]. apply Forall_forall; intros w Hw; rewrite forallb_forall in W; apply Nat.ltb_lt, W, Hw.
Qed.
Lemma adaptive_turned : forall f c rho n pi b B o ws x x' y, ImageProofs.permutes n pi -> length ws = n -> f [] = 0 ->
  symmetric (fun l => f (map snd l)) -> commutes c rho (fun l => f (map snd l)) ->
  turned c rho n pi b B ws x x' -> adaptive_pool f o x = Ret y ->
  exists os y', length os = n /\ adaptive_pool f o x' = Ret y' /\ turned c rho n pi b B os y y'.
Proof.
  intros f c rho n pi b B o ws x x' y P L F0 Sf Cf T H. pose proof T as (Ex & Ex' & _). destruct (adaptive_inv _ _ _ _ _ _ _ Ex H) as (W & Sy & Vy). rewrite L in Sy.
  exists (repeat o n).
  assert (H' : exists y', adaptive_pool f o x' = Ret y').
  { unfold adaptive_pool; rewrite Ex'; cbn [skipn firstn length Nat.leb assert_ bind]. replace (forallb (Nat.ltb 0) (pshape n pi ws)) with true; [eexists; reflexivity|].
    symmetry; apply forallb_pshape; [exact P|exact L|]. apply forallb_forall; intros w Hw; rewrite Forall_forall in W; apply Nat.ltb_lt, W, Hw. }
  destruct H' as (y' & H'). exists y'; split; [apply repeat_length|split; [exact H'|]]. destruct (adaptive_inv _ _ _ _ _ _ _ Ex' H') as (W' & Sy' & Vy'). rewrite pshape_length in Sy'.
  apply (windows_turned c rho n pi b B (fun l => f (map snd l)) ws (repeat o n) (fun pos => map (pair 1) (cell_points o ws pos)) (fun pos => map (pair 1) (cell_points o (pshape n pi ws) pos)) x x' y y'); auto.
  - rewrite repeat_pshape by exact P; exact Sy'.
  - intros bt ch pos _ _ _; rewrite Vy, !map_map; reflexivity.
  - intros bt ch pos _ _ _; rewrite Vy', !map_map; reflexivity.
  - intros pos w q V Hq; apply in_map_iff in Hq as (q' & E & Hq); injection E as _ <-. apply (cell_points_In o ws pos _ W) in Hq; [|rewrite L; exact V]. eapply in_cell_valid; exact Hq.
  - intros pos V; rewrite map_map; cbn [fst snd]. rewrite <- (map_map (act n pi b ws) (pair _)). apply Permutation_map, cell_points_act; assumption.
Qed.
Lemma mean_symmetric : symmetric (fun l => mean (map snd l)).
Proof. intros l m H; unfold mean. rewrite !map_length, (Permutation_length H), (rsum_perm _ _ (Permutation_map snd H)); reflexivity. Qed.
Lemma mean_commutes : forall c rho, commutes c rho (fun l => mean (map snd l)).
Proof.
  intros c rho l v o _ Ho; unfold mean; rewrite !map_map; cbn [snd]. rewrite map_length, rsum_sumn.
  unfold Rdiv; rewrite <- sumn_scal_r. apply sumn_ext; intros j Hj. rewrite !map_map, map_length; cbn [snd]. rewrite rsum_scal; ring.
Qed.
Lemma in_cell_some : forall o ws pos, Forall (fun w => 0 < w)%nat ws -> valid (repeat o (length ws)) pos -> exists q, in_cell o ws pos q.
Proof.
  intros o ws pos W V; apply valid_nth in V as (Lp & V); rewrite repeat_length in *. exists (map (fun wi => cell_start o (fst wi) (snd wi)) (combine ws pos)).
  split; [rewrite map_length, combine_length; lia|]. intros a Ha. rewrite combine_nth_map by lia; cbn [fst snd]. specialize (V a Ha); rewrite nth_repeat_lt in V by exact Ha.
  rewrite Forall_forall in W. assert (Hw : (0 < nth a ws 0)%nat) by (apply W, nth_In; exact Ha). set (w := nth a ws 0%nat) in *; set (i := nth a pos 0%nat) in *.
  apply cell_axis; [exact V|exact Hw|]. split; [lia|]. unfold cell_start, cell_end. rewrite Nat.div_small, Nat.mod_small by exact V; cbn [Nat.mul Nat.add].
  apply Nat.lt_succ_r, Nat.div_le_mono; [lia|]. rewrite Nat.mul_add_distr_r; lia.
Qed.

Lemma adaptive_value : forall o x B c ws, shape x = B :: c :: ws ->
  (forall y, adaptive_max_forward o x = Ret y -> shape y = B :: c :: repeat o (length ws) /\
     forall bt ch pos, valid (repeat o (length ws)) pos -> largest (in_cell o ws pos) (fun q => entry x (bt :: ch :: q)) (entry y (bt :: ch :: pos))) /\
  (forall y, adaptive_avg_forward o x = Ret y -> shape y = B :: c :: repeat o (length ws) /\
     forall bt ch pos, valid (repeat o (length ws)) pos -> exists l, l <> [] /\ NoDup l /\ (forall q, In q l <-> in_cell o ws pos q) /\
       entry y (bt :: ch :: pos) * INR (length l) = fold_right Rplus 0 (map (fun q => entry x (bt :: ch :: q)) l)).
Proof.
  intros o x B c ws Ex. assert (NE : forall pos, Forall (fun w => 0 < w)%nat ws -> valid (repeat o (length ws)) pos -> cell_points o ws pos <> []).
  { intros pos W V E. destruct (in_cell_some o ws pos W V) as (q & Hq). apply (cell_points_In o ws pos q W V) in Hq; rewrite E in Hq; destruct Hq. }
  split; intros y H; destruct (adaptive_inv _ _ _ _ _ _ _ Ex H) as (W & Sy & Vy); (split; [exact Sy|]); intros bt ch pos V; rewrite Vy.
  - apply rmax_largest; [apply NE; assumption|]. intros q; apply cell_points_In; assumption.
  - exists (cell_points o ws pos); split; [apply NE; assumption|split; [apply cell_points_NoDup|split; [intros q; apply cell_points_In; assumption|]]].
    unfold mean; rewrite map_length. unfold rsum; field. apply not_0_INR. specialize (NE pos W V). destruct (cell_points o ws pos); [congruence|discriminate].
Qed.
Lemma adaptive_commutes : forall half, half 0 = 0 -> half 1 = 1 -> half (-1) = -1 -> forall affine c rho n M x B ws o, signed_perm n M -> shape x = B :: c :: ws -> length ws = n ->
  (forall y, adaptive_avg_forward o x = Ret y -> commutes_with half affine c rho n M (adaptive_avg_forward o) x y) /\
  (SpecPool.permutes c rho -> forall y, adaptive_max_forward o x = Ret y -> commutes_with half affine c rho n M (adaptive_max_forward o) x y).
Proof.
  intros half H0 H1 Hm affine c rho n M x B ws o HM Ex L; split; [intros y H|intros HP y H]; apply (turned_commutes half H0 H1 Hm affine c rho n M HM _ x y B ws Ex L); intros pi b x' P T;
    (eapply adaptive_turned; [exact P|exact L| | | |exact T|exact H]).
  - unfold mean, rsum; cbn. unfold Rdiv; ring.
  - apply mean_symmetric.
  - apply mean_commutes.
  - reflexivity.
  - apply max_symmetric.
  - apply max_commutes; exact HP.
Qed.
Lemma adaptive_predicted : forall f o n x y B c ws, shape x = B :: c :: ws -> length ws = n -> adaptive_pool f o x = Ret y -> adaptive_eval_shape o n c (shape x) = Ret (shape y).
Proof.
  intros f o n x y B c ws Ex L H; destruct (adaptive_inv _ _ _ _ _ _ _ Ex H) as (_ & Sy & _). unfold adaptive_eval_shape; rewrite Ex, Sy; cbn [length nth]. rewrite L, !Nat.eqb_refl; reflexivity.
Qed.
