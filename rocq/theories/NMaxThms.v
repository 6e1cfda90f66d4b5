(** NormMaxPool on images. *)
From Coq Require Import Reals ZArith Lia Lra Bool List Arith Permutation.
From Verif Require Import LibRes LibMat FieldModel SpecField FieldProofs BranchProofs GroupedModel GroupedProofs SpecNonlin NonlinModel NonlinProofs BatchNormProofs
  GridModel SpecGrid GridProofs GridThms ImageModel SpecImage ImageProofs MaskThms ShapeModel ShapeThms ShapeCor ConvThms SPoolModel SpecSPool SPoolProofs SPoolThms SPoolCor NMaxModel SpecNMax NMaxProofs.
Import ListNotations.
Open Scope R_scope.

Lemma pool_size_torch : forall ceil k s p d w o, pool_size ceil k s p d w = Ret o <-> torch_pool_size ceil (pool_window k s p d) (Z.of_nat w) = Ret (Z.of_nat o).
Proof.
  intros ceil k s p d w o; unfold pool_size; split; intros H.
  - apply bind_Ret in H as (z & H & E). apply Ret_inj in E; subst o. rewrite H. pose proof H as T; apply torch_size in T as (_ & T & _). rewrite Z2Nat.id by lia. reflexivity.
  - rewrite H; cbn [bind]. rewrite Nat2Z.id; reflexivity.
Qed.
Lemma pooled_shape : forall ceil k s p d B c h w o, pool_forward_shape (Z.of_nat c) [pool_window k s p d; pool_window k s p d] ceil (map Z.of_nat [B; c; h; w]) = Ret o <->
  exists os, mapM (pool_size ceil k s p d) [h; w] = Ret os /\ o = map Z.of_nat (B :: c :: os).
Proof.
  intros ceil k s p d B c h w o; unfold pool_forward_shape; cbn [map length Nat.add Nat.eqb assert_ bind nth skipn combine mapM fst snd]. rewrite Z.eqb_refl; cbn [assert_ bind]. split.
  - intros H. apply bind_Ret in H as (o2 & H & E). apply Ret_inj in E; subst o. apply bind_Ret in H as (a & Ha & H). apply bind_Ret in H as (l & H & E). apply Ret_inj in E; subst o2.
    apply bind_Ret in H as (b & Hb & H). cbn [bind] in H. apply Ret_inj in H; subst l.
    pose proof Ha as Ta; apply torch_size in Ta as (_ & Ta & _). pose proof Hb as Tb; apply torch_size in Tb as (_ & Tb & _).
    exists [Z.to_nat a; Z.to_nat b]. rewrite <- (Z2Nat.id a) in Ha by lia; rewrite <- (Z2Nat.id b) in Hb by lia. apply pool_size_torch in Ha, Hb. rewrite Ha, Hb. cbn [bind map].
    rewrite !Z2Nat.id by lia. split; reflexivity.
  - intros (os & H & ->). apply bind_Ret in H as (a & Ha & H). apply bind_Ret in H as (l & H & E). apply Ret_inj in E; subst os. apply bind_Ret in H as (b & Hb & H). cbn [bind] in H. apply Ret_inj in H; subst l.
    apply pool_size_torch in Ha, Hb. rewrite Ha, Hb. reflexivity.
Qed.
Lemma norm2_sum : forall v, norm2 v = sumn (length v) (fun i => nth i v 0 * nth i v 0).
Proof. induction v as [|a v IH]; [reflexivity|]. unfold norm2 in *; cbn [map fold_right length]. rewrite IH, sumn_S_first. reflexivity. Qed.
Lemma norm2_orth : forall n M v, length v = n -> orthogonal n M -> norm2 (mv n M v) = norm2 v.
Proof.
  intros n M v L O. pose proof (enorm_orth n M v L O) as E. unfold enorm in E. rewrite <- !norm2_sum in E.
  apply (f_equal (fun r => r * r)) in E. rewrite !sqrt_sqrt in E by apply norm2_pos. exact E.
Qed.

Section T.
Context {A : Type}.
Variable size : A -> nat.
Variable teqb : list A -> list A -> bool.
Variable ft : list A.
Hypothesis Pz : Forall (fun r => (0 < size r)%nat) ft.
Hypothesis Nt : ft <> [].
Hypothesis Te : teqb ft ft = true.
Variables (dim : nat) (l : max_layer) (m : @nm_module A).
Hypothesis Em : mk_nm size dim ft l = Ret m.
Variable junk : list channel.
Hypothesis Lj : length junk = type_size size ft.
Let c := type_size size ft.
Let groups := map (fun s => (Z.of_nat (nfields Nat.eqb (map size ft) s), Z.of_nat s)) (nm_order m).
Let win := pool_window (m_kernel l) (m_stride l) (m_padding l) (m_dilation l).

Lemma groups_ok : Forall (fun fs => 0 < fst fs)%Z groups /\ groups <> [].
Proof using Pz Nt Em.
  destruct (mk_facts size ft Pz dim l m Em) as (_ & _ & _ & ND & Io & _). split.
  - apply Forall_forall; intros fs H; apply in_map_iff in H as (s & <- & Hs). apply Io in Hs. cbn [fst]. rewrite (nfields_labelled Nat.eqb).
    pose proof (labelled_nonempty Nat.eqb nat_ok (map size ft) s Hs) as N. destruct (labelled Nat.eqb (map size ft) s); [congruence|clear; cbn [length]; lia].
  - intros E. apply map_eq_nil in E. assert (Hr : exists r, In r ft) by (clear - Nt; destruct ft as [|r ft']; [congruence|exists r; left; reflexivity]). destruct Hr as (r & Hr).
    specialize (proj2 (Io (size r)) (in_map size ft r Hr)). rewrite E; intros [].
Qed.
Lemma shape_iff : forall B h w o, norm_max_forward_shape (Z.of_nat c) win win (m_ceil l) groups (map Z.of_nat [B; c; h; w]) = Ret o <->
  exists os, mapM (pool_size (m_ceil l) (m_kernel l) (m_stride l) (m_padding l) (m_dilation l)) [h; w] = Ret os /\ o = map Z.of_nat (B :: c :: os) /\
    norm_max_eval_shape (Z.of_nat c) win win (map Z.of_nat [B; c; h; w]) = Ret o.
Proof using Pz Nt Em.
  intros B h w o. destruct groups_ok as (G1 & G2). rewrite norm_max_iff by (try assumption; cbn [map nth]; clear; lia). unfold win at 1 2. rewrite pooled_shape. split.
  - intros ((os & H & E) & H2). exists os. split; [exact H|split; [exact E|exact H2]].
  - intros (os & H & E & H2). split; [exists os; split; [exact H|exact E]|exact H2].
Qed.
Lemma to_nats : forall os, map Z.to_nat (map Z.of_nat os) = os.
Proof using. intros os; rewrite map_map, <- (map_id os) at 1. rewrite map_id. transitivity (map (fun n => n) os); [apply map_ext; intros; apply Nat2Z.id|apply map_id]. Qed.

Lemma nm_inv : forall x y B h w, shape x = [B; c; h; w] -> nm_forward size teqb m ft junk x = Ret y ->
  exists os, mapM (pool_size (m_ceil l) (m_kernel l) (m_stride l) (m_padding l) (m_dilation l)) [h; w] = Ret os /\ length os = 2%nat /\
    shape y = B :: c :: os /\ nm_eval_shape size m (map Z.of_nat (shape x)) = Ret (map Z.of_nat (shape y)) /\
    (forall pos, valid os pos -> window_points (m_kernel l) (m_stride l) (m_padding l) (m_dilation l) [h; w] pos <> []) /\
    forall i bt pos, (i < length ft)%nat -> field_at size ft y i bt pos =
      field_at size ft x i bt (first_largest (fun q => sqrt (norm2 (field_at size ft x i bt q))) (window_points (m_kernel l) (m_stride l) (m_padding l) (m_dilation l) [h; w] pos)).
Proof using Pz Nt Em Lj.
  intros x y B h w Ex H. destruct (forward_inv size teqb ft Pz dim l m Em junk x y Lj H) as (o & Eo & Sy & N & V). cbv beta zeta in *.
  rewrite Ex in Eo, Sy, N, V. cbn [skipn firstn app] in *. apply shape_iff in Eo as (os & Eo & -> & Ev). cbn [map skipn] in *. rewrite to_nats in *.
  exists os. split; [exact Eo|split; [apply (mapM_length _ _ _ _ _ Eo)|split; [exact Sy|split; [|split; [exact N|exact V]]]]].
  rewrite Ex, Sy. destruct (mk_facts size ft Pz dim l m Em) as (Tm & Lm & _). unfold nm_eval_shape. rewrite Tm, Lm. exact Ev.
Qed.

Theorem nm_value : forall x y B h w, shape x = [B; c; h; w] -> nm_forward size teqb m ft junk x = Ret y ->
  exists os, length os = 2%nat /\ shape y = B :: c :: os /\ nm_eval_shape size m (map Z.of_nat (shape x)) = Ret (map Z.of_nat (shape y)) /\
    forall i bt pos, (i < length ft)%nat -> valid os pos ->
      exists q, longest_at (under (m_kernel l) (m_stride l) (m_padding l) (m_dilation l) [h; w] pos) (field_at size ft x i bt) q /\
        field_at size ft y i bt pos = field_at size ft x i bt q.
Proof using Pz Nt Em Lj.
  intros x y B h w Ex H. destruct (nm_inv x y B h w Ex H) as (os & _ & Lo & Sy & Ev & N & V). exists os. split; [exact Lo|split; [exact Sy|split; [exact Ev|]]].
  intros i bt pos Hi Vp. eexists; split; [|apply V; exact Hi]. apply picked; [|apply N; exact Vp].
  apply valid_nth in Vp as (Lp & _). transitivity (length os); [exact Lp|exact Lo].
Qed.

(** ** Equivariance *)
Lemma field_turned : forall (rho : A -> mat) n pi b B ws x x', turned c (fiber_representation size rho ft) n pi b B ws x x' ->
  forall i r bt q, nth_error ft i = Some r -> (bt < B)%nat -> valid ws q -> field_at size ft x' i bt (act n pi b ws q) = mv (size r) (rho r) (field_at size ft x i bt q).
Proof.
  intros rho n pi b B ws x x' (_ & _ & T) i r bt q Er Hb V. unfold field_at.
  set (v := map (fun o => entry x (bt :: o :: q)) (seq 0 (list_sum (map size ft)))).
  assert (Lv : length v = type_size size ft) by (unfold v; rewrite map_length, seq_length; reflexivity).
  destruct (matvec_blocks size rho ft v Lv) as (_ & F). rewrite <- (F i r Er). f_equal. unfold matvec. apply map_ext_in; intros o Ho. apply in_seq in Ho.
  fold (type_size size ft) in Ho. rewrite T by (auto; unfold c; lia). fold c. apply sumn_ext; intros j Hj. f_equal. unfold v.
  rewrite (nth_indep _ 0 (entry x (bt :: 0%nat :: q))) by (rewrite map_length, seq_length; exact Hj). rewrite (map_nth (fun o => entry x (bt :: o :: q))), seq_nth by exact Hj. reflexivity.
Qed.
Lemma turned_fields : forall (rho : A -> mat) n pi b B ws x x', shape x = B :: c :: ws -> shape x' = B :: c :: pshape n pi ws ->
  (forall i r bt q, nth_error ft i = Some r -> (bt < B)%nat -> valid ws q -> field_at size ft x' i bt (act n pi b ws q) = mv (size r) (rho r) (field_at size ft x i bt q)) ->
  turned c (fiber_representation size rho ft) n pi b B ws x x'.
Proof.
  intros rho n pi b B ws x x' Ex Ex' H. split; [exact Ex|split; [exact Ex'|]]. intros bt o q Hb Ho V.
  set (v := map (fun o => entry x (bt :: o :: q)) (seq 0 c)). set (v' := map (fun o => entry x' (bt :: o :: act n pi b ws q)) (seq 0 c)).
  assert (Lv : length v = type_size size ft) by (unfold v; rewrite map_length, seq_length; reflexivity).
  assert (Lv' : length v' = type_size size ft) by (unfold v'; rewrite map_length, seq_length; reflexivity).
  destruct (matvec_blocks size rho ft v Lv) as (Lm & F).
  assert (E : v' = matvec (type_size size ft) (fiber_representation size rho ft) v).
  { apply (fields_ext size ft); [exact Lv'|exact Lm|]. intros i Hi. destruct (nth_error ft i) as [r|] eqn:Er; [|apply nth_error_None in Er; lia].
    rewrite (F i r Er). exact (H i r bt q Er Hb V). }
  assert (N : forall z : array R, forall g, forall j, (j < c)%nat -> nth j (map (fun o => entry z (bt :: o :: g)) (seq 0 c)) 0 = entry z (bt :: j :: g)).
  { intros z g j Hj. rewrite (nth_indep _ 0 (entry z (bt :: 0%nat :: g))) by (rewrite map_length, seq_length; exact Hj). rewrite (map_nth (fun o => entry z (bt :: o :: g))), seq_nth by exact Hj. reflexivity. }
  rewrite <- (N x' (act n pi b ws q) o Ho). fold v'. rewrite E. change (@matvec) with (@mv). rewrite mv_nth by exact Ho. apply sumn_ext; intros j Hj. f_equal. apply (N x q j Hj).
Qed.

Theorem nm_turned : forall (rho : A -> mat) pi b B h w x x' y, ImageProofs.permutes 2 pi -> Forall (fun r => orthogonal (size r) (rho r)) ft ->
  Forall (fits (m_kernel l) (m_stride l) (m_padding l) (m_dilation l)) [h; w] ->
  turned c (fiber_representation size rho ft) 2 pi b B [h; w] x x' -> nm_forward size teqb m ft junk x = Ret y ->
  (forall i bt pos, (i < length ft)%nat -> (bt < B)%nat -> valid (skipn 2 (shape y)) pos ->
     no_ties (under (m_kernel l) (m_stride l) (m_padding l) (m_dilation l) [h; w] pos) (field_at size ft x i bt)) ->
  exists os y', length os = 2%nat /\ nm_forward size teqb m ft junk x' = Ret y' /\ turned c (fiber_representation size rho ft) 2 pi b B os y y'.
Proof.
  intros rho pi b B h w x x' y P Or Hf T H NT. pose proof T as (Ex & Ex' & _).
  destruct (nm_inv x y B h w Ex H) as (os & Eo & Lo & Sy & _ & N & V). rewrite Sy in NT; cbn [skipn] in NT.
  set (ws := [h; w]) in *. assert (L : length ws = 2%nat) by reflexivity.
  destruct (params_ok _ _ _ _ _ _ _ Eo ltac:(discriminate)) as (Hk & Hs & Hd & Hp).
  set (k := m_kernel l) in *; set (s := m_stride l) in *; set (p := m_padding l) in *; set (d := m_dilation l) in *.
  pose proof Eo as Eo2; rewrite (sizes_fit 2 k s p d ws L Hs Hf (m_ceil l)) in Eo2 by auto. apply Ret_inj in Eo2. set (wp := map (fun w => w + 2 * p)%nat ws) in *.
  pose proof (Forall_pshape 2 pi (fits k s p d) ws P L Hf) as Hf'.
  pose proof (sizes_fit 2 k s p d (pshape 2 pi ws) (pshape_length _ _ _) Hs Hf' (m_ceil l) (or_intror Hk) Hd Hp) as Eo'.
  rewrite map_pshape, osize_pshape in Eo' by (try apply Lwp; assumption). fold wp in Eo'; rewrite Eo2 in Eo'.
  assert (PW : forall pos, valid os pos -> Permutation (window_points k s p d (pshape 2 pi ws) (act 2 pi b os pos)) (map (act 2 pi b ws) (window_points k s p d ws pos))).
  { rewrite <- Eo2; intros pos Vp; apply window_points_act; assumption. }
  assert (W2 : exists h' w', pshape 2 pi ws = [h'; w']) by (unfold pshape; cbn; eauto). destruct W2 as (h' & w' & W2).
  assert (Sh : norm_max_forward_shape (Z.of_nat c) win win (m_ceil l) groups (map Z.of_nat (shape x')) = Ret (map Z.of_nat (B :: c :: pshape 2 pi os))).
  { rewrite Ex', W2. apply shape_iff. eexists; split; [rewrite <- W2; exact Eo'|split; [reflexivity|]]. unfold norm_max_eval_shape, win.
    change [pool_window k s p d; pool_window k s p d] with (repeat (pool_window k s p d) 2). rewrite eval_floor; auto.
    - assert (E2 : pshape 2 pi os = map (fun w => conv_size k s d (w + 2 * p)) [h'; w']); [|rewrite E2; reflexivity].
      rewrite <- W2. assert (Fl : mapM (pool_size false k s p d) (pshape 2 pi ws) = Ret (pshape 2 pi os)).
      { rewrite <- Eo'. rewrite (sizes_fit 2 k s p d (pshape 2 pi ws) (pshape_length _ _ _) Hs Hf' false (or_intror Hk) Hd Hp).
        rewrite (sizes_fit 2 k s p d (pshape 2 pi ws) (pshape_length _ _ _) Hs Hf' (m_ceil l) (or_intror Hk) Hd Hp). reflexivity. }
      apply sizes_floor in Fl as (_ & Fl). exact Fl.
    - rewrite <- W2. eapply Forall_impl; [|exact Hf']. intros a (q & Q); lia. }
  destruct (forward_go size teqb ft Pz Te dim l m Em junk x' _ Lj Sh) as (y' & H').
  { cbn [map skipn]. rewrite to_nats, Ex'. cbn [skipn]. intros pos' V'. destruct (act_onto 2 pi b os pos' P Lo V') as (pos & Vp & <-). intros E.
    pose proof (PW pos Vp) as Q. unfold k, s, p, d in Q. rewrite E in Q. apply Permutation_nil in Q. apply map_eq_nil in Q. exact (N pos Vp Q). }
  exists os, y'. split; [exact Lo|split; [exact H'|]].
  rewrite W2 in Ex'. destruct (nm_inv x' y' B h' w' Ex' H') as (os' & Eos' & _ & Sy' & _ & N' & Vy'). rewrite <- W2 in *.
  fold k s p d in Eos'. rewrite Eo' in Eos'; apply Ret_inj in Eos'; subst os'.
  apply turned_fields; [exact Sy|exact Sy'|]. intros i r bt pos Er Hb Vp.
  assert (Hi : (i < length ft)%nat) by (apply nth_error_Some; congruence).
  rewrite Vy', V by exact Hi. fold k s p d.
  assert (Lp : length pos = 2%nat) by (apply valid_nth in Vp as (? & _); lia).
  set (q0 := first_largest _ (window_points k s p d ws pos)). set (q1 := first_largest _ (window_points k s p d (pshape 2 pi ws) (act 2 pi b os pos))).
  assert (Or' : orthogonal (size r) (rho r)) by (rewrite Forall_forall in Or; apply Or; eapply nth_error_In, Er).
  assert (Lf : forall q, length (field_at size ft x i bt q) = size r).
  { intros q; unfold field_at; apply field_chans_length; [rewrite map_length, seq_length; reflexivity|exact Er]. }
  assert (Vq : forall q, In q (window_points k s p d ws pos) -> valid ws q) by (intros q Hq; rewrite <- Eo2 in Vp; apply (window_points_valid 2 k s p d ws L Hs Hf pos); assumption).
  assert (FT : forall q, In q (window_points k s p d ws pos) -> field_at size ft x' i bt (act 2 pi b ws q) = mv (size r) (rho r) (field_at size ft x i bt q)).
  { intros q Hq. apply (field_turned rho 2 pi b B ws x x' T); auto. }
  assert (G0 : longest_at (under k s p d ws pos) (field_at size ft x i bt) q0) by (apply picked; [exact Lp|apply N; exact Vp]).
  assert (G1 : longest_at (under k s p d (pshape 2 pi ws) (act 2 pi b os pos)) (field_at size ft x' i bt) q1).
  { apply picked; [rewrite act_length, pshape_length; reflexivity|apply N', act_valid; assumption]. }
  destruct G1 as (U1 & M1). apply window_points_In in U1; [|rewrite act_length, pshape_length; reflexivity].
  apply (Permutation_in _ (PW pos Vp)) in U1. apply in_map_iff in U1 as (q & Eq & Hq).
  assert (G2 : longest_at (under k s p d ws pos) (field_at size ft x i bt) q).
  { split; [apply window_points_In; [exact Lp|exact Hq]|]. intros q2 U2. apply window_points_In in U2; [|exact Lp].
    assert (under k s p d (pshape 2 pi ws) (act 2 pi b os pos) (act 2 pi b ws q2)) as U3.
    { apply window_points_In; [rewrite act_length, pshape_length; reflexivity|]. apply (Permutation_in _ (Permutation_sym (PW pos Vp))), in_map, U2. }
    apply M1 in U3. rewrite <- Eq, !FT, !norm2_orth in U3 by (auto; apply Lf). exact U3. }
  rewrite <- Eq, FT by exact Hq. f_equal. exact (NT i bt pos Hi Hb Vp q q0 G2 G0).
Qed.
End T.

Theorem nm_commutes : forall half, half 0 = 0 -> half 1 = 1 -> half (-1) = -1 -> forall affine {A} (size : A -> nat) teqb ft, Forall (fun r => (0 < size r)%nat) ft -> ft <> [] -> teqb ft ft = true ->
  forall dim l m junk, mk_nm size dim ft l = Ret m -> length junk = type_size size ft ->
  forall (rho : A -> mat) M B h w x y, signed_perm 2 M -> Forall (fun r => orthogonal (size r) (rho r)) ft ->
  shape x = [B; type_size size ft; h; w] -> Forall (fits (m_kernel l) (m_stride l) (m_padding l) (m_dilation l)) [h; w] ->
  nm_forward size teqb m ft junk x = Ret y ->
  (forall i bt pos, (i < length ft)%nat -> (bt < B)%nat -> valid (skipn 2 (shape y)) pos ->
     no_ties (under (m_kernel l) (m_stride l) (m_padding l) (m_dilation l) [h; w] pos) (field_at size ft x i bt)) ->
  commutes_with half affine (type_size size ft) (fiber_representation size rho ft) 2 M (nm_forward size teqb m ft junk) x y.
Proof.
  intros half H0 H1 Hm affine A size teqb ft Pz Nt Te dim l m junk Em Lj rho M B h w x y HM Or Ex Hf H NT.
  apply (turned_commutes half H0 H1 Hm affine _ _ 2 M HM _ x y B [h; w] Ex eq_refl). intros pi b x' P T.
  eapply nm_turned; eassumption.
Qed.

(** only tensors of the type of the layer are accepted *)
Lemma nm_typed : forall A (size : A -> nat) teqb dim ft l m, mk_nm size dim ft l = Ret m ->
  forall xt junk x y, nm_forward size teqb m xt junk x = Ret y -> teqb xt ft = true.
Proof.
  intros A size teqb dim ft l m Em xt junk x y E. assert (nm_type m = ft) as T.
  { unfold mk_nm in Em. repeat first [apply assert_Ret in Em as [_ Em] | apply bind_Ret in Em as (? & _ & Em)]. apply Ret_inj in Em. subst m. reflexivity. }
  unfold nm_forward in E. rewrite T in E. apply assert_Ret in E as [Q _]. exact Q.
Qed.
