(** The averages, the Gaussian blur and the shapes. *)
From Coq Require Import Reals ZArith Lia Lra Bool List Arith Permutation.
From Verif Require Import LibRes LibMat GridModel SpecGrid GridProofs GridThms ImageModel SpecImage ImageProofs MaskThms ShapeModel ConvThms SPoolModel SpecSPool SpecPool SPoolProofs SPoolThms.
Import ListNotations.
Open Scope R_scope.

Lemma avg_value : forall kernel stride padding ceil x y B c ws, shape x = B :: c :: ws -> avg_forward kernel stride padding ceil x = Ret y ->
  let s := match stride with Some s => s | None => kernel end in
  exists os, shape y = B :: c :: os /\ length os = length ws /\ forall bt o pos, valid os pos ->
    exists m t, taps_on kernel s padding ws pos m /\ sums_to (under kernel s padding 1 ws pos) (fun q => entry x (bt :: o :: q)) t /\ entry y (bt :: o :: pos) * INR m = t.
Proof.
  intros k stride p ceil x y B c ws Ex H s; unfold avg_forward in H; fold s in H.
  destruct (avg_pool_inv _ _ _ _ _ _ _ _ _ Ex H) as (os & Eo & Sy & Vy). apply mapM_length in Eo.
  exists os; split; [exact Sy|split; [exact Eo|]]; intros bt o pos V; apply valid_nth in V as (Lp & _).
  destruct (divisor_counts k s p ws pos ltac:(lia)) as (l & N & Ll & Hl). exists (divisor k s p ws pos). eexists; split; [exists l; split; [exact N|split; [exact Ll|exact Hl]]|split].
  - exists (window_points k s p 1 ws pos); split; [apply window_points_NoDup; lia|split; [intros q; apply window_points_In; lia|reflexivity]].
  - rewrite Vy. fold (rsum (map (fun q => entry x (bt :: o :: q)) (window_points k s p 1 ws pos))).
    destruct (Nat.eq_dec (divisor k s p ws pos) 0) as [E|E]; [|field; apply not_0_INR; exact E].
    rewrite E; cbn [INR]; rewrite Rmult_0_r. destruct (window_points k s p 1 ws pos) as [|q qs] eqn:W; [reflexivity|exfalso].
    assert (U : under k s p 1 ws pos q) by (apply window_points_In; [lia|rewrite W; left; reflexivity]).
    destruct U as (Vq & t & Lt & Lpos & G). apply valid_nth in Vq as (Lq & Vq).
    assert (I : In t l). { apply Hl; split; [lia|]; intros a Ha; destruct (G a ltac:(lia)); specialize (Vq a Ha); lia. }
    destruct l; [destruct I|cbn in Ll; lia].
Qed.

(** ** The blur *)
Definition blur_points (size n s p : nat) (sigma : R) (ws pos : list nat) : list (R * list nat) :=
  let total := rsum (map (blur_weight size sigma) (all_indices (repeat size n))) in
  flat_map (fun t => match reads PadZeros p ws (place s 1 pos t) with Some q => [(blur_weight size sigma t / total, q)] | None => [] end) (all_indices (repeat size n)).

Lemma rsum_flat_map : forall A C (f : C -> R) (g : A -> list C) l, rsum (map f (flat_map g l)) = rsum (map (fun a => rsum (map f (g a))) l).
Proof.
  intros A C f g l; induction l as [|a l IH]; [reflexivity|]. cbn [flat_map map]; rewrite map_app.
  assert (G : forall u v, rsum (u ++ v) = rsum u + rsum v) by (clear; intros u v; induction u as [|a u IHu]; unfold rsum in *; cbn; [ring|rewrite IHu; ring]).
  rewrite G, IH; reflexivity.
Qed.

Lemma rsum_one : forall a, rsum [a] = a.
Proof. intros; unfold rsum; cbn; ring. Qed.
Lemma blur_inv : forall size n c s p sigma x y B ws, shape x = B :: c :: ws -> length ws = n -> blur size n c s p sigma x = Ret y ->
  (0 < c)%nat /\ (0 < s)%nat /\ Forall (fun w => size - 1 + 1 <= w + 2 * p)%nat ws /\ shape y = B :: c :: osize size s 1 (map (fun w => w + 2 * p)%nat ws) /\
  forall bt o pos, entry y (bt :: o :: pos) = rsum (map (fun wv => fst wv * snd wv) (map (fun wq => (fst wq, entry x (bt :: o :: snd wq))) (blur_points size n s p sigma ws pos))).
Proof.
  intros size n c s p sigma x y B ws Ex L H; unfold blur, conv_forward in H; rewrite Ex in H; cbn [nth] in H.
  destruct (pad_reads PadZeros p x B _ ws Ex (zeros_ok p ws)) as (xp & Ep & Sp & Rp). rewrite Ep in H; cbn [bind] in H.
  unfold conv in H; rewrite Sp in H; cbn [shape blur_filter skipn nth] in H.
  apply assert_Ret in H as (_ & H); apply assert_Ret in H as (A2 & H); apply assert_Ret in H as (_ & H); apply assert_Ret in H as (_ & H); apply assert_Ret in H as (A5 & H).
  apply Ret_inj in H. rewrite !andb_true_iff, !Nat.ltb_lt in A2. destruct A2 as (((Hc & Hs) & _) & _).
  assert (Lp : length (map (fun w => w + 2 * p)%nat ws) = n) by (rewrite map_length; exact L).
  split; [exact Hc|split; [exact Hs|split]].
  - rewrite forallb_combine in A5 by (rewrite repeat_length, Lp; reflexivity). apply Forall_forall; intros w Hw; apply (In_nth _ _ 0%nat) in Hw as (a & Ha & <-).
    rewrite repeat_length in A5; specialize (A5 a ltac:(lia)); cbn [fst snd] in A5; rewrite nth_repeat_lt, map_nth_nat in A5 by lia. apply Nat.leb_le in A5; lia.
  - subst y; cbn [shape entry]; split; [unfold osize; rewrite Lp; reflexivity|].
    intros bt o pos; cbn [nth skipn entry]. rewrite Nat.div_same, Nat.div_1_r by lia. cbn [sumn]. rewrite Rplus_0_r. rewrite ?Rplus_0_l.
    rewrite map_map; cbn [fst snd]. unfold blur_points; rewrite rsum_flat_map. apply rsum_ext; intros t Ht.
    replace (o * 1 + 0)%nat with o by lia. fold (place s 1 pos t). rewrite Rp. destruct (reads PadZeros p ws (place s 1 pos t)) as [q|]; cbn [map fst snd]; [rewrite rsum_one|change (rsum []) with 0]; cbn [blur_filter entry skipn]; ring.
Qed.
Lemma blur_go : forall size n c s p sigma x B ws, shape x = B :: c :: ws -> length ws = n -> (0 < c)%nat -> (0 < s)%nat -> (n = 0%nat \/ (0 < size)%nat) -> Forall (fun w => size - 1 + 1 <= w + 2 * p)%nat ws ->
  exists y, blur size n c s p sigma x = Ret y.
Proof.
  intros size n c s p sigma x B ws Ex L Hc Hs Hz F; unfold blur, conv_forward; rewrite Ex; cbn [nth].
  destruct (pad_reads PadZeros p x B _ ws Ex (zeros_ok p ws)) as (xp & Ep & Sp & Rp). rewrite Ep; cbn [bind].
  unfold conv; rewrite Sp; cbn [shape blur_filter skipn nth]. eexists. rewrite !assert_Ret.
  assert (Lp : length (map (fun w => w + 2 * p)%nat ws) = n) by (rewrite map_length; exact L).
  split; [rewrite Lp, repeat_length, Nat.eqb_refl; reflexivity|split; [|split; [|split; [reflexivity|split; [|reflexivity]]]]].
  - rewrite !andb_true_iff, !Nat.ltb_lt; repeat split; try lia. apply forallb_forall; intros z Hz'. destruct n; [destruct Hz'|]. apply repeat_spec in Hz'; subst; apply Nat.ltb_lt; lia.
  - rewrite Nat.mod_same, Nat.mul_1_r, !Nat.eqb_refl by lia; reflexivity.
  - rewrite forallb_combine by (rewrite repeat_length, Lp; reflexivity). rewrite repeat_length; intros a Ha; cbn [fst snd]. rewrite nth_repeat_lt, map_nth_nat by lia.
    rewrite Forall_forall in F. apply Nat.leb_le. assert (Ha2 : (a < length ws)%nat) by lia. specialize (F (nth a ws 0%nat) (nth_In ws 0%nat Ha2)); lia.
Qed.

Lemma blur_weight_act : forall n pi b size sigma t, ImageProofs.permutes n pi -> valid (repeat size n) t ->
  blur_weight size sigma (act n pi b (repeat size n) t) = blur_weight size sigma t.
Proof.
  intros n pi b size sigma t P V. assert (E : forall u, rsum (map (fun i => (INR i - (INR size - 1) / 2) ^ 2) u) = dist2 size u).
  { intros u; unfold dist2, rsum. induction u as [|a u IH]; [reflexivity|]. cbn [map fold_right length]. rewrite IH, sumn_S_first; cbn [nth]; reflexivity. }
  unfold blur_weight; rewrite !E, (dist2_act n pi b size t P V); reflexivity.
Qed.

Lemma blur_turned : forall c rho n pi b B size s p sigma ws x x' y, (0 < size)%nat -> ImageProofs.permutes n pi -> length ws = n ->
  Forall (fits size s p 1) ws -> turned c rho n pi b B ws x x' -> blur size n c s p sigma x = Ret y ->
  exists os y', length os = n /\ blur size n c s p sigma x' = Ret y' /\ turned c rho n pi b B os y y'.
Proof.
  intros c rho n pi b B size s p sigma ws x x' y Hz P L Hf T H. pose proof T as (Ex & Ex' & _).
  destruct (blur_inv _ _ _ _ _ _ _ _ _ _ Ex L H) as (Hc & Hs & F & Sy & Vy). set (wp := map (fun w => w + 2 * p)%nat ws) in *. set (os := osize size s 1 wp) in *.
  destruct (blur_go size n c s p sigma x' B _ Ex' (pshape_length _ _ _) Hc Hs (or_intror Hz) (Forall_pshape n pi _ ws P L F)) as (y' & H').
  destruct (blur_inv _ _ _ _ _ _ _ _ _ _ Ex' (pshape_length _ _ _) H') as (_ & _ & _ & Sy' & Vy').
  assert (Los : length os = n) by (unfold os; rewrite osize_length; apply Lwp; exact L).
  rewrite map_pshape, osize_pshape in Sy' by (try apply Lwp; assumption). fold wp os in Sy'.
  exists os, y'; split; [exact Los|split; [exact H'|]].
  apply (windows_turned c rho n pi b B (fun l => rsum (map (fun wv => fst wv * snd wv) l)) ws os (blur_points size n s p sigma ws) (blur_points size n s p sigma (pshape n pi ws)) x x' y y'); auto using sums_symmetric.
  - apply sums_commute; exact (fun r => r).
  - intros pos w q V Hq; unfold blur_points in Hq; apply in_flat_map in Hq as (t & Ht & Hq); apply all_indices_In in Ht.
    destruct (reads PadZeros p ws (place s 1 pos t)) as [q'|] eqn:E; cbn in Hq; [destruct Hq as [Hq|[]]|destruct Hq]. injection Hq as _ <-.
    apply (reads_valid PadZeros p ws (place s 1 pos t)); [apply zeros_ok|apply (tap_valid n size s p 1 ws L Hs Hf); assumption|exact E].
  - intros pos V; unfold blur_points.
    pose proof (act_perm n pi b (repeat size n) P (repeat_length _ _)) as Pm. rewrite repeat_pshape in Pm by exact P.
    etransitivity; [apply flat_map_perm, Permutation_sym, Pm|]. rewrite flat_map_map, map_flat_map.
    apply Permutation_refl', flat_map_ext_in; intros t Ht; apply all_indices_In in Ht.
    pose proof (tap_act n pi b size s p 1 ws P L Hs Hf pos t V Ht) as TA; fold wp in TA; fold os in TA. rewrite TA, blur_weight_act by assumption.
    destruct (reads PadZeros p ws (place s 1 pos t)); reflexivity.
Qed.

Lemma pool_size_dense : forall ceil k p w o, pool_size ceil k 1 p 1 w = Ret o -> fits k 1 p 1 w /\ o = (w + 2 * p + 1 - k)%nat.
Proof.
  intros ceil k p w o H; pose proof (pool_size_ok _ _ _ _ _ _ _ H) as (Hk & _ & _ & Hp & Ho).
  assert (G : (k <= w + 2 * p)%nat).
  { unfold pool_size in H; apply bind_Ret in H as (z & H & E); apply Ret_inj in E; subst o.
    unfold torch_pool_size in H; cbn [w_kernel w_stride w_padding w_dilation pool_window] in H.
    apply assert_Ret in H as (_ & H); apply assert_Ret in H as (_ & H); cbv zeta in H; apply assert_Ret in H as (H3 & H).
    change (Z.of_nat 1) with 1%Z in *. rewrite Z.leb_le in H3. rewrite !Z.div_1_r in H3. destruct (ceil && _) in H3; destruct ceil; lia. }
  assert (Fi : fits k 1 p 1 w) by (exists (w + 2 * p - k)%nat; lia). split; [exact Fi|].
  rewrite pool_size_fits in H by (auto; lia). apply Ret_inj in H; subst o. unfold conv_size; rewrite Nat.div_1_r; lia.
Qed.
Lemma dense_sizes : forall ceil k p os (l : list nat), mapM (pool_size ceil k 1 p 1) l = Ret os -> Forall (fits k 1 p 1) l /\ os = map (fun w => w + 2 * p + 1 - k)%nat l /\ Forall (fun w => k <= w + 2 * p)%nat l.
Proof.
  intros ceil k p os l H; apply mapM_Ret_inv in H; induction H as [|w o l m Hw Hl (I1 & I2 & I3)]; [repeat split; constructor|].
  apply pool_size_dense in Hw as (F & ->). pose proof F as (q & Q). repeat split; [constructor; assumption|cbn; f_equal; exact I2|constructor; [lia|exact I3]].
Qed.

(** ** The layers *)
Section layers.
  Variables (half : R -> R).
  Hypotheses (H0 : half 0 = 0) (H1 : half 1 = 1) (Hm : half (-1) = -1).
  Variables (affine : array R -> mat -> nat -> res (array R)) (c : nat) (rho : mat) (n : nat) (M : mat) (x y : array R) (B : nat) (ws : list nat).
  Hypotheses (HM : signed_perm n M) (Hn : (0 < n)%nat) (Ex : shape x = B :: c :: ws) (Ln : length ws = n).

  Lemma max_commutes_with : forall l, SpecPool.permutes c rho -> Forall (fits (m_kernel l) (m_stride l) (m_padding l) (m_dilation l)) ws -> max_forward l x = Ret y ->
    commutes_with half affine c rho n M (max_forward l) x y.
  Proof.
    intros l HP Hf H. apply (turned_commutes half H0 H1 Hm affine c rho n M HM _ x y B ws Ex Ln).
    intros pi b x' P T. apply (max_turned c rho n pi b B _ _ _ _ _ ws x x' y); assumption.
  Qed.
  Lemma avg_commutes_with : forall kernel stride padding ceil, Forall (fits kernel (match stride with Some s => s | None => kernel end) padding 1) ws -> avg_forward kernel stride padding ceil x = Ret y ->
    commutes_with half affine c rho n M (avg_forward kernel stride padding ceil) x y.
  Proof.
    intros k st p ceil Hf H. apply (turned_commutes half H0 H1 Hm affine c rho n M HM _ x y B ws Ex Ln).
    intros pi b x' P T. apply (avg_turned c rho n pi b B _ _ _ _ ws x x' y); assumption.
  Qed.
  Lemma aavg_commutes_with : forall rounds sigma stride padding,
    (let size := (2 * rounds (3 * sigma)%R + 1)%nat in Forall (fits size (match stride with Some s => s | None => size end) (aavg_padding rounds sigma padding) 1) ws) ->
    aavg_forward rounds sigma stride padding n c x = Ret y ->
    commutes_with half affine c rho n M (aavg_forward rounds sigma stride padding n c) x y.
  Proof.
    intros rounds sigma st p Hf H. apply (turned_commutes half H0 H1 Hm affine c rho n M HM _ x y B ws Ex Ln).
    intros pi b x' P T. unfold aavg_forward in *. apply assert_Ret in H as (Q & H); rewrite Q; cbn [assert_ bind]. cbv zeta in *.
    apply (blur_turned c rho n pi b B _ _ _ _ ws x x' y); auto; lia.
  Qed.

  (** the windows of the blur fit when w + 4 p - k is a multiple of the stride *)
  Lemma amax_commutes_with : forall rounds sigma l, SpecPool.permutes c rho ->
    Forall (fun w => exists q, (w + 4 * m_padding l = m_kernel l + m_stride l * q)%nat) ws ->
    amax_forward rounds sigma l n c x = Ret y ->
    commutes_with half affine c rho n M (amax_forward rounds sigma l n c) x y.
  Proof.
    intros rounds sigma l HP Hf H. apply (turned_commutes half H0 H1 Hm affine c rho n M HM _ x y B ws Ex Ln).
    intros pi b x' P T. unfold amax_forward in *. apply assert_Ret in H as (Q1 & H); apply assert_Ret in H as (Q2 & H); rewrite Q1, Q2; cbn [assert_ bind]. cbv zeta in *.
    apply Nat.eqb_eq in Q1; rewrite Q1 in *. apply bind_Ret in H as (y0 & E0 & H).
    destruct (max_pool_inv _ _ _ _ _ _ _ _ _ _ Ex E0) as (os & Eo & Sy0 & _). destruct (dense_sizes _ _ _ _ _ Eo) as (F1 & Eos & F2).
    destruct (max_turned c rho n pi b B _ _ _ _ _ ws x x' y0 Hn P HP Ln F1 T E0) as (os' & y0' & Lo & E0' & T0).
    assert (os' = os) by (destruct T0 as (S0 & _); rewrite Sy0 in S0; injection S0; auto). subst os'. rewrite E0'; cbn [bind].
    apply (blur_turned c rho n pi b B _ _ _ _ os y0 y0' y); auto; [lia|].
    rewrite Eos. apply Forall_forall; intros z Hz; apply in_map_iff in Hz as (w & <- & Hw). rewrite Forall_forall in Hf, F2. destruct (Hf w Hw) as (q & Q); specialize (F2 w Hw).
    replace ((2 * rounds (4 * sigma)%R + 1 - 1) / 2)%nat with (rounds (4 * sigma)%R) by (rewrite Nat.add_sub, Nat.mul_comm, Nat.div_mul; lia).
    exists q; lia.
  Qed.
End layers.
