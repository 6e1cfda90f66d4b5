(** Facts about interpolation. *)
From Coq Require Import Reals ZArith Lia Lra Bool List Arith Permutation.
From Verif Require Import LibRes LibMat LibList GridModel SpecGrid GridProofs GridThms ImageModel SpecImage ImageProofs MaskThms ShapeModel ShapeThms ConvThms SpecSPool SpecPool SPoolModel SPoolProofs SPoolThms SPoolBlur UpModel SpecUp.
From Verif Require BatchThms.
Import ListNotations.
Open Scope R_scope.

Lemma floor_bounds : forall r, IZR (math_floor r) <= r < IZR (math_floor r) + 1.
Proof. intros r. unfold math_floor. destruct (base_Int_part r). lra. Qed.
Lemma floor_nonneg : forall r, 0 <= r -> (0 <= math_floor r)%Z.
Proof. intros r H. destruct (floor_bounds r) as (_ & Q). assert (IZR (-1) < IZR (math_floor r)) as L by lra. apply lt_IZR in L. lia. Qed.

Lemma tent_0 : tent 0 = 1.
Proof. unfold tent. rewrite Rabs_R0, Rmax_right; lra. Qed.
Lemma tent_far : forall t, 1 <= Rabs t -> tent t = 0.
Proof. intros t H. unfold tent. rewrite Rmax_left; lra. Qed.
Lemma tent_near : forall t, Rabs t <= 1 -> tent t = 1 - Rabs t.
Proof. intros t H. unfold tent. rewrite Rmax_right; lra. Qed.
Lemma tent_opp : forall t, tent (- t) = tent t.
Proof. intros t. unfold tent. rewrite Rabs_Ropp. reflexivity. Qed.

(** two neighbours *)
Lemma sumn_pair : forall n k f, (S k < n)%nat -> (forall i, (i < n)%nat -> i <> k -> i <> S k -> f i = 0) -> sumn n f = f k + f (S k).
Proof.
  intros n k f H Z.
  rewrite (sumn_ext n _ (fun i => (if Nat.eqb i k then f i else 0) + (if Nat.eqb i (S k) then f i else 0))).
  - rewrite sumn_plus. rewrite (sumn_single n k), (sumn_single n (S k)); [rewrite !Nat.eqb_refl; reflexivity|lia| |lia|];
      intros i Hi N; destruct (Nat.eqb_spec i (S k)), (Nat.eqb_spec i k); try lia; reflexivity.
  - intros i Hi. destruct (Nat.eqb_spec i k), (Nat.eqb_spec i (S k)); try lia; try ring. rewrite Z by assumption. ring.
Qed.

(** the two reads along an axis are all tents *)
Lemma axis_linear : forall w r v, (0 < w)%nat -> 0 <= r ->
  (1 - guard_lambda r w) * v (guard_index r w) + guard_lambda r w * v (guard_index r w + if Nat.ltb (guard_index r w) (w - 1) then 1 else 0)%nat
  = sumn w (fun q => tent (Rmin r (INR w - 1) - INR q) * v q).
Proof.
  intros w r v Hw Hr. pose proof (floor_bounds r) as (F1 & F2). pose proof (floor_nonneg r Hr) as F0.
  unfold guard_lambda, guard_index. set (z := math_floor r) in *.
  destruct (Z.lt_ge_cases z (Z.of_nat w - 1)) as [C|C].
  - rewrite Z.min_l by lia. set (k := Z.to_nat z) in *. assert (Ek : INR k = IZR z) by (unfold k; rewrite INR_IZR_INZ, Z2Nat.id by lia; reflexivity).
    assert ((k < w - 1)%nat) as Hk by (unfold k; lia). rewrite (proj2 (Nat.ltb_lt _ _) Hk).
    assert (INR k <= INR w - 2) as Hk2. { assert (k + 2 <= w)%nat as L by lia. apply le_INR in L. rewrite plus_INR in L. cbn [INR] in L. lra. }
    rewrite (Rmin_left r) by lra. rewrite Rmax_left by lra. rewrite Rmin_left by lra.
    rewrite (sumn_pair w k); [|lia|].
    2:{ intros i Hi N1 N2. rewrite tent_far; [ring|]. destruct (Nat.lt_ge_cases i k) as [L|L].
        - assert (i + 1 <= k)%nat as L' by lia. apply le_INR in L'. rewrite plus_INR in L'. cbn [INR] in L'. rewrite Rabs_right; lra.
        - assert (k + 2 <= i)%nat as L' by lia. apply le_INR in L'. rewrite plus_INR in L'. cbn [INR] in L'. rewrite Rabs_left; lra. }
    rewrite (tent_near (r - INR k)) by (rewrite Rabs_right; lra). rewrite (tent_near (r - INR (S k))) by (rewrite S_INR, Rabs_left1; lra).
    rewrite S_INR. rewrite (Rabs_right (r - INR k)) by lra. rewrite (Rabs_left1 (r - (INR k + 1))) by lra. rewrite (Nat.add_1_r k). ring.
  - rewrite Z.min_r by lia. replace (Z.to_nat (Z.of_nat w - 1)) with (w - 1)%nat by lia. rewrite Nat.ltb_irrefl, Nat.add_0_r.
    assert (INR (w - 1) = INR w - 1) as E by (rewrite minus_INR by lia; reflexivity).
    assert (INR w - 1 <= r). { apply IZR_le in C. rewrite minus_IZR, <- INR_IZR_INZ in C. lra. }
    rewrite (Rmin_right r) by lra. rewrite (sumn_single w (w - 1)); [|lia|].
    2:{ intros i Hi N. rewrite tent_far; [ring|]. assert (i + 1 <= w - 1)%nat as L by lia. apply le_INR in L. rewrite plus_INR, E in L. cbn [INR] in L. rewrite Rabs_right; lra. }
    rewrite E. replace (INR w - 1 - (INR w - 1)) with 0 by ring. rewrite tent_0. ring.
Qed.

(** ** The weight of an input position along an axis *)
Definition nearest_index (scale : option R) (w o i : nat) : nat :=
  if Nat.eqb o w then i else if Nat.eqb o (2 * w) then (i / 2)%nat else Z.to_nat (Z.min (math_floor (INR i * up_step scale w o)) (Z.of_nat w - 1)).
Definition weight (mode : up_mode) (scale : option R) (w o i q : nat) : R :=
  match mode with
  | Nearest => if Nat.eqb q (nearest_index scale w o i) then 1 else 0
  | Linear align => if Nat.eqb o w then if Nat.eqb q i then 1 else 0 else tent (Rmin (source_index align scale w o i) (INR w - 1) - INR q)
  end.
Lemma nearest_index_lt : forall scale w o i, (0 < w)%nat -> (i < o)%nat -> (nearest_index scale w o i < w)%nat.
Proof.
  intros scale w o i Hw Hi. unfold nearest_index. destruct (Nat.eqb_spec o w) as [->|]; [exact Hi|]. destruct (Nat.eqb_spec o (2 * w)) as [->|]; [apply Nat.div_lt_upper_bound; lia|lia].
Qed.
Lemma source_nonneg : forall align scale w o i, (0 < w)%nat -> 0 <= source_index align scale w o i.
Proof.
  intros align scale w o i Hw. unfold source_index. destruct align.
  - apply Rmult_le_pos; [|apply pos_INR]. destruct (Nat.ltb_spec 1 o) as [L|]; [|lra].
    apply lt_INR in L. apply (le_INR 1 w) in Hw. cbn [INR] in *. apply Rmult_le_pos; [lra|]. apply Rlt_le, Rinv_0_lt_compat. lra.
  - destruct (Rlt_dec _ 0); lra.
Qed.
Lemma pick : forall w k v, (k < w)%nat -> sumn w (fun q => (if Nat.eqb q k then 1 else 0) * v q) = v k.
Proof.
  intros w k v H. rewrite (sumn_single w k); [rewrite Nat.eqb_refl; ring|exact H|]. intros i _ N. rewrite (proj2 (Nat.eqb_neq i k) N). ring.
Qed.
Lemma axis_weight : forall mode scale w o i v, (0 < w)%nat -> (i < o)%nat ->
  rsum (map (fun wi => fst wi * v (snd wi)) (axis_sources mode scale w o i)) = sumn w (fun q => weight mode scale w o i q * v q).
Proof.
  intros mode scale w o i v Hw Hi. destruct mode as [|align]; unfold weight, axis_sources; cbv zeta.
  - fold (nearest_index scale w o i). rewrite pick by (apply nearest_index_lt; assumption). unfold rsum. cbn. ring.
  - destruct (Nat.eqb_spec o w) as [->|N]; [rewrite pick by exact Hi; unfold rsum; cbn; ring|].
    rewrite <- (axis_linear w _ v Hw (source_nonneg align scale w o i Hw)). unfold rsum. cbn [map fold_right fst snd]. ring.
Qed.

(** ** All axes *)
Lemma sources_sum : forall mode scale ws os pos (v : list nat -> R), length os = length ws -> valid os pos -> Forall (fun w => 0 < w)%nat ws ->
  rsum (map (fun wq => fst wq * v (snd wq)) (sources (all_axes mode scale ws os pos))) = rsum (map (fun q => over_axes (weight mode scale) ws os pos q * v q) (all_indices ws)).
Proof.
  intros mode scale ws. induction ws as [|w ws IH]; intros os pos v L V F.
  - destruct os; [|discriminate]. inversion V; subst. unfold rsum, over_axes. cbn. ring.
  - destruct os as [|o os]; [discriminate|]. inversion V as [|i ? pos' ? Hi V']; subst. inversion F as [|? ? Hw F']; subst. injection L as L.
    unfold all_axes. cbn [combine map fst snd sources all_indices]. fold (all_axes mode scale ws os pos').
    rewrite !rsum_flat_map.
    transitivity (rsum (map (fun wi => fst wi * rsum (map (fun q => over_axes (weight mode scale) ws os pos' q * v (snd wi :: q)) (all_indices ws))) (axis_sources mode scale w o i))).
    + apply rsum_ext. intros wi _. rewrite map_map. cbn [fst snd]. rewrite <- (IH os pos' (fun q => v (snd wi :: q)) L V' F'), <- rsum_scal. apply rsum_ext. intros wq _. ring.
    + rewrite (axis_weight mode scale w o i (fun j => rsum (map (fun q => over_axes (weight mode scale) ws os pos' q * v (j :: q)) (all_indices ws))) Hw Hi).
      rewrite <- BatchThms.rsum_seq. apply rsum_ext. intros j Hj. rewrite map_map, <- rsum_scal. apply rsum_ext. intros q _.
      unfold over_axes. cbn [length seq map fold_right nth]. rewrite <- seq_shift, map_map. ring.
Qed.

(** ** What interpolate returns *)
Lemma interpolate_inv : forall size scale mode x y B c ws, shape x = B :: c :: ws -> interpolate size scale mode x = Ret y ->
  exists os, up_sizes size scale ws = Ret (map Z.of_nat os) /\ length os = length ws /\ (0 < c)%nat /\
    Forall (fun w => 0 < w)%nat ws /\ Forall (fun o => 0 < o)%nat os /\ shape y = B :: c :: os /\
    forall bt ch pos, valid os pos -> entry y (bt :: ch :: pos) = rsum (map (fun q => over_axes (weight mode scale) ws os pos q * entry x (bt :: ch :: q)) (all_indices ws)).
Proof.
  intros size scale mode x y B c ws Ex H. unfold interpolate in H. rewrite Ex in H. cbn [skipn firstn nth app] in H. apply bind_Ret in H as (zs & Ez & H). apply assert_Ret in H as (Q & H). apply Ret_inj in H. subst y.
  rewrite !andb_true_iff, !forallb_forall in Q. destruct Q as ((Q1 & Q2) & Q3).
  assert (F : Forall (fun w => 0 < w)%nat ws) by (apply Forall_forall; intros w Hw; apply Nat.ltb_lt, Q1, Hw).
  assert (Ezs : map Z.of_nat (map Z.to_nat zs) = zs).
  { rewrite map_map. rewrite <- (map_id zs) at 2. apply map_ext_in. intros z Hz. apply Z2Nat.id. specialize (Q2 z Hz). apply Z.ltb_lt in Q2. lia. }
  assert (L : length (map Z.to_nat zs) = length ws).
  { unfold up_sizes in Ez. destruct size as [l|], scale as [s|]; try discriminate.
    - destruct (Nat.eqb_spec (length l) (length ws)) as [E|]; [|discriminate]. apply Ret_inj in Ez. subst zs. rewrite !map_length. exact E.
    - apply Ret_inj in Ez. subst zs. rewrite !map_length. reflexivity. }
  exists (map Z.to_nat zs). rewrite Ezs. split; [exact Ez|split; [exact L|split; [apply Nat.ltb_lt, Q3|split; [exact F|split]]]].
  - apply Forall_forall. intros o Ho. apply in_map_iff in Ho as (z & <- & Hz). specialize (Q2 z Hz). apply Z.ltb_lt in Q2. lia.
  - split; [reflexivity|]. intros bt ch pos V. cbn [entry firstn skipn app]. exact (sources_sum mode scale ws (map Z.to_nat zs) pos (fun q => entry x (bt :: ch :: q)) L V F).
Qed.
Lemma interpolate_go : forall size scale mode x B c ws os, shape x = B :: c :: ws -> up_sizes size scale ws = Ret (map Z.of_nat os) -> (0 < c)%nat ->
  Forall (fun w => 0 < w)%nat ws -> Forall (fun o => 0 < o)%nat os -> exists y, interpolate size scale mode x = Ret y.
Proof.
  intros size scale mode x B c ws os Ex E Hc Fw Fo. unfold interpolate. rewrite Ex. cbn [skipn nth]. rewrite E. cbn [bind].
  rewrite (proj2 (Nat.ltb_lt 0 c) Hc). assert (forallb (Nat.ltb 0) ws = true) as -> by (apply forallb_forall; intros w Hw; rewrite Forall_forall in Fw; apply Nat.ltb_lt, Fw, Hw).
  assert (forallb (Z.ltb 0) (map Z.of_nat os) = true) as -> by (apply forallb_forall; intros z Hz; apply in_map_iff in Hz as (o & <- & Ho); rewrite Forall_forall in Fo; specialize (Fo o Ho); apply Z.ltb_lt; lia).
  cbn [andb assert_ bind]. eexists. reflexivity.
Qed.

(** ** Turning the grid *)
Lemma rprod_perm : forall l m, Permutation l m -> fold_right Rmult 1 l = fold_right Rmult 1 m.
Proof. intros l m H. induction H; cbn [fold_right]; [reflexivity|rewrite IHPermutation; reflexivity|ring|congruence]. Qed.
Lemma permutes_perm : forall n pi, ImageProofs.permutes n pi -> Permutation (map pi (seq 0 n)) (seq 0 n).
Proof.
  intros n pi P. apply NoDup_Permutation.
  - apply NoDup_map_inj_in; [|apply seq_NoDup]. intros i j Hi Hj. apply in_seq in Hi, Hj. destruct P as (_ & P). apply P; lia.
  - apply seq_NoDup.
  - intros j. rewrite in_map_iff, in_seq. split.
    + intros (i & <- & Hi). apply in_seq in Hi. destruct P as (P & _). specialize (P i ltac:(lia)). lia.
    + intros Hj. destruct (permutes_onto n pi P j ltac:(lia)) as (i & Hi & E). exists i. split; [exact E|apply in_seq; lia].
Qed.
Lemma over_axes_act : forall K n pi b ws os pos q, ImageProofs.permutes n pi -> length ws = n -> length os = n -> valid os pos -> valid ws q ->
  (forall a, (a < n)%nat -> forall i j, (i < nth a os 0)%nat -> (j < nth a ws 0)%nat ->
     K (nth a ws 0%nat) (nth a os 0%nat) (nth a os 0 - 1 - i)%nat (nth a ws 0 - 1 - j)%nat = K (nth a ws 0%nat) (nth a os 0%nat) i j) ->
  over_axes K (pshape n pi ws) (pshape n pi os) (act n pi b os pos) (act n pi b ws q) = over_axes K ws os pos q.
Proof.
  intros K n pi b ws os pos q P L Lo Vp Vq S. apply valid_nth in Vp as (_ & Vp). apply valid_nth in Vq as (_ & Vq). unfold over_axes. rewrite pshape_length, L.
  symmetry. rewrite <- (rprod_perm _ _ (Permutation_map _ (permutes_perm n pi P))), map_map. symmetry. f_equal. apply map_ext_in. intros a Ha. apply in_seq in Ha.
  rewrite !act_nth, !pshape_nth by lia. destruct (b a); [|reflexivity]. destruct P as (P & _). specialize (P a ltac:(lia)). apply S; [exact P|apply Vp; rewrite Lo; exact P|apply Vq; rewrite L; exact P].
Qed.
(** weights that look the same from both ends *)
Definition balanced (K : nat -> nat -> nat -> nat -> R) (w o : nat) : Prop :=
  forall i q, (i < o)%nat -> (q < w)%nat -> K w o (o - 1 - i)%nat (w - 1 - q)%nat = K w o i q.
Lemma interpolate_turned : forall size scale mode c rho n pi b B ws x x' y, ImageProofs.permutes n pi -> length ws = n ->
  (forall os, up_sizes size scale ws = Ret (map Z.of_nat os) -> up_sizes size scale (pshape n pi ws) = Ret (map Z.of_nat (pshape n pi os)) /\
     forall a, (a < n)%nat -> balanced (weight mode scale) (nth a ws 0%nat) (nth a os 0%nat)) ->
  turned c rho n pi b B ws x x' -> interpolate size scale mode x = Ret y ->
  exists os y', length os = n /\ interpolate size scale mode x' = Ret y' /\ turned c rho n pi b B os y y'.
Proof.
  intros size scale mode c rho n pi b B ws x x' y P L HS T H. pose proof T as (Ex & Ex' & _).
  destruct (interpolate_inv _ _ _ _ _ _ _ _ Ex H) as (os & Es & Lo & Hc & Fw & Fo & Sy & Vy). destruct (HS os Es) as (Es' & Bal). rewrite L in Lo.
  assert (PF : forall l, length l = n -> Forall (fun w => 0 < w)%nat l -> Forall (fun w => 0 < w)%nat (pshape n pi l)).
  { intros l Ll Fl. unfold pshape. apply Forall_forall. intros w Hw. apply in_map_iff in Hw as (a & <- & Ha). apply in_seq in Ha. rewrite Forall_forall in Fl. apply Fl, nth_In. rewrite Ll. apply P. lia. }
  destruct (interpolate_go size scale mode x' B c _ _ Ex' Es' Hc (PF _ L Fw) (PF _ Lo Fo)) as (y' & H'). exists os, y'. split; [exact Lo|split; [exact H'|]].
  destruct (interpolate_inv _ _ _ _ _ _ _ _ Ex' H') as (os' & Eo' & _ & _ & _ & _ & Sy' & Vy').
  assert (os' = pshape n pi os) as ->. { rewrite Es' in Eo'. apply Ret_inj in Eo'. apply (f_equal (map Z.to_nat)) in Eo'. rewrite !map_map in Eo'. rewrite !(map_ext (fun t => Z.to_nat (Z.of_nat t)) (fun t => t) Nat2Z.id), !map_id in Eo'. congruence. }
  apply (windows_turned c rho n pi b B (fun l => rsum (map (fun wv => fst wv * snd wv) l)) ws os (fun pos => map (fun q => (over_axes (weight mode scale) ws os pos q, q)) (all_indices ws))
    (fun pos => map (fun q => (over_axes (weight mode scale) (pshape n pi ws) (pshape n pi os) pos q, q)) (all_indices (pshape n pi ws))) x x' y y'); auto using sums_symmetric.
  - apply sums_commute; exact (fun r => r).
  - intros bt o pos _ _ V. rewrite (Vy bt o pos V), !map_map. reflexivity.
  - intros bt o pos _ _ V. rewrite (Vy' bt o _ (act_valid n pi b os pos P Lo V)), !map_map. reflexivity.
  - intros pos w q V Hq. apply in_map_iff in Hq as (q' & E & Hq). injection E as _ <-. apply all_indices_In. exact Hq.
  - intros pos V. rewrite map_map. cbn [fst snd]. rewrite <- (Permutation_map _ (act_perm n pi b ws P L)), map_map.
    rewrite (map_ext_in _ (fun q => (over_axes (weight mode scale) ws os pos q, act n pi b ws q))); [reflexivity|].
    intros q Hq. apply all_indices_In in Hq. f_equal. apply over_axes_act; auto.
Qed.
