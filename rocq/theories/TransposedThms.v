(** Transposed convolutions commute with the symmetries of the grid. *)
From Coq Require Import Reals ZArith Bool List Lia Lra.
From Verif Require Import LibRes LibMat GridModel SpecGrid GridProofs GridThms ImageModel SpecImage ImageProofs MaskThms ConvThms TransposedModel.
Import ListNotations.
Open Scope R_scope.

Definition tsize (k stride p op dil : nat) (ws : list nat) : list nat := map (fun w => Z.to_nat (transposed_size k stride p op dil w)) ws.

Lemma tsize_length : forall k stride p op dil ws, length (tsize k stride p op dil ws) = length ws.
Proof. intros; unfold tsize; apply map_length. Qed.
Lemma tsize_nth : forall k stride p op dil ws a, (a < length ws)%nat -> nth a (tsize k stride p op dil ws) 0%nat = Z.to_nat (transposed_size k stride p op dil (nth a ws 0%nat)).
Proof. intros k stride p op dil ws a H; unfold tsize; rewrite (map_nth_nat (fun w => Z.to_nat (transposed_size k stride p op dil w))) by exact H; reflexivity. Qed.
Lemma combine_repeat : forall (B : Type) (f : nat * nat -> B) k n ws, length ws = n -> map f (combine (repeat k n) ws) = map (fun w => f (k, w)) ws.
Proof. intros B f k n ws <-; induction ws as [|w ws IH]; [reflexivity|]; cbn [length repeat combine map]; rewrite IH; reflexivity. Qed.

Lemma at_eqb_spec : forall a b, length a = length b -> (at_eqb a b = true <-> a = b).
Proof.
  intros a; induction a as [|x a IH]; intros [|y b] L; try discriminate L; unfold at_eqb in *; cbn [combine forallb fst snd]; [tauto|].
  injection L; intros L'. rewrite andb_true_iff, Nat.eqb_eq, (IH b L'). split; [intros (-> & ->); reflexivity|intros E; injection E; auto].
Qed.

Lemma tcond_act : forall n pi b k stride p dil ws q pos t, permutes n pi -> length ws = n ->
  Forall (fun w => 1 <= transposed_size k stride p 0 dil w)%Z ws ->
  valid (tsize k stride p 0 dil ws) q -> valid ws pos -> valid (repeat k n) t ->
  at_eqb (map (fun q => q + p)%nat (act n pi b (tsize k stride p 0 dil ws) q)) (place stride dil (act n pi b ws pos) (act n pi b (repeat k n) t)) =
  at_eqb (map (fun q => q + p)%nat q) (place stride dil pos t).
Proof.
  intros n pi b k stride p dil ws q pos t P L HW Vq Vp Vt.
  apply valid_nth in Vq, Vp, Vt. destruct Vq as (Lq & Vq), Vp as (Lp & Vp), Vt as (Lt & Vt). rewrite tsize_length, L in *. rewrite repeat_length in *.
  assert (X : forall a, (a < n)%nat ->
    ((nth (pi a) (tsize k stride p 0 dil ws) 0 - 1 - nth (pi a) q 0) + p = stride * (nth (pi a) ws 0 - 1 - nth (pi a) pos 0) + dil * (k - 1 - nth (pi a) t 0) <->
     nth (pi a) q 0 + p = stride * nth (pi a) pos 0 + dil * nth (pi a) t 0)%nat).
  { intros a Ha. pose proof (proj1 P a Ha) as Hpa. specialize (Vq _ Hpa); specialize (Vp _ Hpa); specialize (Vt _ Hpa).
    rewrite tsize_nth in * by lia. rewrite nth_repeat_lt in Vt by lia.
    rewrite Forall_forall in HW. specialize (HW (nth (pi a) ws 0%nat) (nth_In ws 0%nat (eq_ind_r (fun z => (pi a < z)%nat) Hpa L))).
    unfold transposed_size in *. set (w := nth (pi a) ws 0%nat) in *; set (i := nth (pi a) pos 0%nat) in *; set (u := nth (pi a) t 0%nat) in *; set (c := nth (pi a) q 0%nat) in *.
    rewrite !Nat.mul_sub_distr_l, !Nat.mul_1_r.
    assert (stride * i + stride <= stride * w)%nat by (replace (stride * i + stride)%nat with (stride * (i + 1))%nat by lia; apply Nat.mul_le_mono_l; lia).
    assert (dil * u + dil <= dil * k)%nat by (replace (dil * u + dil)%nat with (dil * (u + 1))%nat by lia; apply Nat.mul_le_mono_l; lia).
    assert (Z.of_nat stride * Z.of_nat w = Z.of_nat (stride * w))%Z by lia. assert (Z.of_nat dil * Z.of_nat k = Z.of_nat (dil * k))%Z by lia.
    assert (Z.of_nat stride * Z.of_nat i = Z.of_nat (stride * i))%Z by lia. assert (Z.of_nat dil * Z.of_nat u = Z.of_nat (dil * u))%Z by lia.
    lia. }
  apply eq_true_iff_eq. rewrite !at_eqb_spec by (unfold place; rewrite !map_length, !combine_length, ?act_length; lia).
  split; intros E; apply (nth_ext _ _ 0%nat 0%nat); try (unfold place; rewrite !map_length, !combine_length, ?act_length; lia); intros a Ha.
  - rewrite map_length in Ha. rewrite Lq in Ha. destruct (permutes_onto n pi P a Ha) as (c & Hc & <-).
    apply (f_equal (fun l => nth c l 0%nat)) in E. unfold place in *. rewrite map_nth_nat in E by (rewrite act_length; exact Hc).
    rewrite combine_nth_map in E by (rewrite !act_length; lia). cbn [fst snd] in E. rewrite !act_nth in E by exact Hc.
    rewrite map_nth_nat by lia. rewrite combine_nth_map by lia. cbn [fst snd].
    rewrite nth_repeat_lt in E by exact Ha.
    destruct (b c); [apply (X c Hc)|]; exact E.
  - rewrite map_length, act_length in Ha. pose proof (proj1 P a Ha) as Hpa.
    apply (f_equal (fun l => nth (pi a) l 0%nat)) in E. unfold place in *. rewrite map_nth_nat in E by lia.
    rewrite combine_nth_map in E by lia. cbn [fst snd] in E.
    rewrite map_nth_nat by (rewrite act_length; exact Ha). rewrite combine_nth_map by (rewrite !act_length; lia). cbn [fst snd]. rewrite !act_nth by exact Ha.
    rewrite nth_repeat_lt by exact Hpa. destruct (b a); [apply (X a Ha)|]; exact E.
Qed.

Definition conditions (groups stride p op dil cout cin k n : nat) (bias : option (list R)) (c : nat) (ws : list nat) : Prop :=
  (0 < groups)%nat /\ (0 < stride)%nat /\ (0 < dil)%nat /\ (n = 0%nat \/ (0 < k)%nat) /\ ((op < stride)%nat \/ (op < dil)%nat) /\
  (cin mod groups = 0)%nat /\ c = cin /\ (match bias with Some v => length v = (groups * cout)%nat | None => True end) /\
  Forall (fun w => 1 <= transposed_size k stride p op dil w)%Z ws.

Lemma transposed_accepts : forall groups stride p op dil cout cin k n f bias x B c ws, shape x = B :: c :: ws -> length ws = n ->
  ((exists y, transposed_forward groups stride p op dil cout cin k n f bias x = Ret y) <-> conditions groups stride p op dil cout cin k n bias c ws).
Proof.
  intros groups stride p op dil cout cin k n f bias x B c ws E L. unfold transposed_forward, conv_transpose, conditions; rewrite E; cbn [shape transpose01 reshape_filter skipn nth length Nat.leb].
  rewrite repeat_length, L, Nat.eqb_refl; cbn [andb assert_ bind].
  assert (Hk : forallb (Nat.ltb 0) (repeat k n) = true <-> n = 0%nat \/ (0 < k)%nat).
  { split; [|intros H; apply forallb_forall; intros a Ha; pose proof Ha as Ha'; apply repeat_spec in Ha; subst a; apply Nat.ltb_lt; destruct H as [Z|H]; [rewrite Z in Ha'; destruct Ha'|exact H]].
    destruct n as [|n]; [left; reflexivity|]. cbn; rewrite andb_true_iff; intros (H & _); right; destruct k; [discriminate|lia]. }
  assert (Hw : forallb (fun kw => Z.leb 1 (transposed_size (fst kw) stride p op dil (snd kw))) (combine (repeat k n) ws) = true <-> Forall (fun w => 1 <= transposed_size k stride p op dil w)%Z ws).
  { rewrite forallb_combine by (rewrite repeat_length; lia). rewrite repeat_length, Forall_forall; cbn [fst snd]. split.
    - intros H w Hin; apply (In_nth _ _ 0%nat) in Hin as (a & Ha & <-); specialize (H a ltac:(lia)); rewrite nth_repeat_lt in H by lia; apply Z.leb_le in H; exact H.
    - intros H a Ha; rewrite nth_repeat_lt by lia; apply Z.leb_le, H, nth_In; lia. }
  split.
  - intros (y & H). apply assert_Ret in H as (H1 & H); apply assert_Ret in H as (H0 & H); apply assert_Ret in H as (H2 & H); apply assert_Ret in H as (H3 & H); apply assert_Ret in H as (H4 & _).
    rewrite !andb_true_iff, !Nat.ltb_lt in H1; rewrite andb_true_iff, !Nat.eqb_eq in H2. destruct H1 as (((A1 & A2) & A3) & A4), H2 as (B1 & B2).
    rewrite orb_true_iff, !Nat.ltb_lt in H0.
    repeat split; auto; [apply Hk; exact A4| |apply Hw; exact H4]. destruct bias; [apply Nat.eqb_eq; exact H3|exact I].
  - intros (A1 & A2 & A3 & A4 & A0 & A5 & A6 & A7 & A8). eexists.
    apply assert_Ret; split; [rewrite !andb_true_iff, !Nat.ltb_lt; repeat split; auto; apply Hk; exact A4|].
    apply assert_Ret; split; [rewrite orb_true_iff, !Nat.ltb_lt; exact A0|].
    apply assert_Ret; split; [rewrite andb_true_iff, !Nat.eqb_eq; auto|].
    apply assert_Ret; split; [destruct bias; [apply Nat.eqb_eq; exact A7|reflexivity]|].
    apply assert_Ret; split; [apply Hw; exact A8|reflexivity].
Qed.

Lemma transposed_value : forall groups stride p op dil cout cin k n f bias x B c ws y, shape x = B :: c :: ws -> length ws = n ->
  transposed_forward groups stride p op dil cout cin k n f bias x = Ret y ->
  shape y = B :: (groups * cout)%nat :: tsize k stride p op dil ws /\
  forall b o q, entry y (b :: o :: q) =
    sumn (cin / groups) (fun i => rsum (map (fun pos => rsum (map (fun t =>
      if at_eqb (map (fun q => q + p)%nat q) (place stride dil pos t)
      then f (o mod cout)%nat (o / cout * (cin / groups) + i)%nat (ravel k t) * entry x (b :: (o / cout * (cin / groups) + i)%nat :: pos) else 0)
      (all_indices (repeat k n)))) (all_indices ws))) + bias_at bias o.
Proof.
  intros groups stride p op dil cout cin k n f bias x B c ws y E L H. unfold transposed_forward, conv_transpose in H; rewrite E in H; cbn [shape transpose01 reshape_filter skipn nth length Nat.leb] in H.
  do 6 apply assert_Ret in H as (_ & H). apply Ret_inj in H; subst y; cbn [shape entry]. split.
  - unfold tsize. rewrite (combine_repeat nat (fun kw => Z.to_nat (transposed_size (fst kw) stride p op dil (snd kw))) k n ws L); reflexivity.
  - intros; reflexivity.
Qed.

Lemma transposed_equivariant_gen : forall half, half 0 = 0 -> half 1 = 1 -> half (-1) = -1 ->
  forall affine n M groups stride p dil cout cin k K f bias A Bo rout x y B ws, signed_perm n M ->
  (forall o i t, (o < cout)%nat -> (i < cin)%nat -> valid (repeat k n) t -> f o i (ravel k t) = K (grid_coords k dil (ravel k t)) o i) ->
  kernel_on n cout cin K -> steers n cout cin M A Bo K -> repeats groups cout rout Bo -> in_blocks groups cin A ->
  (forall v, bias = Some v -> forall o, (o < groups * cout)%nat -> sumn (groups * cout) (fun j => rout o j * nth j v 0) = nth o v 0) ->
  shape x = B :: cin :: ws -> length ws = n ->
  transposed_forward groups stride p 0 dil cout cin k n f bias x = Ret y ->
  exists x' y' z, transform half affine cin A n M x = Ret x' /\
    transposed_forward groups stride p 0 dil cout cin k n f bias x' = Ret y' /\
    transform half affine (groups * cout) rout n M y = Ret z /\ same_array y' z.
Proof.
  intros half H0 H1 Hm affine n M groups stride p dil cout cin k K f bias A Bo rout x y B ws HM HF HK HS HB HA Hb Ex Ln H.
  destruct (transposed_value _ _ _ _ _ _ _ _ _ _ _ _ _ _ _ _ Ex Ln H) as (Sy & Vy).
  pose proof (proj1 (transposed_accepts groups stride p 0 dil cout cin k n f bias x B _ ws Ex Ln) (ex_intro _ y H)) as (G1 & G2 & G3 & G4 & G0 & G5 & G6 & G7 & G8).
  destruct (signed_perm_does n M HM) as (pi & b & D). pose proof (proj1 D) as P.
  destruct (transform_ok half H0 H1 Hm affine _ A n M x B ws HM Ex Ln) as (x1 & x' & E1 & Ex' & Ex1 & F1 & M1). rewrite Ex in Ex1.
  apply (moved_iff _ x1 x' 2 n M pi b [B; cin] ws D Ex1 eq_refl Ln) in M1; destruct M1 as (Sx' & M1). cbn [app] in Sx'.
  destruct (proj2 (transposed_accepts groups stride p 0 dil cout cin k n f bias x' B _ (pshape n pi ws) Sx' (pshape_length _ _ _))) as (y' & Hy').
  { unfold conditions; repeat split; auto. apply Forall_pshape; assumption. }
  destruct (transposed_value _ _ _ _ _ _ _ _ _ _ _ _ _ _ _ _ Sx' (pshape_length _ _ _) Hy') as (Sy' & Vy').
  destruct (transform_ok half H0 H1 Hm affine _ rout n M y B _ HM Sy ltac:(rewrite tsize_length; exact Ln)) as (y1 & z & E2 & Ez & Ey1 & F2 & M2).
  exists x', y', z; split; [exact Ex'|split; [exact Hy'|split; [exact Ez|]]].
  apply (moved_unique R y1 y' z 2 n M); [rewrite Ey1, Sy; cbn; rewrite tsize_length; lia|exact HM| |exact M2].
  rewrite Sy in Ey1.
  apply (moved_iff _ y1 y' 2 n M pi b [B; (groups * cout)%nat] (tsize k stride p 0 dil ws) D Ey1 eq_refl ltac:(rewrite tsize_length; exact Ln)).
  split; [rewrite Sy'; unfold tsize; rewrite map_pshape by assumption; reflexivity|].
  intros l pos Vl Vpos. destruct l as [|bt [|o [|? ?]]]; try (apply valid_nth in Vl as (Ll & _); discriminate); cbn [app].
  assert (Hbt : (bt < B)%nat) by (inversion Vl; assumption). assert (Ho : (o < groups * cout)%nat) by (inversion Vl as [|? ? ? ? ? V2]; inversion V2; assumption).
  rewrite F2, Vy'.
  set (cg := (cin / groups)%nat) in *. assert (Ec : cin = (groups * cg)%nat) by (unfold cg; rewrite (Nat.div_mod cin groups) at 1 by lia; rewrite G5; lia).
  assert (Hc0 : (0 < cout)%nat) by (destruct cout; [lia|lia]).
  set (g := (o / cout)%nat) in *. assert (Hg : (g < groups)%nat) by (apply Nat.div_lt_upper_bound; [lia|lia]).
  set (r := (o mod cout)%nat) in *. assert (Hr : (r < cout)%nat) by (apply Nat.mod_upper_bound; lia).
  assert (Hgi : forall i, (i < cg)%nat -> (g * cg + i < cin)%nat) by (intros i Hi; rewrite Ec; apply Nat.lt_le_trans with ((g + 1) * cg)%nat; [lia|apply Nat.mul_le_mono_r; lia]).
  (* the transformed input, inside a group *)
  assert (Xp : forall i q, (i < cg)%nat -> valid ws q ->
    entry x' (bt :: (g * cg + i)%nat :: act n pi b ws q) = sumn cg (fun j => A (g * cg + i)%nat (g * cg + j)%nat * entry x (bt :: (g * cg + j)%nat :: q))).
  { intros i q Hi Vq. assert (Vl' : valid [B; cin] [bt; (g * cg + i)%nat]) by (constructor; [exact Hbt|constructor; [apply Hgi; exact Hi|constructor]]).
    pose proof (M1 _ q Vl' Vq) as G; cbn [app] in G; rewrite G, F1.
    rewrite Ec at 1. rewrite sumn_mul, (sumn_single groups g); [reflexivity|exact Hg|].
    intros g' Hg' Ng; apply sumn_0; intros j Hj. rewrite HA; [ring|apply Hgi; exact Hi|rewrite Ec; apply Nat.lt_le_trans with ((g' + 1) * cg)%nat; [lia|apply Nat.mul_le_mono_r; lia]|].
    fold cg. rewrite !Nat.div_add_l by lia; rewrite !Nat.div_small by lia; lia. }
  set (T := fun pos' t => at_eqb (map (fun q => q + p)%nat pos) (place stride dil pos' t)).
  assert (LHS : sumn cg (fun i => rsum (map (fun pos' => rsum (map (fun t => if at_eqb (map (fun q => q + p)%nat (act n pi b (tsize k stride p 0 dil ws) pos)) (place stride dil pos' t)
      then f r (g * cg + i)%nat (ravel k t) * entry x' (bt :: (g * cg + i)%nat :: pos') else 0) (all_indices (repeat k n)))) (all_indices (pshape n pi ws)))) =
    rsum (map (fun pos' => rsum (map (fun t => if T pos' t then sumn cg (fun j => sumn cout (fun o' => Bo r o' * K (grid_coords k dil (ravel k t)) o' (g * cg + j)%nat) * entry x (bt :: (g * cg + j)%nat :: pos')) else 0)
      (all_indices (repeat k n)))) (all_indices ws))).
  { rewrite <- rsum_sumn.
    rewrite <- (rsum_perm _ _ (Permutation.Permutation_map _ (act_perm n pi b ws P Ln))), map_map. apply rsum_ext; intros q Hq; apply all_indices_In in Hq.
    rewrite <- rsum_sumn.
    pose proof (act_perm n pi b (repeat k n) P (repeat_length _ _)) as Pm. rewrite repeat_pshape in Pm by exact P.
    rewrite <- (rsum_perm _ _ (Permutation.Permutation_map _ Pm)), map_map. apply rsum_ext; intros t Ht; apply all_indices_In in Ht.
    rewrite (tcond_act n pi b k stride p dil ws pos q t P Ln G8 Vpos Hq Ht). fold (T q t).
    destruct (T q t); [|apply sumn_0; reflexivity].
    transitivity (sumn cg (fun i => sumn cg (fun j => K (mvec n M (grid_coords k dil (ravel k t))) r (g * cg + i)%nat * A (g * cg + i)%nat (g * cg + j)%nat * entry x (bt :: (g * cg + j)%nat :: q)))).
    - apply sumn_ext; intros i Hi. rewrite Xp by auto. rewrite <- sumn_scal_l; apply sumn_ext; intros j Hj.
      rewrite HF; [|exact Hr|apply Hgi; exact Hi|]. 2:{ rewrite <- (repeat_pshape n pi k P) at 1. apply act_valid; [exact P|apply repeat_length|exact Ht]. }
      rewrite (HK (grid_coords k dil (ravel k (act n pi b (repeat k n) t))) (mvec n M (grid_coords k dil (ravel k t)))) by (auto; intros a Ha; apply grid_act; assumption). ring.
    - rewrite sumn_swap; apply sumn_ext; intros j Hj. rewrite <- (HS _ r (g * cg + j)%nat Hr (Hgi j Hj)).
      rewrite <- sumn_scal_r. rewrite Ec. rewrite sumn_mul, (sumn_single groups g); [reflexivity|exact Hg|].
      intros g' Hg' Ng; apply sumn_0; intros i Hi. rewrite (HA (g' * cg + i)%nat (g * cg + j)%nat); [ring|rewrite Ec; apply Nat.lt_le_trans with ((g' + 1) * cg)%nat; [lia|apply Nat.mul_le_mono_r; lia]|apply Hgi; exact Hj|].
      fold cg. rewrite !Nat.div_add_l by lia; rewrite !Nat.div_small by lia; lia. }
  rewrite LHS; clear LHS.
  assert (Eb : bias_at bias o = sumn (groups * cout) (fun o' => rout o o' * bias_at bias o')).
  { unfold bias_at; destruct bias as [v|]; [symmetry; apply (Hb v eq_refl o Ho)|symmetry; apply sumn_0; intros; ring]. }
  transitivity (sumn (groups * cout) (fun o' => rout o o' * (entry y (bt :: o' :: pos) - bias_at bias o')) + bias_at bias o).
  2: { rewrite Eb, <- sumn_plus; apply sumn_ext; intros; ring. }
  f_equal. rewrite sumn_mul, (sumn_single groups g); [|exact Hg|].
  2: { intros g' Hg' Ng; apply sumn_0; intros j Hj. rewrite HB; [|exact Ho|apply Nat.lt_le_trans with ((g' + 1) * cout)%nat; [lia|apply Nat.mul_le_mono_r; lia]].
    fold g. rewrite Nat.div_add_l by lia; rewrite (Nat.div_small j) by lia. destruct (Nat.eqb_spec g (g' + 0)); [lia|ring]. }
  transitivity (sumn cout (fun o' => Bo r o' * (entry y (bt :: (g * cout + o')%nat :: pos) - bias_at bias (g * cout + o')))).
  2: { apply sumn_ext; intros j Hj. rewrite HB; [|exact Ho|apply Nat.lt_le_trans with ((g + 1) * cout)%nat; [lia|apply Nat.mul_le_mono_r; lia]].
    fold g r. rewrite Nat.div_add_l by lia; rewrite (Nat.div_small j) by lia. rewrite Nat.add_0_r, Nat.eqb_refl. rewrite (Nat.add_comm (g * cout) j) at 3. rewrite Nat.mod_add by lia. rewrite Nat.mod_small by lia. reflexivity. }
  transitivity (sumn cout (fun o' => Bo r o' * rsum (map (fun pos' => rsum (map (fun t => if T pos' t then sumn cg (fun j => K (grid_coords k dil (ravel k t)) o' (g * cg + j)%nat * entry x (bt :: (g * cg + j)%nat :: pos')) else 0) (all_indices (repeat k n)))) (all_indices ws)))).
  - transitivity (sumn cout (fun o' => rsum (map (fun pos' => rsum (map (fun t => Bo r o' * (if T pos' t then sumn cg (fun j => K (grid_coords k dil (ravel k t)) o' (g * cg + j)%nat * entry x (bt :: (g * cg + j)%nat :: pos')) else 0)) (all_indices (repeat k n)))) (all_indices ws)))).
    + rewrite <- rsum_sumn. apply rsum_ext; intros q _. rewrite <- rsum_sumn. apply rsum_ext; intros t _.
      destruct (T q t); [|symmetry; apply sumn_0; intros; ring].
      transitivity (sumn cg (fun j => sumn cout (fun o' => Bo r o' * (K (grid_coords k dil (ravel k t)) o' (g * cg + j)%nat * entry x (bt :: (g * cg + j)%nat :: q))))).
      * apply sumn_ext; intros j Hj. rewrite <- sumn_scal_r. apply sumn_ext; intros; ring.
      * rewrite sumn_swap. apply sumn_ext; intros o' Ho'. apply sumn_scal_l.
    + apply sumn_ext; intros o' Ho'. rewrite <- rsum_scal. apply rsum_ext; intros q _. rewrite <- rsum_scal. reflexivity.
  - apply sumn_ext; intros o' Ho'. f_equal. rewrite Vy.
    assert (Q1 : ((g * cout + o') / cout = g)%nat) by (rewrite Nat.div_add_l by lia; rewrite (Nat.div_small o') by lia; lia).
    assert (Q2 : ((g * cout + o') mod cout = o')%nat) by (rewrite Nat.add_comm, Nat.mod_add by lia; apply Nat.mod_small; lia).
    rewrite Q1, Q2. match goal with |- _ = ?u + ?v - ?w => replace (u + v - w) with u by ring end.
    rewrite <- rsum_sumn. apply rsum_ext; intros q _. rewrite <- rsum_sumn. apply rsum_ext; intros t Ht; apply all_indices_In in Ht. fold (T q t). destruct (T q t); [apply sumn_ext; intros j Hj; rewrite HF by auto; reflexivity|symmetry; apply sumn_0; reflexivity].
Qed.
Lemma transposed_equivariant : forall half, half 0 = 0 -> half 1 = 1 -> half (-1) = -1 ->
  forall affine n M groups stride p dil cout cin k K bias A Bo rout x y B ws, signed_perm n M ->
  kernel_on n cout cin K -> steers n cout cin M A Bo K -> repeats groups cout rout Bo -> in_blocks groups cin A ->
  (forall v, bias = Some v -> forall o, (o < groups * cout)%nat -> sumn (groups * cout) (fun j => rout o j * nth j v 0) = nth o v 0) ->
  shape x = B :: cin :: ws -> length ws = n ->
  transposed_forward groups stride p 0 dil cout cin k n (fun o i q => K (grid_coords k dil q) o i) bias x = Ret y ->
  exists x' y' z, transform half affine cin A n M x = Ret x' /\
    transposed_forward groups stride p 0 dil cout cin k n (fun o i q => K (grid_coords k dil q) o i) bias x' = Ret y' /\
    transform half affine (groups * cout) rout n M y = Ret z /\ same_array y' z.
Proof.
  intros half H0 H1 Hm affine n M groups stride p dil cout cin k K bias A Bo rout x y B ws HM. apply (transposed_equivariant_gen half H0 H1 Hm affine n M groups stride p dil cout cin k K _ bias A Bo rout x y B ws HM). intros; reflexivity.
Qed.
