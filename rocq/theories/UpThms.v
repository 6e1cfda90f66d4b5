(** What upsampling computes and when it commutes. *)
From Coq Require Import Reals ZArith Lia Lra Bool List Arith Permutation.
From Verif Require Import LibRes LibMat LibList GridModel SpecGrid GridProofs GridThms ImageModel SpecImage ImageProofs MaskThms ShapeModel ShapeThms ConvThms SpecSPool SpecPool SPoolModel SPoolProofs SPoolThms SPoolBlur UpModel SpecUp UpProofs.
Import ListNotations.
Open Scope R_scope.

(** ** Along one axis *)
(** the sizes fit the scale, if there is one *)
Definition step_fits (scale : option R) (w o : nat) : Prop := match scale with Some s => INR o = INR w * s | None => True end.
Lemma up_step_fits : forall scale w o, (0 < w)%nat -> (0 < o)%nat -> step_fits scale w o -> up_step scale w o = INR w / INR o.
Proof.
  intros [s|] w o Hw Ho F; cbn in *; [|reflexivity]. apply lt_0_INR in Hw, Ho.
  assert (0 < s). { apply Rmult_lt_reg_l with (INR w); [exact Hw|]. rewrite Rmult_0_r, <- F. exact Ho. }
  destruct (Rlt_dec 0 s); [|contradiction]. rewrite F. field. lra.
Qed.
Lemma clamp_min : forall w src, (0 < w)%nat -> Rmin (if Rlt_dec src 0 then 0 else src) (INR w - 1) = clamp w src.
Proof.
  intros w src Hw. apply (le_INR 1 w) in Hw. cbn [INR] in Hw. unfold clamp. destruct (Rlt_dec src 0).
  - rewrite (Rmin_left 0) by lra. rewrite Rmin_left by lra. rewrite Rmax_left; lra.
  - rewrite (Rmax_right 0); [reflexivity|]. apply Rmin_glb; lra.
Qed.
Lemma tent_pick : forall i q, tent (INR i - INR q) = if Nat.eqb q i then 1 else 0.
Proof.
  intros i q. destruct (Nat.eqb_spec q i) as [->|N]; [replace (INR i - INR i) with 0 by ring; apply tent_0|]. apply tent_far.
  destruct (Nat.lt_ge_cases q i) as [L|L]; [assert (q + 1 <= i)%nat as L' by lia|assert (i + 1 <= q)%nat as L' by lia]; apply le_INR in L'; rewrite plus_INR in L'; cbn [INR] in L'; [rewrite Rabs_right|rewrite Rabs_left]; lra.
Qed.
Lemma centre_same : forall w i, (i < w)%nat -> centre w w i = INR i.
Proof.
  intros w i H. assert (0 < INR w) by (apply lt_0_INR; lia). assert (INR i + 1 <= INR w) by (rewrite <- S_INR; apply le_INR; lia). pose proof (pos_INR i).
  unfold centre, clamp. replace ((INR i + 1 / 2) * (INR w / INR w) - 1 / 2) with (INR i) by (field; lra). rewrite Rmin_left by lra. apply Rmax_right. lra.
Qed.
Lemma aligned_same : forall w i, (1 < w)%nat -> aligned w w i = INR i.
Proof. intros w i H. apply (lt_INR 1 w) in H. cbn [INR] in H. unfold aligned. field. lra. Qed.
Lemma weight_centre : forall scale w o i q, (0 < w)%nat -> (i < o)%nat -> step_fits scale w o -> weight (Linear false) scale w o i q = tent (centre w o i - INR q).
Proof.
  intros scale w o i q Hw Hi F. unfold weight. destruct (Nat.eqb_spec o w) as [->|N]; [rewrite centre_same, tent_pick by exact Hi; reflexivity|].
  unfold source_index. rewrite up_step_fits by (assumption || lia). cbv zeta. rewrite clamp_min by exact Hw. unfold centre. do 3 f_equal. ring.
Qed.
Lemma weight_aligned : forall scale w o i q, (0 < w)%nat -> (i < o)%nat -> (1 < o)%nat -> weight (Linear true) scale w o i q = tent (aligned w o i - INR q).
Proof.
  intros scale w o i q Hw Hi Ho. unfold weight. destruct (Nat.eqb_spec o w) as [->|N]; [rewrite aligned_same, tent_pick by exact Ho; reflexivity|].
  unfold source_index. rewrite (proj2 (Nat.ltb_lt 1 o) Ho). apply (lt_INR 1 o) in Ho. apply (le_INR 1 w) in Hw. assert (INR i + 1 <= INR o) by (rewrite <- S_INR; apply le_INR; lia). cbn [INR] in *.
  rewrite Rmin_left; [unfold aligned; f_equal; ring|]. replace ((INR w - 1) / (INR o - 1) * INR i) with ((INR w - 1) * (INR i / (INR o - 1))) by (field; lra).
  rewrite <- (Rmult_1_r (INR w - 1)) at 2. apply Rmult_le_compat_l; [lra|]. apply Rmult_le_reg_r with (INR o - 1); [lra|]. unfold Rdiv. rewrite Rmult_assoc, Rinv_l by lra. lra.
Qed.
Lemma nearest_div : forall scale w o i, (0 < w)%nat -> (i < o)%nat -> step_fits scale w o -> nearest_index scale w o i = ((i * w) / o)%nat.
Proof.
  intros scale w o i Hw Hi F. unfold nearest_index. destruct (Nat.eqb_spec o w) as [->|N]; [rewrite Nat.div_mul by lia; reflexivity|].
  destruct (Nat.eqb_spec o (2 * w)) as [->|N2]; [rewrite Nat.div_mul_cancel_r by lia; reflexivity|].
  rewrite up_step_fits by (assumption || lia). unfold math_floor. rewrite (Int_part_eq _ (Z.of_nat (i * w / o))).
  - rewrite Z.min_l; [apply Nat2Z.id|]. assert (i * w / o < w)%nat by (apply Nat.div_lt_upper_bound; nia). lia.
  - rewrite <- INR_IZR_INZ. assert (0 < INR o) by (apply lt_0_INR; lia). replace (INR i * (INR w / INR o)) with (INR (i * w) / INR o) by (rewrite mult_INR; field; lra).
    pose proof (Nat.div_mod (i * w) o ltac:(lia)) as E. pose proof (Nat.mod_upper_bound (i * w) o ltac:(lia)) as Hm. set (d := (i * w / o)%nat) in *. set (m := ((i * w) mod o)%nat) in *. rewrite E, plus_INR, mult_INR.
    apply lt_INR in Hm. pose proof (pos_INR m). replace ((INR o * INR d + INR m) / INR o) with (INR d + INR m / INR o) by (field; lra).
    assert (0 <= INR m / INR o) by (apply Rmult_le_pos; [lra|apply Rlt_le, Rinv_0_lt_compat; lra]).
    assert (INR m / INR o < 1) by (apply Rmult_lt_reg_r with (INR o); [lra|]; unfold Rdiv; rewrite Rmult_assoc, Rinv_l by lra; lra). lra.
Qed.

(** ** From both ends *)
Lemma rev_INR : forall o i, (i < o)%nat -> INR (o - 1 - i) = INR o - 1 - INR i.
Proof. intros o i H. rewrite !minus_INR by lia. reflexivity. Qed.
Lemma clamp_rev : forall w t, (0 < w)%nat -> clamp w (INR w - 1 - t) = INR w - 1 - clamp w t.
Proof.
  intros w t Hw. apply (le_INR 1 w) in Hw. cbn [INR] in Hw. unfold clamp.
  destruct (Rle_dec t 0); [|destruct (Rle_dec t (INR w - 1))].
  - rewrite (Rmin_right (INR w - 1 - t)), (Rmin_left t) by lra. rewrite (Rmax_left 0 t) by lra. rewrite Rmax_right; lra.
  - rewrite (Rmin_left (INR w - 1 - t)), (Rmin_left t) by lra. rewrite !Rmax_right; lra.
  - rewrite (Rmin_left (INR w - 1 - t)), (Rmin_right t) by lra. rewrite Rmax_left, Rmax_right; lra.
Qed.
Lemma centre_rev : forall w o i, (0 < w)%nat -> (i < o)%nat -> centre w o (o - 1 - i) = INR w - 1 - centre w o i.
Proof.
  intros w o i Hw Hi. unfold centre. rewrite <- clamp_rev by exact Hw. f_equal. rewrite rev_INR by exact Hi. assert (0 < INR o) by (apply lt_0_INR; lia). field. lra.
Qed.
Lemma aligned_rev : forall w o i, (1 < o)%nat -> (i < o)%nat -> aligned w o (o - 1 - i) = INR w - 1 - aligned w o i.
Proof. intros w o i Ho Hi. unfold aligned. rewrite rev_INR by exact Hi. apply (lt_INR 1 o) in Ho. cbn [INR] in Ho. field. lra. Qed.
Lemma tent_rev : forall w a b q, (q < w)%nat -> b = INR w - 1 - a -> tent (b - INR (w - 1 - q)) = tent (a - INR q).
Proof. intros w a b q Hq ->. rewrite rev_INR by exact Hq. rewrite <- tent_opp. f_equal. ring. Qed.
Lemma same_balanced : forall mode scale w, balanced (weight mode scale) w w.
Proof.
  intros mode scale w i q Hi Hq. assert (E : forall a b, (a < w)%nat -> (b < w)%nat -> Nat.eqb (w - 1 - a) (w - 1 - b) = Nat.eqb a b) by (intros a b Ha Hb; destruct (Nat.eqb_spec a b) as [->|]; [apply Nat.eqb_refl|apply Nat.eqb_neq; lia]).
  unfold weight, nearest_index. rewrite Nat.eqb_refl. destruct mode; rewrite E by assumption; reflexivity.
Qed.
Lemma linear_balanced : forall scale w o, (0 < w)%nat -> step_fits scale w o -> balanced (weight (Linear false) scale) w o.
Proof. intros scale w o Hw F i q Hi Hq. rewrite !weight_centre by (assumption || lia). apply tent_rev; [exact Hq|]. apply centre_rev; assumption. Qed.
Lemma aligned_balanced : forall scale w o, (0 < w)%nat -> (1 < o)%nat -> balanced (weight (Linear true) scale) w o.
Proof. intros scale w o Hw Ho i q Hi Hq. rewrite !weight_aligned by (assumption || lia). apply tent_rev; [exact Hq|]. apply aligned_rev; assumption. Qed.
Lemma nearest_rev : forall w k i, (0 < k)%nat -> (i < k * w)%nat -> ((k * w - 1 - i) * w / (k * w) = w - 1 - i * w / (k * w))%nat.
Proof.
  intros w k i Hk Hi. assert (0 < w)%nat by (destruct w; [lia|lia]). rewrite !Nat.div_mul_cancel_r by lia.
  pose proof (Nat.div_mod i k ltac:(lia)) as E. pose proof (Nat.mod_upper_bound i k ltac:(lia)). assert (i / k < w)%nat by (apply Nat.div_lt_upper_bound; lia).
  symmetry. apply Nat.div_unique with (k - 1 - i mod k)%nat; [lia|]. rewrite E at 1. nia.
Qed.
Lemma nearest_balanced : forall scale w o, (0 < w)%nat -> step_fits scale w o -> Nat.divide w o -> balanced (weight Nearest scale) w o.
Proof.
  intros scale w o Hw F (k & ->) i q Hi Hq. unfold weight. rewrite !nearest_div by (assumption || lia). assert (0 < k)%nat by (destruct k; [lia|lia]). rewrite nearest_rev by assumption.
  assert (i * w / (k * w) < w)%nat by (apply Nat.div_lt_upper_bound; nia). set (t := (i * w / (k * w))%nat) in *.
  destruct (Nat.eqb_spec (w - 1 - q) (w - 1 - t)), (Nat.eqb_spec q t); try lia; reflexivity.
Qed.

Lemma Forall2_nth_iff : forall {X Y} (P : X -> Y -> Prop) (d1 : X) (d2 : Y) l m, Forall2 P l m <-> length m = length l /\ forall a, (a < length l)%nat -> P (nth a l d1) (nth a m d2).
Proof.
  intros X Y P d1 d2 l. induction l as [|x l IH]; intros [|y m]; cbn [length].
  - split; [intros _; split; [reflexivity|intros; lia]|constructor].
  - split; [intros H; inversion H|intros (H & _); discriminate].
  - split; [intros H; inversion H|intros (H & _); discriminate].
  - split.
    + intros H. inversion H as [|? ? ? ? H1 H2]; subst. apply IH in H2 as (L & H2). split; [f_equal; exact L|]. intros [|a] Ha; cbn [nth]; [exact H1|apply H2; lia].
    + intros (L & H). constructor; [apply (H 0%nat); lia|]. apply IH. split; [lia|]. intros a Ha. apply (H (S a)). lia.
Qed.
Lemma map_nth_seq : forall (l : list nat), map (fun j => nth j l 0%nat) (seq 0 (length l)) = l.
Proof. induction l as [|x l IH]; [reflexivity|]. cbn [length seq map nth]. rewrite <- seq_shift, map_map. cbn [nth]. rewrite IH. reflexivity. Qed.

(** ** The sizes *)
Lemma up_sizes_ok : forall size scale ws os, length os = length ws -> Forall (fun o => 0 < o)%nat os ->
  (up_sizes size scale ws = Ret (map Z.of_nat os) <-> upsized size scale ws os).
Proof.
  intros size scale ws os L F. unfold up_sizes, upsized. destruct size as [l|], scale as [s|].
  - split; [discriminate|intros [(_ & Q)|(Q & _)]; discriminate].
  - split.
    + destruct (Nat.eqb_spec (length l) (length ws)); [|discriminate]. intros E. apply Ret_inj in E. left. split; [|reflexivity]. f_equal.
      apply (f_equal (map Z.to_nat)) in E. rewrite !map_map, !(map_ext (fun x => Z.to_nat (Z.of_nat x)) (fun t => t)), !map_id in E by apply Nat2Z.id. exact E.
    + intros [(E & _)|(Q & _)]; [|discriminate]. injection E as ->. rewrite (proj2 (Nat.eqb_eq _ _) L). reflexivity.
  - assert (G : forall ws os, Forall (fun o => 0 < o)%nat os -> map (fun w => math_floor (INR w * s)) ws = map Z.of_nat os <-> Forall2 (fun w o => INR o <= INR w * s < INR o + 1) ws os).
    { clear. induction ws as [|w ws IH]; intros [|o os] F; cbn [map]; try (split; intros H; [discriminate|inversion H]); [split; constructor|].
      inversion F as [|? ? F1 F2]; subst. split.
      - intros E. injection E as E1 E2. constructor; [|apply IH; assumption]. pose proof (floor_bounds (INR w * s)) as B. rewrite E1, <- INR_IZR_INZ in B. exact B.
      - intros E. inversion E as [|? ? ? ? E1 E2]; subst. f_equal; [|apply IH; assumption]. apply Int_part_eq. rewrite <- INR_IZR_INZ. exact E1. }
    split.
    + intros E. apply Ret_inj in E. right. split; [reflexivity|]. exists s. split; [reflexivity|]. apply G; assumption.
    + intros [(Q & _)|(_ & s' & E & H)]; [discriminate|]. injection E as <-. f_equal. apply G; assumption.
  - split; [discriminate|]. intros [(Q & _)|(_ & s & Q & _)]; discriminate.
Qed.
Lemma fits_axes : forall size scale ws os, upsized size scale ws os -> whole scale ws -> length os = length ws -> forall a, (a < length ws)%nat -> step_fits scale (nth a ws 0%nat) (nth a os 0%nat).
Proof.
  intros size scale ws os U W L a Ha. destruct scale as [s|]; cbn; [|exact I]. specialize (W s eq_refl). destruct U as [(_ & Q)|(_ & s' & E & F2)]; [discriminate|]. injection E as <-.
  clear L. revert a Ha. induction F2 as [|w o ws os B F2 IH]; intros a Ha; [cbn in Ha; lia|]. inversion W as [|? ? (m & Em) W']; subst.
  destruct a as [|a]; cbn [nth]; [|apply IH; [exact W'|cbn in Ha; lia]]. rewrite Em in *. f_equal. destruct B as (B1 & B2). apply INR_le in B1. rewrite <- S_INR in B2. apply INR_lt in B2. lia.
Qed.
Lemma nth_pos : forall l a, Forall (fun w => 0 < w)%nat l -> (a < length l)%nat -> (0 < nth a l 0)%nat.
Proof. intros l a F Ha. rewrite Forall_forall in F. apply F, nth_In, Ha. Qed.

(** ** The layer *)
Lemma up_inv : forall u x y, up_forward u x = Ret y -> exists B ws os, shape x = B :: u_channels u :: ws /\ length ws = u_d u /\ length os = u_d u /\
  (0 < u_channels u)%nat /\ Forall (fun w => 0 < w)%nat ws /\ Forall (fun o => 0 < o)%nat os /\ upsized (u_size u) (u_scale u) ws os /\ shape y = B :: u_channels u :: os /\
  forall bt ch pos, valid os pos -> entry y (bt :: ch :: pos) = rsum (map (fun q => over_axes (weight (u_mode u) (u_scale u)) ws os pos q * entry x (bt :: ch :: q)) (all_indices ws)).
Proof.
  intros u x y H. unfold up_forward in H. apply assert_Ret in H as (Q1 & H). apply assert_Ret in H as (Q2 & H). apply Nat.eqb_eq in Q1, Q2.
  destruct (shape x) as [|B [|c ws]] eqn:Ex; try (cbn in Q1; lia). cbn in Q1, Q2. subst c.
  destruct (interpolate_inv _ _ _ _ _ _ _ _ Ex H) as (os & Eo & Lo & Hc & Fw & Fo & Sy & V). exists B, ws, os. apply up_sizes_ok in Eo; [|exact Lo|exact Fo].
  split; [reflexivity|]. split; [lia|]. split; [lia|]. split; [exact Hc|]. split; [exact Fw|]. split; [exact Fo|]. split; [exact Eo|]. split; [exact Sy|exact V].
Qed.
Theorem up_returns : forall u x, (exists y, up_forward u x = Ret y) <->
  exists B ws os, shape x = B :: u_channels u :: ws /\ length ws = u_d u /\ length os = u_d u /\ (0 < u_channels u)%nat /\
    Forall (fun w => 0 < w)%nat ws /\ Forall (fun o => 0 < o)%nat os /\ upsized (u_size u) (u_scale u) ws os.
Proof.
  intros u x. split.
  - intros (y & H). destruct (up_inv u x y H) as (B & ws & os & Q1 & Q2 & Q3 & Q4 & Q5 & Q6 & Q7 & _). exists B, ws, os. auto 10.
  - intros (B & ws & os & Ex & Lw & Lo & Hc & Fw & Fo & U). unfold up_forward. rewrite Ex. cbn [length nth]. rewrite Lw. change (S (S (u_d u))) with (2 + u_d u)%nat. rewrite !Nat.eqb_refl. cbn [assert_ bind].
    apply (interpolate_go _ _ _ x B (u_channels u) ws os Ex); [|exact Hc|exact Fw|exact Fo]. apply up_sizes_ok; [lia|exact Fo|exact U].
Qed.
Theorem up_predicted : forall u x y, up_forward u x = Ret y -> up_eval_shape u (shape x) = Ret (map Z.of_nat (shape y)).
Proof.
  intros u x y H. destruct (up_inv u x y H) as (B & ws & os & Ex & Lw & Lo & Hc & Fw & Fo & U & Sy & _). rewrite Ex, Sy. unfold up_eval_shape. cbn [length nth].
  rewrite Lw. change (S (S (u_d u))) with (2 + u_d u)%nat. rewrite !Nat.eqb_refl. cbn [assert_ bind].
  unfold upsized in U. destruct U as [(E1 & E2)|(E1 & s & E2 & F)]; rewrite E1; [reflexivity|rewrite E2].
  assert (E : map Z.of_nat os = map (fun i => math_floor (INR (nth (2 + i) (B :: u_channels u :: ws) 0%nat) * s)) (seq 0 (u_d u))).
  { pose proof (proj2 (up_sizes_ok _ _ ws os ltac:(lia) Fo) (or_intror (conj eq_refl (ex_intro _ s (conj eq_refl F))))) as E. unfold up_sizes in E. apply Ret_inj in E. rewrite <- E, <- Lw.
    change (fun i => math_floor (INR (nth (2 + i) (B :: u_channels u :: ws) 0%nat) * s)) with (fun i => (fun w => math_floor (INR w * s)) ((fun j => nth j ws 0%nat) i)). rewrite <- (map_map (fun j => nth j ws 0%nat)). rewrite map_nth_seq. reflexivity. }
  cbn [nth Nat.add] in E |- *. rewrite <- E. reflexivity.
Qed.

(** ** Values *)
Lemma over_axes_ext : forall K K' ws os pos q, (forall a, (a < length ws)%nat -> K (nth a ws 0%nat) (nth a os 0%nat) (nth a pos 0%nat) (nth a q 0%nat) = K' (nth a ws 0%nat) (nth a os 0%nat) (nth a pos 0%nat) (nth a q 0%nat)) ->
  over_axes K ws os pos q = over_axes K' ws os pos q.
Proof. intros K K' ws os pos q H. unfold over_axes. f_equal. apply map_ext_in. intros a Ha. apply in_seq in Ha. apply H. lia. Qed.
Lemma tents_value : forall u x y place, up_forward u x = Ret y ->
  (forall ws os, length os = length ws -> Forall (fun w => 0 < w)%nat ws -> Forall (fun o => 0 < o)%nat os -> upsized (u_size u) (u_scale u) ws os -> skipn 2 (shape x) = ws -> skipn 2 (shape y) = os -> forall a i q, (a < length ws)%nat -> (i < nth a os 0)%nat ->
     weight (u_mode u) (u_scale u) (nth a ws 0%nat) (nth a os 0%nat) i q = tent (place (nth a ws 0%nat) (nth a os 0%nat) i - INR q)) ->
  exists B ws os, shape x = B :: u_channels u :: ws /\ shape y = B :: u_channels u :: os /\ upsized (u_size u) (u_scale u) ws os /\
    forall bt ch pos, valid os pos -> interpolated place ws os pos (fun q => entry x (bt :: ch :: q)) (entry y (bt :: ch :: pos)).
Proof.
  intros u x y place H HW. destruct (up_inv u x y H) as (B & ws & os & Ex & Lw & Lo & Hc & Fw & Fo & U & Sy & V). exists B, ws, os. split; [exact Ex|]. split; [exact Sy|]. split; [exact U|].
  intros bt ch pos Hp. rewrite (V bt ch pos Hp). exists (all_indices ws). split; [apply all_indices_NoDup|]. split; [apply all_indices_In|]. apply rsum_ext. intros q _. f_equal. apply over_axes_ext.
  intros a Ha. apply (HW ws os); try assumption; try lia; [rewrite Ex; reflexivity|rewrite Sy; reflexivity|]. apply valid_nth in Hp as (_ & Hp). apply Hp. lia.
Qed.
Theorem linear_value : forall u x y, u_mode u = Linear false -> whole (u_scale u) (skipn 2 (shape x)) -> up_forward u x = Ret y ->
  exists B ws os, shape x = B :: u_channels u :: ws /\ shape y = B :: u_channels u :: os /\ upsized (u_size u) (u_scale u) ws os /\
    forall bt ch pos, valid os pos -> interpolated centre ws os pos (fun q => entry x (bt :: ch :: q)) (entry y (bt :: ch :: pos)).
Proof.
  intros u x y Em W H. apply (tents_value u x y centre H). intros ws os L Fw Fo U Ew _ a i q Ha Hi. rewrite Ew in W. rewrite Em. apply weight_centre; [apply nth_pos; assumption|exact Hi|].
  apply (fits_axes _ _ ws os U W L a Ha).
Qed.
Theorem aligned_value : forall u x y, u_mode u = Linear true -> Forall (fun o => 1 < o)%nat (skipn 2 (shape y)) -> up_forward u x = Ret y ->
  exists B ws os, shape x = B :: u_channels u :: ws /\ shape y = B :: u_channels u :: os /\ upsized (u_size u) (u_scale u) ws os /\
    forall bt ch pos, valid os pos -> interpolated aligned ws os pos (fun q => entry x (bt :: ch :: q)) (entry y (bt :: ch :: pos)).
Proof.
  intros u x y Em F1 H. apply (tents_value u x y aligned H). intros ws os L Fw Fo U _ Eo a i q Ha Hi. rewrite Eo in F1. rewrite Em. apply weight_aligned; [apply nth_pos; assumption|exact Hi|].
  rewrite Forall_forall in F1. apply F1, nth_In. lia.
Qed.
Lemma rsum_one : forall (l : list (list nat)) (f : list nat -> R) q0, NoDup l -> In q0 l -> (forall q, In q l -> q <> q0 -> f q = 0) -> rsum (map f l) = f q0.
Proof.
  induction l as [|q l IH]; intros f q0 N I Hf; [destruct I|]. inversion N as [|? ? N1 N2]; subst. unfold rsum in *. cbn [map fold_right].
  destruct I as [->|I].
  - assert (E : fold_right Rplus 0 (map f l) = 0).
    { assert (G : forall q, In q l -> f q = 0) by (intros q Hq; apply Hf; [right; exact Hq|intros ->; contradiction]). clear -G. induction l as [|a l IH]; cbn; [reflexivity|]. rewrite IH, G by (intros; try apply G; cbn; auto). ring. }
    rewrite E. ring.
  - rewrite (IH f q0 N2 I) by (intros; apply Hf; [right|]; assumption). rewrite (Hf q); [ring|left; reflexivity|intros ->; contradiction].
Qed.
Lemma prod_one : forall l, (forall x, In x l -> x = 1) -> fold_right Rmult 1 l = 1.
Proof. induction l as [|x l IH]; intros H; [reflexivity|]. cbn [fold_right]. rewrite (H x (or_introl eq_refl)), IH by (intros; apply H; right; assumption). ring. Qed.
Lemma prod_zero : forall l, In 0 l -> fold_right Rmult 1 l = 0.
Proof. induction l as [|x l IH]; intros H; [destruct H|]. cbn [fold_right]. destruct H as [->|H]; [ring|rewrite IH by exact H; ring]. Qed.
Lemma left_cell_div : forall w o i, (0 < w)%nat -> (i < o)%nat -> left_cell w o i (i * w / o).
Proof.
  intros w o i Hw Hi. unfold left_cell. pose proof (Nat.div_mod (i * w) o ltac:(lia)) as E. pose proof (Nat.mod_upper_bound (i * w) o ltac:(lia)). split; [apply Nat.div_lt_upper_bound; nia|]. nia.
Qed.
Theorem nearest_value : forall u x y, u_mode u = Nearest -> whole (u_scale u) (skipn 2 (shape x)) -> up_forward u x = Ret y ->
  exists B ws os, shape x = B :: u_channels u :: ws /\ shape y = B :: u_channels u :: os /\ upsized (u_size u) (u_scale u) ws os /\
    forall bt ch pos, valid os pos -> exists q, length q = length ws /\ (forall a, (a < length ws)%nat -> left_cell (nth a ws 0%nat) (nth a os 0%nat) (nth a pos 0%nat) (nth a q 0%nat)) /\
      entry y (bt :: ch :: pos) = entry x (bt :: ch :: q).
Proof.
  intros u x y Em W H. destruct (up_inv u x y H) as (B & ws & os & Ex & Lw & Lo & Hc & Fw & Fo & U & Sy & V). exists B, ws, os. split; [exact Ex|]. split; [exact Sy|]. split; [exact U|].
  intros bt ch pos Hp. pose proof Hp as Hv. apply valid_nth in Hv as (Lp & Hv). rewrite Ex in W. cbn [skipn] in W. pose proof (fits_axes _ _ ws os U W ltac:(lia)) as Fit.
  set (g := fun a => (nth a pos 0 * nth a ws 0 / nth a os 0)%nat). set (q0 := map g (seq 0 (length ws))).
  assert (N0 : forall a, (a < length ws)%nat -> nth a q0 0%nat = g a).
  { intros a Ha. unfold q0. rewrite (nth_indep _ 0%nat (g 0%nat)) by (rewrite map_length, seq_length; exact Ha). rewrite map_nth, seq_nth by exact Ha. reflexivity. }
  assert (C : forall a, (a < length ws)%nat -> left_cell (nth a ws 0%nat) (nth a os 0%nat) (nth a pos 0%nat) (nth a q0 0%nat)).
  { intros a Ha. rewrite (N0 a Ha). apply left_cell_div; [apply nth_pos; assumption|]. apply Hv. lia. }
  assert (Lq : length q0 = length ws) by (unfold q0; rewrite map_length, seq_length; reflexivity).
  exists q0. split; [exact Lq|]. split; [exact C|]. rewrite (V bt ch pos Hp), Em.
  assert (K : forall a q, (a < length ws)%nat -> weight Nearest (u_scale u) (nth a ws 0%nat) (nth a os 0%nat) (nth a pos 0%nat) q = if Nat.eqb q (nth a q0 0%nat) then 1 else 0).
  { intros a q Ha. unfold weight. rewrite nearest_div; [rewrite (N0 a Ha); reflexivity|apply nth_pos; assumption|apply Hv; lia|apply Fit; exact Ha]. }
  rewrite (rsum_one _ _ q0 (all_indices_NoDup ws)).
  - unfold over_axes. rewrite prod_one; [ring|]. intros t Ht. apply in_map_iff in Ht as (a & <- & Ha). apply in_seq in Ha. rewrite K by lia. rewrite Nat.eqb_refl. reflexivity.
  - apply all_indices_In. apply valid_nth. split; [exact Lq|]. intros a Ha. apply C. lia.
  - intros q Hq N. assert (E : exists a, (a < length ws)%nat /\ nth a q 0%nat <> nth a q0 0%nat).
    { apply all_indices_In, valid_nth in Hq as (Lqq & _). destruct (existsb (fun a => negb (Nat.eqb (nth a q 0%nat) (nth a q0 0%nat))) (seq 0 (length ws))) eqn:E.
      - apply existsb_exists in E as (a & Ha & E). apply in_seq in Ha. exists a. split; [lia|]. apply negb_true_iff, Nat.eqb_neq in E. exact E.
      - exfalso. apply N. apply (nth_ext _ _ 0%nat 0%nat); [lia|]. intros a Ha. destruct (Nat.eq_dec (nth a q 0%nat) (nth a q0 0%nat)) as [Q|Q]; [exact Q|]. exfalso.
        assert (T : existsb (fun a => negb (Nat.eqb (nth a q 0%nat) (nth a q0 0%nat))) (seq 0 (length ws)) = true) by (apply existsb_exists; exists a; split; [apply in_seq; lia|apply negb_true_iff, Nat.eqb_neq; exact Q]). congruence. }
    destruct E as (a & Ha & E). unfold over_axes. rewrite prod_zero; [ring|]. apply in_map_iff. exists a. split; [|apply in_seq; lia]. rewrite K by exact Ha. rewrite (proj2 (Nat.eqb_neq _ _) E). reflexivity.
Qed.

(** ** Commuting with the symmetries of the grid *)
Lemma pshape_repeat : forall n pi o, ImageProofs.permutes n pi -> pshape n pi (repeat o n) = repeat o n.
Proof.
  intros n pi o P. apply (nth_ext _ _ 0%nat 0%nat); [rewrite pshape_length, repeat_length; reflexivity|]. intros a Ha. rewrite pshape_length in Ha. rewrite pshape_nth by exact Ha.
  rewrite !nth_repeat_lt; [reflexivity|exact Ha|]. apply P. exact Ha.
Qed.
Theorem up_commutes : forall half, half 0 = 0 -> half 1 = 1 -> half (-1) = -1 -> forall affine rho M u x y,
  signed_perm (u_d u) M -> up_forward u x = Ret y -> (forall l, u_size u = Some l -> exists o, l = repeat o (u_d u)) -> 
  match u_mode u with
  | Linear false => whole (u_scale u) (skipn 2 (shape x))
  | Linear true => Forall2 (fun w o => 1 < o \/ o = w)%nat (skipn 2 (shape x)) (skipn 2 (shape y))
  | Nearest => whole (u_scale u) (skipn 2 (shape x)) /\ Forall2 Nat.divide (skipn 2 (shape x)) (skipn 2 (shape y))
  end ->
  commutes_with half affine (u_channels u) rho (u_d u) M (up_forward u) x y.
Proof.
  intros half H0 H1 Hm affine rho M u x y HM H Hu Hs. destruct (up_inv u x y H) as (B & ws & os & Ex & Lw & Lo & Hc & Fw & Fo & U & Sy & V).
  apply (turned_commutes half H0 H1 Hm affine (u_channels u) rho (u_d u) M HM (up_forward u) x y B ws Ex Lw). intros pi b x' P T.
  rewrite Ex, Sy in Hs. cbn [skipn] in Hs. unfold up_forward in H. apply assert_Ret in H as (_ & H). apply assert_Ret in H as (_ & H).
  assert (Eo : up_sizes (u_size u) (u_scale u) ws = Ret (map Z.of_nat os)) by (apply up_sizes_ok; [lia|exact Fo|exact U]).
  destruct (interpolate_turned (u_size u) (u_scale u) (u_mode u) (u_channels u) rho (u_d u) pi b B ws x x' y P Lw) as (os' & y' & Lo' & H' & T'); [|exact T|exact H|].
  - intros os' Eo'. rewrite Eo in Eo'. apply Ret_inj in Eo'. apply (f_equal (map Z.to_nat)) in Eo'. rewrite !map_map, !(map_ext (fun x => Z.to_nat (Z.of_nat x)) (fun t => t)), !map_id in Eo' by apply Nat2Z.id. subst os'. split.
    + apply up_sizes_ok; [rewrite !pshape_length; reflexivity| |].
      * apply Forall_forall. intros o Ho. apply (In_nth _ _ 0%nat) in Ho as (a & Ha & <-). rewrite pshape_length in Ha. rewrite pshape_nth by exact Ha. apply nth_pos; [exact Fo|]. rewrite Lo. apply P. exact Ha.
      * destruct U as [(E1 & E2)|(E1 & s & E2 & F)]; [left; split; [|exact E2]; destruct (Hu _ E1) as (o & ->); rewrite pshape_repeat by exact P; exact E1|].
        right. split; [exact E1|]. exists s. split; [exact E2|]. apply (Forall2_nth_iff _ 0%nat 0%nat). split; [rewrite !pshape_length; reflexivity|]. intros a Ha. rewrite pshape_length in Ha. rewrite !pshape_nth by exact Ha.
        apply (Forall2_nth_iff _ 0%nat 0%nat) in F as (_ & F). apply F. rewrite Lw. apply P. exact Ha.
    + intros a Ha. assert (Hw : (0 < nth a ws 0)%nat) by (apply nth_pos; [exact Fw|lia]). destruct (u_mode u) as [|[|]]; cbn in Hs.
      * destruct Hs as (W & D). apply nearest_balanced; [exact Hw|apply (fits_axes _ _ ws os U W); lia|]. apply (Forall2_nth_iff _ 0%nat 0%nat) in D as (_ & D). apply D. lia.
      * apply (Forall2_nth_iff _ 0%nat 0%nat) in Hs as (_ & D). destruct (D a ltac:(lia)) as [L|L]; [apply aligned_balanced; assumption|rewrite L; apply same_balanced].
      * apply linear_balanced; [exact Hw|apply (fits_axes _ _ ws os U Hs); lia].
  - exists os', y'. split; [exact Lo'|]. split; [|exact T']. unfold up_forward. destruct T as (_ & Ex' & _). rewrite Ex'. cbn [length nth]. rewrite pshape_length.
    change (S (S (u_d u))) with (2 + u_d u)%nat. rewrite !Nat.eqb_refl. cbn [assert_ bind]. exact H'.
Qed.
