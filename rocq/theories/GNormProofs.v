(** GNormBatchNorm: one field. *)
From Coq Require Import Reals List ZArith Arith Bool Lia Lra Permutation.
From Verif Require Import LibRes LibPy LibMat LibMatS RepModel RepProofs SpecRepr FieldModel SpecField FieldProofs GroupedModel NonlinModel SpecNonlin NonlinProofs PoolModel ImageModel BatchNormModel SpecBatch BatchNormProofs BatchThms FNormModel SpecFNorm FNormProofs.
Import ListNotations.
Open Scope R_scope.

(** *** irreps *)
Lemma irrep_bound : forall l n t, irreps_ok l n -> (t < n)%nat -> (irrep_of l t < length l)%nat.
Proof.
  induction l as [|[s b] l IH]; intros n t [E F] H; cbn in E; [lia|]. cbn [irrep_of length]. destruct (Nat.ltb_spec t s); [lia|].
  apply Forall_cons_iff in F. destruct F as [_ F]. apply -> Nat.succ_lt_mono. apply (IH (n - s)%nat); [split; [|exact F]|]; unfold list_sum in *; lia.
Qed.
Lemma in_irrep_ok : forall l n t o, irreps_ok l n -> (t < n)%nat ->
  in_irrep t (map fst l) o = if Nat.eqb (irrep_of l t) o then Some (irrep_size l o) else None.
Proof.
  induction l as [|[s b] l IH]; intros n t o [E F] H; cbn in E; [lia|]. apply Forall_cons_iff in F. destruct F as [_ F]. unfold irrep_size. cbn [map fst in_irrep irrep_of].
  destruct o as [|o]; destruct (Nat.ltb_spec t s); cbn [Nat.eqb nth]; try reflexivity.
  apply (IH (n - s)%nat); [split; [|exact F]|]; unfold list_sum in *; lia.
Qed.
Lemma irrep_size_pos : forall l n o, irreps_ok l n -> (o < length l)%nat -> (0 < irrep_size l o)%nat.
Proof.
  intros l n o [_ F] H. unfold irrep_size. rewrite (nth_indep _ 0%nat (fst (0%nat, false))) by (rewrite map_length; exact H). rewrite map_nth. rewrite Forall_forall in F. apply F, nth_In, H.
Qed.
Lemma aggregator_ok : forall l n t o, irreps_ok l n -> (t < n)%nat -> aggregator (map fst l) t o = if Nat.eqb (irrep_of l t) o then 1 / INR (irrep_size l o) else 0.
Proof. intros l n t o I H. unfold aggregator. rewrite (in_irrep_ok l n t o I H). destruct (Nat.eqb _ _); reflexivity. Qed.
Lemma propagator_ok : forall l n t o, irreps_ok l n -> (t < n)%nat -> propagator (map fst l) t o = if Nat.eqb (irrep_of l t) o then 1 else 0.
Proof.
  intros l n t o I H. unfold propagator. rewrite (aggregator_ok l n t o I H). destruct (Nat.eqb_spec (irrep_of l t) o) as [E|E].
  - destruct (Rlt_dec _ _) as [K|K]; [reflexivity|]. exfalso. apply K. apply Rdiv_lt_0_compat; [lra|]. apply lt_0_INR, (irrep_size_pos l n o I). subst o. apply (irrep_bound l n t I H).
  - destruct (Rlt_dec _ _) as [K|K]; [lra|reflexivity].
Qed.

(** *** changes of basis *)
Definition base (o : option mat) (n N : nat) (v : list chan) : list chan := match o with Some M => mix n N M v | None => v end.
Lemma base_ent : forall o M n N v, rect n N v -> (o = Some M \/ o = None /\ meq n n M mid) -> rect n N (base o n N v) /\
  forall c p, (c < n)%nat -> (p < N)%nat -> ent (base o n N v) c p = sumn n (fun d => M c d * ent v d p).
Proof.
  intros o M n N v R [->|[-> H]]; cbn [base]; [apply mix_rect|]. split; [exact R|]. intros c p Hc Hp. rewrite (sumn_single n c); [|exact Hc|].
  - rewrite (H c c Hc Hc). unfold mid. rewrite Nat.eqb_refl. ring.
  - intros d Hd Nd. rewrite (H c d Hc Hd). unfold mid. destruct (Nat.eqb_spec c d) as [E|E]; [congruence|ring].
Qed.
Lemma gn_basis_ok : forall spatial n N o v, (spatial = 2%nat \/ o = None) -> gn_basis spatial n N o v = Ret (base o n N v).
Proof. intros spatial n N o v H. unfold gn_basis, base. destruct o as [M|]; [|reflexivity]. destruct H as [->|H]; [reflexivity|discriminate]. Qed.

(** *** shifting the trivial irreps *)
Lemma ent_update : forall n N (t : list chan) c a, rect n N t -> (c < n)%nat ->
  rect n N (firstn c t ++ map (fun x => x + a) (nth c t []) :: skipn (S c) t) /\
  forall d p, (d < n)%nat -> (p < N)%nat -> ent (firstn c t ++ map (fun x => x + a) (nth c t []) :: skipn (S c) t) d p = ent t d p + (if Nat.eqb d c then a else 0).
Proof.
  intros n N t c a R Hc. pose proof R as [Lt Ft].
  assert (nth_error (firstn c t ++ map (fun x => x + a) (nth c t []) :: skipn (S c) t) c = Some (map (fun x => x + a) (nth c t []))) as Ec.
  { rewrite nth_error_app2 by (rewrite firstn_length; lia). rewrite firstn_length. replace (c - Nat.min c (length t))%nat with 0%nat by lia. reflexivity. }
  assert (t = firstn c t ++ nth c t [] :: skipn (S c) t) as Et.
  { transitivity (firstn c t ++ skipn c t); [symmetry; apply firstn_skipn|]. f_equal. clear Ec Ft. assert (c < length t)%nat as H by lia. clear - H. revert c H. induction t as [|x t IH]; intros c H; cbn in H; [lia|].
    destruct c as [|c]; [reflexivity|]. cbn [skipn nth]. apply IH. lia. }
  split.
  - split; [rewrite app_length; cbn [length]; rewrite firstn_length, skipn_length; lia|]. apply Forall_app. rewrite Et in Ft. apply Forall_app in Ft. destruct Ft as [F1 F2].
    apply Forall_cons_iff in F2. destruct F2 as [F2 F3]. split; [exact F1|]. constructor; [rewrite map_length; exact F2|exact F3].
  - intros d p Hd Hp. unfold ent. destruct (Nat.eqb_spec d c) as [->|Nd].
    + rewrite (nth_error_nth _ c [] Ec). rewrite (nth_indep _ 0 (0 + a)) by (rewrite map_length, (rect_chan n N t c R Hc); exact Hp). rewrite (map_nth (fun x => x + a)). reflexivity.
    + rewrite Rplus_0_r. f_equal. transitivity (nth d (firstn c t ++ nth c t [] :: skipn (S c) t) []); [|rewrite <- Et; reflexivity]. destruct (Nat.lt_ge_cases d c) as [K|K].
      * rewrite !app_nth1 by (rewrite firstn_length; lia). reflexivity.
      * rewrite !app_nth2 by (rewrite firstn_length; lia). rewrite firstn_length. replace (d - Nat.min c (length t))%nat with (S (d - S c)) by lia. reflexivity.
Qed.
Lemma gn_shift_ent : forall idx b n N t, rect n N t -> Forall (fun c => (c < n)%nat) idx -> length b = length idx -> rect n N (gn_shift idx b t) /\
  forall d p, (d < n)%nat -> (p < N)%nat -> ent (gn_shift idx b t) d p = ent t d p + sumn (length idx) (fun k => mid d (nth k idx 0%nat) * nth k b 0).
Proof.
  induction idx as [|c idx IH]; intros b n N t R F Lb; destruct b as [|a b]; try discriminate; cbn [gn_shift].
  - split; [exact R|]. intros; cbn; ring.
  - apply Forall_cons_iff in F. destruct F as [Hc F]. destruct (ent_update n N t c a R Hc) as [R1 K1]. destruct (IH b n N _ R1 F ltac:(cbn in Lb; lia)) as [R2 K2]. split; [exact R2|].
    intros d p Hd Hp. rewrite K2, K1 by assumption. cbn [length]. rewrite sumn_S_first. cbn [nth]. unfold mid at 2. destruct (Nat.eqb d c); ring.
Qed.
Lemma shift_triv : forall l b n N t, irreps_ok l n -> rect n N t -> length b = length (trivials 0 l) -> rect n N (gn_shift (trivials 0 l) b t) /\
  forall d p, (d < n)%nat -> (p < N)%nat -> ent (gn_shift (trivials 0 l) b t) d p = ent t d p + along l mid n b d.
Proof.
  intros l b n N t I R Lb. rewrite (trivials_filter l n I) in *. apply gn_shift_ent; [exact R| |exact Lb]. apply Forall_forall. intros c Hc. apply (trivial_in l n c I) in Hc. apply (triv_bound l n c I Hc).
Qed.
Lemma along_out : forall l b n t, irreps_ok l n -> triv l t = false -> along l mid n b t = 0.
Proof.
  intros l b n t I H. unfold along. apply sumn_0. intros k Hk. unfold mid. destruct (Nat.eqb_spec t (nth k (trivial_channels l n) 0%nat)) as [E|E]; [|ring].
  exfalso. assert (In t (trivial_channels l n)) as K by (rewrite E; apply nth_In; exact Hk). apply (trivial_in l n t I) in K. congruence.
Qed.
Lemma channels_nodup : forall l n, NoDup (trivial_channels l n).
Proof. intros l n. apply NoDup_filter, seq_NoDup. Qed.
Lemma along_in : forall l b n k, irreps_ok l n -> (k < length (trivial_channels l n))%nat -> along l mid n b (nth k (trivial_channels l n) 0%nat) = nth k b 0.
Proof.
  intros l b n k I Hk. unfold along. rewrite (sumn_single _ k); [|exact Hk|].
  - unfold mid. rewrite Nat.eqb_refl. ring.
  - intros j Hj Nj. unfold mid. destruct (Nat.eqb_spec (nth k (trivial_channels l n) 0%nat) (nth j (trivial_channels l n) 0%nat)) as [E|E]; [|ring].
    exfalso. apply Nj. symmetry. apply (proj1 (NoDup_nth (trivial_channels l n) 0%nat) (channels_nodup l n) k j Hk Hj E).
Qed.
Lemma along_opp : forall l b n t, along l mid n (map (fun a => -1 * a) b) t = - along l mid n b t.
Proof.
  intros l b n t. unfold along. rewrite <- sumn_opp. apply sumn_ext. intros k _. replace (nth k (map (fun a => -1 * a) b) 0) with (-1 * nth k b 0); [ring|].
  rewrite <- (map_nth (fun a => -1 * a)). rewrite Rmult_0_r. reflexivity.
Qed.

(** *** scaling the irreps *)
Lemma scale_irreps : forall i l n N k t, irreps_ok l n -> gi_size i = n -> gi_irreps i = map fst l -> rect n N t -> length k = length l -> rect n N (gn_scale i k t) /\
  forall d p, (d < n)%nat -> (p < N)%nat -> ent (gn_scale i k t) d p = ent t d p * nth (irrep_of l d) k 0.
Proof.
  intros i l n N k t I En El R Lk. unfold gn_scale. rewrite En, El. destruct (mul_rect n N (lin n (length (map fst l)) (propagator (map fst l)) k) t (lin_length _ _ _ _) R) as [R1 K1]. split; [exact R1|].
  intros d p Hd Hp. rewrite K1 by assumption. f_equal. rewrite lin_nth by exact Hd. rewrite map_length. rewrite (sumn_single _ (irrep_of l d)).
  - rewrite (propagator_ok l n d _ I Hd), Nat.eqb_refl. ring.
  - apply (irrep_bound l n d I Hd).
  - intros o _ No. rewrite (propagator_ok l n d _ I Hd). destruct (Nat.eqb_spec (irrep_of l d) o); [congruence|ring].
Qed.

(** *** statistics *)
Lemma clamp_pos : forall a, 0 <= a -> clamp a = a.
Proof. intros a H. unfold clamp. destruct (Rlt_dec a 0); [lra|reflexivity]. Qed.
Lemma clamp_nonneg : forall a, 0 <= clamp a.
Proof. intros a. unfold clamp. destruct (Rlt_dec a 0); lra. Qed.
Lemma clamp_max : forall a, clamp a = Rmax 0 a.
Proof. intros a. unfold clamp, Rmax. destruct (Rlt_dec a 0); destruct (Rle_dec 0 a); lra. Qed.
Lemma centred_square : forall N (f : nat -> R), (0 < N)%nat -> sumn N (fun p => (f p - sumn N f / INR N) * (f p - sumn N f / INR N)) / INR N = sumn N (fun p => f p * f p) / INR N - (sumn N f / INR N) * (sumn N f / INR N).
Proof.
  intros N f H. assert (INR N <> 0) as HN by (apply not_0_INR; lia). set (mu := sumn N f / INR N).
  rewrite (sumn_ext N _ (fun p => f p * f p - (f p * (2 * mu) - mu * mu))) by (intros; ring). rewrite sumn_minus, sumn_minus, sumn_scal_r, sumn_const.
  assert (sumn N f = mu * INR N) as E by (unfold mu; field; exact HN). rewrite E. field. exact HN.
Qed.
Lemma correction_ok : forall N a, (0 < N)%nat -> a / INR N * correction N = a / INR (Nat.max 1 (N - 1)).
Proof.
  intros N a H. unfold correction. destruct (Nat.ltb_spec 1 N) as [K|K].
  - replace (Nat.max 1 (N - 1)) with (N - 1)%nat by lia. field. split; apply not_0_INR; lia.
  - replace N with 1%nat by lia. cbn. lra.
Qed.
Section Stats.
Variable l : list (nat * bool).
Variable n N : nat.
Hypothesis I : irreps_ok l n.
Hypothesis HN : (0 < N)%nat.
Variable i : gn_info.
Hypothesis En : gi_size i = n.
Hypothesis El : gi_irreps i = map fst l.
Hypothesis Et : gi_trivials i = trivials 0 l.
Variable v : list chan.
Hypothesis R : rect n N v.
Lemma gn_means_nth : forall k, (k < length (trivial_channels l n))%nat -> nth k (gn_means i v) 0 = sumn N (ent v (nth k (trivial_channels l n) 0%nat)) / INR N.
Proof.
  intros k Hk. unfold gn_means. rewrite Et, (trivials_filter l n I). rewrite (nth_indep _ 0 (mean (nth 0%nat v []))) by (rewrite map_length; exact Hk).
  rewrite (map_nth (fun c => mean (nth c v []))). rewrite (mean_avg n N v _ R); [reflexivity|]. apply (triv_bound l n _ I). apply (trivial_in l n _ I). apply nth_In. exact Hk.
Qed.
Lemma gn_means_length : length (gn_means i v) = length (trivials 0 l).
Proof. unfold gn_means. rewrite map_length, Et. reflexivity. Qed.
Lemma along_means : forall t, (t < n)%nat -> along l mid n (gn_means i v) t = centre l N (ent v) t.
Proof.
  intros t Ht. unfold centre. destruct (triv l t) eqn:E; [|apply along_out; assumption]. apply (trivial_in l n t I) in E. apply In_nth with (d := 0%nat) in E. destruct E as (k & Hk & <-).
  rewrite along_in by assumption. apply gn_means_nth, Hk.
Qed.
Lemma channel_var_ok : forall c, (c < n)%nat -> gn_channel_var i v c = sumn N (fun p => (ent v c p - centre l N (ent v) c) * (ent v c p - centre l N (ent v) c)) / INR N.
Proof.
  intros c Hc. unfold gn_channel_var, centre. rewrite Et, (trivials_filter l n I), (existsb_triv l n c I).
  assert (mean (map square (nth c v [])) = sumn N (fun p => ent v c p * ent v c p) / INR N) as Es.
  { unfold mean. rewrite map_length, (rect_chan n N v c R Hc). rewrite (rsum_list square 0), (rect_chan n N v c R Hc). reflexivity. }
  rewrite Es, (mean_avg n N v c R Hc). destruct (triv l c).
  - unfold square, avg. change (fun p : nat => ent v c p) with (ent v c). rewrite <- (centred_square N (ent v c) HN). apply clamp_pos. apply Rmult_le_pos; [apply sumn_nonneg; intros; apply Rle_0_sqr|].
    left. apply Rinv_0_lt_compat, lt_0_INR. lia.
  - rewrite (sumn_ext N (fun p => (ent v c p - 0) * (ent v c p - 0)) (fun p => ent v c p * ent v c p)) by (intros; ring). apply clamp_pos. apply Rmult_le_pos; [apply sumn_nonneg; intros; apply Rle_0_sqr|].
    left. apply Rinv_0_lt_compat, lt_0_INR. lia.
Qed.
Lemma gn_vars_length : length (gn_vars i N v) = length l.
Proof. unfold gn_vars. rewrite map_length, seq_length, El, map_length. reflexivity. Qed.
Lemma gn_vars_nth : forall o, (o < length l)%nat -> nth o (gn_vars i N v) 0 = irrep_variance l n N (ent v) o /\ 0 <= irrep_variance l n N (ent v) o.
Proof.
  intros o Ho. pose proof (irrep_size_pos l n o I Ho) as Hs. assert (0 < INR (irrep_size l o)) as Hs' by (apply lt_0_INR; exact Hs).
  assert (0 <= irrep_variance l n N (ent v) o) as Hp.
  { unfold irrep_variance. apply Rmult_le_pos.
    - apply sumn_nonneg. intros t _. destruct (Nat.eqb _ _); [|lra]. apply sumn_nonneg. intros; apply Rle_0_sqr.
    - left. apply Rinv_0_lt_compat. apply Rmult_lt_0_compat; [exact Hs'|]. apply lt_0_INR. lia. }
  split; [|exact Hp]. unfold gn_vars. rewrite nth_seq_map by (rewrite El, map_length; exact Ho). rewrite rsum_seq, En, El.
  rewrite (sumn_ext n _ (fun c => (if Nat.eqb (irrep_of l c) o then sumn N (fun p => (ent v c p - centre l N (ent v) c) * (ent v c p - centre l N (ent v) c)) else 0) * (/ INR (irrep_size l o) * / INR N))).
  2:{ intros c Hc. rewrite (aggregator_ok l n c o I Hc), (channel_var_ok c Hc). destruct (Nat.eqb _ _); unfold Rdiv; ring. }
  rewrite sumn_scal_r. set (S := sumn n _).
  assert (0 <= S) as HS. { apply sumn_nonneg. intros t _. destruct (Nat.eqb _ _); [|lra]. apply sumn_nonneg. intros; apply Rle_0_sqr. }
  rewrite clamp_pos.
  - replace (S * (/ INR (irrep_size l o) * / INR N)) with ((S / INR (irrep_size l o)) / INR N) by (unfold Rdiv; ring). rewrite (correction_ok N _ HN). unfold irrep_variance. fold S. unfold Rdiv. rewrite Rinv_mult. ring.
  - apply Rmult_le_pos; [exact HS|]. apply Rmult_le_pos; left; apply Rinv_0_lt_compat; [exact Hs'|]. apply lt_0_INR. lia.
Qed.
End Stats.

(** *** transformed fields *)
Section Moved.
Variable l : list (nat * bool).
Variable n N : nat.
Hypothesis I : irreps_ok l n.
Variable D : nat -> mat.
Variable pi : nat -> nat.
Hypothesis Hpi : reorders N pi.
Hypothesis Dorth : forall p, (p < N)%nat -> orthogonal n (D p).
Hypothesis Dblock : forall p i j, (i < n)%nat -> (j < n)%nat -> irrep_of l i <> irrep_of l j -> D p i j = 0.
Hypothesis Dtriv : forall p i, (i < n)%nat -> triv l i = true -> D p i i = 1.
Variable u u' : nat -> nat -> R.
Hypothesis Hu : forall t p, (t < n)%nat -> (p < N)%nat -> u' t p = sumn n (fun s => D p t s * u s (pi p)).
Lemma triv_moved : forall t p, (p < N)%nat -> triv l t = true -> u' t p = u t (pi p).
Proof.
  intros t p Hp Ht. pose proof (triv_bound l n t I Ht) as Bt. rewrite Hu by assumption. rewrite (sumn_single n t); [|exact Bt|].
  - rewrite (Dtriv p t Bt Ht). ring.
  - intros s Hs Ns. rewrite (Dblock p t s Bt Hs); [ring|]. intros E. apply Ns. symmetry. apply (triv_alone l n t s I Ht E).
Qed.
Lemma centre_moved : forall t, centre l N u' t = centre l N u t.
Proof.
  intros t. unfold centre. destruct (triv l t) eqn:E; [|reflexivity]. f_equal. destruct Hpi as [P1 P2]. rewrite <- (sumn_bij N pi (u t) P1 P2). apply sumn_ext. intros p Hp. apply triv_moved; assumption.
Qed.
(** a vector along the trivial irreps is fixed *)
Lemma fixed_D : forall m t p, (t < n)%nat -> (forall s, triv l s = false -> m s = 0) -> sumn n (fun s => D p t s * m s) = m t.
Proof.
  intros m t p Ht Hm. rewrite (sumn_single n t); [|exact Ht|].
  - destruct (triv l t) eqn:E; [rewrite (Dtriv p t Ht E); ring|]. rewrite (Hm t E). ring.
  - intros s Hs Ns. destruct (triv l s) eqn:E; [|rewrite (Hm s E); ring]. rewrite (Dblock p t s Ht Hs); [ring|]. intros K. apply Ns. apply (triv_alone l n s t I E). symmetry; exact K.
Qed.
Lemma centred_moved : forall m t p, (t < n)%nat -> (p < N)%nat -> (forall s, triv l s = false -> m s = 0) -> u' t p - m t = sumn n (fun s => D p t s * (u s (pi p) - m s)).
Proof.
  intros m t p Ht Hp Hm. rewrite Hu by assumption. rewrite <- (fixed_D m t p Ht Hm) at 1. rewrite <- sumn_minus. apply sumn_ext. intros; ring.
Qed.
Lemma irrep_variance_moved : forall o, irrep_variance l n N u' o = irrep_variance l n N u o.
Proof.
  intros o. unfold irrep_variance. f_equal. destruct Hpi as [P1 P2].
  assert (forall w, sumn n (fun t => if Nat.eqb (irrep_of l t) o then sumn N (fun p => (w t p - centre l N u t) * (w t p - centre l N u t)) else 0) =
    sumn N (fun p => sumn n (fun t => (if Nat.eqb (irrep_of l t) o then w t p - centre l N u t else 0) * (if Nat.eqb (irrep_of l t) o then w t p - centre l N u t else 0)))) as K.
  { intros w. rewrite sumn_swap. apply sumn_ext. intros t _. destruct (Nat.eqb _ _); [reflexivity|]. symmetry. apply sumn_0. intros; ring. }
  rewrite (sumn_ext n _ (fun t => if Nat.eqb (irrep_of l t) o then sumn N (fun p => (u' t p - centre l N u t) * (u' t p - centre l N u t)) else 0)) by (intros t _; rewrite centre_moved; reflexivity).
  rewrite (K u'), (K u). rewrite <- (sumn_bij N pi (fun p => sumn n (fun t => (if Nat.eqb (irrep_of l t) o then u t p - centre l N u t else 0) * (if Nat.eqb (irrep_of l t) o then u t p - centre l N u t else 0))) P1 P2). apply sumn_ext. intros p Hp.
  rewrite <- (sumn_sq_orth n (D p) (fun t => if Nat.eqb (irrep_of l t) o then u t (pi p) - centre l N u t else 0) (Dorth p Hp)). apply sumn_ext. intros t Ht.
  assert ((if Nat.eqb (irrep_of l t) o then u' t p - centre l N u t else 0) = sumn n (fun s => D p t s * (if Nat.eqb (irrep_of l s) o then u s (pi p) - centre l N u s else 0))) as ->; [|reflexivity].
  destruct (Nat.eqb_spec (irrep_of l t) o) as [E|E].
  - rewrite (centred_moved (centre l N u) t p Ht Hp) by (intros s Hs; unfold centre; rewrite Hs; reflexivity). apply sumn_ext. intros s Hs. destruct (Nat.eqb_spec (irrep_of l s) o) as [E'|E']; [reflexivity|].
    rewrite (Dblock p t s Ht Hs); [ring|congruence].
  - symmetry. apply sumn_0. intros s Hs. destruct (Nat.eqb_spec (irrep_of l s) o) as [E'|E']; [|ring]. rewrite (Dblock p t s Ht Hs); [ring|congruence].
Qed.
(** normalised by numbers for the irreps *)
Lemma normal_moved : forall m b k t p, (t < n)%nat -> (p < N)%nat -> (forall s, triv l s = false -> m s = 0) -> (forall s, triv l s = false -> b s = 0) ->
  (u' t p - m t) * k (irrep_of l t) + b t = sumn n (fun s => D p t s * ((u s (pi p) - m s) * k (irrep_of l s) + b s)).
Proof.
  intros m b k t p Ht Hp Hm Hb. rewrite (centred_moved m t p Ht Hp Hm). rewrite <- (fixed_D b t p Ht Hb) at 1. rewrite <- sumn_scal_r, <- sumn_plus. apply sumn_ext. intros s Hs.
  destruct (Nat.eq_dec (irrep_of l t) (irrep_of l s)) as [E|E]; [rewrite E; ring|]. rewrite (Dblock p t s Ht Hs E). ring.
Qed.
End Moved.
