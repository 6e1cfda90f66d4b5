(** GNormBatchNorm: its loops. *)
From Coq Require Import Reals List ZArith Arith Bool Lia Lra Permutation.
From Verif Require Import LibRes LibPy LibMat LibMatS RepModel RepProofs SpecRepr FieldModel SpecField FieldProofs BranchProofs LabelThms MergeThms GroupedModel GroupedProofs NonlinModel SpecNonlin NonlinProofs PoolModel ImageModel BatchNormModel SpecBatch BatchNormProofs BatchThms NormBNThms FNormModel SpecFNorm KeyedProofs FNormProofs NamedProofs IIDThms GNormProofs.
Import ListNotations.
Open Scope R_scope.

Definition rows (n k : nat) (l : list (list R)) : Prop := length l = n /\ Forall (fun row => length row = k) l.
Definition nonneg (l : list (list R)) : Prop := Forall (Forall (fun a => 0 <= a)) l.
Lemma rows_repeat : forall n k a, rows n k (repeat (repeat a k) n).
Proof. intros n k a. split; [apply repeat_length|]. apply Forall_forall. intros row H. apply repeat_spec in H. subst row. apply repeat_length. Qed.
Lemma rows_map : forall n k f l, rows n k l -> rows n k (map (map f) l).
Proof. intros n k f l [L F]. split; [rewrite map_length; exact L|]. apply Forall_forall. intros row H. apply in_map_iff in H. destruct H as (a & <- & Ha). rewrite map_length. rewrite Forall_forall in F. apply F, Ha. Qed.
Lemma rows_nth : forall n k l j, rows n k l -> (j < n)%nat -> length (nth j l []) = k.
Proof. intros n k l j [L F] H. rewrite Forall_forall in F. apply F, nth_In. lia. Qed.
Lemma rows_same : forall n k a b, rows n k a -> rows n k b -> same_rows a b = true.
Proof.
  intros n k a b [La Fa] [Lb Fb]. unfold same_rows. apply andb_true_intro. split; [apply Nat.eqb_eq; congruence|]. apply forallb_forall. intros [u w] H. cbn [fst snd]. apply Nat.eqb_eq.
  rewrite Forall_forall in Fa, Fb. rewrite (Fa u), (Fb w); [reflexivity|apply in_combine_r in H; exact H|apply in_combine_l in H; exact H].
Qed.
Lemma same_rows_rows : forall n k a b, same_rows a b = true -> rows n k a -> rows n k b.
Proof. intros n k a b H [L F]. destruct (same_rows_ok a b k H F) as [L' F']. split; [congruence|exact F']. Qed.
Lemma blends_rows : forall n k f a b, rows n k a -> rows n k b -> rows n k (blends f a b) /\ forall j o, (j < n)%nat -> (o < k)%nat -> nth o (nth j (blends f a b) []) 0 = towards f (nth o (nth j a []) 0) (nth o (nth j b []) 0).
Proof.
  intros n k f a b Ra Rb. pose proof Ra as [La Fa]. pose proof Rb as [Lb Fb].
  assert (forall j, (j < n)%nat -> nth j (blends f a b) [] = blend f (nth j a []) (nth j b [])) as K.
  { intros j Hj. unfold blends. match goal with |- nth j (map ?H ?l) [] = _ => rewrite (nth_indep (map H l) [] (H ([], []))) by (rewrite map_length, combine_length; lia); rewrite (map_nth H) end.
    rewrite combine_nth by lia. reflexivity. }
  split.
  - split; [unfold blends; rewrite map_length, combine_length; lia|]. apply Forall_forall. intros row H. apply In_nth with (d := []) in H. destruct H as (j & Hj & <-).
    unfold blends in Hj. rewrite map_length, combine_length in Hj. rewrite K by lia. rewrite blend_length; rewrite ?(rows_nth n k a j Ra), ?(rows_nth n k b j Rb) by lia; reflexivity.
  - intros j o Hj Ho. rewrite K by exact Hj. apply blend_nth; rewrite ?(rows_nth n k a j Ra Hj), ?(rows_nth n k b j Rb Hj); [reflexivity|exact Ho].
Qed.
Lemma rows_ext : forall n k a b, rows n k a -> rows n k b -> (forall j o, (j < n)%nat -> (o < k)%nat -> nth o (nth j a []) 0 = nth o (nth j b []) 0) -> a = b.
Proof.
  intros n k a b Ra Rb H. pose proof Ra as [La _]. pose proof Rb as [Lb _]. apply (nth_ext a b [] []); [congruence|]. intros j Hj.
  apply (nth_ext (nth j a []) (nth j b []) 0 0); [rewrite (rows_nth n k a j Ra), (rows_nth n k b j Rb) by lia; reflexivity|].
  intros o Ho. rewrite (rows_nth n k a j Ra) in Ho by lia. apply H; [lia|exact Ho].
Qed.
Lemma nonneg_nth : forall n k l, rows n k l -> (nonneg l <-> forall j o, (j < n)%nat -> (o < k)%nat -> 0 <= nth o (nth j l []) 0).
Proof.
  intros n k l Rl. pose proof Rl as [L F]. unfold nonneg. split.
  - intros H j o Hj Ho. rewrite Forall_forall in H. assert (In (nth j l []) l) as Hin by (apply nth_In; lia). specialize (H _ Hin). rewrite Forall_forall in H. apply H, nth_In. rewrite (rows_nth n k l j Rl Hj). exact Ho.
  - intros H. apply Forall_forall. intros row Hrow. apply In_nth with (d := []) in Hrow. destruct Hrow as (j & Hj & <-). apply Forall_forall. intros a Ha. apply In_nth with (d := 0) in Ha. destruct Ha as (o & Ho & <-).
    apply H; [lia|]. rewrite <- (rows_nth n k l j Rl) by lia. exact Ho.
Qed.
Lemma clamp_rows : forall l, nonneg l -> map (map clamp) l = l.
Proof.
  intros l H. rewrite <- (map_id l) at 2. apply map_ext_in. intros row Hrow. unfold nonneg in H. rewrite Forall_forall in H. specialize (H row Hrow). rewrite <- (map_id row) at 2. apply map_ext_in. intros a Ha.
  rewrite Forall_forall in H. apply clamp_pos, H, Ha.
Qed.
Lemma clamp_nonneg_rows : forall l, nonneg (map (map clamp) l).
Proof.
  intros l. unfold nonneg. apply Forall_forall. intros row H. apply in_map_iff in H. destruct H as (a & <- & _). apply Forall_forall. intros b Hb. apply in_map_iff in Hb. destruct Hb as (c & <- & _). apply clamp_nonneg.
Qed.
Lemma nth_map_map : forall (f : R -> R) l j o, f 0 = 0 -> nth o (nth j (map (map f) l) []) 0 = f (nth o (nth j l []) 0).
Proof.
  intros f l j o H. change (@nil R) with (map f []) at 1. rewrite (map_nth (map f)). rewrite <- H at 1. rewrite (map_nth f). reflexivity.
Qed.
Lemma clamp_0 : clamp 0 = 0.
Proof. apply clamp_pos. lra. Qed.

Section GN.
Context {A L : Type}.
Variable size : A -> nat.
Variable name : A -> L.
Variable irreps : A -> list (nat * bool).
Variable cob inv : A -> mat.
Variable leqb : L -> L -> bool.
Hypothesis leqb_ok : forall a b, leqb a b = true <-> a = b.
Variable teqb : list A -> list A -> bool.
Variable ft uniq : list A.
Hypothesis Pos : Forall (fun r => (0 < size r)%nat) ft.
Hypothesis Lu : listing ft uniq.
Hypothesis Na : named_apart name ft.
Hypothesis Iok : forall r, In r ft -> irreps_ok (irreps r) (size r).
Hypothesis Inv : forall r, In r ft -> inverse_of (size r) (cob r) (inv r).
Hypothesis Sh : forall r, In r ft -> sharp (size r) (cob r).
Hypothesis Teq : teqb ft ft = true.
Variable affine track : bool.
Variable eps : R.
Variable mom : option R.
Variable m : gn_module (A := A) (L := L).
Variable st0 : gn_full (L := L).
Hypothesis Em : mk_gn size name irreps cob inv leqb affine track eps mom ft uniq = Ret (m, st0).
Notation lab := (labelled leqb (map name ft)).
Notation fields x s := (map (field_chans size ft x) (lab s)).
Notation info := (gn_info_of size irreps cob inv).
Notation ntriv r := (length (trivials 0 (irreps r))).
Notation nlab r := (length (lab (name r))).

Definition calm : Prop := match mom with Some f => 0 <= f <= 1 | None => True end.
Definition fits_group (r : A) (g : gn_state) : Prop :=
  rows (nlab r) (ntriv r) (gs_mean g) /\ rows (nlab r) (length (irreps r)) (gs_var g) /\ (calm -> nonneg (gs_var g)) /\
  match gs_weight g with Some w => affine = true /\ rows (nlab r) (length (irreps r)) w | None => affine = false end /\
  match gs_bias g with Some b => affine = true /\ rows (nlab r) (ntriv r) b | None => affine = false end.
Definition fits (st : gn_full) : Prop := forall r, In r ft -> exists g, dget leqb (gs_groups st) (name r) = Some g /\ fits_group r g.

Lemma start_fits : forall r, fits_group r (gn_start affine (nlab r) (info r)).
Proof.
  intros r. unfold fits_group, gn_start. cbn [gs_mean gs_var gs_weight gs_bias gn_info_of gi_irreps gi_trivials]. rewrite map_length. split; [apply rows_repeat|]. split; [apply rows_repeat|]. split.
  - intros _. unfold nonneg. apply Forall_forall. intros row H. apply repeat_spec in H. subst row. apply Forall_forall. intros a H. apply repeat_spec in H. subst a. lra.
  - clear Em. destruct affine; repeat split; try apply repeat_length; apply rows_repeat.
Qed.
Lemma mk_ok : exists b, buffers size leqb ft (map name ft) = Ret b /\ gm_type m = ft /\ gm_bufs m = b /\ gm_sizes m = map (fun r => (name r, size r)) uniq /\
  (forall r, In r ft -> lookup leqb (gm_info m) (name r) = Ret (info r)) /\ gm_affine m = affine /\ gm_track m = track /\ gm_eps m = eps /\ gm_momentum m = mom /\
  fits st0 /\ gs_count st0 = 0%nat /\ (forall r, In r ft -> dget leqb (gs_groups st0) (name r) = Some (gn_start affine (nlab r) (info r))).
Proof.
  unfold mk_gn in Em. pose proof Em as E. apply bind_Ret in E. destruct E as (b & Eb & E). apply Ret_inj in E. injection E as <- <-.
  exists b. split; [exact Eb|]. cbn [gm_type gm_bufs gm_sizes gm_info gm_affine gm_track gm_eps gm_momentum gs_count].
  assert (forall r, In r ft -> dget leqb (gs_groups {| gs_groups := fold_left (fun d r => dset leqb d (name r) (gn_start affine (nfields leqb (map name ft) (name r)) (info r))) uniq []; gs_count := 0 |}) (name r) = Some (gn_start affine (nlab r) (info r))) as K.
  { intros r Hr. cbn [gs_groups]. rewrite (named_get name leqb leqb_ok ft uniq Lu Na (fun r => gn_start affine (nfields leqb (map name ft) (name r)) (info r)) [] r Hr). rewrite nfields_labelled. reflexivity. }
  do 3 (split; [reflexivity|]). split; [intros r Hr; unfold lookup; rewrite (named_get name leqb leqb_ok ft uniq Lu Na info [] r Hr); reflexivity|].
  do 4 (split; [reflexivity|]). split; [|split; [reflexivity|exact K]]. intros r Hr. eexists. split; [apply K, Hr|]. apply start_fits.
Qed.

(** coordinates of fields *)
Definition out_cob (r : A) : option mat := option_map fst (gi_cob (info r)).
Definition in_cob (r : A) : option mat := option_map snd (gi_cob (info r)).
Definition coords (r : A) (N : nat) (v : list chan) : list chan := base (in_cob r) (size r) N v.
Lemma inv_id : forall r, In r ft -> meq (size r) (size r) (cob r) mid -> meq (size r) (size r) (inv r) mid.
Proof.
  intros r Hr H. destruct (Inv r Hr) as [_ K]. intros i j Hi Hj. rewrite <- (K i j Hi Hj). unfold mmul. rewrite (sumn_single _ j); [|exact Hj|].
  - rewrite (H j j Hj Hj). unfold mid. rewrite Nat.eqb_refl. ring.
  - intros d Hd Nd. rewrite (H d j Hd Hj). unfold mid. destruct (Nat.eqb_spec d j); [contradiction|ring].
Qed.
Lemma cob_cases : forall r, In r ft -> (out_cob r = Some (cob r) /\ in_cob r = Some (inv r) \/ out_cob r = None /\ in_cob r = None /\ meq (size r) (size r) (cob r) mid).
Proof.
  intros r Hr. unfold out_cob, in_cob. cbn [gn_info_of gi_cob]. destruct (Sh r Hr) as [H|H].
  - right. rewrite (allclose_meq _ _ _ _ H). auto.
  - left. rewrite H. auto.
Qed.
Lemma coords_ent : forall r N v, In r ft -> rect (size r) N v -> rect (size r) N (coords r N v) /\
  forall t p, (t < size r)%nat -> (p < N)%nat -> ent (coords r N v) t p = coord (inv r) (size r) v t p.
Proof.
  intros r N v Hr R. unfold coords. apply (base_ent (in_cob r) (inv r) (size r) N v R). destruct (cob_cases r Hr) as [[_ E]|(_ & E & H)]; [left; exact E|right; split; [exact E|apply inv_id; assumption]].
Qed.
Lemma back_ent : forall r N v, In r ft -> rect (size r) N v -> rect (size r) N (base (out_cob r) (size r) N v) /\
  forall c p, (c < size r)%nat -> (p < N)%nat -> ent (base (out_cob r) (size r) N v) c p = sumn (size r) (fun t => cob r c t * ent v t p).
Proof.
  intros r N v Hr R. apply (base_ent (out_cob r) (cob r) (size r) N v R). destruct (cob_cases r Hr) as [[E _]|(E & _ & H)]; [left; exact E|right; split; [exact E|exact H]].
Qed.

(** one field *)
Definition weight_at (g : gn_state) (j o : nat) : R := match gs_weight g with Some w => nth o (nth j w []) 0 | None => 1 end.
Definition bias_at (r : A) (g : gn_state) (j t : nat) : R := match gs_bias g with Some b => along (irreps r) mid (size r) (nth j b []) t | None => 0 end.
Definition gfield (r : A) (N : nat) (g : gn_state) (means vars : list (list R)) (j : nat) (v : list chan) : list chan :=
  let vs := nth j vars [] in
  let scales := match gs_weight g with
                | Some w => map (fun p => fst p / sqrt (snd p + gm_eps m)) (List.combine (nth j w []) vs)
                | None => map (fun a => 1 / sqrt (a + gm_eps m)) vs
                end in
  let centered := gn_shift (gi_trivials (info r)) (map (fun a => -1 * a) (nth j means [])) v in
  let normalized := gn_scale (info r) scales centered in
  let normalized := match gs_bias g with Some b => gn_shift (gi_trivials (info r)) (nth j b []) normalized | None => normalized end in
  base (out_cob r) (size r) N normalized.
Lemma gfield_ok : forall spatial r N g means vars j v, In r ft -> (spatial = 2%nat \/ meq (size r) (size r) (cob r) mid) ->
  gn_field m spatial N (info r) g means vars j v = Ret (gfield r N g means vars j v).
Proof.
  intros spatial r N g means vars j v Hr H. unfold gn_field. fold (out_cob r). rewrite gn_basis_ok; [reflexivity|]. destruct H as [H|H]; [left; exact H|right].
  unfold out_cob. cbn [gn_info_of gi_cob]. rewrite (allclose_meq _ _ _ _ H). reflexivity.
Qed.
Lemma gfield_ent : forall r N g means vars j v, In r ft -> fits_group r g -> (j < nlab r)%nat -> rect (size r) N v -> length (nth j means []) = ntriv r -> length (nth j vars []) = length (irreps r) ->
  rect (size r) N (gfield r N g means vars j v) /\
  forall c p, (c < size r)%nat -> (p < N)%nat -> ent (gfield r N g means vars j v) c p = sumn (size r) (fun t => cob r c t *
    ((ent v t p - along (irreps r) mid (size r) (nth j means []) t) * (weight_at g j (irrep_of (irreps r) t) / sqrt (nth (irrep_of (irreps r) t) (nth j vars []) 0 + gm_eps m)) + bias_at r g j t)).
Proof.
  intros r N g means vars j v Hr (_ & _ & _ & Fw & Fb) Hj R Lm Lv. unfold gfield. set (scales := match gs_weight g with Some w => _ | None => _ end). cbn zeta.
  assert (length scales = length (irreps r) /\ forall o, (o < length (irreps r))%nat -> nth o scales 0 = weight_at g j o / sqrt (nth o (nth j vars []) 0 + gm_eps m)) as [Ls Ks].
  { unfold scales, weight_at. destruct (gs_weight g) as [w|].
    - destruct Fw as [_ Fw]. pose proof (rows_nth _ _ _ j Fw Hj) as Lw. split; [rewrite map_length, combine_length; lia|]. intros o Ho.
      rewrite (nth_combine_map _ _ _ o 0 0) by lia. reflexivity.
    - split; [rewrite map_length; exact Lv|]. intros o Ho. rewrite (nth_indep _ 0 (1 / sqrt (0 + gm_eps m))) by (rewrite map_length; lia). rewrite (map_nth (fun a => 1 / sqrt (a + gm_eps m))). reflexivity. }
  destruct (shift_triv (irreps r) (map (fun a => -1 * a) (nth j means [])) (size r) N v (Iok r Hr) R ltac:(rewrite map_length; exact Lm)) as [R1 K1].
  destruct (scale_irreps (info r) (irreps r) (size r) N scales _ (Iok r Hr) eq_refl eq_refl R1 Ls) as [R2 K2].
  set (nrm := match gs_bias g with Some b => _ | None => _ end).
  assert (rect (size r) N nrm /\ forall t p, (t < size r)%nat -> (p < N)%nat -> ent nrm t p = ent (gn_scale (info r) scales (gn_shift (trivials 0 (irreps r)) (map (fun a => -1 * a) (nth j means [])) v)) t p + bias_at r g j t) as [R3 K3].
  { unfold nrm, bias_at. destruct (gs_bias g) as [b|].
    - destruct Fb as [_ Fb]. apply (shift_triv (irreps r) (nth j b []) (size r) N _ (Iok r Hr) R2). apply (rows_nth _ _ _ j Fb Hj).
    - split; [exact R2|]. intros. symmetry. apply Rplus_0_r. }
  destruct (back_ent r N nrm Hr R3) as [R4 K4]. split; [exact R4|]. intros c p Hc Hp. rewrite K4 by assumption. apply sumn_ext. intros t Ht. f_equal. rewrite K3, K2, K1 by assumption. rewrite along_opp.
  rewrite Ks by (apply (irrep_bound (irreps r) (size r) t (Iok r Hr) Ht)). ring.
Qed.

(** one group *)
Definition new_means (N : nat) (x : list chan) (r : A) : list (list R) := map (fun v => gn_means (info r) (coords r N v)) (fields x (name r)).
Definition new_vars (N : nat) (x : list chan) (r : A) : list (list R) := map (fun v => gn_vars (info r) N (coords r N v)) (fields x (name r)).
Definition means_used (t : bool) (N : nat) (g : gn_state) (x : list chan) (r : A) : list (list R) := if t || negb track then new_means N x r else gs_mean g.
Definition vars_used (t : bool) (N : nat) (g : gn_state) (x : list chan) (r : A) : list (list R) := map (map clamp) (if t || negb track then new_vars N x r else gs_var g).
Definition next (t : bool) (f : R) (N : nat) (g : gn_state) (x : list chan) (r : A) : gn_state :=
  if track then
    if t then {| gs_mean := blends f (gs_mean g) (new_means N x r); gs_var := blends f (gs_var g) (new_vars N x r); gs_weight := gs_weight g; gs_bias := gs_bias g |}
    else {| gs_mean := gs_mean g; gs_var := map (map clamp) (gs_var g); gs_weight := gs_weight g; gs_bias := gs_bias g |}
  else g.
Definition written (t : bool) (f : R) (N : nat) (g : gn_state) (x : list chan) (r : A) : list (list chan) :=
  mapi (gfield r N (next t f N g x r) (means_used t N g x r) (vars_used t N g x r)) 0 (map (coords r N) (fields x (name r))).
Lemma new_means_rows : forall N x r, rows (nlab r) (ntriv r) (new_means N x r).
Proof.
  intros N x r. split; [unfold new_means; rewrite !map_length; reflexivity|]. apply Forall_forall. intros row H. unfold new_means in H. apply in_map_iff in H. destruct H as (v & <- & _).
  unfold gn_means. rewrite map_length. reflexivity.
Qed.
Lemma new_vars_rows : forall N x r, rows (nlab r) (length (irreps r)) (new_vars N x r).
Proof.
  intros N x r. split; [unfold new_vars; rewrite !map_length; reflexivity|]. apply Forall_forall. intros row H. unfold new_vars in H. apply in_map_iff in H. destruct H as (v & <- & _).
  unfold gn_vars. rewrite map_length, seq_length. cbn [gn_info_of gi_irreps]. apply map_length.
Qed.
Lemma means_rows : forall t N g x r, fits_group r g -> rows (nlab r) (ntriv r) (means_used t N g x r).
Proof. intros t N g x r F. unfold means_used. destruct (t || negb track); [apply new_means_rows|apply F]. Qed.
Lemma vars_rows : forall t N g x r, fits_group r g -> rows (nlab r) (length (irreps r)) (vars_used t N g x r).
Proof. intros t N g x r F. unfold vars_used. apply rows_map. destruct (t || negb track); [apply new_vars_rows|apply F]. Qed.
Lemma mapiM_ok : forall {X Y} (f : nat -> X -> res Y) (h : nat -> X -> Y) l k, (forall j v, f j v = Ret (h j v)) -> mapiM f k l = Ret (mapi h k l).
Proof. intros X Y f h l. induction l as [|v l IH]; intros k H; cbn [mapiM mapi]; [reflexivity|]. rewrite H. cbn [bind]. rewrite IH by exact H. reflexivity. Qed.
Lemma mapM_pure : forall {X Y} (f : X -> res Y) (h : X -> Y) l, (forall v, f v = Ret (h v)) -> mapM f l = Ret (map h l).
Proof. intros X Y f h l H. induction l as [|v l IH]; cbn [mapM map]; [reflexivity|]. rewrite H. cbn [bind]. rewrite IH. reflexivity. Qed.
Lemma group_ok : forall spatial t f N g x r, In r ft -> (spatial = 2%nat \/ meq (size r) (size r) (cob r) mid) -> fits_group r g ->
  gn_group leqb m t f spatial N (name r) g (fields x (name r)) = Ret (next t f N g x r, written t f N g x r).
Proof.
  intros spatial t f N g x r Hr Hs Fg. destruct mk_ok as (b & _ & _ & _ & _ & Hi & _ & Et & _). unfold gn_group. rewrite (Hi r Hr). cbn [bind].
  assert (spatial = 2%nat \/ in_cob r = None) as Hs'. { destruct Hs as [H|H]; [left; exact H|right]. unfold in_cob. cbn [gn_info_of gi_cob]. rewrite (allclose_meq _ _ _ _ H). reflexivity. }
  fold (in_cob r). rewrite (mapM_pure _ (coords r N)) by (intros v; apply gn_basis_ok; exact Hs'). cbn [bind].
  assert (gn_stats m t f N (info r) g (map (coords r N) (fields x (name r))) = Ret (next t f N g x r, means_used t N g x r, vars_used t N g x r)) as E.
  { unfold gn_stats. rewrite Et. unfold next, means_used, vars_used. rewrite !(map_map (coords r N)). fold (new_means N x r). fold (new_vars N x r). clear Et. revert Fg. generalize track. intros track' Fg. destruct track'; cbn [negb].
    - rewrite orb_false_r. destruct t; [|reflexivity]. destruct Fg as (Fm & Fv & _). rewrite (rows_same _ _ _ _ Fv (new_vars_rows N x r)), (rows_same _ _ _ _ Fm (new_means_rows N x r)). reflexivity.
    - rewrite orb_true_r. reflexivity. }
  rewrite E. cbn [bind]. rewrite (proj1 (means_rows t N g x r Fg)), (proj1 (vars_rows t N g x r Fg)), !map_length, Nat.eqb_refl. cbn [assert_ bind].
  rewrite (mapiM_ok _ (gfield r N (next t f N g x r) (means_used t N g x r) (vars_used t N g x r))) by (intros j v; apply gfield_ok; assumption). reflexivity.
Qed.
Lemma factor_calm : forall n, calm -> 0 <= average_factor mom (S n) <= 1.
Proof.
  clear Em. intros n C. unfold calm in C. unfold average_factor. destruct mom as [f|]; [exact C|]. assert (0 < INR (S n)) as H by (apply lt_0_INR; lia). assert (1 <= INR (S n)) by (change 1 with (INR 1); apply le_INR; lia).
  split; [apply Rmult_le_pos; [lra|left; apply Rinv_0_lt_compat, H]|]. apply Rmult_le_reg_r with (INR (S n)); [exact H|]. unfold Rdiv. rewrite Rmult_assoc, Rinv_l by lra. lra.
Qed.
Lemma lab_at : forall r j, In r ft -> (j < nlab r)%nat -> nth_error ft (nth j (lab (name r)) 0%nat) = Some r /\ named_rank leqb name ft (nth j (lab (name r)) 0%nat) (name r) j.
Proof.
  intros r j Hr Hj. split; [apply (lab_rep name leqb leqb_ok ft Na); [exact Hr|apply nth_In; exact Hj]|]. unfold named_rank. apply nth_error_nth'. exact Hj.
Qed.
Lemma new_vars_nonneg : forall N x r, In r ft -> (0 < N)%nat -> batch size ft N x -> nonneg (new_vars N x r).
Proof.
  intros N x r Hr HN B. apply (nonneg_nth _ _ _ (new_vars_rows N x r)). intros j o Hj Ho. destruct (lab_at r j Hr Hj) as [Ei _].
  unfold new_vars. match goal with |- context [map ?H (fields _ _)] => rewrite (nth_indep (map H (fields x (name r))) [] (H [])) by (rewrite !map_length; exact Hj); rewrite (map_nth H) end.
  rewrite (nth_indep _ [] (field_chans size ft x 0%nat)) by (rewrite map_length; exact Hj). rewrite (map_nth (field_chans size ft x)).
  destruct (coords_ent r N _ Hr (field_rect size ft N x _ r B Ei)) as [Rc _].
  destruct (gn_vars_nth (irreps r) (size r) N (Iok r Hr) HN (info r) eq_refl eq_refl eq_refl _ Rc o Ho) as [-> H]. exact H.
Qed.
Lemma next_fits : forall t n N g x r, In r ft -> (t = true -> 0 < N)%nat -> batch size ft N x -> fits_group r g -> fits_group r (next t (if t then average_factor mom (S n) else 0) N g x r).
Proof.
  intros t n N g x r Hr HN B (Fm & Fv & Fn & Fw & Fb). unfold next. destruct track; [|repeat split; try assumption; try apply Fm; try apply Fv]. destruct t.
  - destruct (blends_rows _ _ (average_factor mom (S n)) _ _ Fm (new_means_rows N x r)) as [Rm _]. destruct (blends_rows _ _ (average_factor mom (S n)) _ _ Fv (new_vars_rows N x r)) as [Rv Kv].
    unfold fits_group. cbn [gs_mean gs_var gs_weight gs_bias]. split; [exact Rm|]. split; [exact Rv|]. split; [|split; assumption].
    intros C. apply (nonneg_nth _ _ _ Rv). intros j o Hj Ho. rewrite Kv by assumption. unfold towards. pose proof (factor_calm n C) as Hf.
    pose proof (proj1 (nonneg_nth _ _ _ Fv) (Fn C) j o Hj Ho). pose proof (proj1 (nonneg_nth _ _ _ (new_vars_rows N x r)) (new_vars_nonneg N x r Hr (HN eq_refl) B) j o Hj Ho).
    apply Rplus_le_le_0_compat; apply Rmult_le_pos; lra.
  - unfold fits_group. cbn [gs_mean gs_var gs_weight gs_bias]. split; [exact Fm|]. split; [apply rows_map, Fv|]. split; [intros _; apply clamp_nonneg_rows|]. split; assumption.
Qed.

Lemma field_at : forall (x : list chan) r j i, named_rank leqb name ft i (name r) j -> nth j (fields x (name r)) [] = field_chans size ft x i /\ (j < nlab r)%nat.
Proof.
  intros x r j i E. unfold named_rank in E. assert (j < length (lab (name r)))%nat as Hj by (apply nth_error_Some; congruence). split; [|exact Hj].
  rewrite (nth_indep _ [] (field_chans size ft x i)) by (rewrite map_length; exact Hj). rewrite (map_nth (field_chans size ft x) (lab (name r)) i j). rewrite (nth_error_nth _ j i E). reflexivity.
Qed.
Definition gat (st : gn_full) (r : A) : gn_state := match dget leqb (gs_groups st) (name r) with Some g => g | None => gn_start affine 0 (info r) end.
Lemma forward_ok : forall (t : bool) spatial N st junk x, (spatial = 2%nat \/ forall r, In r ft -> meq (size r) (size r) (cob r) mid) -> (t = true -> 0 < N)%nat ->
  fits st -> g_type x = ft -> batch size ft N (g_chans x) -> length junk = type_size size ft ->
  let count := if t then S (gs_count st) else gs_count st in
  let f := if t then average_factor mom count else 0 in
  let st' := {| gs_groups := fold_left (fun d r => dset leqb d (name r) (next t f N (gat st r) (g_chans x) r)) uniq (gs_groups st); gs_count := count |} in
  exists y, gn_forward size leqb teqb m t spatial N st junk x = Ret (st', y) /\ fits st' /\ g_type y = ft /\ batch size ft N (g_chans y) /\
    forall i r j, nth_error ft i = Some r -> named_rank leqb name ft i (name r) j -> exists g, dget leqb (gs_groups st) (name r) = Some g /\ fits_group r g /\ dget leqb (gs_groups st') (name r) = Some (next t f N g (g_chans x) r) /\
      field_chans size ft (g_chans y) i = gfield r N (next t f N g (g_chans x) r) (means_used t N g (g_chans x) r) (vars_used t N g (g_chans x) r) j (coords r N (field_chans size ft (g_chans x) i)).
Proof.
  intros t spatial N st junk x Hs HN F Tx B Lj count f st'. destruct mk_ok as (b & Eb & Et & Ebuf & Es & Hi & Ea & Etr & Ee & Emom & _). unfold gn_forward. rewrite Tx, Et, Teq. cbn [assert_ bind].
  rewrite Ebuf, Es, Emom. fold count. fold f.
  assert (length (g_chans x) = type_size size ft) as Lx by apply B.
  assert (forall r, In r ft -> dget leqb (gs_groups st) (name r) = Some (gat st r) /\ fits_group r (gat st r)) as HG.
  { intros r Hr. destruct (F r Hr) as (g & Eg & Fg). unfold gat. rewrite Eg. auto. }
  assert (forall r, In r ft -> fits_group r (next t f N (gat st r) (g_chans x) r)) as HN'.
  { intros r Hr. replace f with (if t then average_factor mom (S (gs_count st)) else 0) by (unfold f, count; destruct t; reflexivity). apply next_fits; try assumption. apply HG, Hr. }
  assert (forall r j, In r ft -> (j < nlab r)%nat -> rect (size r) N (nth j (written t f N (gat st r) (g_chans x) r) [])) as HW.
  { intros r j Hr Hj. destruct (HG r Hr) as [Eg Fg]. destruct (lab_at r j Hr Hj) as [Ei Rk]. destruct (field_at (g_chans x) r j _ Rk) as [Ef _].
    unfold written. rewrite mapi_imap. rewrite (imap_at _ _ 0 j [] []) by (rewrite !map_length; exact Hj). rewrite Nat.add_0_l.
    rewrite (nth_indep _ [] (coords r N [])) by (rewrite !map_length; exact Hj). rewrite (map_nth (coords r N)), Ef.
    apply gfield_ent; try assumption; [apply HN', Hr|apply coords_ent; [exact Hr|apply field_rect; assumption]| |].
    - apply (rows_nth _ _ _ j (means_rows t N _ (g_chans x) r Fg) Hj).
    - apply (rows_nth _ _ _ j (vars_rows t N _ (g_chans x) r Fg) Hj). }
  destruct (named_loop size name leqb leqb_ok ft uniq Pos Lu Na b Eb (gn_group leqb m t f spatial N) (fun r => next t f N (gat st r) (g_chans x) r) (fun r => written t f N (gat st r) (g_chans x) r) (g_chans x) (gs_groups st) junk Lx Lj) as (out & Eo & Lo & Ho).
  { intros r Hr. destruct (HG r Hr) as [Eg Fg]. exists (gat st r). split; [exact Eg|]. split; [apply group_ok; [exact Hr| |exact Fg]|].
    - destruct Hs as [H|H]; [left; exact H|right; apply H, Hr].
    - assert (length (written t f N (gat st r) (g_chans x) r) = nlab r) as Lw by (unfold written; rewrite mapi_imap, imap_length, !map_length; reflexivity). split; [exact Lw|].
      apply Forall_forall. intros w Hw. apply In_nth with (d := []) in Hw. destruct Hw as (j & Hj & <-). rewrite Lw in Hj. apply (HW r j Hr Hj). }
  rewrite Eo. cbn [bind fst snd]. unfold mk_gtensor. rewrite Lo, Nat.eqb_refl. cbn [assert_ bind].
  exists {| g_type := ft; g_chans := out |}. split; [reflexivity|]. cbn [g_type g_chans].
  assert (forall r, In r ft -> dget leqb (gs_groups st') (name r) = Some (next t f N (gat st r) (g_chans x) r)) as Hst'.
  { intros r Hr. unfold st'. cbn [gs_groups]. apply (named_get name leqb leqb_ok ft uniq Lu Na (fun r => next t f N (gat st r) (g_chans x) r) _ r Hr). }
  split; [intros r Hr; eexists; split; [apply Hst', Hr|apply HN', Hr]|]. split; [reflexivity|]. split.
  - apply batch_fields; [exact Lo|]. intros i r Er. assert (In r ft) as Hr by (apply nth_error_In in Er; exact Er). destruct (rank_of name leqb leqb_ok ft i r Er) as (j & Rk). rewrite (Ho i r j Er Rk).
    apply HW; [exact Hr|]. apply (field_at (g_chans x) r j i Rk).
  - intros i r j Er Rk. assert (In r ft) as Hr by (apply nth_error_In in Er; exact Er). destruct (HG r Hr) as [Eg Fg]. exists (gat st r). split; [exact Eg|]. split; [exact Fg|]. split; [apply Hst', Hr|].
    rewrite (Ho i r j Er Rk). destruct (field_at (g_chans x) r j i Rk) as [Ef Hj]. unfold written. rewrite mapi_imap. rewrite (imap_at _ _ 0 j [] []) by (rewrite !map_length; exact Hj). rewrite Nat.add_0_l.
    rewrite (nth_indep _ [] (coords r N [])) by (rewrite !map_length; exact Hj). rewrite (map_nth (coords r N)), Ef. reflexivity.
Qed.
Lemma set_fits : forall u st st', fits st -> gn_set leqb u st = Ret st' -> fits st'.
Proof.
  intros u st st' F E. unfold gn_set in E. apply bind_Ret in E. destruct E as (g & Eg & E). unfold lookup in Eg. destruct (dget leqb (gs_groups st) (fst u)) as [g'|] eqn:Eg'; [|discriminate].
  apply Ret_inj in Eg. subst g'. destruct (gs_weight g) as [w|] eqn:Ew; [|discriminate]. destruct (gs_bias g) as [b|] eqn:Ebi; [|discriminate].
  apply assert_Ret in E. destruct E as [E1 E]. apply assert_Ret in E. destruct E as [E2 E].
  apply Ret_inj in E. subst st'. intros r Hr. cbn [gs_groups]. rewrite (LibPy.dget_dset leqb leqb_ok). destruct (F r Hr) as (g0 & E0 & F0). destruct (leqb (fst u) (name r)) eqn:Q; [|exists g0; auto].
  apply leqb_ok in Q. rewrite Q, E0 in Eg'. injection Eg' as ->. destruct F0 as (Fm & Fv & Fn & Fw & Fb). rewrite Ew in Fw. rewrite Ebi in Fb. destruct Fw as [Fa Fw]. destruct Fb as [_ Fb].
  eexists. split; [reflexivity|]. unfold fits_group. cbn [gs_mean gs_var gs_weight gs_bias]. split; [exact Fm|]. split; [exact Fv|]. split; [exact Fn|].
  split; (split; [exact Fa|]); [apply (same_rows_rows _ _ w)|apply (same_rows_rows _ _ b)]; assumption.
Qed.
Lemma dget_map : forall (h : gn_state -> gn_state) (d : list (L * gn_state)) s, dget leqb (map (fun e => (fst e, h (snd e))) d) s = option_map h (dget leqb d s).
Proof. intros h d s. induction d as [|[k g] d IH]; cbn [map dget fst snd]; [reflexivity|]. destruct (leqb k s); [reflexivity|exact IH]. Qed.
Lemma reset_fits : forall st, fits st -> fits (gn_reset_running_stats st).
Proof.
  intros st F r Hr. destruct (F r Hr) as (g & Eg & Fm & Fv & Fn & Fw & Fb). unfold gn_reset_running_stats. cbn [gs_groups].
  eexists. split; [rewrite (dget_map (fun g => {| gs_mean := map (map (fun _ => 0)) (gs_mean g); gs_var := map (map (fun _ => 1)) (gs_var g); gs_weight := gs_weight g; gs_bias := gs_bias g |})), Eg; reflexivity|].
  unfold fits_group. cbn [gs_mean gs_var gs_weight gs_bias]. split; [apply rows_map, Fm|]. split; [apply rows_map, Fv|]. split; [|split; assumption]. intros _.
  unfold nonneg. apply Forall_forall. intros row H. apply in_map_iff in H. destruct H as (a & <- & _). apply Forall_forall. intros c Hc. apply in_map_iff in Hc. destruct Hc as (d & <- & _). lra.
Qed.
End GN.
