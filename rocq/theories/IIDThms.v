(** _IIDBatchNorm: its values and its histories. *)
From Coq Require Import Reals List ZArith Arith Bool Lia Lra Permutation.
From Verif Require Import LibRes LibPy LibMat LibMatS FieldModel SpecField FieldProofs BranchProofs LabelThms MergeThms GroupedModel GroupedProofs NonlinModel SpecNonlin NonlinProofs PoolModel ImageModel BatchNormModel SpecBatch BatchNormProofs BatchThms NormBNThms FNormModel SpecFNorm KeyedProofs FNormProofs NamedProofs.
Import ListNotations.
Open Scope R_scope.

(** *** variances *)
Definition spread_of (N : nat) (v : list chan) (c : nat) : R := sumn N (fun p => (ent v c p - avg N v c) * (ent v c p - avg N v c)).
Lemma deviation_ent : forall n N v c, rect n N v -> (c < n)%nat -> deviation (nth c v []) = spread_of N v c.
Proof.
  intros n N v c R H. unfold deviation, spread_of. rewrite (rsum_list _ 0), (rect_chan n N v c R H). apply sumn_ext. intros p Hp. unfold square. rewrite (mean_avg n N v c R H). reflexivity.
Qed.
Lemma spread_unshift : forall n N v mu c, rect n N v -> length mu = n -> (c < n)%nat -> (0 < N)%nat -> spread_of N (unshift mu v) c = spread_of N v c.
Proof.
  intros n N v mu c R Lm Hc HN. destruct (unshift_rect n N mu v Lm R) as [_ K].
  assert (avg N (unshift mu v) c = avg N v c - nth c mu 0) as E.
  { unfold avg. rewrite (sumn_ext N _ (fun p => ent v c p - nth c mu 0)) by (intros p Hp; apply K; assumption). rewrite sumn_minus, sumn_const.
    change (fun i : nat => ent v c i) with (ent v c). change (fun p : nat => ent v c p) with (ent v c). field. apply not_0_INR. lia. }
  unfold spread_of. apply sumn_ext. intros p Hp. rewrite E, K by assumption. ring.
Qed.
Lemma mean_vars : forall n N v, rect n N v -> mean (map unbiased_var v) = sumn n (spread_of N v) / (INR n * INR (N - 1)).
Proof.
  intros n N v R. unfold mean. rewrite map_length, (rsum_list unbiased_var []). destruct R as [L F] eqn:ER. rewrite L. clear ER. unfold Rdiv. rewrite Rinv_mult.
  rewrite (sumn_ext n (fun i => unbiased_var (nth i v [])) (fun c => spread_of N v c * / INR (N - 1))).
  - rewrite sumn_scal_r. ring.
  - intros c Hc. unfold unbiased_var. rewrite (deviation_ent n N v c (conj L F) Hc), (rect_chan n N v c (conj L F) Hc). reflexivity.
Qed.
(** a batch transformed by one orthogonal matrix *)
Lemma variance_moved : forall n N M pi v w, (0 < N)%nat -> orthogonal n M -> reorders N pi ->
  (forall c p, (c < n)%nat -> (p < N)%nat -> ent w c p = sumn n (fun d => M c d * ent v d (pi p))) -> variance n N w = variance n N v.
Proof.
  intros n N M pi v w HN OM [P1 P2] H. unfold variance. f_equal.
  assert (forall c, (c < n)%nat -> avg N w c = sumn n (fun d => M c d * avg N v d)) as Ea.
  { intros c Hc. unfold avg. rewrite (sumn_ext N _ (fun p => sumn n (fun d => M c d * ent v d (pi p)))) by (intros p Hp; apply H; assumption). rewrite sumn_swap.
    unfold Rdiv. rewrite <- sumn_scal_r. apply sumn_ext. intros d Hd. rewrite sumn_scal_l. rewrite (sumn_bij N pi (fun p => ent v d p) P1 P2). ring. }
  rewrite sumn_swap. rewrite (sumn_swap n N).
  rewrite <- (sumn_bij N pi (fun p => sumn n (fun c => (ent v c p - avg N v c) * (ent v c p - avg N v c))) P1 P2). apply sumn_ext. intros p Hp.
  rewrite <- (sumn_sq_orth n M (fun c => ent v c (pi p) - avg N v c) OM). apply sumn_ext. intros c Hc.
  assert (ent w c p - avg N w c = sumn n (fun j => M c j * (ent v j (pi p) - avg N v j))) as ->; [|reflexivity].
  rewrite H, Ea by assumption. rewrite <- sumn_minus. apply sumn_ext. intros d Hd. ring.
Qed.
Lemma avg_moved : forall n N M pi v w c, reorders N pi ->
  (forall c p, (c < n)%nat -> (p < N)%nat -> ent w c p = sumn n (fun d => M c d * ent v d (pi p))) -> (c < n)%nat -> avg N w c = sumn n (fun d => M c d * avg N v d).
Proof.
  intros n N M pi v w c [P1 P2] H Hc. unfold avg. rewrite (sumn_ext N _ (fun p => sumn n (fun d => M c d * ent v d (pi p)))) by (intros p Hp; apply H; assumption). rewrite sumn_swap.
  unfold Rdiv. rewrite <- sumn_scal_r. apply sumn_ext. intros d Hd. rewrite sumn_scal_l. rewrite (sumn_bij N pi (fun p => ent v d p) P1 P2). ring.
Qed.

Section IID.
Context {A L : Type}.
Variable size : A -> nat.
Variable name : A -> L.
Variable irreps : A -> list (nat * bool).
Variable cob inv : A -> mat.
Variable leqb : L -> L -> bool.
Hypothesis leqb_ok : forall a b, leqb a b = true <-> a = b.
Variable teqb : list A -> list A -> bool.
Variable ft uniq : list A.
Hypothesis Pos : Forall (fun r => (0 < size r)%nat) ft.
Hypothesis Lu : listing ft uniq.
Hypothesis Na : named_apart name ft.
Hypothesis Iok : forall r, In r ft -> irreps_ok (irreps r) (size r).
Hypothesis Teq : teqb ft ft = true.
Variable affine track : bool.
Variable eps : R.
Variable mom : option R.
Variable m : iid_module (A := A) (L := L).
Variable st0 : iid_full (L := L).
Hypothesis Em : mk_iid size name irreps cob inv leqb affine track eps mom ft uniq = Ret (m, st0).
Notation lab := (labelled leqb (map name ft)).
Notation fields x s := (map (field_chans size ft x) (lab s)).
Notation info := (iid_info_of size irreps cob inv).
Notation ntriv r := (length (trivials 0 (irreps r))).

Definition spanned (r : A) (row : list R) : Prop := length row = size r /\
  exists b, forall c, (c < size r)%nat -> nth c row 0 = sumn (size r) (fun t => if triv (irreps r) t then cob r c t * b t else 0).
Definition fits_group (r : A) (g : iid_state) : Prop :=
  length (is_var g) = length (lab (name r)) /\
  match is_mean g with Some ms => ntriv r <> 0%nat /\ length ms = length (lab (name r)) /\ Forall (spanned r) ms | None => ntriv r = 0%nat end /\
  match is_weight g with Some w => affine = true /\ length w = length (lab (name r)) | None => affine = false end /\
  match is_bias g with Some b => affine = true /\ ntriv r <> 0%nat /\ length b = length (lab (name r)) /\ Forall (fun row => length row = ntriv r) b
                  | None => affine = false \/ ntriv r = 0%nat end.
Definition fits (st : iid_full) : Prop := forall r, In r ft -> exists g, dget leqb (is_groups st) (name r) = Some g /\ fits_group r g.

Lemma spanned_zero : forall r, spanned r (repeat 0 (size r)).
Proof.
  intros r. split; [apply repeat_length|]. exists (fun _ => 0). intros c Hc. rewrite sumn_0; [|intros t _; destruct (triv _ _); ring].
  rewrite (nth_error_nth _ c 0 (nth_error_repeat 0 Hc)). reflexivity.
Qed.
Lemma has_false : forall r, has_trivial (info r) = false -> ntriv r = 0%nat.
Proof. intros r H. unfold has_trivial in H. cbn in H. destruct (Nat.eqb_spec (ntriv r) 0) as [E|E]; [exact E|discriminate]. Qed.
Lemma has_true : forall r, has_trivial (info r) = true -> ntriv r <> 0%nat.
Proof. intros r H. unfold has_trivial in H. cbn in H. destruct (Nat.eqb_spec (ntriv r) 0) as [E|E]; [discriminate|exact E]. Qed.

Lemma mk_ok : exists b, buffers size leqb ft (map name ft) = Ret b /\ im_type m = ft /\ im_bufs m = b /\ im_sizes m = map (fun r => (name r, size r)) uniq /\
  (forall r, In r ft -> lookup leqb (im_info m) (name r) = Ret (info r)) /\ im_affine m = affine /\ im_track m = track /\ im_eps m = eps /\ im_momentum m = mom /\
  fits st0 /\ is_count st0 = 0%nat.
Proof.
  unfold mk_iid in Em. pose proof Em as E. apply bind_Ret in E. destruct E as (b & Eb & E). apply Ret_inj in E. injection E as <- <-.
  exists b. split; [exact Eb|]. cbn [im_type im_bufs im_sizes im_info im_affine im_track im_eps im_momentum is_count]. repeat split; try reflexivity.
  - intros r Hr. unfold lookup. rewrite (named_get name leqb leqb_ok ft uniq Lu Na info [] r Hr). reflexivity.
  - intros r Hr. cbn [is_groups]. eexists. split; [apply (named_get name leqb leqb_ok ft uniq Lu Na (fun r => iid_start affine (nfields leqb (map name ft) (name r)) (info r)) [] r Hr)|].
    unfold fits_group, iid_start. rewrite nfields_labelled. cbn [is_var is_mean is_weight is_bias]. split; [apply repeat_length|]. split; [|split].
    + destruct (has_trivial (info r)) eqn:H; [|apply has_false, H]. split; [apply has_true, H|]. split; [apply repeat_length|]. apply Forall_forall. intros row Hrow.
      apply repeat_spec in Hrow. subst row. apply spanned_zero.
    + destruct affine; [split; [reflexivity|apply repeat_length]|reflexivity].
    + destruct affine; cbn [andb]; [|left; reflexivity]. destruct (has_trivial (info r)) eqn:H; [|right; apply has_false, H]. split; [reflexivity|]. split; [apply has_true, H|].
      split; [apply repeat_length|]. apply Forall_forall. intros row Hrow. apply repeat_spec in Hrow. subst row. apply repeat_length.
Qed.

(** the statistics of one field *)
Lemma fixed_none : forall r a c, In r ft -> ntriv r = 0%nat -> fixed_part (irreps r) (cob r) (inv r) (size r) a c = 0.
Proof.
  intros r a c Hr H. unfold fixed_part. apply sumn_0. intros t Ht. destruct (triv (irreps r) t) eqn:E; [|reflexivity].
  apply (trivial_in _ _ _ (Iok r Hr)) in E. rewrite <- (trivials_filter _ _ (Iok r Hr)) in E. destruct (trivials 0 (irreps r)); [destruct E|discriminate].
Qed.
Definition at_row (o : option (list R)) (c : nat) : R := match o with Some mu => nth c mu 0 | None => 0 end.
Definition good_row (r : A) (o : option (list R)) : Prop := match o with Some mu => length mu = size r | None => True end.
Lemma mean_row : forall r N v, In r ft -> rect (size r) N v -> good_row r (iid_mean (info r) v) /\
  forall c, (c < size r)%nat -> at_row (iid_mean (info r) v) c = fixed_part (irreps r) (cob r) (inv r) (size r) (avg N v) c.
Proof.
  intros r N v Hr R. unfold iid_mean. destruct (has_trivial (info r)) eqn:H; cbn [good_row at_row].
  - split; [apply lin_length|]. intros c Hc. rewrite lin_nth by exact Hc. cbn [iid_info_of ii_size ii_avg].
    rewrite <- (avg_matrix (irreps r) (size r) (cob r) (inv r) (avg N v) c (Iok r Hr) Hc). apply sumn_ext. intros d Hd. rewrite (means_nth (size r) N v d R Hd). reflexivity.
  - split; [exact I|]. intros c Hc. symmetry. apply fixed_none; [exact Hr|]. apply has_false, H.
Qed.
Lemma mean_spanned : forall r N v mu, In r ft -> rect (size r) N v -> iid_mean (info r) v = Some mu -> spanned r mu.
Proof.
  intros r N v mu Hr R E. destruct (mean_row r N v Hr R) as [G K]. rewrite E in G, K. split; [exact G|].
  exists (fun t => sumn (size r) (fun d => inv r t d * avg N v d)). intros c Hc. specialize (K c Hc). cbn [at_row] in K. exact K.
Qed.
Lemma var_ok : forall r N v, In r ft -> rect (size r) N v -> (0 < N)%nat -> iid_var (info r) v = variance (size r) N v.
Proof.
  intros r N v Hr R HN. unfold iid_var. destruct (mean_row r N v Hr R) as [G _]. destruct (iid_mean (info r) v) as [mu|].
  - destruct (unshift_rect (size r) N mu v G R) as [R' _]. rewrite (mean_vars (size r) N _ R'). unfold variance. f_equal. apply sumn_ext. intros c Hc.
    rewrite (spread_unshift (size r) N v mu c R G Hc HN). reflexivity.
  - rewrite (mean_vars (size r) N _ R). reflexivity.
Qed.
(** one normalised field *)
Definition bias_row (r : A) (g : iid_state) (j c : nat) : R := match is_bias g with Some b => along (irreps r) (cob r) (size r) (nth j b []) c | None => 0 end.
Definition weight_at (g : iid_state) (j : nat) : R := match is_weight g with Some w => nth j w 0 | None => 1 end.
Lemma field_ok : forall r N g means vars j v, In r ft -> rect (size r) N v -> good_row r (nth j means None) ->
  rect (size r) N (iid_field m (info r) g means vars j v) /\
  forall c p, (c < size r)%nat -> (p < N)%nat -> ent (iid_field m (info r) g means vars j v) c p =
    (ent v c p - at_row (nth j means None) c) * (weight_at g j / sqrt (nth j vars 0 + im_eps m)) + bias_row r g j c.
Proof.
  intros r N g means vars j v Hr R G. unfold iid_field, bias_row. fold (weight_at g j).
  set (cen := match nth j means None with Some mu => unshift mu v | None => v end).
  assert (rect (size r) N cen /\ forall c p, (c < size r)%nat -> (p < N)%nat -> ent cen c p = ent v c p - at_row (nth j means None) c) as [Rc Kc].
  { unfold cen. destruct (nth j means None) as [mu|]; cbn [at_row]; [apply unshift_rect; [exact G|exact R]|]. split; [exact R|]. intros; ring. }
  destruct (scale_rect (size r) N (weight_at g j / sqrt (nth j vars 0 + im_eps m)) cen Rc) as [Rs Ks].
  destruct (is_bias g) as [b|].
  - destruct (shift_rect (size r) N (lin (ii_size (info r)) (ii_trivials (info r)) (ii_cob (info r)) (nth j b [])) _ (lin_length _ _ _ _) Rs) as [Rr Kr]. split; [exact Rr|].
    intros c p Hc Hp. rewrite Kr, Ks, Kc by assumption. f_equal. rewrite lin_nth by exact Hc. cbn [iid_info_of ii_trivials ii_cob]. apply bias_matrix, Iok, Hr.
  - split; [exact Rs|]. intros c p Hc Hp. rewrite Ks, Kc by assumption. ring.
Qed.

(** one group *)
Definition means_used (t : bool) (g : iid_state) (x : list chan) (r : A) : list (option (list R)) :=
  if t || negb track then map (iid_mean (info r)) (fields x (name r)) else match is_mean g with Some ms => map Some ms | None => map (fun _ => None) (fields x (name r)) end.
Definition vars_used (t : bool) (g : iid_state) (x : list chan) (r : A) : list R :=
  if t || negb track then map (iid_var (info r)) (fields x (name r)) else is_var g.
Definition next (t : bool) (f : R) (g : iid_state) (x : list chan) (r : A) : iid_state :=
  if t && track then
    {| is_mean := match is_mean g with
                  | Some old => Some (map (fun p => match snd p with Some new => blend f (fst p) new | None => fst p end) (List.combine old (map (iid_mean (info r)) (fields x (name r)))))
                  | None => None
                  end;
       is_var := blend f (is_var g) (map (iid_var (info r)) (fields x (name r))); is_weight := is_weight g; is_bias := is_bias g |}
  else g.
Definition written (t : bool) (f : R) (g : iid_state) (x : list chan) (r : A) : list (list chan) :=
  mapi (iid_field m (info r) (next t f g x r) (means_used t g x r) (vars_used t g x r)) 0 (fields x (name r)).
Lemma group_ok : forall t f g x r, In r ft -> fits_group r g ->
  iid_group leqb m t f (name r) g (fields x (name r)) = Ret (next t f g x r, written t f g x r) /\
  length (means_used t g x r) = length (lab (name r)) /\ length (vars_used t g x r) = length (lab (name r)).
Proof.
  intros t f g x r Hr (Fv & Fm & _ & _). destruct mk_ok as (b & _ & _ & _ & _ & Hi & _ & Et & _). unfold iid_group. rewrite (Hi r Hr). cbn [bind]. unfold iid_stats. rewrite Et.
  unfold written, means_used, vars_used, next. destruct track; cbn [negb].
  2:{ rewrite orb_true_r, andb_false_r. cbn [bind]. rewrite !map_length, Nat.eqb_refl. cbn [assert_ bind]. repeat split; reflexivity. }
  rewrite orb_false_r, andb_true_r. destruct t.
  - rewrite !map_length, Fv, Nat.eqb_refl. cbn [assert_ bind]. destruct (is_mean g) as [old|].
    + destruct Fm as (_ & Lo & _). rewrite Lo, Nat.eqb_refl. cbn [assert_ bind]. rewrite !map_length, Nat.eqb_refl. cbn [assert_ bind]. repeat split; reflexivity.
    + cbn [bind]. rewrite !map_length, Nat.eqb_refl. cbn [assert_ bind]. repeat split; reflexivity.
  - cbn [bind]. destruct (is_mean g) as [ms|]; rewrite !map_length.
    + destruct Fm as (_ & Lo & _). rewrite Lo, Fv, Nat.eqb_refl. cbn [assert_ bind]. repeat split; reflexivity.
    + rewrite Fv, Nat.eqb_refl. cbn [assert_ bind]. repeat split; reflexivity.
Qed.
Lemma lab_field : forall r j, In r ft -> (j < length (lab (name r)))%nat -> nth_error ft (nth j (lab (name r)) 0%nat) = Some r /\ named_rank leqb name ft (nth j (lab (name r)) 0%nat) (name r) j.
Proof.
  intros r j Hr Hj. split; [apply (lab_rep name leqb leqb_ok ft Na); [exact Hr|apply nth_In; exact Hj]|]. unfold named_rank. apply nth_error_nth'. exact Hj.
Qed.
Lemma fields_nth : forall (x : list chan) r j i, named_rank leqb name ft i (name r) j -> nth j (fields x (name r)) [] = field_chans size ft x i /\ (j < length (lab (name r)))%nat.
Proof.
  intros x r j i E. unfold named_rank in E. assert (j < length (lab (name r)))%nat as Hj by (apply nth_error_Some; congruence). split; [|exact Hj].
  rewrite (nth_indep _ [] (field_chans size ft x i)) by (rewrite map_length; exact Hj). rewrite (map_nth (field_chans size ft x) (lab (name r)) i j). rewrite (nth_error_nth _ j i E). reflexivity.
Qed.
Lemma nth_none : forall {X Y} (l : list X) j, nth j (map (fun _ => @None Y) l) None = None.
Proof. intros X Y l. induction l as [|a l IH]; intros [|j]; cbn; auto. Qed.
Lemma row_good : forall t g N x r j i, In r ft -> fits_group r g -> batch size ft N x -> nth_error ft i = Some r -> named_rank leqb name ft i (name r) j -> good_row r (nth j (means_used t g x r) None) /\
  (t || negb track = true -> (nth j (means_used t g x r) None) = iid_mean (info r) (field_chans size ft x i)) /\
  (t || negb track = false -> at_row (nth j (means_used t g x r) None) = fun c => match is_mean g with Some ms => nth c (nth j ms []) 0 | None => 0 end).
Proof.
  intros t g N x r j i Hr (_ & Fm & _) B E Rk. destruct (fields_nth x r j i Rk) as [Ef Hj]. unfold means_used. destruct (t || negb track).
  - assert (nth j (map (iid_mean (info r)) (fields x (name r))) None = iid_mean (info r) (field_chans size ft x i)) as Em'.
    { rewrite (nth_indep _ None (iid_mean (info r) [])) by (rewrite !map_length; exact Hj). rewrite (map_nth (iid_mean (info r))). rewrite Ef. reflexivity. }
    rewrite Em'. split; [|split; [reflexivity|discriminate]]. apply (mean_row r N); [exact Hr|]. apply field_rect; assumption.
  - destruct (is_mean g) as [ms|].
    + destruct Fm as (_ & Lm & Fm). rewrite (nth_indep _ None (Some [])) by (rewrite map_length, Lm; exact Hj). rewrite (map_nth Some). split; [|split; [discriminate|intros _; reflexivity]].
      rewrite Forall_forall in Fm. apply Fm, nth_In. lia.
    + rewrite nth_none.
      split; [exact I|]. split; [discriminate|intros _; reflexivity].
Qed.

Lemma imap_at : forall {X Y} (f : nat -> X -> Y) l k j d e, (j < length l)%nat -> nth j (imap f k l) e = f (k + j)%nat (nth j l d).
Proof.
  intros X Y f l k j d e H. apply nth_error_nth. rewrite imap_nth. rewrite (nth_error_nth' l d H). reflexivity.
Qed.
Lemma forward_ok : forall (t : bool) N st junk x, fits st -> g_type x = ft -> batch size ft N (g_chans x) -> length junk = type_size size ft ->
  let count := if t then S (is_count st) else is_count st in
  let f := if t then average_factor mom count else 0 in
  let G := fun r => next t f (match dget leqb (is_groups st) (name r) with Some g => g | None => iid_start affine 0 (info r) end) (g_chans x) r in
  exists y, iid_forward size leqb teqb m t N st junk x = Ret ({| is_groups := fold_left (fun d r => dset leqb d (name r) (G r)) uniq (is_groups st); is_count := count |}, y) /\
    g_type y = ft /\ batch size ft N (g_chans y) /\
    forall i r j, nth_error ft i = Some r -> named_rank leqb name ft i (name r) j -> exists g, dget leqb (is_groups st) (name r) = Some g /\
      field_chans size ft (g_chans y) i = iid_field m (info r) (next t f g (g_chans x) r) (means_used t g (g_chans x) r) (vars_used t g (g_chans x) r) j (field_chans size ft (g_chans x) i).
Proof.
  intros t N st junk x F Tx B Lj count f G. destruct mk_ok as (b & Eb & Et & Ebuf & Es & Hi & Ea & Etr & Ee & Emom & _). unfold iid_forward. rewrite Tx, Et, Teq. cbn [assert_ bind].
  rewrite Ebuf, Es, Emom. fold count. fold f.
  assert (length (g_chans x) = type_size size ft) as Lx by apply B.
  assert (forall r, In r ft -> exists g, dget leqb (is_groups st) (name r) = Some g /\ fits_group r g /\ G r = next t f g (g_chans x) r) as HG.
  { intros r Hr. destruct (F r Hr) as (g & Eg & Fg). exists g. unfold G. rewrite Eg. auto. }
  set (Ws := fun r => written t f (match dget leqb (is_groups st) (name r) with Some g => g | None => iid_start affine 0 (info r) end) (g_chans x) r).
  destruct (named_loop size name leqb leqb_ok ft uniq Pos Lu Na b Eb (iid_group leqb m t f) G Ws (g_chans x) (is_groups st) junk Lx Lj) as (out & Eo & Lo & Ho).
  { intros r Hr. destruct (HG r Hr) as (g & Eg & Fg & EG). exists g. split; [exact Eg|]. destruct (group_ok t f g (g_chans x) r Hr Fg) as (E1 & L1 & L2).
    split; [rewrite EG; unfold Ws; rewrite Eg; exact E1|]. unfold Ws. rewrite Eg. unfold written. rewrite mapi_imap. split; [rewrite imap_length, map_length; reflexivity|].
    apply Forall_forall. intros w Hw. apply In_nth with (d := []) in Hw. destruct Hw as (j & Hj & <-). rewrite imap_length, map_length in Hj.
    destruct (lab_field r j Hr Hj) as [Ei Rk]. destruct (fields_nth (g_chans x) r j _ Rk) as [Ef _].
    rewrite (imap_at _ _ 0 j [] []) by (rewrite map_length; exact Hj). rewrite Ef, Nat.add_0_l.
    apply (field_ok r N); [exact Hr|apply field_rect; assumption|]. apply (row_good t g N (g_chans x) r j _ Hr Fg B Ei Rk). }
  rewrite Eo. cbn [bind fst snd]. unfold mk_gtensor. rewrite Lo, Nat.eqb_refl. cbn [assert_ bind].
  assert (forall i r j, nth_error ft i = Some r -> named_rank leqb name ft i (name r) j -> exists g, dget leqb (is_groups st) (name r) = Some g /\ fits_group r g /\
      field_chans size ft out i = iid_field m (info r) (next t f g (g_chans x) r) (means_used t g (g_chans x) r) (vars_used t g (g_chans x) r) j (field_chans size ft (g_chans x) i)) as K.
  { intros i r j Er Rk. assert (In r ft) as Hr by (apply nth_error_In in Er; exact Er). destruct (HG r Hr) as (g & Eg & Fg & _). exists g. split; [exact Eg|]. split; [exact Fg|].
    rewrite (Ho i r j Er Rk). unfold Ws. rewrite Eg. unfold written. rewrite mapi_imap. destruct (fields_nth (g_chans x) r j i Rk) as [Ef Hj].
    rewrite (imap_at _ _ 0 j [] []) by (rewrite map_length; exact Hj). rewrite Ef, Nat.add_0_l. reflexivity. }
  eexists. split; [reflexivity|]. cbn [g_type g_chans]. split; [reflexivity|]. split.
  - apply batch_fields; [exact Lo|]. intros i r Er. destruct (rank_of name leqb leqb_ok ft i r Er) as (j & Rk). destruct (K i r j Er Rk) as (g & Eg & Fg & ->).
    assert (In r ft) as Hr by (apply nth_error_In in Er; exact Er). apply (field_ok r N); [exact Hr|apply field_rect; assumption|]. apply (row_good t g N (g_chans x) r j i Hr Fg B Er Rk).
  - intros i r j Er Rk. destruct (K i r j Er Rk) as (g & Eg & _ & E). exists g. auto.
Qed.

Lemma blend_length : forall f a b, length a = length b -> length (blend f a b) = length a.
Proof. intros f a b H. unfold blend. rewrite map_length, combine_length. lia. Qed.
Lemma blend_nth : forall f a b j, length a = length b -> (j < length a)%nat -> nth j (blend f a b) 0 = towards f (nth j a 0) (nth j b 0).
Proof. intros f a b j H Hj. unfold blend. rewrite (nth_combine_map _ _ _ j 0 0) by lia. cbn [fst snd]. unfold towards. ring. Qed.
Lemma spanned_blend : forall r f a b, spanned r a -> spanned r b -> spanned r (blend f a b).
Proof.
  intros r f a b [La (ba & Ha)] [Lb (bb & Hb)]. split; [rewrite blend_length; lia|]. exists (fun t => towards f (ba t) (bb t)). intros c Hc.
  rewrite blend_nth by lia. rewrite Ha, Hb by exact Hc. unfold towards. rewrite <- !sumn_scal_l, <- sumn_plus. apply sumn_ext. intros t _. destruct (triv (irreps r) t); ring.
Qed.
Lemma next_fits : forall t f g N x r, In r ft -> batch size ft N x -> fits_group r g -> fits_group r (next t f g x r).
Proof.
  intros t f g N x r Hr B (Fv & Fm & Fw & Fb). unfold next. destruct (t && track); [|repeat split; assumption]. unfold fits_group. cbn [is_var is_mean is_weight is_bias].
  split; [rewrite blend_length; rewrite ?map_length; exact Fv|]. split; [|split; assumption]. destruct (is_mean g) as [old|]; [|exact Fm]. destruct Fm as (Nt & Lo & Fo).
  split; [exact Nt|]. split; [rewrite map_length, combine_length, !map_length; lia|]. apply Forall_forall. intros row Hrow. apply in_map_iff in Hrow. destruct Hrow as ([a o] & <- & Hin).
  cbn [fst snd]. pose proof (in_combine_l _ _ _ _ Hin) as H1. pose proof (in_combine_r _ _ _ _ Hin) as H2. rewrite Forall_forall in Fo. specialize (Fo a H1).
  destruct o as [new|]; [|exact Fo]. apply spanned_blend; [exact Fo|]. rewrite map_map in H2. apply in_map_iff in H2. destruct H2 as (i & E & Hi).
  apply (mean_spanned r N (field_chans size ft x i)); [exact Hr| |exact E]. apply field_rect; [exact B|]. apply (lab_rep name leqb leqb_ok ft Na); assumption.
Qed.
Lemma forward_fits : forall t N st junk x st' y, fits st -> g_type x = ft /\ batch size ft N (g_chans x) /\ length junk = type_size size ft -> iid_forward size leqb teqb m t N st junk x = Ret (st', y) -> fits st'.
Proof.
  intros t N st junk x st' y F (Tx & B & Lj) E. destruct (forward_ok t N st junk x F Tx B Lj) as (y' & E' & _). rewrite E' in E. apply Ret_inj in E. injection E as <- _.
  intros r Hr. cbn [is_groups]. eexists. split; [apply (named_get name leqb leqb_ok ft uniq Lu Na _ _ r Hr)|]. destruct (F r Hr) as (g & Eg & Fg). cbn beta. rewrite Eg.
  apply (next_fits _ _ _ N); assumption.
Qed.
Lemma same_rows_ok : forall a b n, same_rows a b = true -> Forall (fun row => length row = n) a -> length b = length a /\ Forall (fun row => length row = n) b.
Proof.
  intros a b n H F. unfold same_rows in H. apply andb_prop in H. destruct H as [H1 H2]. apply Nat.eqb_eq in H1. split; [symmetry; exact H1|].
  revert b H1 H2. induction F as [|u a Hu F IH]; intros [|w b] H1 H2; try discriminate; [constructor|]. cbn in H1, H2. apply andb_prop in H2. destruct H2 as [H2 H3].
  apply Nat.eqb_eq in H2. constructor; [cbn in H2; lia|]. apply IH; [lia|exact H3].
Qed.
Lemma set_fits : forall u st st', fits st -> iid_set leqb u st = Ret st' -> fits st'.
Proof.
  intros u st st' F E. unfold iid_set in E. apply bind_Ret in E. destruct E as (g & Eg & E). unfold lookup in Eg. destruct (dget leqb (is_groups st) (fst u)) as [g'|] eqn:Eg'; [|discriminate].
  apply Ret_inj in Eg. subst g'. destruct (is_weight g) as [w|] eqn:Ew; [|discriminate]. apply assert_Ret in E. destruct E as [E1 E]. apply assert_Ret in E. destruct E as [E2 E].
  apply Ret_inj in E. subst st'. intros r Hr. cbn [is_groups]. rewrite (LibPy.dget_dset leqb leqb_ok). destruct (F r Hr) as (g0 & E0 & F0). destruct (leqb (fst u) (name r)) eqn:Q; [|exists g0; auto].
  apply leqb_ok in Q. rewrite Q, E0 in Eg'. injection Eg' as ->. destruct F0 as (Fv & Fm & Fw & Fb). rewrite Ew in Fw. destruct Fw as [Fa Fw]. apply Nat.eqb_eq in E1.
  eexists. split; [reflexivity|]. unfold fits_group. cbn [is_var is_mean is_weight is_bias]. split; [exact Fv|]. split; [exact Fm|]. split; [split; [exact Fa|lia]|].
  destruct (is_bias g) as [b|], (snd (snd u)) as [b'|]; try discriminate.
  - destruct Fb as (_ & Nt & Lb & Fb). destruct (same_rows_ok b b' _ E2 Fb) as [L' F']. repeat split; try assumption. lia.
  - exact Fb.
Qed.
Lemma dget_map_snd : forall (h : iid_state -> iid_state) (d : list (L * iid_state)) s, dget leqb (map (fun e => (fst e, h (snd e))) d) s = option_map h (dget leqb d s).
Proof. intros h d s. induction d as [|[k g] d IH]; cbn [map dget fst snd]; [reflexivity|]. destruct (leqb k s); [reflexivity|exact IH]. Qed.
Lemma zero_rows : forall r ms, Forall (spanned r) ms -> Forall (spanned r) (map (map (fun _ => 0)) ms).
Proof.
  intros r ms F. apply Forall_forall. intros row Hrow. apply in_map_iff in Hrow. destruct Hrow as (a & <- & Ha). rewrite Forall_forall in F. destruct (F a Ha) as [La _].
  assert (map (fun _ : R => 0) a = repeat 0 (size r)) as ->; [|apply spanned_zero]. rewrite <- La. clear. induction a as [|x a IH]; cbn; [|rewrite IH]; reflexivity.
Qed.
Lemma reset_fits : forall st, fits st -> fits (iid_reset_running_stats st).
Proof.
  intros st F r Hr. destruct (F r Hr) as (g & Eg & Fv & Fm & Fw & Fb). unfold iid_reset_running_stats. cbn [is_groups].
  eexists. split; [rewrite (dget_map_snd (fun g => {| is_mean := option_map (map (map (fun _ => 0))) (is_mean g); is_var := map (fun _ => 1) (is_var g); is_weight := is_weight g; is_bias := is_bias g |})), Eg; reflexivity|].
  unfold fits_group. cbn [is_var is_mean is_weight is_bias]. split; [rewrite map_length; exact Fv|]. split; [|split; assumption]. destruct (is_mean g) as [ms|]; cbn [option_map]; [|exact Fm].
  destruct Fm as (Nt & Lm & Fm). split; [exact Nt|]. split; [rewrite map_length; exact Lm|]. apply zero_rows, Fm.
Qed.
End IID.
