(** Proofs of the statements about indexing, attributes and comparison of shells bases. *)
From Coq Require Import Reals List ZArith Arith Bool Lia Lra.
From Verif Require Import LibRes LibMat LibTrig FinGroupModel ParamModel ParamProofs PlanarModel SpecPlanar PlanarProofs
  IrrepModel SpecIrrep RepModel RepProofs KernelModel SpecKernel KernelProofs PolarModel SpecPolar PolarProofs PolarThms
  PolarAttrs.
Import ListNotations.

Lemma sph_pos : forall j, (0 < ar_dim spherical j)%nat.
Proof. intros j; cbn; lia. Qed.
Lemma sph_inj : forall i j, ar_id spherical i = ar_id spherical j -> i = j.
Proof. intros i j E; cbn [spherical ar_id] in E. injection E as _ E. lia. Qed.

Lemma circ_freq : forall j, freq_of circular (ar_id circular j) = Ret (Some j).
Proof.
  intros j; cbn [circular ar_id freq_of]. destruct (Z.ltb_spec (Z.of_nat j) 0); [lia|].
  rewrite Nat2Z.id, id_eqb_refl. reflexivity.
Qed.
Lemma sph_freq : forall j, freq_of spherical (ar_id spherical j) = Ret (Some j).
Proof.
  intros j; cbn [spherical ar_id freq_of]. destruct (Z.ltb_spec (Z.of_nat j) 0); [lia|].
  rewrite Nat2Z.id, id_eqb_refl. reflexivity.
Qed.

Lemma known : forall ar, ar = circular \/ ar = spherical ->
  (forall j, (0 < ar_dim ar j)%nat) /\ (forall i j, ar_id ar i = ar_id ar j -> i = j) /\
  (forall j, freq_of ar (ar_id ar j) = Ret (Some j)).
Proof.
  intros ar [->| ->].
  - split; [apply circ_pos|split; [apply circ_inj|apply circ_freq]].
  - split; [apply sph_pos|split; [apply sph_inj|apply sph_freq]].
Qed.

Lemma built_of : forall ar L p flt s, mk_shells ar L p flt = Ret (Some s) -> built ar L p flt s.
Proof.
  intros ar L p flt s E. destruct (mk_shells_built ar L p flt) as (o & Eo & B). apply B. congruence.
Qed.

(** ** indexing *)
Lemma circular_get_raises : forall s idx, circular_get s idx = Raise.
Proof.
  intros s idx; unfold circular_get. destruct (mapped circular s idx) as [|p]; [reflexivity|]. cbn [bind].
  set (n := gp_dim (sh_radial s)).
  match goal with |- bind (assert_ ?b) _ = _ => destruct b eqn:E; [|reflexivity] end. exfalso.
  apply andb_true_iff in E. destruct E as [E1 E2]. apply Nat.leb_le in E1. apply Nat.ltb_lt in E2.
  destruct (Nat.eq_dec n 0) as [->|Hn]; [lia|].
  pose proof (Nat.div_mod p n Hn) as D. pose proof (Nat.mod_upper_bound p n Hn) as M.
  pose proof (Nat.div_mod (p / n + 1) 2 ltac:(lia)) as D2. pose proof (Nat.mod_upper_bound (p / n + 1) 2 ltac:(lia)) as M2.
  set (q := (p / n)%nat) in *. set (j := ((q + 1) / 2)%nat) in *.
  assert (q < 2 * j + 1)%nat by lia.
  assert (n * (q + 1) <= n * (2 * j + 1))%nat by (apply Nat.mul_le_mono_l; lia). lia.
Qed.

Lemma circular_index : forall L p flt s, mk_shells circular L p flt = Ret (Some s) ->
  (0 < sh_dim circular s)%nat /\ (exists l, sh_iter circular s = Ret l /\ length l = sh_dim circular s) /\
  (forall idx, circular_get s idx = Raise).
Proof.
  intros L p flt s E. apply built_of in E. split; [apply (bu_pos _ _ _ _ _ E)|]. split; [|apply circular_get_raises].
  eexists; split; [apply (sh_iter_eq circular L flt p s E)|]. rewrite imap_length. apply keptels_length; exact E.
Qed.

Lemma sum_odd : forall n j, list_sum (map (fun i => n * (2 * i + 1))%nat (seq 0 j)) = (j * j * n)%nat.
Proof.
  intros n j; induction j as [|j IH]; [reflexivity|].
  rewrite seq_S, map_app, list_sum_app', IH. cbn [map list_sum Nat.add fold_right]. lia.
Qed.

Lemma spherical_index : forall L p flt s, mk_shells spherical L p flt = Ret (Some s) ->
  index_agrees (sh_dim spherical s) (spherical_get s) (sh_iter spherical s).
Proof.
  intros L p flt s E. apply built_of in E. unfold index_agrees.
  eexists; split; [apply (sh_iter_eq spherical L flt p s E)|].
  split; [rewrite imap_length; apply keptels_length; exact E|].
  intros idx Li. rewrite <- (keptels_length spherical L flt p s E) in Li.
  destruct (nth_error (keptels spherical L flt p) idx) as [[[[ri a] j] mm]|] eqn:En; [|apply nth_error_None in En; lia].
  exists (mk_e spherical idx (ri, a, j, mm)).
  split; [|rewrite (imap_nth _ _ 0 idx _ En); reflexivity].
  destruct (mapped_at spherical L flt p s idx _ E En) as (k & Ek & Kn).
  destruct (element_position spherical sph_pos L p k ri a j mm Kn) as (Lj & Lr & Ea & Lm & Pk).
  cbn [spherical ar_dim] in Lm, Pk. rewrite sum_odd in Pk.
  unfold spherical_get. rewrite Ek; cbn [bind]. rewrite (bu_p _ _ _ _ _ E). set (n := gp_dim p) in *.
  assert (ri * (2 * j + 1) + mm < n * (2 * j + 1))%nat as Lq.
  { assert ((ri + 1) * (2 * j + 1) <= n * (2 * j + 1))%nat by (apply Nat.mul_le_mono_r; lia). lia. }
  assert (Nat.sqrt (k / n) = j) as Sq.
  { apply Nat.sqrt_unique. split.
    - apply Nat.div_le_lower_bound; lia.
    - apply Nat.div_lt_upper_bound; lia. }
  rewrite Sq. replace (j ^ 2 * n)%nat with (j * j * n)%nat by (cbn [Nat.pow]; lia).
  replace ((j + 1) ^ 2 * n)%nat with (j * j * n + n * (2 * j + 1))%nat by (cbn [Nat.pow]; lia).
  rewrite (proj2 (Nat.leb_le (j * j * n) k)) by lia. rewrite (proj2 (Nat.ltb_lt _ _)) by lia. cbn [andb assert_ bind].
  unfold get_at; cbn [spherical ar_dim].
  replace (k - j * j * n)%nat with (ri * (2 * j + 1) + mm)%nat by lia.
  rewrite Nat.div_add_l by lia. rewrite (Nat.div_small mm) by lia. rewrite Nat.add_0_r.
  rewrite (Nat.add_comm (ri * _)), Nat.mod_add by lia. rewrite Nat.mod_small by lia.
  rewrite (bu_p _ _ _ _ _ E), gp_get_eq by exact Lr. cbn [bind rattr_of ra_idx]. rewrite Nat.eqb_refl; cbn [assert_ bind].
  rewrite Ea. reflexivity.
Qed.

(** ** attributes *)
Lemma nth_map_fst : forall {A B} (l : list (A * B)) i a, nth_error (map fst l) i = Some a ->
  exists b, nth_error l i = Some (a, b).
Proof.
  intros A B l; induction l as [|[x y] l IH]; intros [|i] a E; cbn in *; try discriminate.
  - injection E as <-. exists y; reflexivity.
  - apply IH; exact E.
Qed.

Lemma imap_map : forall {X Y Z'} (f : nat -> X -> Y) (g : Y -> Z') (h : X -> Z') l idx,
  (forall i x, g (f i x) = h x) -> map g (imap f idx l) = map h l.
Proof.
  intros X Y Z' f g h l; induction l as [|x l IH]; intros idx H; cbn; [reflexivity|]. rewrite H, IH by exact H. reflexivity.
Qed.

Lemma imap_nth_inv : forall {X Y} (f : nat -> X -> Y) l idx i y, nth_error (imap f idx l) i = Some y ->
  exists x, nth_error l i = Some x /\ y = f (idx + i)%nat x.
Proof.
  intros X Y f l idx i y E. destruct (nth_error l i) as [x|] eqn:Ex.
  - exists x; split; [reflexivity|]. rewrite (imap_nth f l idx i x Ex) in E. congruence.
  - apply nth_error_None in Ex. rewrite <- (imap_length f l idx) in Ex. apply nth_error_None in Ex. congruence.
Qed.

Lemma attrs_iter_wanted : forall ar L p flt s, ar = circular \/ ar = spherical -> mk_shells ar L p flt = Ret (Some s) ->
  exists l, steerable_attrs_iter ar s = Ret l /\
    map (fun h => (h_j h, h_ridx h)) l =
      flat_map (fun j => map (fun i => (ar_id ar j, i)) (wanted flt p (ar_id ar j))) (seq 0 (S L)) /\
    forall i h, nth_error l i = Some h -> h_idx h = i /\ h_radial h = profile_attr p (h_ridx h).
Proof.
  intros ar L p flt s K E. destruct (known ar K) as (P & I & Fr). apply built_of in E.
  eexists; split; [apply (attrs_iter_eq ar P L flt p s E)|]. split.
  - rewrite (imap_map _ _ (fun x => (ar_id ar (fst x), fst (snd x)))) by reflexivity.
    unfold kept_all. rewrite flat_map_concat_map, concat_map, map_map, <- flat_map_concat_map.
    apply flat_map_ext. intros j. rewrite map_map. cbn [fst snd].
    rewrite <- (proj1 (wanted_sub ar flt p j)), map_map. reflexivity.
  - intros i h H. apply imap_nth_inv in H. destruct H as ([j q] & Hq & ->). cbn [Nat.add mk_s mk_h h_idx h_radial h_ridx fst snd].
    split; [reflexivity|]. apply nth_error_In in Hq. unfold kept_all in Hq. apply in_flat_map in Hq.
    destruct Hq as (j' & _ & Hq). apply in_map_iff in Hq. destruct Hq as (q' & Eq & Hq). injection Eq as <- <-.
    pose proof (proj2 (wanted_sub ar flt p j')) as W. rewrite Forall_forall in W. apply W; exact Hq.
Qed.

Lemma attrs_j_wanted : forall ar L p flt s j i ri, ar = circular \/ ar = spherical -> mk_shells ar L p flt = Ret (Some s) ->
  (j <= L)%nat -> nth_error (wanted flt p (ar_id ar j)) i = Some ri ->
  exists h, steerable_attrs_j ar s (ar_id ar j) i = Ret h /\ h_j h = ar_id ar j /\ h_ridx h = ri /\
    h_radial h = profile_attr p ri /\
    h_idx h = (list_sum (map (fun k => length (wanted flt p (ar_id ar k))) (seq 0 j)) + i)%nat.
Proof.
  intros ar L p flt s j i ri K E Lj W. destruct (known ar K) as (P & I & Fr). apply built_of in E.
  rewrite <- (proj1 (wanted_sub ar flt p j)) in W. destruct (nth_map_fst _ _ _ W) as (a & Ea).
  eexists; split; [apply (attrs_j_at ar I Fr L flt p s j i (ri, a) E Lj Ea)|].
  cbn [mk_h h_j h_ridx h_radial h_idx fst snd]. split; [reflexivity|]; split; [reflexivity|]; split.
  - pose proof (proj2 (wanted_sub ar flt p j)) as W'. rewrite Forall_forall in W'.
    apply (W' (ri, a)). apply (nth_error_In _ _ Ea).
  - f_equal. rewrite (sh_before_at ar I L flt p s j E) by lia. f_equal. apply map_ext. intros k.
    rewrite <- (proj1 (wanted_sub ar flt p k)), map_length. reflexivity.
Qed.

Lemma lists_from : forall ar L p flt s j, ar = circular \/ ar = spherical -> built ar L p flt s -> (j <= L)%nat ->
  steerable_attrs_j_iter ar s (ar_id ar j) = Ret (imap (mk_h ar j) (sh_before ar s j) (sub ar flt p j)) ->
  lists_wanted ar flt p s j.
Proof.
  intros ar L p flt s j K B Lj E. destruct (known ar K) as (P & I & Fr).
  eexists; split; [exact E|]. split.
  - rewrite (imap_map _ _ fst) by reflexivity. apply (proj1 (wanted_sub ar flt p j)).
  - intros i Hi. rewrite imap_length in Hi.
    destruct (nth_error (sub ar flt p j) i) as [q|] eqn:Eq; [|apply nth_error_None in Eq; lia].
    eexists; split; [apply (imap_nth _ _ _ _ _ Eq)|]. apply (attrs_j_at ar I Fr L flt p s j i q B Lj Eq).
Qed.

Lemma attrs_j_iter_unfiltered : forall ar L p s j, ar = circular \/ ar = spherical ->
  mk_shells ar L p None = Ret (Some s) -> (j <= L)%nat -> lists_wanted ar None p s j.
Proof.
  intros ar L p s j K E Lj. destruct (known ar K) as (P & I & Fr). apply built_of in E.
  apply (lists_from ar L); try assumption. apply (attrs_j_iter_none ar Fr L p s j E Lj).
Qed.
Lemma attrs_j_iter_zero : forall ar L p flt s, ar = circular \/ ar = spherical ->
  mk_shells ar L p flt = Ret (Some s) -> lists_wanted ar flt p s 0.
Proof.
  intros ar L p flt s K E. destruct (known ar K) as (P & I & Fr). apply built_of in E.
  apply (lists_from ar L); [exact K|exact E|lia|]. apply (attrs_j_iter_first ar P Fr L flt p s E).
Qed.

Lemma no_zero_id : forall ar a j, ar = circular \/ ar = spherical -> no_zero (a, ar_id ar j) = negb (Nat.eqb j 0).
Proof.
  intros ar a j [->| ->]; cbn [no_zero snd circular spherical ar_id]; f_equal;
    destruct (Nat.eqb_spec j 0); destruct (Z.eqb_spec (Z.of_nat j) 0); try reflexivity; lia.
Qed.

Lemma wanted_no_zero : forall ar p j, ar = circular \/ ar = spherical -> (0 < j)%nat ->
  wanted (Some no_zero) p (ar_id ar j) = seq 0 (length (gp_radii p)).
Proof.
  intros ar p j K Hj; unfold wanted.
  generalize (seq 0 (length (gp_radii p))). intros l; induction l as [|i l IH]; cbn [filter]; [reflexivity|].
  rewrite (no_zero_id ar _ j K). destruct (Nat.eqb_spec j 0); [lia|]. cbn [negb]. rewrite IH; reflexivity.
Qed.

Lemma walk_radial_length : forall ar s j rs idx i l, walk_radial ar s j rs idx i = Ret l -> (length l <= length rs)%nat.
Proof.
  intros ar s j rs; induction rs as [|[ri a] rs IH]; intros idx i l E; cbn [walk_radial] in E; [injection E as <-; cbn; lia|].
  destruct (mask_at s i (ar_dim ar j)).
  - destruct (Nat.eqb (ra_idx a) ri); [cbn [assert_ bind] in E|discriminate].
    destruct (walk_radial ar s j rs (S idx) (i + ar_dim ar j)) as [|l'] eqn:E'; [discriminate|]. cbn [bind] in E.
    injection E as <-. cbn. apply IH in E'. lia.
  - apply IH in E. cbn; lia.
Qed.

Lemma attrs_j_iter_wrong : forall ar L p, ar = circular \/ ar = spherical -> (1 <= L)%nat -> (0 < length (gp_radii p))%nat ->
  exists s, mk_shells ar L p (Some no_zero) = Ret (Some s) /\
    wanted (Some no_zero) p (ar_id ar 1) = seq 0 (length (gp_radii p)) /\
    forall l, steerable_attrs_j_iter ar s (ar_id ar 1) = Ret l -> (length l < length (gp_radii p))%nat.
Proof.
  intros ar L p K HL Hp. destruct (known ar K) as (P & I & Fr).
  assert (exists s, mk_shells ar L p (Some no_zero) = Ret (Some s)) as (s & E).
  { unfold mk_shells. rewrite gp_iter_eq; cbn [bind]. fold (rlist p).
    eexists. f_equal. cbn [sh_js].
    match goal with |- (if Nat.eqb ?x 0 then _ else _) = _ => assert (0 < x)%nat as Hx end.
    { destruct L as [|L]; [lia|]. cbn [seq map]. rewrite !list_sum_cons. cbn [nth snd]. rewrite (kept_count ar no_zero p 1).
      assert (length (sub ar (Some no_zero) p 1) = length (gp_radii p)) as ->.
      { rewrite <- (map_length fst), (proj1 (wanted_sub ar (Some no_zero) p 1)), wanted_no_zero, seq_length by (auto; lia). reflexivity. }
      pose proof (P 1%nat). nia. }
    match goal with |- (if Nat.eqb ?x 0 then _ else _) = _ => destruct (Nat.eqb_spec x 0); [lia|reflexivity] end. }
  exists s. split; [exact E|]. split; [apply wanted_no_zero; [exact K|lia]|].
  apply built_of in E. intros l El. unfold steerable_attrs_j_iter in El. rewrite Fr in El; cbn [bind] in El.
  rewrite (bu_p _ _ _ _ _ E), gp_iter_eq in El; cbn [bind] in El. fold (rlist p) in El.
  destruct (gp_radii p) as [|r rs] eqn:Er; [cbn in Hp; lia|].
  unfold rlist, gp_dim in El. rewrite Er in El. cbn [length seq map] in El.
  unfold enumerate in El. cbn [length seq List.combine walk_radial] in El. rewrite map_length, seq_length in El.
  assert (mask_at s 0 (ar_dim ar 1) = false) as M.
  { unfold mask_at. rewrite (bu_mask _ _ _ _ _ E). cbn [seq flat_map skipn].
    unfold kept, rlist, gp_dim. rewrite Er. cbn [length seq map flat_map]. rewrite (no_zero_id ar _ 0 K). cbn [Nat.eqb negb].
    destruct (ar_dim ar 0) as [|d] eqn:D0; [specialize (P 0%nat); lia|].
    destruct (ar_dim ar 1) as [|d1] eqn:D1; [specialize (P 1%nat); lia|]. reflexivity. }
  rewrite M in El. apply walk_radial_length in El. rewrite combine_length, !map_length, !seq_length in El. cbn [length]. lia.
Qed.

Lemma attrs_unfiltered_raises : forall ar L p s idx, mk_shells ar L p None = Ret (Some s) -> steerable_attrs ar s idx = Raise.
Proof.
  intros ar L p s idx E. apply built_of in E. unfold steerable_attrs. rewrite (bu_num _ _ _ _ _ E). reflexivity.
Qed.
Lemma attrs_filtered : forall ar L f p s, ar = circular \/ ar = spherical -> mk_shells ar L p (Some f) = Ret (Some s) ->
  exists l, steerable_attrs_iter ar s = Ret l /\
    forall i, (i < length l)%nat -> exists h, nth_error l i = Some h /\ steerable_attrs ar s i = Ret h.
Proof.
  intros ar L f p s K E. destruct (known ar K) as (P & I & Fr). apply built_of in E.
  eexists; split; [apply (attrs_iter_eq ar P L (Some f) p s E)|]. intros i Hi. rewrite imap_length in Hi.
  destruct (nth_error (kept_all ar (Some f) p (seq 0 (S L))) i) as [x|] eqn:Ex; [|apply nth_error_None in Ex; lia].
  eexists; split; [apply (imap_nth _ _ _ _ _ Ex)|]. apply (attrs_at ar L f p s i x E Ex).
Qed.

(** ** comparison *)
Open Scope R_scope.
Lemma t_allclose_refl : forall l, t_allclose l l = Ret true.
Proof.
  intros l; unfold t_allclose. rewrite Nat.eqb_refl; cbn [orb assert_ bind]. f_equal. apply forallb_forall.
  intros i _. apply np_isclose_refl. apply Rinv_0_lt_compat, pow_lt; lra.
Qed.
Lemma gp_eq_refl : forall p, gp_eq p p = Ret true.
Proof. intros p; unfold gp_eq. rewrite t_allclose_refl; cbn [bind]. apply t_allclose_refl. Qed.

Lemma cos_one : forall x, cos x = 1 -> exists n : Z, x = 2 * PI * IZR n.
Proof.
  intros x H. pose proof PI_RGT_0. destruct (rmod_cong x (2 * PI) ltac:(lra)) as [n E]. exists n.
  rewrite E, cos_2PI_Z in H. apply cos_1_range in H; [lra|]. apply rmod_range; lra.
Qed.

Lemma eq_ignores_axis : forall L p s a b, (1 <= L)%nat -> (0 < gp_dim p)%nat ->
  mk_shells circular L p None = Ret (Some s) -> ~ same_angle a b ->
  circ_eq s s a b = Ret true /\ exists x idx, (idx < sh_dim circular s)%nat /\ circ_value s a x idx <> circ_value s b x idx.
Proof.
  intros L p s a b HL Hp E N. apply built_of in E. split.
  - unfold circ_eq. rewrite gp_eq_refl; cbn [bind]. rewrite Nat.eqb_refl, (bu_mask _ _ _ _ _ E). reflexivity.
  - assert (exists q, nth_error (sub circular None p 1) 0 = Some q) as [q Eq].
    { cbn [sub]. destruct (nth_error (enumerate (rlist p)) 0) as [q|] eqn:Eq; [exists q; reflexivity|].
      apply nth_error_None in Eq. rewrite length_enumerate, rlist_length in Eq. lia. }
    exists (1 * cos a, 1 * sin a), (start circular None p 1 + 0 * ar_dim circular 1 + 0)%nat.
    split.
    + rewrite (bu_dim _ _ _ _ _ E). unfold start. cbn [seq]. destruct L as [|L]; [lia|]. cbn [seq map].
      rewrite !list_sum_cons. cbn [sub]. rewrite length_enumerate, rlist_length. cbn [circular ar_dim Nat.ltb Nat.leb list_sum fold_right]. lia.
    + rewrite !circ_value_eq.
      rewrite !(value_at circular circ_pos L p None s _ _ 1 0 0 q E ltac:(lia) Eq (circ_pos 1)).
      rewrite !yv_polar by lra. destruct (Rle_dec 1 (/ 10 ^ 9)) as [H|_].
      { exfalso. apply (Rmult_le_compat_r (10 ^ 9)) in H; [|apply pow_le; lra].
        rewrite Rinv_l in H by (apply pow_nonzero; lra). rewrite Rmult_1_l in H. lra. }
      replace (a - a) with 0 by ring.
      cbn [circular ar_first Nat.ltb Nat.leb Nat.mul Nat.add Nat.sub]. unfold hs. cbn [Nat.eqb Nat.odd Nat.even negb Nat.add].
      change ((1 + 1) / 2)%nat with 1%nat. rewrite INR_1 || change (INR 1) with 1. rewrite !Rmult_1_l, cos_0.
      intros C. apply Rmult_eq_reg_l in C.
      * apply N. destruct (cos_one (a - b) (eq_sym C)) as [n Hn]. exists n. lra.
      * unfold gp_sample. match goal with |- exp ?x <> 0 => pose proof (exp_pos x); lra end.
Qed.
