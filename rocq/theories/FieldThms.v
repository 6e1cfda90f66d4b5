(** Indexing, splitting and concatenating geometric tensors. *)
From Coq Require Import List ZArith Arith Bool Lia.
From Verif Require Import LibRes LibPy FieldModel SpecField FieldProofs.
Import ListNotations.

Lemma mapM_index_nat : forall n l, Forall (fun i => i < n) l -> mapM (py_index n) (map Z.of_nat l) = Ret l.
Proof.
  intros n l H. induction H as [|i l Hi H IH]; [reflexivity|]. cbn [map mapM]. rewrite py_index_nat by exact Hi.
  cbn [bind]. rewrite IH. reflexivity.
Qed.

Section Field.
Context {A V : Type}.
Variable size : A -> nat.
Notation good := (good size).

Lemma py_slice_1 : forall {X} (l : list X) start stop,
  py_slice l start stop None = mapM (get_nth l)
    (seq (Z.to_nat (slice_end (Z.of_nat (length l)) 0 (Z.of_nat (length l)) start 0))
         (Z.to_nat (slice_end (Z.of_nat (length l)) 0 (Z.of_nat (length l)) stop (Z.of_nat (length l)) -
                    slice_end (Z.of_nat (length l)) 0 (Z.of_nat (length l)) start 0))).
Proof. intros X l start stop. unfold py_slice. rewrite slice_positions_1. reflexivity. Qed.

Lemma py_slice_chans : forall {X} (l : list X) a b, a <= b <= length l ->
  py_slice l (Some (Z.of_nat a)) (Some (Z.of_nat b)) None = Ret (firstn (b - a) (skipn a l)).
Proof.
  intros X l a b H. rewrite py_slice_1. unfold slice_end.
  destruct (Z.ltb_spec (Z.of_nat a) 0); [lia|]. destruct (Z.ltb_spec (Z.of_nat b) 0); [lia|].
  rewrite !Z.min_l by lia. rewrite Nat2Z.id. replace (Z.to_nat (Z.of_nat b - Z.of_nat a)) with (b - a) by lia.
  apply mapM_get_seq. lia.
Qed.

(** slices with step 1 *)
Lemma get_range_ok : forall (x : gtensor A V) start stop step y, good x -> step = None \/ step = Some 1%Z ->
  get_range size x start stop step = Ret y ->
  exists sel, slice_positions (length (g_type x)) start stop step = Ret sel /\ sel <> [] /\
    picks size (g_type x) (g_chans x) sel (g_type y) (g_chans y).
Proof.
  intros x start stop step y G Hst E.
  assert (slice_positions (length (g_type x)) start stop step = slice_positions (length (g_type x)) start stop None) as Est
    by (destruct Hst as [->| ->]; reflexivity).
  unfold get_range in E. set (ft := g_type x) in *. set (n := length ft) in *.
  set (a := match start with Some a => a | None => 0%Z end) in *.
  set (b := match stop with Some b => b | None => Z.of_nat n end) in *.
  apply bind_Ret in E. destruct E as (ca & Ea & E). apply bind_Ret in E. destruct E as (cb & Eb & E).
  apply py_get_Ret in Ea. destruct Ea as (i & Ei & Ni). apply py_get_Ret in Eb. destruct Eb as (j & Ej & Nj).
  unfold fields_start in Ei, Ni. unfold fields_end in Ej, Nj. rewrite starts_length in Ei. rewrite ends_length in Ej.
  rewrite starts_nth in Ni. rewrite ends_nth in Nj. fold ft n in Ei, Ej.
  pose proof (py_index_lt _ _ _ Ei) as Li. pose proof (py_index_lt _ _ _ Ej) as Lj.
  destruct (nth_error ft i) as [ri|] eqn:Eri; [|discriminate]. destruct (nth_error ft j) as [rj|] eqn:Erj; [|discriminate].
  injection Ni as <-. injection Nj as <-. cbn [Nat.add] in E.
  set (sel := seq (Z.to_nat (slice_end (Z.of_nat n) 0 (Z.of_nat n) start 0))
                  (Z.to_nat (slice_end (Z.of_nat n) 0 (Z.of_nat n) stop (Z.of_nat n) - slice_end (Z.of_nat n) 0 (Z.of_nat n) start 0))) in *.
  rewrite Est, slice_positions_1. fold sel. exists sel. split; [reflexivity|].
  assert (forall z k, py_index n z = Ret k -> ((0 <= z /\ z = Z.of_nat k) \/ (z < 0 /\ z = Z.of_nat k - Z.of_nat n))%Z) as PI.
  { intros z k. unfold py_index. destruct (Z.leb_spec 0 z), (Z.ltb_spec z (Z.of_nat n)); cbn [andb];
    destruct (Z.leb_spec (- Z.of_nat n) z), (Z.ltb_spec z 0); cbn [andb]; intros K; try discriminate; injection K as <-; lia. }
  assert (slice_end (Z.of_nat n) 0 (Z.of_nat n) start 0 = Z.of_nat i) as EA.
  { apply PI in Ei. unfold slice_end. destruct start as [v|]; cbn in a; subst a; [|lia]. destruct (Z.ltb_spec v 0); lia. }
  assert (b <> 0%Z -> slice_end (Z.of_nat n) 0 (Z.of_nat n) stop (Z.of_nat n) = Z.of_nat (S j)) as EB.
  { intros Nb. apply PI in Ej. unfold slice_end. destruct stop as [v|]; cbn in b; subst b; [|lia]. destruct (Z.ltb_spec v 0); lia. }
  assert (b = 0%Z -> slice_end (Z.of_nat n) 0 (Z.of_nat n) stop (Z.of_nat n) = 0%Z) as EB0.
  { intros Nb. unfold slice_end. destruct stop as [v|]; cbn in b; subst b; [subst v; cbn [Z.ltb Z.compare]; lia|lia]. }
  apply bind_Ret in E. destruct E as (t & Et & E).
  assert (sel <> [] -> map (nth_error ft) sel = map Some t -> picks size ft (g_chans x) sel (g_type y) (g_chans y)) as Fin.
  { intros Ne Esel. destruct (Z.eq_dec b 0) as [B0|B0].
    { exfalso. apply Ne. unfold sel. rewrite EA, (EB0 B0). replace (Z.to_nat (0 - Z.of_nat i)) with 0 by lia. reflexivity. }
    assert (sel = seq i (S j - i)) as Es.
    { unfold sel. rewrite EA, (EB B0), Nat2Z.id. f_equal. lia. }
    assert (i < S j) as Lij. { destruct (Nat.le_gt_cases (S j) i) as [H|H]; [|exact H]. rewrite Es in Ne.
      replace (S j - i) with 0 in Ne by lia. exfalso; apply Ne; reflexivity. }
    unfold py_slice in E. rewrite slice_positions_step1 in E. fold (py_slice (g_chans x) (Some (Z.of_nat (offset size ft i))) (Some (Z.of_nat (offset size ft (S j)))) None) in E.
    rewrite py_slice_chans in E.
    2:{ rewrite G. split; [apply offset_mono; lia|apply offset_le]. }
    cbn [bind] in E. unfold mk_gtensor in E. apply assert_Ret in E. destruct E as [_ E]. apply Ret_inj in E; subst y; cbn [g_type g_chans].
    split; [exact Esel|]. rewrite Es. replace (S j) with (i + (S j - i)) at 1 by lia. apply chans_range. fold n. lia. }
  destruct ((a =? 0)%Z && (b =? Z.of_nat n)%Z) eqn:Sc.
  - apply andb_prop in Sc. destruct Sc as [Sa Sb]. apply Z.eqb_eq in Sa; apply Z.eqb_eq in Sb. apply Ret_inj in Et; subst t.
    assert (i = 0) as ->. { apply PI in Ei. lia. }
    assert (S j = n) as Sj. { apply PI in Ej. lia. }
    assert (sel = seq 0 n) as Es. { unfold sel. rewrite EA, EB by lia. rewrite Sj. f_equal. lia. }
    assert (sel <> []) as Ne. { rewrite Es. destruct n; [lia|discriminate]. }
    split; [exact Ne|]. apply Fin; [exact Ne|]. rewrite Es. unfold n. apply mapM_get_ok.
    rewrite mapM_get_seq by lia. cbn [skipn]. rewrite firstn_all. reflexivity.
  - apply bind_Ret in Et. destruct Et as (r & Er & Et). unfold mk_type in Et. apply assert_Ret in Et. destruct Et as [Nr Et].
    apply Ret_inj in Et; subst t. unfold py_slice in Er. fold n in Er. rewrite Est, slice_positions_1 in Er. cbn [bind] in Er. fold sel in Er.
    apply mapM_get_ok in Er. assert (sel <> []) as Ne. { intros Es. rewrite Es in Er. destruct r; [discriminate Nr|discriminate Er]. }
    split; [exact Ne|]. apply Fin; assumption.
Qed.

(** which expression reaches axis 1 *)
Lemma expand_plain : forall m d s, ~ In IEllipsis s -> expand m d s = s.
Proof.
  intros m d s; induction s as [|i s IH]; intros H; [reflexivity|]. cbn.
  rewrite IH by (intros K; apply H; right; exact K). destruct i; try reflexivity. exfalso; apply H; left; reflexivity.
Qed.
Lemma expand_split : forall m pre post, ~ In IEllipsis pre -> ~ In IEllipsis post ->
  expand m false (pre ++ IEllipsis :: post) = pre ++ repeat (ISlice None None None) m ++ post.
Proof.
  intros m pre post; induction pre as [|i pre IH]; intros H H'.
  - cbn. rewrite expand_plain by exact H'. reflexivity.
  - cbn. rewrite IH by (try exact H'; intros K; apply H; right; exact K). destruct i; try reflexivity. exfalso; apply H; left; reflexivity.
Qed.
Lemma count_plain : forall s, ~ In IEllipsis s -> filter (fun i => negb (is_ellipsis i)) s = s.
Proof.
  induction s as [|i s IH]; intros H; [reflexivity|]. cbn. rewrite IH by (intros K; apply H; right; exact K).
  destruct i; try reflexivity. exfalso; apply H; left; reflexivity.
Qed.
Lemma nth_repeat' : forall {X} (x : X) m k, k < m -> nth_error (repeat x m) k = Some x.
Proof. intros X x m; induction m as [|m IH]; intros [|k] H; cbn; try lia; [reflexivity|]. apply IH; lia. Qed.

Lemma expand_entry : forall naxes s e, 2 <= naxes -> length s <= naxes -> entry naxes s 1 e ->
  let l := expand (naxes - length (filter (fun i => negb (is_ellipsis i)) s)) false s in
  nth_error l 1 = e /\ (e = None -> length l <= 1) /\ ~ In IEllipsis l.
Proof.
  intros naxes s e Hn Hl He. inversion He as [s' a H|pre post a H H']; subst; cbv zeta.
  - rewrite expand_plain by exact H. split; [reflexivity|]. split; [|exact H]. apply nth_error_None.
  - rewrite expand_split by assumption. rewrite filter_app. cbn [filter is_ellipsis negb].
    rewrite !count_plain by assumption. rewrite app_length. rewrite app_length in Hl. cbn [length] in Hl.
    split.
    + destruct (Nat.ltb_spec 1 (length pre)) as [L|L]; [rewrite nth_error_app1 by lia; reflexivity|].
      rewrite nth_error_app2 by lia.
      destruct (Nat.ltb_spec 1 (naxes - length post)) as [L2|L2].
      * rewrite nth_error_app1 by (rewrite repeat_length; lia). apply nth_repeat'. lia.
      * rewrite nth_error_app2 by (rewrite repeat_length; lia). rewrite repeat_length. f_equal. lia.
    + split.
      * intros En. apply nth_error_None. rewrite <- En.
        destruct (Nat.ltb_spec 1 (length pre)) as [L|L]; [rewrite nth_error_app1 by lia; reflexivity|].
        rewrite nth_error_app2 by lia.
        destruct (Nat.ltb_spec 1 (naxes - length post)) as [L2|L2].
        -- rewrite nth_error_app1 by (rewrite repeat_length; lia). apply nth_repeat'. lia.
        -- rewrite nth_error_app2 by (rewrite repeat_length; lia). rewrite repeat_length. f_equal. lia.
      * rewrite !in_app_iff. intros [K|[K|K]]; [auto| |auto]. apply repeat_spec in K. discriminate.
Qed.

Lemma chosen_means : forall n i fields, chosen_fields n i = Ret fields ->
  forall sel, mapM (py_index n) fields = Ret sel -> means n i sel.
Proof.
  intros n i fields E sel Es. destruct i as [z|a b k|mask|l|]; cbn [chosen_fields means] in *; try discriminate.
  - apply bind_Ret in E. destruct E as (p & Ep & E). apply Ret_inj in E; subst fields.
    rewrite mapM_index_nat in Es by (apply (slice_positions_lt _ _ _ _ _ Ep)). congruence.
  - apply bind_Ret in E. destruct E as (p & Ep & E). apply Ret_inj in E; subst fields.
    assert (forall s q, mapM (fun j => b <- get_nth mask j ;; Ret (j, b)) s = Ret q ->
       Forall (fun j => j < length mask) s /\ q = map (fun j => (j, nth j mask false)) s) as F.
    { induction s as [|j s IH]; intros q Eq; cbn [mapM] in Eq; [apply Ret_inj in Eq; subst; split; [constructor|reflexivity]|].
      apply bind_Ret in Eq. destruct Eq as (u & Eu & Eq). apply bind_Ret in Eu. destruct Eu as (b & Eb & Eu). apply Ret_inj in Eu; subst u.
      apply bind_Ret in Eq. destruct Eq as (q' & Eq' & Eq). apply Ret_inj in Eq; subst q.
      destruct (IH q' Eq') as [F1 ->]. apply get_nth_Ret in Eb. split.
      - constructor; [apply nth_error_Some; congruence|exact F1].
      - cbn [map]. rewrite (nth_error_nth mask j false Eb). reflexivity. }
    destruct (F _ _ Ep) as [F1 ->]. split.
    + destruct n as [|n]; [lia|]. rewrite Forall_forall in F1. specialize (F1 n ltac:(apply in_seq; lia)). lia.
    + clear - Es. assert (forall s, Forall (fun i => i < n) s ->
        mapM (py_index n) (map (fun q => Z.of_nat (fst q)) (filter snd (map (fun j => (j, nth j mask false)) s))) =
        Ret (filter (fun p => nth p mask false) s)) as H.
      { induction s as [|j s IH]; intros H; [reflexivity|]. inversion H; subst. cbn [map filter snd].
        destruct (nth j mask false); [|auto]. cbn [map mapM fst]. rewrite py_index_nat by assumption. cbn [bind]. rewrite IH by assumption. reflexivity. }
      rewrite H in Es; [congruence|]. apply Forall_forall; intros j Hj; apply in_seq in Hj; lia.
  - apply Ret_inj in E; subst. exact Es.
Qed.

(** *** C34 *)
Theorem getitem_selects : forall naxes (x y : gtensor A V) s e, good x -> 2 <= naxes -> entry naxes s 1 e ->
  (forall z, e = Some (IInt z) -> (- Z.of_nat (length (g_type x)) <= z)%Z) ->
  getitem size naxes x s = Ret y ->
  match e with
  | None => y = x
  | Some i => exists sel, means (length (g_type x)) i sel /\ sel <> [] /\
      picks size (g_type x) (g_chans x) sel (g_type y) (g_chans y)
  end.
Proof.
  intros naxes x y s e G Hn He Hz E. unfold getitem in E. apply assert_Ret in E. destruct E as [Hl E]. apply Nat.leb_le in Hl.
  destruct (expand_entry naxes s e Hn Hl He) as (E1 & E2 & E3). cbv zeta in E1, E2, E3.
  set (l := expand _ _ _) in *. destruct l as [|i0 [|i1 l]]; [discriminate| |].
  - cbn in E1. subst e. unfold mk_gtensor in E. apply assert_Ret in E. destruct E as [_ E]. apply Ret_inj in E; subst y.
    destruct x; reflexivity.
  - cbn in E1. subst e.
    assert (forall i, chosen_fields (length (g_type x)) i <> Raise -> get_fields size x i = Ret y ->
      exists sel, means (length (g_type x)) i sel /\ sel <> [] /\ picks size (g_type x) (g_chans x) sel (g_type y) (g_chans y)) as GF.
    { intros i Hc Ey. destruct (chosen_fields (length (g_type x)) i) as [|fields] eqn:Ef; [congruence|].
      apply (get_fields_iff size x i fields G Ef) in Ey. destruct Ey as (sel & Es & Ne & P).
      exists sel. split; [apply (chosen_means _ _ _ Ef _ Es)|]. auto. }
    destruct i1 as [z|a b k|mask|fl|]; cbn [as_slice is_unit_slice] in E.
    + rewrite Z.eqb_refl in E. apply get_range_ok in E; [|exact G|right; reflexivity].
      destruct E as (sel & Es & Ne & P). specialize (Hz z eq_refl). exists sel. split; [|auto].
      set (n := length (g_type x)) in *. cbn [means]. set (z' := if (z <? 0)%Z then (Z.of_nat n + z)%Z else z) in *.
      rewrite slice_positions_step1, slice_positions_1 in Es. apply Ret_inj in Es.
      assert (0 <= z')%Z as Pz by (unfold z'; destruct (Z.ltb_spec z 0); lia).
      unfold slice_end in Es. destruct (Z.ltb_spec z' 0); [lia|]. destruct (Z.ltb_spec (z' + 1) 0); [lia|].
      destruct (Z.le_gt_cases (Z.of_nat n) z') as [Big|Small].
      { exfalso. apply Ne. rewrite <- Es. rewrite !Z.min_r by lia. rewrite Z.sub_diag. reflexivity. }
      rewrite !Z.min_l in Es by lia. replace (z' + 1 - z')%Z with 1%Z in Es by lia. cbn [Z.to_nat seq Pos.to_nat Pos.iter_op] in Es.
      exists (Z.to_nat z'). split; [|symmetry; exact Es].
      unfold z' in *. destruct (Z.ltb_spec z 0).
      * rewrite py_index_neg by lia. f_equal. lia.
      * rewrite <- (Z2Nat.id z) at 1 by lia. apply py_index_nat. lia.
    + destruct k as [k|]; [destruct (Z.eqb_spec k 1) as [->|Nk]|].
      * apply get_range_ok in E; [|exact G|right; reflexivity]. exact E.
      * apply GF; [|exact E]. cbn [chosen_fields]. destruct (slice_positions _ a b (Some k)) eqn:Es; [|discriminate].
        unfold get_fields in E. cbn [chosen_fields] in E. rewrite Es in E. discriminate.
      * apply get_range_ok in E; [|exact G|left; reflexivity]. exact E.
    + apply GF; [|exact E]. intros Ec. unfold get_fields in E. rewrite Ec in E. discriminate.
    + apply GF; [discriminate|exact E].
    + exfalso. apply E3. right; left; reflexivity.
Qed.

(** an integer too small by a second length wraps around once more *)
Theorem getitem_wraps : forall (x : gtensor A V), good x -> 2 <= length (g_type x) ->
  let n := length (g_type x) in let z := (- Z.of_nat n - 2)%Z in
  py_index n z = Raise /\ exists y, getitem size 2 x [ISlice None None None; IInt z] = Ret y /\
    picks size (g_type x) (g_chans x) [n - 2] (g_type y) (g_chans y).
Proof.
  intros x G Hn n z. fold n in Hn. split.
  { unfold py_index, z. destruct (Z.leb_spec 0 (- Z.of_nat n - 2)); [lia|]. cbn [andb].
    destruct (Z.leb_spec (- Z.of_nat n) (- Z.of_nat n - 2)); [lia|]. reflexivity. }
  unfold getitem. cbn [length Nat.leb assert_ bind filter is_ellipsis negb Nat.sub expand as_slice is_unit_slice].
  destruct (Z.ltb_spec z 0); [|lia]. rewrite Z.eqb_refl. fold n. replace (Z.of_nat n + z)%Z with (-2)%Z by lia.
  destruct (nth_error (g_type x) (n - 2)) as [r|] eqn:Er; [|apply nth_error_None in Er; fold n in Er; lia].
  assert (py_index n (-2) = Ret (n - 2)) as Ei. { rewrite py_index_neg by lia. f_equal. lia. }
  destruct (py_get_fields size (g_type x) (-2) (n - 2) r Ei Er) as (_ & Es & Ee).
  unfold get_range. cbn [Z.add Z.opp Z.pos_sub Pos.pred_double]. fold n. rewrite Es; cbn [bind].
  change (-1 - 1)%Z with (-2)%Z. rewrite Ee; cbn [bind Z.eqb andb].
  unfold py_slice. rewrite !slice_positions_step1. fold (py_slice (g_type x) (Some (-2)%Z) (Some (-1)%Z) None).
  fold (py_slice (g_chans x) (Some (Z.of_nat (offset size (g_type x) (n - 2)))) (Some (Z.of_nat (offset size (g_type x) (S (n - 2))))) None).
  assert (py_slice (g_type x) (Some (-2)%Z) (Some (-1)%Z) None = Ret [r]) as ->.
  { rewrite py_slice_1. fold n. cbn [slice_end Z.ltb Z.compare].
    replace (Z.to_nat (Z.max (-2 + Z.of_nat n) 0)) with (n - 2) by lia.
    replace (Z.to_nat (Z.max (-1 + Z.of_nat n) 0 - Z.max (-2 + Z.of_nat n) 0)) with 1 by lia.
    cbn [seq mapM]. rewrite (proj2 (get_nth_Ret _ _ _ _) Er). reflexivity. }
  cbn [bind mk_type length Nat.eqb negb assert_].
  rewrite py_slice_chans.
  2:{ rewrite G. split; [apply offset_mono; lia|apply offset_le]. }
  cbn [bind]. rewrite (offset_S _ _ _ _ Er). replace (offset size (g_type x) (n - 2) + size r - offset size (g_type x) (n - 2)) with (size r) by lia.
  rewrite <- (field_chans_at size (g_type x) (g_chans x) (n - 2) r Er).
  unfold mk_gtensor. rewrite (field_chans_length size _ _ _ _ G Er). unfold type_size. cbn [map list_sum fold_right]. rewrite Nat.add_0_r, Nat.eqb_refl.
  cbn [assert_ bind]. eexists; split; [reflexivity|]. cbn [g_type g_chans]. split; [cbn; rewrite Er; reflexivity|].
  cbn [flat_map]. rewrite app_nil_r. reflexivity.
Qed.

(** what indexing by a list of fields accepts *)
Theorem getitem_long : forall naxes (x : gtensor A V) i0 l sel, good x -> 2 <= naxes -> i0 <> IEllipsis ->
  mapM (py_index (length (g_type x))) l = Ret sel -> sel <> [] ->
  exists y, getitem size naxes x [i0; ILong l] = Ret y.
Proof.
  intros naxes x i0 l sel G Hn H0 Es Ne. unfold getitem. cbn [length]. rewrite (proj2 (Nat.leb_le _ _) Hn). cbn [assert_ bind].
  rewrite count_plain, expand_plain by (intros [K|[K|[]]]; congruence). cbn [as_slice].
  assert (exists rs, map (nth_error (g_type x)) sel = map Some rs) as (rs & Ers).
  { assert (Forall (fun i => i < length (g_type x)) sel) as F.
    { apply mapM_Ret_inv in Es. clear - Es. induction Es as [|z i l sel H Es IH]; constructor; [apply (py_index_lt _ _ _ H)|exact IH]. }
    clear - F. induction F as [|i sel Hi F (rs & IH)]; [exists []; reflexivity|].
    destruct (nth_error (g_type x) i) as [r|] eqn:E; [|apply nth_error_None in E; lia]. exists (r :: rs). cbn [map]. congruence. }
  exists {| g_type := rs; g_chans := flat_map (field_chans size (g_type x) (g_chans x)) sel |}.
  apply (get_fields_iff size x (ILong l) l G eq_refl). exists sel. cbn [g_type g_chans]. split; [exact Es|]. split; [exact Ne|].
  split; [exact Ers|reflexivity].
Qed.
End Field.
