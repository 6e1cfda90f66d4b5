(** _IIDBatchNorm: what a call does after any history, and transformed histories. *)
From Coq Require Import Reals List ZArith Arith Bool Lia Lra Permutation.
From Verif Require Import LibRes LibPy LibMat LibMatS FieldModel SpecField FieldProofs BranchProofs LabelThms MergeThms GroupedModel GroupedProofs NonlinModel SpecNonlin NonlinProofs PoolModel ImageModel BatchNormModel SpecBatch BatchNormProofs BatchThms NormBNThms FNormModel SpecFNorm KeyedProofs FNormProofs NamedProofs IIDThms.
Import ListNotations.
Open Scope R_scope.

Section IID.
Context {A L : Type}.
Variable size : A -> nat.
Variable name : A -> L.
Variable irreps : A -> list (nat * bool).
Variable cob inv : A -> mat.
Variable leqb : L -> L -> bool.
Hypothesis leqb_ok : forall a b, leqb a b = true <-> a = b.
Variable teqb : list A -> list A -> bool.
Variable ft uniq : list A.
Hypothesis Pos : Forall (fun r => (0 < size r)%nat) ft.
Hypothesis Lu : listing ft uniq.
Hypothesis Na : named_apart name ft.
Hypothesis Iok : forall r, In r ft -> irreps_ok (irreps r) (size r).
Hypothesis Teq : teqb ft ft = true.
Variable affine track : bool.
Variable eps : R.
Variable mom : option R.
Variable m : iid_module (A := A) (L := L).
Variable st0 : iid_full (L := L).
Hypothesis Em : mk_iid size name irreps cob inv leqb affine track eps mom ft uniq = Ret (m, st0).
Variable junk : gtensor A chan -> list chan.
Hypothesis Lj : forall x, length (junk x) = type_size size ft.
Notation call := (fun t N st x => iid_forward size leqb teqb m t N st (junk x) x).
Notation fits := (fits size name irreps cob leqb ft affine).
Notation info := (iid_info_of size irreps cob inv).
Notation mk_ok := (mk_ok size name irreps cob inv leqb leqb_ok ft uniq Lu Na affine track eps mom m st0 Em).
Notation forward_ok := (forward_ok size name irreps cob inv leqb leqb_ok teqb ft uniq Pos Lu Na Iok Teq affine track eps mom m st0 Em).
Notation forward_fits := (forward_fits size name irreps cob inv leqb leqb_ok teqb ft uniq Pos Lu Na Iok Teq affine track eps mom m st0 Em).

Lemma fits0 : fits st0.
Proof. destruct mk_ok as (b & _ & _ & _ & _ & _ & _ & _ & _ & _ & F & _). exact F. Qed.
Lemma eps_ok : im_eps m = eps.
Proof. destruct mk_ok as (b & _ & _ & _ & _ & _ & _ & _ & F & _). exact F. Qed.
Lemma reached : forall h st ys, (forall t N x, In (Call t N x) h -> g_type x = ft /\ batch size ft N (g_chans x)) ->
  run call (iid_set leqb) iid_reset_running_stats st0 h = Ret (st, ys) -> fits st.
Proof.
  intros h st ys H E. apply (run_fits call (iid_set leqb) iid_reset_running_stats fits (fun t N x => g_type x = ft /\ batch size ft N (g_chans x)) h) with (st := st0) (ys := ys); try assumption.
  - intros t N s x s' y F [Tx B] E'. apply (forward_fits t N s (junk x) x s' y F); [|exact E']. auto.
  - intros u s s' F E'. apply (set_fits size name irreps cob leqb leqb_ok ft affine u s s' F E').
  - intros s F. apply reset_fits; assumption.
  - exact fits0.
Qed.

Theorem iid_value : forall h st ys, (forall t N x, In (Call t N x) h -> ((t = true \/ track = false) -> 1 < N)%nat /\ g_type x = ft /\ batch size ft N (g_chans x)) ->
  run call (iid_set leqb) iid_reset_running_stats st0 h = Ret (st, ys) ->
  forall (t : bool) N x, ((t = true \/ track = false) -> 1 < N)%nat -> g_type x = ft -> batch size ft N (g_chans x) ->
  exists st' y, call t N st x = Ret (st', y) /\ g_type y = ft /\ batch size ft N (g_chans y) /\ is_count st' = (if t then S (is_count st) else is_count st) /\
    forall i r j, nth_error ft i = Some r -> named_rank leqb name ft i (name r) j ->
      let v := field_chans size ft (g_chans x) i in
      let new_mean := fixed_part (irreps r) (cob r) (inv r) (size r) (avg N v) in
      let kept_mean := fun (g : iid_state) c => match is_mean g with Some ms => nth c (nth j ms []) 0 | None => 0 end in
      exists g g' mu var, dget leqb (is_groups st) (name r) = Some g /\ dget leqb (is_groups st') (name r) = Some g' /\ is_weight g' = is_weight g /\ is_bias g' = is_bias g /\
        (forall c p, (c < size r)%nat -> (p < N)%nat -> ent (field_chans size ft (g_chans y) i) c p =
           (ent v c p - mu c) * (match is_weight g with Some w => nth j w 0 | None => 1 end / sqrt (var + eps)) +
           match is_bias g with Some b => along (irreps r) (cob r) (size r) (nth j b []) c | None => 0 end) /\
        (if t || negb track then (forall c, (c < size r)%nat -> mu c = new_mean c) /\ var = variance (size r) N v else (forall c, mu c = kept_mean g c) /\ var = nth j (is_var g) 0) /\
        (if t && track then
           let f := match mom with Some f => f | None => 1 / INR (is_count st') end in
           (forall c, (c < size r)%nat -> kept_mean g' c = towards f (kept_mean g c) (new_mean c)) /\ nth j (is_var g') 0 = towards f (nth j (is_var g) 0) (variance (size r) N v)
         else g' = g).
Proof.
  intros h st ys Hh E t N x HN Tx B. assert (F : fits st) by (apply (reached h st ys); [intros t0 N0 x0 H0; apply Hh in H0; tauto|exact E]).
  destruct (forward_ok t N st (junk x) x F Tx B (Lj x)) as (y & Ey & Ty & By & Hy). eexists. exists y. split; [exact Ey|]. split; [exact Ty|]. split; [exact By|]. split; [reflexivity|].
  intros i r j Er Rk v new_mean kept_mean. assert (In r ft) as Hr by (apply nth_error_In in Er; exact Er). destruct (F r Hr) as (g & Eg & Fg).
  destruct (Hy i r j Er Rk) as (g1 & Eg1 & Ef). rewrite Eg in Eg1. injection Eg1 as <-.
  set (f := if t then average_factor mom (if t then S (is_count st) else is_count st) else 0) in *.
  pose proof (row_good size name irreps cob inv leqb ft Iok affine track t g N (g_chans x) r j i Hr Fg B Er Rk) as (G & U & K).
  pose proof (field_rect size ft N (g_chans x) i r B Er) as Rv. fold v in Rv, U.
  destruct (field_ok size irreps cob inv ft Iok m r N (next size name irreps cob inv leqb ft track t f g (g_chans x) r) (means_used size name irreps cob inv leqb ft track t g (g_chans x) r)
    (vars_used size name irreps cob inv leqb ft track t g (g_chans x) r) j v Hr Rv G) as [_ Kf].
  destruct (fields_nth size name leqb ft (g_chans x) r j i Rk) as [En Hj]. fold v in En.
  assert (is_weight (next size name irreps cob inv leqb ft track t f g (g_chans x) r) = is_weight g /\ is_bias (next size name irreps cob inv leqb ft track t f g (g_chans x) r) = is_bias g) as [Ew Eb']
    by (unfold next; destruct (t && track); split; reflexivity).
  exists g, (next size name irreps cob inv leqb ft track t f g (g_chans x) r), (at_row (nth j (means_used size name irreps cob inv leqb ft track t g (g_chans x) r) None)),
    (nth j (vars_used size name irreps cob inv leqb ft track t g (g_chans x) r) 0).
  split; [exact Eg|]. split; [cbn [is_groups]; rewrite (named_get name leqb leqb_ok ft uniq Lu Na _ _ r Hr); rewrite Eg; reflexivity|]. split; [exact Ew|]. split; [exact Eb'|].
  split; [|split].
  - intros c p Hc Hp. rewrite Ef. fold v. rewrite (Kf c p Hc Hp). unfold weight_at, bias_row. rewrite Ew, Eb', eps_ok. reflexivity.
  - destruct (t || negb track) eqn:Q.
    + assert ((1 < N)%nat) as HN' by (apply HN; destruct t; [left; reflexivity|right]; destruct track; [discriminate|reflexivity]).
      rewrite (U eq_refl). destruct (mean_row size irreps cob inv ft Iok r N v Hr Rv) as [_ Km]. split; [exact Km|].
      unfold vars_used. rewrite Q. rewrite (nth_indep _ 0 (iid_var (info r) [])) by (rewrite !map_length; exact Hj). rewrite (map_nth (iid_var (info r))), En.
      apply (var_ok size irreps cob inv ft Iok); [exact Hr|exact Rv|lia].
    + rewrite (K eq_refl). split; [reflexivity|]. unfold vars_used. rewrite Q. reflexivity.
  - destruct (t && track) eqn:Q; [|unfold next; rewrite Q; reflexivity]. apply andb_prop in Q. destruct Q as [Qt Qk]. subst t.
    assert ((1 < N)%nat) as HN' by (apply HN; left; reflexivity). cbn zeta. cbn [is_count]. unfold next. rewrite Qk. cbn [andb is_mean is_var]. unfold f, average_factor.
    destruct Fg as (Fv & Fm & _). split.
    + intros c Hc. unfold kept_mean. cbn [is_mean]. destruct (is_mean g) as [old|] eqn:Eo.
      * destruct Fm as (Nt & Lo & Fo).
        match goal with |- nth c (nth j (map ?H ?l) []) 0 = _ => rewrite (nth_indep (map H l) [] (H ([], None))) by (rewrite map_length, combine_length, !map_length; lia); rewrite (map_nth H) end.
        rewrite combine_nth by (rewrite !map_length; exact Lo). cbn [fst snd].
        rewrite (nth_indep (map (iid_mean (info r)) _) None (iid_mean (info r) [])) by (rewrite !map_length; exact Hj). rewrite (map_nth (iid_mean (info r))), En.
        destruct (mean_row size irreps cob inv ft Iok r N v Hr Rv) as [Gm Km]. unfold new_mean. rewrite <- (Km c Hc).
        rewrite Forall_forall in Fo. destruct (Fo (nth j old []) ltac:(apply nth_In; lia)) as [Lr _].
        destruct (iid_mean (info r) v) as [new|] eqn:Ei; cbn [at_row].
        -- cbn [good_row] in Gm. rewrite blend_nth by lia. reflexivity.
        -- unfold iid_mean in Ei. destruct (has_trivial (info r)) eqn:Ht; [discriminate|]. apply has_false in Ht. congruence.
      * unfold new_mean. rewrite (fixed_none size irreps cob inv ft Iok r _ c Hr Fm). unfold towards. ring.
    + rewrite blend_nth by (rewrite ?map_length; lia). f_equal. rewrite (nth_indep _ 0 (iid_var (info r) [])) by (rewrite !map_length; exact Hj). rewrite (map_nth (iid_var (info r))), En.
      apply (var_ok size irreps cob inv ft Iok); [exact Hr|exact Rv|lia].
Qed.

Hypothesis Inv : forall r, In r ft -> inverse_of (size r) (cob r) (inv r).
Variable rho : nat -> nat -> A -> mat.
Variable pi : nat -> nat -> nat.
Hypothesis Rep : forall k p r, In r ft -> represents (irreps r) (cob r) (inv r) (size r) (rho k p r).

(** vectors along the trivial irreps are fixed *)
Lemma rho_fixes_span : forall k p r row c, In r ft -> spanned size irreps cob r row -> (c < size r)%nat -> sumn (size r) (fun d => rho k p r c d * nth d row 0) = nth c row 0.
Proof.
  intros k p r row c Hr (_ & b & Hb) Hc. destruct (Rep k p r Hr) as (D & HM & _ & Db & Dt). rewrite (Hb c Hc).
  rewrite (sumn_ext _ _ (fun d => sumn (size r) (fun t => if triv (irreps r) t then (rho k p r c d * cob r d t) * b t else 0))).
  2:{ intros d Hd. rewrite (Hb d Hd), <- sumn_scal_l. apply sumn_ext. intros t _. destruct (triv (irreps r) t); ring. }
  rewrite sumn_swap. apply sumn_ext. intros t Ht. destruct (triv (irreps r) t) eqn:Et; [|apply sumn_0; reflexivity].
  rewrite sumn_scal_r. rewrite (M_fixes (irreps r) (cob r) (inv r) (size r) (Iok r Hr) (Inv r Hr) (rho k p r) D HM Db Dt t c Et Hc). reflexivity.
Qed.
Lemma rho_fixes_bias : forall k p r g j c, In r ft -> (c < size r)%nat -> sumn (size r) (fun d => rho k p r c d * bias_row size irreps cob r g j d) = bias_row size irreps cob r g j c.
Proof.
  intros k p r g j c Hr Hc. destruct (Rep k p r Hr) as (D & HM & _ & Db & Dt). unfold bias_row. destruct (is_bias g) as [b|]; [|apply sumn_0; intros; ring].
  apply (along_fixed (irreps r) (cob r) (inv r) (size r) (Iok r Hr) (Inv r Hr) (rho k p r) D HM Db Dt (nth j b []) c Hc).
Qed.
Lemma moved_stats : forall k N x x' i r, (1 < N)%nat -> reorders N (pi k) -> (forall p, (p < N)%nat -> meq (size r) (size r) (rho k p r) (rho k 0%nat r)) -> orthogonal (size r) (rho k 0%nat r) ->
  moved_batch size ft N (rho k) (pi k) x x' -> nth_error ft i = Some r ->
  iid_mean (info r) (field_chans size ft x' i) = iid_mean (info r) (field_chans size ft x i) /\ iid_var (info r) (field_chans size ft x' i) = iid_var (info r) (field_chans size ft x i).
Proof.
  intros k N x x' i r HN Hpi Hc Ho Mv Er. assert (In r ft) as Hr by (apply nth_error_In in Er; exact Er). pose proof Mv as (B & B' & _).
  pose proof (field_rect size ft N x i r B Er) as Rv. pose proof (field_rect size ft N x' i r B' Er) as Rv'.
  set (v := field_chans size ft x i) in *. set (v' := field_chans size ft x' i) in *.
  assert (forall c p, (c < size r)%nat -> (p < N)%nat -> ent v' c p = sumn (size r) (fun d => rho k 0%nat r c d * ent v d (pi k p))) as He.
  { intros c p Hc' Hp. unfold v, v'. rewrite (moved_ent size ft N (rho k) (pi k) x x' i r c p Mv Er Hc' Hp). apply sumn_ext. intros d Hd. rewrite (Hc p Hp c d Hc' Hd). reflexivity. }
  split.
  - unfold iid_mean. destruct (has_trivial (info r)); [|reflexivity]. f_equal. apply list_ext; [rewrite !lin_length; reflexivity|]. intros c Hcl. rewrite lin_length in Hcl.
    rewrite !lin_nth by exact Hcl. cbn [iid_info_of ii_size ii_avg] in Hcl |- *.
    rewrite (sumn_ext _ _ (fun d => mmul (size r) (mmul (size r) (cob r) (mask (trivials 0 (irreps r)))) (inv r) c d * avg N v' d)) by (intros d Hd; rewrite (means_nth (size r) N v' d Rv' Hd); reflexivity).
    rewrite (sumn_ext _ (fun d => _ * nth d (map mean v) 0) (fun d => mmul (size r) (mmul (size r) (cob r) (mask (trivials 0 (irreps r)))) (inv r) c d * avg N v d)) by (intros d Hd; rewrite (means_nth (size r) N v d Rv Hd); reflexivity).
    rewrite !(avg_matrix (irreps r) (size r) (cob r) (inv r) _ c (Iok r Hr) Hcl). destruct (Rep k 0%nat r Hr) as (D & HM & _ & Db & Dt).
    apply (fixed_part_moved (irreps r) (cob r) (inv r) (size r) (Iok r Hr) (Inv r Hr) (rho k 0%nat r) D HM Db Dt). intros d Hd.
    apply (avg_moved (size r) N (rho k 0%nat r) (pi k) v v' d Hpi He Hd).
  - rewrite !(var_ok size irreps cob inv ft Iok r N) by (try assumption; lia). apply (variance_moved (size r) N (rho k 0%nat r) (pi k)); try assumption. lia.
Qed.

Theorem iid_histories : forall h h', length h' = length h ->
  (forall k e, nth_error h k = Some e -> match e with
     | Call t N x => g_type x = ft /\ reorders N (pi k) /\
         ((t = true \/ track = false) -> (1 < N)%nat /\ forall r, In r ft -> orthogonal (size r) (rho k 0%nat r) /\ forall p, (p < N)%nat -> meq (size r) (size r) (rho k p r) (rho k 0%nat r)) /\
         exists x', nth_error h' k = Some (Call t N x') /\ g_type x' = ft /\ moved_batch size ft N (rho k) (pi k) (g_chans x) (g_chans x')
     | _ => nth_error h' k = Some e end) ->
  forall st ys, run call (iid_set leqb) iid_reset_running_stats st0 h = Ret (st, ys) ->
  exists ys', run call (iid_set leqb) iid_reset_running_stats st0 h' = Ret (st, ys') /\
    forall k t N x, nth_error h k = Some (Call t N x) -> exists y y', nth_error ys k = Some (Some y) /\ nth_error ys' k = Some (Some y') /\
      g_type y = ft /\ g_type y' = ft /\ moved_batch size ft N (rho k) (pi k) (g_chans y) (g_chans y').
Proof.
  intros h h' Ll H st ys E.
  set (rel := fun k (t : bool) N (x x' : gtensor A chan) => g_type x = ft /\ g_type x' = ft /\ reorders N (pi k) /\
    ((t = true \/ track = false) -> (1 < N)%nat /\ forall r, In r ft -> orthogonal (size r) (rho k 0%nat r) /\ forall p, (p < N)%nat -> meq (size r) (size r) (rho k p r) (rho k 0%nat r)) /\
    moved_batch size ft N (rho k) (pi k) (g_chans x) (g_chans x')).
  destruct (run_pair_mode call (iid_set leqb) iid_reset_running_stats fits rel h h' 0) with (st := st0) (r := (st, ys)) as (ys' & Er & Hy).
  - intros k t N s x x' F (Tx & Tx' & Hpi & Ho & Mv). pose proof Mv as (B & B' & _).
    destruct (forward_ok t N s (junk x) x F Tx B (Lj x)) as (y & Ey & Ty & By & Hfy). destruct (forward_ok t N s (junk x') x' F Tx' B' (Lj x')) as (y' & Ey' & Ty' & By' & Hfy').
    set (count := if t then S (is_count s) else is_count s) in *. set (f := if t then average_factor mom count else 0) in *.
    set (nx := next size name irreps cob inv leqb ft track t f) in *.
    assert (t = true \/ track = false -> forall r, In r ft ->
       map (iid_mean (info r)) (map (field_chans size ft (g_chans x')) (labelled leqb (map name ft) (name r))) = map (iid_mean (info r)) (map (field_chans size ft (g_chans x)) (labelled leqb (map name ft) (name r))) /\
       map (iid_var (info r)) (map (field_chans size ft (g_chans x')) (labelled leqb (map name ft) (name r))) = map (iid_var (info r)) (map (field_chans size ft (g_chans x)) (labelled leqb (map name ft) (name r)))) as Same.
    { intros Hb r Hr. destruct (Ho Hb) as (HN & Hro). destruct (Hro r Hr) as [Or Cr].
      split; rewrite !map_map; apply map_ext_in; intros i Hi; apply (moved_stats k N (g_chans x) (g_chans x') i r HN Hpi Cr Or Mv); apply (lab_rep name leqb leqb_ok ft Na); assumption. }
    assert (forall g r, In r ft -> nx g (g_chans x') r = nx g (g_chans x) r) as Sn.
    { intros g r Hr. unfold nx, next. destruct (t && track) eqn:Q; [|reflexivity]. apply andb_prop in Q. destruct Q as [Qt _]. destruct (Same (or_introl Qt) r Hr) as [-> ->]. reflexivity. }
    assert (forall g r, In r ft -> vars_used size name irreps cob inv leqb ft track t g (g_chans x') r = vars_used size name irreps cob inv leqb ft track t g (g_chans x) r) as Sv.
    { intros g r Hr. unfold vars_used. destruct (t || negb track) eqn:Q; [|reflexivity]. apply orb_prop in Q. apply Same; [|exact Hr]. destruct Q as [Q|Q]; [left; exact Q|right; destruct track; [discriminate|reflexivity]]. }
    assert (forall g r, In r ft -> means_used size name irreps cob inv leqb ft track t g (g_chans x') r = means_used size name irreps cob inv leqb ft track t g (g_chans x) r) as Sm.
    { intros g r Hr. unfold means_used. destruct (t || negb track) eqn:Q.
      - apply orb_prop in Q. apply Same; [|exact Hr]. destruct Q as [Q|Q]; [left; exact Q|right; destruct track; [discriminate|reflexivity]].
      - destruct (is_mean g); [reflexivity|]. rewrite !map_map. reflexivity. }
    eexists. exists y, y'. split; [exact Ey|]. split; [|split].
    + rewrite Ey'. f_equal. f_equal. f_equal. apply (fold_dset_ext name leqb ft uniq Lu). intros r Hr. apply Sn, Hr.
    + apply (forward_fits t N s (junk x) x _ y F); [|exact Ey]. auto.
    + split; [exact Ty|]. split; [exact Ty'|]. split; [exact Hpi|]. split; [exact Ho|]. apply moved_of_ent; try assumption. intros i r c p Er Hc Hp.
      assert (In r ft) as Hr by (apply nth_error_In in Er; exact Er). destruct (rank_of name leqb leqb_ok ft i r Er) as (j & Rk). destruct (F r Hr) as (g & Eg & Fg).
      destruct (Hfy i r j Er Rk) as (g1 & Eg1 & ->). destruct (Hfy' i r j Er Rk) as (g2 & Eg2 & ->). rewrite Eg in Eg1, Eg2. injection Eg1 as <-. injection Eg2 as <-.
      fold nx. rewrite Sn, Sv, Sm by exact Hr.
      pose proof (row_good size name irreps cob inv leqb ft Iok affine track t g N (g_chans x) r j i Hr Fg B Er Rk) as (G & U & K).
      pose proof (field_rect size ft N (g_chans x) i r B Er) as Rv. pose proof (field_rect size ft N (g_chans x') i r B' Er) as Rv'.
      set (ms := nth j (means_used size name irreps cob inv leqb ft track t g (g_chans x) r) None) in *.
      destruct (field_ok size irreps cob inv ft Iok m r N (nx g (g_chans x) r) (means_used size name irreps cob inv leqb ft track t g (g_chans x) r)
        (vars_used size name irreps cob inv leqb ft track t g (g_chans x) r) j _ Hr Rv G) as [_ Kf].
      destruct (field_ok size irreps cob inv ft Iok m r N (nx g (g_chans x) r) (means_used size name irreps cob inv leqb ft track t g (g_chans x) r)
        (vars_used size name irreps cob inv leqb ft track t g (g_chans x) r) j _ Hr Rv' G) as [_ Kf'].
      rewrite (Kf' c p Hc Hp). rewrite (moved_ent size ft N (rho k) (pi k) _ _ i r c p Mv Er Hc Hp).
      assert (sumn (size r) (fun d => rho k p r c d * at_row ms d) = at_row ms c) as Fix.
      { destruct (t || negb track) eqn:Q.
        - destruct ms as [mu|] eqn:Ems; cbn [at_row]; [|apply sumn_0; intros; ring]. apply rho_fixes_span; [exact Hr| |exact Hc].
          apply (mean_spanned size irreps cob inv ft Iok r N _ mu Hr Rv). rewrite <- (U eq_refl). reflexivity.
        - rewrite (K eq_refl). destruct Fg as (_ & Fm & _). destruct (is_mean g) as [old|]; [|apply sumn_0; intros; ring]. apply rho_fixes_span; [exact Hr| |exact Hc].
          destruct Fm as (_ & Lo & Fo). rewrite Forall_forall in Fo. apply Fo, nth_In. unfold named_rank in Rk. rewrite Lo. apply nth_error_Some. congruence. }
      set (kk := weight_at (nx g (g_chans x) r) j / sqrt (nth j (vars_used size name irreps cob inv leqb ft track t g (g_chans x) r) 0 + im_eps m)).
      rewrite (sumn_ext _ (fun d => rho k p r c d * ent (iid_field _ _ _ _ _ _ _) d (pi k p))
        (fun d => ((rho k p r c d * ent (field_chans size ft (g_chans x) i) d (pi k p) - rho k p r c d * at_row ms d) * kk) + rho k p r c d * bias_row size irreps cob r (nx g (g_chans x) r) j d)).
      2:{ intros d Hd. rewrite (Kf d (pi k p) Hd) by (apply Hpi; exact Hp). fold ms. fold kk. ring. }
      rewrite sumn_plus, rho_fixes_bias by assumption. rewrite sumn_scal_r, sumn_minus, Fix. reflexivity.
  - intros u s s' F E'. apply (set_fits size name irreps cob leqb leqb_ok ft affine u s s' F E').
  - intros s F. apply reset_fits; assumption.
  - exact Ll.
  - intros k e Ek. specialize (H k e Ek). destruct e as [t N x|w|]; try exact H. destruct H as (Tx & Hpi & Ho & x' & Ex' & Tx' & Mv). exists x'. split; [exact Ex'|]. cbn [Nat.add]. exact (conj Tx (conj Tx' (conj Hpi (conj Ho Mv)))).
  - exact fits0.
  - exact E.
  - exists ys'. split; [exact Er|]. intros k t N x Ek. destruct (Hy k t N x Ek) as (y & y' & E1 & E2 & (T1 & T2 & _ & _ & Mv)). exists y, y'. auto.
Qed.
End IID.
