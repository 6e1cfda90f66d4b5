(** GNormBatchNorm: what a call does after any history, transformed histories, and
    resets. *)
From Coq Require Import Reals List ZArith Arith Bool Lia Lra Permutation.
From Verif Require Import LibRes LibPy LibMat LibMatS RepModel RepProofs SpecRepr FieldModel SpecField FieldProofs BranchProofs LabelThms MergeThms GroupedModel GroupedProofs NonlinModel SpecNonlin NonlinProofs PoolModel ImageModel BatchNormModel SpecBatch BatchNormProofs BatchThms NormBNThms FNormModel SpecFNorm KeyedProofs FNormProofs NamedProofs IIDThms GNormProofs GNormThms.
Import ListNotations.
Open Scope R_scope.

Lemma centre_ext : forall l n N u w t, (t < n)%nat -> (forall s p, (s < n)%nat -> (p < N)%nat -> u s p = w s p) -> centre l N u t = centre l N w t.
Proof. intros l n N u w t Ht H. unfold centre. destruct (triv l t); [|reflexivity]. f_equal. apply sumn_ext. intros p Hp. apply H; assumption. Qed.
Lemma irrep_variance_ext : forall l n N u w o, (forall s p, (s < n)%nat -> (p < N)%nat -> u s p = w s p) -> irrep_variance l n N u o = irrep_variance l n N w o.
Proof.
  intros l n N u w o H. unfold irrep_variance. f_equal. apply sumn_ext. intros t Ht. destruct (Nat.eqb _ _); [|reflexivity]. apply sumn_ext. intros p Hp.
  rewrite (centre_ext l n N u w t Ht H), (H t p Ht Hp). reflexivity.
Qed.

Section GN.
Context {A L : Type}.
Variable size : A -> nat.
Variable name : A -> L.
Variable irreps : A -> list (nat * bool).
Variable cob inv : A -> mat.
Variable leqb : L -> L -> bool.
Hypothesis leqb_ok : forall a b, leqb a b = true <-> a = b.
Variable teqb : list A -> list A -> bool.
Variable ft uniq : list A.
Hypothesis Pos : Forall (fun r => (0 < size r)%nat) ft.
Hypothesis Lu : listing ft uniq.
Hypothesis Na : named_apart name ft.
Hypothesis Iok : forall r, In r ft -> irreps_ok (irreps r) (size r).
Hypothesis Inv : forall r, In r ft -> inverse_of (size r) (cob r) (inv r).
Hypothesis Sh : forall r, In r ft -> sharp (size r) (cob r).
Hypothesis Teq : teqb ft ft = true.
Variable affine track : bool.
Variable eps : R.
Variable mom : option R.
Variable m : gn_module (A := A) (L := L).
Variable st0 : gn_full (L := L).
Hypothesis Em : mk_gn size name irreps cob inv leqb affine track eps mom ft uniq = Ret (m, st0).
Variable junk : gtensor A chan -> list chan.
Hypothesis Lj : forall x, length (junk x) = type_size size ft.
Variable axes : gtensor A chan -> nat.
Hypothesis Ax : (forall x, axes x = 2%nat) \/ forall r, In r ft -> meq (size r) (size r) (cob r) mid.
Notation call := (fun t N st x => gn_forward size leqb teqb m t (axes x) N st (junk x) x).
Notation fits := (GNormThms.fits name irreps leqb ft affine mom).
Notation info := (gn_info_of size irreps cob inv).
Notation mk_ok := (GNormThms.mk_ok size name irreps cob inv leqb leqb_ok ft uniq Lu Na affine track eps mom m st0 Em).
Notation forward_ok := (GNormThms.forward_ok size name irreps cob inv leqb leqb_ok teqb ft uniq Pos Lu Na Iok Inv Sh Teq affine track eps mom m st0 Em).
Notation nlab r := (length (labelled leqb (map name ft) (name r))).

Lemma axes_ok : forall x, axes x = 2%nat \/ forall r, In r ft -> meq (size r) (size r) (cob r) mid.
Proof. intros x. destruct Ax as [H|H]; [left; apply H|right; exact H]. Qed.
Lemma fits0 : fits st0.
Proof. destruct mk_ok as (b & _ & _ & _ & _ & _ & _ & _ & _ & _ & F & _). exact F. Qed.
Lemma eps_ok : gm_eps m = eps.
Proof. destruct mk_ok as (b & _ & _ & _ & _ & _ & _ & _ & F & _). exact F. Qed.
Lemma reached : forall h st ys, (forall t N x, In (Call t N x) h -> (t = true -> 0 < N)%nat /\ g_type x = ft /\ batch size ft N (g_chans x)) ->
  run call (gn_set leqb) gn_reset_running_stats st0 h = Ret (st, ys) -> fits st.
Proof.
  intros h st ys H E. apply (run_fits call (gn_set leqb) gn_reset_running_stats fits (fun t N x => (t = true -> 0 < N)%nat /\ g_type x = ft /\ batch size ft N (g_chans x)) h) with (st := st0) (ys := ys); try assumption.
  - intros t N s x s' y F (HN & Tx & B) E'. destruct (forward_ok t (axes x) N s (junk x) x (axes_ok x) HN F Tx B (Lj x)) as (y' & Ey & F' & _). rewrite Ey in E'. apply Ret_inj in E'. injection E' as <- _. exact F'.
  - intros u s s' F E'. apply (GNormThms.set_fits name irreps leqb leqb_ok ft affine mom u s s' F E').
  - intros s F. apply GNormThms.reset_fits; assumption.
  - exact fits0.
Qed.

Theorem gn_value : forall h st ys, (forall t N x, In (Call t N x) h -> (t = true -> 0 < N)%nat /\ g_type x = ft /\ batch size ft N (g_chans x)) ->
  run call (gn_set leqb) gn_reset_running_stats st0 h = Ret (st, ys) ->
  forall (t : bool) N x, ((t = true \/ track = false) -> 0 < N)%nat -> g_type x = ft -> batch size ft N (g_chans x) ->
  exists st' y, call t N st x = Ret (st', y) /\ g_type y = ft /\ batch size ft N (g_chans y) /\ gs_count st' = (if t then S (gs_count st) else gs_count st) /\
    forall i r j, nth_error ft i = Some r -> named_rank leqb name ft i (name r) j ->
      let u := coord (inv r) (size r) (field_chans size ft (g_chans x) i) in
      exists g g' mu var, dget leqb (gs_groups st) (name r) = Some g /\ dget leqb (gs_groups st') (name r) = Some g' /\ gs_weight g' = gs_weight g /\ gs_bias g' = gs_bias g /\
        (forall c p, (c < size r)%nat -> (p < N)%nat -> ent (field_chans size ft (g_chans y) i) c p = sumn (size r) (fun k => cob r c k *
           ((u k p - mu k) * (match gs_weight g with Some w => nth (irrep_of (irreps r) k) (nth j w []) 0 | None => 1 end / sqrt (var (irrep_of (irreps r) k) + eps)) +
            match gs_bias g with Some b => along (irreps r) mid (size r) (nth j b []) k | None => 0 end))) /\
        (if t || negb track then (forall k, (k < size r)%nat -> mu k = centre (irreps r) N u k) /\ (forall o, (o < length (irreps r))%nat -> var o = irrep_variance (irreps r) (size r) N u o)
         else (forall k, mu k = along (irreps r) mid (size r) (nth j (gs_mean g) []) k) /\ (forall o, var o = Rmax 0 (nth o (nth j (gs_var g) []) 0))) /\
        (if t && track then
           let f := match mom with Some f => f | None => 1 / INR (gs_count st') end in
           (forall k, (k < length (trivial_channels (irreps r) (size r)))%nat ->
              nth k (nth j (gs_mean g') []) 0 = towards f (nth k (nth j (gs_mean g) []) 0) (centre (irreps r) N u (nth k (trivial_channels (irreps r) (size r)) 0%nat))) /\
           (forall o, (o < length (irreps r))%nat -> nth o (nth j (gs_var g') []) 0 = towards f (nth o (nth j (gs_var g) []) 0) (irrep_variance (irreps r) (size r) N u o))
         else gs_mean g' = gs_mean g /\ (match mom with Some f => 0 <= f <= 1 | None => True end \/ track = false -> g' = g)).
Proof.
  intros h st ys Hh E t N x HN Tx B. assert (F : fits st) by (apply (reached h st ys Hh E)).
  destruct (forward_ok t (axes x) N st (junk x) x (axes_ok x) (fun Q => HN (or_introl Q)) F Tx B (Lj x)) as (y & Ey & _ & Ty & By & Hy). eexists. exists y. split; [exact Ey|]. split; [exact Ty|]. split; [exact By|]. split; [reflexivity|].
  intros i r j Er Rk u. assert (In r ft) as Hr by (apply nth_error_In in Er; exact Er). destruct (Hy i r j Er Rk) as (g & Eg & Fg & Eg' & Efy).
  destruct (field_at size name leqb ft (g_chans x) r j i Rk) as [Ef Hj].
  set (nx := next size name irreps cob inv leqb ft track t _ N g (g_chans x) r) in *.
  pose proof (field_rect size ft N (g_chans x) i r B Er) as Rv. destruct (coords_ent size irreps cob inv ft Inv Sh r N _ Hr Rv) as [Rc Kc].
  set (cv := coords size irreps cob inv r N (field_chans size ft (g_chans x) i)) in *.
  assert (gs_weight nx = gs_weight g /\ gs_bias nx = gs_bias g) as [Enw Enb] by (unfold nx, next; destruct track; [destruct t|]; auto).
  pose proof (means_rows size name irreps cob inv leqb ft affine track mom t N g (g_chans x) r Fg) as Mr. pose proof (vars_rows size name irreps cob inv leqb ft affine track mom t N g (g_chans x) r Fg) as Vr.
  set (mus := means_used size name irreps cob inv leqb ft track t N g (g_chans x) r) in *. set (vrs := vars_used size name irreps cob inv leqb ft track t N g (g_chans x) r) in *.
  assert (fits_group name irreps leqb ft affine mom r nx) as Fnx.
  { unfold nx. pose proof Fg as Fg2. apply (GNormThms.next_fits size name irreps cob inv leqb leqb_ok ft uniq Na Iok Inv Sh affine track eps mom m st0 Em t (gs_count st) N g (g_chans x)) in Fg2; try assumption.
    - destruct t; exact Fg2.
    - intros Q. apply HN. left; exact Q. }
  exists g, nx, (along (irreps r) mid (size r) (nth j mus [])), (fun o => nth o (nth j vrs []) 0). split; [exact Eg|]. split; [exact Eg'|]. split; [exact Enw|]. split; [exact Enb|].
  assert (nth j (new_means size name irreps cob inv leqb ft N (g_chans x) r) [] = gn_means (info r) cv) as Enm.
  { unfold new_means. match goal with |- nth j (map ?H ?l) [] = _ => rewrite (nth_indep (map H l) [] (H [])) by (rewrite !map_length; exact Hj); rewrite (map_nth H) end. rewrite Ef. reflexivity. }
  assert (nth j (new_vars size name irreps cob inv leqb ft N (g_chans x) r) [] = gn_vars (info r) N cv) as Env.
  { unfold new_vars. match goal with |- nth j (map ?H ?l) [] = _ => rewrite (nth_indep (map H l) [] (H [])) by (rewrite !map_length; exact Hj); rewrite (map_nth H) end. rewrite Ef. reflexivity. }
  split; [|split].
  - intros c p Hc Hp. rewrite Efy. destruct (gfield_ent size name irreps cob inv leqb ft Iok Sh affine mom m r N nx mus vrs j cv Hr Fnx Hj Rc (rows_nth _ _ _ j Mr Hj) (rows_nth _ _ _ j Vr Hj)) as [_ K].
    rewrite (K c p Hc Hp), eps_ok. apply sumn_ext. intros k Hk. unfold weight_at, bias_at. rewrite Enw, Enb, (Kc k p Hk Hp). reflexivity.
  - unfold mus, vrs, means_used, vars_used. destruct (t || negb track) eqn:Q.
    + assert (0 < N)%nat as HN'. { apply orb_prop in Q. apply HN. destruct Q as [Q|Q]; [left; exact Q|right; destruct track; [discriminate|reflexivity]]. }
      rewrite Enm. split.
      * intros k Hk. rewrite (along_means (irreps r) (size r) N (Iok r Hr) (info r) eq_refl cv Rc k Hk). apply (centre_ext _ (size r) N _ u k Hk). exact Kc.
      * intros o Ho. rewrite (nth_map_map clamp _ _ _ clamp_0), Env. destruct (gn_vars_nth (irreps r) (size r) N (Iok r Hr) HN' (info r) eq_refl eq_refl eq_refl cv Rc o Ho) as [-> P]. rewrite clamp_pos by exact P.
        apply irrep_variance_ext. exact Kc.
    + split; [reflexivity|]. intros o. rewrite (nth_map_map clamp _ _ _ clamp_0). apply clamp_max.
  - unfold nx, next. destruct Fg as (Fm & Fv & Fn & _). destruct track; [|destruct t; cbn [andb]; split; try reflexivity].
    destruct t; cbn [andb].
    + assert (0 < N)%nat as HN' by (apply HN; left; reflexivity). cbn [gs_mean gs_var gs_count].
      destruct (blends_rows _ _ (average_factor mom (S (gs_count st))) _ _ Fm (new_means_rows size name irreps cob inv leqb ft N (g_chans x) r)) as [_ Km].
      destruct (blends_rows _ _ (average_factor mom (S (gs_count st))) _ _ Fv (new_vars_rows size name irreps cob inv leqb ft N (g_chans x) r)) as [_ Kv]. split.
      * intros k Hk. rewrite Km; [|exact Hj|rewrite (trivials_filter _ _ (Iok r Hr)); exact Hk]. unfold average_factor. f_equal. rewrite Enm.
        rewrite (gn_means_nth (irreps r) (size r) N (Iok r Hr) (info r) eq_refl cv Rc k Hk).
        assert (triv (irreps r) (nth k (trivial_channels (irreps r) (size r)) 0%nat) = true) as Tk by (apply (trivial_in _ _ _ (Iok r Hr)), nth_In, Hk).
        unfold centre. rewrite Tk. f_equal. apply sumn_ext. intros p Hp. apply Kc; [apply (triv_bound _ _ _ (Iok r Hr) Tk)|exact Hp].
      * intros o Ho. rewrite Kv by assumption. unfold average_factor. f_equal. rewrite Env. destruct (gn_vars_nth (irreps r) (size r) N (Iok r Hr) HN' (info r) eq_refl eq_refl eq_refl cv Rc o Ho) as [-> _].
        apply irrep_variance_ext. exact Kc.
    + cbn [gs_mean]. split; [reflexivity|]. intros [C|C]; [|discriminate]. rewrite (clamp_rows _ (Fn C)). destruct g; reflexivity.
Qed.

Variable rho : nat -> nat -> A -> mat.
Variable pi : nat -> nat -> nat.
Hypothesis Rep : forall k p r, In r ft -> represents (irreps r) (cob r) (inv r) (size r) (rho k p r).

(** the coordinates of transformed fields *)
Definition block_orthogonal_at (r : A) (D : nat -> mat) : Prop :=
  (forall p, orthogonal (size r) (D p)) /\ (forall p i j, (i < size r)%nat -> (j < size r)%nat -> irrep_of (irreps r) i <> irrep_of (irreps r) j -> D p i j = 0) /\
  (forall p i, (i < size r)%nat -> triv (irreps r) i = true -> D p i i = 1).
Lemma blocks : forall k r, In r ft -> forall N, exists D, block_orthogonal_at r D /\ forall p, (p < N)%nat -> meq (size r) (size r) (rho k p r) (mmul (size r) (mmul (size r) (cob r) (D p)) (inv r)).
Proof.
  intros k r Hr N. induction N as [|N (D & (H1 & H2 & H3) & H4)].
  - exists (fun _ => mid). split; [|intros p Hp; lia]. split; [|split].
    + intros p. destruct (Rep k 0%nat r Hr) as (_ & _). split; intros i j Hi Hj; unfold mmul, mtr, mid.
      * rewrite (sumn_single _ i); [|exact Hi|]; [rewrite Nat.eqb_refl, (Nat.eqb_sym j i); ring|]. intros d _ Nd. destruct (Nat.eqb_spec i d); [congruence|ring].
      * rewrite (sumn_single _ i); [|exact Hi|]; [rewrite Nat.eqb_refl; ring|]. intros d _ Nd. destruct (Nat.eqb_spec d i); [congruence|ring].
    + intros p i j _ _ Nij. unfold mid. destruct (Nat.eqb_spec i j); [congruence|reflexivity].
    + intros p i _ _. unfold mid. rewrite Nat.eqb_refl. reflexivity.
  - destruct (Rep k N r Hr) as (E & HE & OE & BE & TE). exists (fun p => if Nat.eqb p N then E else D p). split; [split; [|split]|].
    + intros p. destruct (Nat.eqb p N); [exact OE|apply H1].
    + intros p. destruct (Nat.eqb p N); [exact BE|apply H2].
    + intros p. destruct (Nat.eqb p N); [exact TE|apply H3].
    + intros p Hp. destruct (Nat.eqb_spec p N) as [->|Np]; [exact HE|apply H4; lia].
Qed.
Lemma coords_moved : forall k N x x' i r D, moved_batch size ft N (rho k) (pi k) x x' -> reorders N (pi k) -> nth_error ft i = Some r -> In r ft ->
  (forall p, (p < N)%nat -> meq (size r) (size r) (rho k p r) (mmul (size r) (mmul (size r) (cob r) (D p)) (inv r))) ->
  forall t p, (t < size r)%nat -> (p < N)%nat ->
    ent (coords size irreps cob inv r N (field_chans size ft x' i)) t p = sumn (size r) (fun s => D p t s * ent (coords size irreps cob inv r N (field_chans size ft x i)) s (pi k p)).
Proof.
  intros k N x x' i r D Mv Hpi Er Hr HD t p Ht Hp. pose proof Mv as (B & B' & _).
  destruct (coords_ent size irreps cob inv ft Inv Sh r N _ Hr (field_rect size ft N x i r B Er)) as [_ Kc]. destruct (coords_ent size irreps cob inv ft Inv Sh r N _ Hr (field_rect size ft N x' i r B' Er)) as [_ Kc'].
  rewrite Kc' by assumption. unfold coord. destruct Hpi as [P1 P2].
  rewrite (sumn_ext _ _ (fun d => sumn (size r) (fun e => inv r t d * rho k p r d e * ent (field_chans size ft x i) e (pi k p)))).
  2:{ intros d Hd. rewrite (moved_ent size ft N (rho k) (pi k) x x' i r d p Mv Er Hd Hp), <- sumn_scal_l. apply sumn_ext. intros; ring. }
  rewrite sumn_swap. rewrite (sumn_ext _ (fun s => D p t s * _) (fun s => sumn (size r) (fun e => D p t s * inv r s e * ent (field_chans size ft x i) e (pi k p)))).
  2:{ intros s Hs. rewrite Kc by (try assumption; apply P1; assumption). unfold coord. rewrite <- sumn_scal_l. apply sumn_ext. intros; ring. }
  rewrite (sumn_swap (size r) (size r) (fun s e => D p t s * inv r s e * ent (field_chans size ft x i) e (pi k p))). apply sumn_ext. intros e He. rewrite !sumn_scal_r. f_equal.
  apply (inv_M (cob r) (inv r) (size r) (Inv r Hr) (rho k p r) (D p) (HD p Hp) t e Ht He).
Qed.

Theorem gn_histories : forall h h', length h' = length h ->
  (forall k e, nth_error h k = Some e -> match e with
     | Call t N x => g_type x = ft /\ reorders N (pi k) /\ ((t = true \/ track = false) -> 0 < N)%nat /\
         exists x', nth_error h' k = Some (Call t N x') /\ g_type x' = ft /\ moved_batch size ft N (rho k) (pi k) (g_chans x) (g_chans x')
     | _ => nth_error h' k = Some e end) ->
  forall st ys, run call (gn_set leqb) gn_reset_running_stats st0 h = Ret (st, ys) ->
  exists ys', run call (gn_set leqb) gn_reset_running_stats st0 h' = Ret (st, ys') /\
    forall k t N x, nth_error h k = Some (Call t N x) -> exists y y', nth_error ys k = Some (Some y) /\ nth_error ys' k = Some (Some y') /\
      g_type y = ft /\ g_type y' = ft /\ moved_batch size ft N (rho k) (pi k) (g_chans y) (g_chans y').
Proof.
  intros h h' Ll H st ys E.
  set (rel := fun k (t : bool) N (x x' : gtensor A chan) => g_type x = ft /\ g_type x' = ft /\ reorders N (pi k) /\ ((t = true \/ track = false) -> 0 < N)%nat /\
    moved_batch size ft N (rho k) (pi k) (g_chans x) (g_chans x')).
  destruct (run_pair_mode call (gn_set leqb) gn_reset_running_stats fits rel h h' 0) with (st := st0) (r := (st, ys)) as (ys' & Er & Hy).
  - intros k t N s x x' F (Tx & Tx' & Hpi & HN & Mv). pose proof Mv as (B & B' & _).
    destruct (forward_ok t (axes x) N s (junk x) x (axes_ok x) (fun Q => HN (or_introl Q)) F Tx B (Lj x)) as (y & Ey & Fs & Ty & By & Hfy).
    destruct (forward_ok t (axes x') N s (junk x') x' (axes_ok x') (fun Q => HN (or_introl Q)) F Tx' B' (Lj x')) as (y' & Ey' & _ & Ty' & By' & Hfy').
    set (f := if t then average_factor mom (if t then S (gs_count s) else gs_count s) else 0) in *.
    assert (t || negb track = true -> forall r, In r ft -> new_means size name irreps cob inv leqb ft N (g_chans x') r = new_means size name irreps cob inv leqb ft N (g_chans x) r /\
       new_vars size name irreps cob inv leqb ft N (g_chans x') r = new_vars size name irreps cob inv leqb ft N (g_chans x) r) as Same.
    { intros Q r Hr. assert (0 < N)%nat as HN'. { apply orb_prop in Q. apply HN. destruct Q as [Q|Q]; [left; exact Q|right; destruct track; [discriminate|reflexivity]]. }
      destruct (blocks k r Hr N) as (D & (H1 & H2 & H3) & H4). unfold new_means, new_vars. rewrite !map_map.
      assert (forall i, In i (labelled leqb (map name ft) (name r)) -> gn_means (info r) (coords size irreps cob inv r N (field_chans size ft (g_chans x') i)) = gn_means (info r) (coords size irreps cob inv r N (field_chans size ft (g_chans x) i)) /\
        gn_vars (info r) N (coords size irreps cob inv r N (field_chans size ft (g_chans x') i)) = gn_vars (info r) N (coords size irreps cob inv r N (field_chans size ft (g_chans x) i))) as K.
      { intros i Hi. pose proof (lab_rep name leqb leqb_ok ft Na r i Hr Hi) as Er. pose proof (coords_moved k N (g_chans x) (g_chans x') i r D Mv Hpi Er Hr H4) as Hu.
        destruct (coords_ent size irreps cob inv ft Inv Sh r N _ Hr (field_rect size ft N (g_chans x) i r B Er)) as [Rc _]. destruct (coords_ent size irreps cob inv ft Inv Sh r N _ Hr (field_rect size ft N (g_chans x') i r B' Er)) as [Rc' _].
        set (u := coords size irreps cob inv r N (field_chans size ft (g_chans x) i)) in *. set (u' := coords size irreps cob inv r N (field_chans size ft (g_chans x') i)) in *. split.
        - apply (nth_ext _ _ 0 0); [unfold gn_means; rewrite !map_length; reflexivity|]. intros q Hq. rewrite (gn_means_length (irreps r) (info r) eq_refl) in Hq. rewrite (trivials_filter _ _ (Iok r Hr)) in Hq.
          rewrite !(gn_means_nth (irreps r) (size r) N (Iok r Hr) (info r) eq_refl) by assumption.
          assert (triv (irreps r) (nth q (trivial_channels (irreps r) (size r)) 0%nat) = true) as Tk by (apply (trivial_in _ _ _ (Iok r Hr)), nth_In, Hq).
          pose proof (centre_moved (irreps r) (size r) N (Iok r Hr) D (pi k) Hpi H2 H3 (ent u) (ent u') Hu (nth q (trivial_channels (irreps r) (size r)) 0%nat)) as Kc.
          unfold centre in Kc. rewrite Tk in Kc. exact Kc.
        - apply (nth_ext _ _ 0 0); [unfold gn_vars; rewrite !map_length; reflexivity|]. intros o Ho. rewrite (gn_vars_length (irreps r) N (info r) eq_refl) in Ho.
          destruct (gn_vars_nth (irreps r) (size r) N (Iok r Hr) HN' (info r) eq_refl eq_refl eq_refl u Rc o Ho) as [-> _]. destruct (gn_vars_nth (irreps r) (size r) N (Iok r Hr) HN' (info r) eq_refl eq_refl eq_refl u' Rc' o Ho) as [-> _].
          apply (irrep_variance_moved (irreps r) (size r) N (Iok r Hr) D (pi k) Hpi (fun p _ => H1 p) H2 H3 (ent u) (ent u') Hu). }
      split; apply map_ext_in; intros i Hi; apply K, Hi. }
    assert (forall g r, In r ft -> next size name irreps cob inv leqb ft track t f N g (g_chans x') r = next size name irreps cob inv leqb ft track t f N g (g_chans x) r) as Sn.
    { intros g r Hr. unfold next. destruct t; [|reflexivity]. destruct (Same eq_refl r Hr) as [-> ->]. reflexivity. }
    assert (forall g r, In r ft -> vars_used size name irreps cob inv leqb ft track t N g (g_chans x') r = vars_used size name irreps cob inv leqb ft track t N g (g_chans x) r) as Sv.
    { intros g r Hr. unfold vars_used. destruct (t || negb track) eqn:Q; [|reflexivity]. destruct (Same eq_refl r Hr) as [_ ->]. reflexivity. }
    assert (forall g r, In r ft -> means_used size name irreps cob inv leqb ft track t N g (g_chans x') r = means_used size name irreps cob inv leqb ft track t N g (g_chans x) r) as Sm.
    { intros g r Hr. unfold means_used. destruct (t || negb track) eqn:Q; [|reflexivity]. destruct (Same eq_refl r Hr) as [-> _]. reflexivity. }
    eexists. exists y, y'. split; [exact Ey|]. split; [|split; [exact Fs|]].
    + rewrite Ey'. f_equal. f_equal. f_equal. apply (fold_dset_ext name leqb ft uniq Lu). intros r Hr. apply Sn, Hr.
    + split; [exact Ty|]. split; [exact Ty'|]. split; [exact Hpi|]. split; [exact HN|]. apply moved_of_ent; try assumption. intros i r c p Er Hc Hp.
      assert (In r ft) as Hr by (apply nth_error_In in Er; exact Er). destruct (rank_of name leqb leqb_ok ft i r Er) as (j & Rk).
      destruct (Hfy i r j Er Rk) as (g & Eg & Fg & _ & ->). destruct (Hfy' i r j Er Rk) as (g2 & Eg2 & _ & _ & ->). rewrite Eg in Eg2. injection Eg2 as <-. rewrite Sn, Sv, Sm by exact Hr.
      destruct (field_at size name leqb ft (g_chans x) r j i Rk) as [_ Hj].
      assert (fits_group name irreps leqb ft affine mom r (next size name irreps cob inv leqb ft track t f N g (g_chans x) r)) as Fnx.
      { unfold f. pose proof Fg as Fg2. apply (GNormThms.next_fits size name irreps cob inv leqb leqb_ok ft uniq Na Iok Inv Sh affine track eps mom m st0 Em t (gs_count s) N g (g_chans x)) in Fg2; try assumption.
        - destruct t; exact Fg2.
        - intros Q. apply HN. left; exact Q. }
      set (nx := next size name irreps cob inv leqb ft track t f N g (g_chans x) r) in *.
      pose proof (means_rows size name irreps cob inv leqb ft affine track mom t N g (g_chans x) r Fg) as Mr. pose proof (vars_rows size name irreps cob inv leqb ft affine track mom t N g (g_chans x) r Fg) as Vr.
      set (mus := means_used size name irreps cob inv leqb ft track t N g (g_chans x) r) in *. set (vrs := vars_used size name irreps cob inv leqb ft track t N g (g_chans x) r) in *.
      destruct (coords_ent size irreps cob inv ft Inv Sh r N _ Hr (field_rect size ft N (g_chans x) i r B Er)) as [Rc _]. destruct (coords_ent size irreps cob inv ft Inv Sh r N _ Hr (field_rect size ft N (g_chans x') i r B' Er)) as [Rc' _].
      destruct (blocks k r Hr N) as (D & (H1 & H2 & H3) & H4). pose proof (coords_moved k N (g_chans x) (g_chans x') i r D Mv Hpi Er Hr H4) as Hu.
      destruct (gfield_ent size name irreps cob inv leqb ft Iok Sh affine mom m r N nx mus vrs j _ Hr Fnx Hj Rc (rows_nth _ _ _ j Mr Hj) (rows_nth _ _ _ j Vr Hj)) as [_ K].
      destruct (gfield_ent size name irreps cob inv leqb ft Iok Sh affine mom m r N nx mus vrs j _ Hr Fnx Hj Rc' (rows_nth _ _ _ j Mr Hj) (rows_nth _ _ _ j Vr Hj)) as [_ K'].
      set (u := coords size irreps cob inv r N (field_chans size ft (g_chans x) i)) in *. set (u' := coords size irreps cob inv r N (field_chans size ft (g_chans x') i)) in *.
      rewrite (K' c p Hc Hp). set (kk := fun o => weight_at nx j o / sqrt (nth o (nth j vrs []) 0 + gm_eps m)). set (mm := along (irreps r) mid (size r) (nth j mus [])).
      set (G := fun s => (ent u s (pi k p) - mm s) * kk (irrep_of (irreps r) s) + bias_at size irreps r nx j s).
      rewrite (sumn_ext _ _ (fun t0 => sumn (size r) (fun s0 => cob r c t0 * D p t0 s0 * G s0))).
      2:{ intros t0 Ht0. pose proof (normal_moved (irreps r) (size r) N (Iok r Hr) D (pi k) H2 H3 (ent u) (ent u') Hu mm (bias_at size irreps r nx j) kk t0 p Ht0 Hp) as Kn.
          transitivity (cob r c t0 * ((ent u' t0 p - mm t0) * kk (irrep_of (irreps r) t0) + bias_at size irreps r nx j t0)); [reflexivity|]. rewrite Kn.
          - rewrite <- sumn_scal_l. apply sumn_ext. intros; unfold G; ring.
          - intros s0 Hs0. apply along_out; [apply Iok, Hr|exact Hs0].
          - intros s0 Hs0. unfold bias_at. destruct (gs_bias nx); [|reflexivity]. apply along_out; [apply Iok, Hr|exact Hs0]. }
      rewrite sumn_swap. rewrite (sumn_ext _ (fun d => rho k p r c d * _) (fun d => sumn (size r) (fun s0 => rho k p r c d * cob r d s0 * G s0))).
      2:{ intros d Hd. rewrite (K d (pi k p) Hd) by (apply Hpi; exact Hp). rewrite <- sumn_scal_l. apply sumn_ext. intros; unfold G, kk, mm; ring. }
      rewrite (sumn_swap (size r) (size r) (fun d s0 => rho k p r c d * cob r d s0 * G s0)). apply sumn_ext. intros s0 Hs0. rewrite !sumn_scal_r. f_equal. symmetry.
      apply (M_cob (cob r) (inv r) (size r) (Inv r Hr) (rho k p r) (D p) (H4 p Hp) c s0 Hc Hs0).
  - intros u s s' F E'. apply (GNormThms.set_fits name irreps leqb leqb_ok ft affine mom u s s' F E').
  - intros s F. apply GNormThms.reset_fits; assumption.
  - exact Ll.
  - intros k e Ek. specialize (H k e Ek). destruct e as [t N x|w|]; try exact H. destruct H as (Tx & Hpi & Ho & x' & Ex' & Tx' & Mv). exists x'. split; [exact Ex'|]. cbn [Nat.add]. exact (conj Tx (conj Tx' (conj Hpi (conj Ho Mv)))).
  - exact fits0.
  - exact E.
  - exists ys'. split; [exact Er|]. intros k t N x Ek. destruct (Hy k t N x Ek) as (y & y' & E1 & E2 & (T1 & T2 & _ & _ & Mv)). exists y, y'. auto.
Qed.
End GN.
