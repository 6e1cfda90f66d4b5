(** _IIDBatchNorm: the exported module computes the same, and resets. *)
From Coq Require Import Reals List ZArith Arith Bool Lia Lra Permutation.
From Verif Require Import LibRes LibPy LibMat LibMatS FieldModel SpecField FieldProofs BranchProofs LabelThms MergeThms GroupedModel GroupedProofs NonlinModel SpecNonlin NonlinProofs PoolModel ImageModel BatchNormModel SpecBatch BatchNormProofs BatchThms NormBNThms InnerBNThms BatchExport BatchExpCor FNormModel SpecFNorm KeyedProofs FNormProofs NamedProofs IIDThms IIDCor.
Import ListNotations.
Open Scope R_scope.

Section Put.
Context {A L : Type}.
Variable size : A -> nat.
Variable name : A -> L.
Variable leqb : L -> L -> bool.
Hypothesis leqb_ok : forall a b, leqb a b = true <-> a = b.
Variable ft : list A.
Hypothesis Pos : Forall (fun r => (0 < size r)%nat) ft.
Hypothesis Na : named_apart name ft.
Variable bufs : list (L * channels).
Hypothesis Eb : buffers size leqb ft (map name ft) = Ret bufs.
Notation lab := (labelled leqb (map name ft)).

(** [blocks r] are the numbers of the fields of [r] *)
Definition sized (blocks : A -> list (list R)) (r : A) : Prop := length (blocks r) = length (lab (name r)) /\ Forall (fun w => length w = size r) (blocks r).
Definition placed (l : list A) (blocks : A -> list (list R)) (old v : list R) : Prop :=
  length v = type_size size ft /\ forall i r j, nth_error ft i = Some r -> named_rank leqb name ft i (name r) j ->
    (In r l -> field_chans size ft v i = nth j (blocks r) []) /\ (~ In r l -> field_chans size ft v i = field_chans size ft old i).
Lemma put_ok : forall r c blocks v, In r ft -> sized blocks r -> length v = type_size size ft -> lookup leqb bufs (name r) = Ret c ->
  exists v', put v c (concat (blocks r)) = Ret v' /\ placed [r] blocks v v'.
Proof.
  intros r c blocks v Hr [Lb Fb] Lv Ec. destruct (bufs_ok size name leqb leqb_ok ft Pos bufs Eb (name r) (in_map name ft r Hr)) as (c' & Ec' & Pc). assert (c' = c) by congruence; subst c'.
  assert (Forall2 (fun i w => exists q, nth_error ft i = Some q /\ length w = size q) (lab (name r)) (blocks r)) as F2.
  { assert (forall i, In i (lab (name r)) -> nth_error ft i = Some r) as K by (intros i Hi; apply (lab_rep name leqb leqb_ok ft Na); assumption).
    revert K Lb Fb. generalize (lab (name r)) as sel, (blocks r) as ws. clear. induction sel as [|i sel IH]; intros [|w ws] K Lw Fw; try discriminate; [constructor|].
    inversion Fw as [|? ? Hw Fw']; subst. constructor; [|apply IH; [intros; apply K; right; assumption|cbn in Lw; lia|exact Fw']]. exists r. split; [apply K; left; reflexivity|exact Hw]. }
  destruct (write_ok size ft (lab (name r)) (blocks r) v c Lv (labelled_NoDup leqb (map name ft) (name r)) F2) as (v' & Ew & Lv' & Hi & Ho); [rewrite Lv; exact Pc|].
  exists v'. split; [exact Ew|]. split; [exact Lv'|]. intros i q j Eq Rk. split.
  - intros [<-|[]]. assert (j < length (lab (name r)))%nat as Hj by (unfold named_rank in Rk; apply nth_error_Some; congruence).
    apply (Hi j i); [exact Rk|]. apply nth_error_nth'. lia.
  - intros Nq. apply Ho. intros Hin. apply Nq. left. apply (lab_rep name leqb leqb_ok ft Na r i Hr) in Hin. congruence.
Qed.
Lemma placed_cons : forall r l blocks v0 v1 v2, placed [r] blocks v0 v1 -> placed l blocks v1 v2 -> placed (r :: l) blocks v0 v2.
Proof.
  intros r l blocks v0 v1 v2 [L1 H1] [L2 H2]. split; [exact L2|]. intros i q j Eq Rk. destruct (H1 i q j Eq Rk) as [A1 B1]. destruct (H2 i q j Eq Rk) as [A2 B2].
  assert (In q l \/ ~ In q l) as [D|D] by apply Classical_Prop.classic.
  - split; [intros _; apply A2, D|]. intros N. exfalso. apply N. right; exact D.
  - split; [intros [->|K]; [rewrite (B2 D); apply A1; left; reflexivity|contradiction]|]. intros N. rewrite (B2 D). apply B1. intros [->|[]]. apply N. left; reflexivity.
Qed.
End Put.

Section IID.
Context {A L : Type}.
Variable size : A -> nat.
Variable name : A -> L.
Variable irreps : A -> list (nat * bool).
Variable cob inv : A -> mat.
Variable leqb : L -> L -> bool.
Hypothesis leqb_ok : forall a b, leqb a b = true <-> a = b.
Variable teqb : list A -> list A -> bool.
Variable ft uniq : list A.
Hypothesis Pos : Forall (fun r => (0 < size r)%nat) ft.
Hypothesis Lu : listing ft uniq.
Hypothesis Na : named_apart name ft.
Hypothesis Iok : forall r, In r ft -> irreps_ok (irreps r) (size r).
Hypothesis Teq : teqb ft ft = true.
Variable affine track : bool.
Variable eps : R.
Variable mom : option R.
Variable m : iid_module (A := A) (L := L).
Variable st0 : iid_full (L := L).
Hypothesis Em : mk_iid size name irreps cob inv leqb affine track eps mom ft uniq = Ret (m, st0).
Variable junk : gtensor A chan -> list chan.
Hypothesis Lj : forall x, length (junk x) = type_size size ft.
Notation call := (fun t N st x => iid_forward size leqb teqb m t N st (junk x) x).
Notation fits := (fits size name irreps cob leqb ft affine).
Notation info := (iid_info_of size irreps cob inv).
Notation ntriv r := (length (trivials 0 (irreps r))).
Notation mk_ok := (mk_ok size name irreps cob inv leqb leqb_ok ft uniq Lu Na affine track eps mom m st0 Em).
Notation forward_ok := (forward_ok size name irreps cob inv leqb leqb_ok teqb ft uniq Pos Lu Na Iok Teq affine track eps mom m st0 Em).

Variable st : iid_full (L := L).
Hypothesis Fst : fits st.
Definition grp (r : A) : iid_state := match dget leqb (is_groups st) (name r) with Some g => g | None => iid_start affine 0 (info r) end.
Definition Bv (r : A) : list (list R) := map (fun a => repeat a (size r)) (is_var (grp r)).
Definition Bm (r : A) : list (list R) := match is_mean (grp r) with Some rm => rm | None => map (fun _ => repeat 0 (size r)) (is_var (grp r)) end.
Definition Bw (r : A) : list (list R) := map (fun a => repeat a (size r)) (match is_weight (grp r) with Some w => w | None => [] end).
Definition Bb (r : A) : list (list R) := match is_bias (grp r) with Some gb => map (lin (size r) (ntriv r) (columns (trivials 0 (irreps r)) (cob r))) gb | None => map (fun _ => repeat 0 (size r)) (is_var (grp r)) end.

Lemma grp_fits : forall r, In r ft -> dget leqb (is_groups st) (name r) = Some (grp r) /\ fits_group size name irreps cob leqb ft affine r (grp r).
Proof. intros r Hr. destruct (Fst r Hr) as (g & Eg & Fg). unfold grp. rewrite Eg. auto. Qed.
Lemma Forall_map_len : forall {X} (f : X -> list R) n l, (forall a, length (f a) = n) -> Forall (fun w => length w = n) (map f l).
Proof. intros X f n l H. apply Forall_forall. intros w Hw. apply in_map_iff in Hw. destruct Hw as (a & <- & _). apply H. Qed.
Lemma sized_v : forall r, In r ft -> sized size name leqb ft Bv r.
Proof. intros r Hr. destruct (grp_fits r Hr) as (_ & Fv & _). split; unfold Bv; [rewrite map_length; exact Fv|]. apply Forall_map_len. intros; apply repeat_length. Qed.
Lemma sized_m : forall r, In r ft -> sized size name leqb ft Bm r.
Proof.
  intros r Hr. destruct (grp_fits r Hr) as (_ & Fv & Fm & _). unfold Bm, sized. destruct (is_mean (grp r)) as [rm|].
  - destruct Fm as (_ & Lm & Fm). split; [exact Lm|]. rewrite Forall_forall in Fm |- *. intros w Hw. apply Fm, Hw.
  - split; [rewrite map_length; exact Fv|]. apply Forall_map_len. intros; apply repeat_length.
Qed.
Lemma sized_w : forall r, In r ft -> affine = true -> sized size name leqb ft Bw r.
Proof.
  intros r Hr Ha. destruct (grp_fits r Hr) as (_ & _ & _ & Fw & _). unfold Bw, sized. destruct (is_weight (grp r)) as [w|]; [|congruence].
  split; [rewrite map_length; apply Fw|]. apply Forall_map_len. intros; apply repeat_length.
Qed.
Lemma sized_b : forall r, In r ft -> affine = true -> sized size name leqb ft Bb r.
Proof.
  intros r Hr Ha. destruct (grp_fits r Hr) as (_ & Fv & _ & _ & Fb). unfold Bb, sized. destruct (is_bias (grp r)) as [b|].
  - split; [rewrite map_length; apply Fb|]. apply Forall_map_len. intros; apply lin_length.
  - split; [rewrite map_length; exact Fv|]. apply Forall_map_len. intros; apply repeat_length.
Qed.
Lemma concat_zeros : forall {X} n (l : list X), concat (map (fun _ => repeat 0 n) l) = repeat 0 (n * length l).
Proof. intros X n l. induction l as [|a l IH]; cbn [map concat length]; [rewrite Nat.mul_0_r; reflexivity|]. rewrite IH, <- repeat_app. f_equal. lia. Qed.

Notation placed := (placed size name leqb ft).
Lemma placed_nil : forall B v, length v = type_size size ft -> placed [] B v v.
Proof. intros B v L0. split; [exact L0|]. intros i r j _ _. split; [intros []|reflexivity]. Qed.
Lemma loop_ok : forall l ms0 vs0 aff0 k0, (forall r, In r l -> In r ft) -> length ms0 = type_size size ft -> length vs0 = type_size size ft ->
  match aff0 with Some (w, b) => affine = true /\ length w = type_size size ft /\ length b = type_size size ft | None => affine = false end ->
  exists ms vs aff, iid_export_loop leqb m st (map (fun r => (name r, size r)) l) {| bn_affine := aff0; bn_stats := Some (ms0, vs0, k0) |} = Ret {| bn_affine := aff; bn_stats := Some (ms, vs, k0) |} /\
    placed l Bm ms0 ms /\ placed l Bv vs0 vs /\
    match aff0, aff with
    | Some (w0, b0), Some (w, b) => placed l Bw w0 w /\ placed l Bb b0 b
    | None, None => True
    | _, _ => False
    end.
Proof.
  destruct mk_ok as (b & Eb & _ & Ebuf & _ & Hi & _).
  induction l as [|r l IH]; intros ms0 vs0 aff0 k0 Hin Lm Lv La.
  - exists ms0, vs0, aff0. split; [reflexivity|]. split; [apply placed_nil, Lm|]. split; [apply placed_nil, Lv|]. destruct aff0 as [[w bi]|]; [split; apply placed_nil; apply La|exact I].
  - pose proof (Hin r (or_introl eq_refl)) as Hr. destruct (bufs_ok size name leqb leqb_ok ft Pos b Eb (name r) (in_map name ft r Hr)) as (c & Ec & _).
    destruct (grp_fits r Hr) as (Eg & Fg). pose proof Fg as (Fv & Fm & Fw & Fb).
    destruct (put_ok size name leqb leqb_ok ft Pos Na b Eb r c Bv vs0 Hr (sized_v r Hr) Lv Ec) as (vs1 & Ev & Pv).
    destruct (put_ok size name leqb leqb_ok ft Pos Na b Eb r c Bm ms0 Hr (sized_m r Hr) Lm Ec) as (ms1 & Ems & Pm).
    assert (exists aff1, match aff0 with
              | Some (w, bi) => gw <- match is_weight (grp r) with Some gw => Ret gw | None => Raise end ;;
                     w' <- put w c (spread (size r) gw) ;;
                     b' <- put bi c (match is_bias (grp r) with Some gb => concat (map (lin (size r) (ii_trivials (info r)) (ii_cob (info r))) gb) | None => repeat 0 (size r * length (is_var (grp r))) end) ;;
                     Ret (Some (w', b'))
              | None => Ret None end = Ret aff1 /\
        match aff0, aff1 with Some (w0, b0), Some (w, bi) => affine = true /\ placed [r] Bw w0 w /\ placed [r] Bb b0 bi | None, None => affine = false | _, _ => False end) as (aff1 & Eaff & Paff).
    { destruct aff0 as [[w0 b0]|]; [|exists None; auto]. destruct La as (Ha & Lw & Lb).
      destruct (put_ok size name leqb leqb_ok ft Pos Na b Eb r c Bw w0 Hr (sized_w r Hr Ha) Lw Ec) as (w1 & Ew & Pw).
      destruct (put_ok size name leqb leqb_ok ft Pos Na b Eb r c Bb b0 Hr (sized_b r Hr Ha) Lb Ec) as (b1 & Ebb & Pb).
      exists (Some (w1, b1)). split; [|auto]. unfold Bw in Ew. destruct (is_weight (grp r)) as [gw|]; [|congruence]. cbn [bind]. rewrite spread_blocks, Ew. cbn [bind].
      unfold Bb in Ebb. destruct (is_bias (grp r)) as [gb|]; [cbn [iid_info_of ii_trivials ii_cob]; rewrite Ebb; reflexivity|]. rewrite concat_zeros in Ebb. rewrite Ebb. reflexivity. }
    destruct (IH ms1 vs1 aff1 k0 (fun q Hq => Hin q (or_intror Hq)) (proj1 Pm) (proj1 Pv)) as (ms & vs & aff & El & Qm & Qv & Qa).
    { destruct aff0 as [[w0 b0]|], aff1 as [[w1 b1]|]; try contradiction; [|exact Paff]. destruct Paff as (Ha & Pw & Pb). split; [exact Ha|]. split; [apply Pw|apply Pb]. }
    exists ms, vs, aff. split; [|split; [|split]].
    + cbn [map iid_export_loop]. rewrite Ebuf, Ec. cbn [bind]. rewrite (Hi r Hr). cbn [bind]. unfold lookup at 1. rewrite Eg. cbn [bind bn_stats bn_affine].
      rewrite spread_blocks. fold (Bv r). rewrite Ev. cbn [bind].
      assert (match is_mean (grp r) with Some rm => concat rm | None => repeat 0 (size r * length (is_var (grp r))) end = concat (Bm r)) as ->
        by (unfold Bm; destruct (is_mean (grp r)); [reflexivity|rewrite concat_zeros; reflexivity]).
      rewrite Ems. cbn [bind]. rewrite Eaff. cbn [bind]. exact El.
    + eapply placed_cons; eassumption.
    + eapply placed_cons; eassumption.
    + destruct aff0 as [[w0 b0]|], aff1 as [[w1 b1]|], aff as [[w2 b2]|]; try contradiction; try exact I. destruct Paff as (_ & Pw & Pb), Qa as [Qw Qb]. split; eapply placed_cons; eassumption.
Qed.
Lemma placed_nth : forall B old v i r j o, placed uniq B old v -> nth_error ft i = Some r -> named_rank leqb name ft i (name r) j -> (o < size r)%nat ->
  nth (offset size ft i + o) v 0 = nth o (nth j (B r) []) 0.
Proof.
  intros B old v i r j o [Lv H] Er Rk Ho. destruct (H i r j Er Rk) as [H1 _]. rewrite <- H1 by (apply (proj2 Lu); apply nth_error_In in Er; exact Er).
  pose proof (field_nth size ft v i r o Er Ho) as K.
  destruct (nth_error (field_chans size ft v i) o) as [a|] eqn:E; [rewrite (nth_error_nth _ _ 0 E); symmetry in K; rewrite (nth_error_nth _ _ 0 K); reflexivity|].
  exfalso. apply nth_error_None in E. rewrite (field_chans_length size ft v i r Lv Er) in E. lia.
Qed.
Lemma nth_blocks : forall {X} (f : X -> list R) l j d, (j < length l)%nat -> nth j (map f l) [] = f (nth j l d).
Proof. intros X f l j d H. rewrite (nth_indep _ [] (f d)) by (rewrite map_length; exact H). apply map_nth. Qed.
Lemma nth_rep : forall (a : R) n o, (o < n)%nat -> nth o (repeat a n) 0 = a.
Proof. intros a n o H. apply nth_error_nth. apply nth_error_repeat. exact H. Qed.

Lemma export_same_fits : track = true -> exists t, iid_export size leqb m st = Ret t /\ (exists ms vs, bn_stats t = Some (ms, vs, is_count st)) /\
  forall N x, g_type x = ft -> batch size ft N (g_chans x) ->
    exists st' y, iid_forward size leqb teqb m false N st (junk x) x = Ret (st', y) /\ g_type y = ft /\
      bn_call eps mom (type_size size ft) false t (map (fun c => [c]) (g_chans x)) = Ret (t, map (fun c => [c]) (g_chans y)).
Proof.
  intros Ht. destruct mk_ok as (b & Eb & Et & Ebuf & Es & Hi & Ea & Etr & Ee & Emom & _). unfold iid_export. rewrite Etr, Ht, Es, Et. cbn [assert_ bind]. rewrite Ea.
  destruct (loop_ok uniq (repeat 0 (type_size size ft)) (repeat 1 (type_size size ft)) (if affine then Some (repeat 1 (type_size size ft), repeat 0 (type_size size ft)) else None) (is_count st))
    as (ms & vs & aff & El & Pm & Pv & Pa).
  { intros r Hr. apply (proj2 Lu), Hr. } { apply repeat_length. } { apply repeat_length. } { destruct affine; [rewrite !repeat_length; auto|reflexivity]. }
  eexists. split; [exact El|]. cbn [bn_stats]. split; [eexists; eexists; reflexivity|]. intros N x Tx B.
  destruct (forward_ok false N st (junk x) x Fst Tx B (Lj x)) as (y & Ey & Ty & By & Hy). eexists. exists y. split; [exact Ey|]. split; [exact Ty|].
  pose proof B as [Lx _]. pose proof By as [Ly _]. unfold bn_call. rewrite map_length. change (list_sum (map size ft)) with (type_size size ft) in Lx. rewrite Lx, Nat.eqb_refl. cbn [assert_ bind bn_stats].
  f_equal. f_equal. rewrite mapi_imap. apply nth_error_ext'. intros q. rewrite imap_nth, !nth_error_map. cbn [Nat.add].
  destruct (Nat.lt_ge_cases q (type_size size ft)) as [Hq|Hq]; [|rewrite !(proj2 (nth_error_None _ _)); [reflexivity| |]; [change (length (g_chans y) = type_size size ft) in Ly; lia|lia]].
  destruct (chan_of_field size ft (g_chans x) q Lx Hq) as (i & r & o & Er & Ho & ->). destruct (rank_of name leqb leqb_ok ft i r Er) as (j & Rk).
  assert (In r ft) as Hr by (apply nth_error_In in Er; exact Er).
  pose proof (field_nth size ft (g_chans x) i r o Er Ho) as Nx. pose proof (field_nth size ft (g_chans y) i r o Er Ho) as Ny. rewrite <- Nx, <- Ny.
  pose proof (field_rect size ft N (g_chans x) i r B Er) as Rx. pose proof (field_rect size ft N (g_chans y) i r By Er) as Ry.
  rewrite (nth_error_nth' _ [] ltac:(rewrite (proj1 Rx); exact Ho) : nth_error (field_chans size ft (g_chans x) i) o = _).
  rewrite (nth_error_nth' _ [] ltac:(rewrite (proj1 Ry); exact Ho) : nth_error (field_chans size ft (g_chans y) i) o = _). cbn [option_map]. f_equal.
  destruct (grp_fits r Hr) as (Eg & Fg). pose proof Fg as (Fv & Fm & Fw & Fb). destruct (Hy i r j Er Rk) as (g & Eg' & Ef). rewrite Eg in Eg'. injection Eg' as <-.
  pose proof (row_good size name irreps cob inv leqb ft Iok affine track false (grp r) N (g_chans x) r j i Hr Fg B Er Rk) as (G & _ & K).
  assert (false || negb track = false) as Qf by (rewrite Ht; reflexivity). specialize (K Qf).
  destruct (field_ok size irreps cob inv ft Iok m r N (next size name irreps cob inv leqb ft track false 0 (grp r) (g_chans x) r) (means_used size name irreps cob inv leqb ft track false (grp r) (g_chans x) r)
    (vars_used size name irreps cob inv leqb ft track false (grp r) (g_chans x) r) j _ Hr Rx G) as [_ Kf].
  cbn [orb andb] in Ef. 
  assert (j < length (labelled leqb (map name ft) (name r)))%nat as Hj by (unfold named_rank in Rk; apply nth_error_Some; congruence).
  assert (nth (offset size ft i + o) ms 0 = match is_mean (grp r) with Some rm => nth o (nth j rm []) 0 | None => 0 end) as Vm.
  { rewrite (placed_nth Bm _ ms i r j o Pm Er Rk Ho). unfold Bm. destruct (is_mean (grp r)); [reflexivity|]. rewrite (nth_blocks _ _ j 0) by lia. apply nth_rep, Ho. }
  assert (nth (offset size ft i + o) vs 0 = nth j (is_var (grp r)) 0) as Vv.
  { rewrite (placed_nth Bv _ vs i r j o Pv Er Rk Ho). unfold Bv. rewrite (nth_blocks _ _ j 0) by lia. apply nth_rep, Ho. }
  assert (affine_of {| bn_affine := aff; bn_stats := Some (ms, vs, is_count st) |} (offset size ft i + o) = (weight_at (grp r) j, bias_row size irreps cob r (grp r) j o)) as Va.
  { unfold affine_of. cbn [bn_affine]. unfold weight_at, bias_row. clear Em El. revert Pa Fw Fb. destruct affine; destruct aff as [[w bi]|]; intros Pa Fw Fb; try contradiction.
    - destruct Pa as [Pw Pb]. destruct (is_weight (grp r)) as [gw|] eqn:Ew; [|congruence]. f_equal.
      + rewrite (placed_nth Bw _ w i r j o Pw Er Rk Ho). unfold Bw. rewrite Ew. rewrite (nth_blocks _ _ j 0) by lia. apply nth_rep, Ho.
      + rewrite (placed_nth Bb _ bi i r j o Pb Er Rk Ho). unfold Bb. destruct (is_bias (grp r)) as [gb|].
        * destruct Fb as (_ & _ & Lb & _). rewrite (nth_blocks _ _ j []) by lia. rewrite lin_nth by exact Ho. apply bias_matrix, Iok, Hr.
        * rewrite (nth_blocks _ _ j 0) by lia. apply nth_rep, Ho.
    - destruct (is_weight (grp r)); [destruct Fw; discriminate|]. destruct (is_bias (grp r)); [destruct Fb; discriminate|]. reflexivity. }
  rewrite Va, Vm, Vv. cbn [map]. f_equal.
  apply list_ext; [rewrite map_length, (rect_chan _ N _ o Rx Ho), (rect_chan _ N _ o Ry Ho); reflexivity|]. intros p Hp. rewrite map_length, (rect_chan _ N _ o Rx Ho) in Hp.
  change (nth p (nth o (field_chans size ft (g_chans y) i) []) 0) with (ent (field_chans size ft (g_chans y) i) o p). rewrite Ef, (Kf o p Ho Hp).
  set (h := normalise _ _ _ _ _). rewrite (nth_indep _ 0 (h 0)) by (rewrite map_length, (rect_chan _ N _ o Rx Ho); exact Hp). rewrite (map_nth h).
  unfold h, normalise. rewrite K. unfold vars_used. rewrite Qf. unfold next. cbn [andb]. rewrite Ee. unfold ent. unfold Rdiv. ring.
Qed.

(** resets *)
Lemma zeros_of : forall {X} (a : R) (l : list X) n, length l = n -> map (fun _ => a) l = repeat a n.
Proof. intros X a l n <-. induction l as [|x l IH]; cbn; [|rewrite IH]; reflexivity. Qed.
Lemma zero_rows_of : forall l n k, length l = n -> Forall (fun row : list R => length row = k) l -> map (map (fun _ => 0)) l = repeat (repeat 0 k) n.
Proof. intros l n k <- F. induction F as [|x l Hx F IH]; [reflexivity|]. cbn [map length repeat]. rewrite IH. f_equal. apply (zeros_of 0 x k Hx). Qed.
Lemma start_at : forall r, In r ft -> dget leqb (is_groups st0) (name r) = Some (iid_start affine (length (labelled leqb (map name ft) (name r))) (info r)).
Proof.
  intros r Hr. unfold mk_iid in Em. pose proof Em as E. apply bind_Ret in E. destruct E as (b & _ & E). apply Ret_inj in E. injection E as _ <-. cbn [is_groups].
  rewrite (named_get name leqb leqb_ok ft uniq Lu Na (fun r => iid_start affine (nfields leqb (map name ft) (name r)) (info r)) [] r Hr), nfields_labelled. reflexivity.
Qed.
Lemma ntriv_has : forall r, has_trivial (info r) = negb (Nat.eqb (ntriv r) 0).
Proof. reflexivity. Qed.
Lemma resets_fits : is_count (iid_reset_running_stats st) = 0%nat /\ is_count (iid_reset_parameters st) = 0%nat /\ forall r, In r ft -> exists g g1 g2 g0,
  dget leqb (is_groups st) (name r) = Some g /\ dget leqb (is_groups (iid_reset_running_stats st)) (name r) = Some g1 /\ dget leqb (is_groups (iid_reset_parameters st)) (name r) = Some g2 /\
  dget leqb (is_groups st0) (name r) = Some g0 /\ is_mean g1 = is_mean g0 /\ is_var g1 = is_var g0 /\ is_weight g1 = is_weight g /\ is_bias g1 = is_bias g /\ g2 = g0.
Proof.
  split; [reflexivity|]. split; [reflexivity|]. intros r Hr. destruct (grp_fits r Hr) as (Eg & Fv & Fm & Fw & Fb). set (g := grp r) in *.
  set (h := fun g => {| is_mean := option_map (map (map (fun _ => 0))) (is_mean g); is_var := map (fun _ => 1) (is_var g); is_weight := is_weight g; is_bias := is_bias g |}).
  set (h2 := fun g => {| is_mean := is_mean g; is_var := is_var g; is_weight := option_map (map (fun _ => 1)) (is_weight g); is_bias := option_map (map (map (fun _ => 0))) (is_bias g) |}).
  assert (dget leqb (is_groups (iid_reset_running_stats st)) (name r) = Some (h g)) as E1.
  { unfold iid_reset_running_stats. cbn [is_groups]. rewrite (dget_map_snd leqb h), Eg. reflexivity. }
  exists g, (h g), (h2 (h g)), (iid_start affine (length (labelled leqb (map name ft) (name r))) (info r)).
  split; [exact Eg|]. split; [exact E1|]. split; [unfold iid_reset_parameters; cbn [is_groups]; rewrite (dget_map_snd leqb h2), E1; reflexivity|]. split; [apply start_at, Hr|].
  assert (is_mean (h g) = is_mean (iid_start affine (length (labelled leqb (map name ft) (name r))) (info r))) as Hm.
  { cbn [h is_mean iid_start]. rewrite ntriv_has. destruct (is_mean g) as [ms|]; cbn [option_map].
    - destruct Fm as (Nt & Lm & Fm). destruct (Nat.eqb_spec (ntriv r) 0); [contradiction|]. cbn [negb]. f_equal. apply zero_rows_of; [exact Lm|].
      rewrite Forall_forall in Fm |- *. intros row Hrow. apply Fm, Hrow.
    - rewrite Fm. reflexivity. }
  assert (is_var (h g) = is_var (iid_start affine (length (labelled leqb (map name ft) (name r))) (info r))) as Hv by (apply zeros_of, Fv).
  split; [exact Hm|]. split; [exact Hv|]. split; [reflexivity|]. split; [reflexivity|].
  transitivity {| is_mean := is_mean (h g); is_var := is_var (h g); is_weight := is_weight (h2 (h g)); is_bias := is_bias (h2 (h g)) |}; [reflexivity|].
  rewrite Hm, Hv. unfold iid_start at 3. cbn [is_mean is_var iid_start]. f_equal.
  - cbn [h2 h is_weight]. clear Em. revert Fw. destruct affine; destruct (is_weight g) as [w|]; cbn [option_map]; intros Fw; try (destruct Fw; discriminate); try discriminate; [|reflexivity].
    f_equal. apply zeros_of. apply Fw.
  - cbn [h2 h is_bias]. rewrite ntriv_has. clear Em. revert Fb. destruct affine; destruct (is_bias g) as [b|]; cbn [option_map andb]; intros Fb.
    + destruct Fb as (_ & Nt & Lb & Fb). destruct (Nat.eqb_spec (ntriv r) 0); [contradiction|]. cbn [negb]. f_equal. apply zero_rows_of; assumption.
    + destruct Fb as [K|K]; [discriminate|]. rewrite K. reflexivity.
    + destruct Fb; discriminate.
    + reflexivity.
Qed.
End IID.

Section Reached.
Context {A L : Type}.
Variable size : A -> nat.
Variable name : A -> L.
Variable irreps : A -> list (nat * bool).
Variable cob inv : A -> mat.
Variable leqb : L -> L -> bool.
Hypothesis leqb_ok : forall a b, leqb a b = true <-> a = b.
Variable teqb : list A -> list A -> bool.
Variable ft uniq : list A.
Hypothesis Pos : Forall (fun r => (0 < size r)%nat) ft.
Hypothesis Lu : listing ft uniq.
Hypothesis Na : named_apart name ft.
Hypothesis Iok : forall r, In r ft -> irreps_ok (irreps r) (size r).
Hypothesis Teq : teqb ft ft = true.
Variable affine track : bool.
Variable eps : R.
Variable mom : option R.
Variable m : iid_module (A := A) (L := L).
Variable st0 : iid_full (L := L).
Hypothesis Em : mk_iid size name irreps cob inv leqb affine track eps mom ft uniq = Ret (m, st0).
Variable junk : gtensor A chan -> list chan.
Hypothesis Lj : forall x, length (junk x) = type_size size ft.
Notation call := (fun t N st x => iid_forward size leqb teqb m t N st (junk x) x).
Variable h : list (event (L * (list R * option (list (list R)))) (gtensor A chan)).
Variable st : iid_full (L := L).
Variable ys : list (option (gtensor A chan)).
Hypothesis Hh : forall t N x, In (Call t N x) h -> ((t = true \/ track = false) -> 1 < N)%nat /\ g_type x = ft /\ batch size ft N (g_chans x).
Hypothesis Hr : run call (iid_set leqb) iid_reset_running_stats st0 h = Ret (st, ys).
Lemma reached_fits : fits size name irreps cob leqb ft affine st.
Proof.
  apply (reached size name irreps cob inv leqb leqb_ok teqb ft uniq Pos Lu Na Iok Teq affine track eps mom m st0 Em junk Lj h st ys); [|exact Hr]. intros t N x H. apply Hh in H. tauto.
Qed.
Theorem iid_export_same : (track = false -> iid_export size leqb m st = Raise) /\ (track = true -> exists t, iid_export size leqb m st = Ret t /\ (exists ms vs, bn_stats t = Some (ms, vs, is_count st)) /\
  forall N x, g_type x = ft -> batch size ft N (g_chans x) ->
    exists st' y, call false N st x = Ret (st', y) /\ g_type y = ft /\
      bn_call eps mom (type_size size ft) false t (map (fun c => [c]) (g_chans x)) = Ret (t, map (fun c => [c]) (g_chans y))).
Proof.
  split.
  - intros Ht. destruct (mk_ok size name irreps cob inv leqb leqb_ok ft uniq Lu Na affine track eps mom m st0 Em) as (b & _ & _ & _ & _ & _ & _ & Etr & _). unfold iid_export. rewrite Etr, Ht. reflexivity.
  - intros Ht. apply (export_same_fits size name irreps cob inv leqb leqb_ok teqb ft uniq Pos Lu Na Iok Teq affine track eps mom m st0 Em junk Lj st reached_fits Ht).
Qed.
Theorem iid_resets : is_count (iid_reset_running_stats st) = 0%nat /\ is_count (iid_reset_parameters st) = 0%nat /\ forall r, In r ft -> exists g g1 g2 g0,
  dget leqb (is_groups st) (name r) = Some g /\ dget leqb (is_groups (iid_reset_running_stats st)) (name r) = Some g1 /\ dget leqb (is_groups (iid_reset_parameters st)) (name r) = Some g2 /\
  dget leqb (is_groups st0) (name r) = Some g0 /\ is_mean g1 = is_mean g0 /\ is_var g1 = is_var g0 /\ is_weight g1 = is_weight g /\ is_bias g1 = is_bias g /\ g2 = g0.
Proof. apply (resets_fits size name irreps cob inv leqb leqb_ok ft uniq Lu Na affine track eps mom m st0 Em st reached_fits). Qed.
End Reached.
