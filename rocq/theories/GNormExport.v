(** GNormBatchNorm: resets and export. *)
From Coq Require Import Reals List ZArith Arith Bool Lia Lra Permutation.
From Verif Require Import LibRes LibPy LibMat LibMatS RepModel RepProofs SpecRepr FieldModel SpecField FieldProofs BranchProofs LabelThms MergeThms GroupedModel GroupedProofs NonlinModel SpecNonlin NonlinProofs PoolModel ImageModel BatchNormModel SpecBatch BatchNormProofs BatchThms NormBNThms InnerBNThms BatchExport BatchExpCor FNormModel SpecFNorm KeyedProofs FNormProofs NamedProofs IIDThms IIDExport GNormProofs GNormThms GNormCor GNormRun.
Import ListNotations.
Open Scope R_scope.

Lemma concat_blocks : forall {X Y} (f : X -> list (list Y)) l, concat (concat (map f l)) = concat (map (fun x => concat (f x)) l).
Proof. intros X Y f l. induction l as [|x l IH]; [reflexivity|]. cbn [map concat]. rewrite concat_app, IH. reflexivity. Qed.
Lemma column : forall n (t : list chan), rect n 1 t -> length (concat t) = n /\ forall o, (o < n)%nat -> nth o (concat t) 0 = ent t o 0.
Proof.
  intros n t [Ln F]. revert n Ln. induction F as [|c t Hc F IH]; intros n Ln.
  - cbn in Ln. subst n. split; [reflexivity|]. intros; lia.
  - destruct n as [|n]; [discriminate|]. destruct c as [|a [|b c]]; try discriminate. cbn [concat app]. destruct (IH n ltac:(cbn in Ln; lia)) as [L1 K]. split; [cbn; lia|].
    intros [|o] Ho; [reflexivity|]. cbn [nth]. rewrite K by lia. reflexivity.
Qed.
Lemma const_rect : forall n (a : R), rect n 1 (repeat [a] n).
Proof. intros n a. split; [apply repeat_length|]. apply Forall_forall. intros c Hc. apply repeat_spec in Hc. subst c. reflexivity. Qed.
Lemma const_ent : forall n (a : R) o, (o < n)%nat -> ent (repeat [a] n) o 0 = a.
Proof. intros n a o H. unfold ent. rewrite (nth_error_nth (repeat [a] n) o [] (nth_error_repeat _ H)). reflexivity. Qed.

Section Rows.
Variable i : gn_info.
Variable l : list (nat * bool).
Variable n : nat.
Hypothesis I : irreps_ok l n.
Hypothesis Es : gi_size i = n.
Hypothesis El : gi_irreps i = map fst l.
Hypothesis Et : gi_trivials i = trivials 0 l.
Definition row_shift (row : list R) : list R := concat (gn_shift (gi_trivials i) row (repeat [0] (gi_size i))).
Definition row_scale (row : list R) : list R := concat (gn_scale i row (repeat [1] (gi_size i))).
Lemma row_shift_ok : forall row, length row = length (trivials 0 l) -> length (row_shift row) = n /\ forall o, (o < n)%nat -> nth o (row_shift row) 0 = along l mid n row o.
Proof.
  intros row Lr. unfold row_shift. rewrite Es, Et. destruct (shift_triv l row n 1 _ I (const_rect n 0) Lr) as [R K]. destruct (column n _ R) as [L1 K1]. split; [exact L1|].
  intros o Ho. rewrite K1, K, const_ent by (try exact Ho; lia). ring.
Qed.
Lemma row_scale_ok : forall row, length row = length l -> length (row_scale row) = n /\ forall o, (o < n)%nat -> nth o (row_scale row) 0 = nth (irrep_of l o) row 0.
Proof.
  intros row Lr. unfold row_scale. rewrite Es. destruct (scale_irreps i l n 1 row _ I Es El (const_rect n 1) Lr) as [R K]. destruct (column n _ R) as [L1 K1]. split; [exact L1|].
  intros o Ho. rewrite K1, K, const_ent by (try exact Ho; lia). ring.
Qed.
End Rows.

Section GN.
Context {A L : Type}.
Variable size : A -> nat.
Variable name : A -> L.
Variable irreps : A -> list (nat * bool).
Variable cob inv : A -> mat.
Variable leqb : L -> L -> bool.
Hypothesis leqb_ok : forall a b, leqb a b = true <-> a = b.
Variable teqb : list A -> list A -> bool.
Variable ft uniq : list A.
Hypothesis Pos : Forall (fun r => (0 < size r)%nat) ft.
Hypothesis Lu : listing ft uniq.
Hypothesis Na : named_apart name ft.
Hypothesis Iok : forall r, In r ft -> irreps_ok (irreps r) (size r).
Hypothesis Inv : forall r, In r ft -> inverse_of (size r) (cob r) (inv r).
Hypothesis Sh : forall r, In r ft -> sharp (size r) (cob r).
Hypothesis Teq : teqb ft ft = true.
Variable affine track : bool.
Variable eps : R.
Variable mom : option R.
Variable m : gn_module (A := A) (L := L).
Variable st0 : gn_full (L := L).
Hypothesis Em : mk_gn size name irreps cob inv leqb affine track eps mom ft uniq = Ret (m, st0).
Notation fits := (GNormThms.fits name irreps leqb ft affine mom).
Notation fits_group := (GNormThms.fits_group name irreps leqb ft affine mom).
Notation info := (gn_info_of size irreps cob inv).
Notation lab := (labelled leqb (map name ft)).
Notation mk_ok := (GNormThms.mk_ok size name irreps cob inv leqb leqb_ok ft uniq Lu Na affine track eps mom m st0 Em).
Notation forward_ok := (GNormThms.forward_ok size name irreps cob inv leqb leqb_ok teqb ft uniq Pos Lu Na Iok Inv Sh Teq affine track eps mom m st0 Em).
Notation placed := (placed size name leqb ft).
Notation sized := (sized size name leqb ft).
Variable st : gn_full (L := L).
Hypothesis Fst : fits st.
Definition grp (r : A) : gn_state := match dget leqb (gs_groups st) (name r) with Some g => g | None => gn_start affine 0 (info r) end.
Lemma grp_fits : forall r, In r ft -> dget leqb (gs_groups st) (name r) = Some (grp r) /\ fits_group r (grp r).
Proof. intros r Hr. destruct (Fst r Hr) as (g & Eg & Fg). unfold grp. rewrite Eg. auto. Qed.

(** what is written for every representation *)
Definition Bm (r : A) : list (list R) := map (row_shift (info r)) (gs_mean (grp r)).
Definition Bu (r : A) : list (list R) := map (row_scale (info r)) (gs_var (grp r)).
Definition Bv (r : A) : list (list R) := match gi_cob (info r) with Some (q, _) => map (lin (size r) (size r) q) (Bu r) | None => Bu r end.
Definition Bw (r : A) : list (list R) := map (row_scale (info r)) (match gs_weight (grp r) with Some w => w | None => [] end).
Definition Bb (r : A) : list (list R) := map (row_shift (info r)) (match gs_bias (grp r) with Some b => b | None => [] end).
Lemma sized_shift : forall r l, In r ft -> rows (length (lab (name r))) (length (trivials 0 (irreps r))) l -> sized (fun _ => map (row_shift (info r)) l) r.
Proof.
  intros r l Hr [Ll F]. split; [rewrite map_length; exact Ll|]. rewrite Forall_forall in F |- *. intros w Hw. apply in_map_iff in Hw. destruct Hw as (row & <- & Hrow).
  apply (row_shift_ok (info r) (irreps r) (size r) (Iok r Hr) eq_refl eq_refl row (F row Hrow)).
Qed.
Lemma sized_scale : forall r l, In r ft -> rows (length (lab (name r))) (length (irreps r)) l -> sized (fun _ => map (row_scale (info r)) l) r.
Proof.
  intros r l Hr [Ll F]. split; [rewrite map_length; exact Ll|]. rewrite Forall_forall in F |- *. intros w Hw. apply in_map_iff in Hw. destruct Hw as (row & <- & Hrow).
  apply (row_scale_ok (info r) (irreps r) (size r) (Iok r Hr) eq_refl eq_refl row (F row Hrow)).
Qed.
Lemma sized_m : forall r, In r ft -> sized Bm r.
Proof. intros r Hr. destruct (grp_fits r Hr) as (_ & Fm & _). apply (sized_shift r _ Hr Fm). Qed.
Lemma sized_u : forall r, In r ft -> sized Bu r.
Proof. intros r Hr. destruct (grp_fits r Hr) as (_ & _ & Fv & _). apply (sized_scale r _ Hr Fv). Qed.
Lemma sized_v : forall r, In r ft -> sized Bv r.
Proof.
  intros r Hr. destruct (sized_u r Hr) as [Lu' Fu]. unfold Bv, sized. destruct (gi_cob (info r)) as [[q k]|]; [|split; assumption].
  split; [rewrite map_length; exact Lu'|]. apply Forall_map_len. intros; apply lin_length.
Qed.
Lemma sized_w : forall r, In r ft -> affine = true -> sized Bw r.
Proof. intros r Hr Ha. destruct (grp_fits r Hr) as (_ & _ & _ & _ & Fw & _). unfold Bw. destruct (gs_weight (grp r)) as [w|] eqn:E; [|congruence]. destruct (sized_scale r w Hr (proj2 Fw)). unfold sized, Bw. rewrite E. split; assumption. Qed.
Lemma sized_b : forall r, In r ft -> affine = true -> sized Bb r.
Proof. intros r Hr Ha. destruct (grp_fits r Hr) as (_ & _ & _ & _ & _ & Fb). destruct (gs_bias (grp r)) as [b|] eqn:E; [|congruence]. destruct (sized_shift r b Hr (proj2 Fb)). unfold sized, Bb. rewrite E. split; assumption. Qed.

Lemma loop_ok : forall l ms0 vs0 aff0 k0, (forall r, In r l -> In r ft) -> (forall r, In r l -> exists a k, lab (name r) = seq a k) -> length ms0 = type_size size ft -> length vs0 = type_size size ft ->
  match aff0 with Some (w, b) => affine = true /\ length w = type_size size ft /\ length b = type_size size ft | None => affine = false end ->
  exists ms vs aff, gn_export_loop leqb m st (map (fun r => (name r, size r)) l) {| bn_affine := aff0; bn_stats := Some (ms0, vs0, k0) |} = Ret {| bn_affine := aff; bn_stats := Some (ms, vs, k0) |} /\
    placed l Bm ms0 ms /\ placed l Bv vs0 vs /\
    match aff0, aff with
    | Some (w0, b0), Some (w, b) => placed l Bw w0 w /\ placed l Bb b0 b
    | None, None => True
    | _, _ => False
    end.
Proof.
  destruct mk_ok as (b & Eb & _ & Ebuf & _ & Hi & _).
  induction l as [|r l IH]; intros ms0 vs0 aff0 k0 Hin Hrun Lm Lv La.
  - exists ms0, vs0, aff0. split; [reflexivity|]. split; [apply placed_nil, Lm|]. split; [apply placed_nil, Lv|]. destruct aff0 as [[w bi]|]; [split; apply placed_nil; apply La|exact I].
  - pose proof (Hin r (or_introl eq_refl)) as Hr. destruct (bufs_ok size name leqb leqb_ok ft Pos b Eb (name r) (in_map name ft r Hr)) as (c & Ec & Pc).
    destruct (buffers_run leqb leqb_ok size ft (map name ft) b (map_length name ft) Eb (name r) (in_map name ft r Hr)) as (c' & Ec' & Hc). assert (c' = c) by congruence; subst c'.
    destruct (proj2 Hc (Hrun r (or_introl eq_refl))) as (ca & ce & Ecc).
    destruct (grp_fits r Hr) as (Eg & Fg). pose proof Fg as (Fm & Fv & _ & Fw & Fb).
    destruct (put_ok size name leqb leqb_ok ft Pos Na b Eb r c Bm ms0 Hr (sized_m r Hr) Lm Ec) as (ms1 & Ems & Pm).
    destruct (put_ok size name leqb leqb_ok ft Pos Na b Eb r c Bu vs0 Hr (sized_u r Hr) Lv Ec) as (us1 & Eu & Pu).
    assert (exists vs1, match gi_cob (info r) with
                  | Some (q, _) => now <- read us1 c ;; rows <- view (size r) now ;; put us1 c (concat (map (lin (size r) (size r) q) rows))
                  | None => Ret us1
                  end = Ret vs1 /\ placed [r] Bv vs0 vs1) as (vs1 & Ev & Pv).
    { destruct (gi_cob (info r)) as [[q k]|] eqn:Eq.
      - assert (read us1 c = Ret (concat (Bu r))) as Er.
        { rewrite (read_ok size ft us1 (lab (name r)) c (proj1 Pu)); [| |rewrite (proj1 Pu); exact Pc].
          - f_equal. f_equal. destruct (sized_u r Hr) as [Lb _]. apply (nth_ext _ _ [] []); [rewrite map_length; symmetry; exact Lb|]. intros j Hj. rewrite map_length in Hj.
            destruct (nth_error (lab (name r)) j) as [i|] eqn:Ei; [|apply nth_error_None in Ei; lia].
            pose proof (map_nth_error (field_chans size ft us1) j (lab (name r)) Ei) as Ei2. rewrite (nth_error_nth _ _ [] Ei2).
            assert (nth_error ft i = Some r) as Eft by (apply (lab_rep name leqb leqb_ok ft Na r i Hr); apply nth_error_In in Ei; exact Ei).
            apply (proj2 Pu i r j Eft Ei). left; reflexivity.
          - rewrite <- (map_length name). apply labelled_lt. }
        rewrite Er. cbn [bind]. destruct (sized_u r Hr) as [_ Fu]. rewrite Forall_forall in Pos. rewrite (view_concat (size r) (Bu r) (Pos r Hr) Fu). cbn [bind].
        rewrite <- Forall_forall in Pos. destruct (put_ok size name leqb leqb_ok ft Pos Na b Eb r c Bv us1 Hr (sized_v r Hr) (proj1 Pu) Ec) as (vs1 & Ev & Pv). exists vs1.
        unfold Bv in Ev at 1. rewrite Eq in Ev. split; [exact Ev|]. split; [apply Pv|]. intros i q0 j Eq0 Rk. destruct (proj2 Pv i q0 j Eq0 Rk) as [K1 K2]. destruct (proj2 Pu i q0 j Eq0 Rk) as [_ K3].
        split; [exact K1|]. intros N. rewrite (K2 N). apply K3, N.
      - exists us1. split; [reflexivity|]. split; [apply Pu|]. intros i q0 j Eq0 Rk. destruct (proj2 Pu i q0 j Eq0 Rk) as [K1 K2]. split; [|exact K2]. intros [<-|[]]. unfold Bv. rewrite Eq. apply K1. left; reflexivity. }
    assert (exists aff1, match aff0 with
              | Some (w, bi) => gw <- match gs_weight (grp r) with Some gw => Ret gw | None => Raise end ;;
                     gb <- match gs_bias (grp r) with Some gb => Ret gb | None => Raise end ;;
                     w' <- put w c (gn_scaled (info r) gw) ;;
                     b' <- put bi c (gn_shifted (info r) gb) ;;
                     Ret (Some (w', b'))
              | None => Ret None end = Ret aff1 /\
        match aff0, aff1 with Some (w0, b0), Some (w, bi) => affine = true /\ placed [r] Bw w0 w /\ placed [r] Bb b0 bi | None, None => affine = false | _, _ => False end) as (aff1 & Eaff & Paff).
    { destruct aff0 as [[w0 b0]|]; [|exists None; auto]. destruct La as (Ha & Lw & Lb).
      destruct (put_ok size name leqb leqb_ok ft Pos Na b Eb r c Bw w0 Hr (sized_w r Hr Ha) Lw Ec) as (w1 & Ew & Pw).
      destruct (put_ok size name leqb leqb_ok ft Pos Na b Eb r c Bb b0 Hr (sized_b r Hr Ha) Lb Ec) as (b1 & Ebb & Pb).
      exists (Some (w1, b1)). split; [|auto]. unfold Bw in Ew at 1. unfold Bb in Ebb at 1. destruct (gs_weight (grp r)) as [gw|]; [|congruence]. destruct (gs_bias (grp r)) as [gb|]; [|congruence]. cbn [bind].
      unfold gn_scaled, gn_shifted. rewrite !concat_blocks. unfold row_scale in Ew. rewrite Ew. cbn [bind]. unfold row_shift in Ebb. rewrite Ebb. reflexivity. }
    destruct (IH ms1 vs1 aff1 k0 (fun q Hq => Hin q (or_intror Hq)) (fun q Hq => Hrun q (or_intror Hq)) (proj1 Pm) (proj1 Pv)) as (ms & vs & aff & El & Qm & Qv & Qa).
    { destruct aff0 as [[w0 b0]|], aff1 as [[w1 b1]|]; try contradiction; [|exact Paff]. destruct Paff as (Ha & Pw & Pb). split; [exact Ha|]. split; [apply Pw|apply Pb]. }
    exists ms, vs, aff. split; [|split; [|split]].
    + cbn [map gn_export_loop]. rewrite Ebuf, Ec. cbn [bind]. rewrite Ecc at 1. cbn [assert_ bind]. rewrite (Hi r Hr). cbn [bind]. unfold lookup at 1. rewrite Eg. cbn [bind bn_stats bn_affine].
      unfold gn_shifted at 1. rewrite concat_blocks. unfold Bm, row_shift in Ems. rewrite Ems. cbn [bind].
      unfold gn_scaled at 1. rewrite concat_blocks. unfold Bu, row_scale in Eu. rewrite Eu. cbn [bind]. rewrite Eaff. cbn [bind]. rewrite Ev. cbn [bind]. exact El.
    + eapply placed_cons; eassumption.
    + eapply placed_cons; eassumption.
    + destruct aff0 as [[w0 b0]|], aff1 as [[w1 b1]|], aff as [[w2 b2]|]; try contradiction; try exact I. destruct Paff as (_ & Pw & Pb), Qa as [Qw Qb]. split; eapply placed_cons; eassumption.
Qed.
Lemma loop_runs : forall l t t', gn_export_loop leqb m st (map (fun r => (name r, size r)) l) t = Ret t' -> (forall r, In r l -> In r ft) -> forall r, In r l -> exists a k, lab (name r) = seq a k.
Proof.
  destruct mk_ok as (b & Eb & _ & Ebuf & _).
  induction l as [|r l IH]; intros t t' E Hin q Hq; [contradiction|]. pose proof (Hin r (or_introl eq_refl)) as Hr.
  destruct (buffers_run leqb leqb_ok size ft (map name ft) b (map_length name ft) Eb (name r) (in_map name ft r Hr)) as (c & Ec & Hc).
  cbn [map gn_export_loop] in E. rewrite Ebuf, Ec in E. cbn [bind] in E. destruct c as [a e|ix]; [|discriminate]. cbn [assert_ bind] in E. apply bind_Ret in E. destruct E as (i & _ & E). apply bind_Ret in E. destruct E as (g & _ & E).
  destruct (bn_stats t) as [[[ms vs] k]|]; [|discriminate]. do 4 (apply bind_Ret in E; destruct E as (? & _ & E)).
  destruct Hq as [<-|Hq]; [apply Hc; eauto|]. apply (IH _ _ E (fun q Hq => Hin q (or_intror Hq)) q Hq).
Qed.
Lemma placed_at : forall B old v i r j o, placed uniq B old v -> nth_error ft i = Some r -> named_rank leqb name ft i (name r) j -> (o < size r)%nat ->
  nth (offset size ft i + o) v 0 = nth o (nth j (B r) []) 0.
Proof.
  intros B old v i r j o [Lv H] Er Rk Ho. destruct (H i r j Er Rk) as [H1 _]. rewrite <- H1 by (apply (proj2 Lu); apply nth_error_In in Er; exact Er).
  pose proof (field_nth size ft v i r o Er Ho) as K.
  destruct (nth_error (field_chans size ft v i) o) as [a|] eqn:E; [rewrite (nth_error_nth _ _ 0 E); symmetry in K; rewrite (nth_error_nth _ _ 0 K); reflexivity|].
  exfalso. apply nth_error_None in E. rewrite (field_chans_length size ft v i r Lv Er) in E. lia.
Qed.
Lemma exported : track = true -> (forall r, In r ft -> exists a k, lab (name r) = seq a k) ->
  exists ms vs aff, gn_export size leqb m st = Ret {| bn_affine := aff; bn_stats := Some (ms, vs, gs_count st) |} /\
    placed uniq Bm (repeat 0 (type_size size ft)) ms /\ placed uniq Bv (repeat 1 (type_size size ft)) vs /\
    match aff with Some (w, b) => affine = true /\ placed uniq Bw (repeat 1 (type_size size ft)) w /\ placed uniq Bb (repeat 0 (type_size size ft)) b | None => affine = false end.
Proof.
  intros Ht Hc. destruct mk_ok as (b & Eb & Et & Ebuf & Es & Hi & Ea & Etr & Ee & Emom & _). unfold gn_export. rewrite Etr, Ht, Es, Et. cbn [assert_ bind]. rewrite Ea.
  destruct (loop_ok uniq (repeat 0 (type_size size ft)) (repeat 1 (type_size size ft)) (if affine then Some (repeat 1 (type_size size ft), repeat 0 (type_size size ft)) else None) (gs_count st))
    as (ms & vs & aff & El & Pm & Pv & Pa).
  { intros r Hr. apply (proj2 Lu), Hr. } { intros r Hr. apply Hc, (proj2 Lu), Hr. } { apply repeat_length. } { apply repeat_length. } { destruct affine; [rewrite !repeat_length; auto|reflexivity]. }
  exists ms, vs, aff. split; [exact El|]. split; [exact Pm|]. split; [exact Pv|]. clear - Pa. destruct affine; destruct aff as [[w bi]|]; try contradiction; auto.
Qed.
Lemma export_iff : (exists t, gn_export size leqb m st = Ret t) <-> track = true /\ forall r, In r ft -> exists a k, lab (name r) = seq a k.
Proof.
  split.
  - intros (t & E). destruct mk_ok as (b & Eb & Et & Ebuf & Es & Hi & Ea & Etr & _). unfold gn_export in E. rewrite Etr, Es in E. apply assert_Ret in E. destruct E as [E0 E]. split; [exact E0|].
    intros r Hr. apply (loop_runs uniq _ _ E); [intros q Hq; apply (proj2 Lu), Hq|apply (proj2 Lu), Hr].
  - intros [Ht Hc]. destruct (exported Ht Hc) as (ms & vs & aff & E & _). eauto.
Qed.
Lemma nth_blocks_gn : forall {X} (f : list X -> list R) l j, (j < length l)%nat -> nth j (map f l) [] = f (nth j l []).
Proof. intros X f l j H. rewrite (nth_indep _ [] (f [])) by (rewrite map_length; exact H). apply map_nth. Qed.
Lemma export_same_fits : (forall r, In r ft -> meq (size r) (size r) (cob r) mid) -> match mom with Some f => 0 <= f <= 1 | None => True end ->
  forall t, gn_export size leqb m st = Ret t -> (exists ms vs, bn_stats t = Some (ms, vs, gs_count st)) /\
  forall spatial N x junk, length junk = type_size size ft -> g_type x = ft -> batch size ft N (g_chans x) ->
    exists st' y, gn_forward size leqb teqb m false spatial N st junk x = Ret (st', y) /\ g_type y = ft /\
      bn_call eps mom (type_size size ft) false t (map (fun c => [c]) (g_chans x)) = Ret (t, map (fun c => [c]) (g_chans y)).
Proof.
  intros Hid Hcalm t Et'. destruct (proj1 export_iff (ex_intro _ t Et')) as [Ht Hcont]. destruct (exported Ht Hcont) as (ms & vs & aff & El & Pm & Pv & Pa). rewrite El in Et'. apply Ret_inj in Et'. subst t.
  destruct mk_ok as (b & Eb & Et & Ebuf & Es & Hi & Ea & Etr & Ee & Emom & _).
  cbn [bn_stats]. split; [eexists; eexists; reflexivity|]. intros spatial N x junk Lj Tx B.
  destruct (forward_ok false spatial N st junk x (or_intror Hid) ltac:(discriminate) Fst Tx B Lj) as (y & Ey & _ & Ty & By & Hy). eexists. exists y. split; [exact Ey|]. split; [exact Ty|].
  pose proof B as [Lx _]. pose proof By as [Ly _]. unfold bn_call. rewrite map_length. change (list_sum (map size ft)) with (type_size size ft) in Lx. rewrite Lx, Nat.eqb_refl. cbn [assert_ bind bn_stats].
  f_equal. f_equal. rewrite mapi_imap. apply nth_error_ext'. intros q. rewrite imap_nth, !nth_error_map. cbn [Nat.add].
  destruct (Nat.lt_ge_cases q (type_size size ft)) as [Hq|Hq]; [|rewrite !(proj2 (nth_error_None _ _)); [reflexivity| |]; [change (length (g_chans y) = type_size size ft) in Ly; lia|lia]].
  destruct (chan_of_field size ft (g_chans x) q Lx Hq) as (i & r & o & Er & Ho & ->). destruct (rank_of name leqb leqb_ok ft i r Er) as (j & Rk).
  assert (In r ft) as Hr by (apply nth_error_In in Er; exact Er).
  pose proof (field_nth size ft (g_chans x) i r o Er Ho) as Nx. pose proof (field_nth size ft (g_chans y) i r o Er Ho) as Ny. rewrite <- Nx, <- Ny.
  pose proof (field_rect size ft N (g_chans x) i r B Er) as Rx. pose proof (field_rect size ft N (g_chans y) i r By Er) as Ry.
  rewrite (nth_error_nth' _ [] ltac:(rewrite (proj1 Rx); exact Ho) : nth_error (field_chans size ft (g_chans x) i) o = _).
  rewrite (nth_error_nth' _ [] ltac:(rewrite (proj1 Ry); exact Ho) : nth_error (field_chans size ft (g_chans y) i) o = _). cbn [option_map]. f_equal.
  destruct (grp_fits r Hr) as (Eg & Fg). pose proof Fg as (Fm & Fv & Fn & Fw & Fb). destruct (Hy i r j Er Rk) as (g & Eg' & _ & _ & Ef). rewrite Eg in Eg'. injection Eg' as <-.
  destruct (field_at size name leqb ft (g_chans x) r j i Rk) as [_ Hj].
  assert (next size name irreps cob inv leqb ft track false 0 N (grp r) (g_chans x) r = grp r) as En.
  { unfold next. rewrite Ht. rewrite (clamp_rows _ (Fn Hcalm)). destruct (grp r); reflexivity. }
  cbn [orb] in Ef. rewrite En in Ef. unfold means_used, vars_used in Ef. rewrite Ht in Ef. cbn [orb negb] in Ef. rewrite (clamp_rows _ (Fn Hcalm)) in Ef.
  destruct (coords_ent size irreps cob inv ft Inv Sh r N _ Hr Rx) as [Rc Kc].
  destruct (gfield_ent size name irreps cob inv leqb ft Iok Sh affine mom m r N (grp r) (gs_mean (grp r)) (gs_var (grp r)) j _ Hr Fg Hj Rc (rows_nth _ _ _ j Fm Hj) (rows_nth _ _ _ j Fv Hj)) as [_ Kf].
  assert (nth (offset size ft i + o) ms 0 = along (irreps r) mid (size r) (nth j (gs_mean (grp r)) []) o) as Vm.
  { rewrite (placed_at Bm _ ms i r j o Pm Er Rk Ho). unfold Bm. rewrite nth_blocks_gn by (rewrite (proj1 Fm); exact Hj). apply (row_shift_ok (info r) (irreps r) (size r) (Iok r Hr) eq_refl eq_refl); [apply (rows_nth _ _ _ j Fm Hj)|exact Ho]. }
  assert (nth (offset size ft i + o) vs 0 = nth (irrep_of (irreps r) o) (nth j (gs_var (grp r)) []) 0) as Vv.
  { rewrite (placed_at Bv _ vs i r j o Pv Er Rk Ho). unfold Bv. cbn [gn_info_of gi_cob]. rewrite (allclose_meq _ _ _ _ (Hid r Hr)). unfold Bu. rewrite nth_blocks_gn by (rewrite (proj1 Fv); exact Hj).
    apply (row_scale_ok (info r) (irreps r) (size r) (Iok r Hr) eq_refl eq_refl); [apply (rows_nth _ _ _ j Fv Hj)|exact Ho]. }
  assert (affine_of {| bn_affine := aff; bn_stats := Some (ms, vs, gs_count st) |} (offset size ft i + o) = (GNormThms.weight_at (grp r) j (irrep_of (irreps r) o), GNormThms.bias_at size irreps r (grp r) j o)) as Va.
  { unfold affine_of. cbn [bn_affine]. unfold GNormThms.weight_at, GNormThms.bias_at. destruct aff as [[w bi]|].
    - destruct Pa as (Ha & Pw & Pb). rewrite Ha in Fw, Fb. destruct (gs_weight (grp r)) as [gw|] eqn:Ew; [|discriminate]. destruct (gs_bias (grp r)) as [gb|] eqn:Ebb; [|discriminate]. f_equal.
      + rewrite (placed_at Bw _ w i r j o Pw Er Rk Ho). unfold Bw. rewrite Ew. rewrite nth_blocks_gn by (rewrite (proj1 (proj2 Fw)); exact Hj).
        apply (row_scale_ok (info r) (irreps r) (size r) (Iok r Hr) eq_refl eq_refl); [apply (rows_nth _ _ _ j (proj2 Fw) Hj)|exact Ho].
      + rewrite (placed_at Bb _ bi i r j o Pb Er Rk Ho). unfold Bb. rewrite Ebb. rewrite nth_blocks_gn by (rewrite (proj1 (proj2 Fb)); exact Hj).
        apply (row_shift_ok (info r) (irreps r) (size r) (Iok r Hr) eq_refl eq_refl); [apply (rows_nth _ _ _ j (proj2 Fb) Hj)|exact Ho].
    - rewrite Pa in Fw, Fb. destruct (gs_weight (grp r)); [destruct Fw; discriminate|]. destruct (gs_bias (grp r)); [destruct Fb; discriminate|]. reflexivity. }
  rewrite Va, Vm, Vv. cbn [map]. f_equal.
  apply list_ext; [rewrite map_length, (rect_chan _ N _ o Rx Ho), (rect_chan _ N _ o Ry Ho); reflexivity|]. intros p Hp. rewrite map_length, (rect_chan _ N _ o Rx Ho) in Hp.
  change (nth p (nth o (field_chans size ft (g_chans y) i) []) 0) with (ent (field_chans size ft (g_chans y) i) o p). rewrite Ef, (Kf o p Ho Hp).
  set (h := normalise _ _ _ _ _). rewrite (nth_indep _ 0 (h 0)) by (rewrite map_length, (rect_chan _ N _ o Rx Ho); exact Hp). rewrite (map_nth h).
  rewrite (sumn_single _ o); [|exact Ho|].
  2:{ intros d Hd Nd. rewrite (Hid r Hr o d Ho Hd). unfold mid. destruct (Nat.eqb_spec o d); [congruence|ring]. }
  rewrite (Hid r Hr o o Ho Ho), (Kc o p Ho Hp). unfold coord. rewrite (sumn_single _ o); [|exact Ho|].
  2:{ intros d Hd Nd. rewrite (GNormThms.inv_id size cob inv ft Inv r Hr (Hid r Hr) o d Ho Hd). unfold mid. destruct (Nat.eqb_spec o d); [congruence|ring]. }
  rewrite (GNormThms.inv_id size cob inv ft Inv r Hr (Hid r Hr) o o Ho Ho). unfold h, normalise, mid. rewrite Nat.eqb_refl, Ee. unfold ent. unfold Rdiv. ring.
Qed.

(** resets *)
Lemma fill_rows : forall (a : R) (l : list (list R)) n k, rows n k l -> map (map (fun _ => a)) l = repeat (repeat a k) n.
Proof. intros a l n k [<- F]. induction F as [|x l Hx F IH]; [reflexivity|]. cbn [map length repeat]. rewrite IH. f_equal. apply (zeros_of a x k Hx). Qed.
Lemma resets_fits : gs_count (gn_reset_running_stats st) = 0%nat /\ gs_count (gn_reset_parameters st) = 0%nat /\ forall r, In r ft -> exists g g1 g2 g0,
  dget leqb (gs_groups st) (name r) = Some g /\ dget leqb (gs_groups (gn_reset_running_stats st)) (name r) = Some g1 /\ dget leqb (gs_groups (gn_reset_parameters st)) (name r) = Some g2 /\
  dget leqb (gs_groups st0) (name r) = Some g0 /\ gs_mean g1 = gs_mean g0 /\ gs_var g1 = gs_var g0 /\ gs_weight g1 = gs_weight g /\ gs_bias g1 = gs_bias g /\ g2 = g0.
Proof.
  split; [reflexivity|]. split; [reflexivity|]. intros r Hr. destruct (grp_fits r Hr) as (Eg & Fm & Fv & _ & Fw & Fb). set (g := grp r) in *.
  destruct mk_ok as (_ & _ & _ & _ & _ & _ & _ & _ & _ & _ & _ & _ & E0).
  set (h := fun g => {| gs_mean := map (map (fun _ => 0)) (gs_mean g); gs_var := map (map (fun _ => 1)) (gs_var g); gs_weight := gs_weight g; gs_bias := gs_bias g |}).
  set (h2 := fun g => {| gs_mean := gs_mean g; gs_var := gs_var g; gs_weight := option_map (map (map (fun _ => 1))) (gs_weight g); gs_bias := option_map (map (map (fun _ => 0))) (gs_bias g) |}).
  assert (dget leqb (gs_groups (gn_reset_running_stats st)) (name r) = Some (h g)) as E1.
  { unfold gn_reset_running_stats. cbn [gs_groups]. rewrite (GNormThms.dget_map leqb h), Eg. reflexivity. }
  exists g, (h g), (h2 (h g)), (gn_start affine (length (lab (name r))) (info r)).
  split; [exact Eg|]. split; [exact E1|]. split; [unfold gn_reset_parameters; cbn [gs_groups]; rewrite (GNormThms.dget_map leqb h2), E1; reflexivity|]. split; [apply E0, Hr|].
  assert (gs_mean (h g) = gs_mean (gn_start affine (length (lab (name r))) (info r))) as Hm by (apply fill_rows, Fm).
  assert (gs_var (h g) = gs_var (gn_start affine (length (lab (name r))) (info r))) as Hv by (cbn [h gs_var gn_start gn_info_of gi_irreps]; rewrite map_length; apply fill_rows, Fv).
  split; [exact Hm|]. split; [exact Hv|]. split; [reflexivity|]. split; [reflexivity|].
  transitivity {| gs_mean := gs_mean (h g); gs_var := gs_var (h g); gs_weight := gs_weight (h2 (h g)); gs_bias := gs_bias (h2 (h g)) |}; [reflexivity|].
  rewrite Hm, Hv. unfold gn_start at 3. cbn [gs_mean gs_var gn_start gn_info_of gi_irreps gi_trivials]. f_equal.
  - cbn [h2 h gs_weight]. destruct (gs_weight g) as [w|]; cbn [option_map]; [destruct Fw as [-> Fw]|rewrite Fw; reflexivity]. f_equal. rewrite map_length. apply fill_rows, Fw.
  - cbn [h2 h gs_bias]. destruct (gs_bias g) as [b|]; cbn [option_map]; [destruct Fb as [-> Fb]|rewrite Fb; reflexivity]. f_equal. apply fill_rows, Fb.
Qed.

(** a change of basis makes every input with other than two spatial axes fail *)
Lemma keyed_in : forall {S V} bufs (proc : L -> S -> list (list V) -> res (S * list (list V))) x sizes stt out res0, keyed_loop leqb bufs proc x sizes stt out = Ret res0 ->
  forall s n, In (s, n) sizes -> exists c fm fields g r, lookup leqb bufs s = Ret c /\ read x c = Ret fm /\ view n fm = Ret fields /\ proc s g fields = Ret r.
Proof.
  intros S V bufs proc x sizes. induction sizes as [|[s0 n0] sizes IH]; intros stt out res0 E s n Hs; [contradiction|]. cbn [keyed_loop] in E.
  apply bind_Ret in E. destruct E as (c & Ec & E). apply bind_Ret in E. destruct E as (fm & Efm & E). apply bind_Ret in E. destruct E as (fields & Ef & E). apply bind_Ret in E. destruct E as (g & Eg & E).
  apply bind_Ret in E. destruct E as (r & Er & E). apply bind_Ret in E. destruct E as (out' & _ & E). destruct Hs as [K|Hs]; [injection K as <- <-; eauto 10|]. apply (IH _ _ _ E s n Hs).
Qed.
Lemma forward_axes : forall t spatial N stt junk x, (exists r, In r ft /\ ~ meq (size r) (size r) (cob r) mid) -> length (g_chans x) = type_size size ft -> spatial <> 2%nat ->
  gn_forward size leqb teqb m t spatial N stt junk x = Raise.
Proof.
  intros t spatial N stt junk x (r & Hr & Nid) Lx Ns. destruct (gn_forward size leqb teqb m t spatial N stt junk x) as [|[st' y]] eqn:E; [reflexivity|exfalso].
  destruct mk_ok as (b & Eb & Et & Ebuf & Es & Hi & _). unfold gn_forward in E. apply assert_Ret in E. destruct E as [_ E]. apply bind_Ret in E. destruct E as (q & E & _).
  rewrite Es, Ebuf in E. assert (In (name r, size r) (map (fun r => (name r, size r)) uniq)) as Hin by (apply in_map_iff; exists r; split; [reflexivity|apply (proj2 Lu), Hr]).
  destruct (keyed_in _ _ _ _ _ _ _ E _ _ Hin) as (c & fm & fields & g & r0 & Ec & Er & Ev & Ep).
  destruct (bufs_ok size name leqb leqb_ok ft Pos b Eb (name r) (in_map name ft r Hr)) as (c' & Ec' & Pc). assert (c' = c) by congruence; subst c'.
  assert (Forall (fun i => (i < length ft)%nat) (lab (name r))) as Flt by (rewrite <- (map_length name); apply labelled_lt).
  rewrite (read_ok size ft (g_chans x) (lab (name r)) c Lx Flt) in Er by (rewrite Lx; exact Pc). apply Ret_inj in Er. subst fm.
  assert (Forall (fun b => length b = size r) (map (field_chans size ft (g_chans x)) (lab (name r)))) as Fl.
  { apply Forall_forall. intros w Hw. apply in_map_iff in Hw. destruct Hw as (i & <- & Hii). apply (lab_rep name leqb leqb_ok ft Na r i Hr) in Hii. apply (field_chans_length size ft _ i r Lx Hii). }
  rewrite Forall_forall in Pos. rewrite (view_concat _ _ (Pos r Hr) Fl) in Ev. apply Ret_inj in Ev. subst fields.
  unfold gn_group in Ep. rewrite (Hi r Hr) in Ep. cbn [bind] in Ep. apply bind_Ret in Ep. destruct Ep as (f' & Ef & _).
  assert (lab (name r) <> []) as Ne by (apply (labelled_nonempty leqb leqb_ok), in_map, Hr).
  destruct (lab (name r)) as [|i0 lr]; [contradiction|]. cbn [map mapM] in Ef. apply bind_Ret in Ef. destruct Ef as (f0 & Ef & _).
  cbn [gn_info_of gi_cob gi_size] in Ef. destruct (Sh r Hr) as [K|K]; [contradiction|]. rewrite K in Ef. cbn [option_map snd gn_basis] in Ef. apply assert_Ret in Ef. destruct Ef as [Ef _]. apply Nat.eqb_eq in Ef. contradiction.
Qed.
End GN.
