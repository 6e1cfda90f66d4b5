(** Resets restore the initial statistics; the exported module computes the same. *)
From Coq Require Import Reals List ZArith Arith Bool Lia Lra Permutation.
From Verif Require Import LibRes LibPy LibMat FieldModel SpecField FieldProofs BranchProofs LabelThms MergeThms GroupedModel GroupedProofs NonlinModel SpecNonlin NonlinProofs NormThms ImageModel ImageProofs PoolModel SpecPool PoolProofs PoolThms BatchNormModel SpecBatch BatchNormProofs BatchThms NormBNThms InnerBNThms NormBNCor InnerBNCor BatchExport.
Import ListNotations.
Open Scope R_scope.

Lemma nth_error_ext' : forall {X} (l l' : list X), (forall p, nth_error l p = nth_error l' p) -> l = l'.
Proof.
  intros X; induction l as [|a l IH]; intros [|b l'] H; [reflexivity|specialize (H 0%nat); discriminate|specialize (H 0%nat); discriminate|].
  f_equal; [specialize (H 0%nat); cbn in H; congruence|apply IH; intros p; exact (H (S p))].
Qed.

Section C.
Context {A : Type}.
Variable size : A -> nat.
Variable supported : A -> list nonlin.
Variable has_trivial : A -> bool.
Variable teqb : list A -> list A -> bool.

(** all submodules have seen the same number of batches *)
Definition counted (ft : list A) (st : ibn_state) : Prop :=
  exists k, forall s, In s (map size ft) -> exists b ms vs, dget Nat.eqb st s = Some b /\ bn_stats b = Some (ms, vs, k).

Lemma irun_counted : forall ft (m : ibn_module (A := A)) dim affine junk h st r, Forall (fun q => (0 < size q)%nat) ft -> ib_type m = ft -> fine size ft (ib_buffers m) (ib_order m) -> teqb ft ft = true ->
  ib_dim m = dim -> (1 <= dim <= 3)%nat -> (forall x, length (junk x) = type_size size ft) ->
  ifits size ft affine true st -> counted ft st ->
  (forall t N x, In (Call t N x) h -> enough size ft true t N /\ g_type x = ft /\ batch size ft N (g_chans x)) ->
  run (icall size teqb m dim junk) ibn_set ibn_reset_running_stats st h = Ret r -> counted ft (fst r).
Proof.
  intros ft m dim affine junk h st r P Tm Fm Te Ed Hd Lj. revert st r. induction h as [|e h IH]; intros st r F C H E; cbn [run] in E; [apply Ret_inj in E; subst r; exact C|].
  apply bind_Ret in E. destruct E as (a & Ea & E). apply bind_Ret in E. destruct E as (q & Eq & E). apply Ret_inj in E; subst r. cbn [fst].
  destruct C as (k & C). destruct e as [t N x|[s0 [w bi]]|].
  - destruct (H t N x (or_introl eq_refl)) as (HN & Tx & Bx). unfold icall in Ea.
    destruct (iforward_ok size teqb ft P m Tm Fm dim (conj Ed Hd) affine true t N st (junk x) x F Te HN Tx Bx (Lj x)) as (out & Ef & _).
    rewrite Ef in Ea. cbn [bind] in Ea. apply Ret_inj in Ea; subst a. cbn [fst] in *.
    apply (IH (iafter size ft m t st (g_chans x)) q); [apply (iafter_fits size teqb ft m Fm dim (conj Ed Hd) affine true), F| |intros; apply H; right; assumption|exact Eq].
    exists (if t then S k else k). intros s Hs. rewrite (iafter_dget size ft m Fm t st (g_chans x) s Hs). destruct (C s Hs) as (b & ms & vs & Eb & Es). rewrite Eb.
    unfold next_bn. rewrite Es. destruct t; do 3 eexists; (split; [reflexivity|]); [reflexivity|exact Es].
  - apply bind_Ret in Ea. destruct Ea as (st' & Es & Ea). apply Ret_inj in Ea; subst a. cbn [fst] in *.
    apply (IH st' q); [eapply iset_fits; eassumption| |intros; apply H; right; assumption|exact Eq].
    unfold ibn_set in Es. cbn [fst snd] in Es. apply bind_Ret in Es. destruct Es as (t & Et & Es). destruct (bn_affine t) as [[w0 b0]|]; [|discriminate].
    apply assert_Ret in Es. destruct Es as (_ & Es). apply assert_Ret in Es. destruct Es as (_ & Es). apply Ret_inj in Es; subst st'.
    exists k. intros s Hs. rewrite (LibPy.dget_dset Nat.eqb eqb_ok). destruct (C s Hs) as (b & ms & vs & Eb & Es'). destruct (Nat.eqb_spec s0 s) as [->|_]; [|eauto].
    unfold lookup in Et. rewrite Eb in Et. apply Ret_inj in Et; subst t. do 3 eexists. split; [reflexivity|]. exact Es'.
  - apply Ret_inj in Ea; subst a. cbn [fst] in *. apply (IH (ibn_reset_running_stats st) q); [apply ireset_fits, F| |intros; apply H; right; assumption|exact Eq].
    exists 0%nat. intros s Hs. destruct (C s Hs) as (b & ms & vs & Eb & Es). unfold ibn_reset_running_stats.
    exists {| bn_affine := bn_affine b; bn_stats := Some (map (fun _ => 0) ms, map (fun _ => 1) vs, 0%nat) |}, (map (fun _ => 0) ms), (map (fun _ => 1) vs). split; [|reflexivity].
    clear - Eb Es. revert Eb.
    induction st as [|[q u] d IHd]; cbn [map dget fst snd]; [discriminate|]. destruct (Nat.eqb q s); [intros Eb; injection Eb as ->; rewrite Es; reflexivity|exact IHd].
Qed.

(** channel [o] of field [i] *)
Lemma chan_of_field : forall {V} (ft : list A) (x : list V) p, length x = type_size size ft -> (p < type_size size ft)%nat ->
  exists i r o, nth_error ft i = Some r /\ (o < size r)%nat /\ p = (offset size ft i + o)%nat.
Proof.
  intros V ft x p L Hp. destruct (fields_tile size ft) as (_ & _ & _ & F). destruct (F p Hp) as (i & s & e & Es & Ee & K & _).
  unfold fields_start in Es. unfold fields_end in Ee. rewrite starts_nth in Es. rewrite ends_nth in Ee. destruct (nth_error ft i) as [r|] eqn:E; [|discriminate].
  injection Es as <-. injection Ee as <-. rewrite (offset_S size _ _ _ E) in K. cbn [Nat.add] in K. exists i, r, (p - offset size ft i)%nat. split; [exact E|]. lia.
Qed.
Lemma field_nth : forall {V} (ft : list A) (x : list V) i r o, nth_error ft i = Some r -> (o < size r)%nat ->
  nth_error (field_chans size ft x i) o = nth_error x (offset size ft i + o).
Proof.
  intros V ft x i r o E Ho. rewrite (field_chans_at size ft x i r E).
  transitivity (nth_error (skipn (offset size ft i) x) o).
  - revert Ho. generalize (size r) as n. generalize (skipn (offset size ft i) x) as l. clear. induction o as [|o IH]; intros [|a l] [|n] H; try lia; cbn; auto. apply IH; lia.
  - generalize (offset size ft i) as n. clear. intros n; revert x; induction n as [|n IH]; intros [|a x]; cbn; auto. destruct o; reflexivity.
Qed.
Lemma filled_nth : forall ft Q l old v i s j o, filled size ft Q l old v -> rank size ft i s j -> Q s -> (o < s)%nat -> nth_error ft i <> None ->
  nth (offset size ft i + o) v 0 = nth j (l s) 0.
Proof.
  intros ft Q l old v i s j o (Lv & H) Hj HQ Ho Ni. destruct (nth_error ft i) as [r|] eqn:E; [|congruence]. destruct (rank_size size ft i s j r Hj E) as [Es Hs].
  destruct (H i s j Hj) as [H1 _]. specialize (H1 HQ). pose proof (field_nth ft v i r o E ltac:(lia)) as Hn. rewrite H1 in Hn.
  rewrite (nth_error_repeat (nth j (l s) 0)) in Hn by exact Ho.
  symmetry in Hn. apply (nth_error_nth v _ 0) in Hn. exact Hn.
Qed.

Theorem ibn_export_same : forall ft dim affine eps mom m st0 junk, Forall (fun r => (0 < size r)%nat) ft -> teqb ft ft = true ->
  mk_ibn size supported dim affine true eps mom ft = Ret (m, st0) -> (1 <= dim)%nat -> (forall x, length (junk x) = type_size size ft) ->
  forall h st ys, (forall t N x, In (Call t N x) h -> (t = true -> forall r, In r ft -> (1 < size r * N)%nat) /\ g_type x = ft /\ batch size ft N (g_chans x)) ->
  run (icall size teqb m dim junk) ibn_set ibn_reset_running_stats st0 h = Ret (st, ys) ->
  ((exists t, ibn_export size m affine true st = Ret t) <-> (forall s, In s (map size ft) -> exists a n, labelled Nat.eqb (map size ft) s = seq a n)) /\
  forall t, ibn_export size m affine true st = Ret t -> forall N x, g_type x = ft -> batch size ft N (g_chans x) ->
    exists st' y, ibn_forward size teqb m false dim st (junk x) x = Ret (st', y) /\ g_type y = ft /\
      bn_call eps mom (type_size size ft) false t (map (fun c => [c]) (g_chans x)) = Ret (t, map (fun c => [c]) (g_chans y)).
Proof.
  intros ft dim affine eps mom m st0 junk P Te Em Hdim Lj h st ys Hh Er.
  destruct (imk_fine size supported ft P dim affine true eps mom m st0 Em) as (Tm & Ed & Ee & Emo & Fm & F0 & Hd3).
  assert (forall t N x, In (Call t N x) h -> enough size ft true t N /\ g_type x = ft /\ batch size ft N (g_chans x)) as Hh'.
  { intros t N x Hx. destruct (Hh t N x Hx) as (H1 & H2). split; [|exact H2]. intros [K|K]; [apply H1, K|discriminate]. }
  pose proof (irun_fits size teqb ft m dim affine true junk h st0 (st, ys) P Tm Fm Te Ed (conj Hdim Hd3) Lj F0 Hh' Er) as F. cbn [fst] in F.
  assert (counted ft st0) as C0.
  { exists 0%nat. intros s Hs. unfold mk_ibn in Em. do 4 (apply bind_Ret in Em; destruct Em as (? & _ & Em)). apply Ret_inj in Em. injection Em as Em1 Em2.
    destruct Fm as (_ & Io & _). rewrite <- Em1 in Io. cbn [ib_order] in Io. rewrite <- Em2.
    do 3 eexists. split; [apply (dget_order (fun s => new_bn affine true (nfields Nat.eqb (map size ft) s))), Io, Hs|reflexivity]. }
  pose proof (irun_counted ft m dim affine junk h st0 (st, ys) P Tm Fm Te Ed (conj Hdim Hd3) Lj F0 C0 Hh' Er) as (k & Hk). cbn [fst] in Hk.
  pose proof (ibn_buffers size supported ft P dim affine true eps mom m st0 Em) as Hb. pose proof Fm as (ND & Io & _).
  assert (Hd : exists d, bn_dims (ib_dim m) = Ret d) by (rewrite Ed; destruct dim as [|[|[|[|]]]]; try lia; eexists; reflexivity). destruct Hd as (d & Hd).
  assert (Hall : (forall s, In s (map size ft) -> is_run size ft s) -> exists ms vs aff k', ibn_export size m affine true st = Ret {| bn_affine := aff; bn_stats := Some (ms, vs, k') |} /\
     filled size ft (fun s => In s (ib_order m)) (ms_of st) (repeat 0 (type_size size ft)) ms /\ filled size ft (fun s => In s (ib_order m)) (vs_of st) (repeat 1 (type_size size ft)) vs /\
     match aff with Some (w, b) => affine = true /\ filled size ft (fun s => In s (ib_order m)) (ws_of st) (repeat 1 (type_size size ft)) w /\ filled size ft (fun s => In s (ib_order m)) (bs_of st) (repeat 0 (type_size size ft)) b
     | None => affine = false end).
  { intros Hr. unfold ibn_export. cbn [assert_ bind]. rewrite Hd. cbn [bind]. rewrite Tm. unfold new_bn at 1.
    destruct (export_loop_ok size teqb ft m st affine F k Hk (ib_order m) None (repeat 0 (type_size size ft)) (repeat 1 (type_size size ft))
      (if affine then Some (repeat 1 (type_size size ft), repeat 0 (type_size size ft)) else None) 0%nat ND) as (ms & vs & aff & k' & E & _ & H1 & H2 & H3).
    - intros s Hs. apply Io, Hs.
    - intros s Hs. apply Io in Hs. destruct (Hb s Hs) as (c & Ec & Hc). destruct c as [a e|i]; [exists a, e; tauto|]. exfalso. apply Hc, Hr, Hs.
    - left; reflexivity.
    - apply repeat_length.
    - apply repeat_length.
    - destruct affine; [rewrite !repeat_length|]; auto.
    - exists ms, vs, aff, k'. split; [exact E|]. split; [exact H1|split; [exact H2|]]. destruct affine, aff as [[w b]|]; try contradiction; auto. }
  assert (Hback : forall t, ibn_export size m affine true st = Ret t -> forall s, In s (map size ft) -> is_run size ft s).
  { intros t E s Hs. unfold ibn_export in E. cbn [assert_ bind] in E. rewrite Hd in E. cbn [bind] in E.
    destruct (export_loop_runs m st (ib_order m) None _ t E s (proj2 (Io s) Hs)) as (a & e & El). destruct (Hb s Hs) as (c & Ec & Hc). assert (c = Run a e) by congruence; subst c. tauto. }
  split.
  - split; [intros (t & E); exact (Hback t E)|]. intros Hr. destruct (Hall Hr) as (ms & vs & aff & k' & E & _). eauto.
  - intros t E N x Tx B. destruct (Hall (Hback t E)) as (ms & vs & aff & k' & E' & Fms & Fvs & Faff). rewrite E' in E. apply Ret_inj in E. subst t.
    assert (En : enough size ft true false N) by (intros [K|K]; discriminate).
    destruct (iforward_ok size teqb ft P m Tm Fm dim (conj Ed (conj Hdim Hd3)) affine true false N st (junk x) x F Te En Tx B (Lj x)) as (out & Ef & Lo & Ho).
    exists (iafter size ft m false st (g_chans x)), {| g_type := ft; g_chans := out |}. cbn [g_type g_chans]. split; [exact Ef|]. split; [reflexivity|].
    pose proof B as (Lx & _). rewrite bn_call_ok.
    + f_equal. f_equal. apply nth_error_ext'. intros p. rewrite imap_nth, !nth_error_map. cbn [Nat.add].
      destruct (Nat.lt_ge_cases p (type_size size ft)) as [Hp|Hp].
      * destruct (chan_of_field ft (g_chans x) p Lx Hp) as (i & r & o & Ei & Hor & ->). destruct (rank_exists size ft i r Ei) as (j & Hj).
        destruct (Ho _ _ _ Hj) as (b & Eb & Hf). pose proof (field_nth ft out i r o Ei Hor) as N1. pose proof (field_nth ft (g_chans x) i r o Ei Hor) as N2.
        rewrite <- N1, Hf, nth_error_map, <- N2. destruct (nth_error (field_chans size ft (g_chans x) i) o) as [c|]; [|reflexivity]. cbn [option_map map]. do 3 f_equal.
        assert (In (size r) (map size ft)) as Hs by (apply in_map, nth_error_In with i; exact Ei). assert (In (size r) (ib_order m)) as Hs' by (apply Io, Hs).
        assert (nth_error ft i <> None) as Ni by congruence.
        assert (sub st (size r) = b) as Esub by (unfold sub; rewrite Eb; reflexivity).
        destruct (Hk (size r) Hs) as (b0 & ms0 & vs0 & Eb0 & Es0). assert (b0 = b) by congruence; subst b0.
        unfold field_fn. cbn [bn_stats]. rewrite Es0, Ee.
        rewrite (filled_nth ft _ _ _ _ i (size r) j o Fms Hj Hs' Hor Ni), (filled_nth ft _ _ _ _ i (size r) j o Fvs Hj Hs' Hor Ni).
        unfold ms_of, vs_of. rewrite Esub, Es0. unfold affine_of. cbn [bn_affine]. destruct (F (size r) Hs) as (b1 & Eb1 & _ & _ & Faf). assert (b1 = b) by congruence; subst b1.
        destruct aff as [[w bi]|].
        -- destruct Faff as (Ta & Fw & Fb). rewrite (filled_nth ft _ _ _ _ i (size r) j o Fw Hj Hs' Hor Ni), (filled_nth ft _ _ _ _ i (size r) j o Fb Hj Hs' Hor Ni).
           unfold ws_of, bs_of. rewrite Esub. destruct (bn_affine b) as [[w1 b1]|]; [reflexivity|]. exfalso. assert (affine = false) by (apply Faf; reflexivity). congruence.
        -- rewrite (proj2 Faf Faff). reflexivity.
      * rewrite !(proj2 (nth_error_None _ _)); [reflexivity| |]; [lia|rewrite Lx; exact Hp].
    + rewrite map_length. exact Lx.
    + intros [K|K]; discriminate.
Qed.

(** *** resets *)
Definition shaped (ft : list A) (order : list nat) (vars : list (nat * list R)) : Prop :=
  map fst vars = order /\ Forall (fun e => length (snd e) = nfields Nat.eqb (map size ft) (fst e)) vars.
Lemma shaped_ones : forall ft order vars, shaped ft order vars -> map (fun e => (fst e, map (fun _ => 1) (snd e))) vars = ones size ft order.
Proof.
  intros ft order vars (<- & F). unfold ones. induction F as [|[s l] vars E F IH]; [reflexivity|]. cbn [map fst snd] in *. rewrite IH. do 2 f_equal.
  rewrite <- E. clear. induction l as [|a l IH]; cbn; [|rewrite IH]; reflexivity.
Qed.
Lemma nrun_shaped : forall ft (m : nbn_module (A := A)) h st r, nb_type m = ft ->
  shaped ft (nb_order m) (nb_vars st) ->
  run (nbn_forward size teqb m) nbn_set nbn_reset_running_stats st h = Ret r -> shaped ft (nb_order m) (nb_vars (fst r)).
Proof.
  intros ft m h st r Tm. revert st r. induction h as [|e h IH]; intros st r F E; cbn [run] in E; [apply Ret_inj in E; subst r; exact F|].
  apply bind_Ret in E. destruct E as (a & Ea & E). apply bind_Ret in E. destruct E as (q & Eq & E). apply Ret_inj in E; subst r. cbn [fst].
  apply (IH (fst a) q); [|exact Eq]. destruct e as [t N x|w|].
  - apply bind_Ret in Ea. destruct Ea as ([st' y] & Ef & Ea). apply Ret_inj in Ea; subst a. cbn [fst]. unfold nbn_forward in Ef.
    apply assert_Ret in Ef. destruct Ef as (_ & Ef). apply bind_Ret in Ef. destruct Ef as (st2 & Es & Ef).
    do 2 (apply bind_Ret in Ef; destruct Ef as (? & _ & Ef)). apply Ret_inj in Ef. injection Ef as <- _.
    destruct t; [|apply Ret_inj in Es; subst st2; exact F]. apply assert_Ret in Es. destruct Es as (_ & Es). apply bind_Ret in Es. destruct Es as (vars & Ev & Es).
    apply Ret_inj in Es; subst st2. cbn [nb_vars]. unfold update_vars in Ev. destruct F as (F1 & F2).
    assert (forall o v, mapM (fun s => old <- lookup Nat.eqb (nb_vars st) s ;; new <- group_vars m N (g_chans x) s ;;
      assert (Nat.eqb (length old) (length new)) ;; Ret (s, blend (average_factor (nb_momentum m) (S (nb_count st))) old new)) o = Ret v ->
      map fst v = o /\ Forall (fun e => length (snd e) = nfields Nat.eqb (map size ft) (fst e)) v) as G; [|apply G, Ev].
    clear Ev Eq. induction o as [|s o IHo]; intros v E; cbn [mapM] in E; [apply Ret_inj in E; subst v; split; [reflexivity|constructor]|].
    apply bind_Ret in E. destruct E as (e & Ee & E). apply bind_Ret in E. destruct E as (v' & Ev & E). apply Ret_inj in E; subst v.
    apply bind_Ret in Ee. destruct Ee as (old & Eo & Ee). apply bind_Ret in Ee. destruct Ee as (new & _ & Ee). apply assert_Ret in Ee. destruct Ee as (Ln & Ee).
    apply Ret_inj in Ee; subst e. apply Nat.eqb_eq in Ln. destruct (IHo v' Ev) as (H1 & H2). cbn [map fst]. split; [f_equal; exact H1|]. constructor; [|exact H2]. cbn [fst snd].
    unfold blend. rewrite map_length, combine_length, Ln, Nat.min_id, <- Ln. unfold lookup in Eo. destruct (dget Nat.eqb (nb_vars st) s) as [l|] eqn:Ed; [|discriminate].
    apply Ret_inj in Eo; subst l. apply (dget_in Nat.eqb eqb_ok) in Ed. rewrite Forall_forall in F2. apply (F2 (s, old)), Ed.
  - apply bind_Ret in Ea. destruct Ea as (st' & Es & Ea). apply Ret_inj in Ea; subst a. cbn [fst]. unfold nbn_set in Es.
    destruct (nb_weights st); [|discriminate]. apply assert_Ret in Es. destruct Es as (_ & Es). apply Ret_inj in Es; subst st'. exact F.
  - apply Ret_inj in Ea; subst a. cbn [fst nbn_reset_running_stats nb_vars]. destruct F as (F1 & F2). split; [rewrite map_map; exact F1|].
    rewrite Forall_map. eapply Forall_impl; [|exact F2]. intros [s l] H. cbn [fst snd] in *. rewrite map_length. exact H.
Qed.

Theorem nbn_reset_initial : forall ft affine eps mom m st0, mk_nbn size supported has_trivial affine eps mom ft = Ret (m, st0) ->
  forall h st ys, run (nbn_forward size teqb m) nbn_set nbn_reset_running_stats st0 h = Ret (st, ys) ->
  nb_vars (nbn_reset_running_stats st) = nb_vars st0 /\ nb_count (nbn_reset_running_stats st) = nb_count st0 /\
  nb_weights (nbn_reset_running_stats st) = nb_weights st.
Proof.
  intros ft affine eps mom m st0 Em h st ys Er. split; [|split; [|reflexivity]].
  - unfold mk_nbn in Em. apply assert_Ret in Em. destruct Em as (_ & Em). apply bind_Ret in Em. destruct Em as (b & _ & Em). apply Ret_inj in Em. injection Em as <- <-.
    cbn [nb_vars nbn_reset_running_stats]. apply shaped_ones.
    match type of Er with run (nbn_forward _ _ ?m) _ _ ?s0 _ = _ => apply (nrun_shaped ft m h s0 (st, ys) eq_refl) in Er end; [exact Er|]. cbn [nb_vars nb_order].
    split; [unfold ones; rewrite map_map; cbn [fst]; apply map_id|]. unfold ones. rewrite Forall_map. apply Forall_forall. intros s _. cbn [fst snd]. apply repeat_length.
  - unfold mk_nbn in Em. apply assert_Ret in Em. destruct Em as (_ & Em). apply bind_Ret in Em. destruct Em as (b & _ & Em). apply Ret_inj in Em. injection Em as <- <-. reflexivity.
Qed.

Theorem ibn_reset_initial : forall ft dim affine track eps mom m st0 junk, Forall (fun r => (0 < size r)%nat) ft -> teqb ft ft = true ->
  mk_ibn size supported dim affine track eps mom ft = Ret (m, st0) -> (1 <= dim)%nat -> (forall x, length (junk x) = type_size size ft) ->
  forall h st ys, (forall t N x, In (Call t N x) h -> ((t = true \/ track = false) -> forall r, In r ft -> (1 < size r * N)%nat) /\ g_type x = ft /\ batch size ft N (g_chans x)) ->
  run (icall size teqb m dim junk) ibn_set ibn_reset_running_stats st0 h = Ret (st, ys) ->
  forall s, In s (map size ft) -> exists b b' b0, dget Nat.eqb st s = Some b /\ dget Nat.eqb (ibn_reset_running_stats st) s = Some b' /\ dget Nat.eqb st0 s = Some b0 /\
    bn_affine b' = bn_affine b /\ bn_stats b' = bn_stats b0.
Proof.
  intros ft dim affine track eps mom m st0 junk P Te Em Hdim Lj h st ys Hh Er s Hs.
  destruct (imk_fine size supported ft P dim affine track eps mom m st0 Em) as (Tm & Ed & Ee & Emo & Fm & F0 & Hd3).
  pose proof (irun_fits size teqb ft m dim affine track junk h st0 (st, ys) P Tm Fm Te Ed (conj Hdim Hd3) Lj F0 Hh Er) as F. cbn [fst] in F.
  destruct (F s Hs) as (b & Eb & [_ F2] & Tr & _).
  assert (dget Nat.eqb st0 s = Some (new_bn affine track (nfields Nat.eqb (map size ft) s))) as E0.
  { unfold mk_ibn in Em. do 4 (apply bind_Ret in Em; destruct Em as (? & _ & Em)). apply Ret_inj in Em. injection Em as Em1 Em2.
    destruct Fm as (_ & Io & _). rewrite <- Em1 in Io. cbn [ib_order] in Io. rewrite <- Em2. apply (dget_order (fun s => new_bn affine track (nfields Nat.eqb (map size ft) s))), Io, Hs. }
  exists b, {| bn_affine := bn_affine b; bn_stats := match bn_stats b with Some (ms, vs, _) => Some (map (fun _ => 0) ms, map (fun _ => 1) vs, 0%nat) | None => None end |}. eexists.
  split; [exact Eb|]. split; [|split; [exact E0|split; [reflexivity|]]].
  - revert Eb. unfold ibn_reset_running_stats. clear. induction st as [|[q u] d IHd]; cbn [map dget fst snd]; [discriminate|].
    destruct (Nat.eqb q s); [intros Eb; injection Eb as ->; reflexivity|exact IHd].
  - unfold new_bn. cbn [bn_stats]. rewrite nfields_labelled. destruct (bn_stats b) as [[[ms vs] k]|].
    + destruct (F2 ms vs k eq_refl) as [<- L]. destruct track; [|exfalso; assert (Some (ms, vs, k) = None) by (apply Tr; reflexivity); discriminate].
      assert (forall (c : R) (l : list R), map (fun _ => c) l = repeat c (length l)) as G by (intros c l; induction l as [|a l IH]; cbn; [|rewrite IH]; reflexivity).
      rewrite !G, L. reflexivity.
    + rewrite (proj1 Tr eq_refl). reflexivity.
Qed.
End C.
