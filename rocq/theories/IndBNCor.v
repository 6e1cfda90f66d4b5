(** InducedNormBatchNorm: histories and resets. *)
From Coq Require Import Reals List ZArith Arith Bool Lia Lra Permutation.
From Verif Require Import LibRes LibPy LibMat FieldModel SpecField FieldProofs BranchProofs LabelThms MergeThms GroupedModel GroupedProofs NonlinModel SpecNonlin NonlinProofs NormThms INormThms BatchNormModel SpecBatch BatchNormProofs BatchThms IndBNModel SpecIndBN IndBNThms.
Import ListNotations.
Open Scope R_scope.

Section N.
Context {A : Type}.
Variable size : A -> nat.
Variable sub : A -> nat.
Variable supported : A -> list nonlin.
Variable has_trivial : A -> bool.
Variable teqb : list A -> list A -> bool.
Notation idf := (fun r => (size r, sub r)).

Lemma same_shapes_dget : forall w w' s l, same_shapes w w' = true -> dget pair_eqb w s = Some l -> exists l', dget pair_eqb w' s = Some l' /\ length l' = length l.
Proof.
  intros w w' s l H. unfold same_shapes in H. apply andb_prop in H. destruct H as [L H]. apply Nat.eqb_eq in L. revert w' L H.
  induction w as [|[t u] w IH]; intros [|[t' u'] w'] L H E; try discriminate. cbn [List.combine forallb fst snd] in H. apply andb_prop in H. destruct H as [H0 H].
  apply andb_prop in H0. destruct H0 as [Ht Hu]. apply pair_eqb_ok in Ht; subst t'. apply Nat.eqb_eq in Hu. cbn [dget] in E |- *.
  destruct (pair_eqb t s); [|apply IH; [cbn in L; lia|exact H|exact E]]. injection E as <-. exists u'. split; [reflexivity|lia].
Qed.
Lemma set_fits2 : forall ft w st st', fits2 size sub ft st -> inb_set w st = Ret st' -> fits2 size sub ft st'.
Proof.
  intros ft w st st' [F Fw] E. unfold inb_set in E. destruct (iv_weights st) as [w0|] eqn:Ew; [|discriminate]. apply assert_Ret in E. destruct E as (Eu & E).
  apply Ret_inj in E; subst st'. split; [exact F|]. cbn [iv_weights]. intros w1 E1. injection E1 as <-. intros s Hs. destruct (Fw w0 eq_refl s Hs) as (l & El & Ll).
  destruct (same_shapes_dget w0 w s l Eu El) as (l' & El' & Ll'). exists l'. split; [exact El'|lia].
Qed.
Lemma reset_fits2 : forall ft st, fits2 size sub ft st -> fits2 size sub ft (inb_reset_running_stats st).
Proof.
  intros ft st [F Fw]. split; [|exact Fw]. cbn [inb_reset_running_stats iv_vars]. intros s Hs. destruct (F s Hs) as (l & El & Ll).
  exists (map (fun _ => 1) l). rewrite map_length. split; [|exact Ll]. revert El. generalize (iv_vars st) as d. induction d as [|[t u] d IH]; cbn [map dget fst snd]; [discriminate|].
  destruct (pair_eqb t s); [|exact IH]. intros E; injection E as ->; reflexivity.
Qed.

Notation nrun m := (run (inb_forward size teqb m) inb_set inb_reset_running_stats).
Lemma run_fits2 : forall ft (m : inb_module (A := A)) h st r, Forall (fun q => (0 < size q)%nat) ft -> iv_type m = ft -> iv_ids m = map idf ft -> parts size sub ft ->
  fine2 size sub ft (iv_buffers m) (iv_order m) -> teqb ft ft = true ->
  fits2 size sub ft st -> (forall t N x, In (Call t N x) h -> (t = true -> 0 < N)%nat /\ g_type x = ft /\ length (g_chans x) = type_size size ft) ->
  nrun m st h = Ret r -> fits2 size sub ft (fst r).
Proof.
  intros ft m h st r P Tm Im Pa Fm Te. revert st r. induction h as [|e h IH]; intros st r F H E; cbn [run] in E; [apply Ret_inj in E; subst r; exact F|].
  apply bind_Ret in E. destruct E as (a & Ea & E). apply bind_Ret in E. destruct E as (q & Eq & E). apply Ret_inj in E; subst r. cbn [fst].
  apply (IH (fst a) q); [|intros; apply H; right; assumption|exact Eq]. destruct e as [t N x|w|].
  - destruct (H t N x (or_introl eq_refl)) as (HN & Tx & Lx). destruct (forward2_ok size sub teqb ft P m Tm Im Pa Fm t N st x F Te HN Tx Lx) as (out & Ef & _).
    rewrite Ef in Ea. cbn [bind] in Ea. apply Ret_inj in Ea; subst a. cbn [fst]. eapply after_fits2; eassumption.
  - apply bind_Ret in Ea. destruct Ea as (st' & Es & Ea). apply Ret_inj in Ea; subst a. cbn [fst]. eapply set_fits2; eassumption.
  - apply Ret_inj in Ea; subst a. cbn [fst]. apply reset_fits2, F.
Qed.

Theorem inb_value : forall ft affine eps mom m st0, Forall (fun r => (0 < size r)%nat) ft -> teqb ft ft = true ->
  (forall r, In r ft -> In (NL_induced_norm (sub r)) (supported r)) ->
  mk_inb size supported has_trivial affine eps mom ft = Ret (m, st0) ->
  forall h st ys, (forall t N x, In (Call t N x) h -> (t = true -> 0 < N)%nat /\ g_type x = ft /\ batch size ft N (g_chans x)) ->
  run (inb_forward size teqb m) inb_set inb_reset_running_stats st0 h = Ret (st, ys) ->
  forall (t : bool) N x, (t = true -> 0 < N)%nat -> g_type x = ft -> batch size ft N (g_chans x) ->
  exists st' y, inb_forward size teqb m t N st x = Ret (st', y) /\ g_type y = ft /\ batch size ft N (g_chans y) /\ iv_weights st' = iv_weights st /\
    iv_count st' = (if t then S (iv_count st) else iv_count st) /\
    forall i r j, nth_error ft i = Some r -> rank2 size sub ft i (size r, sub r) j ->
      let s := (size r, sub r) in
      kept2 (iv_vars st') s j =
        (if t then towards (match mom with Some f => f | None => 1 / INR (iv_count st') end) (kept2 (iv_vars st) s j)
                      (energy N (field_chans size ft (g_chans x) i) / (INR (sub r) * INR (Nat.max 1 (N * (size r / sub r) - 1))))
         else kept2 (iv_vars st) s j) /\
      field_chans size ft (g_chans y) i =
        map (map (fun a => a * (match iv_weights st with Some w => kept2 w s j | None => 1 end / sqrt (kept2 (iv_vars st') s j + eps)))) (field_chans size ft (g_chans x) i).
Proof.
  intros ft affine eps mom m st0 P Te Hsub Em h st ys Hh Er t N x HN Tx (Lx & Fx).
  destruct (mk_fine2 size sub supported has_trivial ft P affine eps mom m st0 Hsub Em) as (Tm & Im & Ee & Emo & Pa & Fm & F0 & _).
  assert (fits2 size sub ft st) as F.
  { apply (run_fits2 ft m h st0 (st, ys) P Tm Im Pa Fm Te F0); [|exact Er]. intros t' N' x' Hx. destruct (Hh t' N' x' Hx) as (H1 & H2 & (H3 & _)). auto. }
  destruct (forward2_ok size sub teqb ft P m Tm Im Pa Fm t N st x F Te HN Tx Lx) as (out & Ef & Lo & Ho).
  assert (Hex : forall i r, nth_error ft i = Some r -> exists j, rank2 size sub ft i (size r, sub r) j) by (intros; eapply rank2_exists; eassumption).
  exists (after2 size sub ft m t N st (g_chans x)), {| g_type := ft; g_chans := out |}. cbn [g_type g_chans].
  split; [exact Ef|]. split; [reflexivity|]. split; [split; [exact Lo|]|split; [destruct t; reflexivity|split; [destruct t; reflexivity|]]].
  - apply (Forall_fields size ft _ out Lo). intros i r E. destruct (Hex i r E) as [j Hj]. rewrite (Ho _ _ _ Hj). apply Forall_forall. intros c Hc.
    apply in_map_iff in Hc. destruct Hc as (c' & <- & Hc'). rewrite map_length. pose proof (proj1 (Forall_fields size ft _ (g_chans x) Lx) Fx i r E) as Fi.
    rewrite Forall_forall in Fi. apply Fi, Hc'.
  - intros i r j E Hj. set (s := (size r, sub r)) in *. destruct (rank2_id size sub ft i s j r Hj E) as [_ Hs]. fold s in Hj.
    split; [|rewrite (Ho _ _ _ Hj); unfold mult2; rewrite Ee; destruct t; reflexivity].
    destruct t; [|reflexivity]. cbn [after2 iv_vars iv_count]. destruct Fm as (ND & Io & Hb).
    rewrite (kept_dget2 _ s _ j (dget_order2 (next_vars2 size sub ft (average_factor (iv_momentum m) (S (iv_count st))) N (g_chans x) (iv_vars st)) (iv_order m) s (proj2 (Io s) Hs))).
    rewrite (next_vars2_nth size sub ft _ N (g_chans x) (iv_vars st) s j i (proj1 F) Hs Hj), Emo. unfold average_factor. f_equal.
    unfold spread, correction, s. cbn [fst snd]. specialize (HN eq_refl). assert (In r ft) as Hr by (apply nth_error_In in E; exact E). destruct (Pa r Hr) as [Ps Ds].
    rewrite Forall_forall in P. specialize (P r Hr). assert (0 < size r / sub r)%nat as Pn by (destruct (size r / sub r)%nat; cbn in Ds; lia).
    set (M := (N * (size r / sub r))%nat). assert (0 < M)%nat as PM by (unfold M; apply Nat.mul_pos_pos; assumption).
    pose proof (lt_0_INR (sub r) Ps). pose proof (lt_0_INR M PM). destruct (Nat.ltb_spec 1 M) as [H1|H1].
    + rewrite Nat.max_r by lia. pose proof (lt_0_INR (M - 1) ltac:(lia)). field. lra.
    + assert (M = 1%nat) as -> by lia. cbn [Nat.sub Nat.max]. change (INR 1) with 1. field. lra.
Qed.

Theorem inb_histories : forall ft affine eps mom m st0, Forall (fun r => (0 < size r)%nat) ft -> teqb ft ft = true ->
  (forall r, In r ft -> In (NL_induced_norm (sub r)) (supported r)) ->
  mk_inb size supported has_trivial affine eps mom ft = Ret (m, st0) ->
  forall (rho : nat -> nat -> A -> mat) (pi : nat -> nat -> nat), (forall k p r, In r ft -> orthogonal (size r) (rho k p r)) ->
  forall h h', length h' = length h ->
  (forall k e, nth_error h k = Some e -> match e with
     | Call t N x => (t = true -> 0 < N)%nat /\ g_type x = ft /\ reorders N (pi k) /\
         exists x', nth_error h' k = Some (Call t N x') /\ g_type x' = ft /\ moved_batch size ft N (rho k) (pi k) (g_chans x) (g_chans x')
     | _ => nth_error h' k = Some e end) ->
  forall st ys, run (inb_forward size teqb m) inb_set inb_reset_running_stats st0 h = Ret (st, ys) ->
  exists ys', run (inb_forward size teqb m) inb_set inb_reset_running_stats st0 h' = Ret (st, ys') /\
    forall k t N x, nth_error h k = Some (Call t N x) -> exists y y', nth_error ys k = Some (Some y) /\ nth_error ys' k = Some (Some y') /\
      g_type y = ft /\ g_type y' = ft /\ moved_batch size ft N (rho k) (pi k) (g_chans y) (g_chans y').
Proof.
  intros ft affine eps mom m st0 P Te Hsub Em rho pi O h h' L H st ys Er.
  destruct (mk_fine2 size sub supported has_trivial ft P affine eps mom m st0 Hsub Em) as (Tm & Im & Ee & Emo & Pa & Fm & F0 & _).
  destruct (run_pair (inb_forward size teqb m) inb_set inb_reset_running_stats (fits2 size sub ft) (fun t N => t = true -> 0 < N)%nat
    (fun k N x y => reorders N (pi k) /\ g_type x = ft /\ g_type y = ft /\ moved_batch size ft N (rho k) (pi k) (g_chans x) (g_chans y)) h h' 0)
    with (st := st0) (r := (st, ys)) as (ys' & Er' & Hy).
  - intros k t N s x x' F HN (R & Tx & Tx' & M).
    destruct (step_moved2 size sub teqb ft P m Tm Im Pa Fm t N (rho k) (pi k) s x x' F Te HN R (fun p r _ Hr => O k p r Hr) Tx Tx' M) as (s' & z & z' & E1 & E2 & F' & T1 & T2 & M').
    exists s', z, z'. auto 8.
  - intros w s s'. apply set_fits2.
  - apply reset_fits2.
  - exact L.
  - intros k e Ek. specialize (H k e Ek). destruct e as [t N x| |]; try exact H. destruct H as (HN & Tx & R & x' & Ex' & Tx' & M). split; [exact HN|].
    exists x'. cbn [Nat.add]. auto.
  - exact F0.
  - exact Er.
  - exists ys'. split; [exact Er'|]. intros k t N x Ek. destruct (Hy k t N x Ek) as (y & y' & H1 & H2 & _ & H3 & H4 & H5). exists y, y'. auto.
Qed.

(** the keys and the lengths of the states *)
Definition shaped (ids order : list (nat * nat)) (d : list ((nat * nat) * list R)) : Prop :=
  map fst d = order /\ Forall (fun e => length (snd e) = nfields pair_eqb ids (fst e)) d.
Lemma shaped_id_ones : forall ids order, shaped ids order (id_ones ids order).
Proof.
  intros ids order. unfold shaped, id_ones. rewrite map_map. cbn [fst]. rewrite map_id. split; [reflexivity|]. rewrite Forall_map. apply Forall_forall.
  intros s _. cbn [fst snd]. apply repeat_length.
Qed.
Lemma shaped_reset : forall ids order d, shaped ids order d -> map (fun e => (fst e, map (fun _ => 1) (snd e))) d = id_ones ids order.
Proof.
  intros ids order d [K F]. unfold id_ones. subst order. rewrite map_map. induction F as [|[s l] d Hs F IH]; [reflexivity|]. cbn [map fst snd] in *. rewrite IH. do 2 f_equal.
  rewrite <- Hs. clear. induction l as [|a l IH]; cbn [map length repeat]; [reflexivity|]. rewrite IH. reflexivity.
Qed.
Lemma shaped_same : forall ids order w w', shaped ids order w -> same_shapes w w' = true -> shaped ids order w'.
Proof.
  intros ids order w w' [K F] H. unfold same_shapes in H. apply andb_prop in H. destruct H as [L H]. apply Nat.eqb_eq in L. subst order. revert w' L H.
  induction F as [|[t u] w Ht F IH]; intros [|[t' u'] w'] L H; try discriminate; [split; [reflexivity|constructor]|]. cbn [List.combine forallb fst snd] in H.
  apply andb_prop in H. destruct H as [H0 H]. apply andb_prop in H0. destruct H0 as [Et Eu]. apply pair_eqb_ok in Et; subst t'. apply Nat.eqb_eq in Eu.
  destruct (IH w' ltac:(cbn in L; lia) H) as [K' F']. unfold shaped. cbn [map fst]. split; [f_equal; exact K'|]. constructor; [|exact F']. cbn [fst snd] in *. lia.
Qed.
Definition shaped_state (m : inb_module (A := A)) (affine : bool) (st : inb_state) : Prop :=
  shaped (iv_ids m) (iv_order m) (iv_vars st) /\ match iv_weights st with Some w => affine = true /\ shaped (iv_ids m) (iv_order m) w | None => affine = false end.
Lemma run_shaped : forall (m : inb_module (A := A)) affine h st r, shaped_state m affine st -> nrun m st h = Ret r -> shaped_state m affine (fst r).
Proof.
  intros m affine h. induction h as [|e h IH]; intros st r F E; cbn [run] in E; [apply Ret_inj in E; subst r; exact F|].
  apply bind_Ret in E. destruct E as (a & Ea & E). apply bind_Ret in E. destruct E as (q & Eq & E). apply Ret_inj in E; subst r. cbn [fst].
  apply (IH (fst a) q); [|exact Eq]. destruct F as [F G]. destruct e as [t N x|w|].
  - apply bind_Ret in Ea. destruct Ea as ([st' y] & Ef & Ea). apply Ret_inj in Ea; subst a. cbn [fst]. unfold inb_forward in Ef.
    apply assert_Ret in Ef. destruct Ef as (_ & Ef). apply bind_Ret in Ef. destruct Ef as (st2 & Es & Ef).
    do 2 (apply bind_Ret in Ef; destruct Ef as (? & _ & Ef)). apply Ret_inj in Ef. injection Ef as <- _.
    destruct t; [|apply Ret_inj in Es; subst st2; split; assumption]. apply assert_Ret in Es. destruct Es as (_ & Es). apply bind_Ret in Es. destruct Es as (vars & Ev & Es).
    apply Ret_inj in Es; subst st2. split; cbn [iv_vars iv_weights]; [|exact G]. unfold inb_update in Ev. destruct F as (F1 & F2).
    set (f := average_factor (iv_momentum m) (S (iv_count st))) in *.
    assert (forall o v, mapM (fun s => old <- lookup pair_eqb (iv_vars st) s ;; new <- id_vars m N (g_chans x) s ;;
      assert (Nat.eqb (length old) (length new)) ;; Ret (s, blend f old new)) o = Ret v ->
      map fst v = o /\ Forall (fun e => length (snd e) = nfields pair_eqb (iv_ids m) (fst e)) v) as Gq; [|apply Gq, Ev].
    clear Ev Eq. induction o as [|s o IHo]; intros v E; cbn [mapM] in E; [apply Ret_inj in E; subst v; split; [reflexivity|constructor]|].
    apply bind_Ret in E. destruct E as (e & Ee & E). apply bind_Ret in E. destruct E as (v' & Ev & E). apply Ret_inj in E; subst v.
    apply bind_Ret in Ee. destruct Ee as (old & Eo & Ee). apply bind_Ret in Ee. destruct Ee as (new & _ & Ee). apply assert_Ret in Ee. destruct Ee as (Ln & Ee).
    apply Ret_inj in Ee; subst e. apply Nat.eqb_eq in Ln. destruct (IHo v' Ev) as (H1 & H2). cbn [map fst]. split; [f_equal; exact H1|]. constructor; [|exact H2]. cbn [fst snd].
    unfold blend. rewrite map_length, combine_length, Ln, Nat.min_id, <- Ln. unfold lookup in Eo. destruct (dget pair_eqb (iv_vars st) s) as [l|] eqn:Ed; [|discriminate].
    apply Ret_inj in Eo; subst l. apply (dget_in pair_eqb pair_eqb_ok) in Ed. rewrite Forall_forall in F2. apply (F2 (s, old)), Ed.
  - apply bind_Ret in Ea. destruct Ea as (st' & Es & Ea). apply Ret_inj in Ea; subst a. cbn [fst]. unfold inb_set in Es.
    destruct (iv_weights st) as [w0|]; [|discriminate]. apply assert_Ret in Es. destruct Es as (Hw & Es). apply Ret_inj in Es; subst st'. split; [exact F|]. cbn [iv_weights].
    split; [apply G|]. eapply shaped_same; [apply G|exact Hw].
  - apply Ret_inj in Ea; subst a. cbn [fst inb_reset_running_stats]. split; [|exact G]. cbn [inb_reset_running_stats iv_vars]. rewrite (shaped_reset _ _ _ F). apply shaped_id_ones.
Qed.
Theorem inb_resets : forall ft affine eps mom m st0, mk_inb size supported has_trivial affine eps mom ft = Ret (m, st0) ->
  forall h st ys, run (inb_forward size teqb m) inb_set inb_reset_running_stats st0 h = Ret (st, ys) ->
  iv_vars (inb_reset_running_stats st) = iv_vars st0 /\ iv_count (inb_reset_running_stats st) = iv_count st0 /\ iv_weights (inb_reset_running_stats st) = iv_weights st /\
  (affine = true -> inb_reset_parameters st = Ret st0).
Proof.
  intros ft affine eps mom m st0 Em h st ys Er. unfold mk_inb in Em. apply assert_Ret in Em. destruct Em as (_ & Em). apply bind_Ret in Em. destruct Em as (ids & _ & Em).
  apply bind_Ret in Em. destruct Em as (b & _ & Em). apply Ret_inj in Em. injection Em as <- <-.
  match type of Er with run (inb_forward _ _ ?m) _ _ ?s0 _ = _ => pose proof (run_shaped m affine h s0 (st, ys)) as S end.
  specialize (S ltac:(split; cbn [iv_vars iv_weights iv_ids iv_order]; [apply shaped_id_ones|destruct affine; [split; [reflexivity|apply shaped_id_ones]|reflexivity]]) Er).
  destruct S as [S1 S2]. cbn [fst iv_ids iv_order] in S1, S2. cbn [inb_reset_running_stats iv_vars iv_count iv_weights].
  split; [apply shaped_reset, S1|]. split; [reflexivity|]. split; [reflexivity|]. intros ->. unfold inb_reset_parameters. cbn [inb_reset_running_stats iv_weights iv_vars iv_count].
  destruct (iv_weights st) as [w|]; [|discriminate]. destruct S2 as [_ S2]. rewrite (shaped_reset _ _ _ S1), (shaped_reset _ _ _ S2). reflexivity.
Qed.
Theorem inb_reset_raises : forall ft eps mom m st0, ft <> [] -> mk_inb size supported has_trivial false eps mom ft = Ret (m, st0) ->
  inb_reset_parameters st0 = Raise.
Proof.
  intros ft eps mom m st0 Nf E. unfold mk_inb in E. apply assert_Ret in E. destruct E as (_ & E). apply bind_Ret in E. destruct E as (ids & Ei & E).
  apply bind_Ret in E. destruct E as (b & Eb & E). apply Ret_inj in E. injection E as <- <-. unfold inb_reset_parameters. cbn [inb_reset_running_stats iv_weights iv_vars].
  destruct (buffers_keys size pair_eqb pair_eqb_ok ft ids b Eb) as [_ Ib]. destruct b as [|e b]; [|reflexivity]. exfalso.
  destruct ft as [|r ft]; [congruence|]. destruct (mapM_nth _ _ _ 0 r Ei eq_refl) as (y & _ & Ey). apply nth_error_In in Ey. apply Ib in Ey. destruct Ey.
Qed.
End N.
