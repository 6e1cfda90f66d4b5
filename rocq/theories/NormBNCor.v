(** NormBatchNorm: histories. *)
From Coq Require Import Reals List ZArith Arith Bool Lia Lra Permutation.
From Verif Require Import LibRes LibPy LibMat FieldModel SpecField FieldProofs BranchProofs LabelThms MergeThms GroupedModel GroupedProofs NonlinModel SpecNonlin NonlinProofs NormThms BatchNormModel SpecBatch BatchNormProofs BatchThms NormBNThms.
Import ListNotations.
Open Scope R_scope.

Section N.
Context {A : Type}.
Variable size : A -> nat.
Variable supported : A -> list nonlin.
Variable has_trivial : A -> bool.
Variable teqb : list A -> list A -> bool.

Lemma same_shape_dget : forall w w' s l, same_shape w w' = true -> dget Nat.eqb w s = Some l -> exists l', dget Nat.eqb w' s = Some l' /\ length l' = length l.
Proof.
  intros w w' s l H. unfold same_shape in H. apply andb_prop in H. destruct H as [L H]. apply Nat.eqb_eq in L. revert w' L H.
  induction w as [|[t u] w IH]; intros [|[t' u'] w'] L H E; try discriminate. cbn [List.combine forallb fst snd] in H. apply andb_prop in H. destruct H as [H0 H].
  apply andb_prop in H0. destruct H0 as [Ht Hu]. apply Nat.eqb_eq in Ht; subst t'. apply Nat.eqb_eq in Hu. cbn [dget] in E |- *.
  destruct (Nat.eqb t s); [|apply IH; [cbn in L; lia|exact H|exact E]]. injection E as <-. exists u'. split; [reflexivity|lia].
Qed.
Lemma set_fits : forall ft w st st', fits size ft st -> nbn_set w st = Ret st' -> fits size ft st'.
Proof.
  intros ft w st st' [F Fw] E. unfold nbn_set in E. destruct (nb_weights st) as [w0|] eqn:Ew; [|discriminate]. apply assert_Ret in E. destruct E as (Eu & E).
  apply Ret_inj in E; subst st'. split; [exact F|]. cbn [nb_weights]. intros w1 E1. injection E1 as <-. intros s Hs. destruct (Fw w0 eq_refl s Hs) as (l & El & Ll).
  destruct (same_shape_dget w0 w s l Eu El) as (l' & El' & Ll'). exists l'. split; [exact El'|lia].
Qed.
Lemma reset_fits : forall ft st, fits size ft st -> fits size ft (nbn_reset_running_stats st).
Proof.
  intros ft st [F Fw]. split; [|exact Fw]. cbn [nbn_reset_running_stats nb_vars]. intros s Hs. destruct (F s Hs) as (l & El & Ll).
  exists (map (fun _ => 1) l). rewrite map_length. split; [|exact Ll]. revert El. generalize (nb_vars st) as d. induction d as [|[t u] d IH]; cbn [map dget fst snd]; [discriminate|].
  destruct (Nat.eqb t s); [|exact IH]. intros E; injection E as ->; reflexivity.
Qed.

Notation nrun m := (run (nbn_forward size teqb m) nbn_set nbn_reset_running_stats).
Lemma run_fits : forall ft (m : nbn_module (A := A)) h st r, Forall (fun q => (0 < size q)%nat) ft -> nb_type m = ft -> fine size ft (nb_buffers m) (nb_order m) -> teqb ft ft = true ->
  fits size ft st -> (forall t N x, In (Call t N x) h -> (t = true -> 0 < N)%nat /\ g_type x = ft /\ length (g_chans x) = type_size size ft) ->
  nrun m st h = Ret r -> fits size ft (fst r).
Proof.
  intros ft m h st r P Tm Fm Te. revert st r. induction h as [|e h IH]; intros st r F H E; cbn [run] in E; [apply Ret_inj in E; subst r; exact F|].
  apply bind_Ret in E. destruct E as (a & Ea & E). apply bind_Ret in E. destruct E as (q & Eq & E). apply Ret_inj in E; subst r. cbn [fst].
  apply (IH (fst a) q); [|intros; apply H; right; assumption|exact Eq]. destruct e as [t N x|w|].
  - destruct (H t N x (or_introl eq_refl)) as (HN & Tx & Lx). destruct (forward_ok size teqb ft P m Tm Fm t N st x F Te HN Tx Lx) as (out & Ef & _).
    rewrite Ef in Ea. cbn [bind] in Ea. apply Ret_inj in Ea; subst a. cbn [fst]. eapply after_fits; eassumption.
  - apply bind_Ret in Ea. destruct Ea as (st' & Es & Ea). apply Ret_inj in Ea; subst a. cbn [fst]. eapply set_fits; eassumption.
  - apply Ret_inj in Ea; subst a. cbn [fst]. apply reset_fits, F.
Qed.

Theorem nbn_value : forall ft affine eps mom m st0, Forall (fun r => (0 < size r)%nat) ft -> teqb ft ft = true ->
  mk_nbn size supported has_trivial affine eps mom ft = Ret (m, st0) ->
  forall h st ys, (forall t N x, In (Call t N x) h -> (t = true -> 0 < N)%nat /\ g_type x = ft /\ batch size ft N (g_chans x)) ->
  nrun m st0 h = Ret (st, ys) ->
  forall (t : bool) N x, (t = true -> 0 < N)%nat -> g_type x = ft -> batch size ft N (g_chans x) ->
  exists st' y, nbn_forward size teqb m t N st x = Ret (st', y) /\ g_type y = ft /\ batch size ft N (g_chans y) /\ nb_weights st' = nb_weights st /\
    nb_count st' = (if t then S (nb_count st) else nb_count st) /\
    forall i s j, rank size ft i s j ->
      kept (nb_vars st') s j =
        (if t then towards (match mom with Some f => f | None => 1 / INR (nb_count st') end) (kept (nb_vars st) s j)
                      (energy N (field_chans size ft (g_chans x) i) / (INR s * INR (Nat.max 1 (N - 1))))
         else kept (nb_vars st) s j) /\
      field_chans size ft (g_chans y) i =
        map (map (fun a => a * (match nb_weights st with Some w => kept w s j | None => 1 end / sqrt (kept (nb_vars st') s j + eps)))) (field_chans size ft (g_chans x) i).
Proof.
  intros ft affine eps mom m st0 P Te Em h st ys Hh Er t N x HN Tx (Lx & Fx).
  destruct (mk_fine size supported has_trivial ft P affine eps mom m st0 Em) as (Tm & Ee & Emo & Fm & F0 & _ & _).
  assert (fits size ft st) as F.
  { apply (run_fits ft m h st0 (st, ys) P Tm Fm Te F0); [|exact Er]. intros t' N' x' Hx. destruct (Hh t' N' x' Hx) as (H1 & H2 & (H3 & _)). auto. }
  destruct (forward_ok size teqb ft P m Tm Fm t N st x F Te HN Tx Lx) as (out & Ef & Lo & Ho).
  assert (Hex : forall i r, nth_error ft i = Some r -> exists j, rank size ft i (size r) j) by (intros; eapply rank_exists; eassumption).
  exists (after size ft m t N st (g_chans x)), {| g_type := ft; g_chans := out |}. cbn [g_type g_chans].
  split; [exact Ef|]. split; [reflexivity|]. split; [split; [exact Lo|]|split; [destruct t; reflexivity|split; [destruct t; reflexivity|]]].
  - apply (Forall_fields size ft _ out Lo). intros i r E. destruct (Hex i r E) as [j Hj]. rewrite (Ho _ _ _ Hj). apply Forall_forall. intros c Hc.
    apply in_map_iff in Hc. destruct Hc as (c' & <- & Hc'). rewrite map_length. pose proof (proj1 (Forall_fields size ft _ (g_chans x) Lx) Fx i r E) as Fi.
    rewrite Forall_forall in Fi. apply Fi, Hc'.
  - intros i s j Hj. assert (i < length ft)%nat as Hi.
    { assert (In i (labelled Nat.eqb (map size ft) s)) as Hin by (unfold rank in Hj; apply nth_error_In in Hj; exact Hj).
      apply (labelled_In Nat.eqb eqb_ok) in Hin. rewrite <- (map_length size). apply nth_error_Some. congruence. }
    destruct (nth_error ft i) as [r|] eqn:E; [|apply nth_error_None in E; lia]. destruct (rank_size size ft i s j r Hj E) as [Es Hs].
    split; [|rewrite (Ho _ _ _ Hj); unfold mult; rewrite Ee; destruct t; reflexivity].
    destruct t; [|reflexivity]. cbn [after nb_vars nb_count]. destruct Fm as (ND & Io & Hb).
    rewrite (kept_dget _ s _ j (dget_order (next_vars size ft (average_factor (nb_momentum m) (S (nb_count st))) N (g_chans x) (nb_vars st)) (nb_order m) s (proj2 (Io s) Hs))).
    rewrite (next_vars_nth size ft _ N (g_chans x) (nb_vars st) s j i (proj1 F) Hs Hj), Emo. unfold average_factor. f_equal.
    rewrite field_var_energy. unfold correction. specialize (HN eq_refl). assert (0 < s)%nat as Ps by (apply (size_pos size ft P), Hs).
    pose proof (lt_0_INR s Ps). pose proof (lt_0_INR N HN). destruct (Nat.ltb_spec 1 N) as [H1|H1].
    + rewrite Nat.max_r by lia. pose proof (lt_0_INR (N - 1) ltac:(lia)). field. lra.
    + assert (N = 1%nat) as -> by lia. cbn [Nat.sub Nat.max]. change (INR 1) with 1. field. lra.
Qed.

Theorem nbn_histories : forall ft affine eps mom m st0, Forall (fun r => (0 < size r)%nat) ft -> teqb ft ft = true ->
  mk_nbn size supported has_trivial affine eps mom ft = Ret (m, st0) ->
  forall (rho : nat -> nat -> A -> mat) (pi : nat -> nat -> nat), (forall k p r, In r ft -> orthogonal (size r) (rho k p r)) ->
  forall h h', length h' = length h ->
  (forall k e, nth_error h k = Some e -> match e with
     | Call t N x => (t = true -> 0 < N)%nat /\ g_type x = ft /\ reorders N (pi k) /\
         exists x', nth_error h' k = Some (Call t N x') /\ g_type x' = ft /\ moved_batch size ft N (rho k) (pi k) (g_chans x) (g_chans x')
     | _ => nth_error h' k = Some e end) ->
  forall st ys, nrun m st0 h = Ret (st, ys) ->
  exists ys', nrun m st0 h' = Ret (st, ys') /\
    forall k t N x, nth_error h k = Some (Call t N x) -> exists y y', nth_error ys k = Some (Some y) /\ nth_error ys' k = Some (Some y') /\
      g_type y = ft /\ g_type y' = ft /\ moved_batch size ft N (rho k) (pi k) (g_chans y) (g_chans y').
Proof.
  intros ft affine eps mom m st0 P Te Em rho pi O h h' L H st ys Er.
  destruct (mk_fine size supported has_trivial ft P affine eps mom m st0 Em) as (Tm & Ee & Emo & Fm & F0 & _ & _).
  destruct (run_pair (nbn_forward size teqb m) nbn_set nbn_reset_running_stats (fits size ft) (fun t N => t = true -> 0 < N)%nat
    (fun k N x y => reorders N (pi k) /\ g_type x = ft /\ g_type y = ft /\ moved_batch size ft N (rho k) (pi k) (g_chans x) (g_chans y)) h h' 0)
    with (st := st0) (r := (st, ys)) as (ys' & Er' & Hy).
  - intros k t N s x x' F HN (R & Tx & Tx' & M).
    destruct (step_moved size teqb ft P m Tm Fm t N (rho k) (pi k) s x x' F Te HN R (fun p r _ Hr => O k p r Hr) Tx Tx' M) as (s' & z & z' & E1 & E2 & F' & T1 & T2 & M').
    exists s', z, z'. auto 8.
  - intros w s s'. apply set_fits.
  - apply reset_fits.
  - exact L.
  - intros k e Ek. specialize (H k e Ek). destruct e as [t N x| |]; try exact H. destruct H as (HN & Tx & R & x' & Ex' & Tx' & M). split; [exact HN|].
    exists x'. cbn [Nat.add]. auto.
  - exact F0.
  - exact Er.
  - exists ys'. split; [exact Er'|]. intros k t N x Ek. destruct (Hy k t N x Ek) as (y & y' & H1 & H2 & _ & H3 & H4 & H5). exists y, y'. auto.
Qed.
Theorem nbn_reset_raises : forall ft eps mom m st0 uniform, Forall (fun r => (0 < size r)%nat) ft -> ft <> [] ->
  mk_nbn size supported has_trivial false eps mom ft = Ret (m, st0) -> nbn_reset_parameters uniform st0 = Raise.
Proof.
  intros ft eps mom m st0 uniform P Nf E. destruct (mk_fine size supported has_trivial ft P false eps mom m st0 E) as (_ & _ & _ & _ & (F & _) & _ & W).
  unfold nbn_reset_parameters. cbn [nbn_reset_running_stats nb_weights]. rewrite (proj2 W eq_refl). destruct ft as [|r ft]; [congruence|].
  destruct (F (size r) (or_introl eq_refl)) as (l & El & _). destruct (nb_vars st0); [discriminate|reflexivity].
Qed.
End N.
