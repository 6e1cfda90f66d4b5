(** Batch normalisations: resets, and the export of InnerBatchNorm. *)
From Coq Require Import Reals List ZArith Arith Bool Lia Lra Permutation.
From Verif Require Import LibRes LibPy LibMat FieldModel SpecField FieldProofs BranchProofs LabelThms MergeThms GroupedModel GroupedProofs NonlinModel SpecNonlin NonlinProofs NormThms ImageModel ImageProofs PoolModel SpecPool PoolProofs PoolThms BatchNormModel SpecBatch BatchNormProofs BatchThms NormBNThms InnerBNThms NormBNCor InnerBNCor.
Import ListNotations.
Open Scope R_scope.

Section E.
Context {A : Type}.
Variable size : A -> nat.
Variable supported : A -> list nonlin.
Variable teqb : list A -> list A -> bool.
Variable ft : list A.
Hypothesis P : Forall (fun r => (0 < size r)%nat) ft.
Notation lab := (labelled Nat.eqb (map size ft)).

Definition is_run (s : nat) : Prop := exists a k, lab s = seq a k.

Lemma ibn_buffers : forall dim affine track eps mom m st, mk_ibn size supported dim affine track eps mom ft = Ret (m, st) ->
  forall s, In s (map size ft) -> exists c, lookup Nat.eqb (ib_buffers m) s = Ret c /\
    match c with Run a e => chan_list size ft (lab s) = seq a (e - a) /\ (a < e)%nat /\ is_run s | Listed _ => ~ is_run s end.
Proof.
  intros dim affine track eps mom m st E s Hs. unfold mk_ibn in E. apply bind_Ret in E. destruct E as (u & _ & E). apply bind_Ret in E. destruct E as (d & Ed & E).
  apply bind_Ret in E. destruct E as (b & Eb & E). apply bind_Ret in E. destruct E as (dims & _ & E). apply Ret_inj in E. injection E as <- _. cbn [ib_buffers].
  destruct (indexes_exact size Nat.eqb eqb_ok ft (map size ft) (map_length size ft) P) as (d' & Ed' & _ & _ & He). assert (d' = d) by congruence; subst d'.
  destruct (indexes_ok size Nat.eqb eqb_ok ft (map size ft) (map_length size ft) P) as (d' & Ed2 & Ho). assert (d' = d) by congruence; subst d'.
  destruct (He s Hs) as (c & Ec & Hc). destruct (Ho s Hs) as (c' & ch & Ec' & _ & _ & Hc'). unfold lookup in Ec'. rewrite Ec in Ec'. apply Ret_inj in Ec'. injection Ec' as <- <-.
  assert (G : forall d b, mapM pool_entry d = Ret b -> forall x, dget Nat.eqb d s = Some x -> exists ci co, pool_entry (s, x) = Ret (s, ci, co) /\
     lookup Nat.eqb (map (fun e => (fst (fst e), snd (fst e))) b) s = Ret ci).
  { clear. induction d as [|[l [[c f] i]] d IH]; intros b E x Hx; [discriminate|]. cbn [mapM] in E. apply bind_Ret in E. destruct E as ([[l' ci] co] & Ep & E).
    apply bind_Ret in E. destruct E as (b2 & E2 & E). apply Ret_inj in E; subst b.
    assert (l' = l) as ->.
    { cbn [pool_entry] in Ep. destruct c; [|injection Ep as -> _ _; reflexivity]. do 4 (apply bind_Ret in Ep; destruct Ep as (? & _ & Ep)). injection Ep as -> _ _. reflexivity. }
    cbn [dget] in Hx. unfold lookup. cbn [map dget fst snd]. destruct (Nat.eqb l s) eqn:El.
    - apply Nat.eqb_eq in El; subst l. injection Hx as <-. exists ci, co. auto.
    - destruct (IH b2 E2 x Hx) as (ci' & co' & H1 & H2). exists ci', co'. split; [exact H1|]. unfold lookup in H2. exact H2. }
  destruct (G d b Eb _ Ec) as (ci & co & Ep & El). exists ci. split; [exact El|]. cbn [pool_entry] in Ep. destruct c.
  - destruct (Hc eq_refl) as ((a & k & Es) & Hr). rewrite Es in Ep.
    assert (0 < k)%nat as Pk.
    { destruct k; [|lia]. exfalso. revert Es. apply chan_list_nonempty; [rewrite <- (map_length size); apply labelled_lt|apply (labelled_nonempty Nat.eqb eqb_ok); assumption|exact P]. }
    destruct (min_max_seq a k Pk) as [Em EM]. rewrite Em, EM in Ep. cbn [bind] in Ep. do 2 (apply bind_Ret in Ep; destruct Ep as (? & _ & Ep)). injection Ep as <- _.
    split; [rewrite Es; f_equal; lia|]. split; [lia|exact Hr].
  - injection Ep as <- _. intros (a & k & Ek). assert (false = true); [|discriminate]. apply Hc'.
    destruct (labelled_run_chans size Nat.eqb eqb_ok ft (map size ft) s a k (map_length size ft) Hs Ek) as (p & q & Ep). rewrite Ep.
    exists (Z.of_nat p), (Z.of_nat (p + q)). split; [lia|]. intros z. rewrite in_map_iff. split.
    + intros (y & <- & Hy). apply in_seq in Hy. lia.
    + intros Hz. exists (Z.to_nat z). split; [lia|]. apply in_seq. lia.
Qed.

Lemma spread_blocks : forall s l, spread s l = concat (map (fun a => repeat a s) l).
Proof. intros s l. unfold spread. apply flat_map_concat_map. Qed.

Lemma assign_fields : forall s a e (l out : list R), In s (map size ft) -> chan_list size ft (lab s) = seq a (e - a) -> (a < e)%nat ->
  length l = length (lab s) -> length out = type_size size ft ->
  exists out', assign out a e (spread s l) = Ret out' /\ length out' = type_size size ft /\
    (forall j i, rank size ft i s j -> field_chans size ft out' i = repeat (nth j l 0) s) /\
    (forall i s' j, rank size ft i s' j -> s' <> s -> field_chans size ft out' i = field_chans size ft out i).
Proof.
  intros s a e l out Hs Ec Hae Ll Lo.
  assert (Forall2 (fun i w => exists r, nth_error ft i = Some r /\ length w = size r) (lab s) (map (fun a => repeat a s) l)) as F2.
  { assert (forall i, In i (lab s) -> exists r, nth_error ft i = Some r /\ s = size r) as H.
    { intros i Hi. destruct (label_field size Nat.eqb eqb_ok ft (map size ft) (fun s => s) (map_length size ft) (sizes_ok size ft) s i Hi) as (r & _ & Er & Es). eauto. }
    revert H Ll. generalize (lab s) as sel. clear - l. induction l as [|x l IH]; intros [|i sel] H Ll; try discriminate; [constructor|]. cbn [map]. constructor.
    - destruct (H i (or_introl eq_refl)) as (r & Er & Es). exists r. rewrite repeat_length. auto.
    - apply IH; [intros; apply H; right; assumption|cbn in Ll; lia]. }
  destruct (set_blocks size ft (lab s) _ out Lo (labelled_NoDup Nat.eqb (map size ft) s) F2) as (out' & E & Lo' & Hin & Hout).
  rewrite <- spread_blocks, Ec in E.
  assert (length (spread s l) = (e - a)%nat) as Lw.
  { assert (length (chan_list size ft (lab s)) = length (spread s l)) as K; [|rewrite Ec, seq_length in K; lia].
    rewrite spread_blocks. clear - F2. induction F2 as [|i w sel ws (r & Er & Lw) F2 IH]; [reflexivity|]. unfold chan_list. cbn [concat flat_map].
    fold (chan_list size ft sel). rewrite !app_length, IH, seq_length, (offset_S size _ _ _ Er). lia. }
  assert (e <= type_size size ft)%nat as He.
  { pose proof (chan_list_lt size ft (lab s)) as F. rewrite Ec, Forall_forall in F. specialize (F (e - 1)%nat). rewrite in_seq in F. lia. }
  exists out'. split.
  - unfold assign. rewrite (proj2 (Nat.leb_le _ _)) by lia. cbn [assert_ bind]. rewrite Lw, Nat.eqb_refl. cbn [assert_ bind].
    rewrite <- Lw, set_all_seq in E by lia. apply Ret_inj in E. rewrite <- E. unfold splice. rewrite Lw. repeat f_equal. lia.
  - split; [exact Lo'|split].
    + intros j i Hj. assert (j < length l)%nat as Hl by (rewrite Ll; apply nth_error_Some; unfold rank in Hj; congruence).
      eapply Hin; [exact Hj|]. rewrite nth_error_map, (nth_error_nth' l 0 Hl). reflexivity.
    + intros i s' j Hj Ns. apply Hout. intros K. apply Ns. unfold rank in Hj. apply nth_error_In in Hj.
      exact (labelled_disjoint Nat.eqb eqb_ok (map size ft) s' s i Hj K).
Qed.

(** arrays of the exported module that hold the numbers of the fields whose sizes
    satisfy [Q], and are as in [old] elsewhere *)
Definition filled (Q : nat -> Prop) (l : nat -> list R) (old v : list R) : Prop :=
  length v = type_size size ft /\ forall i s j, rank size ft i s j ->
    (Q s -> field_chans size ft v i = repeat (nth j (l s) 0) s) /\ (~ Q s -> field_chans size ft v i = field_chans size ft old i).

Variable m : ibn_module (A := A).
Variable st : ibn_state.
Definition sub (s : nat) : bn := match dget Nat.eqb st s with Some b => b | None => new_bn false false 0 end.
Definition ms_of (s : nat) : list R := match bn_stats (sub s) with Some (ms, _, _) => ms | None => [] end.
Definition vs_of (s : nat) : list R := match bn_stats (sub s) with Some (_, vs, _) => vs | None => [] end.
Definition ws_of (s : nat) : list R := match bn_affine (sub s) with Some (w, _) => w | None => [] end.
Definition bs_of (s : nat) : list R := match bn_affine (sub s) with Some (_, b) => b | None => [] end.
Variable affine : bool.
Hypothesis Hst : ifits size ft affine true st.
Variable k : nat.
Hypothesis Hk : forall s, In s (map size ft) -> exists b ms vs, dget Nat.eqb st s = Some b /\ bn_stats b = Some (ms, vs, k).

Lemma filled_step : forall s l old v v' o, filled (fun s' => In s' o) l v v' ->
  (forall i s' j, rank size ft i s' j -> (s' = s -> field_chans size ft v i = repeat (nth j (l s) 0) s) /\ (s' <> s -> field_chans size ft v i = field_chans size ft old i)) ->
  ~ In s o -> filled (fun s' => In s' (s :: o)) l old v'.
Proof.
  intros s l old v v' o (Lv & H) Hs Ns. split; [exact Lv|]. intros i s' j Hj. destruct (H i s' j Hj) as [H1 H2]. destruct (Hs i s' j Hj) as [H3 H4]. split.
  - intros [<-|K]; [rewrite H2 by exact Ns; apply H3; reflexivity|apply H1, K].
  - intros K. rewrite H2 by (intros Q; apply K; right; exact Q). apply H4. intros ->. apply K. left; reflexivity.
Qed.

Lemma export_loop_ok : forall o tracked ms0 vs0 aff0 k0, NoDup o -> (forall s, In s o -> In s (map size ft)) ->
  (forall s, In s o -> exists a e, lookup Nat.eqb (ib_buffers m) s = Ret (Run a e) /\ chan_list size ft (lab s) = seq a (e - a) /\ (a < e)%nat) ->
  (tracked = None \/ tracked = Some k) -> length ms0 = type_size size ft -> length vs0 = type_size size ft ->
  match aff0 with Some (w, b) => affine = true /\ length w = type_size size ft /\ length b = type_size size ft | None => affine = false end ->
  exists ms vs aff k', export_loop m st o tracked {| bn_affine := aff0; bn_stats := Some (ms0, vs0, k0) |} = Ret {| bn_affine := aff; bn_stats := Some (ms, vs, k') |} /\
    (o <> [] -> k' = k) /\
    filled (fun s => In s o) ms_of ms0 ms /\ filled (fun s => In s o) vs_of vs0 vs /\
    match aff0, aff with
    | Some (w0, b0), Some (w, b) => filled (fun s => In s o) ws_of w0 w /\ filled (fun s => In s o) bs_of b0 b
    | None, None => True
    | _, _ => False
    end.
Proof.
  induction o as [|s o IH]; intros tracked ms0 vs0 aff0 k0 ND Hin Hr Ht Lm Lv La.
  - exists ms0, vs0, aff0, k0. split; [reflexivity|]. split; [congruence|].
    assert (forall l v, length v = type_size size ft -> filled (fun s => In s []) l v v) as G by (intros l v L; split; [exact L|]; intros; split; [intros []|reflexivity]).
    split; [apply G, Lm|split; [apply G, Lv|]]. destruct aff0 as [[w b]|]; [split; apply G; tauto|exact I].
  - apply NoDup_cons_iff in ND. destruct ND as [Ns ND]. pose proof (Hin s (or_introl eq_refl)) as Hs.
    destruct (Hr s (or_introl eq_refl)) as (a & e & El & Ec & Hae). destruct (Hk s Hs) as (b & ms & vs & Eb & Est). destruct (Hst s Hs) as (b' & Eb' & [F1 F2] & _ & Fa).
    assert (b' = b) by congruence; subst b'. destruct (F2 ms vs k Est) as [L1 L2].
    assert (ms_of s = ms /\ vs_of s = vs) as [Ems Evs] by (unfold ms_of, vs_of, sub; rewrite Eb, Est; auto).
    destruct (assign_fields s a e vs vs0 Hs Ec Hae L2 Lv) as (vs1 & Ev & Lv1 & Hv1 & Hv2).
    destruct (assign_fields s a e ms ms0 Hs Ec Hae L1 Lm) as (ms1 & Em & Lm1 & Hm1 & Hm2).
    assert (exists aff1, match bn_affine b, aff0 with
                 | Some (w, bi), Some (w', bi') => w'' <- assign w' a e (spread s w) ;; bi'' <- assign bi' a e (spread s bi) ;; Ret (Some (w'', bi''))
                 | _, _ => Ret aff0
                 end = Ret aff1 /\
      match aff0, aff1 with
      | Some (w0, b0), Some (w1, b1) => affine = true /\ length w1 = type_size size ft /\ length b1 = type_size size ft /\
         (forall i s' j, rank size ft i s' j -> (s' = s -> field_chans size ft w1 i = repeat (nth j (ws_of s) 0) s) /\ (s' <> s -> field_chans size ft w1 i = field_chans size ft w0 i)) /\
         (forall i s' j, rank size ft i s' j -> (s' = s -> field_chans size ft b1 i = repeat (nth j (bs_of s) 0) s) /\ (s' <> s -> field_chans size ft b1 i = field_chans size ft b0 i))
      | None, None => affine = false
      | _, _ => False end) as (aff1 & Ea & Ha).
    { destruct aff0 as [[w0 b0]|].
      - destruct La as (Taff & Lw & Lb). destruct (bn_affine b) as [[w bi]|] eqn:Eaf; [|exfalso; destruct Fa as [Fa _]; specialize (Fa eq_refl); congruence].
        destruct (F1 w bi eq_refl) as [L3 L4]. destruct (assign_fields s a e w w0 Hs Ec Hae L3 Lw) as (w1 & Ew & Lw1 & Hw1 & Hw2).
        destruct (assign_fields s a e bi b0 Hs Ec Hae L4 Lb) as (b1 & Ebi & Lb1 & Hb1 & Hb2).
        exists (Some (w1, b1)). rewrite Ew. cbn [bind]. rewrite Ebi. cbn [bind]. split; [reflexivity|].
        assert (ws_of s = w /\ bs_of s = bi) as [-> ->] by (unfold ws_of, bs_of, sub; rewrite Eb, Eaf; auto).
        split; [exact Taff|split; [exact Lw1|split; [exact Lb1|split]]]; intros i s' j Hj; (split; [intros ->|]; eauto).
      - exists None. destruct (bn_affine b) as [[w bi]|]; auto. }
    destruct (IH (Some k) ms1 vs1 aff1 k ND (fun s' H => Hin s' (or_intror H)) (fun s' H => Hr s' (or_intror H)) (or_intror eq_refl) Lm1 Lv1) as (ms2 & vs2 & aff2 & k2 & E2 & Hk2 & Fm & Fv & Fw).
    { destruct aff0 as [[w0 b0]|], aff1 as [[w1 b1]|]; try contradiction; tauto. }
    exists ms2, vs2, aff2, k2. split; [|split; [|split; [|split]]].
    + cbn [export_loop]. rewrite El. unfold lookup. rewrite Eb. cbn [bind bn_stats bn_affine]. rewrite Est. rewrite Ev. cbn [bind]. rewrite Em. cbn [bind].
      assert (match tracked with None => Ret tt | Some k' => assert (Nat.eqb k' k) ;; Ret tt end = Ret tt) as ->
        by (destruct Ht as [->| ->]; [reflexivity|rewrite Nat.eqb_refl; reflexivity]). cbn [bind].
      rewrite Ea. cbn [bind]. replace (match tracked with None => Some k | Some k' => Some k' end) with (Some k) by (destruct Ht as [->| ->]; reflexivity). exact E2.
    + intros _. destruct o as [|s1 o]; [cbn in E2; apply Ret_inj in E2; congruence|apply Hk2; discriminate].
    + eapply filled_step; [exact Fm| |exact Ns]. intros i s' j Hj. rewrite Ems. split; [intros ->; eapply Hm1, Hj|intros N; eapply Hm2; eassumption].
    + eapply filled_step; [exact Fv| |exact Ns]. intros i s' j Hj. rewrite Evs. split; [intros ->; eapply Hv1, Hj|intros N; eapply Hv2; eassumption].
    + destruct aff0 as [[w0 b0]|], aff1 as [[w1 b1]|], aff2 as [[w2 b2]|]; try contradiction; try exact I.
      destruct Fw as [Fw Fb], Ha as (_ & _ & _ & Hw & Hb). split; eapply filled_step; eassumption.
Qed.

Lemma export_loop_runs : forall o tracked t t', export_loop m st o tracked t = Ret t' -> forall s, In s o -> exists a e, lookup Nat.eqb (ib_buffers m) s = Ret (Run a e).
Proof.
  induction o as [|s0 o IH]; intros tracked t t' E s Hs; [destruct Hs|]. cbn [export_loop] in E. apply bind_Ret in E. destruct E as (c & Ec & E).
  apply bind_Ret in E. destruct E as (b & _ & E). destruct c as [a e|]; [|discriminate].
  destruct (bn_stats b) as [[[? ?] ?]|]; [|discriminate]. destruct (bn_stats t) as [[[? ?] ?]|]; [|discriminate].
  do 4 (apply bind_Ret in E; destruct E as (? & _ & E)). destruct Hs as [<-|Hs]; [eauto|]. eapply IH; eassumption.
Qed.
End E.
