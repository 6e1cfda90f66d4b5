(** Proofs about the pooling maps: the dictionary of indexes_from_labels and the loop. *)
From Coq Require Import Reals List ZArith Arith Bool Lia Permutation Sorted.
From Verif Require Import LibRes LibPy LibMat FieldModel SpecField FieldProofs FieldThms BranchProofs LabelThms MergeThms GroupedModel GroupedProofs NonlinModel SpecNonlin NonlinProofs GatedThms PoolModel.
Import ListNotations.
Open Scope nat_scope.

(** *** strictly increasing lists *)
Lemma increasing_eq : forall l1 l2, StronglySorted lt l1 -> StronglySorted lt l2 -> (forall a, In a l1 <-> In a l2) -> l1 = l2.
Proof.
  intros l1 l2 H1; revert l2. induction H1 as [|a l1 S1 IH F1]; intros l2 H2 E.
  - destruct l2 as [|b l2]; [reflexivity|]. exfalso. apply (proj2 (E b)). left; reflexivity.
  - destruct H2 as [|b l2 S2 F2]; [exfalso; apply (proj1 (E a)); left; reflexivity|].
    rewrite Forall_forall in F1, F2.
    assert (a = b) as ->.
    { destruct (proj1 (E a) (or_introl eq_refl)) as [->|Ha]; [reflexivity|]. destruct (proj2 (E b) (or_introl eq_refl)) as [->|Hb]; [reflexivity|].
      apply F2 in Ha. apply F1 in Hb. lia. }
    f_equal. apply IH; [exact S2|]. intros c. split; intros Hc.
    + destruct (proj1 (E c) (or_intror Hc)) as [->|K]; [|exact K]. apply F1 in Hc. lia.
    + destruct (proj2 (E c) (or_intror Hc)) as [->|K]; [|exact K]. apply F2 in Hc. lia.
Qed.
Lemma seq_increasing : forall k a, StronglySorted lt (seq a k).
Proof.
  induction k as [|k IH]; intros a; cbn [seq]; constructor; [apply IH|]. apply Forall_forall. intros b Hb. apply in_seq in Hb. lia.
Qed.
Lemma filter_increasing : forall f l, StronglySorted lt l -> StronglySorted lt (filter f l).
Proof.
  intros f l H; induction H as [|a l S IH F]; cbn [filter]; [constructor|]. destruct (f a); [|exact IH].
  constructor; [exact IH|]. rewrite Forall_forall in *. intros b Hb. apply filter_In in Hb. apply F, Hb.
Qed.
Lemma app_increasing : forall l1 l2, StronglySorted lt l1 -> StronglySorted lt l2 -> (forall a b, In a l1 -> In b l2 -> a < b) -> StronglySorted lt (l1 ++ l2).
Proof.
  intros l1 l2 H; induction H as [|a l S IH F]; intros H2 H3; cbn [app]; [exact H2|]. constructor.
  - apply IH; [exact H2|]. intros c d Hc Hd. apply H3; [right; exact Hc|exact Hd].
  - rewrite Forall_forall in *. intros b Hb. apply in_app_or in Hb. destruct Hb as [Hb|Hb]; [apply F, Hb|apply H3; [left; reflexivity|exact Hb]].
Qed.

Section P.
Context {A L : Type}.
Variable size : A -> nat.
Variable leqb : L -> L -> bool.
Hypothesis leqb_ok : forall a b, leqb a b = true <-> a = b.

Lemma labelled_increasing : forall labels l, StronglySorted lt (labelled leqb labels l).
Proof. intros. unfold labelled. apply filter_increasing, seq_increasing. Qed.
Lemma chan_list_increasing : forall (ft : list A) sel, StronglySorted lt sel -> StronglySorted lt (chan_list size ft sel).
Proof.
  intros ft sel H; induction H as [|i sel Si IH F]; [constructor|]. unfold chan_list. cbn [flat_map]. fold (chan_list size ft sel).
  apply app_increasing; [apply seq_increasing|exact IH|]. intros a b Ha Hb. apply in_seq in Ha. apply chan_list_In in Hb. destruct Hb as (j & Hj & Hb).
  rewrite Forall_forall in F. apply F in Hj. pose proof (offset_mono size ft (S i) j ltac:(lia)). pose proof (offset_mono size ft i (S i) ltac:(lia)). lia.
Qed.
Lemma consecutive_run : forall l, StronglySorted lt l -> consecutive (map Z.of_nat l) -> exists a k, l = seq a k.
Proof.
  intros l S (a & b & Ha & H). exists (Z.to_nat a), (Z.to_nat b - Z.to_nat a)%nat. apply increasing_eq; [exact S|apply seq_increasing|].
  intros c. rewrite in_seq. specialize (H (Z.of_nat c)). split.
  - intros Hc. apply (in_map Z.of_nat) in Hc. apply H in Hc. lia.
  - intros Hc. assert (In (Z.of_nat c) (map Z.of_nat l)) as K by (apply H; lia). apply in_map_iff in K. destruct K as (d & Ed & Kd).
    apply Nat2Z.inj in Ed. congruence.
Qed.
(** consecutive channels come from consecutive fields *)
Lemma fields_run : forall (ft : list A) sel a k, Forall (fun r => 0 < size r) ft -> Forall (fun i => i < length ft) sel -> StronglySorted lt sel ->
  sel <> [] -> chan_list size ft sel = seq a k -> exists p q, sel = seq p q.
Proof.
  intros ft sel a k P F Inc Ne E. destruct (list_min_some sel Ne) as (lo & hi & El & Eh).
  assert (In lo sel /\ (forall i, In i sel -> lo <= i)) as [Il Ml].
  { clear - El. destruct sel as [|s0 sel]; [discriminate|]. cbn in El. injection El as <-. revert s0. induction sel as [|b sel IH]; intros s0; cbn [fold_left].
    - split; [left; reflexivity|]. intros i [->|[]]. lia.
    - destruct (IH (Nat.min s0 b)) as [H1 H2]. split.
      + destruct H1 as [H1|H1]; [|right; right; exact H1]. rewrite <- H1. destruct (Nat.min_spec s0 b) as [[_ ->]|[_ ->]]; [left|right; left]; reflexivity.
      + pose proof (H2 _ (or_introl eq_refl)). intros i [->|[->|Hi]]; try lia. apply H2. right; exact Hi. }
  assert (In hi sel /\ (forall i, In i sel -> i <= hi)) as [Ih Mh].
  { clear - Eh. destruct sel as [|s0 sel]; [discriminate|]. cbn in Eh. injection Eh as <-. revert s0. induction sel as [|b sel IH]; intros s0; cbn [fold_left].
    - split; [left; reflexivity|]. intros i [->|[]]. lia.
    - destruct (IH (Nat.max s0 b)) as [H1 H2]. split.
      + destruct H1 as [H1|H1]; [|right; right; exact H1]. rewrite <- H1. destruct (Nat.max_spec s0 b) as [[_ ->]|[_ ->]]; [right; left|left]; reflexivity.
      + pose proof (H2 _ (or_introl eq_refl)). intros i [->|[->|Hi]]; try lia. apply H2. right; exact Hi. }
  exists lo, (S hi - lo). apply increasing_eq; [exact Inc|apply seq_increasing|]. intros m. rewrite in_seq. split.
  - intros Hm. pose proof (Ml m Hm). pose proof (Mh m Hm). lia.
  - intros Hm. rewrite Forall_forall in F, P. pose proof (F hi Ih) as Bh.
    assert (forall j, j < length ft -> offset size ft j < offset size ft (S j)) as Step.
    { intros j Hj. destruct (nth_error ft j) as [r|] eqn:Er; [|apply nth_error_None in Er; lia]. rewrite (offset_S size _ _ _ Er).
      pose proof (P r (nth_error_In _ _ Er)). lia. }
    assert (forall j, In j sel -> In (offset size ft j) (seq a k)) as Off.
    { intros j Hj. rewrite <- E. apply chan_list_In. exists j. split; [exact Hj|]. pose proof (Step j (F j Hj)). lia. }
    pose proof (Off lo Il) as O1. pose proof (Off hi Ih) as O2. apply in_seq in O1. apply in_seq in O2.
    pose proof (offset_mono size ft lo m ltac:(lia)). pose proof (offset_mono size ft m hi ltac:(lia)).
    assert (In (offset size ft m) (chan_list size ft sel)) as K by (rewrite E; apply in_seq; lia).
    apply chan_list_In in K. destruct K as (j & Hj & Kj). replace m with j; [exact Hj|].
    pose proof (Step m ltac:(lia)). destruct (lt_eq_lt_dec j m) as [[Hl|]|Hl]; [|assumption|].
    + pose proof (offset_mono size ft (S j) m ltac:(lia)). lia.
    + pose proof (offset_mono size ft (S m) j ltac:(lia)). lia.
Qed.

Lemma fill_keys : forall {X} (f : L -> res X) ls d d', fold_left (fun r l => d <- r ;; t <- f l ;; Ret (dset leqb d l t)) ls (Ret d) = Ret d' ->
  NoDup (map fst d) -> NoDup (map fst d') /\ forall l, In l (map fst d') <-> In l (map fst d) \/ In l ls.
Proof.
  intros X f ls; induction ls as [|a ls IH]; intros d d' E ND; cbn [fold_left] in E.
  - apply Ret_inj in E; subst d'. split; [exact ND|]. intros l. cbn. tauto.
  - cbn [bind] in E. destruct (f a) as [|t]; cbn [bind] in E.
    + exfalso. revert E. clear. induction ls as [|b ls IH]; cbn [fold_left]; [discriminate|]. cbn [bind]. exact IH.
    + apply IH in E.
      * destruct E as [N I]. split; [exact N|]. intros l. rewrite I, dset_keys. destruct (existsb (fun p => leqb (fst p) a) d) eqn:Ex.
        { apply existsb_exists in Ex. destruct Ex as ([b u] & Hb & Eb). cbn in Eb. apply leqb_ok in Eb; subst b. apply (in_map fst) in Hb. cbn in Hb. cbn [In].
          split; [tauto|]. intros [H|[<-|H]]; tauto. }
        { rewrite in_app_iff. cbn [In]. tauto. }
      * rewrite dset_keys. destruct (existsb (fun p => leqb (fst p) a) d) eqn:Ex; [exact ND|].
        apply (Permutation_NoDup (Permutation_cons_append _ _)). constructor; [|exact ND]. intros K. apply in_map_iff in K. destruct K as ([b u] & Eb & Kb).
        cbn in Eb; subst b. assert (existsb (fun p => leqb (fst p) a) d = true); [|congruence]. apply existsb_exists. exists (a, u). split; [exact Kb|apply leqb_ok; reflexivity].
Qed.

(** the dictionary: its keys and its entries *)
Theorem indexes_exact : forall (ft : list A) labels, length labels = length ft -> Forall (fun a => 0 < size a) ft ->
  exists d, indexes_from_labels size leqb ft labels = Ret d /\ NoDup (map fst d) /\ (forall l, In l (map fst d) <-> In l labels) /\
  forall l, In l labels -> exists c, dget leqb d l = Some (c, labelled leqb labels l, chan_list size ft (labelled leqb labels l)) /\
    (c = true -> (exists a k, chan_list size ft (labelled leqb labels l) = seq a k) /\ (exists a k, labelled leqb labels l = seq a k)).
Proof.
  intros ft labels Len P. unfold indexes_from_labels. rewrite Len, Nat.eqb_refl; cbn [assert_ bind].
  set (chl := fun l => chan_list size ft (labelled leqb labels l)).
  assert (forall l, In l labels -> exists b, check_consecutive (map Z.of_nat (chl l)) = Ret b /\ (b = true <-> consecutive (map Z.of_nat (chl l)))) as Hc.
  { intros l Hl. apply check_consecutive_ok.
    - intros K. apply map_eq_nil in K. revert K. apply chan_list_nonempty; [rewrite <- Len; apply labelled_lt|apply labelled_nonempty; assumption|exact P].
    - apply FinFun.Injective_map_NoDup; [intros a b; lia|]. apply chan_list_NoDup, labelled_NoDup.
    - apply Forall_forall. intros z Hz. apply in_map_iff in Hz. destruct Hz as (i & <- & _). lia. }
  set (f := fun l => i <- lookup leqb (indices_by_label size leqb [] 0 labels ft) l ;; f <- lookup leqb (fields_by_label leqb labels) l ;;
               c <- check_consecutive (map Z.of_nat i) ;; Ret (c, f, i)).
  destruct (fill_dict leqb leqb_ok f
    (fun l => (match check_consecutive (map Z.of_nat (chl l)) with Ret b => b | Raise => false end, labelled leqb labels l, chl l)) labels []) as (d & E & Hd).
  { intros l Hl. unfold f. rewrite (indices_lookup size leqb leqb_ok labels ft l Len Hl); cbn [bind]. rewrite (fields_lookup leqb leqb_ok labels l Hl); cbn [bind].
    fold (chl l). destruct (Hc l Hl) as (b & -> & _). reflexivity. }
  destruct (fill_keys f labels [] d E ltac:(constructor)) as [ND Ik].
  exists d. split; [|split; [exact ND|split]].
  - rewrite <- E. unfold f. clear. generalize (Ret (@nil (L * (bool * list nat * list nat)))). generalize labels at 3 6 as ls.
    induction ls as [|a ls IH]; intros r; [reflexivity|]. cbn [fold_left]. rewrite <- IH. f_equal.
    destruct r as [|d]; [reflexivity|]. cbn [bind]. destruct (lookup leqb (indices_by_label size leqb [] 0 labels ft) a); [reflexivity|]. cbn [bind].
    destruct (lookup leqb (fields_by_label leqb labels) a); [reflexivity|]. cbn [bind]. destruct (check_consecutive _); reflexivity.
  - intros l. rewrite Ik. cbn. tauto.
  - intros l Hl. destruct (Hc l Hl) as (b & Eb & Hb). exists b. rewrite Hd, (existsb_leqb leqb leqb_ok) by exact Hl. rewrite Eb.
    split; [reflexivity|]. intros Et. apply Hb in Et.
    destruct (consecutive_run (chl l) (chan_list_increasing ft _ (labelled_increasing labels l)) Et) as (a & k & Ek).
    split; [exists a, k; exact Ek|].
    apply (fields_run ft _ a k P); [rewrite <- Len; apply labelled_lt|apply labelled_increasing|apply labelled_nonempty; assumption|exact Ek].
Qed.

(** *** the buffers *)
Lemma run_positions : forall a k n, 0 < k -> a + k <= n -> positions n (Run a (a + k - 1 + 1)) = Ret (seq a k).
Proof.
  intros a k n Pk H. cbn [positions]. rewrite slice_positions_1. unfold slice_end.
  destruct (Z.ltb_spec (Z.of_nat a) 0); [lia|]. destruct (Z.ltb_spec (Z.of_nat (a + k - 1 + 1)) 0); [lia|]. do 2 f_equal; lia.
Qed.
Lemma chan_list_one : forall {B} (oft : list B) sel, Forall (fun i => i < length oft) sel -> chan_list (fun _ => 1) oft sel = sel.
Proof.
  intros B oft sel F. induction F as [|i sel Hi F IH]; [reflexivity|]. unfold chan_list. cbn [flat_map]. fold (chan_list (fun _ : B => 1) oft sel). rewrite IH.
  assert (forall j, j <= length oft -> offset (fun _ : B => 1) oft j = j) as O.
  { intros j Hj. unfold offset. rewrite <- (firstn_length_le oft Hj) at 2. generalize (firstn j oft) as t. clear. induction t as [|b t IH]; [reflexivity|].
    cbn [map list_sum fold_right length]. change (fold_right Nat.add 0 (map (fun _ : B => 1) t)) with (list_sum (map (fun _ : B => 1) t)). rewrite IH. reflexivity. }
  rewrite !O by lia. replace (S i - i) with 1 by lia. reflexivity.
Qed.
Theorem pool_buffers : forall (ft : list A) labels d, length labels = length ft -> Forall (fun a => 0 < size a) ft ->
  indexes_from_labels size leqb ft labels = Ret d ->
  exists b, mapM pool_entry d = Ret b /\
    forall l, In l labels ->
      (exists c, lookup leqb (map (fun e => (fst (fst e), snd (fst e))) b) l = Ret c /\
         positions (type_size size ft) c = Ret (chan_list size ft (labelled leqb labels l))) /\
      (exists c, lookup leqb (map (fun e => (fst (fst e), snd e)) b) l = Ret c /\ positions (length ft) c = Ret (labelled leqb labels l)).
Proof.
  intros ft labels d Len P Ed. destruct (indexes_exact ft labels Len P) as (d' & Ed' & ND & Ik & He). assert (d' = d) by congruence. subst d'. clear Ed'.
  assert (forall l c f i, In (l, (c, f, i)) d -> f = labelled leqb labels l /\ i = chan_list size ft (labelled leqb labels l) /\ f <> [] /\ i <> [] /\
     (c = true -> (exists a k, i = seq a k) /\ (exists a k, f = seq a k))) as Hd.
  { intros l c f i H. assert (In l labels) as Hl by (apply Ik, in_map_iff; exists (l, (c, f, i)); auto).
    destruct (He l Hl) as (c' & E' & Hc). assert (dget leqb d l = Some (c, f, i)) as E2.
    { clear - H ND leqb_ok. induction d as [|[a u] d IH]; [destruct H|]. cbn [dget]. cbn [map fst] in ND. apply NoDup_cons_iff in ND. destruct ND as [Na ND].
      destruct H as [H|H].
      - injection H as -> ->. rewrite (proj2 (leqb_ok l l) eq_refl). reflexivity.
      - destruct (leqb a l) eqn:E; [|apply IH; assumption]. apply leqb_ok in E; subst a. exfalso. apply Na. apply in_map_iff. eexists; split; [|exact H]. reflexivity. }
    rewrite E2 in E'. injection E' as -> -> ->. split; [reflexivity|split; [reflexivity|split; [|split; [|exact Hc]]]].
    - apply labelled_nonempty; assumption.
    - apply chan_list_nonempty; [rewrite <- Len; apply labelled_lt|apply labelled_nonempty; assumption|exact P]. }
  assert (forall l, In l labels -> In l (map fst d)) as Hin by (intros l Hl; apply Ik, Hl).
  clear He Ik ND Ed.
  assert (exists b, mapM pool_entry d = Ret b /\ forall l, In l (map fst d) ->
      (exists c, lookup leqb (map (fun e => (fst (fst e), snd (fst e))) b) l = Ret c /\
         positions (type_size size ft) c = Ret (chan_list size ft (labelled leqb labels l))) /\
      (exists c, lookup leqb (map (fun e => (fst (fst e), snd e)) b) l = Ret c /\ positions (length ft) c = Ret (labelled leqb labels l))) as (b & Eb & Hb).
  2:{ exists b. split; [exact Eb|]. intros l Hl. apply Hb, Hin, Hl. }
  clear Hin. induction d as [|[l [[c f] i]] d IH]; [exists []; split; [reflexivity|intros l []]|].
  destruct IH as (b & Eb & Hb); [intros; eapply Hd; right; eassumption|]. destruct (Hd l c f i (or_introl eq_refl)) as (Ef & Ei & Nf & Ni & Hr).
  assert (exists ci co, pool_entry (l, (c, f, i)) = Ret (l, ci, co) /\ positions (type_size size ft) ci = Ret i /\ positions (length ft) co = Ret f) as (ci & co & Ep & P1 & P2).
  { cbn [pool_entry]. destruct c; [|exists (Listed i), (Listed f); auto]. destruct (Hr eq_refl) as [(a & k & Es) (a' & k' & Es')].
    assert (Forall (fun z => z < type_size size ft) i) as Fi by (rewrite Ei; apply chan_list_lt).
    assert (Forall (fun z => z < length ft) f) as Ff by (rewrite Ef, <- Len; apply labelled_lt).
    rewrite Es in Fi, Ni |- *. rewrite Es' in Ff, Nf |- *.
    assert (0 < k) as Pk by (destruct k; [exfalso; apply Ni; reflexivity|lia]). assert (0 < k') as Pk' by (destruct k'; [exfalso; apply Nf; reflexivity|lia]).
    destruct (min_max_seq a k Pk) as [-> ->]. destruct (min_max_seq a' k' Pk') as [-> ->]. cbn [bind].
    eexists; eexists. split; [reflexivity|]. rewrite Forall_forall in Fi, Ff.
    assert (a + (k - 1) < type_size size ft) by (apply Fi, in_seq; lia). assert (a' + (k' - 1) < length ft) by (apply Ff, in_seq; lia).
    split; apply run_positions; lia. }
  exists ((l, ci, co) :: b). cbn [mapM]. rewrite Ep. cbn [bind]. rewrite Eb. cbn [bind]. split; [reflexivity|].
  intros l' Hl'. unfold lookup. cbn [map dget fst snd]. destruct (leqb l l') eqn:E.
  - apply leqb_ok in E; subst l'. rewrite <- Ei, <- Ef. split; eexists; (split; [reflexivity|assumption]).
  - apply Hb. destruct Hl' as [<-|H]; [|exact H]. cbn in E. rewrite (proj2 (leqb_ok l l) eq_refl) in E. discriminate.
Qed.
End P.
