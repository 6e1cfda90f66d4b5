(** Proofs about batch normalisations: the loop over the groups when every group
    has its own parameters. *)
From Coq Require Import Reals List ZArith Arith Bool Lia Lra Permutation.
From Verif Require Import LibRes LibPy LibMat FieldModel SpecField FieldProofs BranchProofs LabelThms MergeThms GroupedModel GroupedProofs NonlinModel SpecNonlin NonlinProofs PoolModel ImageModel BatchNormModel.
Import ListNotations.
Open Scope nat_scope.

Lemma imap_shift : forall {X Y} (g : nat -> X -> Y) n l k, imap (fun i => g (i - n)) (n + k) l = imap g k l.
Proof.
  intros X Y g n l; induction l as [|x l IH]; intros k; cbn [imap]; [reflexivity|]. replace (n + k - n) with k by lia. f_equal.
  replace (S (n + k)) with (n + S k) by lia. apply IH.
Qed.

Section Local.
Context {A L V W : Type}.
Variable size : A -> nat.
Variable leqb : L -> L -> bool.
Hypothesis leqb_ok : forall a b, leqb a b = true <-> a = b.
Variable ft : list A.
Variable labels : list L.
Variable lsize : L -> nat.
Hypothesis Len : length labels = length ft.
Hypothesis Ls : forall i r s, nth_error labels i = Some s -> nth_error ft i = Some r -> size r = lsize s.

Fixpoint start (order : list L) (s : L) : nat :=
  match order with [] => 0 | t :: o => if leqb t s then 0 else length (labelled leqb labels t) + start o s end.
Lemma leqb_refl' : forall a, leqb a a = true.
Proof. intros a; apply leqb_ok; reflexivity. Qed.
Lemma start_nth : forall order s j i, NoDup order -> In s order -> nth_error (labelled leqb labels s) j = Some i ->
  nth_error (flat_map (labelled leqb labels) order) (start order s + j) = Some i.
Proof.
  induction order as [|t o IH]; intros s j i ND Hs E; [destruct Hs|]. inversion ND as [|? ? Nt ND']; subst. cbn [start flat_map].
  destruct (leqb t s) eqn:Ets.
  - apply leqb_ok in Ets; subst t. cbn. rewrite nth_error_app1; [exact E|]. apply nth_error_Some; congruence.
  - destruct Hs as [->|Hs]; [rewrite leqb_refl' in Ets; discriminate|].
    rewrite nth_error_app2 by lia. replace (length (labelled leqb labels t) + start o s + j - length (labelled leqb labels t)) with (start o s + j) by lia.
    apply IH; assumption.
Qed.

Variable bufs : list (L * channels).
Variable order : list L.
Hypothesis ND : NoDup order.
Hypothesis Io : forall s, In s order <-> In s labels.
Hypothesis Hb : forall s, In s labels -> exists c, lookup leqb bufs s = Ret c /\ positions (type_size size ft) c = Ret (chan_list size ft (labelled leqb labels s)).

Lemma label_field : forall s i, In i (labelled leqb labels s) -> exists r, nth_error labels i = Some s /\ nth_error ft i = Some r /\ size r = lsize s.
Proof.
  intros s i Hi. apply (labelled_In leqb leqb_ok) in Hi. assert (i < length ft) as Bi by (rewrite <- Len; apply nth_error_Some; congruence).
  destruct (nth_error ft i) as [r|] eqn:E; [|apply nth_error_None in E; lia]. exists r. repeat split; try assumption. eapply Ls; eassumption.
Qed.
Lemma field_length : forall (x : list V) s i, length x = type_size size ft -> In i (labelled leqb labels s) -> length (field_chans size ft x i) = lsize s.
Proof. intros x s i Lx Hi. destruct (label_field s i Hi) as (r & _ & Er & <-). apply field_chans_length; assumption. Qed.
Lemma group_fields : forall (x : list V) s, length x = type_size size ft -> Forall (fun b => length b = lsize s) (map (field_chans size ft x) (labelled leqb labels s)).
Proof. intros x s Lx. apply Forall_forall. intros b H. apply in_map_iff in H. destruct H as (i & <- & Hi). apply field_length; assumption. Qed.
Lemma group_read : forall (x : list V) s, length x = type_size size ft -> In s labels ->
  exists c, lookup leqb bufs s = Ret c /\ read x c = Ret (concat (map (field_chans size ft x) (labelled leqb labels s))).
Proof.
  intros x s Lx Hs. destruct (Hb s Hs) as (c & Ec & Pc). exists c. split; [exact Ec|]. apply (read_ok size ft x _ c Lx); [rewrite <- Len; apply labelled_lt|].
  rewrite Lx; exact Pc.
Qed.

Lemma local_loop : forall (proc : L -> list V -> res (list W)) (g : L -> nat -> list V -> list W) x junk,
  length x = type_size size ft -> length junk = type_size size ft ->
  (forall s, In s labels -> proc s (concat (map (field_chans size ft x) (labelled leqb labels s))) =
     Ret (concat (imap (g s) 0 (map (field_chans size ft x) (labelled leqb labels s))))) ->
  (forall s j b, In s labels -> length b = lsize s -> length (g s j b) = lsize s) ->
  exists out, grouped_loop leqb (nfields leqb labels) bufs bufs (fun s _ => proc s) x order 0 junk = Ret out /\ length out = type_size size ft /\
    forall s j i, nth_error (labelled leqb labels s) j = Some i -> field_chans size ft out i = g s j (field_chans size ft x i).
Proof.
  intros proc g x junk Lx Lj Hp Hg.
  set (f := fun s k => g s (k - start order s)).
  set (proc' := fun s next (fm : list V) => if Nat.eqb next (start order s) then proc s fm
     else Ret (concat (imap (f s) next (map (field_chans size ft x) (labelled leqb labels s))))).
  assert (Same : forall o2 next out, NoDup o2 -> (forall s, In s o2 -> next + start o2 s = start order s) ->
    grouped_loop leqb (nfields leqb labels) bufs bufs proc' x o2 next out = grouped_loop leqb (nfields leqb labels) bufs bufs (fun s _ => proc s) x o2 next out).
  { induction o2 as [|s o2 IH]; intros next out N2 H; [reflexivity|]. inversion N2 as [|? ? Ns N2']; subst. cbn [grouped_loop].
    destruct (lookup leqb bufs s) as [|c]; cbn [bind]; [reflexivity|]. destruct (read x c) as [|fm]; cbn [bind]; [reflexivity|].
    assert (proc' s next fm = proc s fm) as ->.
    { unfold proc'. rewrite <- (H s (or_introl eq_refl)). cbn [start]. rewrite leqb_refl', Nat.add_0_r, Nat.eqb_refl. reflexivity. }
    destruct (proc s fm) as [|w]; cbn [bind]; [reflexivity|]. destruct (write out c w); cbn [bind]; [reflexivity|]. apply IH; [exact N2'|].
    intros t Ht. rewrite <- (H t (or_intror Ht)). cbn [start]. destruct (leqb s t) eqn:E; [apply leqb_ok in E; subst t; contradiction|].
    rewrite nfields_labelled. lia. }
  rewrite <- (Same order 0 junk ND) by (intros; reflexivity).
  destruct (loop_ok size size leqb leqb_ok ft labels ft labels bufs bufs (nfields leqb labels) proc' f x Lx Len Len order 0 junk ND) as (out & El & Lo & Hin & _); [|exact Lj|].
  - apply Forall_forall. intros s Hs. apply Io in Hs. unfold treated. rewrite nfields_labelled. split; [reflexivity|]. split; [apply Hb, Hs|]. split; [apply Hb, Hs|].
    split; [|split; [reflexivity|]].
    + intros next. unfold proc'. destruct (Nat.eqb_spec next (start order s)) as [->|]; [|reflexivity]. rewrite (Hp s Hs). unfold f.
      pose proof (imap_shift (g s) (start order s) (map (field_chans size ft x) (labelled leqb labels s)) 0) as Sh. rewrite Nat.add_0_r in Sh. rewrite Sh. reflexivity.
    + intros k o i r Hi Ho Eo. unfold f. rewrite Hg; [|exact Hs|apply field_length; assumption]. destruct (label_field s o Ho) as (r' & _ & Er & <-).
      assert (r' = r) by congruence. subst. reflexivity.
  - exists out. split; [exact El|split; [exact Lo|]]. intros s j i E.
    assert (In i (labelled leqb labels s)) as Hi by (apply nth_error_In in E; exact E). destruct (label_field s i Hi) as (r & El' & _).
    assert (In s order) as Hs by (apply Io; apply nth_error_In in El'; exact El').
    pose proof (start_nth order s j i ND Hs E) as E2. rewrite (Hin _ _ _ s E2 E2 El'). unfold f. rewrite Nat.add_0_l. f_equal. lia.
Qed.
End Local.
