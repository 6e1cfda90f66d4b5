(** Proofs about the loop over the names of the fields. *)
From Coq Require Import Reals List ZArith Arith Bool Lia Lra Permutation.
From Verif Require Import LibRes LibPy LibMat FieldModel SpecField FieldProofs BranchProofs LabelThms MergeThms GroupedModel GroupedProofs NonlinModel SpecNonlin NonlinProofs PoolModel ImageModel BatchNormModel BatchNormProofs FNormModel.
Import ListNotations.
Open Scope nat_scope.

Lemma mapi_imap : forall {X Y} (f : nat -> X -> Y) l k, mapi f k l = imap f k l.
Proof. intros X Y f l; induction l as [|x l IH]; intros k; cbn; [|rewrite IH]; reflexivity. Qed.

Section Keyed.
Context {A L S V : Type}.
Variable size : A -> nat.
Variable leqb : L -> L -> bool.
Hypothesis leqb_ok : forall a b, leqb a b = true <-> a = b.
Variable ft : list A.
Variable labels : list L.
Variable lsize : L -> nat.
Hypothesis Len : length labels = length ft.
Hypothesis Ls : forall i r s, nth_error labels i = Some s -> nth_error ft i = Some r -> size r = lsize s.
Hypothesis Pos : Forall (fun r => 0 < size r) ft.
Variable bufs : list (L * channels).
Hypothesis Hb : forall s, In s labels -> exists c, lookup leqb bufs s = Ret c /\ positions (type_size size ft) c = Ret (chan_list size ft (labelled leqb labels s)).
Notation fields x s := (map (field_chans size ft x) (labelled leqb labels s)).

Lemma lsize_pos : forall s, In s labels -> 0 < lsize s.
Proof.
  intros s H. apply In_nth_error in H. destruct H as (i & E). assert (i < length ft) as Bi by (rewrite <- Len; apply nth_error_Some; congruence).
  destruct (nth_error ft i) as [r|] eqn:Er; [|apply nth_error_None in Er; lia]. rewrite <- (Ls i r s E Er). rewrite Forall_forall in Pos. apply Pos. apply nth_error_In in Er. exact Er.
Qed.

Theorem keyed_ok : forall (proc : L -> S -> list (list V) -> res (S * list (list V))) (G : L -> S) (Ws : L -> list (list V)) x,
  length x = type_size size ft ->
  forall order st out, NoDup order -> (forall s, In s order -> In s labels) -> length out = type_size size ft ->
  (forall s, In s order -> exists g, dget leqb st s = Some g /\ proc s g (fields x s) = Ret (G s, Ws s) /\
     length (Ws s) = length (labelled leqb labels s) /\ Forall (fun w => length w = lsize s) (Ws s)) ->
  exists out', keyed_loop leqb bufs proc x (map (fun s => (s, lsize s)) order) st out = Ret (fold_left (fun d s => dset leqb d s (G s)) order st, out') /\
    length out' = type_size size ft /\
    (forall s j i, In s order -> nth_error (labelled leqb labels s) j = Some i -> field_chans size ft out' i = nth j (Ws s) []) /\
    (forall i s, nth_error labels i = Some s -> ~ In s order -> field_chans size ft out' i = field_chans size ft out i).
Proof.
  intros proc G Ws x Lx. induction order as [|s order IH]; intros st out ND Hin Lo H; cbn [map keyed_loop fold_left].
  - exists out. split; [reflexivity|]. split; [exact Lo|]. split; [intros s j i []|reflexivity].
  - apply NoDup_cons_iff in ND. destruct ND as [Ns ND]. pose proof (Hin s (or_introl eq_refl)) as Hs.
    destruct (group_read size leqb ft labels Len bufs Hb x s Lx Hs) as (c & Ec & Er). rewrite Ec. cbn [bind]. rewrite Er. cbn [bind].
    rewrite (view_concat (lsize s)) by (try (apply lsize_pos, Hs); apply (group_fields size leqb leqb_ok ft labels lsize Len Ls); exact Lx). cbn [bind].
    destruct (H s (or_introl eq_refl)) as (g & Eg & Ep & Lw & Fw). unfold lookup at 1. rewrite Eg. cbn [bind]. rewrite Ep. cbn [bind fst snd].
    destruct (Hb s Hs) as (c' & Ec' & Pc). assert (c' = c) by congruence; subst c'.
    assert (Forall2 (fun i w => exists r, nth_error ft i = Some r /\ length w = size r) (labelled leqb labels s) (Ws s)) as F2.
    { assert (forall i, In i (labelled leqb labels s) -> exists r, nth_error ft i = Some r /\ size r = lsize s) as K.
      { intros i Hi. destruct (label_field size leqb leqb_ok ft labels lsize Len Ls s i Hi) as (r & _ & Er' & Es). eauto. }
      revert K Lw Fw. generalize (labelled leqb labels s) as sel, (Ws s) as ws. clear. induction sel as [|i sel IH]; intros [|w ws] K Lw Fw; try discriminate; [constructor|].
      inversion Fw as [|? ? Hw Fw']; subst. constructor; [|apply IH; [intros; apply K; right; assumption|cbn in Lw; lia|exact Fw']].
      destruct (K i (or_introl eq_refl)) as (r & Er & Es). exists r. split; [exact Er|lia]. }
    destruct (write_ok size ft (labelled leqb labels s) (Ws s) out c Lo (labelled_NoDup leqb labels s) F2) as (out1 & Ew & L1 & Hi1 & Ho1); [rewrite Lo; exact Pc|].
    rewrite Ew. cbn [bind].
    destruct (IH (dset leqb st s (G s)) out1 ND (fun t Ht => Hin t (or_intror Ht)) L1) as (out' & El & L' & Hi' & Ho').
    { intros t Ht. destruct (H t (or_intror Ht)) as (g' & Eg' & K). exists g'. split; [|exact K]. rewrite (LibPy.dget_dset leqb leqb_ok).
      destruct (leqb s t) eqn:E; [|exact Eg']. apply leqb_ok in E. subst t. contradiction. }
    exists out'. split; [exact El|]. split; [exact L'|]. split.
    + intros t j i [<-|Ht] Ej; [|apply Hi'; assumption].
      assert (nth_error labels i = Some s) as Es by (apply (labelled_In leqb leqb_ok); apply nth_error_In in Ej; exact Ej).
      rewrite (Ho' i s Es Ns). destruct (nth_error (Ws s) j) as [w|] eqn:E.
      * rewrite (Hi1 j i w Ej E). symmetry. apply nth_error_nth, E.
      * apply nth_error_None in E. assert (j < length (labelled leqb labels s)) by (apply nth_error_Some; congruence). lia.
    + intros i t Et Nt. rewrite (Ho' i t Et) by (intros K; apply Nt; right; exact K). apply Ho1. intros K. apply (labelled_In leqb leqb_ok) in K.
      apply Nt. left. congruence.
Qed.
Lemma fold_dset_get : forall (G : L -> S) order st s, NoDup order -> In s order -> dget leqb (fold_left (fun d s => dset leqb d s (G s)) order st) s = Some (G s).
Proof.
  intros G order st s ND H. revert st. induction order as [|t o IH]; intros st; [destruct H|]. apply NoDup_cons_iff in ND. destruct ND as [Nt ND]. cbn [fold_left].
  destruct H as [->|H]; [|apply IH; assumption]. clear IH ND.
  assert (forall o d, ~ In s o -> dget leqb d s = Some (G s) -> dget leqb (fold_left (fun d s => dset leqb d s (G s)) o d) s = Some (G s)) as K.
  { clear - leqb_ok. induction o as [|u o IH]; intros d N E; cbn [fold_left]; [exact E|]. apply IH; [intros Q; apply N; right; exact Q|].
    rewrite (LibPy.dget_dset leqb leqb_ok). destruct (leqb u s) eqn:Q; [|exact E]. apply leqb_ok in Q. subst u. exfalso. apply N. left; reflexivity. }
  apply K; [exact Nt|]. rewrite (LibPy.dget_dset leqb leqb_ok). rewrite (leqb_refl' leqb leqb_ok). reflexivity.
Qed.
End Keyed.
