(** Proofs about BlocksModel: the value of the expanded filter. *)
From Coq Require Import String.
From Coq Require Import List ZArith Arith Bool Reals Lia Lra Permutation Sorted.
From Verif Require Import LibRes LibPy LibMat FieldModel SpecField FieldProofs BranchProofs LabelThms MergeThms GroupedModel GroupedProofs PoolProofs BlocksModel SpecBlocks BlocksProofs BlocksThms BlocksInfo BlocksPlan.
Import ListNotations.
Local Open Scope nat_scope.

Lemma position_nth : forall l k n, NoDup l -> nth_error l k = Some n -> position l n = Some k.
Proof.
  intros l k n ND; revert k; induction ND as [|a l N ND IH]; intros [|k] H; cbn [nth_error position] in *; try discriminate.
  - injection H as ->. rewrite Nat.eqb_refl. reflexivity.
  - destruct (Nat.eqb_spec a n) as [->|Ne]; [exfalso; apply N; eapply nth_error_In, H|]. rewrite (IH k H). reflexivity.
Qed.
Lemma position_none : forall l n, ~ In n l -> position l n = None.
Proof.
  induction l as [|a l IH]; intros n H; [reflexivity|]. cbn [position]. destruct (Nat.eqb_spec a n) as [->|Ne]; [exfalso; apply H; left; reflexivity|].
  rewrite IH; [reflexivity|]. intros K. apply H. right. exact K.
Qed.
Lemma chunks_nth : forall {V} (dflt : V) s n (l : list V) k j, k < n -> j < s -> nth j (nth k (chunks n s l) []) dflt = nth (k * s + j) l dflt.
Proof.
  intros V dflt s n; induction n as [|n IH]; intros l k j Hk Hj; [lia|]. cbn [chunks]. destruct k as [|k]; cbn [nth].
  - cbn [Nat.mul Nat.add]. clear - Hj. revert l j Hj. induction s as [|s IH]; intros [|x l] j Hj; try lia; cbn [firstn].
    + destruct j; reflexivity.
    + destruct j; [reflexivity|]. cbn [nth]. apply IH. lia.
  - rewrite IH by lia. clear. replace (S k * s + j) with (s + (k * s + j)) by lia. generalize (k * s + j). clear. revert l. induction s as [|s IH]; intros l m; [reflexivity|].
    destruct l as [|x l]; cbn [skipn Nat.add]; [destruct m; reflexivity|]. cbn [nth]. apply IH.
Qed.
Lemma chunks_row_length : forall {V} s n (l : list V), n * s <= List.length l -> Forall (fun r => List.length r = s) (chunks n s l).
Proof.
  intros V s n; induction n as [|n IH]; intros l H; constructor.
  - apply firstn_length_le. lia.
  - apply IH. rewrite skipn_length. lia.
Qed.
Lemma chunks_length : forall {V} s n (l : list V), List.length (chunks n s l) = n.
Proof. intros V s n; induction n as [|n IH]; intros l; [reflexivity|]. cbn. rewrite IH. reflexivity. Qed.
Lemma nth_skip_first : forall {V} (d : V) a n l k, k < n -> nth k (firstn n (skipn a l)) d = nth (a + k) l d.
Proof.
  intros V d a n l k H. assert (nth k (skipn a l) d = nth (a + k) l d) as <-.
  { clear. revert l. induction a as [|a IH]; intros l; [reflexivity|]. destruct l as [|x l]; cbn [skipn Nat.add]; [destruct k; reflexivity|]. cbn [nth]. apply IH. }
  generalize (skipn a l) as m. clear l. revert k H. induction n as [|n IH]; intros k H m; [lia|]. destruct m as [|x m]; cbn [firstn]; [reflexivity|]. destruct k; [reflexivity|]. cbn [nth]. apply IH. lia.
Qed.
Lemma sumn_window : forall n base d f, base + d <= n -> (forall k, k < n -> ~ (base <= k < base + d) -> f k = 0%R) -> sumn n f = sumn d (fun j => f (base + j)).
Proof.
  intros n base d f H Z. replace n with (base + (d + (n - base - d))) by lia. rewrite !sumn_app.
  rewrite (sumn_0 base) by (intros; apply Z; lia). rewrite (sumn_0 (n - base - d)) by (intros; apply Z; lia). ring.
Qed.

Section Field.
Context {A : Type}.
Variable size : A -> nat.
Notation start := (field_start size).
Lemma start_S : forall (ft : list A) i r, nth_error ft i = Some r -> start ft (S i) = start ft i + size r.
Proof. exact (offset_S size). Qed.
Lemma start_mono : forall (ft : list A) i j, i <= j -> start ft i <= start ft j.
Proof. exact (offset_mono size). Qed.
Lemma in_field : forall (ft : list A) c, c < type_size size ft -> exists i r, nth_error ft i = Some r /\ start ft i <= c < start ft i + size r.
Proof.
  induction ft as [|r ft IH]; intros c H; [cbn in H; lia|]. unfold type_size in H. cbn [map list_sum fold_right] in H.
  destruct (le_lt_dec (size r) c) as [L|L].
  - destruct (IH (c - size r)) as (i & r' & E & B); [unfold type_size, list_sum; lia|]. exists (S i), r'. split; [exact E|].
    change (start (r :: ft) (S i)) with (size r + start ft i). lia.
  - exists 0, r. split; [reflexivity|]. cbn. lia.
Qed.
Lemma one_field : forall (ft : list A) c i r j r', nth_error ft i = Some r -> nth_error ft j = Some r' ->
  start ft i <= c < start ft i + size r -> start ft j <= c < start ft j + size r' -> i = j.
Proof.
  intros ft c i r j r' Ei Ej Bi Bj. pose proof (start_S ft i r Ei). pose proof (start_S ft j r' Ej).
  destruct (lt_eq_lt_dec i j) as [[L|E]|L]; [|exact E|].
  - pose proof (start_mono ft (S i) j ltac:(lia)). lia.
  - pose proof (start_mono ft (S j) i ltac:(lia)). lia.
Qed.
Lemma chan_position : forall (ft : list A) sel s k i a, NoDup sel -> (forall x, In x sel -> exists r, nth_error ft x = Some r /\ size r = s) ->
  nth_error sel k = Some i -> a < s -> position (chan_list size ft sel) (start ft i + a) = Some (k * s + a).
Proof.
  intros ft sel s k i a ND U Ek La. apply position_nth; [apply chan_list_NoDup, ND|]. unfold chan_list.
  rewrite (nth_flat _ s); [|lia|].
  - rewrite Nat.div_add_l, Nat.div_small, Nat.add_0_r by lia. rewrite Ek. rewrite Nat.add_comm, Nat.mod_add, Nat.mod_small by lia.
    destruct (U i (nth_error_In _ _ Ek)) as (r & Er & Sr). rewrite (offset_S size ft i r Er). rewrite nth_error_nth' with (d := 0) by (rewrite seq_length; lia).
    rewrite seq_nth by lia. reflexivity.
  - intros x Hx. destruct (U x Hx) as (r & Er & Sr). rewrite seq_length, (offset_S size ft x r Er). lia.
Qed.
Lemma chan_outside : forall (ft : list A) sel c i r, nth_error ft i = Some r -> start ft i <= c < start ft i + size r -> ~ In i sel ->
  position (chan_list size ft sel) c = None.
Proof.
  intros ft sel c i r E B N. apply position_none. intros H. apply chan_list_In in H. destruct H as (j & Hj & Bj).
  destruct (nth_error ft j) as [r'|] eqn:Ej.
  - rewrite (offset_S size ft j r' Ej) in Bj. apply N. rewrite (one_field ft c i r j r'); auto.
  - apply nth_error_None in Ej. rewrite (offset_all size ft (S j)), <- (offset_all size ft j) in Bj by lia. lia.
Qed.
Lemma chan_length : forall (ft : list A) sel s, (forall x, In x sel -> exists r, nth_error ft x = Some r /\ size r = s) -> List.length (chan_list size ft sel) = List.length sel * s.
Proof.
  intros ft sel s U. unfold chan_list. apply flat_length. intros x Hx. destruct (U x Hx) as (r & Er & Sr). rewrite seq_length, (offset_S size ft x r Er). lia.
Qed.
End Field.
