(** Lemmas about the list machinery of KernelModel. *)
From Coq Require Import Reals List ZArith Arith Bool Lia.
From Verif Require Import LibRes LibMat IrrepModel RepModel KernelModel.
Import ListNotations.

Lemma id_eqb_true : forall a b, id_eqb a b = true <-> a = b.
Proof. intros a b; unfold id_eqb; destruct (list_eq_dec Z.eq_dec a b); intuition congruence. Qed.
Lemma id_eqb_false : forall a b, id_eqb a b = false <-> a <> b.
Proof. intros a b; unfold id_eqb; destruct (list_eq_dec Z.eq_dec a b); intuition congruence. Qed.
Lemma id_eqb_refl : forall a, id_eqb a a = true.
Proof. intros a; apply id_eqb_true; reflexivity. Qed.
Lemma id_mem_true : forall a l, id_mem a l = true <-> In a l.
Proof.
  intros a l; unfold id_mem; rewrite existsb_exists; split.
  - intros (x & Hx & E); apply id_eqb_true in E; subst; exact Hx.
  - intros H; exists a; split; [exact H|apply id_eqb_refl].
Qed.
Lemma id_mem_false : forall a l, id_mem a l = false <-> ~ In a l.
Proof. intros a l; rewrite <- id_mem_true; destruct (id_mem a l); intuition congruence. Qed.

Lemma last_of_none : forall {A} (l : list (list Z * A)) j, last_of l j = None <-> ~ In j (map fst l).
Proof.
  intros A l j; induction l as [|[i a] l IH]; cbn; [intuition|].
  destruct (last_of l j) eqn:E.
  - split; [discriminate|]; intros H; exfalso.
    apply H; right; destruct (in_dec (list_eq_dec Z.eq_dec) j (map fst l)) as [I|I]; [exact I|].
    apply IH in I; discriminate.
  - destruct (id_eqb i j) eqn:Eij.
    + apply id_eqb_true in Eij; split; [discriminate|intuition].
    + apply id_eqb_false in Eij; split; [|reflexivity]. intros _ [H|H]; [congruence|].
      apply (proj1 IH eq_refl H).
Qed.
Lemma last_of_some : forall {A} (l : list (list Z * A)) j, In j (map fst l) -> exists a, last_of l j = Some a.
Proof.
  intros A l j H; destruct (last_of l j) eqn:E; [eauto|]. apply last_of_none in E; contradiction.
Qed.
Lemma last_of_in : forall {A} (l : list (list Z * A)) j a, last_of l j = Some a -> In (j, a) l.
Proof.
  intros A l j a; induction l as [|[i b] l IH]; cbn; [discriminate|].
  destruct (last_of l j) eqn:E.
  - intros H; injection H as <-; right; apply IH; reflexivity.
  - destruct (id_eqb i j) eqn:Eij; [|discriminate]; intros H; injection H as <-.
    apply id_eqb_true in Eij; subst; left; reflexivity.
Qed.
Lemma last_of_nodup : forall {A} (l : list (list Z * A)) j a, NoDup (map fst l) -> In (j, a) l -> last_of l j = Some a.
Proof.
  intros A l j a; induction l as [|[i b] l IH]; cbn; [intuition|]; intros N H.
  inversion N as [|? ? N1 N2]; subst. destruct H as [H|H].
  - injection H as -> ->. rewrite (proj2 (last_of_none l j) N1), id_eqb_refl; reflexivity.
  - rewrite (IH N2 H); reflexivity.
Qed.

Lemma keep_js_in : forall js seen harm j, In j (keep_js seen harm js) <->
  In j (map fst js) /\ ~ In j seen /\ In j harm.
Proof.
  induction js as [|[i m] js IH]; intros seen harm j; cbn; [intuition|].
  destruct (negb (id_mem i seen) && id_mem i harm) eqn:E.
  - apply andb_true_iff in E; destruct E as [E1 E2].
    apply negb_true_iff, id_mem_false in E1; apply id_mem_true in E2.
    cbn; rewrite IH; cbn. destruct (list_eq_dec Z.eq_dec i j) as [->|N]; intuition congruence.
  - rewrite IH. apply andb_false_iff in E. split.
    + intuition.
    + intros ([H|H] & H1 & H2); [subst i|intuition].
      destruct E as [E|E]; [apply negb_false_iff, id_mem_true in E|apply id_mem_false in E]; contradiction.
Qed.
Lemma keep_js_nodup : forall js seen harm, NoDup (keep_js seen harm js).
Proof.
  induction js as [|[i m] js IH]; intros seen harm; cbn; [constructor|].
  destruct (_ && _); [|apply IH]. constructor; [|apply IH].
  rewrite keep_js_in; cbn; intuition.
Qed.

Lemma list_sum_cons : forall a l, list_sum (a :: l) = (a + list_sum l)%nat.
Proof. reflexivity. Qed.
Lemma list_sum_app' : forall l m, list_sum (l ++ m) = (list_sum l + list_sum m)%nat.
Proof. intros; apply list_sum_app. Qed.

Lemma locate_some : forall {A} (dim : A -> nat) l i, (i < list_sum (map dim l))%nat ->
  exists a i', locate dim l i = Some (a, i') /\ In a l /\ (i' < dim a)%nat.
Proof.
  intros A dim; induction l as [|a l IH]; intros i H; cbn [locate map] in *; [cbn in H; lia|]; rewrite list_sum_cons in H.
  destruct (Nat.ltb i (dim a)) eqn:E.
  - apply Nat.ltb_lt in E; exists a, i; split; [reflexivity|split; [left; reflexivity|exact E]].
  - apply Nat.ltb_ge in E. destruct (IH (i - dim a)%nat) as (b & i' & H1 & H2 & H3); [lia|].
    exists b, i'; split; [exact H1|split; [right; exact H2|exact H3]].
Qed.
Lemma locate_ext : forall {A} (d d' : A -> nat) l i, (forall a, In a l -> d a = d' a) -> locate d l i = locate d' l i.
Proof.
  intros A d d'; induction l as [|a l IH]; intros i H; cbn [locate]; [reflexivity|].
  rewrite (H a) by (left; reflexivity). rewrite IH; [reflexivity|]. intros; apply H; right; assumption.
Qed.

(** The element found by [locate] is the one at this position of the
    concatenation. *)
Lemma locate_concat : forall {A B} (f : A -> res (list B)) (dim : A -> nat) l,
  (forall a, In a l -> exists x, f a = Ret x /\ length x = dim a) ->
  exists out, concatM f l = Ret out /\ length out = list_sum (map dim l) /\
    forall i a i' x, locate dim l i = Some (a, i') -> f a = Ret x -> nth_error out i = nth_error x i'.
Proof.
  intros A B f dim; induction l as [|a l IH]; intros H; cbn [locate concatM map]; [|rewrite list_sum_cons].
  - exists []; split; [reflexivity|]; split; [reflexivity|]; discriminate.
  - destruct (H a) as (x & Ex & Lx); [left; reflexivity|].
    destruct IH as (out & Eo & Lo & Ho); [intros; apply H; right; assumption|].
    rewrite Ex; cbn [bind]; rewrite Eo; cbn [bind]. exists (x ++ out); split; [reflexivity|]; split.
    { rewrite app_length; lia. }
    intros i b i' y E Ey. destruct (Nat.ltb i (dim a)) eqn:Ei.
    + injection E as <- <-. apply Nat.ltb_lt in Ei. rewrite Ex in Ey; injection Ey as <-.
      apply nth_error_app1; lia.
    + apply Nat.ltb_ge in Ei. rewrite nth_error_app2 by lia. rewrite Lx. apply (Ho _ _ _ _ E Ey).
Qed.

Lemma start_locate : forall dim js i j i', NoDup js -> locate dim js i = Some (j, i') ->
  exists st, start_index dim js j = Ret st /\ (st + i' = i)%nat.
Proof.
  intros dim; induction js as [|a js IH]; intros i j i' N E; cbn [locate start_index] in *; [discriminate|].
  inversion N as [|? ? N1 N2]; subst. destruct (Nat.ltb i (dim a)) eqn:Ei.
  - injection E as <- <-. rewrite id_eqb_refl. exists 0%nat; auto.
  - apply Nat.ltb_ge in Ei. destruct (IH _ _ _ N2 E) as (st & Es & H).
    assert (In j js) as I.
    { clear - E. revert E; generalize (i - dim a)%nat; induction js as [|b js IH]; intros n E; cbn [locate] in *; [discriminate|].
      destruct (Nat.ltb n (dim b)); [injection E as <- <-; left; reflexivity|right; apply (IH _ E)]. }
    destruct (id_eqb a j) eqn:Eq; [apply id_eqb_true in Eq; subst; contradiction|].
    rewrite Es; cbn. exists (dim a + st)%nat; split; [reflexivity|lia].
Qed.
Lemma start_some : forall dim js j, In j js -> exists st, start_index dim js j = Ret st /\
  (st + dim j <= list_sum (map dim js))%nat.
Proof.
  intros dim; induction js as [|a js IH]; intros j H; cbn [In start_index map] in *; [contradiction|]; rewrite list_sum_cons.
  destruct (id_eqb a j) eqn:E.
  - apply id_eqb_true in E; subst. exists 0%nat; split; [reflexivity|lia].
  - apply id_eqb_false in E. destruct H as [H|H]; [congruence|].
    destruct (IH j H) as (st & -> & L); cbn. exists (dim a + st)%nat; split; [reflexivity|lia].
Qed.

Lemma nth_error_flat : forall {A B} (f : A -> list B) n l q r a,
  (forall b, In b l -> length (f b) = n) -> nth_error l q = Some a -> (r < n)%nat ->
  nth_error (flat_map f l) (q * n + r) = nth_error (f a) r.
Proof.
  intros A B f n; induction l as [|b l IH]; intros q r a H E L; [destruct q; discriminate|]; cbn [flat_map].
  assert (length (f b) = n) as Lb by (apply H; left; reflexivity).
  destruct q as [|q]; cbn [nth_error] in E.
  - injection E as <-. cbn [Nat.mul Nat.add]. apply nth_error_app1; lia.
  - rewrite nth_error_app2 by lia. replace (S q * n + r - length (f b))%nat with (q * n + r)%nat by lia.
    apply IH; auto. intros; apply H; right; assumption.
Qed.
Lemma length_flat : forall {A B} (f : A -> list B) n l, (forall b, In b l -> length (f b) = n) ->
  length (flat_map f l) = (length l * n)%nat.
Proof.
  intros A B f n; induction l as [|b l IH]; intros H; cbn; [reflexivity|].
  rewrite app_length, IH, (H b) by (try (left; reflexivity); intros; apply H; right; assumption). reflexivity.
Qed.
Lemma nth_error_seq' : forall n i, (i < n)%nat -> nth_error (seq 0 n) i = Some i.
Proof.
  intros n i H. rewrite (nth_error_nth' (seq 0 n) 0%nat) by (rewrite seq_length; exact H).
  rewrite seq_nth by exact H; reflexivity.
Qed.
Lemma nth_error_flat_seq : forall {B} (f : nat -> list B) n K idx,
  (forall b, (b < K)%nat -> length (f b) = n) -> (idx < K * n)%nat ->
  nth_error (flat_map f (seq 0 K)) idx = nth_error (f (idx / n)%nat) (idx mod n)%nat.
Proof.
  intros B f n K idx H L. assert (n <> 0)%nat as N by (intros ->; rewrite Nat.mul_0_r in L; lia).
  assert (idx / n < K)%nat as Lq by (apply Nat.div_lt_upper_bound; lia).
  rewrite (Nat.div_mod idx n N) at 1. rewrite (Nat.mul_comm n).
  apply nth_error_flat.
  - intros b Hb; apply in_seq in Hb; apply H; lia.
  - apply nth_error_seq'; exact Lq.
  - apply Nat.mod_upper_bound; exact N.
Qed.

Lemma length_enumerate : forall {A} (l : list A), length (enumerate l) = length l.
Proof. intros A l; unfold enumerate; rewrite combine_length, seq_length; lia. Qed.
Lemma nth_enumerate : forall {A} (l : list A) i a, nth_error l i = Some a -> nth_error (enumerate l) i = Some (i, a).
Proof.
  intros A l. unfold enumerate. cut (forall s i a, nth_error l i = Some a ->
    nth_error (combine (seq s (length l)) l) i = Some ((s + i)%nat, a)).
  { intros H i a E; apply (H 0%nat i a E). }
  induction l as [|b l IH]; intros s i a E; [destruct i; discriminate|].
  destruct i as [|i]; cbn in *.
  - injection E as <-; rewrite Nat.add_0_r; reflexivity.
  - rewrite (IH (S s) i a E), Nat.add_succ_r. reflexivity.
Qed.
Lemma map_nth_error' : forall {A B} (f : A -> B) l i a, nth_error l i = Some a -> nth_error (map f l) i = Some (f a).
Proof. intros A B f l i a H; apply map_nth_error; exact H. Qed.

(** (idx mod (S * d)) / d and mod d, for the nested loops. *)
Lemma mod_div_swap : forall x d s, (d <> 0)%nat -> (s <> 0)%nat ->
  ((x mod (s * d)) / d = (x / d) mod s)%nat /\ ((x mod (s * d)) mod d = x mod d)%nat.
Proof.
  intros x d s Hd Hs. rewrite (Nat.mul_comm s d), Nat.mod_mul_r by assumption. split.
  - rewrite (Nat.mul_comm d), Nat.div_add by assumption.
    rewrite Nat.div_small by (apply Nat.mod_upper_bound; assumption). reflexivity.
  - rewrite (Nat.mul_comm d), Nat.mod_add by assumption. apply Nat.mod_mod; assumption.
Qed.
