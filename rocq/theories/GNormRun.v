(** Which groups are kept as a slice: exactly those whose fields are consecutive. *)
From Coq Require Import List Arith Bool Lia ZArith.
From Verif Require Import LibRes LibPy FieldModel SpecField FieldProofs BranchProofs LabelThms MergeThms GroupedModel GroupedProofs.
Import ListNotations.

Section Run.
Context {L : Type}.
Variable leqb : L -> L -> bool.
Hypothesis leqb_ok : forall a b, leqb a b = true <-> a = b.

Definition gap (pre : list L) (l : L) : Prop := exists i j k x, (i < j < k)%nat /\ nth_error pre i = Some l /\ nth_error pre j = Some x /\ x <> l /\ nth_error pre k = Some l.
Lemma gap_snoc : forall pre l x, gap pre l -> gap (pre ++ [x]) l.
Proof.
  intros pre l x (i & j & k & y & Hl & H1 & H2 & Ny & H3). exists i, j, k, y. assert (k < length pre)%nat by (apply nth_error_Some; congruence).
  rewrite !nth_error_app1 by lia. auto.
Qed.
Definition gap_inv (pre : list L) (last : option L) (d : list (L * bool)) : Prop :=
  last = nth_error (rev pre) 0 /\ forall l b, dget leqb d l = Some b -> In l pre /\ (b = false -> gap pre l).
Lemma gaps : forall labels pre last d, gap_inv pre last d -> exists last', gap_inv (pre ++ labels) last' (contiguous_labels leqb d last labels).
Proof.
  induction labels as [|x labels IH]; intros pre last d [Hl Hd]; cbn [contiguous_labels].
  - exists last. rewrite app_nil_r. split; assumption.
  - replace (pre ++ x :: labels) with ((pre ++ [x]) ++ labels) by (rewrite <- app_assoc; reflexivity). apply IH.
    split; [rewrite rev_app_distr; reflexivity|]. intros l b E.
    assert (forall b', dget leqb d l = Some b' -> In l (pre ++ [x]) /\ (b' = false -> gap (pre ++ [x]) l)) as Old.
    { intros b' Eb. destruct (Hd l b' Eb) as [H1 H2]. split; [apply in_or_app; left; exact H1|]. intros Q. apply gap_snoc, H2, Q. }
    destruct (match last with Some l' => leqb x l' | None => false end) eqn:Es; [apply Old, E|].
    destruct (dget leqb d x) as [bx|] eqn:Ex; rewrite (dget_dset leqb leqb_ok) in E; destruct (leqb x l) eqn:E1; try (apply Old, E).
    + apply leqb_ok in E1; subst l. injection E as <-. split; [apply in_or_app; right; left; reflexivity|]. intros _.
      destruct (Hd x bx Ex) as [Hx _]. apply In_nth_error in Hx. destruct Hx as (i & Hi). assert (i < length pre)%nat as Li by (apply nth_error_Some; congruence).
      destruct last as [y|]; [|exfalso; destruct pre as [|p0 pre0]; [cbn in Li; lia|]; cbn [rev] in Hl; symmetry in Hl; apply nth_error_None in Hl; rewrite app_length in Hl; cbn in Hl; lia].
      assert (nth_error pre (length pre - 1) = Some y) as Hy.
      { clear - Hl. destruct (rev pre) as [|z q] eqn:Er; [discriminate|]. cbn in Hl. injection Hl as <-. apply (f_equal (@rev L)) in Er. rewrite rev_involutive in Er. cbn [rev] in Er. rewrite Er, app_length. cbn.
        rewrite nth_error_app2 by lia. replace (_ - _)%nat with 0%nat by lia. reflexivity. }
      assert (x <> y) as Nxy by (intros ->; rewrite (proj2 (leqb_ok y y) eq_refl) in Es; discriminate).
      exists i, (length pre - 1)%nat, (length pre), y. split; [|split; [|split; [|split]]].
      * assert (i <> length pre - 1)%nat by (intros ->; congruence). lia.
      * rewrite nth_error_app1 by lia. exact Hi.
      * rewrite nth_error_app1 by lia. exact Hy.
      * congruence.
      * rewrite nth_error_app2, Nat.sub_diag by lia. reflexivity.
    + apply leqb_ok in E1; subst l. injection E as <-. split; [apply in_or_app; right; left; reflexivity|discriminate].
Qed.
Lemma contiguous_iff : forall labels l, In l labels -> exists b, dget leqb (contiguous_labels leqb [] None labels) l = Some b /\
  (b = true <-> exists a k, labelled leqb labels l = seq a k).
Proof.
  intros labels l Hl. destruct (contiguous_ok leqb leqb_ok labels l Hl) as (b & E & H). exists b. split; [exact E|]. split; [exact H|]. intros (a & n & Es).
  destruct b; [reflexivity|]. destruct (gaps labels [] None []) as (last' & _ & G); [split; [reflexivity|]; intros l' b' K; discriminate K|].
  destruct (G l false E) as [_ Gf]. destruct (Gf eq_refl) as (i & j & k & x & Hij & H1 & H2 & Nx & H3). cbn [app] in *.
  apply (labelled_In leqb leqb_ok) in H1, H3. rewrite Es in H1, H3. apply in_seq in H1, H3. assert (In j (labelled leqb labels l)) as Hj by (rewrite Es; apply in_seq; lia).
  apply (labelled_In leqb leqb_ok) in Hj. congruence.
Qed.
Context {A : Type}.
Variable size : A -> nat.
Lemma buffers_run : forall (ft : list A) labels buf, length labels = length ft -> buffers size leqb ft labels = Ret buf -> forall l, In l labels ->
  exists c, lookup leqb buf l = Ret c /\ ((exists a e, c = Run a e) <-> exists a k, labelled leqb labels l = seq a k).
Proof.
  intros ft labels buf Len E l Hl. unfold buffers in E. destruct (contiguous_iff labels l Hl) as (b & Ed & Hb).
  destruct (dget_mapM leqb leqb_ok (buffer leqb _) _ _ E (buf_key leqb _) l b Ed) as (c & Ei & Eix). exists c. split; [unfold lookup; rewrite Eix; reflexivity|]. rewrite <- Hb.
  unfold buffer in Ei. cbn [fst snd] in Ei. apply bind_Ret in Ei. destruct Ei as (i & _ & Ei). destruct b.
  - apply bind_Ret in Ei. destruct Ei as (u & _ & Ei). apply bind_Ret in Ei. destruct Ei as (v & _ & Ei). apply Ret_inj in Ei. injection Ei as <-. split; [reflexivity|]. intros _. eauto.
  - apply Ret_inj in Ei. injection Ei as <-. split; [intros (u & v & K)|]; discriminate.
Qed.
End Run.
