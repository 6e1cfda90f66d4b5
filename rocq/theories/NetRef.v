(** What MultipleModule cannot take. *)
From Coq Require Import String Ascii.
From Coq Require Import Reals ZArith Lia Bool List Arith.
From Verif Require Import LibRes LibPy FieldModel GridModel ImageModel FieldMapModel NetModel SpecNet NetPar.
Import ListNotations.

Lemma mapM_raise : forall {X Y} (f : X -> res Y) l a, In a l -> f a = Raise -> mapM f l = Raise.
Proof.
  intros X Y f l a H E. induction l as [|b l IH]; [destruct H|]. cbn [mapM]. destruct H as [->|H]; [rewrite E; reflexivity|]. destruct (f b); [reflexivity|]. cbn [bind]. rewrite (IH H). reflexivity.
Qed.
Section Ref.
Context {A : Type}.
Variables (size : A -> nat) (teqb : list A -> list A -> bool) (lleb : string -> string -> bool).

Theorem rebuilt_raises : forall ft labels mods r mu mods', mk_multiple size teqb lleb ft labels mods r = Ret (mu, mods') ->
  (exists m l, In (m, LStr l) mods) -> mk_multiple size teqb lleb ft labels mods' r = Raise.
Proof.
  intros ft labels mods r mu mods' H (m & l & Hin). unfold mk_multiple in H. apply assert_Ret in H as (_ & H). apply bind_Ret in H as (b & Eb & H). apply assert_Ret in H as (Q2 & H). apply bind_Ret in H as (u & Eu & H).
  apply bind_Ret in H as (out & _ & H). apply Ret_inj in H. injection H as _ <-.
  assert (K : exists t, nm_in m = One t).
  { destruct (nm_in m) as [t|ts] eqn:E; [eauto|]. assert (check_labels teqb b m (LStr l) = Raise) as C by (unfold check_labels; rewrite E; destruct (lookup String.eqb (br_out b) l); reflexivity).
    rewrite (mapM_raise _ mods (m, LStr l) Hin C) in Eu. discriminate. }
  destruct K as (t & Et). unfold mk_multiple. destruct (forallb _ _ && _); [|reflexivity]. cbn [assert_ bind]. rewrite Eb. cbn [bind]. rewrite Q2. cbn [assert_ bind].
  rewrite (mapM_raise _ _ (m, LList [l])); [reflexivity| |].
  - apply in_map_iff. exists (m, LStr l). auto.
  - unfold check_labels. cbn. rewrite Et. reflexivity.
Qed.
(** a module of one type given with the list of its one label *)
Theorem one_label_raises : forall ft labels mods r m t l ls, In (m, LList (l :: ls)) mods -> nm_in m = One t -> mk_multiple size teqb lleb ft labels mods r = Raise.
Proof.
  intros ft labels mods r m t l ls Hin Et. unfold mk_multiple. destruct (forallb _ _ && _); [|reflexivity]. cbn [assert_ bind]. destruct (mk_branching _ _ _ _ _ _) as [|b]; [reflexivity|]. cbn [bind].
  destruct (forallb (fun l => negb (has_dot l)) labels); [|reflexivity]. cbn [assert_ bind]. rewrite (mapM_raise _ _ _ Hin); [reflexivity|]. unfold check_labels. cbn. rewrite Et. reflexivity.
Qed.
Theorem dotted_label_raises : forall ft labels mods r l, In l labels -> has_dot l = true -> mk_multiple size teqb lleb ft labels mods r = Raise.
Proof.
  intros ft labels mods r l Hin Hd. unfold mk_multiple. destruct (forallb _ _ && _); [|reflexivity]. cbn [assert_ bind]. destruct (mk_branching _ _ _ _ _ _) as [|b]; [reflexivity|]. cbn [bind].
  assert (forallb (fun l => negb (has_dot l)) labels = false) as ->; [|reflexivity]. destruct (forallb _ labels) eqn:E; [|reflexivity]. rewrite forallb_forall in E. specialize (E l Hin). rewrite Hd in E. discriminate.
Qed.
(** a label `self`: the module is built, and no tensor passes *)
Theorem self_label_raises : forall ft labels mods r mu mods', mk_multiple size teqb lleb ft labels mods r = Ret (mu, mods') -> In "self"%string labels ->
  forall x, multiple_forward size teqb mu x = Raise.
Proof.
  intros ft labels mods r mu mods' H Hin x. unfold mk_multiple in H. apply assert_Ret in H as (_ & H). apply bind_Ret in H as (b & Eb & H). apply assert_Ret in H as (_ & H). apply bind_Ret in H as (u & _ & H).
  apply bind_Ret in H as (out & _ & H). apply Ret_inj in H. injection H as <- _. destruct (branching_labels _ _ _ _ _ _ Eb) as (El & _).
  unfold multiple_forward. cbn [mu_in mu_branching mu_mods mu_out]. rewrite El. destruct (teqb _ _); [|reflexivity]. cbn [assert_ bind]. destruct (mapM _ labels) as [|subs] eqn:E; [reflexivity|]. cbn [bind]. unfold merge_forward.
  assert (Em : map fst subs = labels).
  { clear - E. revert subs E. induction labels as [|a l IH]; intros subs E; [apply Ret_inj in E; subst; reflexivity|]. cbn [mapM] in E. apply bind_Ret in E as (p & Ep & E). apply bind_Ret in E as (ps & Eps & E). apply Ret_inj in E. subst subs.
    apply bind_Ret in Ep as (q & _ & Ep). apply Ret_inj in Ep. subst p. cbn [map fst]. rewrite (IH _ Eps). reflexivity. }
  rewrite Em, (proj2 (smem_ok _ _) Hin). reflexivity.
Qed.
End Ref.
