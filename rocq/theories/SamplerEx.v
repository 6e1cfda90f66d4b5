(** Concrete cases for SamplerModel. *)
From Coq Require Import String Ascii.
From Coq Require Import List ZArith Arith Bool Reals Lia Lra Permutation.
From Verif Require Import LibRes LibPy LibMat FieldModel GroupedModel BlocksModel SpecBlocks BlocksEx SamplerModel SpecSampler SamplerCor.
Import ListNotations.
Local Open Scope string_scope.
Local Open Scope nat_scope.

(** Points on a line; the kernels grow with the point. *)
Definition lelem (a c : nat) : element unit R := {| el_attr := the_attr c a; el_dim := 1; el_sample := fun r e p => if Nat.eqb r a && Nat.eqb e c then p else 0%R |}.
Definition lkb (o i : nat) (l : list (nat * nat)) : kbasis unit R := {| kb_out := o; kb_in := i; kb_elements := map (fun ac => lelem (fst ac) (snd ac)) l |}.
Definition lgen (i o : rep) : res (option (kbasis unit R)) :=
  if rep_eqb i t then if rep_eqb o t then Ret (Some (lkb 1 1 [(0, 0)])) else Ret None
  else if rep_eqb o t then Ret (Some (lkb 1 2 [(0, 1)])) else Ret (Some (lkb 2 2 [(0, 0); (1, 0)])).
Definition build (ins outs : list rep) : res (sampler rep unit R) := mk_sampler r_name r_size rep_eqb (fun l => l) (fun l => l) ins outs lgen None.

Lemma build_ok : forall ins outs, (forall a, In a ins \/ In a outs -> a = t \/ a = r2) ->
  (forall a, In a ins -> dotless (r_name a)) /\ (forall a, In a outs -> dotless (r_name a)) /\
  (forall a b, In a ins -> In b ins -> r_name a = r_name b -> a = b) /\ (forall a b, In a outs -> In b outs -> r_name a = r_name b -> a = b) /\
  Forall (fun r => 0 < r_size r) ins /\ Forall (fun r => 0 < r_size r) outs /\
  (forall i o, In i ins -> In o outs -> exists k, lgen i o = Ret k /\ forall kb, k = Some kb -> kb_out kb = r_size o /\ kb_in kb = r_size i).
Proof.
  intros ins outs H. assert (forall a, a = t \/ a = r2 -> dotless (r_name a)) as D by (intros a [->| ->]; cbn; repeat split; discriminate).
  assert (forall a b, a = t \/ a = r2 -> b = t \/ b = r2 -> r_name a = r_name b -> a = b) as I by (intros a b [->| ->] [->| ->] E; try reflexivity; discriminate).
  assert (forall a, a = t \/ a = r2 -> 0 < r_size a) as Z by (intros a [->| ->]; cbn; lia).
  repeat match goal with |- _ /\ _ => split end.
  - intros a Ha. apply D, H. auto.
  - intros a Ha. apply D, H. auto.
  - intros a b Ha Hb. apply I; apply H; auto.
  - intros a b Ha Hb. apply I; apply H; auto.
  - apply Forall_forall. intros a Ha. apply Z, H. auto.
  - apply Forall_forall. intros a Ha. apply Z, H. auto.
  - intros i o Hi Ho. destruct (H i (or_introl Hi)) as [->| ->]; destruct (H o (or_intror Ho)) as [->| ->]; eexists; (split; [reflexivity|]); intros kb E; try discriminate; injection E as <-; split; reflexivity.
Qed.

(** *** two groups: [t; r2; t] twice to [r2; t] twice *)
Definition outs2 := [r2; t; r2; t].
Lemma outs2_copies : outs2 = copies 2 [r2; t].
Proof. reflexivity. Qed.
Lemma in_tr2 : forall a, In a ins \/ In a outs2 -> a = t \/ a = r2.
Proof. intros a [H|H]; cbn in H; intuition. Qed.
Lemma grouped_holds : exists s, build ins outs2 = Ret s /\ bb_dim (sm_blocks s) = 10 /\
  forall w x pt, List.length w = 10 -> List.length x = 8 -> exists msg, compute_messages r_name r_size s w x pt true 2 = Ret msg /\ compute_messages r_name r_size s w x pt false 2 = Ret msg.
Proof.
  destruct (build_ok ins outs2 in_tr2) as (D1 & D2 & N1 & N2 & S1 & S2 & G).
  destruct (messages_ok r_name r_size r_irreps rep_eqb (fun l => l) (fun l => l) lgen None ins outs2 rep_eqb_ok (fun l => Permutation_refl l) (fun l => Permutation_refl l) D1 D2 N1 N2 S1 S2 G)
    as (s & infos & Es & _ & _ & _ & _ & _ & _ & _ & _ & _ & HA & _).
  assert (bb_dim (sm_blocks s) = 10) as Ed.
  { assert (match mk_sampler r_name r_size rep_eqb (fun l => l) (fun l => l) ins outs2 lgen None with Ret s' => bb_dim (sm_blocks s') | Raise => 0 end = 10) as K by reflexivity.
    rewrite Es in K. exact K. }
  exists s. split; [exact Es|]. split; [exact Ed|]. intros w x pt Lw Lx.
  assert (exists msg, compute_messages r_name r_size s w x pt true 2 = Ret msg) as (msg & E).
  { apply HA.
    - split; [rewrite Ed; exact Lw|]. split; [exact Lx|]. split; [lia|reflexivity].
    - intros [[_ K] _]. specialize (K t r2 (or_introl eq_refl) (or_intror (or_introl eq_refl))). discriminate.
    - intros i o Hi Ho _. destruct (in_tr2 o (or_intror Ho)) as [->| ->]; (split; [reflexivity|]); right; right; intros [_ (a & k & H)].
      + assert (a <= 2 < a + k) as A1 by (apply H; exists 1, t; repeat split; cbn; lia). assert (a <= 5 < a + k) as A2 by (apply H; exists 3, t; repeat split; cbn; lia).
        assert (a <= 3 < a + k) as A3 by lia. apply H in A3. destruct A3 as (o & ro & Eo & No & B). destruct o as [|[|[|[|o]]]]; cbn in Eo; try discriminate; try (injection Eo as <-; cbn in B, No; try discriminate; lia). destruct o; discriminate.
      + assert (a <= 1 < a + k) as A1 by (apply H; exists 0, r2; repeat split; cbn; lia). assert (a <= 3 < a + k) as A2 by (apply H; exists 2, r2; repeat split; cbn; lia).
        assert (a <= 2 < a + k) as A3 by lia. apply H in A3. destruct A3 as (o & ro & Eo & No & B). destruct o as [|[|[|[|o]]]]; cbn in Eo; try discriminate; try (injection Eo as <-; cbn in B, No; try discriminate; lia). destruct o; discriminate. }
  exists msg. split; [exact E|].
  exact (orders_agree r_name r_size r_irreps rep_eqb (fun l => l) (fun l => l) lgen None ins outs2 rep_eqb_ok (fun l => Permutation_refl l) (fun l => Permutation_refl l) D1 D2 N1 N2 S1 S2 G s [r2; t] 2 w x pt msg Es outs2_copies E).
Qed.

(** *** consecutive fields: [t; r2] twice to [t] twice *)
Lemma in_tr3 : forall a, In a [t; r2] \/ In a [t; t] -> a = t \/ a = r2.
Proof. intros a [H|H]; cbn in H; intuition. Qed.
Lemma contiguous_raises : exists s, build [t; r2] [t; t] = Ret s /\ [t; t] = copies 2 [t] /\ bb_dim (sm_blocks s) = 4 /\
  forall w x pt, List.length w = 4 -> List.length x = 6 -> compute_messages r_name r_size s w x pt true 2 = Raise /\ exists msg, compute_messages r_name r_size s w x pt false 2 = Ret msg.
Proof.
  destruct (build_ok [t; r2] [t; t] in_tr3) as (D1 & D2 & N1 & N2 & S1 & S2 & G).
  destruct (messages_ok r_name r_size r_irreps rep_eqb (fun l => l) (fun l => l) lgen None [t; r2] [t; t] rep_eqb_ok (fun l => Permutation_refl l) (fun l => Permutation_refl l) D1 D2 N1 N2 S1 S2 G)
    as (s & infos & Es & _ & _ & _ & _ & _ & _ & _ & _ & HF & HA & _).
  assert (bb_dim (sm_blocks s) = 4) as Ed.
  { assert (match mk_sampler r_name r_size rep_eqb (fun l => l) (fun l => l) [t; r2] [t; t] lgen None with Ret s' => bb_dim (sm_blocks s') | Raise => 0 end = 4) as K by reflexivity.
    rewrite Es in K. exact K. }
  exists s. split; [exact Es|]. split; [reflexivity|]. split; [exact Ed|]. intros w x pt Lw Lx.
  assert (fitting (bb_dim (sm_blocks s)) 3 2 w x 2) as F by (split; [rewrite Ed; exact Lw|]; split; [exact Lx|]; split; [lia|reflexivity]).
  assert (~ (one_kind [t; r2] /\ one_kind [t; t])) as NK by (intros [[_ K] _]; specialize (K t r2 (or_introl eq_refl) (or_intror (or_introl eq_refl))); discriminate).
  split; [|eexists; apply HF; [exact F|intros K; contradiction]].
  destruct (compute_messages r_name r_size s w x pt true 2) as [|msg] eqn:E; [reflexivity|]. exfalso.
  destruct (proj1 (HA w x pt 2 F (fun K => False_ind _ (NK K))) (ex_intro _ msg E) t t (or_introl eq_refl) (or_introl eq_refl)) as [_ [K|[K|K]]]; [|contradiction|discriminate|].
  - cbn. discriminate.
  - apply K. split.
    + exists 0, 1. intros c. split.
      * intros Hc. exists 0, t. repeat split; cbn; lia.
      * intros (o & ro & Eo & No & B). destruct o as [|[|o]]; cbn in Eo; [injection Eo as <-; cbn in B; lia|injection Eo as <-; discriminate|destruct o; discriminate].
    + exists 0, 2. intros c. split.
      * intros Hc. assert (c = 0 \/ c = 1) as [->| ->] by lia; [exists 0, t|exists 1, t]; repeat split; cbn; lia.
      * intros (o & ro & Eo & No & B). destruct o as [|[|o]]; cbn in Eo; [injection Eo as <-; cbn in B; lia|injection Eo as <-; cbn in B; lia|destruct o; discriminate].
Qed.

(** *** fields that are not copies of one list: [t; u; t; u] twice to [t; t; u; u] *)
Definition u : rep := {| r_name := "sign"; r_size := 1; r_irreps := 1; r_tag := 1 |}.
Definition ugen (i o : rep) : res (option (kbasis unit R)) := Ret (Some (lkb 1 1 [(0, 0)])).
Lemma unordered_differ : exists s m1 m2, mk_sampler r_name r_size rep_eqb (fun l => l) (fun l => l) [t; u; t; u] [t; t; u; u] ugen None = Ret s /\
  compute_messages r_name r_size s (repeat 1%R 16) (repeat 1%R 4 ++ repeat 0%R 4) 1%R true 2 = Ret m1 /\
  compute_messages r_name r_size s (repeat 1%R 16) (repeat 1%R 4 ++ repeat 0%R 4) 1%R false 2 = Ret m2 /\
  nth 1 m1 0%R = 0%R /\ nth 1 m2 0%R = 4%R.
Proof.
  assert (match mk_sampler r_name r_size rep_eqb (fun l => l) (fun l => l) [t; u; t; u] [t; t; u; u] ugen None with
    | Ret s => match compute_messages r_name r_size s (repeat 1%R 16) (repeat 1%R 4 ++ repeat 0%R 4) 1%R true 2, compute_messages r_name r_size s (repeat 1%R 16) (repeat 1%R 4 ++ repeat 0%R 4) 1%R false 2 with
      | Ret m1, Ret m2 => nth 1 m1 0%R = 0%R /\ nth 1 m2 0%R = 4%R | _, _ => False end
    | Raise => False end) as H.
  { vm_compute. split; lra. }
  destruct (mk_sampler _ _ _ _ _ _ _ _ _) as [|s]; [contradiction|].
  destruct (compute_messages _ _ s _ _ _ true _) as [|m1] eqn:E1; [contradiction|]. destruct (compute_messages _ _ s _ _ _ false _) as [|m2] eqn:E2; [contradiction|].
  exists s, m1, m2. auto.
Qed.

(** *** a name with a dot *)
Definition dotted : rep := {| r_name := "a.b"; r_size := 1; r_irreps := 1; r_tag := 0 |}.
Lemma dotted_raises : mk_sampler r_name r_size rep_eqb (fun l => l) (fun l => l) [dotted] [t] ugen None = Raise.
Proof. reflexivity. Qed.
