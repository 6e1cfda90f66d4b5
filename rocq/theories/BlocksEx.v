(** Concrete cases for BlocksModel. *)
From Coq Require Import String Ascii.
From Coq Require Import List ZArith Arith Bool Reals Lia Lra Permutation.
From Verif Require Import LibRes LibPy LibMat FieldModel GroupedModel BlocksModel SpecBlocks BlocksProofs BlocksCor.
Import ListNotations.
Local Open Scope string_scope.
Local Open Scope nat_scope.

(** A representation: name, size, number of irreps, and what tells it from others. *)
Record rep := { r_name : string; r_size : nat; r_irreps : nat; r_tag : nat }.
Definition rep_eq_dec : forall a b : rep, {a = b} + {a <> b}.
Proof. decide equality; (apply Nat.eq_dec || apply string_dec). Defined.
Definition rep_eqb (a b : rep) : bool := if rep_eq_dec a b then true else false.
Lemma rep_eqb_ok : forall a b, rep_eqb a b = true <-> a = b.
Proof. intros a b. unfold rep_eqb. destruct (rep_eq_dec a b); split; congruence. Qed.

Definition the_attr (i o : nat) : attr unit := {| at_in := i; at_out := o; at_id := 7; at_rest := tt |}.
(** an element that is one at a single entry *)
Definition delta (a c : nat) : nat -> nat -> nat -> R := fun r e _ => if Nat.eqb r a && Nat.eqb e c then 1%R else 0%R.
Definition elem (a c : nat) : element unit nat := {| el_attr := the_attr c a; el_dim := 1; el_sample := delta a c |}.
Definition kb_of (o i : nat) (l : list (nat * nat)) : kbasis unit nat := {| kb_out := o; kb_in := i; kb_elements := map (fun ac => elem (fst ac) (snd ac)) l |}.

Lemma delta_energy : forall o i a c, a < o -> c < i -> energy 1 o i (delta a c) = 1%R.
Proof.
  intros o i a c Ha Hc. unfold energy. rewrite (sumn_single o a); [|exact Ha|].
  2:{ intros r Hr N. apply sumn_0. intros e He. cbn [sumn]. unfold delta. destruct (Nat.eqb_spec r a); [contradiction|]. cbn [andb]. ring. }
  rewrite (sumn_single i c); [|exact Hc|].
  2:{ intros e He N. cbn [sumn]. unfold delta. destruct (Nat.eqb_spec e c); [contradiction|]. rewrite andb_false_r. ring. }
  cbn [sumn]. unfold delta. rewrite !Nat.eqb_refl. cbn [andb]. ring.
Qed.
Lemma delta_scale : forall o i a c, a < o -> c < i -> unit_scale 1 o i 1 (delta a c) = 1%R.
Proof.
  intros o i a c Ha Hc. unfold unit_scale. rewrite delta_energy by assumption. cbn [INR]. replace (1 / 1)%R with 1%R by field.
  destruct (Rlt_dec 1 (1 / 10 ^ 12)); [lra|]. apply sqrt_1.
Qed.
Lemma delta_accepted : forall o i l a c, a < o -> c < i -> accepted 1 None (kb_of o i l) (elem a c) = true.
Proof.
  intros o i l a c Ha Hc. unfold accepted. cbn [andb kb_of kb_out kb_in].
  assert (energy 1 o i (unit_sample 1 (kb_of o i l) (elem a c)) = 1)%R as ->.
  { rewrite <- (delta_energy o i a c Ha Hc). unfold energy, unit_sample. cbn [elem el_sample el_dim kb_of kb_out kb_in]. rewrite delta_scale by assumption.
    apply sumn_ext; intros; apply sumn_ext; intros; apply sumn_ext; intros. unfold Rdiv. rewrite Rinv_1. ring. }
  destruct (Rlt_dec (1 / 100) 1); [reflexivity|lra].
Qed.
Lemma delta_kept : forall o i l, Forall (fun ac => fst ac < o /\ snd ac < i) l ->
  kept 1 None (kb_of o i l) = map (fun ac => (el_attr (elem (fst ac) (snd ac)), unit_sample 1 (kb_of o i l) (elem (fst ac) (snd ac)))) l.
Proof.
  intros o i l F. unfold kept. cbn [kb_elements kb_of]. rewrite <- (map_map (fun ac => elem (fst ac) (snd ac)) (fun e => (el_attr e, unit_sample 1 (kb_of o i l) e))). f_equal.
  assert (forall m, Forall (fun ac => fst ac < o /\ snd ac < i) m -> filter (accepted 1 None (kb_of o i l)) (map (fun ac => elem (fst ac) (snd ac)) m) = map (fun ac => elem (fst ac) (snd ac)) m) as G.
  { induction m as [|[a c] m IH]; intros Fm; [reflexivity|]. inversion Fm as [|? ? [H1 H2] F']; subst. cbn [map filter fst snd]. rewrite delta_accepted by assumption. f_equal. auto. }
  apply G, F.
Qed.
Lemma delta_unit : forall o i l a c r e p, a < o -> c < i -> unit_sample 1 (kb_of o i l) (elem a c) r e p = delta a c r e p.
Proof. intros. unfold unit_sample. cbn [elem el_sample el_dim kb_of kb_out kb_in]. rewrite delta_scale by assumption. unfold Rdiv. rewrite Rinv_1. ring. Qed.

(** *** trivial fields and a two-dimensional one: t + r + t -> r + t *)
Definition t : rep := {| r_name := "trivial"; r_size := 1; r_irreps := 1; r_tag := 0 |}.
Definition r2 : rep := {| r_name := "regular"; r_size := 2; r_irreps := 2; r_tag := 0 |}.
Definition gen (i o : rep) : res (option (kbasis unit nat)) :=
  if rep_eqb i t then if rep_eqb o t then Ret (Some (kb_of 1 1 [(0, 0)])) else Ret None
  else if rep_eqb o t then Ret (Some (kb_of 1 2 [(0, 1)])) else Ret (Some (kb_of 2 2 [(0, 0); (1, 0)])).
Definition ins := [t; r2; t].
Definition outs := [r2; t].
Lemma in_tr : forall a, In a ins \/ In a outs -> a = t \/ a = r2.
Proof. intros a [H|H]; cbn in H; intuition. Qed.
Lemma mixed_holds : exists b infos,
  mk_blocks 1 r_name r_size rep_eqb (@rev rep) (fun l => l) ins outs gen None = Ret b /\ get_basis_info r_name r_irreps b = Ret infos /\
  List.length infos = 5 /\ bb_dim b = 5 /\
  forall w dflt, List.length w = 5 -> exists F, forward 1 r_name r_size b w = Ret F /\
    forall r c p, r < 3 -> c < 4 -> F r c p = sumn 5 (fun k => nth k w 0 * element_at r_size (elements_of 1 gen None) ins outs (nth k infos dflt) r c p)%R.
Proof.
  destruct (blocks_ok 1 r_name r_size r_irreps rep_eqb (@rev rep) (fun l => l) gen None ins outs) as (b & infos & Emk & Einf & Len & Des & _ & ND & Comp & Fw & _).
  - exact rep_eqb_ok.
  - intros l. symmetry. apply Permutation_rev.
  - intros l. reflexivity.
  - intros x y Hx Hy E. destruct (in_tr x (or_introl Hx)) as [->| ->]; destruct (in_tr y (or_introl Hy)) as [->| ->]; try reflexivity; discriminate.
  - intros x y Hx Hy E. destruct (in_tr x (or_intror Hx)) as [->| ->]; destruct (in_tr y (or_intror Hy)) as [->| ->]; try reflexivity; discriminate.
  - repeat constructor.
  - repeat constructor.
  - intros i o Hi Ho. destruct (in_tr i (or_introl Hi)) as [->| ->]; destruct (in_tr o (or_intror Ho)) as [->| ->]; eexists; (split; [reflexivity|]); intros kb E; try discriminate; injection E as <-; split; reflexivity.
  - assert (bb_dim b = 5) as D.
    { rewrite <- Len. rewrite <- (map_length slot). transitivity (List.length [(0, 1, 0); (0, 1, 1); (1, 0, 0); (1, 1, 0); (1, 2, 0)]); [|reflexivity].
      apply Permutation_length. apply NoDup_Permutation; [exact ND| |].
      - repeat (constructor; [cbn; intuition discriminate|]). constructor.
      - assert (elements_of 1 gen None t t <> [] /\ List.length (elements_of 1 gen None t t) = 1 /\ elements_of 1 gen None t r2 = [] /\ List.length (elements_of 1 gen None r2 t) = 1 /\ List.length (elements_of 1 gen None r2 r2) = 2) as (_ & K1 & K2 & K3 & K4).
        { unfold elements_of. change (gen t t) with (@Ret (option (kbasis unit nat)) (Some (kb_of 1 1 [(0, 0)]))). change (gen t r2) with (@Ret (option (kbasis unit nat)) None).
          change (gen r2 t) with (@Ret (option (kbasis unit nat)) (Some (kb_of 1 2 [(0, 1)]))). change (gen r2 r2) with (@Ret (option (kbasis unit nat)) (Some (kb_of 2 2 [(0, 0); (1, 0)]))).
          cbv beta iota. rewrite !delta_kept by (repeat constructor). repeat split; try reflexivity. discriminate. }
        intros [[o i] j]. split.
        + intros H. apply in_map_iff in H. destruct H as (f & E & Hf). apply In_nth_error in Hf. destruct Hf as (k & Hf). destruct (Des k f Hf) as [(ri & ro & a & s & H1 & H2 & H3 & _) _].
          unfold slot in E. injection E as Eo' Ei' Ej'. rewrite Eo' in *. rewrite Ei' in *. rewrite Ej' in *. clear Eo' Ei' Ej'. assert (j < List.length (elements_of 1 gen None ri ro)) as Hj by (apply nth_error_Some; congruence). clear H3.
          destruct o as [|[|o]]; [| |destruct o; discriminate]; destruct i as [|[|[|i]]]; try (destruct i; discriminate); cbn in H1, H2; injection H1 as <-; injection H2 as <-;
            rewrite ?K1, ?K2, ?K3, ?K4 in Hj; cbn [List.length] in Hj; try lia; (destruct j as [|[|j]]; [| |lia]); try lia; cbn; tauto.
        + cbn [In]. intros [E|[E|[E|[E|[E|[]]]]]]; injection E as <- <- <-; eapply Comp; try reflexivity; rewrite ?K1, ?K3, ?K4; lia. }
    exists b, infos. repeat split; auto; [lia|]. intros w dflt Lw. destruct (Fw w dflt) as (F & EF & HF); [lia|lia|]. exists F. split; [exact EF|].
    intros r c p Hr Hc. rewrite HF by assumption. rewrite D. reflexivity.
Qed.

(** *** names that differ only in '.' and '^' *)
Definition dot : rep := {| r_name := "a.b"; r_size := 1; r_irreps := 1; r_tag := 0 |}.
Definition hat : rep := {| r_name := "a^b"; r_size := 1; r_irreps := 1; r_tag := 0 |}.
Definition gen1 (i o : rep) : res (option (kbasis unit nat)) := Ret (Some (kb_of 1 1 [(0, 0)])).
Lemma one_block : block_basisexpansion 1 (kb_of 1 1 [(0, 0)]) None = Ret (Some (the_single 1 None (kb_of 1 1 [(0, 0)]))).
Proof. rewrite block_ok, delta_kept by repeat constructor. reflexivity. Qed.
Definition one_single (f : nat -> nat -> nat -> R) : single unit nat :=
  {| sg_out := 1; sg_in := 1; sg_basis := [the_attr 0 0]; sg_mask := [true]; sg_sampled := [f] |}.
Lemma one_single_eq : the_single 1 None (kb_of 1 1 [(0, 0)]) = one_single (unit_sample 1 (kb_of 1 1 [(0, 0)]) (elem 0 0)).
Proof.
  unfold the_single. rewrite delta_kept by repeat constructor. unfold one_single. cbn [map fst snd kb_elements kb_of kb_out kb_in el_attr elem].
  f_equal. change {| el_attr := the_attr 0 0; el_dim := 1; el_sample := delta 0 0 |} with (elem 0 0). rewrite delta_accepted by lia. reflexivity.
Qed.
Definition clash : blocks rep unit nat :=
  let s := one_single (unit_sample 1 (kb_of 1 1 [(0, 0)]) (elem 0 0)) in
  {| bb_in := [dot; hat]; bb_out := [t]; bb_modules := [(("a^b", "trivial"), s)]; bb_pairs := [("a.b", "trivial"); ("a^b", "trivial")]; bb_npairs := 2;
     bb_contiguous := [(("a.b", "trivial"), true); (("a^b", "trivial"), true)]; bb_indices := [(("a^b", "trivial"), (Run 1 2, Run 0 1))];
     bb_ranges := [(("a.b", "trivial"), (0, 1)); (("a^b", "trivial"), (1, 2))]; bb_dim := 2 |}.
Lemma clash_expand : expand_pairs escaped (fun b => block_basisexpansion 1 b None) r_name gen1 (as_set rep_eqb (fun l => l) [dot; hat]) (as_set rep_eqb (fun l => l) [t]) =
  let s := one_single (unit_sample 1 (kb_of 1 1 [(0, 0)]) (elem 0 0)) in
  Ret ([(("a.b", "trivial"), s); (("a^b", "trivial"), s)], [(("a^b", "trivial"), s)]).
Proof.
  change (as_set rep_eqb (fun l => l) [dot; hat]) with [dot; hat]. change (as_set rep_eqb (fun l => l) [t]) with [t].
  unfold expand_pairs, gen1. cbn [flat_map map app fold_left bind fst snd]. rewrite one_block. cbn [bind fst snd]. rewrite one_single_eq. reflexivity.
Qed.
Lemma clash_mk : mk_blocks 1 r_name r_size rep_eqb (fun l => l) (fun l => l) [dot; hat] [t] gen1 None = Ret clash.
Proof. unfold mk_blocks, build_blocks. rewrite clash_expand. cbv zeta. reflexivity. Qed.
Lemma clash_value : forall w0 w1, exists F, forward 1 r_name r_size clash [w0; w1] = Ret F /\ F 0 0 0 = 0%R /\ F 0 1 0 = (1 * w1)%R.
Proof.
  intros w0 w1. eexists. split; [lazy -[Rplus Rmult Rdiv unit_sample elem kb_of]; reflexivity|]. split; [reflexivity|].
  lazy -[Rplus Rmult Rdiv unit_sample elem kb_of]. rewrite delta_unit by lia. unfold delta. cbn. ring.
Qed.
Lemma clash_holds : exists b f0, mk_blocks 1 r_name r_size rep_eqb (fun l => l) (fun l => l) [dot; hat] [t] gen1 None = Ret b /\ r_name dot <> r_name hat /\
  bb_dim b = 2 /\ get_element_info r_name r_irreps b 0 = Ret f0 /\ in_field_position f0 = 0 /\ out_field_position f0 = 0 /\ block_id f0 = 0 /\
  (forall w, element_at r_size (elements_of 1 gen1 None) [dot; hat] [t] f0 0 0 w = 1%R) /\
  forall w0 w1, exists F, forward 1 r_name r_size b [w0; w1] = Ret F /\ F 0 0 0 = 0%R.
Proof.
  exists clash. eexists. split; [exact clash_mk|]. split; [discriminate|]. split; [reflexivity|]. split; [reflexivity|]. split; [reflexivity|]. split; [reflexivity|]. split; [reflexivity|]. split.
  - intros w. unfold element_at, elements_of, gen1. rewrite delta_kept by repeat constructor.
    change (unit_sample 1 (kb_of 1 1 [(0, 0)]) (elem 0 0) 0 0 w = 1%R). rewrite delta_unit by lia. reflexivity.
  - intros w0 w1. destruct (clash_value w0 w1) as (F & EF & H0 & _). exists F. auto.
Qed.

(** *** two representations with one name *)
Definition sum0 : rep := {| r_name := "sum"; r_size := 2; r_irreps := 2; r_tag := 0 |}.
Definition sum1 : rep := {| r_name := "sum"; r_size := 2; r_irreps := 2; r_tag := 1 |}.
(** their bases: the first or the second channel *)
Definition gen2 (i o : rep) : res (option (kbasis unit nat)) := Ret (Some (kb_of 1 2 [(0, r_tag i)])).
Lemma two_block : forall c, c < 2 -> block_basisexpansion 1 (kb_of 1 2 [(0, c)]) None =
  Ret (Some {| sg_out := 1; sg_in := 2; sg_basis := [the_attr c 0]; sg_mask := [true]; sg_sampled := [unit_sample 1 (kb_of 1 2 [(0, c)]) (elem 0 c)] |}).
Proof.
  intros c Hc. rewrite block_ok, delta_kept by (constructor; [split; [apply Nat.lt_0_1|exact Hc]|constructor]). cbn [map]. unfold the_single. rewrite delta_kept by (constructor; [split; [apply Nat.lt_0_1|exact Hc]|constructor]).
  cbn [map fst snd kb_elements kb_of kb_out kb_in]. change {| el_attr := the_attr c 0; el_dim := 1; el_sample := delta 0 c |} with (elem 0 c). rewrite delta_accepted by lia. reflexivity.
Qed.
Lemma same_name_holds : exists b f0, mk_blocks 1 r_name r_size rep_eqb (fun l => l) (fun l => l) [sum0; sum1] [t] gen2 None = Ret b /\ sum0 <> sum1 /\
  bb_dim b = 2 /\ get_element_info r_name r_irreps b 0 = Ret f0 /\ in_field_position f0 = 0 /\ block_id f0 = 0 /\
  (forall p, element_at r_size (elements_of 1 gen2 None) [sum0; sum1] [t] f0 0 0 p = 1%R) /\
  forall w0 w1, exists F, forward 1 r_name r_size b [w0; w1] = Ret F /\ F 0 0 0 = 0%R /\ F 0 1 0 = w0.
Proof.
  set (s := {| sg_out := 1; sg_in := 2; sg_basis := [the_attr 1 0]; sg_mask := [true]; sg_sampled := [unit_sample 1 (kb_of 1 2 [(0, 1)]) (elem 0 1)] |}).
  assert (expand_pairs escaped (fun b => block_basisexpansion 1 b None) r_name gen2 (as_set rep_eqb (fun l => l) [sum0; sum1]) (as_set rep_eqb (fun l => l) [t]) = Ret ([(("sum", "trivial"), s)], [(("sum", "trivial"), s)])) as Ex.
  { change (as_set rep_eqb (fun l => l) [sum0; sum1]) with [sum0; sum1]. change (as_set rep_eqb (fun l => l) [t]) with [t].
    unfold expand_pairs, gen2. cbn [flat_map map app fold_left bind fst snd r_tag sum0 sum1]. rewrite !two_block by lia. reflexivity. }
  exists {| bb_in := [sum0; sum1]; bb_out := [t]; bb_modules := [(("sum", "trivial"), s)]; bb_pairs := [("sum", "trivial")]; bb_npairs := 2;
            bb_contiguous := [(("sum", "trivial"), true)]; bb_indices := [(("sum", "trivial"), (Run 0 4, Run 0 1))]; bb_ranges := [(("sum", "trivial"), (0, 2))]; bb_dim := 2 |}.
  eexists. split; [unfold mk_blocks, build_blocks; rewrite Ex; reflexivity|]. split; [discriminate|]. split; [reflexivity|]. split; [reflexivity|]. split; [reflexivity|]. split; [reflexivity|]. split.
  - intros p. unfold element_at, elements_of, gen2. cbn [r_tag sum0]. lazy -[kept unit_sample elem kb_of delta]. rewrite delta_kept by (repeat constructor).
    change (unit_sample 1 (kb_of 1 2 [(0, 0)]) (elem 0 0) 0 0 p = 1%R). rewrite delta_unit by lia. reflexivity.
  - intros w0 w1. eexists. split; [lazy -[Rplus Rmult Rdiv unit_sample elem kb_of]; reflexivity|]. split; lazy -[Rplus Rmult Rdiv unit_sample elem kb_of]; rewrite delta_unit by lia; unfold delta; cbn; ring.
Qed.

(** *** one pair of representations without any equivariant map *)
Definition no_gen (i o : rep) : res (option (kbasis unit nat)) := Ret None.
Lemma empty_holds : exists b, mk_blocks 1 r_name r_size rep_eqb (fun l => l) (fun l => l) [t] [r2] no_gen None = Ret b /\ bb_dim b = 0 /\ forward 1 r_name r_size b [] = Raise.
Proof. eexists. split; [reflexivity|]. split; reflexivity. Qed.
