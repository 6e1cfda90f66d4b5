(** The filters of Linear are all equivariant matrices, each for one weight vector. *)
From Coq Require Import String.
From Coq Require Import Reals ZArith Bool List Arith Lia Lra Permutation.
From Verif Require Import LibRes LibMat LibMatS FieldModel SpecField SpecRep SpecIrrep RepModel SpecRepr BlocksModel SpecBlocks BlocksCor LayerModel SpecLayer
  GridModel ImageModel SpecRdConv RdConvModel RdConvProofs RdConvThms SeqModel ExportModel LinearModel StateThms SpecComplete SpecLinear CompleteThms.
Import ListNotations.
Open Scope R_scope.

(** ** Fields do not overlap *)
Section Fields.
Context {A : Type}.
Variable size : A -> nat.
Lemma start_before : forall (ft : list A) i j r, nth_error ft i = Some r -> (i < j)%nat -> (field_start size ft i + size r <= field_start size ft j)%nat.
Proof.
  unfold field_start, list_sum. induction ft as [|a ft IH]; intros [|i] [|j] r H L; try discriminate; try lia; cbn [nth_error firstn map fold_right] in *.
  - injection H as ->. lia.
  - specialize (IH i j r H ltac:(lia)). lia.
Qed.
Lemma same_field : forall (ft : list A) i j r r' x, nth_error ft i = Some r -> nth_error ft j = Some r' ->
  (field_start size ft i <= x < field_start size ft i + size r)%nat -> (field_start size ft j <= x < field_start size ft j + size r')%nat -> i = j.
Proof.
  intros ft i j r r' x Ei Ej Hi Hj. destruct (Nat.lt_trichotomy i j) as [L|[L|L]]; [|exact L|].
  - pose proof (start_before ft i j r Ei L). lia.
  - pose proof (start_before ft j i r' Ej L). lia.
Qed.
Lemma in_field : forall (ft : list A) x, (x < type_size size ft)%nat ->
  exists i r a, nth_error ft i = Some r /\ (a < size r)%nat /\ x = (field_start size ft i + a)%nat.
Proof.
  unfold field_start, type_size, list_sum. induction ft as [|r ft IH]; intros x L; cbn [map fold_right] in L; [lia|].
  destruct (lt_dec x (size r)) as [H|H].
  - exists 0%nat, r, x. auto.
  - destruct (IH (x - size r)%nat ltac:(lia)) as (i & r' & a & E & La & Q). exists (S i), r', a. split; [exact E|]. split; [exact La|].
    cbn [firstn map fold_right]. lia.
Qed.
End Fields.

(** ** The weight of a slot *)
Definition slot_eqb (a b : nat * nat * nat) : bool :=
  Nat.eqb (fst (fst a)) (fst (fst b)) && Nat.eqb (snd (fst a)) (snd (fst b)) && Nat.eqb (snd a) (snd b).
Lemma slot_eqb_ok : forall a b, slot_eqb a b = true <-> a = b.
Proof.
  intros [[a b] c] [[a' b'] c']. unfold slot_eqb; cbn [fst snd]. rewrite !andb_true_iff, !Nat.eqb_eq. split; [intros [[-> ->] ->]; reflexivity|intros E; injection E as -> -> ->; auto].
Qed.

Section Slots.
Variable l : list (nat * nat * nat).
Variable d0 : nat * nat * nat.
Hypothesis ND : NoDup l.
Lemma slots_sum : forall o i n (f : nat * nat * nat -> R), (forall j, (j < n)%nat -> In (o, i, j) l) ->
  (forall s, In s l -> (forall j, (j < n)%nat -> s <> (o, i, j)) -> f s = 0) ->
  sumn (length l) (fun k => f (nth k l d0)) = sumn n (fun j => f (o, i, j)).
Proof.
  intros o i n f Hin Hz.
  transitivity (sumn (length l) (fun k => sumn n (fun j => if slot_eqb (nth k l d0) (o, i, j) then f (o, i, j) else 0))).
  - apply sumn_ext; intros k Lk. destruct (nth k l d0) as [[o' i'] j'] eqn:E.
    assert (In (o', i', j') l) as I by (rewrite <- E; apply nth_In; exact Lk).
    destruct (slot_eqb (o', i', 0%nat) (o, i, 0%nat)) eqn:Q.
    + apply slot_eqb_ok in Q. injection Q as -> ->. destruct (lt_dec j' n) as [L|L].
      * rewrite (sumn_single n j'); [rewrite (proj2 (slot_eqb_ok _ _) eq_refl); reflexivity|exact L|].
        intros j _ Nj. destruct (slot_eqb (o, i, j') (o, i, j)) eqn:X; [|reflexivity]. apply slot_eqb_ok in X. injection X as ->. contradiction.
      * rewrite (Hz _ I) by (intros j Lj X; injection X as ->; lia). symmetry. apply sumn_0. intros j Lj.
        destruct (slot_eqb (o, i, j') (o, i, j)) eqn:X; [|reflexivity]. apply slot_eqb_ok in X. injection X as ->. lia.
    + assert (forall j, (o', i', j') <> (o, i, j)) as Ne.
      { intros j X. injection X as -> -> ->. rewrite (proj2 (slot_eqb_ok _ _) eq_refl) in Q. discriminate. }
      rewrite (Hz _ I) by (intros j _; apply Ne). symmetry. apply sumn_0. intros j Lj.
      destruct (slot_eqb (o', i', j') (o, i, j)) eqn:X; [|reflexivity]. apply slot_eqb_ok in X. destruct (Ne j X).
  - rewrite sumn_swap. apply sumn_ext; intros j Lj. destruct (In_nth _ _ d0 (Hin j Lj)) as (k & Lk & Ek).
    rewrite (sumn_single _ k); [rewrite Ek, (proj2 (slot_eqb_ok _ _) eq_refl); reflexivity|exact Lk|].
    intros k' Lk' Nk. destruct (slot_eqb (nth k' l d0) (o, i, j)) eqn:X; [|reflexivity]. apply slot_eqb_ok in X.
    destruct Nk. apply (proj1 (NoDup_nth l d0) ND); [exact Lk'|exact Lk|congruence].
Qed.
(** the entry of [w] at the place of [s] *)
Definition slot_weight (w : list R) (s : nat * nat * nat) : R := sumn (length l) (fun k => if slot_eqb (nth k l d0) s then nth k w 0 else 0).
Lemma slot_weight_nth : forall w k, (k < length l)%nat -> slot_weight w (nth k l d0) = nth k w 0.
Proof.
  intros w k Lk. unfold slot_weight. rewrite (sumn_single _ k); [rewrite (proj2 (slot_eqb_ok _ _) eq_refl); reflexivity|exact Lk|].
  intros k' Lk' Nk. destruct (slot_eqb (nth k' l d0) (nth k l d0)) eqn:X; [|reflexivity]. apply slot_eqb_ok in X.
  destruct Nk. apply (proj1 (NoDup_nth l d0) ND); assumption.
Qed.
End Slots.

Section Layer.
Context {A X T : Type}.
Variable rep : A -> repr T.
Variable name : A -> string.
Variable aeqb : A -> A -> bool.
Variable order : list A -> list A.
Variable sort : list (string * string) -> list (string * string).
Variable generator : A -> A -> res (option (BlocksModel.kbasis X nat)).
Hypothesis aeqb_ok : forall a b, aeqb a b = true <-> a = b.
Hypothesis order_ok : forall l, Permutation (order l) l.
Hypothesis sort_ok : forall l, Permutation (sort l) l.
Notation size := (asize rep).
Variables (irr : list Z -> res (girrep T)) (mem : T -> Prop) (op : T -> T -> res T) (e : T) (tid : list Z) (ins outs : list A).
Hypothesis Pr : Forall (fun a => proper irr mem op e (rep a) /\ (0 < r_size (rep a))%nat) (ins ++ outs).
Hypothesis Nin : told_apart name ins.
Hypothesis Nout : told_apart name outs.
Hypothesis Gen : forall i o, In i ins -> In o outs -> exists kb, generator i o = Ret kb /\ forall q, kb = Some q -> kb_out q = r_size (rep o) /\ kb_in q = r_size (rep i).
Notation els := (elements_of 1 generator None).
Definition nth_sample (i o : A) (t : nat) : mat := fun a b => match nth_error (els i o) t with Some (_, s) => s a b 0%nat | None => 0 end.
Hypothesis Full : forall i o, In i ins -> In o outs ->
  basis_of (intertwiner mem (size o) (r_fun (rep o)) (size i) (r_fun (rep i))) (size o) (size i) (length (els i o)) (nth_sample i o).
Variable d0 : info X.

Local Notation equivariant_matrix := (equivariant_matrix rep mem ins outs).

Notation ro_at := (nth_error outs).
Notation ri_at := (nth_error ins).
Definition block (W : mat) (o i : nat) : mat := sub W (field_start size outs o) (field_start size ins i).

Lemma block_map : forall W o i ro ri, equivariant_matrix W -> ro_at o = Some ro -> ri_at i = Some ri ->
  intertwiner mem (size ro) (r_fun (rep ro)) (size ri) (r_fun (rep ri)) (block W o i).
Proof.
  intros W o i ro ri HW Eo Ei g P Q Hg EP EQ a b La Lb.
  assert (forall ft, (forall x, In x ft -> In x (ins ++ outs)) -> Forall (fun x => exists C, r_fun (rep x) g = Ret (size x, C)) ft) as V
    by (intros ft Hf; apply (values rep irr mem op e ins outs Pr g Hg ft Hf)).
  pose proof (HW g _ _ Hg (fiber_matrix_ok rep outs g (V outs (fun x H => in_or_app _ _ _ (or_intror H))))
    (fiber_matrix_ok rep ins g (V ins (fun x H => in_or_app _ _ _ (or_introl H)))) (field_start size outs o + a)%nat (field_start size ins i + b)%nat) as H.
  pose proof (start_bound size outs o ro Eo) as Bo. pose proof (start_bound size ins i ri Ei) as Bi.
  specialize (H ltac:(lia) ltac:(lia)). unfold mmul in H |- *. unfold block, sub.
  set (so := field_start size outs o) in *. set (si := field_start size ins i) in *.
  replace (type_size size outs) with (so + (size ro + (type_size size outs - so - size ro)))%nat in H by lia.
  replace (type_size size ins) with (si + (size ri + (type_size size ins - si - size ri)))%nat in H by lia.
  rewrite !sumn_app in H.
  assert (forall k, dg size (fun x => value_at g (rep x)) outs (so + a)%nat k = if (Nat.leb so k && Nat.ltb k (so + size ro))%bool then P a (k - so)%nat else 0) as R1.
  { intros k. unfold so. rewrite (dg_row size _ outs o ro a k Eo La). unfold value_at. rewrite EP. reflexivity. }
  assert (forall k, dg size (fun x => value_at g (rep x)) ins k (si + b)%nat = if (Nat.leb si k && Nat.ltb k (si + size ri))%bool then Q (k - si)%nat b else 0) as R2.
  { intros k. unfold si. rewrite (dg_col size _ ins i ri k b Ei Lb). unfold value_at. rewrite EQ. reflexivity. }
  rewrite (sumn_0 so) in H. 2:{ intros k Lk. rewrite R1. destruct (Nat.leb_spec so k); [lia|]. cbn [andb]. ring. }
  rewrite (sumn_0 (type_size size outs - so - size ro)) in H.
  2:{ intros k Lk. rewrite R1. destruct (Nat.ltb_spec (so + (size ro + k)) (so + size ro)); [lia|]. rewrite andb_false_r. ring. }
  rewrite (sumn_0 si) in H. 2:{ intros k Lk. rewrite R2. destruct (Nat.leb_spec si k); [lia|]. cbn [andb]. ring. }
  rewrite (sumn_0 (type_size size ins - si - size ri)) in H.
  2:{ intros k Lk. rewrite R2. destruct (Nat.ltb_spec (si + (size ri + k)) (si + size ri)); [lia|]. rewrite andb_false_r. ring. }
  rewrite !Rplus_0_l, !Rplus_0_r in H.
  transitivity (sumn (size ro) (fun k => dg size (fun x => value_at g (rep x)) outs (so + a)%nat (so + k)%nat * W (so + k)%nat (si + b)%nat)).
  - apply sumn_ext; intros k Lk. rewrite R1. destruct (Nat.leb_spec so (so + k)); [|lia]. destruct (Nat.ltb_spec (so + k) (so + size ro)); [|lia].
    cbn [andb]. do 2 f_equal. lia.
  - rewrite H. apply sumn_ext; intros k Lk. rewrite R2. destruct (Nat.leb_spec si (si + k)); [|lia]. destruct (Nat.ltb_spec (si + k) (si + size ri)); [|lia].
    cbn [andb]. do 2 f_equal. lia.
Qed.

(** what the weights of the blocks say about one entry *)
Lemma block_sum : forall infos (v : nat * nat * nat -> R) o i ro ri a b,
  NoDup (map slot infos) ->
  (forall o i j ro ri, ro_at o = Some ro -> ri_at i = Some ri -> (j < length (els ri ro))%nat -> In (o, i, j) (map slot infos)) ->
  (forall k f, nth_error infos k = Some f -> describes name (fun _ => 0%nat) els ins outs k f) ->
  ro_at o = Some ro -> ri_at i = Some ri -> (a < size ro)%nat -> (b < size ri)%nat ->
  sumn (length infos) (fun k => v (slot (nth k infos d0)) * element_at size els ins outs (nth k infos d0) (field_start size outs o + a)%nat (field_start size ins i + b)%nat 0%nat) =
  combination (length (els ri ro)) (fun j => v (o, i, j)) (nth_sample ri ro) a b.
Proof.
  intros infos v o i ro ri a b ND Hin Hd Eo Ei La Lb.
  set (f := fun s : nat * nat * nat => let '(o', i', j') := s in
    if Nat.eqb o' o && Nat.eqb i' i then v s * nth_sample ri ro j' a b else 0).
  transitivity (sumn (length (map slot infos)) (fun k => f (nth k (map slot infos) (slot d0)))).
  - rewrite map_length. apply sumn_ext; intros k Lk. rewrite map_nth. set (q := nth k infos d0).
    destruct (nth_error infos k) as [q'|] eqn:Eq; [|apply nth_error_None in Eq; lia].
    destruct (Hd k q' Eq) as (ri' & ro' & at' & s & Ei' & Eo' & Es & _).
    assert (q = q') as Qq by (unfold q; apply nth_error_nth; exact Eq). rewrite <- Qq in *. clear Qq q' Eq. clearbody q.
    unfold element_at. rewrite Eo', Ei'. unfold f, slot. cbn zeta.
    destruct (Nat.eqb_spec (out_field_position q) o) as [Xo|Xo].
    + destruct (Nat.eqb_spec (in_field_position q) i) as [Xi|Xi]; cbn [andb].
      * rewrite Xo in *. rewrite Xi in *. rewrite Eo in Eo'. rewrite Ei in Ei'. injection Eo' as <-. injection Ei' as <-. rewrite Es.
        destruct (Nat.leb_spec (field_start size outs o) (field_start size outs o + a)); [|lia].
        destruct (Nat.ltb_spec (field_start size outs o + a) (field_start size outs o + size ro)); [|lia].
        destruct (Nat.leb_spec (field_start size ins i) (field_start size ins i + b)); [|lia].
        destruct (Nat.ltb_spec (field_start size ins i + b) (field_start size ins i + size ri)); [|lia].
        cbn [andb]. unfold nth_sample. rewrite Es. do 3 f_equal; lia.
      * destruct (Nat.leb_spec (field_start size ins (in_field_position q)) (field_start size ins i + b)) as [L1|L1]; [|cbn [andb]; rewrite andb_false_r; ring].
        destruct (Nat.ltb_spec (field_start size ins i + b) (field_start size ins (in_field_position q) + size ri')) as [L2|L2]; [|cbn [andb]; rewrite andb_false_r; ring].
        destruct Xi. apply (same_field size ins _ _ ri' ri (field_start size ins i + b)%nat Ei' Ei); lia.
    + cbn [andb].
      destruct (Nat.leb_spec (field_start size outs (out_field_position q)) (field_start size outs o + a)) as [L1|L1]; [|cbn [andb]; ring].
      destruct (Nat.ltb_spec (field_start size outs o + a) (field_start size outs (out_field_position q) + size ro')) as [L2|L2]; [|cbn [andb]; ring].
      destruct Xo. apply (same_field size outs _ _ ro' ro (field_start size outs o + a)%nat Eo' Eo); lia.
  - rewrite (slots_sum (map slot infos) (slot d0) ND o i (length (els ri ro)) f).
    + unfold combination. apply sumn_ext; intros j Lj. unfold f. rewrite !Nat.eqb_refl. reflexivity.
    + intros j Lj. exact (Hin o i j ro ri Eo Ei Lj).
    + intros [[o' i'] j'] I Ne. unfold f. destruct (Nat.eqb_spec o' o) as [->|]; [|reflexivity]. destruct (Nat.eqb_spec i' i) as [->|]; [|reflexivity]. cbn [andb].
      unfold nth_sample. destruct (nth_error (els ri ro) j') as [[? ?]|] eqn:Q; [|ring].
      destruct (Ne j'); [|reflexivity]. apply nth_error_Some. congruence.
Qed.

Lemma finite_choice : forall {Y} N (P : nat -> Y -> Prop) (y0 : Y), (forall n, (n < N)%nat -> exists y, P n y) -> exists f, forall n, (n < N)%nat -> P n (f n).
Proof.
  intros Y N P y0. induction N as [|N IH]; intros H; [exists (fun _ => y0); intros; lia|].
  destruct IH as (f & Hf); [intros n Ln; apply H; lia|]. destruct (H N (Nat.lt_succ_diag_r N)) as (y & Hy).
  exists (fun n => if Nat.eqb n N then y else f n). intros n Ln. destruct (Nat.eqb_spec n N) as [->|Ne]; [exact Hy|apply Hf; lia].
Qed.

Theorem linear_complete : forall bias c, mk_linear rep name aeqb order sort irr tid generator ins outs bias = Ret c ->
  (forall W, equivariant_matrix W -> exists w, length w = bb_dim (ll_expansion c) /\
     (forall v f, linear_expand rep name c (w, v) = Ret f -> forall r q, (r < type_size size outs)%nat -> (q < type_size size ins)%nat -> entry (fst f) [r; q] = W r q) /\
     (bb_dim (ll_expansion c) = 0%nat -> meq (type_size size outs) (type_size size ins) W mzero)) /\
  (forall w w' f f', length (fst w) = bb_dim (ll_expansion c) -> length (fst w') = bb_dim (ll_expansion c) ->
     linear_expand rep name c w = Ret f -> linear_expand rep name c w' = Ret f' ->
     (forall r q, (r < type_size size outs)%nat -> (q < type_size size ins)%nat -> entry (fst f) [r; q] = entry (fst f') [r; q]) -> fst w = fst w').
Proof.
  intros bias c Ec.
  assert (Pin : Forall (fun a => (0 < size a)%nat) ins) by (apply Forall_forall; intros a Ha; rewrite Forall_forall in Pr; apply (Pr a), in_or_app; left; exact Ha).
  assert (Pout : Forall (fun a => (0 < size a)%nat) outs) by (apply Forall_forall; intros a Ha; rewrite Forall_forall in Pr; apply (Pr a), in_or_app; right; exact Ha).
  destruct (blocks_ok 1 name size (fun _ => 0%nat) aeqb order sort generator None ins outs aeqb_ok order_ok sort_ok Nin Nout Pin Pout Gen) as (b & infos & Eb & _ & Li & Hd & _ & ND & Hin & Hf & Hno).
  unfold mk_linear in Ec. apply bind_Ret in Ec as (mb & Em & Ec). apply bind_Ret in Ec as (bl & Ebl & Ec). apply Ret_inj in Ec. subst c. cbn [ll_expansion] in *.
  rewrite Eb in Ebl. apply Ret_inj in Ebl. subst bl.
  assert (Hd' : forall k f, nth_error infos k = Some f -> describes name (fun _ => 0%nat) els ins outs k f) by (intros k f E; apply (Hd k f E)).
  assert (Ex : forall w f, length (fst w) = bb_dim b -> linear_expand rep name {| ll_expansion := b; ll_bias := mb; ll_in := ins; ll_out := outs |} w = Ret f ->
    forall r q, (r < type_size size outs)%nat -> (q < type_size size ins)%nat ->
    entry (fst f) [r; q] = sumn (length infos) (fun k => nth k (fst w) 0 * element_at size els ins outs (nth k infos d0) r q 0%nat)).
  { intros w f Lw Ew r q Lr Lq. unfold linear_expand in Ew. cbn [ll_expansion ll_bias ll_in ll_out] in Ew. apply bind_Ret in Ew as (F & EF & Ew). apply Ret_inj in Ew. subst f.
    assert (Nz : bb_npairs b = 1%nat -> bb_dim b <> 0%nat) by (intros E1 E0; rewrite (Hno (fst w) E1 E0) in EF; discriminate).
    destruct (Hf (fst w) d0 Lw Nz) as (F' & EF' & VF). rewrite EF in EF'. apply Ret_inj in EF'. subst F'. rewrite Li.
    cbn [fst reshape_filter entry nth skipn]. exact (VF r q (ravel 1 []) Lr Lq). }
  split.
  - intros W HW.
    assert (exists v : nat -> nat -> nat -> R, forall o ro i ri, ro_at o = Some ro -> ri_at i = Some ri ->
      meq (size ro) (size ri) (block W o i) (combination (length (els ri ro)) (v o i) (nth_sample ri ro))) as (v & Hv).
    { destruct (finite_choice (length outs) (fun o (u : nat -> nat -> R) => forall ro i ri, ro_at o = Some ro -> ri_at i = Some ri ->
        meq (size ro) (size ri) (block W o i) (combination (length (els ri ro)) (u i) (nth_sample ri ro))) (fun _ _ => 0)) as (v & Hv).
      - intros o Lo. destruct (nth_error outs o) as [ro|] eqn:Eo; [|apply nth_error_None in Eo; lia].
        destruct (finite_choice (length ins) (fun i (u : nat -> R) => forall ri, ri_at i = Some ri ->
          meq (size ro) (size ri) (block W o i) (combination (length (els ri ro)) u (nth_sample ri ro))) (fun _ => 0)) as (u & Hu).
        + intros i Lj. destruct (nth_error ins i) as [ri|] eqn:Ei; [|apply nth_error_None in Ei; lia].
          destruct (Full ri ro (nth_error_In _ _ Ei) (nth_error_In _ _ Eo)) as (_ & Sp & _).
          destruct (Sp _ (block_map W o i ro ri HW Eo Ei)) as (u & Hu). exists u. intros ri' E. injection E as <-. exact Hu.
        + exists u. intros ro' i ri E Ei. injection E as <-. apply Hu; [apply nth_error_Some; congruence|exact Ei].
      - exists v. intros o ro i ri Eo Ei. apply Hv; [apply nth_error_Some; congruence|exact Eo|exact Ei]. }
    set (vv := fun s : nat * nat * nat => v (fst (fst s)) (snd (fst s)) (snd s)).
    assert (Val : forall r q, (r < type_size size outs)%nat -> (q < type_size size ins)%nat ->
      sumn (length infos) (fun k => vv (slot (nth k infos d0)) * element_at size els ins outs (nth k infos d0) r q 0%nat) = W r q).
    { intros r q Lr Lq. destruct (in_field size outs r Lr) as (o & ro & a & Eo & La & ->). destruct (in_field size ins q Lq) as (i & ri & a' & Ei & Lb & ->).
      rewrite (block_sum infos vv o i ro ri a a' ND Hin Hd' Eo Ei La Lb). symmetry. exact (Hv o ro i ri Eo Ei a a' La Lb). }
    exists (map (fun f => vv (slot f)) infos). split; [rewrite map_length; exact Li|]. split.
    + intros vb f Ew r q Lr Lq. rewrite (Ex (map (fun f => vv (slot f)) infos, vb) f ltac:(cbn [fst]; rewrite map_length; exact Li) Ew r q Lr Lq).
      rewrite <- (Val r q Lr Lq). apply sumn_ext; intros k Lk. cbn [fst]. f_equal.
      rewrite (nth_indep _ 0 ((fun f => vv (slot f)) d0)) by (rewrite map_length; exact Lk). exact (map_nth (fun f => vv (slot f)) infos d0 k).
    + intros Z r q Lr Lq. rewrite <- (Val r q Lr Lq), Li, Z. reflexivity.
  - intros w w' f f' L L' Ew Ew' Eq.
    set (sl := map slot infos) in *.
    set (v := fun s => slot_weight sl (slot d0) (fst w) s - slot_weight sl (slot d0) (fst w') s).
    assert (Lsl : length sl = length infos) by apply map_length.
    assert (Vk : forall k, (k < length infos)%nat -> v (slot (nth k infos d0)) = nth k (fst w) 0 - nth k (fst w') 0).
    { intros k Lk. unfold v. rewrite <- (map_nth slot infos d0 k). fold sl. rewrite !slot_weight_nth by (try exact ND; lia). reflexivity. }
    assert (Zero : forall o i ro ri, ro_at o = Some ro -> ri_at i = Some ri -> forall j, (j < length (els ri ro))%nat -> v (o, i, j) = 0).
    { intros o i ro ri Eo Ei. destruct (Full ri ro (nth_error_In _ _ Ei) (nth_error_In _ _ Eo)) as (_ & _ & Fr).
      apply (Fr (fun j => v (o, i, j))). intros a a' La Lb. rewrite <- (block_sum infos v o i ro ri a a' ND Hin Hd' Eo Ei La Lb).
      pose proof (start_bound size outs o ro Eo) as Bo. pose proof (start_bound size ins i ri Ei) as Bi.
      set (r := (field_start size outs o + a)%nat) in *. set (q := (field_start size ins i + a')%nat) in *.
      specialize (Eq r q ltac:(unfold r; lia) ltac:(unfold q; lia)).
      rewrite (Ex w f L Ew), (Ex w' f' L' Ew') in Eq by (unfold r, q; lia).
      rewrite (sumn_ext _ _ (fun k => nth k (fst w) 0 * element_at size els ins outs (nth k infos d0) r q 0%nat + (-1) * (nth k (fst w') 0 * element_at size els ins outs (nth k infos d0) r q 0%nat)))
        by (intros k Lk; rewrite (Vk k Lk); ring).
      rewrite sumn_plus, sumn_scal_l, Eq. unfold mzero. ring. }
    apply (nth_ext _ _ 0 0); [congruence|]. intros k Lk. rewrite L, <- Li in Lk.
    destruct (nth_error infos k) as [q|] eqn:Eq'; [|apply nth_error_None in Eq'; lia].
    destruct (Hd' k q Eq') as (ri & ro & at' & s & Ei & Eo & Es & _).
    pose proof (Vk k Lk) as V. rewrite (nth_error_nth _ _ d0 Eq') in V. unfold slot in V. rewrite (Zero _ _ ro ri Eo Ei) in V; [lra|].
    apply nth_error_Some. congruence.
Qed.
End Layer.
