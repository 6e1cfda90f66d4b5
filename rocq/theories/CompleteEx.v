(** Linear layers that reach a given matrix, and one that does not. *)
From Coq Require Import String.
From Coq Require Import Reals ZArith Bool List Arith Lia Lra Permutation.
From Verif Require Import LibRes LibMat LibMatS FieldModel FinGroupModel ParamModel ParamProofs PlanarModel SpecPlanar IrrepModel SpecIrrep RepModel SpecRepr RepProofs RepThms KernelModel SpecKernel PolarModel KernelPlanar
  BlocksModel SpecBlocks BlocksCor LayerModel BiasCor GridModel ImageModel SpecRdConv RdConvModel RdConvThms RdConvEx SeqModel ExportModel LinearModel StateThms StateCor StateEx SpecComplete SpecLinear CompleteThms CompleteCor CompleteLinear CompletePlanar.
Import ListNotations.
Open Scope R_scope.

Notation c4_gen rep := (point_generator rep (p_irr (Fin (Cyc 4))) (p_tensor (Fin (Cyc 4))) (p_cg (Fin (Cyc 4))) (p_trivial_id (Fin (Cyc 4)))).
Notation c4_linear rep ins outs bias :=
  (mk_linear rep label Bool.eqb (fun l => l) (fun l => l) (p_irr (Fin (Cyc 4))) (p_trivial_id (Fin (Cyc 4))) (c4_gen rep) ins outs bias).

Lemma mid_orthogonal : forall n, orthogonal n mid.
Proof. intros n. assert (meq n n (mtr mid) mid) as E by (intros a b _ _; unfold mtr, mid; rewrite Nat.eqb_sym; reflexivity). split; rewrite E, mid_l; reflexivity. Qed.
(** the fields of C_4 have the identity as change of basis *)
Lemma fields_orth : forall l, Forall (fun a => planar_repr (Fin (Cyc 4)) (field a) /\ sharp (r_size (field a)) (r_inv (field a)) /\ orthogonal (r_size (field a)) (r_cob (field a))) l /\
  Forall (fun a => planar_repr (Fin (Cyc 4)) (field a) /\ sharp (r_size (field a)) (r_cob (field a)) /\ orthogonal (r_size (field a)) (r_cob (field a))) l.
Proof.
  intros l. split; apply Forall_forall; intros a _; destruct (fields_ok a) as (H1 & H2 & H3); (split; [exact H1|split; [assumption|]]); destruct a; apply mid_orthogonal.
Qed.

(** the quarter turn of a vector *)
Definition turn2 : mat := fun a b => if Nat.eqb a b then 0 else if Nat.eqb a 0 then -1 else 1.
Lemma turn2_equivariant : equivariant_matrix field (pmember (Fin (Cyc 4))) [true] [true] turn2.
Proof.
  intros g P Q Hg EP EQ. rewrite EP in EQ. apply Ret_inj in EQ. subst Q. unfold fiber_matrix in EP. cbn [mapM] in EP.
  apply bind_Ret in EP as (bs & Eb & EP). apply Ret_inj in EP.
  destruct g as [z|t|f t]; try contradiction. destruct z as [z|f z]; try contradiction.
  cbn in Eb. apply Ret_inj in Eb. subst bs P. intros a b La Lb. change (type_size (asize field) [true]) with 2%nat in *.
  unfold mmul. cbn [sumn]. destruct a as [|[|a]]; [| |lia]; (destruct b as [|[|b]]; [| |lia]); unfold turn2; cbn; ring.
Qed.
Lemma c4_built : forall rep ins outs bias, Forall (fun a => planar_repr (Fin (Cyc 4)) (rep a) /\ sharp (r_size (rep a)) (r_inv (rep a))) ins ->
  Forall (fun a => planar_repr (Fin (Cyc 4)) (rep a) /\ sharp (r_size (rep a)) (r_cob (rep a))) outs -> exists c, c4_linear rep ins outs bias = Ret c /\
  forall w, length (fst w) = bb_dim (ll_expansion c) -> bb_dim (ll_expansion c) <> 0%nat -> exists f, linear_expand rep label c w = Ret f.
Proof.
  intros rep ins outs bias F1 F2. pose proof (eq_refl : pvalid (Fin (Cyc 4))) as HG. assert (HR : rotations (Fin (Cyc 4))) by exact I.
  pose proof (proper_fields0 rep (Fin (Cyc 4)) HG ins outs F1 F2) as Pr. pose proof (point_shapes rep (Fin (Cyc 4)) HG HR ins outs F1 F2) as Gen.
  destruct (linear_built rep label Bool.eqb (fun l => l) (fun l => l) _ eqb_true_iff (fun l => Permutation_refl l) (fun l => Permutation_refl l) (p_irr (Fin (Cyc 4))) _ _ _ (p_trivial_id (Fin (Cyc 4))) _ _ Pr (names_ok _) (names_ok _) Gen bias) as (c & Ec).
  exists c. split; [exact Ec|]. intros w L Nz.
  apply (proj2 (linear_expands rep label Bool.eqb (fun l => l) (fun l => l) _ eqb_true_iff (fun l => Permutation_refl l) (fun l => Permutation_refl l) (p_irr (Fin (Cyc 4))) _ _ _ (p_trivial_id (Fin (Cyc 4))) _ _ Pr (names_ok _) (names_ok _) Gen bias no_info c w Ec L)). auto.
Qed.
(** A layer from a vector to a vector that turns it. *)
Lemma turning_layer : exists c w f, c4_linear field [true] [true] true = Ret c /\ length w = bb_dim (ll_expansion c) /\ linear_expand field label c (w, []) = Ret f /\
  entry (fst f) [0; 1]%nat = -1 /\ entry (fst f) [1; 0]%nat = 1.
Proof.
  destruct (fields_orth [true]) as [F1 F2]. destruct fields_fit as [G1 G2]. inversion G1 as [|? ? _ G1']; subst. inversion G2 as [|? ? _ G2']; subst.
  destruct (c4_built field [true] [true] true G1' G2') as (c & Ec & Ex).
  destruct (rotations_linear_complete field label Bool.eqb (fun l => l) (fun l => l) eqb_true_iff (fun l => Permutation_refl l) (fun l => Permutation_refl l) (Fin (Cyc 4)) eq_refl I [true] [true] F1 F2 (names_ok _) (names_ok _) true c Ec)
    as (_ & All & _). destruct (All turn2 turn2_equivariant) as (w & Lw & V & Z).
  assert (Nz : bb_dim (ll_expansion c) <> 0%nat).
  { intros Q. specialize (Z Q 1%nat 0%nat). unfold turn2, mzero in Z. cbn in Z. specialize (Z ltac:(lia) ltac:(lia)). lra. }
  destruct (Ex (w, []) Lw Nz) as (f & Ef). exists c, w, f. split; [exact Ec|]. split; [exact Lw|]. split; [exact Ef|].
  rewrite !(V [] f Ef) by (cbn; lia). split; reflexivity.
Qed.

(** ** A change of basis that shrinks *)
(** the trivial representation after a change of basis by 10^-7 *)
Definition shrunk (b : bool) : repr pval :=
  if b then {| r_size := 1; r_irreps := [[0%Z]]; r_cob := fun _ _ => / 10 ^ 7; r_inv := fun _ _ => 10 ^ 7; r_fun := r_fun (field false) |} else field false.
Lemma shrunk_ok : forall b, planar_repr (Fin (Cyc 4)) (shrunk b) /\ sharp (r_size (shrunk b)) (r_inv (shrunk b)) /\ sharp (r_size (shrunk b)) (r_cob (shrunk b)).
Proof.
  intros [|]; [|exact (fields_ok false)]. destruct (fields_ok false) as ((P1 & P2 & P3 & (P4 & P5)) & _ & _). cbn [shrunk].
  assert (Sh : forall x, x < 1 / 2 \/ 2 < x -> allclose 1 1 (fun _ _ => x) mid = false).
  { intros x Hx. unfold allclose. cbn [forallb_n]. unfold np_isclose, mid. cbn [Nat.eqb]. cbn [andb].
    match goal with |- context [Rleb ?a ?b] => destruct (Rleb a b) eqn:E; [apply Rleb_true in E|reflexivity] end.
    exfalso. rewrite Rabs_R1 in E. destruct Hx; [rewrite Rabs_left in E by lra|rewrite Rabs_right in E by lra]; lra. }
  split; [|split; right; cbn [r_size r_inv r_cob]; apply Sh; lra].
  split; [discriminate|]. split; [exact P2|]. split; [exact P3|]. split.
  - cbn [r_size r_cob r_inv]. split; intros [|a] [|b] La Lb; try lia; unfold mmul, mid; cbn [sumn Nat.eqb]; field.
  - intros g Hg. destruct (P5 g Hg) as (bs & M & E1 & E2 & E3 & E4). exists bs, M. cbn [r_size r_cob r_inv r_fun r_irreps]. split; [exact E1|]. split; [exact E2|]. split; [exact E3|].
    intros a b La Lb. rewrite (E4 a b La Lb). assert (a = 0%nat) as -> by lia. assert (b = 0%nat) as -> by lia.
    change (r_size (field false)) with 1%nat. change (r_cob (field false)) with mid. change (r_inv (field false)) with mid.
    unfold mmul, mid. cbn [sumn Nat.eqb]. field.
Qed.
(** Nothing is left of the maps from the trivial representation to it, though all
    1 x 1 matrices are equivariant. *)
Lemma shrunk_lost : forall bias, exists c, c4_linear shrunk [false] [true] bias = Ret c /\ bb_dim (ll_expansion c) = 0%nat /\
  equivariant_matrix shrunk (pmember (Fin (Cyc 4))) [false] [true] (fun _ _ => 1).
Proof.
  intros bias. assert (F1 : Forall (fun a => planar_repr (Fin (Cyc 4)) (shrunk a) /\ sharp (r_size (shrunk a)) (r_inv (shrunk a))) [false]) by (constructor; [destruct (shrunk_ok false) as (? & ? & ?); auto|constructor]).
  assert (F2 : Forall (fun a => planar_repr (Fin (Cyc 4)) (shrunk a) /\ sharp (r_size (shrunk a)) (r_cob (shrunk a))) [true]) by (constructor; [destruct (shrunk_ok true) as (? & ? & ?); auto|constructor]).
  destruct (c4_built shrunk [false] [true] bias F1 F2) as (c & Ec & _). exists c. split; [exact Ec|]. split.
  - assert (El : elements_of 1 (c4_gen shrunk) None false true = []).
    { destruct (shrunk_ok false) as (P1 & S1 & _). destruct (shrunk_ok true) as (P2 & _ & S2).
      destruct (point_kb shrunk (Fin (Cyc 4)) eq_refl I false true P1 P2 S1 S2) as (r & Er & H). cbv zeta in H. unfold elements_of. rewrite Er. destruct r as [kb|]; [|reflexivity].
      destruct H as (Ko & Ki & S & E & _ & HS). unfold kept. change (r_size (shrunk true)) with 1%nat in *. change (r_size (shrunk false)) with 1%nat in *.
      assert (filter (accepted 1 None kb) (kb_elements kb) = []) as ->; [|reflexivity].
      assert (forall el, In el (kb_elements kb) -> accepted 1 None kb el = false) as No.
      { intros el Iel. apply In_nth_error in Iel. destruct Iel as (t & Et). destruct (HS t el Et) as (Es & Ed & U & ME).
        assert (Q : S t 0%nat 0%nat * S t 0%nat 0%nat = / 10 ^ 14).
        { specialize (ME 0%nat 0%nat Nat.lt_0_1 Nat.lt_0_1). unfold square_sum in U. cbn [sumn] in U. rewrite ME. change (r_cob (shrunk true)) with (fun _ _ : nat => / 10 ^ 7). change (r_inv (shrunk false)) with mid.
          unfold mmul, mid. cbn [sumn Nat.eqb].
          transitivity (/ 10 ^ 14 * (0 + (0 + E t 0%nat 0%nat * E t 0%nat 0%nat))); [field|rewrite U; ring]. }
        assert (En : energy 1 1 1 (el_sample el) = / 10 ^ 14) by (rewrite Es, sample_energy; unfold square_sum; cbn [sumn]; rewrite Q; ring).
        assert (Us : unit_scale 1 1 1 (el_dim el) (el_sample el) = 1).
        { unfold unit_scale. rewrite En. destruct (Rlt_dec (/ 10 ^ 14 / INR (el_dim el)) (1 / 10 ^ 12)) as [X|X]; [reflexivity|]. exfalso. apply X. destruct Ed as [-> | ->]; cbn [INR]; lra. }
        unfold accepted. cbn [andb].
        assert (energy 1 (kb_out kb) (kb_in kb) (unit_sample 1 kb el) = / 10 ^ 14) as ->.
        { rewrite <- En. unfold unit_sample. rewrite Ko, Ki, Us. unfold energy. cbn [sumn]. field. }
        destruct (Rlt_dec (1 / 100) (/ 10 ^ 14)) as [X|X]; [exfalso; lra|reflexivity]. }
      clear HS. induction (kb_elements kb) as [|el l IH]; [reflexivity|]. cbn [filter]. rewrite (No el (or_introl eq_refl)). apply IH.
      intros e' Ie. apply No. right. exact Ie. }
    destruct (blocks_ok 1 label (asize shrunk) (fun _ => 0%nat) Bool.eqb (fun l => l) (fun l => l) (c4_gen shrunk) None [false] [true] eqb_true_iff (fun l => Permutation_refl l) (fun l => Permutation_refl l) (names_ok _) (names_ok _))
      as (b & infos & Eb & _ & Li & Hd & _); [repeat constructor|repeat constructor|exact (point_shapes shrunk (Fin (Cyc 4)) eq_refl I [false] [true] F1 F2)|].
    unfold mk_linear in Ec. apply bind_Ret in Ec as (mb & _ & Ec). apply bind_Ret in Ec as (bl & Ebl & Ec). apply Ret_inj in Ec. subst c. cbn [ll_expansion].
    rewrite Eb in Ebl. apply Ret_inj in Ebl. subst bl. rewrite <- Li. destruct infos as [|q infos]; [reflexivity|]. exfalso.
    destruct (Hd 0%nat q eq_refl) as ((ri & ro & a & s & E1 & E2 & E3 & _) & _).
    assert (ri = false) as -> by (destruct (in_field_position q) as [|n]; cbn in E1; [congruence|destruct n; discriminate]).
    assert (ro = true) as -> by (destruct (out_field_position q) as [|n]; cbn in E2; [congruence|destruct n; discriminate]).
    rewrite El in E3. destruct (block_id q); discriminate.
  - intros g P Q Hg EP EQ. unfold fiber_matrix in EP, EQ. cbn [mapM] in EP, EQ. apply bind_Ret in EP as (bs & Eb & EP). apply bind_Ret in EQ as (cs & Eb' & EQ). apply Ret_inj in EP. apply Ret_inj in EQ.
    destruct g as [z|t|f t]; try contradiction. destruct z as [z|f z]; try contradiction. cbn in Eb, Eb'. apply Ret_inj in Eb. apply Ret_inj in Eb'. subst bs cs P Q.
    intros a b La Lb. change (type_size (asize shrunk) [true]) with 1%nat in *. change (type_size (asize shrunk) [false]) with 1%nat in *.
    assert (a = 0%nat) as -> by lia. assert (b = 0%nat) as -> by lia. unfold mmul. cbn [sumn]. cbn. ring.
Qed.
(** Two vectors of C_4: there are kernels on the point, as the quarter turn is one. *)
Lemma turn2_intertwines : intertwiner (pmember (Fin (Cyc 4))) 2 (r_fun (field true)) 2 (r_fun (field true)) turn2.
Proof.
  intros g A B Hg EA EB. rewrite EA in EB. apply Ret_inj in EB. injection EB as ->.
  destruct g as [z|t|f t]; try contradiction. destruct z as [z|f z]; try contradiction. cbn in EA. apply Ret_inj in EA. injection EA as <-.
  intros a b La Lb. unfold mmul. cbn [sumn]. destruct a as [|[|a]]; [| |lia]; (destruct b as [|[|b]]; [| |lia]); unfold turn2; cbn; ring.
Qed.
Lemma vectors_kernels : exists k, kernels_on_point unit (p_irr (Fin (Cyc 4))) (p_tensor (Fin (Cyc 4))) (p_cg (Fin (Cyc 4))) [0%Z] (field true) (field true) = Ret (Some k).
Proof.
  destruct (fields_ok true) as (P1 & S1 & S2).
  destruct (rotations_point_basis (Fin (Cyc 4)) eq_refl I unit (field true) (field true) P1 P1 S1 S2) as (o & Eo & H). cbv zeta in H. destruct o as [k|]; [exists k; exact Eo|].
  exfalso. specialize (H turn2 turn2_intertwines 1%nat 0%nat ltac:(cbn; lia) ltac:(cbn; lia)). cbv in H. lra.
Qed.
