(** Kernel bases with an adjoint: values, steerability, the axis, equality. *)
From Coq Require Import Reals List ZArith Arith Bool Lia Lra.
From Verif Require Import LibRes LibMat LibMatS LibTrig FinGroupModel ParamModel ParamProofs PlanarModel SpecPlanar PlanarProofs IrrepModel SpecRep SpecIrrep RepModel SpecRepr RepProofs
  KernelModel SpecKernel PolarModel SpecPolar PolarThms KernelPlanar KernelEx INormThms AdjModel SpecAdj AdjProofs.
Import ListNotations.
Open Scope R_scope.

Theorem adj_value : forall linv sid L radii sigma flt axis n A rin rout b, adjoint_kernels linv sid L radii sigma flt axis (Some (n, A)) rin rout = Ret (Some b) -> sharp 2 A ->
  n = 2%nat /\ exists b0, adjoint_kernels linv sid L radii sigma flt axis None rin rout = Ret (Some b0) /\
    (forall x idx, pb_sample b x idx = pb_sample b0 (move A x) idx) /\ forall idx, pb_get b idx = pb_get b0 idx.
Proof.
  intros linv sid L radii sigma flt axis n A rin rout b E Sh. unfold adjoint_kernels in *. destruct (kernels_on_plane _ _ _ _ _ _ _ _ _) as [|[[[sg s] k]|]]; cbn [bind] in *; try discriminate.
  unfold with_adjoint in *. destruct (Nat.eqb_spec n 2) as [->|]; [|discriminate]. cbn [assert_ bind] in *. split; [reflexivity|]. eexists. split; [reflexivity|]. destruct (allclose 2 2 A mid) eqn:Q.
  - cbn [bind] in E. apply Ret_inj in E. injection E as <-. split; [|reflexivity]. intros x idx. unfold pb_sample. cbn [pb_shells pb_axis pb_kernels pb_adj]. destruct Sh as [Sh|Sh]; [|congruence]. rewrite (proj1 (move_id A x Sh)). reflexivity.
  - destruct (check_adjoint 2 A) as [|u]; [discriminate|]. cbn [bind] in E. apply Ret_inj in E. injection E as <-. split; [|reflexivity]. intros x idx. unfold pb_sample. cbn [pb_shells pb_axis pb_kernels pb_adj]. rewrite transformed_move. reflexivity.
Qed.

Theorem adj_steerable : forall linv sid sg L radii sigma flt axis A rin rout,
  correct_inverse linv -> pdocumented O2 sid -> p_subgroup O2 sid = Ret sg -> rotations (ps_group sg) ->
  (forall j n Q ids, (j <= L)%nat -> p_restrict_irrep O2 (ar_id circular j) sid = Ret ((n, Q), ids) -> sharp n Q) ->
  (exists p, mk_profile radii sigma = Ret p) -> sharp 2 (rot2 axis) ->
  planar_repr (ps_group sg) rin -> planar_repr (ps_group sg) rout ->
  sharp (r_size rin) (r_inv rin) -> sharp (r_size rout) (r_cob rout) ->
  orthogonal 2 A -> sharp 2 A ->
  exists o act, adjoint_kernels linv sid L radii sigma flt axis (Some (2%nat, A)) rin rout = Ret o /\ circ_action linv axis = Ret act /\
    forall b, o = Some b -> pb_sub b = sg /\
      (forall idx, (idx < sk_dim (pb_kernels b))%nat ->
         steerable_kernel (pmember (ps_group sg)) (fun h => g <- ps_incl sg h ;; Ret (seen_through A (act_of act g)))
           (r_size rout) (r_size rin) (r_fun rout) (r_fun rin) (fun x => pb_sample b x idx)) /\
      (flt = None -> index_agrees (sk_dim (pb_kernels b)) (pb_get b) (pb_iter b)).
Proof.
  intros linv sid sg L radii sigma flt axis A rin rout Hinv HD Es HR Sh Ep Sa Pin Pout Sin Sout OA SA.
  destruct (kernels_on_plane_ok linv sid sg L radii sigma flt axis rin rout Hinv HD Es HR Sh Ep Sa Pin Pout Sin Sout) as (o & act & E & Ea & H).
  unfold adjoint_kernels. rewrite E. cbn [bind]. destruct o as [[[sg' s] k]|]; [|exists None, act; split; [reflexivity|split; [exact Ea|discriminate]]].
  destruct (H sg' s k eq_refl) as (-> & St & At). unfold with_adjoint. cbn [Nat.eqb assert_ bind].
  assert (forall (k0 : point -> res mat), (forall x, k0 x = k0 x) -> forall K, steerable_kernel (pmember (ps_group sg)) (fun h => g <- ps_incl sg h ;; Ret (act_of act g)) (r_size rout) (r_size rin) (r_fun rout) (r_fun rin) K ->
    (forall x, k0 x = K (move A x)) -> steerable_kernel (pmember (ps_group sg)) (fun h => g <- ps_incl sg h ;; Ret (seen_through A (act_of act g))) (r_size rout) (r_size rin) (r_fun rout) (r_fun rin) k0) as C.
  { intros k0 _ K SK EK g x Mg. destruct (SK g (move A x) Mg) as (f & K1 & K2 & P & B & Bi & Ef & E1 & E2 & E3 & E4 & E5 & E6).
    destruct (ps_incl sg g) as [|g'] eqn:Eg; [discriminate|]. cbn [bind] in Ef. apply Ret_inj in Ef. subst f.
    exists (seen_through A (act_of act g')), K1, K2, P, B, Bi. cbn [bind]. split; [reflexivity|]. split; [rewrite EK; exact E1|]. split; [rewrite EK; unfold seen_through; rewrite (move_back A _ (proj1 OA)); exact E2|]. repeat split; try assumption; apply E5. }
  destruct (allclose 2 2 A mid) eqn:Q.
  - destruct SA as [SA|SA]; [|congruence]. do 2 eexists. split; [reflexivity|]. split; [exact Ea|]. intros b Eb. injection Eb as <-. cbn [pb_sub pb_kernels pb_shells pb_axis pb_adj]. split; [reflexivity|]. split.
    + intros idx Hi. apply (C _ ltac:(reflexivity) _ (St idx Hi)). intros x. unfold pb_sample. cbn [pb_kernels pb_shells pb_axis pb_adj]. rewrite (proj1 (move_id A x SA)). reflexivity.
    + intros Hf. exact (At Hf).
  - rewrite (orth_checked A OA). cbn [bind]. do 2 eexists. split; [reflexivity|]. split; [exact Ea|]. intros b Eb. injection Eb as <-. cbn [pb_sub pb_kernels pb_shells pb_axis pb_adj]. split; [reflexivity|]. split.
    + intros idx Hi. apply (C _ ltac:(reflexivity) _ (St idx Hi)). intros x. unfold pb_sample. cbn [pb_kernels pb_shells pb_axis pb_adj]. rewrite transformed_move. reflexivity.
    + intros Hf. destruct (At Hf) as (l & _ & Ll & Hl). exists l. unfold pb_iter, pb_get. cbn [pb_adj pb_kernels]. split; [|split; [exact Ll|exact Hl]].
      clear -Ll Hl. set (d := sk_dim k) in *. assert (forall m a, (a + m = d)%nat -> mapM (sk_get k) (seq a m) = Ret (skipn a l)) as G.
      { induction m as [|m IH]; intros a Ha; [cbn; rewrite skipn_all2 by lia; reflexivity|]. cbn [seq mapM]. destruct (Hl a ltac:(lia)) as (v & Ev & En). rewrite Ev. cbn [bind]. rewrite (IH (S a)) by lia. cbn [bind]. f_equal.
        clear -En. revert a En. induction l as [|w l IH]; intros [|a] En; try discriminate; [injection En as ->; reflexivity|]. cbn [skipn]. exact (IH a En). }
      exact (G d 0%nat ltac:(lia)).
Qed.

(** an adjoint instead of an axis *)
Theorem adj_axis : forall linv sid L radii sigma flt a rin rout b, sharp 2 (rot2 (- a)) ->
  adjoint_kernels linv sid L radii sigma flt a None rin rout = Ret (Some b) ->
  exists b', adjoint_kernels linv sid L radii sigma flt 0 (Some (2%nat, rot2 (- a))) rin rout = Ret (Some b') /\
    sk_dim (pb_kernels b') = sk_dim (pb_kernels b) /\ forall x idx, pb_sample b' x idx = pb_sample b x idx.
Proof.
  intros linv sid L radii sigma flt a rin rout b Sh E. unfold adjoint_kernels in *. rewrite (kernels_axis _ _ _ _ _ _ 0 a). destruct (kernels_on_plane _ _ _ _ _ _ _ _ _) as [|[[[sg s] k]|]]; cbn [bind] in *; try discriminate.
  cbn [with_adjoint bind] in E. apply Ret_inj in E. injection E as <-. unfold with_adjoint. cbn [Nat.eqb assert_ bind].
  assert (orthogonal 2 (rot2 (- a))) as O.
  { pose proof (sin2_cos2 (- a)) as T. unfold Rsqr in T. split; intros [|[|i]] [|[|j]] Hi Hj; try lia; unfold mmul, mtr, rot2, mat2, mid; cbn; lra. }
  destruct (allclose 2 2 (rot2 (- a)) mid) eqn:Q.
  - destruct Sh as [Sh|Sh]; [|congruence]. cbn [bind]. eexists. split; [reflexivity|]. split; [reflexivity|]. intros x idx. unfold pb_sample. cbn [pb_kernels pb_shells pb_axis pb_adj]. rewrite (sample_turned s a). rewrite (proj1 (move_id _ x Sh)). reflexivity.
  - rewrite (orth_checked _ O). cbn [bind]. eexists. split; [reflexivity|]. split; [reflexivity|]. intros x idx. unfold pb_sample. cbn [pb_kernels pb_shells pb_axis pb_adj]. rewrite (sample_turned s a). rewrite transformed_move. reflexivity.
Qed.

(** adjoints close to the identity are ignored, matrices that are not orthogonal or not 2 x 2 refused *)
Theorem adj_close : forall linv sid L radii sigma flt axis A rin rout, allclose 2 2 A mid = true ->
  adjoint_kernels linv sid L radii sigma flt axis (Some (2%nat, A)) rin rout = adjoint_kernels linv sid L radii sigma flt axis None rin rout.
Proof. intros linv sid L radii sigma flt axis A rin rout H. unfold adjoint_kernels. destruct (kernels_on_plane _ _ _ _ _ _ _ _ _) as [|[[[sg s] k]|]]; cbn [bind]; try reflexivity. unfold with_adjoint. cbn [Nat.eqb assert_ bind]. rewrite H. reflexivity. Qed.
Theorem adj_refused : forall linv sid L radii sigma flt axis n A rin rout b, adjoint_kernels linv sid L radii sigma flt axis (Some (n, A)) rin rout = Ret (Some b) ->
  n = 2%nat /\ (allclose 2 2 A mid = true \/ forall i j, (i < 2)%nat -> (j < 2)%nat ->
    Rabs (mmul 2 A (mtr A) i j - mid i j) <= / 10 ^ 8 + / 10 ^ 5 * Rabs (mid i j) /\ Rabs (mmul 2 (mtr A) A i j - mid i j) <= / 10 ^ 8 + / 10 ^ 5 * Rabs (mid i j)).
Proof.
  intros linv sid L radii sigma flt axis n A rin rout b E. unfold adjoint_kernels in *. destruct (kernels_on_plane _ _ _ _ _ _ _ _ _) as [|[[[sg s] k]|]]; cbn [bind] in *; try discriminate.
  unfold with_adjoint in *. destruct (Nat.eqb_spec n 2) as [->|]; [|discriminate]. cbn [assert_ bind] in *. split; [reflexivity|]. destruct (allclose 2 2 A mid) eqn:Q; [left; reflexivity|right]. unfold check_adjoint in E.
  destruct (allclose 2 2 (mmul 2 A (mtr A)) mid) eqn:Q1; [|discriminate]. destruct (allclose 2 2 (mmul 2 (mtr A) A) mid) eqn:Q2; [|discriminate]. intros i j Hi Hj.
  pose proof (proj1 (allclose_true _ _ _ _) Q1 i j Hi Hj) as H1. pose proof (proj1 (allclose_true _ _ _ _) Q2 i j Hi Hj) as H2. unfold np_isclose in H1, H2. apply Rleb_true in H1, H2. split; assumption.
Qed.
(** equal bases with different hashes *)
Theorem adj_hash_differs : forall B (same : B -> B -> bool) (hash : B -> Z) b n A oid oid', same b b = true -> oid <> oid' ->
  adj_eq same n b b A A = true /\ adj_hash hash oid b <> adj_hash hash oid' b.
Proof.
  intros B same hash b n A oid oid' S N. split; [|unfold adj_hash; lia]. unfold adj_eq. rewrite S. cbn [andb]. apply allclose_meq, meq_refl.
Qed.

(** a quarter turn *)
Lemma quarter : orthogonal 2 (rot2 (- (PI / 2))) /\ sharp 2 (rot2 (- (PI / 2))) /\ allclose 2 2 (rot2 (- (PI / 2))) mid = false.
Proof.
  assert (allclose 2 2 (rot2 (- (PI / 2))) mid = false) as Q.
  { destruct (allclose 2 2 (rot2 (- (PI / 2))) mid) eqn:E; [|reflexivity]. exfalso. assert (H := proj1 (allclose_true _ _ _ _) E 0%nat 1%nat ltac:(lia) ltac:(lia)).
    cbn in H. rewrite sin_neg, sin_PI2 in H. unfold np_isclose in H. apply Rleb_true in H. rewrite Rabs_R0, Rmult_0_r, Rplus_0_r in H. rewrite Rminus_0_r, Ropp_involutive, Rabs_R1 in H. lra. }
  split; [|split; [right; exact Q|exact Q]]. pose proof (sin2_cos2 (- (PI / 2))) as T. unfold Rsqr in T. split; intros [|[|i]] [|[|j]] Hi Hj; try lia; unfold mmul, mtr, rot2, mat2, mid; cbn; lra.
Qed.
Lemma quarter_basis : forall linv rin rout, correct_inverse linv -> so2_trivial = Ret rin -> so2_standard = Ret rout ->
  exists b, adjoint_kernels linv (IO2 None (-1)) 1 [1; 2] [1; 1] None 0 (Some (2%nat, rot2 (- (PI / 2)))) rin rout = Ret (Some b) /\ pb_adj b <> None /\ sk_dim (pb_kernels b) = 4%nat.
Proof.
  intros linv rin rout Hl E1 E2. destruct (plane_nonempty linv rin rout Hl E1 E2) as (sg & s & k & E & _ & D). destruct quarter as (O & _ & Q). unfold adjoint_kernels. rewrite E. cbn [bind]. unfold with_adjoint. cbn [Nat.eqb assert_ bind]. rewrite Q, (orth_checked _ O). cbn [bind].
  eexists. split; [reflexivity|]. split; [discriminate|exact D].
Qed.
