(** Properties C30-C32: harmonic bases of the plane and of space. *)
From Coq Require Import Reals List ZArith Arith Lia Lra.
From Verif Require Import LibRes LibMat LibTrig PlanarModel SpecPlanar PlanarProofs IrrepModel SpecRep SpecIrrep RepModel SpecRepr RepProofs ParamModel ParamProofs
  KernelModel SpecKernel PolarModel SpecPolar PolarThms PolarAttrThms PolarCor.
Import ListNotations.
Open Scope R_scope.

Theorem C30_circular : forall linv axis L radial flt s, correct_inverse linv -> sharp 2 (rot2 axis) ->
  mk_shells circular L radial flt = Ret (Some s) ->
  exists act, circ_action linv axis = Ret act /\
    steerable_filters (pmember O2) (p_irr O2) (act_of act) (circ_filters s axis).
Proof. exact circ_steerable. Qed.
Print Assumptions C30_circular.

(** The default axis, and one at a right angle to it *)
Example C30_ex : sharp 2 (rot2 0) /\ sharp 2 (rot2 (PI / 2)) /\ ~ same_angle 0 (PI / 2) /\
  exists s, mk_shells circular 3 {| gp_radii := [1; 2]; gp_sigma := [1; 1] |} None = Ret (Some s) /\ sh_dim circular s = 14%nat.
Proof.
  split; [|split; [|split]].
  - left. intros [|[|i]] [|[|j]] Hi Hj; try lia; cbn; rewrite ?cos_0, ?sin_0; ring.
  - right. destruct (allclose 2 2 (rot2 (PI / 2)) mid) eqn:E; [|reflexivity]. exfalso.
    assert (H := proj1 (allclose_true _ _ _ _) E 0%nat 1%nat ltac:(lia) ltac:(lia)).
    cbn in H. rewrite sin_PI2 in H. unfold np_isclose in H. apply Rleb_true in H.
    rewrite Rabs_R0, Rmult_0_r, Rplus_0_r in H. rewrite Rminus_0_r, Rabs_Ropp, Rabs_R1 in H. lra.
  - intros H. apply sa_range in H; pose proof PI_RGT_0; lra.
  - eexists; split; reflexivity.
Qed.

(** Every element is a bell around its radius times a wave of its frequency, measured
    from the axis; near the origin only frequency 0 is left. *)
Theorem C30_samples : forall L p flt s axis j i ri o r t, mk_shells circular L p flt = Ret (Some s) ->
  (j <= L)%nat -> nth_error (wanted flt p (ar_id circular j)) i = Some ri -> (o < waves j)%nat ->
  nth ri (gp_sigma p) 0 <> 0 -> 0 <= r ->
  circ_value s axis (r * cos t, r * sin t)
    (list_sum (map (fun k => length (wanted flt p (ar_id circular k)) * waves k)%nat (seq 0 j)) + i * waves j + o) =
  bell (nth ri (gp_radii p) 0) (nth ri (gp_sigma p) 0) r *
    (if Rle_dec r (/ 10 ^ 9) then (if Nat.eqb j 0 then 1 else 0) else wave j o (t - axis)).
Proof. exact circ_sample. Qed.
Print Assumptions C30_samples.

(** Two radii, frequency 1, the second wave on the second radius: element 5. *)
Example C30_samples_ex : let p := {| gp_radii := [1; 2]; gp_sigma := [1; 1] |} in
  nth_error (wanted None p (ar_id circular 1)) 1 = Some 1%nat /\ (1 < waves 1)%nat /\ nth 1 (gp_sigma p) 0 <> 0 /\
  (list_sum (map (fun k => length (wanted None p (ar_id circular k)) * waves k) (seq 0 1)) + 1 * waves 1 + 1 = 5)%nat.
Proof. repeat split; cbn; lra || lia. Qed.

(** Unfiltered bases that compare equal have the same frequencies; with the same radii
    and axis they have the same samples. *)
Theorem C31_equal : forall L L' p p' s s' a b,
  mk_shells circular L p None = Ret (Some s) -> mk_shells circular L' p' None = Ret (Some s') ->
  circ_eq s s' a b = Ret true ->
  L = L' /\ (p = p' -> same_angle a b -> sh_dim circular s = sh_dim circular s' /\
    forall x idx, circ_value s a x idx = circ_value s' b x idx).
Proof. exact circ_eq_same. Qed.
Print Assumptions C31_equal.

(** Equality compares the truncation and the radii but not the axis. *)
Theorem C31_refuted : forall L p s a b, (1 <= L)%nat -> (0 < gp_dim p)%nat ->
  mk_shells circular L p None = Ret (Some s) -> ~ same_angle a b ->
  circ_eq s s a b = Ret true /\ exists x idx, (idx < sh_dim circular s)%nat /\ circ_value s a x idx <> circ_value s b x idx.
Proof. exact eq_ignores_axis. Qed.
Print Assumptions C31_refuted.

Theorem C32_iter : forall ar L p flt s, ar = circular \/ ar = spherical -> mk_shells ar L p flt = Ret (Some s) ->
  exists l, steerable_attrs_iter ar s = Ret l /\
    map (fun h => (h_j h, h_ridx h)) l =
      flat_map (fun j => map (fun i => (ar_id ar j, i)) (wanted flt p (ar_id ar j))) (seq 0 (S L)) /\
    forall i h, nth_error l i = Some h -> h_idx h = i /\ h_radial h = profile_attr p (h_ridx h).
Proof. exact attrs_iter_wanted. Qed.
Print Assumptions C32_iter.

Theorem C32_single : forall ar L p flt s j i ri, ar = circular \/ ar = spherical -> mk_shells ar L p flt = Ret (Some s) ->
  (j <= L)%nat -> nth_error (wanted flt p (ar_id ar j)) i = Some ri ->
  exists h, steerable_attrs_j ar s (ar_id ar j) i = Ret h /\ h_j h = ar_id ar j /\ h_ridx h = ri /\
    h_radial h = profile_attr p ri /\
    h_idx h = (list_sum (map (fun k => length (wanted flt p (ar_id ar k))) (seq 0 j)) + i)%nat.
Proof. exact attrs_j_wanted. Qed.
Print Assumptions C32_single.

Theorem C32_per_irrep_unfiltered : forall ar L p s j, ar = circular \/ ar = spherical ->
  mk_shells ar L p None = Ret (Some s) -> (j <= L)%nat -> lists_wanted ar None p s j.
Proof. exact attrs_j_iter_unfiltered. Qed.
Print Assumptions C32_per_irrep_unfiltered.

Theorem C32_per_irrep_zero : forall ar L p flt s, ar = circular \/ ar = spherical ->
  mk_shells ar L p flt = Ret (Some s) -> lists_wanted ar flt p s 0.
Proof. exact attrs_j_iter_zero. Qed.
Print Assumptions C32_per_irrep_zero.

(** With a filter, the mask of frequency 0 is read for every frequency. *)
Theorem C32_per_irrep_refuted : forall ar L p, ar = circular \/ ar = spherical -> (1 <= L)%nat -> (0 < length (gp_radii p))%nat ->
  exists s, mk_shells ar L p (Some no_zero) = Ret (Some s) /\
    wanted (Some no_zero) p (ar_id ar 1) = seq 0 (length (gp_radii p)) /\
    forall l, steerable_attrs_j_iter ar s (ar_id ar 1) = Ret l -> (length l < length (gp_radii p))%nat.
Proof. exact attrs_j_iter_wrong. Qed.
Print Assumptions C32_per_irrep_refuted.

(** steerable_attrs fails on every basis built without a filter. *)
Theorem C32_unfiltered_refuted : forall ar L p s idx, mk_shells ar L p None = Ret (Some s) -> steerable_attrs ar s idx = Raise.
Proof. exact attrs_unfiltered_raises. Qed.
Print Assumptions C32_unfiltered_refuted.

Theorem C32_filtered : forall ar L f p s, ar = circular \/ ar = spherical -> mk_shells ar L p (Some f) = Ret (Some s) ->
  exists l, steerable_attrs_iter ar s = Ret l /\
    forall i, (i < length l)%nat -> exists h, nth_error l i = Some h /\ steerable_attrs ar s i = Ret h.
Proof. exact attrs_filtered. Qed.
Print Assumptions C32_filtered.

(** A filter that keeps only some subspaces *)
Example C32_ex : let p := {| gp_radii := [1; 2]; gp_sigma := [1; 1] |} in
  let f := fun x : rattr * list Z => Nat.leb (ra_idx (fst x)) (match snd x with [_; k] => Z.to_nat k | _ => 0 end) in
  exists s, mk_shells circular 1 p (Some f) = Ret (Some s) /\ wanted (Some f) p (ar_id circular 0) = [0%nat] /\
    wanted (Some f) p (ar_id circular 1) = [0%nat; 1%nat].
Proof. eexists; split; [reflexivity|]. split; reflexivity. Qed.
