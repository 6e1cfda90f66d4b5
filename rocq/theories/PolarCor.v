(** The samples of the circular shells and their comparison. *)
From Coq Require Import Reals List ZArith Arith Lia Lra Bool.
From Verif Require Import LibRes LibMat LibTrig PlanarModel SpecPlanar PlanarProofs IrrepModel SpecRep RepModel ParamModel ParamProofs
  KernelModel SpecKernel PolarModel SpecPolar PolarProofs PolarAttrs PolarThms PolarAttrThms.
Import ListNotations.
Open Scope R_scope.

Lemma waves_dim : forall j, waves j = ar_dim circular j.
Proof. intros [|j]; reflexivity. Qed.

Lemma bell_sample : forall p r i, nth i (gp_sigma p) 0 <> 0 -> gp_sample p r i = bell (nth i (gp_radii p) 0) (nth i (gp_sigma p) 0) r.
Proof. intros p r i H; unfold gp_sample, bell; f_equal; field; exact H. Qed.

Lemma hs_wave : forall t j o, (o < waves j)%nat -> hs t (ar_first circular j + o) = wave j o t.
Proof.
  intros t [|j] o H; cbn [waves] in H.
  - replace o with 0%nat by lia. unfold hs, wave; cbn [circular ar_first Nat.ltb Nat.leb Nat.mul Nat.add Nat.sub Nat.eqb INR].
    rewrite Rmult_0_l, cos_0; reflexivity.
  - destruct (circ_first (S j) ltac:(lia)) as [-> _]. unfold hs.
    replace (2 * S j - 1 + o =? 0)%nat with false by (symmetry; apply Nat.eqb_neq; lia).
    destruct o as [|[|o]]; [| |lia]; cbn [wave].
    + replace (2 * S j - 1 + 0)%nat with (1 + 2 * j)%nat by lia. rewrite Nat.odd_add_mul_2. cbn [Nat.odd Nat.even negb].
      replace (1 + 2 * j + 1)%nat with (S j * 2)%nat by lia. rewrite Nat.div_mul by lia. reflexivity.
    + replace (2 * S j - 1 + 1)%nat with (0 + 2 * S j)%nat by lia. rewrite Nat.odd_add_mul_2. cbn [Nat.odd Nat.even negb].
      replace (0 + 2 * S j)%nat with (S j * 2)%nat by lia. rewrite Nat.div_mul by lia. reflexivity.
Qed.

Lemma circ_sample : forall L p flt s axis j i ri o r t, mk_shells circular L p flt = Ret (Some s) ->
  (j <= L)%nat -> nth_error (wanted flt p (ar_id circular j)) i = Some ri -> (o < waves j)%nat ->
  nth ri (gp_sigma p) 0 <> 0 -> 0 <= r ->
  circ_value s axis (r * cos t, r * sin t)
    (list_sum (map (fun k => length (wanted flt p (ar_id circular k)) * waves k)%nat (seq 0 j)) + i * waves j + o) =
  bell (nth ri (gp_radii p) 0) (nth ri (gp_sigma p) 0) r *
    (if Rle_dec r (/ 10 ^ 9) then (if Nat.eqb j 0 then 1 else 0) else wave j o (t - axis)).
Proof.
  intros L p flt s axis j i ri o r t E Hj W Ho Hs Hr. apply built_of in E.
  rewrite <- (proj1 (wanted_sub circular flt p j)) in W. destruct (nth_map_fst _ _ _ W) as (a & Ea).
  rewrite circ_value_eq.
  replace (list_sum _) with (start circular flt p j)
    by (unfold start; f_equal; apply map_ext; intros k; rewrite <- (proj1 (wanted_sub circular flt p k)), map_length, waves_dim; reflexivity).
  rewrite waves_dim in Ho. rewrite waves_dim.
  rewrite (value_at circular circ_pos L p flt s _ _ j i o (ri, a) E ltac:(lia) Ea Ho).
  cbn [fst]. rewrite norm2_polar, bell_sample by assumption. f_equal.
  rewrite yv_polar by exact Hr. destruct (Rle_dec r (/ 10 ^ 9)).
  - destruct j as [|j].
    + cbn [circular ar_dim Nat.ltb Nat.leb] in Ho. replace o with 0%nat by lia. reflexivity.
    + destruct (circ_first (S j) ltac:(lia)) as [-> _]. replace (2 * S j - 1 + o =? 0)%nat with false by (symmetry; apply Nat.eqb_neq; lia). reflexivity.
  - apply hs_wave. rewrite waves_dim; exact Ho.
Qed.

Lemma yv_sa : forall a b x i, same_angle a b -> yv a x i = yv b x i.
Proof.
  intros a b x i [n ->]. destruct (polar_form x) as (t & ->). rewrite !yv_polar by apply norm2_nonneg.
  destruct (Rle_dec _ _); [reflexivity|]. apply hs_sa. exists (- n)%Z. rewrite opp_IZR. ring.
Qed.

Lemma sh_value_ext : forall ar s r Y Y' idx, (forall i, Y i = Y' i) -> sh_value ar s r Y idx = sh_value ar s r Y' idx.
Proof.
  intros ar s r Y Y' idx H; unfold sh_value, sh_full.
  destruct (sh_mask s); destruct (locate _ _ _) as [[? ?]|]; rewrite ?H; reflexivity.
Qed.

Lemma circ_eq_same : forall L L' p p' s s' a b,
  mk_shells circular L p None = Ret (Some s) -> mk_shells circular L' p' None = Ret (Some s') ->
  circ_eq s s' a b = Ret true ->
  L = L' /\ (p = p' -> same_angle a b -> sh_dim circular s = sh_dim circular s' /\
    forall x idx, circ_value s a x idx = circ_value s' b x idx).
Proof.
  intros L L' p p' s s' a b E E' C. pose proof (built_of _ _ _ _ _ E) as B. pose proof (built_of _ _ _ _ _ E') as B'.
  assert (L = L') as <-.
  { unfold circ_eq in C. apply bind_Ret in C. destruct C as ([|] & _ & C); [|discriminate].
    destruct (Nat.eqb _ _) eqn:Q in C; [|discriminate]. apply Nat.eqb_eq in Q.
    rewrite (bu_L _ _ _ _ _ B), (bu_L _ _ _ _ _ B') in Q. exact Q. }
  split; [reflexivity|]. intros <- HA. rewrite E in E'. injection E' as <-. split; [reflexivity|].
  intros x idx. rewrite !circ_value_eq. apply sh_value_ext. intros i. apply yv_sa; exact HA.
Qed.
