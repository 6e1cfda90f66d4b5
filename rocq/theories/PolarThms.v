(** Circular harmonics are steerable. *)
From Coq Require Import Reals List ZArith Arith Bool Lia Lra Setoid.
From Verif Require Import LibRes LibMat LibMatS LibTrig FinGroupModel ParamModel PlanarModel SpecPlanar PlanarProofs
  IrrepModel SpecRep SpecIrrep IrrepProofs RepModel SpecRepr RepProofs RepThms KernelModel SpecKernel KernelProofs
  PolarModel SpecPolar PolarProofs.
Import ListNotations.
Open Scope R_scope.

(** ** the angles *)

Lemma norm2_nonneg : forall x, 0 <= norm2 x.
Proof. intros; apply sqrt_pos. Qed.
Lemma norm2_sq : forall x, norm2 x * norm2 x = fst x * fst x + snd x * snd x.
Proof. intros x; unfold norm2; apply sqrt_sqrt. pose proof (Rle_0_sqr (fst x)); pose proof (Rle_0_sqr (snd x)); unfold Rsqr in *; lra. Qed.
Lemma norm2_polar : forall r t, 0 <= r -> norm2 (r * cos t, r * sin t) = r.
Proof.
  intros r t H; unfold norm2; cbn [fst snd].
  replace (r * cos t * (r * cos t) + r * sin t * (r * sin t)) with (r * r).
  - apply sqrt_square; exact H.
  - pose proof (sin2cos2 t) as Q. replace (r * r) with (r * r * 1) by ring. rewrite <- Q; ring.
Qed.
Lemma polar_form : forall x, exists t, x = (norm2 x * cos t, norm2 x * sin t).
Proof.
  intros [a b]. set (r := norm2 (a, b)). pose proof (norm2_sq (a, b)) as Q; cbn [fst snd] in Q; fold r in Q.
  destruct (Req_dec r 0) as [E|E].
  - exists 0. rewrite E in Q. rewrite Rmult_0_l in Q.
    pose proof (Rle_0_sqr a); pose proof (Rle_0_sqr b); unfold Rsqr in *.
    assert (a = 0) as -> by (apply Rsqr_0_uniq; unfold Rsqr; lra).
    assert (b = 0) as -> by (apply Rsqr_0_uniq; unfold Rsqr; lra).
    rewrite E; f_equal; ring.
  - destruct (atan2_sc (b / r) (a / r)) as [C S].
    + replace (b / r * (b / r) + a / r * (a / r)) with ((a * a + b * b) / (r * r)) by (field; exact E).
      rewrite <- Q; field; exact E.
    + exists (atan2 (b / r) (a / r)). rewrite C, S. f_equal; field; exact E.
Qed.

(** The harmonics as functions of the angle. *)
Definition hs (t : R) (i : nat) : R :=
  if Nat.eqb i 0 then 1
  else if Nat.odd i then cos (INR ((i + 1) / 2) * t) else sin (INR (i / 2) * t).

Lemma hs_sa : forall t u i, same_angle t u -> hs t i = hs u i.
Proof.
  intros t u i H; unfold hs. destruct (Nat.eqb i 0); [reflexivity|].
  destruct (Nat.odd i); rewrite INR_IZR_INZ, H; reflexivity.
Qed.

Lemma harmonics_polar : forall r t a i, r <> 0 ->
  circular_harmonics (r * cos t / r, r * sin t / r) a i = hs (t - a) i.
Proof.
  intros r t a i H. transitivity (hs (atan2 (r * sin t / r) (r * cos t / r) - a) i); [reflexivity|].
  apply hs_sa.
  replace (r * sin t / r) with (sin t) by (field; exact H). replace (r * cos t / r) with (cos t) by (field; exact H).
  destruct (atan2_angle t) as [n ->]. exists n; ring.
Qed.

(** The harmonics at a point. *)
Definition yv (a : R) (x : point) : nat -> R :=
  if Rle_dec (norm2 x) (/ 10 ^ 9) then fun i => if Nat.eqb i 0 then 1 else 0
  else circular_harmonics (fst x / norm2 x, snd x / norm2 x) a.

Lemma yv_polar : forall a r t i, 0 <= r -> yv a (r * cos t, r * sin t) i =
  if Rle_dec r (/ 10 ^ 9) then (if Nat.eqb i 0 then 1 else 0) else hs (t - a) i.
Proof.
  intros a r t i H; unfold yv. rewrite (norm2_polar r t H). cbn [fst snd].
  destruct (Rle_dec r (/ 10 ^ 9)) as [L|L]; [reflexivity|].
  apply harmonics_polar. assert (0 < / 10 ^ 9) by (apply Rinv_0_lt_compat, pow_lt; lra). lra.
Qed.

Lemma hs_rotate : forall f t u j o, (0 < j)%nat -> (o < 2)%nat ->
  hs (t + rsign f * u) (2 * j - 1 + o) =
  sumn 2 (fun o' => kmat (K2 (Z.of_nat j)) f t o o' * hs u (2 * j - 1 + o')).
Proof.
  intros f t u j o Hj Ho. cbn [sumn].
  assert (forall v, hs v (2 * j - 1 + 0) = cos (IZR (Z.of_nat j) * v)) as H0.
  { intros v; unfold hs. destruct (Nat.eqb_spec (2 * j - 1 + 0) 0) as [E|_]; [lia|].
    replace (2 * j - 1 + 0)%nat with (1 + 2 * (j - 1))%nat by lia. rewrite Nat.odd_add_mul_2; cbn [Nat.odd Nat.even negb].
    replace ((1 + 2 * (j - 1) + 1) / 2)%nat with j; [rewrite INR_IZR_INZ; reflexivity|].
    replace (1 + 2 * (j - 1) + 1)%nat with (j * 2)%nat by lia. rewrite Nat.div_mul by lia; reflexivity. }
  assert (forall v, hs v (2 * j - 1 + 1) = sin (IZR (Z.of_nat j) * v)) as H1.
  { intros v; unfold hs. destruct (Nat.eqb_spec (2 * j - 1 + 1) 0) as [E|_]; [lia|].
    replace (2 * j - 1 + 1)%nat with (0 + 2 * j)%nat by lia. rewrite Nat.odd_add_mul_2; cbn [Nat.odd Nat.even negb].
    replace ((0 + 2 * j) / 2)%nat with j; [rewrite INR_IZR_INZ; reflexivity|].
    replace (0 + 2 * j)%nat with (j * 2)%nat by lia. rewrite Nat.div_mul by lia; reflexivity. }
  rewrite H0, H1.
  assert (rsign f = 1 \/ rsign f = -1) as S by (unfold rsign; destruct (f =? 0)%Z; auto).
  destruct o as [|[|o]]; [rewrite H0|rewrite H1|lia]; cbn [kmat]; unfold mat2;
    replace (IZR (Z.of_nat j) * (t + rsign f * u)) with (IZR (Z.of_nat j) * t + rsign f * (IZR (Z.of_nat j) * u)) by ring;
    rewrite ?cos_plus, ?sin_plus; destruct S as [-> | ->];
    [replace (1 * (IZR (Z.of_nat j) * u)) with (IZR (Z.of_nat j) * u) by ring
    |replace (-1 * (IZR (Z.of_nat j) * u)) with (- (IZR (Z.of_nat j) * u)) by ring; rewrite cos_neg, sin_neg
    |replace (1 * (IZR (Z.of_nat j) * u)) with (IZR (Z.of_nat j) * u) by ring
    |replace (-1 * (IZR (Z.of_nat j) * u)) with (- (IZR (Z.of_nat j) * u)) by ring; rewrite cos_neg, sin_neg]; ring.
Qed.

(** ** the irreps of O(2) used, and the action *)

Lemma circ_ok : forall j, irrep_ok O2 (ar_id circular j).
Proof.
  intros j; cbn [circular ar_id irrep_ok]. destruct (Nat.ltb_spec 0 j); split; lia.
Qed.
Lemma circ_inj : forall i j, ar_id circular i = ar_id circular j -> i = j.
Proof. intros i j E; cbn [circular ar_id] in E. injection E as _ E. lia. Qed.
Lemma circ_pos : forall j, (0 < ar_dim circular j)%nat.
Proof. intros j; cbn [circular ar_dim]. destruct (Nat.ltb 0 j); lia. Qed.

Definition o2_mat (j : nat) (f : Z) (t : R) : mat :=
  if Nat.ltb 0 j then kmat (K2 (Z.of_nat j)) f t else mid.

Lemma circ_irrep : forall j, exists r, p_irr O2 (ar_id circular j) = Ret r /\ gi_size r = ar_dim circular j /\
  forall f t, pmember O2 (VO f t) -> exists D, gi_rep r (VO f t) = Ret (gi_size r, D) /\
    meq (gi_size r) (gi_size r) D (o2_mat j f t).
Proof.
  intros j. destruct (p_irrep_kind O2 (ar_id circular j) I (circ_ok j)) as (r & Er & K).
  unfold p_irr. rewrite Er; cbn [bind]. exists (girrep_of r); split; [reflexivity|].
  unfold girrep_of; cbn [gi_size gi_rep].
  pose proof K as (_ & _ & Es & _ & _ & _ & Hr). rewrite Es.
  cbn [circular ar_id ar_dim irrep_kind] in *. unfold o2_mat.
  destruct (Nat.ltb_spec 0 j) as [L|L].
  - replace (Z.of_nat j =? 0)%Z with false in * by (symmetry; apply Z.eqb_neq; lia).
    split; [reflexivity|]. intros f t Hm. destruct (Hr _ Hm) as (A & EA & MA & _). exists A; split; [exact EA|].
    intros a b Ha Hb. rewrite (MA a b Ha Hb). cbn [kdim fl th]. reflexivity.
  - assert (j = 0%nat) as -> by lia. cbn [Z.of_nat Z.eqb] in *.
    split; [reflexivity|]. intros f t Hm. destruct (Hr _ Hm) as (A & EA & MA & _). exists A; split; [exact EA|].
    intros a b Ha Hb. rewrite (MA a b Ha Hb). cbn [kdim] in Ha, Hb. destruct a; [|lia]; destruct b; [|lia].
    cbn [kmat fl th]. unfold mat1, mid, rsign; cbn. rewrite Rmult_0_l, cos_0; ring.
Qed.


Lemma allclose_ext : forall r c A A' B B', meq r c A A' -> meq r c B B' -> allclose r c A B = allclose r c A' B'.
Proof.
  assert (forall n f g, (forall i, (i < n)%nat -> f i = g i) -> forallb_n n f = forallb_n n g) as E.
  { induction n as [|n IH]; intros f g H; cbn [forallb_n]; [reflexivity|].
    rewrite (IH f g) by (intros; apply H; lia). rewrite H by lia. reflexivity. }
  intros r c A A' B B' HA HB; unfold allclose. apply E; intros i Hi; apply E; intros j Hj.
  rewrite (HA i j Hi Hj), (HB i j Hi Hj); reflexivity.
Qed.

Lemma circ_action_ok : forall linv axis, correct_inverse linv -> sharp 2 (rot2 axis) ->
  exists r, circ_action linv axis = Ret r /\
    forall f t, pmember O2 (VO f t) -> exists M, r_fun r (VO f t) = Ret (2%nat, M) /\
      meq 2 2 M (mmul 2 (mmul 2 (rot2 axis) (kmat (K2 1) f t)) (mtr (rot2 axis))).
Proof.
  intros linv axis Hinv Sh; unfold circ_action.
  destruct (circ_irrep 1) as (s & Es & Ss & Hs). change (ar_id circular 1) with [1%Z; 1%Z] in Es.
  rewrite Es; cbn [bind]. unfold pelement; rewrite o2_norm_eq; cbn [bind fst snd Z.eqb orb].
  destruct (Hs 0%Z (m axis)) as (Q & EQ & MQ); [cbn; split; [auto|apply m_range]|].
  rewrite EQ; cbn [bind].
  assert (meq 2 2 Q (rot2 axis)) as MR.
  { intros i k Hi Hk. rewrite Ss in MQ; cbn [circular ar_dim Nat.ltb Nat.leb] in MQ. rewrite (MQ i k Hi Hk).
    unfold o2_mat; cbn [Nat.ltb Nat.leb Z.of_nat Pos.of_succ_nat].
    rewrite (kmat_sa (K2 1) 0 (m axis) axis) by apply sa_m.
    unfold rot2. cbn [kmat]. unfold rsign; cbn [Z.eqb]. rewrite Rmult_1_l.
    destruct i as [|[|i]]; destruct k as [|[|k]]; try lia; unfold mat2; ring. }
  assert (P := irrep_proper _ _ _ _ _ [1%Z; 1%Z] s (p_irr_sound O2 [1%Z; 1%Z] I (circ_ok 1)) Es).
  assert (r_size (repr_of_irrep s) = 2%nat) as Sz by (cbn [repr_of_irrep r_size]; rewrite Ss; reflexivity).
  assert (inverse_of 2 Q (mtr (rot2 axis))) as IQ.
  { apply (inverse_of_ext 2 (rot2 axis) Q (mtr (rot2 axis)) (mtr (rot2 axis))); [symmetry; exact MR|reflexivity|].
    apply orthogonal_inverse. apply ParamProofs.rot2_orth. }
  destruct (change_basis_ok (p_irr O2) (pmember O2) (pmul O2) (pid O2) linv Hinv (repr_of_irrep s) Q (mtr (rot2 axis)) P)
    as (d & Ed & Sd & _ & _ & Hd).
  { rewrite Sz; exact IQ. }
  { rewrite Sz. cbn [repr_of_irrep r_cob]. destruct Sh as [Sh|Sh]; [left|right].
    - rewrite mid_r, MR; exact Sh.
    - rewrite <- Sh. apply allclose_ext; [|reflexivity]. rewrite mid_r; exact MR. }
  exists d. split.
  - replace (gi_size s, Q) with (r_size (repr_of_irrep s), Q) by reflexivity. exact Ed.
  - intros f t Hm. destruct (Hd _ Hm) as (A & B & EA & EB & MB). rewrite Sz in EB, MB.
    exists B; split; [exact EB|]. rewrite MB.
    destruct (Hs f t Hm) as (A' & EA' & MA). cbn [repr_of_irrep r_fun] in EA.
    assert (A = A') as -> by congruence.
    rewrite Ss in MA; cbn [circular ar_dim Nat.ltb Nat.leb] in MA.
    unfold o2_mat in MA; cbn [Nat.ltb Nat.leb Z.of_nat Pos.of_succ_nat] in MA.
    rewrite MR, MA. reflexivity.
Qed.

(** ** steerability *)

Lemma move_polar : forall axis f t M r u,
  meq 2 2 M (mmul 2 (mmul 2 (rot2 axis) (kmat (K2 1) f t)) (mtr (rot2 axis))) ->
  move M (r * cos u, r * sin u) =
  (r * cos (axis + (t + rsign f * (u - axis))), r * sin (axis + (t + rsign f * (u - axis)))).
Proof.
  intros axis f t M r u H; unfold move; cbn [fst snd].
  rewrite !H by lia. unfold mmul, mtr, rot2; cbn [kmat sumn]. unfold mat2.
  repeat rewrite ?cos_plus, ?sin_plus.
  assert (rsign f = 1 \/ rsign f = -1) as S by (unfold rsign; destruct (f =? 0)%Z; auto).
  destruct S as [-> | ->];
    [replace (1 * (u - axis)) with (u - axis) by ring
    |replace (-1 * (u - axis)) with (- (u - axis)) by ring; rewrite cos_neg, sin_neg];
    rewrite cos_minus, sin_minus; f_equal; rewrite ?Rmult_1_l; ring.
Qed.

Lemma circ_first : forall j, (0 < j)%nat -> ar_first circular j = (2 * j - 1)%nat /\ ar_dim circular j = 2%nat.
Proof.
  intros j H; cbn [circular ar_first ar_dim]. rewrite (proj2 (Nat.ltb_lt 0 j) H). split; [lia|reflexivity].
Qed.

Lemma yv_steers : forall axis f t M x j o,
  meq 2 2 M (mmul 2 (mmul 2 (rot2 axis) (kmat (K2 1) f t)) (mtr (rot2 axis))) ->
  (o < ar_dim circular j)%nat ->
  norm2 (move M x) = norm2 x /\
  yv axis (move M x) (ar_first circular j + o) =
  sumn (ar_dim circular j) (fun o' => o2_mat j f t o o' * yv axis x (ar_first circular j + o')).
Proof.
  intros axis f t M x j o HM Ho. destruct (polar_form x) as [u Ex]. pose proof (norm2_nonneg x) as Hr.
  set (r := norm2 x) in *. rewrite Ex. rewrite (move_polar axis f t M r u HM).
  split; [apply norm2_polar; exact Hr|].
  rewrite yv_polar by exact Hr.
  rewrite (sumn_ext _ _ (fun o' => o2_mat j f t o o' *
    (if Rle_dec r (/ 10 ^ 9) then (if Nat.eqb (ar_first circular j + o') 0 then 1 else 0)
     else hs (u - axis) (ar_first circular j + o')))) by (intros; rewrite yv_polar by exact Hr; reflexivity).
  destruct (Nat.eq_dec j 0) as [->|Hj].
  - change (ar_dim circular 0) with 1%nat in *. change (ar_first circular 0) with 0%nat. assert (o = 0%nat) as -> by lia.
    cbn [sumn Nat.add Nat.eqb]. unfold o2_mat, mid; cbn [Nat.ltb Nat.leb Nat.eqb]. unfold hs; cbn [Nat.eqb].
    destruct (Rle_dec r (/ 10 ^ 9)); ring.
  - destruct (circ_first j ltac:(lia)) as [Ef Ed]. rewrite Ed in Ho. rewrite Ef, Ed.
    unfold o2_mat. rewrite (proj2 (Nat.ltb_lt 0 j)) by lia.
    destruct (Rle_dec r (/ 10 ^ 9)) as [L|L].
    + rewrite (proj2 (Nat.eqb_neq (2 * j - 1 + o) 0)) by lia. cbn [sumn].
      rewrite (proj2 (Nat.eqb_neq (2 * j - 1 + 0) 0)), (proj2 (Nat.eqb_neq (2 * j - 1 + 1) 0)) by lia. ring.
    + replace (axis + (t + rsign f * (u - axis)) - axis) with (t + rsign f * (u - axis)) by ring.
      apply hs_rotate; [lia|exact Ho].
Qed.

Lemma circ_value_eq : forall s axis x idx, circ_value s axis x idx = sh_value circular s (norm2 x) (yv axis x) idx.
Proof. reflexivity. Qed.

Theorem circ_steerable : forall linv axis L radial flt s, correct_inverse linv -> sharp 2 (rot2 axis) ->
  mk_shells circular L radial flt = Ret (Some s) ->
  exists act, circ_action linv axis = Ret act /\
    steerable_filters (pmember O2) (p_irr O2) (act_of act) (circ_filters s axis).
Proof.
  intros linv axis L radial flt s Hinv Sh Es.
  destruct (mk_shells_built circular L radial flt) as (ob & Eo & B). rewrite Es in Eo.
  specialize (B s ltac:(congruence)).
  destruct (circ_action_ok linv axis Hinv Sh) as (act & Ea & Ha).
  exists act; split; [exact Ea|]. intros id Hid.
  cbn [circ_filters f_js] in Hid. rewrite (bu_js _ _ _ _ _ B), map_map in Hid. apply in_map_iff in Hid.
  destruct Hid as (j & <- & Hj); cbn [fst]. apply in_seq in Hj.
  assert (forall j, exists r, p_irr O2 (ar_id circular j) = Ret r /\ gi_size r = ar_dim circular j) as Hirr
    by (intros k; destruct (circ_irrep k) as (r & E & S & _); exists r; split; assumption).
  destruct (circ_irrep j) as (r & Er & Sr & Hr). exists r; split; [exact Er|].
  intros g x Hg. destruct g as [?|?|f t]; try contradiction Hg.
  destruct (Hr f t Hg) as (D & ED & MD). destruct (Ha f t Hg) as (M & EM & HM).
  set (F := circ_filters s axis).
  exists (fun i o => f_sample F x (start circular flt radial j + i * ar_dim circular j + o)%nat),
    (fun i o => f_sample F (act_of act (VO f t) x) (start circular flt radial j + i * ar_dim circular j + o)%nat), D.
  split; [apply (harmonics_at circular circ_inj _ _ L radial flt s); [exact Hirr|exact B|reflexivity|lia]|].
  split; [apply (harmonics_at circular circ_inj _ _ L radial flt s); [exact Hirr|exact B|reflexivity|lia]|].
  split; [exact ED|]. intros i o Hi Ho.
  rewrite (mult_at circular circ_inj F L radial flt s j B) in Hi by (try reflexivity; lia).
  destruct (nth_error (sub circular flt radial j) i) as [q|] eqn:Eq; [|apply nth_error_None in Eq; lia].
  unfold F; cbn [circ_filters f_sample]. rewrite Sr in *.
  rewrite circ_value_eq, (value_at circular circ_pos L radial flt s _ _ j i o q B) by (try assumption; lia).
  rewrite (sumn_ext _ _ (fun o' => gp_sample radial (norm2 x) (fst q) *
     (o2_mat j f t o o' * yv axis x (ar_first circular j + o')%nat))).
  - rewrite sumn_scal_l. unfold act_of; rewrite EM.
    destruct (yv_steers axis f t M x j o HM Ho) as [N Y]. rewrite N, Y. reflexivity.
  - intros o' Ho'. rewrite circ_value_eq, (value_at circular circ_pos L radial flt s _ _ j i o' q B) by (try assumption; lia).
    rewrite (MD o o' Ho Ho'). ring.
Qed.
