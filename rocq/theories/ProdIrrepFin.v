(** Every irrep a direct product builds is a good one, and no two share anything. *)
From Coq Require Import Reals ZArith List Lia Lra Bool Arith.
From Verif Require Import LibRes LibMat LibMatS SpecGroup SpecRep ProdModel ProdProofs SpecProd ParamModel PlanarModel
  ProdIrrepModel SpecProdIrrep ProdIrrepProofs ProdIrrepThms ProdIrrepCor.
Import ListNotations.
Open Scope R_scope.

Section Fin.
Context {V1 V2 : Type} (G1 : gobj V1) (G2 : gobj V2).
Let P := prod_grp G1 G2.
Hypothesis HG1 : is_group (el_mem G1) (el_mul G1) (el_inv G1) (el_one G1).
Hypothesis HG2 : is_group (el_mem G2) (el_mul G2) (el_inv G2) (el_one G2).

(** what prod_irrep returns for real and complex factors *)
Definition build (id1 id2 : iid) (psi1 : oirrep V1) (psi2 : oirrep V2) (i : Z) : oirrep (V1 * V2) :=
  let c := is_TC (oi_type psi1) && is_TC (oi_type psi2) in
  {| oi_id := Pair id1 id2 i;
     oi_size := if c then Nat.div (oi_size psi1 * oi_size psi2) 2 else (oi_size psi1 * oi_size psi2)%nat;
     oi_type := if is_TR (oi_type psi1) then oi_type psi2 else if is_TR (oi_type psi2) then oi_type psi1 else TC;
     oi_fun := if c then tensor_complex G1 G2 psi1 psi2 i
               else if is_TR (oi_type psi2) then tensor_right G1 G2 psi1 psi2 else tensor_left G1 G2 psi1 psi2;
     oi_chi := if c then complex_char G1 G2 psi1 psi2 i else tensor_char G1 G2 psi1 psi2 |}.

Definition index_ok (psi1 : oirrep V1) (psi2 : oirrep V2) (i : Z) : Prop :=
  if is_TC (oi_type psi1) && is_TC (oi_type psi2) then (i = 0 \/ i = 1)%Z else i = 0%Z.

Lemma prod_irrep_build : forall irr1 irr2 id1 id2 i psi1 psi2,
  irr1 id1 = Ret psi1 -> irr2 id2 = Ret psi2 -> oi_type psi1 <> TH -> oi_type psi2 <> TH ->
  index_ok psi1 psi2 i -> prod_irrep G1 G2 irr1 irr2 id1 id2 i = Ret (build id1 id2 psi1 psi2 i).
Proof.
  intros irr1 irr2 id1 id2 i psi1 psi2 E1 E2 N1 N2 Hi; unfold prod_irrep, build, index_ok in *; rewrite E1, E2; cbn [bind].
  unfold tensor_product_irrep; destruct (oi_type psi1) eqn:T1, (oi_type psi2) eqn:T2; try congruence;
    cbn [is_TR is_TC andb orb negb] in *; try (subst i; cbn [Z.eqb zero_one orb assert_ bind fst snd]; reflexivity).
  assert (E : zero_one i = true) by (unfold zero_one; destruct Hi as [-> | ->]; reflexivity).
  rewrite !E; cbn [assert_ bind]; reflexivity.
Qed.

Lemma prod_irrep_rejects : forall irr1 irr2 id1 id2 i psi1 psi2,
  irr1 id1 = Ret psi1 -> irr2 id2 = Ret psi2 -> ~ index_ok psi1 psi2 i -> prod_irrep G1 G2 irr1 irr2 id1 id2 i = Raise.
Proof.
  intros irr1 irr2 id1 id2 i psi1 psi2 E1 E2 Hi; unfold prod_irrep, index_ok in *; rewrite E1, E2; cbn [bind].
  destruct (is_TC (oi_type psi1) && is_TC (oi_type psi2)).
  - assert (E : zero_one i = false).
    { unfold zero_one; apply orb_false_iff; split; apply Z.eqb_neq; intros E; apply Hi; auto. }
    rewrite E; reflexivity.
  - apply Z.eqb_neq in Hi; rewrite Hi; reflexivity.
Qed.

(** the data of a good irrep *)
Lemma good_pos : forall V (G : gobj V) r, good_irrep G r -> (0 < oi_size r)%nat.
Proof. intros V G r [_ _ _ _ [H _]]; exact H. Qed.

Lemma good_h : forall V (G : gobj V) r, good_irrep G r -> oi_type r = TC -> exists h, (0 < h)%nat /\
  oi_size r = (2 * h)%nat /\ (oi_size r / 2)%nat = h /\ holds G (oi_fun r) (oi_size r) (realified h) /\
  oi_endo r = [kron h h mid mid; kron h h J2 mid].
Proof.
  intros V G r Hr T; pose proof (good_pos V G r Hr) as Hp; destruct Hr as [_ _ F _ _]; rewrite T in F; destruct F as (h & E & HF).
  exists h; rewrite E in *; assert (D : (2 * h / 2)%nat = h) by (rewrite Nat.mul_comm; apply Nat.div_mul; lia).
  split; [lia|]; split; [reflexivity|]; split; [exact D|]; split; [exact HF|].
  unfold oi_endo; rewrite T, E, D; reflexivity.
Qed.

Lemma good_R : forall V (G : gobj V) r, good_irrep G r -> oi_type r = TR -> oi_endo r = [mid].
Proof. intros V G r _ T; unfold oi_endo; rewrite T; reflexivity. Qed.

Lemma ocall_ok : forall V (G : gobj V) r g, el_mem G g -> ocall G r g = oi_fun r g.
Proof. intros V G r g [H _]; unfold ocall; rewrite H, gname_eqb_refl; reflexivity. Qed.

Lemma ochar_ok : forall V (G : gobj V) r g, el_mem G g -> ochar G r g = oi_chi r g.
Proof. intros V G r g [H _]; unfold ochar; rewrite H, gname_eqb_refl; reflexivity. Qed.

Lemma split_pr : forall a b, el_mem G1 a -> el_mem G2 b -> split G1 G2 (pr G1 G2 a b) = Ret (a, b).
Proof. intros a b Ha Hb; unfold split; cbn [pr el_grp prod_grp g_name]; rewrite gname_eqb_refl; cbn [assert_ bind]; apply split_ok; assumption. Qed.

Lemma half2 : forall a, (2 * a / 2 = a)%nat.
Proof. intros a; rewrite Nat.mul_comm; apply Nat.div_mul; lia. Qed.

Lemma half_prod : forall a h, ((a * (2 * h)) / 2 = a * h)%nat.
Proof. intros a h; replace (a * (2 * h))%nat with ((a * h) * 2)%nat by lia; apply Nat.div_mul; lia. Qed.

Lemma right_built : forall psi1 psi2,
  built G1 G2 (oi_size psi1) (oi_size psi2) (oi_size psi1 * oi_size psi2) (oi_fun psi1) (oi_fun psi2)
    (kron (oi_size psi2) (oi_size psi2)) (tensor_right G1 G2 psi1 psi2).
Proof.
  intros psi1 psi2 a b A B Ha Hb EA EB; unfold tensor_right; rewrite split_pr by assumption; cbn [bind fst snd].
  rewrite !ocall_ok, EA by assumption; cbn [bind]; rewrite EB; reflexivity.
Qed.

Lemma left_built : forall psi1 psi2 h2, oi_size psi2 = (2 * h2)%nat ->
  built G1 G2 (oi_size psi1) (oi_size psi2) (2 * (oi_size psi1 * h2)) (oi_fun psi1) (oi_fun psi2)
    (FL (oi_size psi1) h2) (tensor_left G1 G2 psi1 psi2).
Proof.
  intros psi1 psi2 h2 E2 a b A B Ha Hb EA EB; unfold tensor_left; rewrite split_pr by assumption; cbn [bind fst snd].
  rewrite !ocall_ok, EA by assumption; cbn [bind]; rewrite EB; cbn [bind fst snd].
  rewrite E2, half_prod; replace (2 * h2 / 2)%nat with h2 by (rewrite Nat.mul_comm, Nat.div_mul; lia).
  rewrite !Nat.eqb_refl; cbn [andb assert_ bind]; unfold FL; do 2 f_equal; lia.
Qed.

Lemma complex_built : forall psi1 psi2 i h1 h2, oi_size psi1 = (2 * h1)%nat -> oi_size psi2 = (2 * h2)%nat ->
  built G1 G2 (oi_size psi1) (oi_size psi2) (2 * (h1 * h2)) (oi_fun psi1) (oi_fun psi2)
    (FC i h1 h2) (tensor_complex G1 G2 psi1 psi2 i).
Proof.
  intros psi1 psi2 i h1 h2 E1 E2 a b A B Ha Hb EA EB; unfold tensor_complex; rewrite split_pr by assumption; cbn [bind fst snd].
  rewrite !ocall_ok, EA by assumption; cbn [bind]; rewrite EB; cbn [bind fst snd].
  rewrite E1, E2, half_prod.
  replace (2 * h1 / 2)%nat with h1 by (rewrite Nat.mul_comm, Nat.div_mul; lia).
  replace (2 * h2 / 2)%nat with h2 by (rewrite Nat.mul_comm, Nat.div_mul; lia).
  replace (2 * h1 * h2 / 2)%nat with (h1 * h2)%nat by (replace (2 * h1 * h2)%nat with (h1 * h2 * 2)%nat by lia; symmetry; apply Nat.div_mul; lia).
  rewrite !Nat.eqb_refl; cbn [andb assert_ bind]; unfold FC; do 2 f_equal; lia.
Qed.

Lemma copies_mid : forall n s m phi, indexes n s m phi -> forall F, meq n n (F mid mid) mid -> copies s m phi (F mid mid) mid ->
  forall i q j q', (i < s)%nat -> (q < m)%nat -> (j < s)%nat -> (q' < m)%nat -> mid (phi i q) (phi j q') = mid i j * mid q q'.
Proof.
  intros n s m phi I F E C i q j q' Hi Hq Hj Hq'; rewrite <- (E (phi i q) (phi j q')) by (apply (ix_lt _ _ _ _ I); assumption).
  apply C; assumption.
Qed.

(** [X] with both factors: the first one real *)
Lemma commutant_real : forall n s m phi X (S1 S2 : mat -> Prop) FA FB,
  indexes n s m phi -> (0 < s)%nat ->
  (forall Y, (forall A, S1 A -> meq s s (mmul s A Y) (mmul s Y A)) ->
     forall i j, (i < s)%nat -> (j < s)%nat -> Y i j = Y 0%nat 0%nat * mid i j) ->
  (forall A, S1 A -> copies s m phi (FA A) A /\ meq n n (mmul n (FA A) X) (mmul n X (FA A))) ->
  (forall B, S2 B -> copies m s (fun q i => phi i q) (FB B) B /\ meq n n (mmul n (FB B) X) (mmul n X (FB B))) ->
  exists M, (forall B, S2 B -> meq m m (mmul m B M) (mmul m M B)) /\
    forall i q j q', (i < s)%nat -> (q < m)%nat -> (j < s)%nat -> (q' < m)%nat -> X (phi i q) (phi j q') = M q q' * mid i j.
Proof.
  intros n s m phi X S1 S2 FA FB I Hs Sc HA HB.
  exists (blk (fun q i => phi i q) (fun q i => phi i q) X 0 0); split.
  - intros B SB; destruct (HB B SB) as [C E].
    apply (copies_block n m s (fun q i => phi i q) n m s (fun q i => phi i q) (FB B) B (FB B) B X); try assumption; apply indexes_flip; exact I.
  - intros i q j q' Hi Hq Hj Hq'; apply (Sc (blk phi phi X q q')); try assumption.
    intros A SA; destruct (HA A SA) as [C E]; apply (copies_block n s m phi n s m phi (FA A) A (FA A) A X); assumption.
Qed.

Definition vals {V} (G : gobj V) (r : oirrep V) (A : mat) : Prop := exists g, el_mem G g /\ oi_fun r g = Ret (oi_size r, A).

Lemma vals_scalar : forall V (G : gobj V) r, good_irrep G r -> oi_type r = TR ->
  forall Y, (forall A, vals G r A -> meq (oi_size r) (oi_size r) (mmul (oi_size r) A Y) (mmul (oi_size r) Y A)) ->
     forall i j, (i < oi_size r)%nat -> (j < oi_size r)%nat -> Y i j = Y 0%nat 0%nat * mid i j.
Proof.
  intros V G r Hr T Y HY; pose proof (gi_comm _ _ Hr) as S; rewrite (good_R V G r Hr T) in S.
  apply (of_R (el_mem G) (oi_size r) (oi_fun r) S (good_pos V G r Hr)); intros g A Hg EA; apply HY; exists g; split; assumption.
Qed.

Lemma vals_complex : forall V (G : gobj V) r h, good_irrep G r -> (0 < h)%nat -> oi_size r = (2 * h)%nat ->
  oi_endo r = [kron h h mid mid; kron h h J2 mid] ->
  forall Y, (forall A, vals G r A -> meq (oi_size r) (oi_size r) (mmul (oi_size r) A Y) (mmul (oi_size r) Y A)) ->
     forall i j, (i < oi_size r)%nat -> (j < oi_size r)%nat -> Y i j = Y 0%nat 0%nat * mid i j + Y h 0%nat * kron h h J2 mid i j.
Proof.
  intros V G r h Hr Hh E K Y HY; pose proof (gi_comm _ _ Hr) as S; rewrite K in S.
  apply (of_C (el_mem G) (oi_size r) (oi_fun r) h E Hh S); intros g A Hg EA; apply HY; exists g; split; assumption.
Qed.

Lemma any_holds : forall V (G : gobj V) f s, holds G f s any.
Proof. intros V G f s g A _ _; exact I. Qed.

Lemma J_at3 : forall s h e p q e' p' q', (p < s)%nat -> (p' < s)%nat -> (q < h)%nat -> (q' < h)%nat ->
  kron (s * h) (s * h) J2 mid (e * (s * h) + (p * h + q))%nat (e' * (s * h) + (p' * h + q'))%nat =
  J2 e e' * (mid p p' * mid q q').
Proof.
  intros s h e p q e' p' q' Hp Hp' Hq Hq'; rewrite kron_at by (apply index_lt; assumption); rewrite mid_at by assumption; reflexivity.
Qed.

Section Pair.
Variables (psi1 : oirrep V1) (psi2 : oirrep V2).
Hypothesis H1 : good_irrep G1 psi1.
Hypothesis H2 : good_irrep G2 psi2.
Let s1 := oi_size psi1.
Let s2 := oi_size psi2.

(** np.kron, the second factor real *)
Lemma right_first : forall X rho, built G1 G2 s1 s2 (s1 * s2) (oi_fun psi1) (oi_fun psi2) (kron s2 s2) rho ->
  commuting (el_mem P) (s1 * s2) rho X -> forall A, vals G1 psi1 A ->
  meq (s1 * s2) (s1 * s2) (mmul (s1 * s2) (kron s2 s2 A mid) X) (mmul (s1 * s2) X (kron s2 s2 A mid)).
Proof.
  intros X rho B C A (a & Ha & EA).
  apply (built_first G1 G2 s1 s2 (s1 * s2) (oi_fun psi1) (oi_fun psi2) (kron s2 s2) rho any any
    s1 s2 (s1 * s2) (oi_fun psi1) (oi_fun psi2) (kron s2 s2) rho any any X) with (a := a);
    try assumption; try apply (gi_orth _ _ H2); try (apply kron_tensor, (good_pos _ _ _ H2)).
  intros g R R' Hg ER ER'; rewrite ER in ER'; apply Ret_inj in ER'; injection ER' as <-; apply (C g); assumption.
Qed.

Lemma right_second : forall X rho, built G1 G2 s1 s2 (s1 * s2) (oi_fun psi1) (oi_fun psi2) (kron s2 s2) rho ->
  commuting (el_mem P) (s1 * s2) rho X -> forall B, vals G2 psi2 B ->
  meq (s1 * s2) (s1 * s2) (mmul (s1 * s2) (kron s2 s2 mid B) X) (mmul (s1 * s2) X (kron s2 s2 mid B)).
Proof.
  intros X rho Bu C B (b & Hb & EB).
  apply (built_second G1 G2 s1 s2 (s1 * s2) (oi_fun psi1) (oi_fun psi2) (kron s2 s2) rho any any
    s1 s2 (s1 * s2) (oi_fun psi1) (oi_fun psi2) (kron s2 s2) rho any any X) with (b := b);
    try assumption; try apply (gi_orth _ _ H1); try (apply kron_tensor, (good_pos _ _ _ H2)).
  intros g R R' Hg ER ER'; rewrite ER in ER'; apply Ret_inj in ER'; injection ER' as <-; apply (C g); assumption.
Qed.

Lemma right_char : is_character (el_mem P) (s1 * s2) (tensor_right G1 G2 psi1 psi2) (tensor_char G1 G2 psi1 psi2).
Proof.
  intros g Hg; apply pr_inv in Hg as (a & b & Ha & Hb & ->).
  destruct (gi_trace _ _ H1 a Ha) as (A & EA & CA), (gi_trace _ _ H2 b Hb) as (B & EB & CB).
  exists (kron s2 s2 A B); split; [apply right_built; assumption|].
  unfold tensor_char; rewrite split_pr by assumption; cbn [bind fst snd]; rewrite !ochar_ok, CA by assumption; cbn [bind]; rewrite CB; cbn [bind].
  rewrite kron_trace; reflexivity.
Qed.

Lemma right_orth : orth_rep (el_mem P) (el_mul P) (el_inv P) (el_one P) (s1 * s2) (tensor_right G1 G2 psi1 psi2).
Proof.
  apply (built_orth G1 G2 s1 s2 (s1 * s2) (oi_fun psi1) (oi_fun psi2) (kron s2 s2) _ any any); try assumption;
    try apply (gi_orth _ _ H1); try apply (gi_orth _ _ H2); try apply any_holds; try (intros; exact I).
  - apply kron_tensor, (good_pos _ _ _ H2).
  - apply right_built.
Qed.

Lemma good_RR : oi_type psi1 = TR -> oi_type psi2 = TR -> forall id1 id2 i, good_irrep P (build id1 id2 psi1 psi2 i).
Proof.
  intros T1 T2 id1 id2 i; unfold build; rewrite T1, T2; cbn [is_TR is_TC andb].
  pose proof (good_pos _ _ _ H1) as P1; pose proof (good_pos _ _ _ H2) as P2; fold s1 s2 in P1, P2 |- *.
  assert (SC : spans_commutant (el_mem P) (s1 * s2) (tensor_right G1 G2 psi1 psi2) [mid] /\ irreducible (el_mem P) (s1 * s2) (tensor_right G1 G2 psi1 psi2)).
  { apply spans_R; [nia|]; intros X C.
    destruct (commutant_real (s1 * s2) s1 s2 (fun i q => (i * s2 + q)%nat) X (vals G1 psi1) (vals G2 psi2)
      (fun A => kron s2 s2 A mid) (fun B => kron s2 s2 mid B)) as (M & HM & EX).
    - apply indexes_pair.
    - exact P1.
    - apply (vals_scalar _ G1 psi1 H1 T1).
    - intros A SA; split; [apply kron_first|apply (right_first X _ (right_built psi1 psi2) C A SA)].
    - intros B SB; split; [apply kron_second|apply (right_second X _ (right_built psi1 psi2) C B SB)].
    - pose proof (vals_scalar _ G2 psi2 H2 T2 M HM) as EM; exists (M 0%nat 0%nat); intros x y Hx Hy.
      apply split_index in Hx as (i1 & q1 & Hi1 & Hq1 & ->); apply split_index in Hy as (i2 & q2 & Hi2 & Hq2 & ->).
      rewrite EX, EM, mid_at by assumption; ring. }
  constructor; cbn [oi_type oi_size oi_fun oi_chi]; [apply right_orth|apply right_char|exact I| |apply SC].
  unfold oi_endo; cbn [oi_type]; apply SC.
Qed.

Lemma good_CR : oi_type psi1 = TC -> oi_type psi2 = TR -> forall id1 id2 i, good_irrep P (build id1 id2 psi1 psi2 i).
Proof.
  intros T1 T2 id1 id2 i; unfold build; rewrite T1, T2; cbn [is_TR is_TC andb].
  destruct (good_h _ _ _ H1 T1) as (h & Ph & Es & Ed & HR & HE).
  pose proof (good_pos _ _ _ H2) as P2; fold s1 s2 in P2, Es, Ed, HR |- *.
  assert (En : (s1 * s2 = 2 * (h * s2))%nat) by lia.
  assert (RF : forall g A, el_mem P g -> tensor_right G1 G2 psi1 psi2 g = Ret ((s1 * s2)%nat, A) -> realified (h * s2) A).
  { intros g R Hg ER; apply pr_inv in Hg as (a & b & Ha & Hb & ->).
    destruct (or_total _ _ _ _ _ _ (gi_orth _ _ H1) a Ha) as (A & EA & _), (or_total _ _ _ _ _ _ (gi_orth _ _ H2) b Hb) as (B & EB & _).
    pose proof (right_built psi1 psi2 a b A B Ha Hb EA EB) as E; fold s1 s2 in E; rewrite ER in E; apply Ret_inj in E.
    assert (R = kron s2 s2 A B) by congruence; subst R; apply kron_realified; [exact P2|]; apply (HR a); assumption. }
  assert (SC : spans_commutant (el_mem P) (s1 * s2) (tensor_right G1 G2 psi1 psi2) [kron (h * s2) (h * s2) mid mid; kron (h * s2) (h * s2) J2 mid] /\
    irreducible (el_mem P) (s1 * s2) (tensor_right G1 G2 psi1 psi2)).
  { apply spans_C; [exact En|nia|exact RF|]; intros X C.
    destruct (commutant_real (s1 * s2) s2 s1 (fun q i => (i * s2 + q)%nat) X (vals G2 psi2) (vals G1 psi1)
      (fun B => kron s2 s2 mid B) (fun A => kron s2 s2 A mid)) as (M & HM & EX).
    - apply (indexes_flip _ _ _ (fun i q => (i * s2 + q)%nat)), indexes_pair.
    - exact P2.
    - apply (vals_scalar _ G2 psi2 H2 T2).
    - intros B SB; split; [apply kron_second|apply (right_second X _ (right_built psi1 psi2) C B SB)].
    - intros A SA; split; [apply kron_first|apply (right_first X _ (right_built psi1 psi2) C A SA)].
    - pose proof (vals_complex _ G1 psi1 h H1 Ph Es HE M HM) as EM; exists (M 0%nat 0%nat), (M h 0%nat); intros x y Hx Hy.
      apply split_index in Hx as (i1 & q1 & Hi1 & Hq1 & ->); apply split_index in Hy as (i2 & q2 & Hi2 & Hq2 & ->).
      rewrite EX, EM, mid_at by assumption.
      rewrite Es in Hi1, Hi2; apply split_index in Hi1 as (e1 & p1 & He1 & Hp1 & ->); apply split_index in Hi2 as (e2 & p2 & He2 & Hp2 & ->).
      replace ((e1 * h + p1) * s2 + q1)%nat with (e1 * (h * s2) + (p1 * s2 + q1))%nat by lia.
      replace ((e2 * h + p2) * s2 + q2)%nat with (e2 * (h * s2) + (p2 * s2 + q2))%nat by lia.
      rewrite J_at3, kron_at by assumption; ring. }
  constructor; cbn [oi_type oi_size oi_fun oi_chi]; [apply right_orth|apply right_char|exists (h * s2)%nat; split; [exact En|exact RF]| |apply SC].
  unfold oi_endo; cbn [oi_type oi_size].
  replace (s1 * s2 / 2)%nat with (h * s2)%nat by (rewrite En, half2; reflexivity).
  apply SC.
Qed.

(** tensor_product_left *)
Lemma good_RC : oi_type psi1 = TR -> oi_type psi2 = TC -> forall id1 id2 i, good_irrep P (build id1 id2 psi1 psi2 i).
Proof.
  intros T1 T2 id1 id2 i; unfold build; rewrite T1, T2; cbn [is_TR is_TC andb].
  destruct (good_h _ _ _ H2 T2) as (h & Ph & Es & Ed & HR & HE).
  pose proof (good_pos _ _ _ H1) as P1; fold s1 s2 in P1, Es, Ed, HR |- *.
  assert (En : (s1 * s2 = 2 * (s1 * h))%nat) by lia; rewrite En.
  pose proof (left_built psi1 psi2 h Es) as Bu; fold s1 s2 in Bu.
  pose proof (FL_tensor s1 h Ph) as T; rewrite <- Es in T.
  set (n := (2 * (s1 * h))%nat) in *.
  assert (RF : forall g A, el_mem P g -> tensor_left G1 G2 psi1 psi2 g = Ret (n, A) -> realified (s1 * h) A).
  { intros g R Hg ER; apply pr_inv in Hg as (a & b & Ha & Hb & ->).
    destruct (or_total _ _ _ _ _ _ (gi_orth _ _ H1) a Ha) as (A & EA & _), (or_total _ _ _ _ _ _ (gi_orth _ _ H2) b Hb) as (B & EB & _).
    rewrite (Bu a b A B Ha Hb EA EB) in ER; apply Ret_inj in ER.
    assert (R = FL s1 h A B) by congruence; subst R; apply fill_realified. }
  assert (SC : spans_commutant (el_mem P) n (tensor_left G1 G2 psi1 psi2) [kron (s1 * h) (s1 * h) mid mid; kron (s1 * h) (s1 * h) J2 mid] /\
    irreducible (el_mem P) n (tensor_left G1 G2 psi1 psi2)).
  { apply spans_C; [reflexivity|nia|exact RF|]; intros X C.
    assert (CC : forall g R R', el_mem P g -> tensor_left G1 G2 psi1 psi2 g = Ret (n, R) -> tensor_left G1 G2 psi1 psi2 g = Ret (n, R') ->
      meq n n (mmul n R X) (mmul n X R')).
    { intros g R R' Hg ER ER'; rewrite ER in ER'; apply Ret_inj in ER'; assert (R = R') by congruence; subst R'; apply (C g); assumption. }
    destruct (commutant_real n s1 s2 (phi3 s1 h) X (vals G1 psi1) (vals G2 psi2)
      (fun A => FL s1 h A mid) (fun B => FL s1 h mid B)) as (M & HM & EX).
    - rewrite Es; apply indexes_phi3.
    - exact P1.
    - apply (vals_scalar _ G1 psi1 H1 T1).
    - intros A (a & Ha & EA); rewrite Es; split; [apply FL_first|].
      exact (built_first G1 G2 s1 s2 n _ _ _ _ any (realified h) s1 s2 n _ _ _ _ any (realified h) X
        (gi_orth _ _ H2) (gi_orth _ _ H2) HG2 T T Bu Bu CC a A A Ha EA EA).
    - intros B (b & Hb & EB); pose proof (HR b B Hb EB) as RB; rewrite Es; split; [apply FL_second; exact RB|].
      exact (built_second G1 G2 s1 s2 n _ _ _ _ any (realified h) s1 s2 n _ _ _ _ any (realified h) X
        (gi_orth _ _ H1) (gi_orth _ _ H1) HG1 T T Bu Bu CC b B B Hb EB EB).
    - pose proof (vals_complex _ G2 psi2 h H2 Ph Es HE M HM) as EM; exists (M 0%nat 0%nat), (M h 0%nat); intros x y Hx Hy.
      destruct (ix_onto _ _ _ _ (indexes_phi3 s1 h) x Hx) as (i1 & k1 & Hi1 & Hk1 & ->).
      destruct (ix_onto _ _ _ _ (indexes_phi3 s1 h) y Hy) as (i2 & k2 & Hi2 & Hk2 & ->).
      rewrite EX by (assumption || (rewrite Es; assumption)); rewrite EM by (fold s2; rewrite Es; assumption).
      apply split_index in Hk1 as (e1 & q1 & He1 & Hq1 & ->); apply split_index in Hk2 as (e2 & q2 & He2 & Hq2 & ->).
      rewrite !phi3_at, J_at3, kron_at by assumption; rewrite !mid_at by (assumption || (apply index_lt; assumption)); ring. }
  constructor; cbn [oi_type oi_size oi_fun oi_chi]; [| |exists (s1 * h)%nat; split; [reflexivity|exact RF]| |apply SC].
  - apply (built_orth G1 G2 s1 s2 n (oi_fun psi1) (oi_fun psi2) (FL s1 h) _ any (realified h)); try assumption;
      try apply (gi_orth _ _ H1); try apply (gi_orth _ _ H2); try apply any_holds; try (intros; exact I); apply realified_tr.
  - intros g Hg; apply pr_inv in Hg as (a & b & Ha & Hb & ->).
    destruct (gi_trace _ _ H1 a Ha) as (A & EA & CA), (gi_trace _ _ H2 b Hb) as (B & EB & CB).
    exists (FL s1 h A B); split; [apply Bu; assumption|].
    unfold tensor_char; rewrite split_pr by assumption; cbn [bind fst snd]; rewrite !ochar_ok, CA by assumption; cbn [bind]; rewrite CB; cbn [bind].
    unfold FL, n; rewrite fill_trace, kron_trace; fold s1 s2; rewrite Es, (realified_trace h B (HR b B Hb EB)); f_equal; ring.
  - unfold oi_endo; cbn [oi_type oi_size].
    replace (n / 2)%nat with (s1 * h)%nat by (unfold n; rewrite half2; reflexivity).
    apply SC.
Qed.
End Pair.
End Fin.
