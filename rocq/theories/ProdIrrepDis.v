(** Products of two complex irreps, and intertwiners between products. *)
From Coq Require Import Reals ZArith List Lia Lra Bool Arith.
From Verif Require Import LibRes LibMat LibMatS SpecGroup SpecRep ProdModel ProdProofs SpecProd ParamModel PlanarModel
  ProdIrrepModel SpecProdIrrep ProdIrrepProofs ProdIrrepThms ProdIrrepCor ProdIrrepFin.
Import ListNotations.
Open Scope R_scope.

(** ** undoing the conjugation *)
Lemma conj_intertwines : forall i h i' h' n n' B B' Y,
  meq n n' (mmul n (conj i h B) Y) (mmul n' Y (conj i' h' B')) ->
  meq n n' (mmul n B (fun r c => csign i h r * Y r c * csign i' h' c))
           (mmul n' (fun r c => csign i h r * Y r c * csign i' h' c) B').
Proof.
  intros i h i' h' n n' B B' Y H r c Hr Hc; specialize (H r c Hr Hc); unfold mmul, conj in *.
  transitivity (csign i h r * sumn n (fun l => csign i h r * B r l * csign i h l * Y l c) * csign i' h' c).
  - rewrite <- sumn_scal_l, <- sumn_scal_r; apply sumn_ext; intros l _.
    transitivity ((csign i h r * csign i h r) * (B r l * (csign i h l * Y l c * csign i' h' c))); [rewrite csign_sq|]; ring.
  - rewrite H, <- sumn_scal_l, <- sumn_scal_r; apply sumn_ext; intros l _.
    transitivity ((csign i' h' c * csign i' h' c) * (csign i h r * Y r l * csign i' h' l * B' l c)); [|rewrite csign_sq]; ring.
Qed.

Lemma csign_0 : forall i h r, (r < h)%nat -> csign i h r = 1.
Proof. intros i h r H; unfold csign; rewrite (proj2 (Nat.ltb_lt _ _) H); reflexivity. Qed.

Lemma csign_1 : forall i h r, (h <= r)%nat -> csign i h r = csgn i.
Proof. intros i h r H; unfold csign; rewrite (proj2 (Nat.ltb_ge _ _) H); reflexivity. Qed.

Section Dis.
Context {V1 V2 : Type} (G1 : gobj V1) (G2 : gobj V2).
Let P := prod_grp G1 G2.
Hypothesis HG1 : is_group (el_mem G1) (el_mul G1) (el_inv G1) (el_one G1).
Hypothesis HG2 : is_group (el_mem G2) (el_mul G2) (el_inv G2) (el_one G2).

(** An intertwiner of two products of the same complex irreps. *)
Lemma complex_intertwiner : forall psi1 psi2 i i' h1 h2 X, good_irrep G1 psi1 -> good_irrep G2 psi2 ->
  (0 < h1)%nat -> (0 < h2)%nat -> oi_size psi1 = (2 * h1)%nat -> oi_size psi2 = (2 * h2)%nat ->
  holds G1 (oi_fun psi1) (oi_size psi1) (realified h1) -> holds G2 (oi_fun psi2) (oi_size psi2) (realified h2) ->
  oi_endo psi1 = [kron h1 h1 mid mid; kron h1 h1 J2 mid] -> oi_endo psi2 = [kron h2 h2 mid mid; kron h2 h2 J2 mid] ->
  let n := (2 * (h1 * h2))%nat in
  (forall g R R', el_mem P g -> tensor_complex G1 G2 psi1 psi2 i g = Ret (n, R) -> tensor_complex G1 G2 psi1 psi2 i' g = Ret (n, R') ->
     meq n n (mmul n R X) (mmul n X R')) ->
  exists c d, csgn i' * c = csgn i * c /\ csgn i' * d = csgn i * d /\
    forall x y, (x < n)%nat -> (y < n)%nat -> X x y = c * mid x y + d * kron (h1 * h2) (h1 * h2) J2 mid x y.
Proof.
  intros psi1 psi2 i i' h1 h2 X H1 H2 P1 P2 E1 E2 R1 R2 En1 En2 n C.
  set (s1 := oi_size psi1) in *; set (s2 := oi_size psi2) in *.
  pose proof (complex_built G1 G2 psi1 psi2 i h1 h2 E1 E2) as Bu; pose proof (complex_built G1 G2 psi1 psi2 i' h1 h2 E1 E2) as Bu'.
  fold s1 s2 n in Bu, Bu'.
  pose proof (FC_tensor i h1 h2 P2) as T; pose proof (FC_tensor i' h1 h2 P2) as T'; rewrite <- E1, <- E2 in T, T'; fold n in T, T'.
  set (phi := fun x q => (x * h2 + q)%nat).
  assert (I1 : indexes n s1 h2 phi) by (unfold n; rewrite E1, Nat.mul_assoc; apply indexes_pair).
  set (C0 := fun q q' => X (phi 0%nat q) (phi 0%nat q')); set (C1 := fun q q' => X (phi h1 q) (phi 0%nat q')).
  assert (EX : forall x q x' q', (x < s1)%nat -> (q < h2)%nat -> (x' < s1)%nat -> (q' < h2)%nat ->
    X (phi x q) (phi x' q') = C0 q q' * mid x x' + C1 q q' * kron h1 h1 J2 mid x x').
  { intros x q x' q' Hx Hq Hx' Hq'.
    apply (vals_complex _ G1 psi1 h1 H1 P1 E1 En1 (blk phi phi X q q')); try assumption.
    intros A (a & Ha & EA); pose proof (R1 a A Ha EA) as RA.
    apply (copies_block n s1 h2 phi n s1 h2 phi (FC i h1 h2 A mid) A (FC i' h1 h2 A mid) A X); try assumption.
    - rewrite E1; apply FC_first; exact RA.
    - rewrite E1; apply FC_first; exact RA.
    - exact (built_first G1 G2 s1 s2 n _ _ _ _ (realified h1) (realified h2) s1 s2 n _ _ _ _ (realified h1) (realified h2) X
        (gi_orth _ _ H2) (gi_orth _ _ H2) HG2 T T' Bu Bu' C a A A Ha EA EA). }
  set (ph2 := fun k p => phi3 h1 h2 p k).
  assert (I2 : indexes n s2 h1 ph2) by (unfold n; rewrite E2; apply (indexes_flip _ _ _ (phi3 h1 h2)), indexes_phi3).
  set (M := blk ph2 ph2 X 0 0).
  assert (EM : forall e q e' q', (e < 2)%nat -> (q < h2)%nat -> (e' < 2)%nat -> (q' < h2)%nat ->
    M (e * h2 + q)%nat (e' * h2 + q')%nat = C0 q q' * mid e e' + C1 q q' * J2 e e').
  { intros e q e' q' He Hq He' Hq'; unfold M, blk, ph2; rewrite !phi3_at by assumption.
    replace (e * (h1 * h2) + (0 * h2 + q))%nat with (phi (e * h1 + 0)%nat q) by (unfold phi; lia).
    replace (e' * (h1 * h2) + (0 * h2 + q'))%nat with (phi (e' * h1 + 0)%nat q') by (unfold phi; lia).
    rewrite EX by (assumption || (rewrite E1; apply index_lt; assumption)).
    rewrite mid_at, kron_at by assumption; replace (mid 0%nat 0%nat) with 1 by reflexivity; ring. }
  set (Z := fun r c => csign i h2 r * M r c * csign i' h2 c).
  assert (EZ : forall r c, (r < s2)%nat -> (c < s2)%nat -> Z r c = Z 0%nat 0%nat * mid r c + Z h2 0%nat * kron h2 h2 J2 mid r c).
  { apply (vals_complex _ G2 psi2 h2 H2 P2 E2 En2 Z); intros B (b & Hb & EB); pose proof (R2 b B Hb EB) as RB.
    apply conj_intertwines.
    apply (copies_block n s2 h1 ph2 n s2 h1 ph2 (FC i h1 h2 mid B) (conj i h2 B) (FC i' h1 h2 mid B) (conj i' h2 B) X); try assumption.
    - rewrite E2; apply FC_second; exact RB.
    - rewrite E2; apply FC_second; exact RB.
    - exact (built_second G1 G2 s1 s2 n _ _ _ _ (realified h1) (realified h2) s1 s2 n _ _ _ _ (realified h1) (realified h2) X
        (gi_orth _ _ H1) (gi_orth _ _ H1) HG1 T T' Bu Bu' C b B B Hb EB EB). }
  set (c := Z 0%nat 0%nat) in *; set (d := Z h2 0%nat) in *.
  (* the four blocks of Z *)
  assert (Q : forall e q e' q', (e < 2)%nat -> (q < h2)%nat -> (e' < 2)%nat -> (q' < h2)%nat ->
    csign i h2 (e * h2 + q) * (C0 q q' * mid e e' + C1 q q' * J2 e e') * csign i' h2 (e' * h2 + q') =
    (c * mid e e' + d * J2 e e') * mid q q').
  { intros e q e' q' He Hq He' Hq'; rewrite <- EM by assumption.
    change (Z (e * h2 + q)%nat (e' * h2 + q')%nat = (c * mid e e' + d * J2 e e') * mid q q').
    rewrite EZ by (rewrite E2; apply index_lt; assumption); rewrite mid_at, kron_at by assumption; ring. }
  assert (S0 : forall j q, (q < h2)%nat -> csign j h2 (0 * h2 + q) = 1) by (intros; apply csign_0; lia).
  assert (S1 : forall j q, (q < h2)%nat -> csign j h2 (1 * h2 + q) = csgn j) by (intros; apply csign_1; lia).
  assert (D0 : forall q q', (q < h2)%nat -> (q' < h2)%nat -> C0 q q' = c * mid q q').
  { intros q q' Hq Hq'; specialize (Q 0%nat q 0%nat q' ltac:(lia) Hq ltac:(lia) Hq'); rewrite !S0 in Q by assumption.
    unfold mat2 in Q; replace (mid 0%nat 0%nat) with 1 in Q by reflexivity; lra. }
  assert (D1 : forall q q', (q < h2)%nat -> (q' < h2)%nat -> csgn i * C1 q q' = d * mid q q').
  { intros q q' Hq Hq'; specialize (Q 1%nat q 0%nat q' ltac:(lia) Hq ltac:(lia) Hq'); rewrite S0, S1 in Q by assumption.
    unfold mat2 in Q; replace (mid 1%nat 0%nat) with 0 in Q by reflexivity; lra. }
  exists c, (csgn i * d).
  pose proof (csgn_sq i) as Si; pose proof (csgn_sq i') as Si'.
  assert (K0 : csgn i * c * csgn i' = c).
  { specialize (Q 1%nat 0%nat 1%nat 0%nat ltac:(lia) P2 ltac:(lia) P2); rewrite !S1, D0 in Q by assumption.
    unfold mat2 in Q; replace (mid 1%nat 1%nat) with 1 in Q by reflexivity; replace (mid 0%nat 0%nat) with 1 in Q by reflexivity; lra. }
  assert (K1 : C1 0%nat 0%nat * csgn i' = d).
  { specialize (Q 0%nat 0%nat 1%nat 0%nat ltac:(lia) P2 ltac:(lia) P2); rewrite S0, S1 in Q by assumption.
    unfold mat2 in Q; replace (mid 0%nat 1%nat) with 0 in Q by reflexivity; replace (mid 0%nat 0%nat) with 1 in Q by reflexivity; lra. }
  assert (K2 : csgn i * C1 0%nat 0%nat = d).
  { rewrite D1 by assumption; replace (mid 0%nat 0%nat) with 1 by reflexivity; ring. }
  split; [|split].
  - rewrite <- K0 at 1; transitivity (csgn i * c * (csgn i' * csgn i')); [ring|rewrite Si'; ring].
  - assert (L : csgn i' * (csgn i * d) = d).
    { rewrite <- K2 at 1; transitivity ((csgn i * csgn i) * (C1 0%nat 0%nat * csgn i')); [ring|]; rewrite Si, K1; ring. }
    rewrite L, <- Rmult_assoc, Si; ring.
  - intros x y Hx Hy.
    destruct (ix_onto _ _ _ _ I1 x Hx) as (u & q & Hu & Hq & ->), (ix_onto _ _ _ _ I1 y Hy) as (u' & q' & Hu' & Hq' & ->).
    rewrite EX by assumption; rewrite D0 by assumption.
    assert (D1' : C1 q q' = csgn i * d * mid q q').
    { rewrite Rmult_assoc, <- D1 by assumption; rewrite <- Rmult_assoc, Si; ring. }
    rewrite D1'; unfold phi; rewrite mid_at by assumption.
    rewrite E1 in Hu, Hu'; apply split_index in Hu as (e & p & He & Hp & ->); apply split_index in Hu' as (e' & p' & He' & Hp' & ->).
    replace ((e * h1 + p) * h2 + q)%nat with (e * (h1 * h2) + (p * h2 + q))%nat by lia.
    replace ((e' * h1 + p') * h2 + q')%nat with (e' * (h1 * h2) + (p' * h2 + q'))%nat by lia.
    rewrite J_at3, kron_at by assumption; ring.
Qed.

Lemma good_CC : forall psi1 psi2, good_irrep G1 psi1 -> good_irrep G2 psi2 -> oi_type psi1 = TC -> oi_type psi2 = TC ->
  forall id1 id2 i, good_irrep P (build G1 G2 id1 id2 psi1 psi2 i).
Proof.
  intros psi1 psi2 H1 H2 T1 T2 id1 id2 i; unfold build; rewrite T1, T2; cbn [is_TR is_TC andb].
  destruct (good_h _ _ _ H1 T1) as (h1 & P1 & E1 & D1 & R1 & En1), (good_h _ _ _ H2 T2) as (h2 & P2 & E2 & D2 & R2 & En2).
  assert (En : (oi_size psi1 * oi_size psi2 / 2 = 2 * (h1 * h2))%nat) by (rewrite E1, E2, half_prod; lia); rewrite En.
  pose proof (complex_built G1 G2 psi1 psi2 i h1 h2 E1 E2) as Bu.
  pose proof (FC_tensor i h1 h2 P2) as T; rewrite <- E1, <- E2 in T.
  set (n := (2 * (h1 * h2))%nat) in *.
  assert (RF : forall g A, el_mem P g -> tensor_complex G1 G2 psi1 psi2 i g = Ret (n, A) -> realified (h1 * h2) A).
  { intros g R Hg ER; apply pr_inv in Hg as (a & b & Ha & Hb & ->).
    destruct (or_total _ _ _ _ _ _ (gi_orth _ _ H1) a Ha) as (A & EA & _), (or_total _ _ _ _ _ _ (gi_orth _ _ H2) b Hb) as (B & EB & _).
    rewrite (Bu a b A B Ha Hb EA EB) in ER; apply Ret_inj in ER.
    assert (R = FC i h1 h2 A B) by congruence; subst R; apply fill_realified. }
  assert (SC : spans_commutant (el_mem P) n (tensor_complex G1 G2 psi1 psi2 i) [kron (h1 * h2) (h1 * h2) mid mid; kron (h1 * h2) (h1 * h2) J2 mid] /\
    irreducible (el_mem P) n (tensor_complex G1 G2 psi1 psi2 i)).
  { apply spans_C; [reflexivity|nia|exact RF|]; intros X C.
    destruct (complex_intertwiner psi1 psi2 i i h1 h2 X H1 H2 P1 P2 E1 E2 R1 R2 En1 En2) as (c & d & _ & _ & EX).
    - intros g R R' Hg ER ER'; rewrite ER in ER'; apply Ret_inj in ER'; assert (R = R') by congruence; subst R'; apply (C g); assumption.
    - exists c, d; exact EX. }
  constructor; cbn [oi_type oi_size oi_fun oi_chi]; [| |exists (h1 * h2)%nat; split; [reflexivity|exact RF]| |apply SC].
  - apply (built_orth G1 G2 (oi_size psi1) (oi_size psi2) n (oi_fun psi1) (oi_fun psi2) (FC i h1 h2) _ (realified h1) (realified h2)); try assumption;
      try apply (gi_orth _ _ H1); try apply (gi_orth _ _ H2); apply realified_tr.
  - intros g Hg; apply pr_inv in Hg as (a & b & Ha & Hb & ->).
    destruct (gi_trace _ _ H1 a Ha) as (A & EA & CA), (gi_trace _ _ H2 b Hb) as (B & EB & CB).
    exists (FC i h1 h2 A B); split; [apply Bu; assumption|].
    unfold complex_char; rewrite split_pr by assumption; cbn [bind fst snd]; rewrite !ocall_ok, EA by assumption; cbn [bind]; rewrite EB; cbn [bind fst snd].
    rewrite D1, D2; unfold FC, n; rewrite fill_trace; do 2 f_equal.
    rewrite <- !kron_trace; unfold trace, msub; rewrite sumn_minus; reflexivity.
  - unfold oi_endo; cbn [oi_type oi_size].
    replace (n / 2)%nat with (h1 * h2)%nat by (unfold n; rewrite half2; reflexivity).
    apply SC.
Qed.

Theorem good_build : forall psi1 psi2 id1 id2 i, good_irrep G1 psi1 -> good_irrep G2 psi2 -> good_irrep P (build G1 G2 id1 id2 psi1 psi2 i).
Proof.
  intros psi1 psi2 id1 id2 i H1 H2; pose proof (gi_form _ _ H1) as F1; pose proof (gi_form _ _ H2) as F2.
  destruct (oi_type psi1) eqn:T1, (oi_type psi2) eqn:T2; try contradiction.
  - apply good_RR; assumption. - apply good_RC; assumption. - apply good_CR; assumption. - apply good_CC; assumption.
Qed.

(** ** disjointness *)
(** how a built irrep contains its factors *)
Record shape (psi1 : oirrep V1) (psi2 : oirrep V2) (r : oirrep (V1 * V2)) : Prop := {
  sh_F : exists F Q1 Q2 m1 phi1 m2 phi2 j h,
    tensor (oi_size psi1) (oi_size psi2) (oi_size r) Q1 Q2 F /\
    built G1 G2 (oi_size psi1) (oi_size psi2) (oi_size r) (oi_fun psi1) (oi_fun psi2) F (oi_fun r) /\
    indexes (oi_size r) (oi_size psi1) m1 phi1 /\ indexes (oi_size r) (oi_size psi2) m2 phi2 /\
    (forall A, vals G1 psi1 A -> copies (oi_size psi1) m1 phi1 (F A mid) A) /\
    (forall B, vals G2 psi2 B -> copies (oi_size psi2) m2 phi2 (F mid B) (conj j h B))
}.

Lemma conj0 : forall h s m phi R B, copies s m phi R B -> copies s m phi R (conj 0 h B).
Proof.
  intros h s m phi R B C i q j q' Hi Hq Hj Hq'; rewrite C by assumption; unfold conj.
  assert (S : forall x, csign 0 h x = 1) by (intros x; unfold csign, csgn; cbn [Z.eqb]; destruct (x <? h)%nat; reflexivity).
  rewrite !S; ring.
Qed.

Lemma build_shape : forall psi1 psi2 id1 id2 i, good_irrep G1 psi1 -> good_irrep G2 psi2 ->
  shape psi1 psi2 (build G1 G2 id1 id2 psi1 psi2 i).
Proof.
  intros psi1 psi2 id1 id2 i H1 H2; pose proof (gi_form _ _ H1) as F1; pose proof (gi_form _ _ H2) as F2.
  pose proof (good_pos _ _ _ H1) as P1; pose proof (good_pos _ _ _ H2) as P2.
  assert (RT : is_TC (oi_type psi1) && is_TC (oi_type psi2) = false -> is_TR (oi_type psi2) = true -> shape psi1 psi2 (build G1 G2 id1 id2 psi1 psi2 i)).
  { intros c t; constructor; unfold build; rewrite c, t; cbn [oi_size oi_fun].
    exists (kron (oi_size psi2) (oi_size psi2)), any, any, (oi_size psi2), (fun i q => (i * oi_size psi2 + q)%nat),
      (oi_size psi1), (fun q i => (i * oi_size psi2 + q)%nat), 0%Z, 0%nat.
    split; [apply kron_tensor; exact P2|]; split; [apply right_built|]; split; [apply indexes_pair|].
    split; [apply (indexes_flip _ _ _ (fun i q => (i * oi_size psi2 + q)%nat)), indexes_pair|].
    split; [intros A _; apply kron_first|]; intros B _; apply conj0, kron_second. }
  destruct (oi_type psi1) eqn:T1, (oi_type psi2) eqn:T2; try contradiction; try (apply RT; reflexivity); clear RT; constructor.
  - destruct (good_h _ _ _ H2 T2) as (h & Ph & Es & Ed & HR & _); unfold build; rewrite T1, T2; cbn [is_TR is_TC andb oi_size oi_fun].
    replace (oi_size psi1 * oi_size psi2)%nat with (2 * (oi_size psi1 * h))%nat by lia.
    exists (FL (oi_size psi1) h), any, (realified h), (2 * h)%nat, (phi3 (oi_size psi1) h), (oi_size psi1), (fun k p => phi3 (oi_size psi1) h p k), 0%Z, 0%nat.
    split; [rewrite Es; apply FL_tensor; exact Ph|]; split; [apply left_built; exact Es|]; split; [apply indexes_phi3|].
    split; [rewrite Es; apply (indexes_flip _ _ _ (phi3 (oi_size psi1) h)), indexes_phi3|].
    split; [intros A _; apply FL_first|]; intros B (b & Hb & EB); apply conj0; rewrite Es; apply FL_second, (HR b); assumption.
  - destruct (good_h _ _ _ H1 T1) as (h1 & Q1 & E1 & D1 & R1 & _), (good_h _ _ _ H2 T2) as (h2 & Q2 & E2 & D2 & R2 & _).
    unfold build; rewrite T1, T2; cbn [is_TR is_TC andb oi_size oi_fun].
    replace (oi_size psi1 * oi_size psi2 / 2)%nat with (2 * (h1 * h2))%nat by (rewrite E1, E2, half_prod; lia).
    exists (FC i h1 h2), (realified h1), (realified h2), h2, (fun x q => (x * h2 + q)%nat), h1, (fun k p => phi3 h1 h2 p k), i, h2.
    split; [rewrite E1, E2; apply FC_tensor; exact Q2|]; split; [apply complex_built; assumption|].
    split; [rewrite E1, Nat.mul_assoc; apply indexes_pair|].
    split; [rewrite E2; apply (indexes_flip _ _ _ (phi3 h1 h2)), indexes_phi3|].
    split; [intros A (a & Ha & EA); rewrite E1; apply FC_first, (R1 a); assumption|].
    intros B (b & Hb & EB); rewrite E2; apply FC_second, (R2 b); assumption.
Qed.

Lemma disjoint_first : forall psi1 psi2 psi1' psi2' id1 id2 i id1' id2' i',
  good_irrep G1 psi1 -> good_irrep G2 psi2 -> good_irrep G1 psi1' -> good_irrep G2 psi2' -> disjoint_objs G1 psi1 psi1' ->
  disjoint_objs P (build G1 G2 id1 id2 psi1 psi2 i) (build G1 G2 id1' id2' psi1' psi2' i').
Proof.
  intros psi1 psi2 psi1' psi2' id1 id2 i id1' id2' i' H1 H2 H1' H2' D X HX.
  destruct (build_shape psi1 psi2 id1 id2 i H1 H2) as [(F & Q1 & Q2 & m1 & phi1 & m2 & phi2 & j & h & T & Bu & I1 & I2 & C1 & C2)].
  destruct (build_shape psi1' psi2' id1' id2' i' H1' H2') as [(F' & Q1' & Q2' & m1' & phi1' & m2' & phi2' & j' & h' & T' & Bu' & I1' & I2' & C1' & C2')].
  intros x y Hx Hy; destruct (ix_onto _ _ _ _ I1 x Hx) as (u & q & Hu & Hq & ->), (ix_onto _ _ _ _ I1' y Hy) as (u' & q' & Hu' & Hq' & ->).
  change (blk phi1 phi1' X q q' u u' = mzero u u'); apply D; try assumption.
  intros g A A' Hg EA EA'.
  eapply copies_block; [exact I1|exact I1'|apply C1; exists g; split; assumption|apply C1'; exists g; split; assumption| |assumption|assumption].
  exact (built_first G1 G2 _ _ _ _ _ _ _ _ _ _ _ _ _ _ _ _ _ _ X (gi_orth _ _ H2) (gi_orth _ _ H2') HG2 T T' Bu Bu' HX g A A' Hg EA EA').
Qed.

Lemma disjoint_second : forall psi1 psi2 psi1' psi2' id1 id2 i id1' id2' i',
  good_irrep G1 psi1 -> good_irrep G2 psi2 -> good_irrep G1 psi1' -> good_irrep G2 psi2' -> disjoint_objs G2 psi2 psi2' ->
  disjoint_objs P (build G1 G2 id1 id2 psi1 psi2 i) (build G1 G2 id1' id2' psi1' psi2' i').
Proof.
  intros psi1 psi2 psi1' psi2' id1 id2 i id1' id2' i' H1 H2 H1' H2' D X HX.
  destruct (build_shape psi1 psi2 id1 id2 i H1 H2) as [(F & Q1 & Q2 & m1 & phi1 & m2 & phi2 & j & h & T & Bu & I1 & I2 & C1 & C2)].
  destruct (build_shape psi1' psi2' id1' id2' i' H1' H2') as [(F' & Q1' & Q2' & m1' & phi1' & m2' & phi2' & j' & h' & T' & Bu' & I1' & I2' & C1' & C2')].
  intros x y Hx Hy; destruct (ix_onto _ _ _ _ I2 x Hx) as (u & q & Hu & Hq & ->), (ix_onto _ _ _ _ I2' y Hy) as (u' & q' & Hu' & Hq' & ->).
  assert (Z : csign j h u * blk phi2 phi2' X q q' u u' * csign j' h' u' = 0).
  { apply (D (fun r c => csign j h r * blk phi2 phi2' X q q' r c * csign j' h' c)); try assumption.
    intros g B B' Hg EB EB'; apply conj_intertwines.
    eapply copies_block; [exact I2|exact I2'|apply C2; exists g; split; assumption|apply C2'; exists g; split; assumption| |assumption|assumption].
    exact (built_second G1 G2 _ _ _ _ _ _ _ _ _ _ _ _ _ _ _ _ _ _ X (gi_orth _ _ H1) (gi_orth _ _ H1') HG1 T T' Bu Bu' HX g B B' Hg EB EB'). }
  pose proof (csign_sq j h u) as S; pose proof (csign_sq j' h' u') as S'.
  unfold mzero; change (blk phi2 phi2' X q q' u u' = 0).
  transitivity ((csign j h u * csign j h u) * blk phi2 phi2' X q q' u u' * (csign j' h' u' * csign j' h' u')); [rewrite S, S'; ring|].
  transitivity (csign j h u * (csign j h u * blk phi2 phi2' X q q' u u' * csign j' h' u') * csign j' h' u'); [ring|rewrite Z; ring].
Qed.

Lemma disjoint_conj : forall psi1 psi2 id1 id2 id1' id2', good_irrep G1 psi1 -> good_irrep G2 psi2 ->
  oi_type psi1 = TC -> oi_type psi2 = TC ->
  disjoint_objs P (build G1 G2 id1 id2 psi1 psi2 0) (build G1 G2 id1' id2' psi1 psi2 1).
Proof.
  intros psi1 psi2 id1 id2 id1' id2' H1 H2 T1 T2; unfold disjoint_objs, build; rewrite T1, T2; cbn [is_TR is_TC andb oi_size oi_fun].
  destruct (good_h _ _ _ H1 T1) as (h1 & P1 & E1 & D1 & R1 & En1), (good_h _ _ _ H2 T2) as (h2 & P2 & E2 & D2 & R2 & En2).
  replace (oi_size psi1 * oi_size psi2 / 2)%nat with (2 * (h1 * h2))%nat by (rewrite E1, E2, half_prod; lia).
  intros X HX.
  destruct (complex_intertwiner psi1 psi2 0 1 h1 h2 X H1 H2 P1 P2 E1 E2 R1 R2 En1 En2) as (c & d & Kc & Kd & EX).
  - intros g R R' Hg ER ER'; apply (HX g); assumption.
  - unfold csgn in Kc, Kd; cbn in Kc, Kd; intros x y Hx Hy; rewrite EX by assumption.
    replace c with 0 by lra; replace d with 0 by lra; unfold mzero; ring.
Qed.
End Dis.
