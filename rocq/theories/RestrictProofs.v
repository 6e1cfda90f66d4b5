(** Proofs about the restriction of irreps to subgroups. *)
From Coq Require Import Reals ZArith Bool List Lia Lra Setoid Morphisms.
From Verif Require Import LibRes LibMat LibTrig SpecGroup FinGroupModel SpecFinGroup FinGroupProofs
  ParamModel ParamProofs PlanarModel SpecPlanar PlanarProofs IrrepModel SpecRep SpecIrrep IrrepProofs.
Import ListNotations.
Open Scope R_scope.

(** ** Conjugation *)

Definition conj (n : nat) (P A : mat) : mat := mmul n (mmul n P A) (mtr P).

Lemma conj_ext : forall n P A B, meq n n A B -> meq n n (conj n P A) (conj n P B).
Proof. intros n P A B H; apply mmul_ext; [apply mmul_ext; [apply meq_refl|exact H]|apply meq_refl]. Qed.

Lemma conj_mid : forall n A, meq n n (conj n mid A) A.
Proof.
  intros n A; unfold conj; eapply meq_trans.
  - apply mmul_ext; [apply mid_l|]; intros i j _ _; apply mtr_mid.
  - apply mid_r.
Qed.

Lemma conj_mul : forall n P Q A, meq n n (conj n (mmul n P Q) A) (conj n P (conj n Q A)).
Proof.
  intros n P Q A; unfold conj.
  eapply meq_trans; [apply mmul_ext; [apply mmul_assoc_eq|intros i j _ _; apply mtr_mmul]|].
  eapply meq_trans; [apply meq_sym, mmul_assoc_eq|].
  apply mmul_ext; [apply mmul_assoc_eq|apply meq_refl].
Qed.

Lemma orth_mid : forall n, orthogonal n mid.
Proof.
  intros n; split.
  - eapply meq_trans; [apply mid_l|]; intros i j _ _; apply mtr_mid.
  - eapply meq_trans; [apply mid_r|]; intros i j _ _; apply mtr_mid.
Qed.

Lemma orth_mul : forall n A B, orthogonal n A -> orthogonal n B -> orthogonal n (mmul n A B).
Proof.
  intros n A B [A1 A2] [B1 B2]; split.
  - eapply meq_trans; [apply mmul_ext; [apply meq_refl|intros i j _ _; apply mtr_mmul]|].
    eapply meq_trans; [apply mmul_assoc_eq|].
    eapply meq_trans; [apply mmul_ext; [apply meq_refl|apply meq_sym, mmul_assoc_eq]|].
    eapply meq_trans; [apply mmul_ext; [apply meq_refl|apply mmul_ext; [exact B1|apply meq_refl]]|].
    eapply meq_trans; [apply mmul_ext; [apply meq_refl|apply mid_l]|exact A1].
  - eapply meq_trans; [apply mmul_ext; [intros i j _ _; apply mtr_mmul|apply meq_refl]|].
    eapply meq_trans; [apply mmul_assoc_eq|].
    eapply meq_trans; [apply mmul_ext; [apply meq_refl|apply meq_sym, mmul_assoc_eq]|].
    eapply meq_trans; [apply mmul_ext; [apply meq_refl|apply mmul_ext; [exact A2|apply meq_refl]]|].
    eapply meq_trans; [apply mmul_ext; [apply meq_refl|apply mid_l]|exact B2].
Qed.

Definition chi1 : mat := mat2 1 0 0 (-1).
Lemma orth_chi1 : orthogonal 2 chi1.
Proof. split; unfold chi1; m22; ring. Qed.

Lemma orth_psi : forall t k, orthogonal 2 (psi t k 0).
Proof.
  intros t k; unfold psi; rewrite Rplus_0_r; pose proof (sin2cos2 (IZR k * t)) as E.
  set (c := cos _) in *; set (s := sin _) in *; split; m22; try lra; ring.
Qed.

(** ** Identities between the matrices *)

Lemma conj_chi1 : forall k k' f t, same_angle (IZR k * t) (- (IZR k' * t)) ->
  meq 2 2 (kmat (K2 k) f t) (conj 2 chi1 (kmat (K2 k') f t)).
Proof.
  intros k k' f t H; cbn [kmat]; unfold conj, chi1; rewrite H, cos_neg, sin_neg.
  m22; ring.
Qed.

Lemma conj_psi : forall k f t a, (f = 0 \/ f = 1)%Z ->
  meq 2 2 (kmat (K2 k) f (t + IZR f * a)) (conj 2 (psi (1 / 2 * a) k 0) (kmat (K2 k) f t)).
Proof.
  intros k f t a Hf; cbn [kmat]; unfold conj, psi; rewrite Rplus_0_r.
  set (x := IZR k * t); replace (IZR k * (t + IZR f * a)) with (x + IZR f * (2 * (IZR k * (1 / 2 * a))))
    by (unfold x; field).
  set (y := IZR k * (1 / 2 * a)); clearbody x y; pose proof (sin2cos2 y) as E.
  replace (sin y * sin y) with (1 - cos y * cos y) in E by lra.
  assert (Es : sin y * sin y = 1 - cos y * cos y) by (pose proof (sin2cos2 y); lra).
  destruct Hf as [-> | ->].
  - rewrite Rmult_0_l, Rplus_0_r; unfold rsign; cbn [Z.eqb]; m22.
    + replace (_ + _) with (cos x * (cos y * cos y + sin y * sin y)) by ring; rewrite Es; ring.
    + replace (_ + _) with (- sin x * (cos y * cos y + sin y * sin y)) by ring; rewrite Es; ring.
    + replace (_ + _) with (sin x * (cos y * cos y + sin y * sin y)) by ring; rewrite Es; ring.
    + replace (_ + _) with (cos x * (cos y * cos y + sin y * sin y)) by ring; rewrite Es; ring.
  - rewrite Rmult_1_l, cos_plus, sin_plus, cos_2a, sin_2a; unfold rsign; cbn [Z.eqb]; m22; ring.
Qed.

Lemma split_kmat : forall k f t, sin (IZR k * t) = 0 ->
  meq 2 2 (kmat (K2 k) f t) (bdiag [(1%nat, kmat (K1 0 k) f t); (1%nat, kmat (K1 1 k) f t)]).
Proof.
  intros k f t H; cbn [kmat bdiag]; rewrite H, Z.mul_1_l, Z.mul_0_l.
  intros i j Hi Hj; destruct i as [|[|i]]; destruct j as [|[|j]]; try lia; unfold mat2, mat1; cbn;
    unfold rsign; cbn [Z.eqb]; ring.
Qed.

Lemma bdiag1 : forall n A, meq n n (bdiag [(n, A)]) A.
Proof.
  intros n A i j Hi Hj; cbn [bdiag].
  rewrite (proj2 (Nat.ltb_lt i n) Hi), (proj2 (Nat.ltb_lt j n) Hj); reflexivity.
Qed.

Lemma freq_mod : forall M f r, (0 < M)%Z -> same_angle (IZR f * ang M r) (IZR (f mod M) * ang M r).
Proof.
  intros M f r HM; exists (f / M * r)%Z.
  pose proof (IZR_pos M HM); unfold ang.
  rewrite (Z.div_mod f M) at 1 by lia; rewrite plus_IZR, !mult_IZR; field; lra.
Qed.

Lemma freq_neg : forall M f r, (0 < M)%Z ->
  same_angle (IZR f * ang M r) (- (IZR (M - f mod M) * ang M r)).
Proof.
  intros M f r HM; rewrite freq_mod by exact HM; exists r.
  pose proof (IZR_pos M HM); unfold ang; rewrite minus_IZR; field; lra.
Qed.

(** ** Blocks of the subgroup *)

Definition kblk (H : pgrp) (h : pval) (id : list Z) : nat * mat :=
  (kdim (irrep_kind H id), kmat (irrep_kind H id) (fl H h) (th H h)).

Lemma blocks_ret : forall H ids h, pvalid H -> Forall (irrep_ok H) ids -> pmember H h ->
  exists bs, blocks H ids h = Ret bs /\
    Forall2 (fun p q => fst p = fst q /\ meq (fst p) (fst p) (snd p) (snd q)) (map (kblk H h) ids) bs.
Proof.
  intros H ids h HH Hids Hh; unfold blocks; induction Hids as [|id ids Hid _ (bs & E & F)].
  - exists []; split; [reflexivity|constructor].
  - destruct (p_irrep_kind H id HH Hid) as (r & Er & (_ & _ & _ & _ & _ & _ & Hr)).
    destruct (Hr h Hh) as (A & EA & MA & _).
    exists ((kdim (irrep_kind H id), A) :: bs); split.
    + cbn [mapM]; rewrite Er; cbn [bind]; rewrite EA; cbn [bind]; rewrite E; reflexivity.
    + cbn [map]; constructor; [|exact F]; cbn [fst snd kblk]; split; [reflexivity|].
      apply meq_sym; exact MA.
Qed.

Lemma decomposes_intro : forall G H incl id r kd P ids,
  pvalid H -> irrep_as G id r kd -> Forall (irrep_ok H) ids -> orthogonal (kdim kd) P ->
  (forall h, pmember H h -> exists g, incl h = Ret g /\ pmember G g /\
     bsize (map (kblk H h) ids) = kdim kd /\
     meq (kdim kd) (kdim kd) (kmat kd (fl G g) (th G g))
       (conj (kdim kd) P (bdiag (map (kblk H h) ids)))) ->
  decomposes (pmember H) (ir_size r) (fun h => g <- incl h ;; ir_rep r g) (kdim kd, P) (blocks H ids).
Proof.
  intros G H incl id r kd P ids HH (_ & _ & Es & _ & _ & _ & Hr) Hids HP Hd.
  rewrite Es; split; [reflexivity|split; [exact HP|]].
  intros h Hh; destruct (Hd h Hh) as (g & Eg & Hg & Eb & M).
  destruct (Hr g Hg) as (A & EA & MA & _), (blocks_ret H ids h HH Hids Hh) as (bs & Ebs & F).
  exists A, bs; rewrite Eg; cbn [bind]; split; [exact EA|split; [exact Ebs|]].
  destruct (bdiag_ext _ _ F) as [MB EB]; rewrite Eb in MB, EB; split; [symmetry; exact EB|].
  cbn [snd]; eapply meq_trans; [exact MA|]; eapply meq_trans; [exact M|].
  apply conj_ext; exact MB.
Qed.

(** ** Restriction to C_M, shared by the four groups *)

Ltac fa := cbn [fst snd]; repeat first [apply Forall_cons|apply Forall_nil]; cbn [irrep_ok]; lia.

Definition c_ids (M k : Z) (sz : nat) : list (list Z) :=
  [k] :: if Nat.ltb (if (k =? 0)%Z || (2 * k =? M)%Z then 1 else 2) sz then [[k]] else [].

(** [k] is the frequency of the parent, [kd] its kind. *)
Definition freq_of (kd : kind) : Z := match kd with K1 _ k => k | K2 k => k end.

Definition red_k (M k : Z) : Z :=
  let k := (k mod M)%Z in if (M <? 2 * k)%Z then (M - k)%Z else k.
Definition red_P (M k : Z) : mat := if (M <? 2 * (k mod M))%Z then chi1 else mid.
Definition red_n (M k : Z) (n : nat) : nat := if (M <? 2 * (k mod M))%Z then 2%nat else n.

Lemma red_k_range : forall M k, (0 < M)%Z -> (0 <= 2 * red_k M k <= M)%Z.
Proof.
  intros M k HM; unfold red_k; pose proof (Z.mod_pos_bound k M HM).
  destruct (Z.ltb_spec M (2 * (k mod M))); lia.
Qed.

(** Kinds that are signs on C_M reduce to frequencies 0 and M/2. *)
Definition sign_on (M : Z) (kd : kind) : Prop :=
  match kd with K1 s k => (2 * (k mod M) = M \/ k mod M = 0)%Z | K2 _ => True end.

Lemma red_conj : forall M k f r, (0 < M)%Z ->
  meq 2 2 (kmat (K2 k) f (ang M r)) (conj 2 (red_P M k) (kmat (K2 (red_k M k)) f (ang M r))).
Proof.
  intros M k f r HM; unfold red_P, red_k; destruct (Z.ltb_spec M (2 * (k mod M))).
  - apply conj_chi1, freq_neg; exact HM.
  - eapply meq_trans; [|apply meq_sym, conj_mid].
    cbn [kmat]; rewrite freq_mod by exact HM; apply meq_refl.
Qed.

Lemma red_orth : forall M k, orthogonal 2 (red_P M k).
Proof. intros M k; unfold red_P; destruct (_ <? _)%Z; [apply orth_chi1|apply orth_mid]. Qed.

Lemma sign_red : forall M s k, (0 < M)%Z -> sign_on M (K1 s k) ->
  red_k M k = (k mod M)%Z /\ (red_k M k = 0 \/ 2 * red_k M k = M)%Z /\
  (M <? 2 * (k mod M))%Z = false.
Proof.
  intros M s k HM H; cbn [sign_on] in H; unfold red_k.
  destruct (Z.ltb_spec M (2 * (k mod M))); [lia|]; repeat split; lia.
Qed.

Lemma orb_half : forall M k, (k = 0 \/ 2 * k = M)%Z -> ((k =? 0)%Z || (2 * k =? M)%Z) = true.
Proof. intros M k [-> | H]; [reflexivity|]; rewrite (proj2 (Z.eqb_eq _ _) H); apply orb_true_r. Qed.

Lemma cyc_decomp : forall M kd r, (0 < M)%Z -> (0 <= r < M)%Z -> sign_on M kd ->
  let n := kdim kd in let k := freq_of kd in
  let ids := c_ids M (red_k M k) n in
  Forall (irrep_ok (Fin (Cyc M))) ids /\ orthogonal n (red_P M k) /\ red_n M k n = n /\
  bsize (map (kblk (Fin (Cyc M)) (VF (VC r))) ids) = n /\
  meq n n (kmat kd 0 (ang M r)) (conj n (red_P M k) (bdiag (map (kblk (Fin (Cyc M)) (VF (VC r))) ids))).
Proof.
  intros M [s k|k] r HM Hr HS n k0 ids; subst n k0; cbn [kdim freq_of] in *.
  - destruct (sign_red M s k HM HS) as (E1 & E2 & E3).
    unfold ids, c_ids; rewrite (orb_half _ _ E2); cbn [Nat.ltb Nat.leb].
    unfold red_P, red_n; rewrite E3.
    pose proof (red_k_range M k HM).
    split; [fa|].
    split; [apply orth_mid|]; split; [reflexivity|].
    cbn [map]; unfold kblk; cbn [irrep_kind]; rewrite (orb_half _ _ E2); split; [reflexivity|].
    eapply meq_trans; [|apply meq_sym, conj_mid]; eapply meq_trans; [|apply meq_sym, bdiag1].
    cbn [kmat phase fst snd]; rewrite E1, <- freq_mod, Z.mul_0_r, Z.mul_0_l by exact HM; apply meq_refl.
  - split; [unfold ids, c_ids; pose proof (red_k_range M k HM); constructor; cbn [irrep_ok]; [lia|];
      destruct (Nat.ltb _ _); fa|].
    split; [apply red_orth|]; split; [unfold red_n; destruct (_ <? _)%Z; reflexivity|].
    assert (X : bsize (map (kblk (Fin (Cyc M)) (VF (VC r))) ids) = 2%nat /\
       meq 2 2 (kmat (K2 (red_k M k)) 0 (ang M r)) (bdiag (map (kblk (Fin (Cyc M)) (VF (VC r))) ids))).
    { unfold ids, c_ids; destruct ((red_k M k =? 0)%Z || (2 * red_k M k =? M)%Z) eqn:E; cbn [Nat.ltb Nat.leb map];
        unfold kblk; cbn [irrep_kind]; rewrite E; cbn [kdim phase fst snd]; (split; [reflexivity|]).
      - assert (E2 : (red_k M k = 0 \/ 2 * red_k M k = M)%Z).
        { apply orb_prop in E as [E|E]; apply Z.eqb_eq in E; auto. }
        eapply meq_trans; [apply split_kmat, sin_half; [exact HM|exact E2]|].
        cbn [kmat]; rewrite !Z.mul_0_r; apply meq_refl.
      - apply meq_sym, bdiag1. }
    destruct X as [X1 X2]; split; [exact X1|].
    eapply meq_trans; [apply red_conj; exact HM|apply conj_ext; exact X2].
Qed.

(** ** Restriction to D_M about an axis, shared by D_N and O(2) *)

Definition d_ids (M j k : Z) (sz : nat) : list (list Z) :=
  if Nat.ltb (if (k =? 0)%Z || (2 * k =? M)%Z then 1 else 2) sz then [[0%Z; k]; [j; k]] else [[j; k]].

Lemma dih_decomp2 : forall M k f r a, (0 < M)%Z -> (f = 0 \/ f = 1)%Z ->
  let ids := d_ids M 1 (red_k M k) 2 in
  let P := mmul 2 (psi (1 / 2 * a) k 0) (red_P M k) in
  Forall (irrep_ok (Fin (Dih M))) ids /\ orthogonal 2 P /\ red_n M k 2 = 2%nat /\
  bsize (map (kblk (Fin (Dih M)) (VF (VD f r))) ids) = 2%nat /\
  meq 2 2 (kmat (K2 k) f (ang M r + IZR f * a))
    (conj 2 P (bdiag (map (kblk (Fin (Dih M)) (VF (VD f r))) ids))).
Proof.
  intros M k f r a HM Hf ids P.
  pose proof (red_k_range M k HM) as Hk.
  assert (X : Forall (irrep_ok (Fin (Dih M))) ids /\
       bsize (map (kblk (Fin (Dih M)) (VF (VD f r))) ids) = 2%nat /\
       meq 2 2 (kmat (K2 (red_k M k)) f (ang M r)) (bdiag (map (kblk (Fin (Dih M)) (VF (VD f r))) ids))).
  { unfold ids, d_ids; destruct ((red_k M k =? 0)%Z || (2 * red_k M k =? M)%Z) eqn:E; cbn [Nat.ltb Nat.leb map];
      unfold kblk; cbn [irrep_kind]; rewrite E; cbn [kdim phase fst snd].
    - assert (E2 : (red_k M k = 0 \/ 2 * red_k M k = M)%Z).
      { apply orb_prop in E as [E|E]; apply Z.eqb_eq in E; auto. }
      split; [fa|split; [reflexivity|]].
      apply split_kmat, sin_half; [exact HM|exact E2].
    - split; [fa|split; [reflexivity|]].
      apply meq_sym, bdiag1. }
  destruct X as (X0 & X1 & X2); split; [exact X0|].
  split; [apply orth_mul; [apply orth_psi|apply red_orth]|].
  split; [unfold red_n; destruct (_ <? _)%Z; reflexivity|split; [exact X1|]].
  eapply meq_trans; [apply conj_psi; exact Hf|].
  eapply meq_trans; [|apply meq_sym, conj_mul]; apply conj_ext.
  eapply meq_trans; [apply red_conj; exact HM|apply conj_ext; exact X2].
Qed.

(** one-dimensional parent [K1 j k] whose frequency reduces to 0 or M/2 and whose value on
    the axis is the sign of [d] *)
Lemma dih_decomp1 : forall M j k d f r a, (0 < M)%Z -> (f = 0 \/ f = 1)%Z -> (j = 0 \/ j = 1)%Z ->
  sign_on M (K1 j k) -> same_angle (IZR k * a) (PI * IZR d) ->
  let j' := ((j + d) mod 2)%Z in
  let ids := d_ids M j' (red_k M k) 1 in
  Forall (irrep_ok (Fin (Dih M))) ids /\ red_P M k = mid /\ red_n M k 1 = 1%nat /\
  bsize (map (kblk (Fin (Dih M)) (VF (VD f r))) ids) = 1%nat /\
  meq 1 1 (kmat (K1 j k) f (ang M r + IZR f * a))
    (conj 1 mid (bdiag (map (kblk (Fin (Dih M)) (VF (VD f r))) ids))).
Proof.
  intros M j k d f r a HM Hf Hj HS Ha j' ids.
  destruct (sign_red M j k HM HS) as (E1 & E2 & E3).
  pose proof (red_k_range M k HM) as Hk.
  assert (Hj' : (j' = 0 \/ j' = 1)%Z) by (unfold j'; pose proof (Z.mod_pos_bound (j + d) 2 ltac:(lia)); lia).
  unfold ids, d_ids; rewrite (orb_half _ _ E2); cbn [Nat.ltb Nat.leb map].
  unfold red_P, red_n; rewrite E3.
  split; [fa|].
  split; [reflexivity|]; split; [reflexivity|].
  unfold kblk; cbn [irrep_kind]; rewrite (orb_half _ _ E2); split; [reflexivity|].
  eapply meq_trans; [|apply meq_sym, conj_mid]; eapply meq_trans; [|apply meq_sym, bdiag1].
  cbn [kmat phase fst snd]; rewrite E1.
  replace (IZR k * (ang M r + IZR f * a)) with (IZR k * ang M r + IZR f * (IZR k * a)) by ring.
  rewrite <- freq_mod by exact HM; rewrite Ha.
  replace (IZR f * (PI * IZR d)) with (PI * IZR (f * d)) by (rewrite mult_IZR; ring).
  rewrite cos_add_PI_Z; intros i l _ _; unfold mat1; rewrite <- Rmult_assoc; f_equal.
  unfold j'; destruct Hf as [-> | ->]; rewrite ?Z.mul_0_r, ?Z.mul_0_l, ?Z.mul_1_r, ?Z.mul_1_l.
  - unfold rsign, signZ; cbn; ring.
  - unfold rsign, signZ.
    destruct Hj as [-> | ->].
    + rewrite Z.add_0_l.
      destruct (Z.even d) eqn:Ed; rewrite Zmod_even, Ed; cbn; ring.
    + replace (Z.even d) with (negb (Z.even (1 + d))) by (rewrite Z.even_add; destruct (Z.even d); reflexivity).
      destruct (Z.even (1 + d)) eqn:Ed; rewrite Zmod_even, Ed; cbn; ring.
Qed.

(** ** Restriction to a reflection *)

Lemma flip_decomp2 : forall k f a, (f = 0 \/ f = 1)%Z ->
  meq 2 2 (kmat (K2 k) f (IZR f * a))
    (conj 2 (psi (1 / 2 * a) k 0) (bdiag (map (kblk (Fin (Cyc 2)) (VF (VC f))) [[0%Z]; [1%Z]]))).
Proof.
  intros k f a Hf; replace (IZR f * a) with (0 + IZR f * a) by ring.
  eapply meq_trans; [apply conj_psi; exact Hf|]; apply conj_ext.
  cbn [map]; unfold kblk; cbn [irrep_kind Z.eqb Z.mul Pos.mul Pos.eqb orb kdim kmat phase fst snd].
  replace (1 * ang 2 f) with (PI * IZR f) by (unfold ang; field).
  rewrite cos_PI_Z, Rmult_0_r, Rmult_0_l, cos_0, sin_0, ?Z.mul_0_l.
  intros i j Hi Hj; destruct i as [|[|i]]; destruct j as [|[|j]]; try lia; unfold mat2, mat1; cbn;
    destruct Hf as [-> | ->]; unfold rsign, signZ; cbn; ring.
Qed.

Lemma flip_decomp1 : forall j k d f a, (f = 0 \/ f = 1)%Z -> (j = 0 \/ j = 1)%Z ->
  same_angle (IZR k * a) (PI * IZR d) ->
  meq 1 1 (kmat (K1 j k) f (IZR f * a))
    (conj 1 mid (bdiag (map (kblk (Fin (Cyc 2)) (VF (VC f))) [[((j + d) mod 2)%Z]]))).
Proof.
  intros j k d f a Hf Hj Ha.
  eapply meq_trans; [|apply meq_sym, conj_mid].
  assert (E2 : ((j + d) mod 2 = 0 \/ 2 * ((j + d) mod 2) = 2)%Z)
    by (pose proof (Z.mod_pos_bound (j + d) 2 ltac:(lia)); lia).
  cbn [map]; unfold kblk; cbn [irrep_kind]; rewrite (orb_half _ _ E2).
  eapply meq_trans; [|apply meq_sym, bdiag1].
  cbn [kmat phase fst snd]; rewrite Z.mul_0_l.
  replace (IZR k * (IZR f * a)) with (0 + IZR f * (IZR k * a)) by ring; rewrite Ha.
  replace (IZR f * (PI * IZR d)) with (PI * IZR (f * d)) by (rewrite mult_IZR; ring).
  rewrite cos_add_PI_Z, cos_0.
  replace (IZR ((j + d) mod 2) * ang 2 f) with (PI * IZR (((j + d) mod 2) * f))
    by (unfold ang; rewrite mult_IZR; field).
  rewrite cos_PI_Z; intros i l _ _; unfold mat1.
  destruct Hf as [-> | ->]; rewrite ?Z.mul_0_r, ?Z.mul_0_l, ?Z.mul_1_r, ?Z.mul_1_l.
  - unfold rsign, signZ; cbn; ring.
  - unfold rsign, signZ; destruct Hj as [-> | ->].
    + rewrite Z.add_0_l.
      destruct (Z.even d) eqn:Ed; rewrite Zmod_even, Ed; cbn; ring.
    + replace (Z.even d) with (negb (Z.even (1 + d))) by (rewrite Z.even_add; destruct (Z.even d); reflexivity).
      destruct (Z.even (1 + d)) eqn:Ed; rewrite Zmod_even, Ed; cbn; ring.
Qed.
