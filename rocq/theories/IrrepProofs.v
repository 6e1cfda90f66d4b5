(** Proofs about the irreps of C_N, D_N, SO(2) and O(2). *)
From Coq Require Import Reals ZArith Bool List Lia Lra Setoid Morphisms.
From Verif Require Import LibRes LibMat LibTrig SpecGroup FinGroupModel SpecFinGroup FinGroupProofs
  ParamModel ParamProofs PlanarModel SpecPlanar PlanarProofs IrrepModel SpecRep SpecIrrep.
Import ListNotations.
Open Scope R_scope.

(** ** cos and sin modulo 2 pi *)

#[global] Instance cos_sa : Proper (same_angle ==> eq) cos.
Proof. intros x y [n E]; apply cos_cong with n; exact E. Qed.
#[global] Instance sin_sa : Proper (same_angle ==> eq) sin.
Proof. intros x y [n E]; apply sin_cong with n; exact E. Qed.

(** ** Every element as a flip and an angle *)

Definition phase (G : pgrp) (v : pval) : Z * R :=
  match G, v with
  | Fin (Cyc N), VF (VC r) => (0%Z, ang N r)
  | Fin (Dih N), VF (VD f r) => (f, ang N r)
  | SO2, VS t => (0%Z, t)
  | O2, VO f t => (f, t)
  | _, _ => (0%Z, 0)
  end.

Notation fl G v := (fst (phase G v)).
Notation th G v := (snd (phase G v)).

Lemma fl_cases : forall G v, pmember G v -> (fl G v = 0 \/ fl G v = 1)%Z.
Proof. intros [[N|N]| |] v H; unpack; cbn; auto; apply H. Qed.

Lemma pid_member : forall G, pvalid G -> pmember G (pid G).
Proof.
  intros [[N|N]| |] H; cbn in *; try apply Z.ltb_lt in H; try (split; [auto|]); try lia;
    pose proof PI_RGT_0; lra.
Qed.

Lemma phase_id : forall G, fl G (pid G) = 0%Z /\ th G (pid G) = 0.
Proof. intros [[N|N]| |]; cbn; unfold ang; split; auto; ring. Qed.

Lemma valid_pos : forall G N, pvalid (Fin G) -> G = Cyc N \/ G = Dih N -> (0 < N)%Z.
Proof. intros G N H [-> | ->]; cbn in H; apply Z.ltb_lt in H; exact H. Qed.

Lemma phase_mul : forall G v w, pvalid G -> pmember G v -> pmember G w ->
  exists u, pmul G v w = Ret u /\ pmember G u /\
    fl G u = ((fl G v + fl G w) mod 2)%Z /\
    same_angle (th G u) (th G v + IZR (pysign (fl G v)) * th G w).
Proof.
  intros [[N|N]| |] v w HG Hv Hw; unpack.
  - pose proof (valid_pos _ N HG (or_introl eq_refl)) as HN.
    rewrite gmul_cyc by assumption; eexists; split; [reflexivity|]; cbn.
    split; [apply Z.mod_pos_bound; exact HN|split; [reflexivity|]].
    rewrite ang_mod, ang_add by exact HN; apply sa_eq; ring.
  - pose proof (valid_pos _ N HG (or_intror eq_refl)) as HN; destruct Hv as [Hf Hr], Hw as [Hg Hs].
    rewrite gmul_dih by assumption; eexists; split; [reflexivity|]; cbn.
    split; [split; [apply flip_add; assumption|apply Z.mod_pos_bound; exact HN]|split; [reflexivity|]].
    rewrite ang_mod, ang_add, ang_mult by exact HN; reflexivity.
  - rewrite pmul_so2; eexists; split; [reflexivity|]; cbn.
    split; [apply m_range|split; [reflexivity|]]; rewrite sa_m; apply sa_eq; ring.
  - destruct Hv as [Hf Hr], Hw as [Hg Hs]; rewrite pmul_o2 by assumption; eexists; split; [reflexivity|].
    cbn; split; [split; [apply flip_add; assumption|apply m_range]|split; [reflexivity|apply sa_m]].
Qed.

Lemma phase_inv : forall G v, pvalid G -> pmember G v ->
  exists u, pinv G v = Ret u /\ pmember G u /\ fl G u = fl G v /\
    same_angle (th G u) (- IZR (pysign (fl G v)) * th G v).
Proof.
  intros [[N|N]| |] v HG Hv; unpack.
  - pose proof (valid_pos _ N HG (or_introl eq_refl)) as HN.
    exists (VF (VC ((- r) mod N))); split.
    + unfold pinv, pinverse; pose proof (ginv_C N r HN) as E; unfold ginv in E.
      destruct (inverse (Cyc N) (VC r)); cbn [bind] in *; [discriminate E|].
      cbn [pelement]; rewrite E; reflexivity.
    + cbn; split; [apply Z.mod_pos_bound; exact HN|split; [reflexivity|]].
      rewrite ang_mod by exact HN; apply sa_eq; unfold ang; rewrite opp_IZR; ring.
  - pose proof (valid_pos _ N HG (or_intror eq_refl)) as HN; destruct Hv as [Hf Hr].
    pose proof (ginv_D N f r HN Hf) as E; unfold ginv in E.
    eexists; split.
    + unfold pinv, pinverse; destruct (inverse (Dih N) (VD f r)); cbn [bind] in *; [discriminate E|].
      cbn [pelement]; rewrite E; reflexivity.
    + cbn; split; [split; [assumption|apply Z.mod_pos_bound; exact HN]|split; [reflexivity|]].
      rewrite ang_mod by exact HN; apply sa_eq; unfold ang.
      destruct Hf as [-> | ->]; cbn; rewrite ?opp_IZR, ?mult_IZR; cbn; try ring;
      try (replace (- r * 1)%Z with (-r)%Z by lia; rewrite opp_IZR; ring).
  - rewrite pinv_so2; eexists; split; [reflexivity|]; cbn.
    split; [apply m_range|split; [reflexivity|]]; rewrite sa_m; apply sa_eq; ring.
  - destruct Hv as [Hf Hr]; rewrite pinv_o2 by assumption; eexists; split; [reflexivity|].
    cbn; split; [split; [assumption|apply m_range]|split; [reflexivity|]].
    rewrite sa_m; apply sa_eq; flips; cbn; ring.
Qed.

(** ** The two shapes of matrices *)

Inductive kind := K1 (s k : Z) | K2 (k : Z).

Definition kdim (kd : kind) : nat := match kd with K1 _ _ => 1 | K2 _ => 2 end.
Definition kmat (kd : kind) (f : Z) (t : R) : mat :=
  match kd with
  | K1 s k => mat1 (rsign (s * f) * cos (IZR k * t))
  | K2 k => mat2 (cos (IZR k * t)) (- rsign f * sin (IZR k * t))
                 (sin (IZR k * t)) (rsign f * cos (IZR k * t))
  end.
(** a one-dimensional kind needs angles on which it is a sign *)
Definition kok (kd : kind) (G : pgrp) : Prop :=
  match kd with
  | K1 s k => (s = 0 \/ s = 1)%Z /\ forall v, pmember G v -> sin (IZR k * th G v) = 0
  | K2 _ => True
  end.

Lemma kmat_sa : forall kd f t u, same_angle t u -> kmat kd f t = kmat kd f u.
Proof. intros [s k|k] f t u H; cbn; rewrite H; reflexivity. Qed.

Ltac m22 := let i := fresh "i" in let j := fresh "j" in intros i j ? ?;
  destruct i as [|[|i]]; destruct j as [|[|j]]; try lia;
  unfold mmul, mtr, mat2, mat1, mid; cbn [sumn Nat.eqb].
Ltac m11 := let i := fresh "i" in let j := fresh "j" in intros i j ? ?;
  destruct i as [|i]; destruct j as [|j]; try lia;
  unfold mmul, mtr, mat2, mat1, mid; cbn [sumn Nat.eqb].

Lemma rsign_sq : forall f, rsign f * rsign f = 1.
Proof. intros f; unfold rsign; destruct (f =? 0)%Z; ring. Qed.

Lemma kmat_orth : forall kd f t, (match kd with K1 s k => sin (IZR k * t) = 0 | _ => True end) ->
  orthogonal (kdim kd) (kmat kd f t).
Proof.
  intros [s k|k] f t H; cbn [kdim kmat].
  - pose proof (sin2cos2 (IZR k * t)) as E; rewrite H in E.
    assert (Ec : cos (IZR k * t) * cos (IZR k * t) = 1) by lra.
    split; m11; rewrite Rplus_0_l;
      replace (rsign (s * f) * cos (IZR k * t) * (rsign (s * f) * cos (IZR k * t)))
        with ((rsign (s * f) * rsign (s * f)) * (cos (IZR k * t) * cos (IZR k * t))) by ring;
      rewrite rsign_sq, Ec; ring.
  - pose proof (sin2cos2 (IZR k * t)) as E; pose proof (rsign_sq f) as Es.
    set (c := cos _) in *; set (s := sin _) in *; set (g := rsign f) in *.
    split; m22.
    + replace (_ + _) with (s * s * (g * g) + c * c) by ring; rewrite Es; lra.
    + replace (_ + _) with (c * s * (1 - g * g)) by ring; rewrite Es; ring.
    + replace (_ + _) with (c * s * (1 - g * g)) by ring; rewrite Es; ring.
    + replace (_ + _) with (s * s + c * c * (g * g)) by ring; rewrite Es; lra.
    + lra.
    + ring.
    + ring.
    + replace (_ + _) with ((s * s + c * c) * (g * g)) by ring; rewrite Es; lra.
Qed.

Lemma kmat_mul : forall kd f g t u, (f = 0 \/ f = 1)%Z -> (g = 0 \/ g = 1)%Z ->
  (match kd with K1 s k => (s = 0 \/ s = 1)%Z /\ sin (IZR k * t) = 0 /\ sin (IZR k * u) = 0 | _ => True end) ->
  meq (kdim kd) (kdim kd)
    (kmat kd ((f + g) mod 2) (t + IZR (pysign f) * u))
    (mmul (kdim kd) (kmat kd f t) (kmat kd g u)).
Proof.
  intros [s k|k] f g t u Hf Hg H; cbn [kdim kmat].
  - destruct H as (Hs & Ht & Hu).
    replace (IZR k * (t + IZR (pysign f) * u)) with (IZR k * t + IZR (pysign f) * (IZR k * u)) by ring.
    set (x := IZR k * t) in *; set (y := IZR k * u) in *.
    destruct Hf as [-> | ->], Hg as [-> | ->], Hs as [-> | ->]; cbn; m11; unfold rsign; cbn [Z.eqb];
      rewrite ?Rmult_1_l, ?cos_plus;
      rewrite ?(Ropp_mult_distr_l_reverse 1 y), ?Rmult_1_l, ?cos_neg, ?sin_neg, ?Ht, ?Hu; try ring;
      replace (-1 * y) with (- y) by ring; rewrite ?cos_neg, ?sin_neg, ?Hu; ring.
  - replace (IZR k * (t + IZR (pysign f) * u)) with (IZR k * t + IZR (pysign f) * (IZR k * u)) by ring.
    set (x := IZR k * t) in *; set (y := IZR k * u) in *.
    destruct Hf as [-> | ->], Hg as [-> | ->]; cbn; m22; unfold rsign; cbn [Z.eqb];
      rewrite ?Rmult_1_l, ?cos_plus, ?sin_plus; try ring;
      replace (-1 * y) with (- y) by ring; rewrite ?cos_neg, ?sin_neg; ring.
Qed.

Lemma kmat_id : forall kd, meq (kdim kd) (kdim kd) (kmat kd 0 0) mid.
Proof.
  intros [s k|k]; cbn [kdim kmat]; [m11|m22]; rewrite ?Rmult_0_r, ?sin_0, ?cos_0, ?Z.mul_0_r;
    unfold rsign; cbn [Z.eqb]; ring.
Qed.

Lemma kmat_inv : forall kd f t, (f = 0 \/ f = 1)%Z ->
  meq (kdim kd) (kdim kd) (kmat kd f (- IZR (pysign f) * t)) (mtr (kmat kd f t)).
Proof.
  intros [s k|k] f t Hf; cbn [kdim kmat];
    replace (IZR k * (- IZR (pysign f) * t)) with (- (IZR (pysign f) * (IZR k * t))) by ring;
    set (x := IZR k * t) in *; rewrite ?cos_neg, ?sin_neg;
    destruct Hf as [-> | ->]; cbn [pysign Z.eqb]; [m11|m11|m22|m22];
    unfold rsign; cbn [Z.eqb]; rewrite ?Rmult_1_l; try ring;
    replace (-1 * x) with (- x) by ring; rewrite ?cos_neg, ?sin_neg; ring.
Qed.

(** ** Each irrep is one of the two kinds *)

Definition irrep_kind (G : pgrp) (id : list Z) : kind :=
  match G, id with
  | Fin (Cyc N), [k] => if (k =? 0)%Z || (2 * k =? N)%Z then K1 0 k else K2 k
  | Fin (Dih N), [j; k] => if (k =? 0)%Z || (2 * k =? N)%Z then K1 j k else K2 k
  | SO2, [k] => if (k =? 0)%Z then K1 0 k else K2 k
  | O2, [j; k] => if (k =? 0)%Z then K1 j k else K2 k
  | _, _ => K2 0
  end.

Lemma half_le : forall N k, (k <= N / 2)%Z <-> (2 * k <= N)%Z.
Proof.
  intros N k; pose proof (Z.div_mod N 2 ltac:(lia)); pose proof (Z.mod_pos_bound N 2 ltac:(lia)); lia.
Qed.

Lemma half_eq : forall N k, ((N mod 2 =? 0)%Z && (k =? N / 2)%Z) = (2 * k =? N)%Z.
Proof.
  intros N k; pose proof (Z.div_mod N 2 ltac:(lia)); pose proof (Z.mod_pos_bound N 2 ltac:(lia)).
  destruct (Z.eqb_spec (2 * k) N), (Z.eqb_spec (N mod 2) 0), (Z.eqb_spec k (N / 2)); cbn; try reflexivity; lia.
Qed.

Lemma half_eq' : forall N k, ((N mod 2 =? 0)%Z && (2 * k =? N)%Z) = (2 * k =? N)%Z.
Proof.
  intros N k; destruct (Z.eqb_spec (2 * k) N) as [<-|]; [|apply andb_false_r].
  rewrite Z.mul_comm, Z.mod_mul by lia; reflexivity.
Qed.

Definition irrep_as (G : pgrp) (id : list Z) (r : irrep) (kd : kind) : Prop :=
  kok kd G /\ ir_id r = id /\ ir_size r = kdim kd /\
  ir_freq r = (match kd with K1 _ k => k | K2 k => k end) /\
  (ir_complex r = match G, kd with Fin (Cyc _), K2 _ => true | SO2, K2 _ => true | _, _ => false end) /\
  (ir_flip r = match G, id with Fin (Dih _), j :: _ => Some j | O2, j :: _ => Some j | _, _ => None end) /\
  (forall v, pmember G v -> exists A, ir_rep r v = Ret (kdim kd, A) /\
     meq (kdim kd) (kdim kd) A (kmat kd (fl G v) (th G v)) /\
     ir_char r v = Ret (trace (kdim kd) A)).

Lemma sin_half : forall N k v, (0 < N)%Z -> (k = 0 \/ 2 * k = N)%Z ->
  sin (IZR k * ang N v) = 0.
Proof.
  intros N k v HN [-> | E].
  - rewrite Rmult_0_l; apply sin_0.
  - replace (IZR k * ang N v) with (PI * IZR v); [apply sin_PI_Z|].
    unfold ang; rewrite <- E, mult_IZR; field.
    apply not_0_IZR; lia.
Qed.

Lemma to_radians2_dih : forall N f r, (0 < N)%Z -> (f = 0 \/ f = 1)%Z ->
  to_radians2 (Fin (Dih N)) (VF (VD f r)) = Ret (f, ang N r).
Proof. intros N f r HN [-> | ->]; cbn; rewrite ang_form' by exact HN; reflexivity. Qed.

Lemma psichi_ret : forall t s k g, (s = 0 \/ s = 1)%Z -> psichi t s k g =
  Ret (mat2 (cos (IZR k * t + g)) (- rsign s * sin (IZR k * t + g))
            (sin (IZR k * t + g)) (rsign s * cos (IZR k * t + g))).
Proof. intros t s k g [-> | ->]; reflexivity. Qed.

Lemma p_irrep_kind : forall G id, pvalid G -> irrep_ok G id ->
  exists r, p_irrep G id = Ret r /\ irrep_as G id r (irrep_kind G id).
Proof.
  intros [[N|N]| |] [|j [|k [|]]] HG H; cbn [irrep_ok] in H; try contradiction; cbn [p_irrep irrep_kind].
  - (* cyclic *)
    pose proof (valid_pos _ N HG (or_introl eq_refl)) as HN.
    unfold cn_irrep.
    replace ((0 <=? j)%Z && (j <=? N / 2)%Z) with true
      by (symmetry; apply andb_true_intro; split; apply Z.leb_le; [lia|apply half_le; lia]).
    cbn [assert_ bind]; rewrite half_eq.
    destruct (Z.eqb_spec j 0) as [->|H0]; cbn [orb].
    + eexists; split; [reflexivity|]; repeat split; auto.
      * intros v Hv; rewrite Rmult_0_l; apply sin_0.
      * intros v Hv; eexists; split; [reflexivity|]; split.
        -- cbn [kdim kmat]; m11; rewrite Rmult_0_l, cos_0; unfold rsign; cbn; ring.
        -- cbn; f_equal; unfold trace, mid; cbn; ring.
    + destruct (Z.eqb_spec (2 * j) N) as [E|E].
      * eexists; split; [reflexivity|]; repeat split; auto.
        -- intros v Hv; unpack; cbn; apply (sin_half N j r HN (or_intror E)).
        -- intros v Hv; unpack; cbn [ir_rep ir_char]; unfold build_irrep_cn, build_char_cn.
           rewrite half_eq, (proj2 (Z.eqb_eq (2 * j) N) E), (proj2 (Z.eqb_neq j 0) H0).
           rewrite to_radians1_cyc by exact HN; cbn [bind]; eexists; split; [reflexivity|].
           cbn [kdim kmat phase fst snd]; split.
           ++ m11; unfold rsign; cbn; ring.
           ++ f_equal; unfold trace, mat1; cbn; ring.
      * eexists; split; [reflexivity|]; repeat split; auto.
        intros v Hv; unpack; cbn [ir_rep ir_char]; unfold build_irrep_cn, build_char_cn.
        rewrite half_eq, (proj2 (Z.eqb_neq (2 * j) N) E), (proj2 (Z.eqb_neq j 0) H0).
        rewrite to_radians1_cyc by exact HN; cbn [bind]; eexists; split; [reflexivity|].
        cbn [kdim kmat phase fst snd]; unfold psi; rewrite Rplus_0_r; split.
        -- m22; unfold rsign; cbn; ring.
        -- f_equal; unfold trace, mat2; cbn; ring.
  - (* dihedral *)
    pose proof (valid_pos _ N HG (or_intror eq_refl)) as HN; destruct H as [Hk Hj].
    assert (Hj01 : (j = 0 \/ j = 1)%Z) by lia.
    unfold dn_irrep.
    replace ((j =? 0)%Z || (j =? 1)%Z) with true by (destruct Hj01 as [-> | ->]; reflexivity).
    replace ((0 <=? k)%Z && (k <=? N / 2)%Z) with true
      by (symmetry; apply andb_true_intro; split; apply Z.leb_le; [lia|apply half_le; lia]).
    cbn [assert_ bind]; rewrite half_eq, half_eq'.
    destruct (Z.eqb_spec k 0) as [->|H0]; cbn [orb].
    + exists {| ir_id := [j; 0%Z]; ir_size := 1; ir_complex := false; ir_freq := 0;
                ir_flip := Some j; ir_rep := build_irrep_dn N j 0; ir_char := build_char_dn N j 0 |}.
      split; [destruct Hj01 as [-> | ->]; reflexivity|].
      repeat split; auto.
      * intros v Hv; rewrite Rmult_0_l; apply sin_0.
      * intros v Hv; unpack; destruct Hv as [Hf Hr]; cbn [ir_rep ir_char].
        unfold build_irrep_dn, build_char_dn; cbn [Z.eqb kdim kmat phase fst snd].
        destruct Hj01 as [-> | ->]; cbn [Z.eqb]; eexists; (split; [reflexivity|]); split.
        -- m11; rewrite Rmult_0_l, cos_0; unfold rsign; cbn; ring.
        -- f_equal; unfold trace, mid; cbn; ring.
        -- m11; rewrite Rmult_0_l, cos_0, Z.mul_1_l; unfold rsign; cbn; ring.
        -- f_equal; unfold trace, mat1; cbn; ring.
    + destruct (Z.eqb_spec (2 * k) N) as [E|E].
      * exists {| ir_id := [j; k]; ir_size := 1; ir_complex := false; ir_freq := k;
                ir_flip := Some j; ir_rep := build_irrep_dn N j k; ir_char := build_char_dn N j k |}.
        split; [destruct Hj01 as [-> | ->]; reflexivity|].
        repeat split; auto.
        -- intros v Hv; unpack; cbn; apply (sin_half N k r HN (or_intror E)).
        -- intros v Hv; unpack; destruct Hv as [Hf Hr]; cbn [ir_rep ir_char].
           unfold build_irrep_dn, build_char_dn.
           rewrite half_eq, half_eq', (proj2 (Z.eqb_eq (2 * k) N) E), (proj2 (Z.eqb_neq k 0) H0).
           rewrite to_radians2_dih by assumption; cbn [bind fst snd kdim kmat phase].
           destruct Hj01 as [-> | ->]; cbn [Z.eqb]; eexists; (split; [reflexivity|]); split.
           ++ m11; unfold rsign; cbn; ring.
           ++ f_equal; unfold trace, mat1; cbn; ring.
           ++ m11; rewrite Z.mul_1_l; ring.
           ++ f_equal; unfold trace, mat1; cbn; ring.
      * destruct Hj as [-> | [_ [? | ?]]]; [|contradiction|contradiction].
        eexists; split; [reflexivity|]; repeat split; auto.
        intros v Hv; unpack; destruct Hv as [Hf Hr]; cbn [ir_rep ir_char].
        unfold build_irrep_dn, build_char_dn.
        rewrite half_eq', (proj2 (Z.eqb_neq (2 * k) N) E), (proj2 (Z.eqb_neq k 0) H0).
        rewrite to_radians2_dih by assumption; cbn [Z.eqb bind fst snd kdim kmat phase].
        rewrite psichi_ret by exact Hf; cbn [bind]; rewrite Rplus_0_r.
        eexists; split; [reflexivity|]; split; [apply meq_refl|].
        f_equal; unfold trace, mat2; destruct Hf as [-> | ->]; cbn; unfold rsign; cbn; ring.
  - (* SO(2) *)
    unfold so2_irrep; rewrite (proj2 (Z.leb_le 0 j) H); cbn [assert_ bind].
    destruct (Z.eqb_spec j 0) as [->|H0].
    + eexists; split; [reflexivity|]; repeat split; auto.
      * intros v Hv; rewrite Rmult_0_l; apply sin_0.
      * intros v Hv; eexists; split; [reflexivity|]; split.
        -- cbn [kdim kmat]; m11; rewrite Rmult_0_l, cos_0; unfold rsign; cbn; ring.
        -- cbn; f_equal; unfold trace, mid; cbn; ring.
    + eexists; split; [reflexivity|]; repeat split; auto.
      intros v Hv; unpack; cbn [ir_rep ir_char]; unfold build_irrep_so2, build_char_so2.
      rewrite (proj2 (Z.eqb_neq j 0) H0); cbn [to_radians1]; rewrite so2_norm_eq; cbn [bind].
      eexists; split; [reflexivity|]; cbn [kdim kmat phase fst snd]; unfold psi; rewrite Rplus_0_r, sa_m; split.
      * m22; unfold rsign; cbn; ring.
      * f_equal; unfold trace, mat2; cbn; ring.
  - (* O(2) *)
    destruct H as [Hk Hj]; assert (Hj01 : (j = 0 \/ j = 1)%Z) by lia.
    unfold o2_irrep; rewrite (proj2 (Z.leb_le 0 k) Hk).
    replace ((j =? 0)%Z || (j =? 1)%Z) with true by (destruct Hj01 as [-> | ->]; reflexivity).
    cbn [assert_ bind]; destruct (Z.eqb_spec k 0) as [->|H0].
    + exists {| ir_id := [j; 0%Z]; ir_size := 1; ir_complex := false; ir_freq := 0;
                ir_flip := Some j; ir_rep := build_irrep_o2 j 0; ir_char := build_char_o2 j 0 |}.
      split; [destruct Hj01 as [-> | ->]; reflexivity|].
      repeat split; auto.
      * intros v Hv; rewrite Rmult_0_l; apply sin_0.
      * intros v Hv; unpack; destruct Hv as [Hf Hr]; cbn [ir_rep ir_char].
        unfold build_irrep_o2, build_char_o2; cbn [Z.eqb Z.leb Z.compare assert_ kdim kmat phase fst snd to_radians2].
        rewrite o2_norm_eq.
        destruct Hj01 as [-> | ->]; cbn [Z.eqb Pos.eqb orb bind fst snd assert_]; eexists; (split; [reflexivity|]); split.
        -- m11; rewrite Rmult_0_l, cos_0; unfold rsign; cbn; ring.
        -- f_equal; unfold trace, mid; cbn; ring.
        -- m11; rewrite Rmult_0_l, cos_0, Z.mul_1_l; unfold rsign; cbn; ring.
        -- f_equal; unfold trace, mat1; cbn; ring.
    + destruct Hj as [-> | [_ ?]]; [|contradiction].
      eexists; split; [reflexivity|]; repeat split; auto.
      intros v Hv; unpack; destruct Hv as [Hf Hr]; cbn [ir_rep ir_char].
      unfold build_irrep_o2, build_char_o2; rewrite (proj2 (Z.leb_le 0 k) Hk), (proj2 (Z.eqb_neq k 0) H0).
      cbn [Z.eqb Pos.eqb orb assert_ bind to_radians2]; rewrite o2_norm_eq; cbn [bind fst snd].
      rewrite psichi_ret by exact Hf; cbn [bind]; rewrite Rplus_0_r, (m_id _ Hr).
      eexists; split; [reflexivity|]; split; [apply meq_refl|].
      f_equal; unfold trace, mat2; destruct Hf as [-> | ->]; cbn; unfold rsign; cbn; ring.
Qed.

(** Exactly the documented ids are accepted. *)
Lemma p_irrep_accepts : forall G id, pvalid G -> (exists r, p_irrep G id = Ret r) <-> irrep_ok G id.
Proof.
  intros G id HG; split.
  2:{ intros H; destruct (p_irrep_kind G id HG H) as (r & E & _); eauto. }
  intros [r E]; destruct G as [[N|N]| |]; destruct id as [|j [|k [|]]]; cbn [p_irrep irrep_ok] in E |- *; try discriminate E.
  - unfold cn_irrep in E; apply assert_Ret in E as [E _]; apply andb_prop in E as [E1 E2].
    apply Z.leb_le in E1, E2; apply half_le in E2; lia.
  - unfold dn_irrep in E; apply assert_Ret in E as [E0 E]; apply assert_Ret in E as [E1 E].
    apply andb_prop in E1 as [E1 E2]; apply Z.leb_le in E1, E2; apply half_le in E2.
    rewrite half_eq, half_eq' in E; split; [lia|].
    destruct (Z.eqb_spec j 0), (Z.eqb_spec j 1); cbn in E0; try discriminate E0; subst; auto.
    destruct (Z.eqb_spec k 0), (Z.eqb_spec (2 * k) N); try discriminate E; auto.
  - unfold so2_irrep in E; apply assert_Ret in E as [E _]; apply Z.leb_le in E; exact E.
  - unfold o2_irrep in E; apply assert_Ret in E as [E0 E]; apply assert_Ret in E as [E1 E].
    apply Z.leb_le in E1; split; [exact E1|].
    destruct (Z.eqb_spec j 0), (Z.eqb_spec j 1); cbn in E0; try discriminate E0; subst; auto.
    destruct (Z.eqb_spec k 0); try discriminate E; auto.
Qed.

(** ** Irreps are orthogonal representations *)

Lemma orthogonal_ext : forall n A B, meq n n A B -> orthogonal n B -> orthogonal n A.
Proof.
  intros n A B E [H1 H2]; split.
  - eapply meq_trans; [apply mmul_ext; [exact E|apply mtr_ext; exact E]|exact H1].
  - eapply meq_trans; [apply mmul_ext; [apply mtr_ext; exact E|exact E]|exact H2].
Qed.

Lemma kind_orth_rep : forall G id r kd, pvalid G -> irrep_as G id r kd ->
  orth_rep (pmember G) (pmul G) (pinv G) (pid G) (ir_size r) (ir_rep r) /\
  is_character (pmember G) (ir_size r) (ir_rep r) (ir_char r).
Proof.
  intros G id r kd HG (Hok & _ & Es & _ & _ & _ & Hr); rewrite Es; split; [constructor|].
  - intros g Hg; destruct (Hr g Hg) as (A & EA & MA & _); exists A; split; [exact EA|].
    eapply orthogonal_ext; [exact MA|]; apply kmat_orth.
    destruct kd as [s k|k]; [apply Hok; exact Hg|exact I].
  - destruct (Hr (pid G) (pid_member G HG)) as (A & EA & MA & _); exists A; split; [exact EA|].
    destruct (phase_id G) as [Ef Et]; rewrite Ef, Et in MA.
    eapply meq_trans; [exact MA|apply kmat_id].
  - intros g h Hg Hh; destruct (phase_mul G g h HG Hg Hh) as (u & Eu & Hu & Ef & Et).
    destruct (Hr g Hg) as (A & EA & MA & _), (Hr h Hh) as (B & EB & MB & _), (Hr u Hu) as (C & EC & MC & _).
    exists u, A, B, C; repeat split; auto.
    eapply meq_trans; [exact MC|]; rewrite Ef, (kmat_sa kd _ _ _ Et).
    eapply meq_trans; [apply kmat_mul; try apply fl_cases; auto|].
    + destruct kd as [s k|k]; [|exact I]; destruct Hok as [Hs Hok]; repeat split; auto.
    + apply mmul_ext; apply meq_sym; assumption.
  - intros g Hg; destruct (phase_inv G g HG Hg) as (u & Eu & Hu & Ef & Et).
    destruct (Hr g Hg) as (A & EA & MA & _), (Hr u Hu) as (B & EB & MB & _).
    exists u, A, B; repeat split; auto.
    eapply meq_trans; [exact MB|]; rewrite Ef, (kmat_sa kd _ _ _ Et).
    eapply meq_trans; [apply kmat_inv, fl_cases; exact Hg|].
    apply mtr_ext, meq_sym; exact MA.
  - intros g Hg; destruct (Hr g Hg) as (A & EA & _ & EC); exists A; split; assumption.
Qed.
