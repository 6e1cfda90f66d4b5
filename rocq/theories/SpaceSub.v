(** The subgroups of SO(3). *)
From Coq Require Import Reals ZArith Bool List Lia Lra.
From Verif Require Import LibRes LibMat LibTrig FinGroupModel SpecFinGroup SpecGroup ParamModel ParamProofs
  PlanarModel SpecPlanar PlanarProofs SpaceModel SpecSpace SpaceProofs SpaceTol SpaceThms.
Import ListNotations.
Open Scope R_scope.

(** ** The matrices of planar elements *)

Definition base_matrix (G : pgrp) (v : pval) : mat := mmul 3 (Rz (angle_of G v)) (halfX (flip_of v)).

Definition planar_like (G : pgrp) : Prop := cyclic_like G \/ dihedral_like G.

Lemma planar_mul : forall G v w u, planar_like G -> pmember G v -> pmember G w -> pmul G v w = Ret u ->
  pmember G u /\ flip_of u = ((flip_of v + flip_of w) mod 2)%Z /\
  same_angle (angle_of G u) (angle_of G v + IZR (pysign (flip_of v)) * angle_of G w).
Proof.
  intros G v w u [[->|(N & HN & ->)]|[->|(N & HN & ->)]] Hv Hw E; unpack.
  - rewrite pmul_so2 in E; apply Ret_inj in E; subst u; cbn; split; [apply m_range|split; [reflexivity|]].
    etransitivity; [apply sa_m|]; apply sa_eq; ring.
  - rewrite gmul_cyc in E by assumption; apply Ret_inj in E; subst u; cbn; split; [apply Z.mod_pos_bound; exact HN|].
    split; [reflexivity|]; etransitivity; [apply ang_mod; exact HN|]; rewrite ang_add; apply sa_eq; unfold ang; ring.
  - destruct Hv as [Hf Hv], Hw as [Hg Hw]; rewrite pmul_o2 in E by assumption; apply Ret_inj in E; subst u; cbn.
    split; [split; [apply inv_add; assumption|apply m_range]|split; [reflexivity|]]; apply sa_m.
  - destruct Hv as [Hf Hv], Hw as [Hg Hw]; rewrite gmul_dih in E by assumption; apply Ret_inj in E; subst u; cbn.
    split; [split; [apply inv_add; assumption|apply Z.mod_pos_bound; exact HN]|split; [reflexivity|]].
    etransitivity; [apply ang_mod; exact HN|]; rewrite ang_add, ang_mult; apply sa_eq; unfold ang; ring.
Qed.

Lemma Rz_add : forall a b, meq 3 3 (mmul 3 (Rz a) (Rz b)) (Rz (a + b)).
Proof.
  intros a b i j Hi Hj; mat_entries i j Hi Hj; cbn; rewrite ?cos_plus, ?sin_plus; ring.
Qed.
Lemma halfX_Rz : forall f a, (f = 0 \/ f = 1)%Z ->
  meq 3 3 (mmul 3 (halfX f) (Rz a)) (mmul 3 (Rz (IZR (pysign f) * a)) (halfX f)).
Proof.
  intros f a [->| ->] i j Hi Hj; unfold pysign; cbn [Z.eqb Z.pow Z.pow_pos Pos.iter Z.mul].
  - rewrite Rmult_1_l; mat_entries i j Hi Hj; cbn; ring.
  - replace (IZR (-1) * a) with (- a) by ring; mat_entries i j Hi Hj; cbn; rewrite ?cos_neg, ?sin_neg; ring.
Qed.
Lemma halfX_add : forall f g, (f = 0 \/ f = 1)%Z -> (g = 0 \/ g = 1)%Z ->
  meq 3 3 (mmul 3 (halfX f) (halfX g)) (halfX ((f + g) mod 2)).
Proof. intros f g [->| ->] [->| ->] i j Hi Hj; mat_entries i j Hi Hj; cbn; ring. Qed.

Lemma plane_product : forall f g a b, (f = 0 \/ f = 1)%Z -> (g = 0 \/ g = 1)%Z ->
  meq 3 3 (mmul 3 (mmul 3 (Rz a) (halfX f)) (mmul 3 (Rz b) (halfX g)))
          (mmul 3 (Rz (a + IZR (pysign f) * b)) (halfX ((f + g) mod 2))).
Proof.
  intros f g a b Hf Hg.
  eapply meq_trans3; [apply mmul3_assoc|].
  eapply meq_trans3; [apply mmul3; [apply meq_refl3|]; apply meq_sym3, mmul3_assoc|].
  eapply meq_trans3; [apply mmul3; [apply meq_refl3|]; apply mmul3; [apply halfX_Rz; exact Hf|apply meq_refl3]|].
  eapply meq_trans3; [apply mmul3; [apply meq_refl3|]; apply mmul3_assoc|].
  eapply meq_trans3; [apply meq_sym3, mmul3_assoc|].
  apply mmul3; [apply Rz_add|apply halfX_add; assumption].
Qed.

Lemma base_mul : forall G v w u, planar_like G -> pmember G v -> pmember G w -> pmul G v w = Ret u ->
  pmember G u /\ meq 3 3 (base_matrix G u) (mmul 3 (base_matrix G v) (base_matrix G w)).
Proof.
  intros G v w u HG Hv Hw E; destruct (planar_mul G v w u HG Hv Hw E) as (M & F & A); split; [exact M|].
  unfold base_matrix; rewrite (Rz_same _ _ A), F; apply meq_sym3, plane_product; eapply flip_01; eassumption.
Qed.

Lemma angle_inj : forall G v w, planar_like G -> pmember G v -> pmember G w ->
  flip_of v = flip_of w -> same_angle (angle_of G v) (angle_of G w) -> v = w.
Proof.
  intros G v w [[->|(N & HN & ->)]|[->|(N & HN & ->)]] Hv Hw F A; unpack; cbn in F, A.
  - f_equal; apply sa_range; assumption.
  - do 2 f_equal; apply (ang_inj N); assumption.
  - subst; f_equal; destruct Hv, Hw; apply sa_range; assumption.
  - subst; do 2 f_equal; destruct Hv, Hw; apply (ang_inj N); assumption.
Qed.

Lemma plane_matrix_inj : forall a b f g, (f = 0 \/ f = 1)%Z -> (g = 0 \/ g = 1)%Z ->
  meq 3 3 (mmul 3 (Rz a) (halfX f)) (mmul 3 (Rz b) (halfX g)) -> f = g /\ same_angle a b.
Proof.
  intros a b f g Hf Hg M.
  pose proof (M 0 0 ltac:(lia) ltac:(lia))%nat as E00; pose proof (M 1 0 ltac:(lia) ltac:(lia))%nat as E10;
  pose proof (M 2 2 ltac:(lia) ltac:(lia))%nat as E22.
  destruct Hf as [->| ->], Hg as [->| ->]; cbn in E00, E10, E22; try (exfalso; lra);
    (split; [reflexivity|]; destruct (angle_unique a b) as [n En]; [lra|lra|exists n; exact En]).
Qed.

Lemma base_inj : forall G v w, planar_like G -> pmember G v -> pmember G w ->
  meq 3 3 (base_matrix G v) (base_matrix G w) -> v = w.
Proof.
  intros G v w HG Hv Hw M; apply plane_matrix_inj in M as [F A]; try (eapply flip_01; eassumption).
  apply (angle_inj G); assumption.
Qed.

(** ** Assembling a subgroup *)

Section Build.
  Context {T : Type}.
  Variable valid : T -> Prop.
  Variable matrix : T -> mat.

  Lemma build : forall A G M (s : ssub T), orth3 A ->
    s3_group s = G ->
    (forall h k hk, smember G h -> smember G k -> smul G h k = Ret hk ->
       smember G hk /\ meq 3 3 (M hk) (mmul 3 (M h) (M k))) ->
    (forall h k, smember G h -> smember G k -> meq 3 3 (M h) (M k) -> same_elem h k) ->
    (forall h, smember G h ->
      exists g, s3_incl s h = Ret g /\ valid g /\ meq 3 3 (matrix g) (conjugate A (M h))) ->
    (forall g, valid g -> exists o, s3_restr s g = Ret o) ->
    (forall h g, smember G h -> valid g -> meq 3 3 (matrix g) (conjugate A (M h)) ->
      exists k, s3_restr s g = Ret (Some k) /\ smember G k /\ same_elem k h) ->
    (forall g k, valid g -> s3_restr s g = Ret (Some k) -> smember G k /\
      forall i j, (i < 3)%nat -> (j < 3)%nat -> Rabs (matrix g i j - conjugate A (M k) i j) <= / 10 ^ 6) ->
    space_subgroup valid matrix A G M s.
  Proof.
    intros A G M s O HG Hom Inj Inc Tot Res Snd; constructor; try assumption.
    - intros h k hk g1 g2 g12 Hh Hk E E1 E2 E12; destruct (Hom h k hk Hh Hk E) as [Hhk P].
      destruct (Inc h Hh) as (x1 & X1 & _ & M1), (Inc k Hk) as (x2 & X2 & _ & M2), (Inc hk Hhk) as (x & X & _ & M3).
      rewrite X1 in E1; rewrite X2 in E2; rewrite X in E12; apply Ret_inj in E1, E2, E12; subst.
      eapply meq_trans3; [exact M3|]; eapply meq_trans3; [apply conj3; [apply meq_refl3|exact P]|].
      eapply meq_trans3; [apply conj_mul; exact O|]; apply mmul3; apply meq_sym3; assumption.
    - intros h k g1 g2 Hh Hk E1 E2 E.
      destruct (Inc h Hh) as (x1 & X1 & _ & M1), (Inc k Hk) as (x2 & X2 & _ & M2).
      rewrite X1 in E1; rewrite X2 in E2; apply Ret_inj in E1, E2; subst.
      apply Inj; try assumption; apply (conj_inj A); [exact O|].
      eapply meq_trans3; [apply meq_sym3, M1|]; eapply meq_trans3; [exact E|exact M2].
  Qed.

  (** Another frame that gives the same matrices. *)
  Lemma reframe : forall A A' G M M' (s : ssub T), space_subgroup valid matrix A G M s ->
    (forall h, smember G h -> meq 3 3 (conjugate A (M h)) (conjugate A' (M' h))) ->
    space_subgroup valid matrix A' G M' s.
  Proof.
    intros A A' G M M' s [S1 S2 S3 S4 S5 S6 S7] E; constructor; try assumption.
    - intros h Hh; destruct (S2 h Hh) as (g & G1 & G2 & G3); exists g; repeat split; try assumption.
      eapply meq_trans3; [exact G3|apply E; exact Hh].
    - intros h g Hh Hg H; apply S6; try assumption; eapply meq_trans3; [exact H|apply meq_sym3, E; exact Hh].
    - intros g k Hg H; destruct (S7 g k Hg H) as [K B]; split; [exact K|].
      intros i j Hi Hj; rewrite <- (E k K i j Hi Hj); apply B; assumption.
  Qed.
End Build.

(** ** Moving by the adjoint *)

Lemma to_adj_unit : forall adj g, unit adj -> unit g ->
  so3_to_adj adj g = Ret (qmul (qmul adj g) (qconj adj)) /\ unit (qmul (qmul adj g) (qconj adj)).
Proof.
  intros adj g Ha Hg; unfold so3_to_adj; rewrite so3_mul_unit, so3_inv_unit by assumption; cbn [bind].
  rewrite so3_mul_unit by (try apply unit_mul; try apply unit_conj; assumption); split; [reflexivity|].
  repeat apply unit_mul; try apply unit_conj; assumption.
Qed.
Lemma from_adj_unit : forall adj g, unit adj -> unit g ->
  so3_from_adj adj g = Ret (qmul (qmul (qconj adj) g) adj) /\ unit (qmul (qmul (qconj adj) g) adj).
Proof.
  intros adj g Ha Hg; unfold so3_from_adj; rewrite so3_inv_unit by assumption; cbn [bind].
  rewrite so3_mul_unit by (try apply unit_conj; assumption); cbn [bind].
  rewrite so3_mul_unit by (try apply unit_mul; try apply unit_conj; assumption); split; [reflexivity|].
  repeat apply unit_mul; try apply unit_conj; assumption.
Qed.

(** The moved element has the matrix seen from the other frame. *)
Lemma moved_matrix : forall adj g M, unit adj -> unit g ->
  meq 3 3 (as_matrix g) (conjugate (as_matrix adj) M) ->
  meq 3 3 (as_matrix (qmul (qmul adj g) (qconj adj))) M.
Proof.
  intros adj g M Ha Hg H; eapply meq_trans3; [apply unconj_mat|].
  eapply meq_trans3; [|apply (unconj (as_matrix adj) M), mat_orth3, Ha].
  apply mmul3; [apply meq_refl3|]; apply mmul3; [exact H|apply meq_refl3].
Qed.

Lemma moved_back : forall adj g, unit adj -> unit g ->
  meq 3 3 (as_matrix g) (conjugate (as_matrix adj) (as_matrix (qmul (qmul adj g) (qconj adj)))).
Proof.
  intros adj g Ha Hg; eapply meq_trans3; [|apply conj_mat].
  replace (qmul (qmul (qconj adj) (qmul (qmul adj g) (qconj adj))) adj)
    with (qmul (qmul (qmul (qconj adj) adj) g) (qmul (qconj adj) adj)) by (rewrite !qmul_assoc; reflexivity).
  rewrite qmul_conj_l, qmul_id_l, qmul_id_r by exact Ha; apply meq_refl3.
Qed.

Lemma moved_error : forall adj g N eps, unit adj -> unit g -> 0 <= eps ->
  (forall i j, (i < 3)%nat -> (j < 3)%nat ->
     Rabs (as_matrix (qmul (qmul adj g) (qconj adj)) i j - N i j) <= eps) ->
  forall i j, (i < 3)%nat -> (j < 3)%nat ->
    Rabs (as_matrix g i j - conjugate (as_matrix adj) N i j) <= 9 * eps.
Proof.
  intros adj g N eps Ha Hg He H i j Hi Hj; rewrite (moved_back adj g Ha Hg i j Hi Hj).
  apply conj_error; try assumption; apply mat_orth; exact Ha.
Qed.

Lemma sign_quat : forall p q, p = q \/ p = qopp q -> exists s, s * s = 1 /\ p = qscal s q.
Proof.
  intros p q [->| ->]; [exists 1|exists (-1)]; (split; [ring|]); apply quat_eq; cbn; ring.
Qed.

(** ** Cyclic, dihedral, everything *)

Lemma quat_of_base : forall G v, meq 3 3 (as_matrix (plane_quat (flip_of v) (angle_of G v))) (base_matrix G v).
Proof. intros; apply mat_plane. Qed.

Definition base_of (G : pgrp) (h : sval) : mat := match h with EP v => base_matrix G v | _ => mid end.

Lemma sub_cyc : forall G adj, cyclic_like G -> unit adj ->
  space_subgroup unit as_matrix (as_matrix adj) (GP G) (base_of G)
    {| s3_group := GP G; s3_incl := so2_to_so3 adj G; s3_restr := so3_to_so2 adj G |}.
Proof.
  intros G adj HG Ha; apply build; cbn [s3_group s3_incl s3_restr].
  - apply mat_orth3; exact Ha.
  - reflexivity.
  - intros [v| | |] [w| | |] hk Hv Hw E; cbn in Hv, Hw; try contradiction; cbn [smul] in E.
    destruct (pmul G v w) as [|u] eqn:P; [discriminate E|]; cbn [bind] in E; apply Ret_inj in E; subst hk; cbn.
    apply base_mul; try assumption; left; exact HG.
  - intros [v| | |] [w| | |] Hv Hw E; cbn in Hv, Hw; try contradiction; cbn; f_equal.
    apply (base_inj G); try assumption; left; exact HG.
  - intros [v| | |] Hv; cbn in Hv; try contradiction; unfold so2_to_so3.
    rewrite turn_quat_eq by assumption; cbn [bind]; rewrite so3_element_unit by apply unit_turn; cbn [bind].
    destruct (from_adj_unit adj (turn_z (angle_of G v / 2)) Ha (unit_turn _)) as [-> U].
    eexists; split; [reflexivity|]; split; [exact U|].
    eapply meq_trans3; [apply conj_mat|]; apply conj3; [apply meq_refl3|].
    cbn; eapply meq_trans3; [|apply quat_of_base]; rewrite (cyclic_flip G v HG Hv); apply meq_refl3.
  - intros g Hg; unfold so3_to_so2; destruct (to_adj_unit adj g Ha Hg) as [-> _]; cbn [bind].
    destruct (turn_of_total G (qmul (qmul adj g) (qconj adj))) as [o ->]; cbn; eauto.
  - intros [v| | |] g Hv Hg E; cbn in Hv; try contradiction; cbn [base_of] in E.
    exists (EP v); split; [|split; [exact Hv|reflexivity]].
    unfold so3_to_so2; destruct (to_adj_unit adj g Ha Hg) as [-> U]; cbn [bind].
    pose proof (moved_matrix adj g _ Ha Hg E) as M.
    destruct (sign_quat _ _ (mat_inj _ _ U (unit_plane _ _) (meq_trans3 _ _ _ M (meq_sym3 _ _ (quat_of_base G v)))))
      as (s & Hs & ->).
    rewrite (cyclic_flip G v HG Hv); unfold plane_quat; cbn [Z.eqb].
    rewrite turn_of_exact by assumption; reflexivity.
  - intros g k Hg E; unfold so3_to_so2 in E; destruct (to_adj_unit adj g Ha Hg) as [Q U]; rewrite Q in E.
    cbn [bind] in E; destruct (turn_of G (qmul (qmul adj g) (qconj adj))) as [|[v|]] eqn:R; try discriminate E.
    cbn in E; injection E as <-; destruct (turn_of_sound G _ v HG U R) as [M B]; split; [exact M|].
    intros i j Hi Hj; eapply Rle_trans; [apply (moved_error adj g _ (6 / 100000000) Ha Hg ltac:(lra) B); assumption|].
    replace (/ 10 ^ 6) with (1 / 1000000) by field; lra.
Qed.

Lemma sub_dih : forall G adj, dihedral_like G -> unit adj ->
  space_subgroup unit as_matrix (as_matrix adj) (GP G) (base_of G)
    {| s3_group := GP G; s3_incl := o2_to_so3 adj G; s3_restr := so3_to_o2 adj G |}.
Proof.
  intros G adj HG Ha; apply build; cbn [s3_group s3_incl s3_restr].
  - apply mat_orth3; exact Ha.
  - reflexivity.
  - intros [v| | |] [w| | |] hk Hv Hw E; cbn in Hv, Hw; try contradiction; cbn [smul] in E.
    destruct (pmul G v w) as [|u] eqn:P; [discriminate E|]; cbn [bind] in E; apply Ret_inj in E; subst hk; cbn.
    apply base_mul; try assumption; right; exact HG.
  - intros [v| | |] [w| | |] Hv Hw E; cbn in Hv, Hw; try contradiction; cbn; f_equal.
    apply (base_inj G); try assumption; right; exact HG.
  - intros [v| | |] Hv; cbn in Hv; try contradiction; unfold o2_to_so3.
    rewrite dih_quat_eq by assumption; cbn [bind]; rewrite so3_element_unit by apply unit_plane; cbn [bind].
    destruct (from_adj_unit adj (plane_quat (flip_of v) (angle_of G v)) Ha (unit_plane _ _)) as [-> U].
    eexists; split; [reflexivity|]; split; [exact U|].
    eapply meq_trans3; [apply conj_mat|]; apply conj3; [apply meq_refl3|apply quat_of_base].
  - intros g Hg; unfold so3_to_o2; destruct (to_adj_unit adj g Ha Hg) as [-> _]; cbn [bind].
    destruct (dih_of_total G (qmul (qmul adj g) (qconj adj))) as [o ->]; cbn; eauto.
  - intros [v| | |] g Hv Hg E; cbn in Hv; try contradiction; cbn [base_of] in E.
    exists (EP v); split; [|split; [exact Hv|reflexivity]].
    unfold so3_to_o2; destruct (to_adj_unit adj g Ha Hg) as [-> U]; cbn [bind].
    pose proof (moved_matrix adj g _ Ha Hg E) as M.
    destruct (sign_quat _ _ (mat_inj _ _ U (unit_plane _ _) (meq_trans3 _ _ _ M (meq_sym3 _ _ (quat_of_base G v)))))
      as (s & Hs & ->).
    rewrite dih_of_exact by assumption; reflexivity.
  - intros g k Hg E; unfold so3_to_o2 in E; destruct (to_adj_unit adj g Ha Hg) as [Q U]; rewrite Q in E.
    cbn [bind] in E; destruct (dih_of G (qmul (qmul adj g) (qconj adj))) as [|[v|]] eqn:R; try discriminate E.
    cbn in E; injection E as <-; destruct (dih_of_sound G _ v HG U R) as [M B]; split; [exact M|].
    intros i j Hi Hj; eapply Rle_trans; [apply (moved_error adj g _ (6 / 100000000) Ha Hg ltac:(lra) B); assumption|].
    replace (/ 10 ^ 6) with (1 / 1000000) by field; lra.
Qed.

Lemma sub_self : forall adj, unit adj ->
  space_subgroup unit as_matrix (as_matrix adj) GSO3 (so3_matrix S3Self)
    {| s3_group := GSO3;
       s3_incl := fun e => match e with EQ q => so3_from_adj adj q | _ => Raise end;
       s3_restr := fun e => u <- so3_to_adj adj e ;; Ret (Some (EQ u)) |}.
Proof.
  intros adj Ha; apply build; cbn [s3_group s3_incl s3_restr].
  - apply mat_orth3; exact Ha.
  - reflexivity.
  - intros [|p| |] [|q| |] hk Hp Hq E; cbn in Hp, Hq; try contradiction; cbn [smul] in E.
    rewrite so3_mul_unit in E by assumption; cbn in E; apply Ret_inj in E; subst hk; cbn [smember so3_matrix].
    split; [apply unit_mul; assumption|apply mat_mul].
  - intros [|p| |] [|q| |] Hp Hq E; cbn in Hp, Hq; try contradiction; exact E.
  - intros [|p| |] Hp; cbn in Hp; try contradiction.
    destruct (from_adj_unit adj p Ha Hp) as [-> U]; eexists; split; [reflexivity|]; split; [exact U|apply conj_mat].
  - intros g Hg; destruct (to_adj_unit adj g Ha Hg) as [-> _]; cbn; eauto.
  - intros [|p| |] g Hp Hg E; cbn in Hp; try contradiction; cbn [so3_matrix] in E.
    destruct (to_adj_unit adj g Ha Hg) as [-> U]; cbn [bind]; eexists; split; [reflexivity|]; split; [exact U|].
    cbn [same_elem]; apply moved_matrix; assumption.
  - intros g k Hg E; destruct (to_adj_unit adj g Ha Hg) as [Q U]; rewrite Q in E; cbn [bind] in E.
    injection E as <-; split; [exact U|]; intros i j Hi Hj; cbn [so3_matrix].
    rewrite (moved_back adj g Ha Hg i j Hi Hj), Rminus_diag_eq, Rabs_R0 by reflexivity; left; apply tol_pos.
Qed.

(** ** Every documented id *)

Definition process_adj (f : flipspec) (N : Z) (adj : quat) : quat :=
  let a := match f with FFloat a => qmul (qconj (turn_z (a / 2 / 2))) adj | FBool _ => adj end in
  if flips f && (N =? 1)%Z then qmul (Quat 0 (sin (- PI / 4)) 0 (cos (- PI / 4))) a else a.

Lemma unit_Y : forall t, unit (Quat 0 (sin t) 0 (cos t)).
Proof. intros t; unfold unit; cbn; pose proof (sin2cos2 t); lra. Qed.

Lemma unit_process : forall f N adj, unit adj -> unit (process_adj f N adj).
Proof.
  intros f N adj Ha; unfold process_adj; cbv zeta.
  assert (U : unit (match f with FFloat a => qmul (qconj (turn_z (a / 2 / 2))) adj | FBool _ => adj end)).
  { destruct f; [exact Ha|]; apply unit_mul; [apply unit_conj, unit_turn|exact Ha]. }
  destruct (flips f && (N =? 1)%Z); [apply unit_mul; [apply unit_Y|exact U]|exact U].
Qed.

Lemma process_eq : forall f N adj, unit adj ->
  so3_process (S3Plane f N) adj =
  Ret (if flips f && (N =? 1)%Z then S3PPlane false 2 else S3PPlane (flips f) N, process_adj f N adj).
Proof.
  intros f N adj Ha; unfold so3_process, process_adj; cbv zeta; destruct f as [b|a]; cbn [flips].
  - cbn [bind fst snd]; destruct (b && (N =? 1)%Z); [|reflexivity].
    rewrite so3_element_unit by apply unit_Y; cbn [bind]; rewrite so3_mul_unit by (try assumption; apply unit_Y); reflexivity.
  - rewrite so3_element_unit by apply unit_turn; cbn [bind]; rewrite so3_inv_unit by apply unit_turn; cbn [bind].
    rewrite so3_mul_unit by (try assumption; apply unit_conj, unit_turn); cbn [bind fst snd].
    destruct (true && (N =? 1)%Z); [|reflexivity].
    rewrite so3_element_unit by apply unit_Y; cbn [bind].
    rewrite so3_mul_unit; [reflexivity|apply unit_Y|apply unit_mul; [apply unit_conj, unit_turn|exact Ha]].
Qed.

(** Turning the frame by half the axis turns the flips by the axis. *)
Lemma turn_frame : forall a f t, (f = 0 \/ f = 1)%Z ->
  meq 3 3 (conjugate (as_matrix (qconj (turn_z (a / 2 / 2)))) (mmul 3 (Rz t) (halfX f)))
          (mmul 3 (Rz (t + IZR f * a)) (halfX f)).
Proof.
  intros a f t Hf.
  assert (E : meq 3 3 (as_matrix (qconj (turn_z (a / 2 / 2)))) (Rz (- (a / 2)))).
  { replace (qconj (turn_z (a / 2 / 2))) with (turn_z (- (a / 2) / 2)).
    - apply mat_turn.
    - replace (- (a / 2) / 2) with (- (a / 2 / 2)) by field; apply quat_eq; cbn; rewrite ?sin_neg, ?cos_neg; ring. }
  eapply meq_trans3; [apply conj3; [exact E|apply meq_refl3]|]; unfold conjugate.
  assert (T : meq 3 3 (mtr (Rz (- (a / 2)))) (Rz (a / 2))).
  { intros i j Hi Hj; mat_entries i j Hi Hj; unfold mtr, Rz; cbn; rewrite ?cos_neg, ?sin_neg; ring. }
  eapply meq_trans3; [apply mmul3; [exact T|]; apply mmul3_assoc|].
  eapply meq_trans3; [apply mmul3; [apply meq_refl3|]; apply mmul3; [apply meq_refl3|apply halfX_Rz; exact Hf]|].
  eapply meq_trans3; [apply mmul3; [apply meq_refl3|apply meq_sym3, mmul3_assoc]|].
  eapply meq_trans3; [apply meq_sym3, mmul3_assoc|].
  apply mmul3; [|apply meq_refl3].
  eapply meq_trans3; [apply mmul3; [apply meq_refl3|apply Rz_add]|].
  eapply meq_trans3; [apply Rz_add|].
  replace (a / 2 + (t + IZR (pysign f) * - (a / 2))) with (t + IZR f * a); [apply meq_refl3|].
  destruct Hf as [->| ->]; cbn [pysign Z.eqb Z.pow Z.pow_pos Pos.iter Z.mul]; field.
Qed.

Lemma swing_frame : forall r, (r = 0 \/ r = 1)%Z ->
  meq 3 3 (conjugate (as_matrix (Quat 0 (sin (- PI / 4)) 0 (cos (- PI / 4)))) (mmul 3 (Rz (2 * PI / 2 * IZR r)) (halfX 0)))
          (halfX r).
Proof.
  intros r Hr.
  assert (S : sin (- PI / 4) * cos (- PI / 4) = - / 2 /\ cos (- PI / 4) * cos (- PI / 4) = / 2 /\
              sin (- PI / 4) * sin (- PI / 4) = / 2).
  { replace (- PI / 4) with (- (PI / 4)) by field; rewrite sin_neg, cos_neg, sin_PI4, cos_PI4.
    assert (Q : sqrt 2 * sqrt 2 = 2) by (apply sqrt_sqrt; lra).
    pose proof (sqrt_lt_R0 2 ltac:(lra)).
    assert (Q' : 1 / sqrt 2 * (1 / sqrt 2) = / 2) by (rewrite <- Q at 3; field; lra).
    repeat split; lra. }
  destruct S as (S1 & S2 & S3); set (c := cos (- PI / 4)) in *; set (s := sin (- PI / 4)) in *.
  assert (Y : meq 3 3 (as_matrix (Quat 0 s 0 c)) (mat3 0 0 (-1) 0 1 0 1 0 0)).
  { intros i j Hi Hj; mat_entries i j Hi Hj; cbn; lra. }
  eapply meq_trans3; [apply conj3; [exact Y|apply meq_refl3]|].
  destruct Hr as [->| ->]; intros i j Hi Hj.
  - rewrite Rmult_0_r; mat_entries i j Hi Hj; unfold conjugate, mtr, Rz, halfX; cbn; rewrite cos_0, sin_0; ring.
  - replace (2 * PI / 2 * 1) with PI by field.
    mat_entries i j Hi Hj; unfold conjugate, mtr, Rz, halfX; cbn; rewrite cos_PI, sin_PI; ring.
Qed.

Lemma cyclic_documented : forall N, (N = -1 \/ 0 < N)%Z -> cyclic_like (plane_group false N).
Proof.
  intros N H; unfold plane_group; destruct (Z.eqb_spec N (-1)); [left; reflexivity|right; exists N; split; [lia|reflexivity]].
Qed.
Lemma dihedral_documented : forall N, (N = -1 \/ 0 < N)%Z -> N <> 1%Z -> dihedral_like (plane_group true N).
Proof.
  intros N H K; unfold plane_group; destruct (Z.eqb_spec N (-1)); [left; reflexivity|].
  destruct (Z.eqb_spec N 1); [contradiction|right; exists N; split; [lia|reflexivity]].
Qed.

Lemma mat_frame : forall p q M N, meq 3 3 (conjugate (as_matrix p) M) N ->
  meq 3 3 (conjugate (as_matrix (qmul p q)) M) (conjugate (as_matrix q) N).
Proof.
  intros p q M N H; eapply meq_trans3; [apply conj3; [apply mat_mul|apply meq_refl3]|].
  eapply meq_trans3; [apply conj_conj|]; apply conj3; [apply meq_refl3|exact H].
Qed.

(** Without the C_2 special case. *)
Lemma plain_frame : forall f t k adj, (k = 0 \/ k = 1)%Z ->
  meq 3 3 (conjugate (as_matrix (match f with FFloat a => qmul (qconj (turn_z (a / 2 / 2))) adj | FBool _ => adj end))
             (mmul 3 (Rz t) (halfX k)))
          (conjugate (as_matrix adj) (mmul 3 (Rz (t + IZR k * axis2 f)) (halfX k))).
Proof.
  intros [b|a] t k adj Hk; cbn [axis2].
  - rewrite Rmult_0_r, Rplus_0_r; apply meq_refl3.
  - apply mat_frame, turn_frame; exact Hk.
Qed.

Lemma so3_subgroup_exists : forall id adj, so3_documented id -> unit adj -> exists s, so3_subgroup id adj = Ret s.
Proof.
  intros [|f N] adj D Ha; unfold so3_subgroup.
  - cbn; eauto.
  - rewrite process_eq by exact Ha; cbn [bind fst snd so3_documented] in *.
    destruct (flips f) eqn:F; cbn [andb].
    + destruct (Z.eqb_spec N 1); [cbn; eauto|]; unfold so3_subgroup'.
      destruct (Z.eqb_spec N (-1)); [eauto|]; destruct (Z.ltb_spec 1 N); [eauto|lia].
    + unfold so3_subgroup'; destruct (Z.eqb_spec N (-1)); [eauto|]; destruct (Z.ltb_spec 0 N); [eauto|lia].
Qed.

Lemma so3_subgroup_correct : forall id adj s, so3_documented id -> unit adj -> so3_subgroup id adj = Ret s ->
  space_subgroup unit as_matrix (as_matrix adj) (so3_group_of id) (so3_matrix id) s.
Proof.
  intros [|f N] adj s D Ha E; unfold so3_subgroup in E.
  - cbn in E; apply Ret_inj in E; subst s; apply sub_self; exact Ha.
  - rewrite process_eq in E by exact Ha; cbn [bind fst snd so3_documented] in *.
    pose proof (unit_process f N adj Ha) as U; unfold process_adj in *; cbv zeta in *.
    set (adj0 := match f with FFloat a => qmul (qconj (turn_z (a / 2 / 2))) adj | FBool _ => adj end) in *.
    cbn [so3_group_of so3_matrix]; unfold plane_matrix; cbv zeta.
    destruct (flips f) eqn:F; cbn [andb] in *.
    + destruct (Z.eqb_spec N 1) as [->|N1].
      * cbn in E; apply Ret_inj in E; subst s; cbn [plane_group Z.eqb Pos.eqb].
        apply (reframe unit as_matrix _ _ _ _ _ _ (sub_cyc (Fin (Cyc 2)) _ (or_intror (ex_intro _ 2%Z (conj eq_refl eq_refl))) U)).
        intros [v| | |] Hv; cbn in Hv; try contradiction; destruct v as [[r|? ?]|?|? ?]; try contradiction.
        assert (Hr : (r = 0 \/ r = 1)%Z) by lia.
        cbn [base_of so3_matrix]; unfold plane_matrix, base_matrix; cbn [flip_of angle_of].
        unfold plane_angle, plane_flip; rewrite F; cbn [andb Z.eqb Pos.eqb].
        eapply meq_trans3; [apply mat_frame, swing_frame; exact Hr|].
        eapply meq_trans3; [|apply plain_frame; exact Hr].
        apply conj3; [apply meq_refl3|].
        intros i j Hi Hj; mat_entries i j Hi Hj; cbn; rewrite ?cos_0, ?sin_0; ring.
      * assert (E' : s = {| s3_group := GP (plane_group true N); s3_incl := o2_to_so3 adj0 (plane_group true N);
                            s3_restr := so3_to_o2 adj0 (plane_group true N) |}).
        { unfold so3_subgroup' in E; unfold plane_group; destruct (Z.eqb_spec N (-1)); [congruence|].
          destruct (Z.eqb_spec N 1); [contradiction|]; destruct (Z.ltb_spec 1 N); [congruence|discriminate E]. }
        subst s; apply (reframe unit as_matrix _ _ _ _ _ _ (sub_dih _ adj0 (dihedral_documented N D N1) U)).
        intros [v| | |] Hv; cbn in Hv; try contradiction.
        cbn [base_of so3_matrix]; unfold plane_matrix, base_matrix, plane_angle, plane_flip; rewrite F.
        replace (N =? 1)%Z with false by (symmetry; apply Z.eqb_neq; exact N1); cbn [andb].
        apply plain_frame; eapply flip_01; exact Hv.
    + assert (E' : s = {| s3_group := GP (plane_group false N); s3_incl := so2_to_so3 adj0 (plane_group false N);
                          s3_restr := so3_to_so2 adj0 (plane_group false N) |}).
      { unfold so3_subgroup' in E; unfold plane_group; destruct (Z.eqb_spec N (-1)); [congruence|].
        destruct (Z.ltb_spec 0 N); [congruence|discriminate E]. }
      subst s; apply (reframe unit as_matrix _ _ _ _ _ _ (sub_cyc _ adj0 (cyclic_documented N D) U)).
      intros [v| | |] Hv; cbn in Hv; try contradiction.
      cbn [base_of so3_matrix]; unfold plane_matrix, base_matrix, plane_angle, plane_flip; rewrite F; cbn [andb].
      apply plain_frame; eapply flip_01; exact Hv.
Qed.

Lemma so3_subgroups : forall id adj, so3_documented id -> unit adj ->
  exists s, so3_subgroup id adj = Ret s /\
    space_subgroup unit as_matrix (as_matrix adj) (so3_group_of id) (so3_matrix id) s.
Proof.
  intros id adj D Ha; destruct (so3_subgroup_exists id adj D Ha) as [s E]; exists s; split; [exact E|].
  apply so3_subgroup_correct; assumption.
Qed.
