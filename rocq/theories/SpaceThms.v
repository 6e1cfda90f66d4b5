(** SO(3) and O(3) are groups of matrices; the subgroups of SO(3). *)
From Coq Require Import Reals ZArith Bool List Lia Lra.
From Verif Require Import LibRes LibMat LibTrig FinGroupModel SpecFinGroup SpecGroup ParamModel ParamProofs
  PlanarModel SpecPlanar PlanarProofs SpaceModel SpecSpace SpaceProofs SpaceTol.
Import ListNotations.
Open Scope R_scope.

(** ** Associativity and units for 3x3 matrices *)

Lemma mmul3_assoc : forall A B C, meq 3 3 (mmul 3 (mmul 3 A B) C) (mmul 3 A (mmul 3 B C)).
Proof. intros A B C i j _ _; unfold mmul; cbn [sumn]; ring. Qed.
Lemma mmul3_id_l : forall A, meq 3 3 (mmul 3 mid A) A.
Proof. intros A; mat3_ring. Qed.
Lemma mmul3_id_r : forall A, meq 3 3 (mmul 3 A mid) A.
Proof. intros A; mat3_ring. Qed.
Lemma mtr3_mul : forall A B, meq 3 3 (mtr (mmul 3 A B)) (mmul 3 (mtr B) (mtr A)).
Proof. intros A B i j _ _; unfold mtr, mmul; cbn [sumn]; ring. Qed.

Definition orth3 (A : mat) : Prop := meq 3 3 (mmul 3 A (mtr A)) mid /\ meq 3 3 (mmul 3 (mtr A) A) mid.

Lemma mat_orth3 : forall q, unit q -> orth3 (as_matrix q).
Proof. intros q H; split; [apply mat_orth|apply mat_orth']; exact H. Qed.

(** Cancelling an orthogonal matrix. *)
Lemma orth_cancel_l : forall A B, orth3 A -> meq 3 3 (mmul 3 A (mmul 3 (mtr A) B)) B.
Proof.
  intros A B [H _]; eapply meq_trans3; [apply meq_sym3, mmul3_assoc|].
  eapply meq_trans3; [apply mmul3; [exact H|apply meq_refl3]|apply mmul3_id_l].
Qed.
Lemma orth_cancel_l' : forall A B, orth3 A -> meq 3 3 (mmul 3 (mtr A) (mmul 3 A B)) B.
Proof.
  intros A B [_ H]; eapply meq_trans3; [apply meq_sym3, mmul3_assoc|].
  eapply meq_trans3; [apply mmul3; [exact H|apply meq_refl3]|apply mmul3_id_l].
Qed.
Lemma orth_cancel_r : forall A B, orth3 A -> meq 3 3 (mmul 3 (mmul 3 B A) (mtr A)) B.
Proof.
  intros A B [H _]; eapply meq_trans3; [apply mmul3_assoc|].
  eapply meq_trans3; [apply mmul3; [apply meq_refl3|exact H]|apply mmul3_id_r].
Qed.

Lemma unconj : forall A M, orth3 A -> meq 3 3 (mmul 3 A (mmul 3 (conjugate A M) (mtr A))) M.
Proof.
  intros A M H; unfold conjugate.
  eapply meq_trans3; [apply mmul3; [apply meq_refl3|]|apply orth_cancel_l; exact H].
  eapply meq_trans3; [apply mmul3_assoc|].
  apply mmul3; [apply meq_refl3|apply orth_cancel_r; exact H].
Qed.

Lemma conj_mul : forall A M N, orth3 A ->
  meq 3 3 (conjugate A (mmul 3 M N)) (mmul 3 (conjugate A M) (conjugate A N)).
Proof.
  intros A M N H; unfold conjugate.
  eapply meq_trans3; [|apply meq_sym3, mmul3_assoc]; apply mmul3; [apply meq_refl3|].
  eapply meq_trans3; [apply mmul3_assoc|].
  eapply meq_trans3; [|apply meq_sym3, mmul3_assoc]; apply mmul3; [apply meq_refl3|].
  apply meq_sym3, orth_cancel_l; exact H.
Qed.

Lemma conj_inj : forall A M N, orth3 A -> meq 3 3 (conjugate A M) (conjugate A N) -> meq 3 3 M N.
Proof.
  intros A M N H E; eapply meq_trans3; [apply meq_sym3, (unconj A M H)|].
  eapply meq_trans3; [|apply (unconj A N H)].
  apply mmul3; [apply meq_refl3|]; apply mmul3; [exact E|apply meq_refl3].
Qed.

Lemma conj_conj : forall A B M, meq 3 3 (conjugate (mmul 3 B A) M) (conjugate A (conjugate B M)).
Proof. intros A B M i j _ _; unfold conjugate, mmul, mtr; cbn [sumn]; ring. Qed.

Lemma conj_mat : forall q r, meq 3 3 (as_matrix (qmul (qmul (qconj q) r) q)) (conjugate (as_matrix q) (as_matrix r)).
Proof.
  intros q r; eapply meq_trans3; [apply mat_mul|].
  eapply meq_trans3; [apply mmul3; [apply mat_mul|apply meq_refl3]|].
  eapply meq_trans3; [apply mmul3_assoc|]; apply mmul3; [apply mat_conj|apply meq_refl3].
Qed.
Lemma unconj_mat : forall q r, meq 3 3 (as_matrix (qmul (qmul q r) (qconj q)))
  (mmul 3 (as_matrix q) (mmul 3 (as_matrix r) (mtr (as_matrix q)))).
Proof.
  intros q r; eapply meq_trans3; [apply mat_mul|].
  eapply meq_trans3; [apply mmul3; [apply mat_mul|apply mat_conj]|]; apply mmul3_assoc.
Qed.

(** ** SO(3) and O(3) *)

Lemma so3_group : is_group unit so3_mul so3_inv so3_id.
Proof.
  constructor.
  - apply unit_id.
  - intros a b Ha Hb; exists (qmul a b); split; [apply so3_mul_unit|apply unit_mul]; assumption.
  - intros a Ha; exists (qconj a); split; [apply so3_inv_unit|apply unit_conj]; assumption.
  - intros a b c ab bc Ha Hb Hc E1 E2; rewrite so3_mul_unit in E1, E2 by assumption.
    apply Ret_inj in E1, E2; subst ab bc.
    rewrite !so3_mul_unit by (try assumption; apply unit_mul; assumption); rewrite qmul_assoc; reflexivity.
  - intros a Ha; rewrite so3_mul_unit, qmul_id_l by (try assumption; apply unit_id); reflexivity.
  - intros a Ha; rewrite so3_mul_unit, qmul_id_r by (try assumption; apply unit_id); reflexivity.
  - intros a b Ha E; rewrite so3_inv_unit in E by assumption; apply Ret_inj in E; subst b.
    rewrite so3_mul_unit, qmul_conj_l by (try assumption; apply unit_conj; assumption); reflexivity.
  - intros a b Ha E; rewrite so3_inv_unit in E by assumption; apply Ret_inj in E; subst b.
    rewrite so3_mul_unit, qmul_conj_r by (try assumption; apply unit_conj; assumption); reflexivity.
Qed.

Lemma inv_add : forall f g, (f = 0 \/ f = 1)%Z -> (g = 0 \/ g = 1)%Z ->
  (((f + g) mod 2 = 0) \/ ((f + g) mod 2 = 1))%Z.
Proof. intros f g [->| ->] [->| ->]; auto. Qed.

Lemma o3_element_unit : forall e, ounit e -> o3_element e = Ret e.
Proof.
  intros [f q] [Hf Hq]; cbn in *; unfold o3_element; cbn [fst snd]; rewrite is_element_unit by exact Hq.
  destruct Hf as [->| ->]; reflexivity.
Qed.

Definition omul (a b : oval) : oval := (((fst a + fst b) mod 2)%Z, qmul (snd a) (snd b)).
Definition oconj (a : oval) : oval := (fst a, qconj (snd a)).

Lemma ounit_mul : forall a b, ounit a -> ounit b -> ounit (omul a b).
Proof. intros a b [A1 A2] [B1 B2]; split; cbn; [apply inv_add; assumption|apply unit_mul; assumption]. Qed.
Lemma ounit_conj : forall a, ounit a -> ounit (oconj a).
Proof. intros a [A1 A2]; split; cbn; [assumption|apply unit_conj; assumption]. Qed.
Lemma ounit_id : ounit o3_id.
Proof. split; cbn; [auto|apply unit_id]. Qed.

Lemma o3_mul_unit : forall a b, ounit a -> ounit b -> o3_mul a b = Ret (omul a b).
Proof.
  intros a b Ha Hb; unfold o3_mul; rewrite combine_unit by (apply Ha || apply Hb); cbn [bind].
  apply o3_element_unit, (ounit_mul a b); assumption.
Qed.
Lemma o3_inv_unit : forall a, ounit a -> o3_inv a = Ret (oconj a).
Proof.
  intros a Ha; unfold o3_inv; rewrite invert_unit by apply Ha; cbn [bind].
  apply o3_element_unit, (ounit_conj a); assumption.
Qed.

Lemma omul_id_l : forall a, ounit a -> omul o3_id a = a.
Proof. intros [f q] [[H|H] _]; cbn in H; subst f; unfold omul; cbn [fst snd o3_id]; rewrite qmul_id_l; reflexivity. Qed.
Lemma omul_id_r : forall a, ounit a -> omul a o3_id = a.
Proof. intros [f q] [[H|H] _]; cbn in H; subst f; unfold omul; cbn [fst snd o3_id]; rewrite qmul_id_r; reflexivity. Qed.
Lemma omul_assoc : forall a b c, omul (omul a b) c = omul a (omul b c).
Proof.
  intros a b c; unfold omul; cbn [fst snd]; rewrite qmul_assoc; f_equal.
  rewrite Z.add_mod_idemp_l, Z.add_mod_idemp_r by lia; f_equal; lia.
Qed.
Lemma omul_conj_l : forall a, ounit a -> omul (oconj a) a = o3_id.
Proof.
  intros [f q] [[H|H] U]; cbn in H, U; subst f; unfold omul, oconj; cbn [fst snd]; rewrite qmul_conj_l by exact U; reflexivity.
Qed.
Lemma omul_conj_r : forall a, ounit a -> omul a (oconj a) = o3_id.
Proof.
  intros [f q] [[H|H] U]; cbn in H, U; subst f; unfold omul, oconj; cbn [fst snd]; rewrite qmul_conj_r by exact U; reflexivity.
Qed.

Lemma o3_group : is_group ounit o3_mul o3_inv o3_id.
Proof.
  constructor.
  - apply ounit_id.
  - intros a b Ha Hb; exists (omul a b); split; [apply o3_mul_unit|apply ounit_mul]; assumption.
  - intros a Ha; exists (oconj a); split; [apply o3_inv_unit|apply ounit_conj]; assumption.
  - intros a b c ab bc Ha Hb Hc E1 E2; rewrite o3_mul_unit in E1, E2 by assumption.
    apply Ret_inj in E1, E2; subst ab bc.
    rewrite !o3_mul_unit by (try assumption; apply ounit_mul; assumption); rewrite omul_assoc; reflexivity.
  - intros a Ha; rewrite o3_mul_unit, omul_id_l by (try assumption; apply ounit_id); reflexivity.
  - intros a Ha; rewrite o3_mul_unit, omul_id_r by (try assumption; apply ounit_id); reflexivity.
  - intros a b Ha E; rewrite o3_inv_unit in E by assumption; apply Ret_inj in E; subst b.
    rewrite o3_mul_unit, omul_conj_l by (try assumption; apply ounit_conj; assumption); reflexivity.
  - intros a b Ha E; rewrite o3_inv_unit in E by assumption; apply Ret_inj in E; subst b.
    rewrite o3_mul_unit, omul_conj_r by (try assumption; apply ounit_conj; assumption); reflexivity.
Qed.

Definition osign (f : Z) : R := if (f =? 0)%Z then 1 else -1.
Lemma osign_add : forall f g, (f = 0 \/ f = 1)%Z -> (g = 0 \/ g = 1)%Z ->
  osign ((f + g) mod 2) = osign f * osign g.
Proof. intros f g [->| ->] [->| ->]; unfold osign; cbn; ring. Qed.
Lemma osign_sq : forall f, osign f * osign f = 1.
Proof. intros f; unfold osign; destruct (f =? 0)%Z; ring. Qed.

Lemma omat_mul : forall a b, ounit a -> ounit b -> meq 3 3 (omat (omul a b)) (mmul 3 (omat a) (omat b)).
Proof.
  intros a b [Ha _] [Hb _] i j Hi Hj; unfold omat, mscal, omul; cbn [fst snd].
  pose proof (osign_add _ _ Ha Hb) as S; unfold osign in S; rewrite S.
  rewrite (mat_mul (snd a) (snd b) i j Hi Hj); unfold mmul; cbn [sumn]; ring.
Qed.
Lemma omat_conj : forall a, meq 3 3 (omat (oconj a)) (mtr (omat a)).
Proof.
  intros a i j Hi Hj; unfold omat, mscal, mtr, oconj; cbn [fst snd]; rewrite (mat_conj (snd a) i j Hi Hj); reflexivity.
Qed.
Lemma omat_id : meq 3 3 (omat o3_id) mid.
Proof. intros i j Hi Hj; unfold omat, mscal; cbn [fst snd o3_id Z.eqb]; rewrite (mat_id i j Hi Hj); ring. Qed.

Lemma omat_orth : forall a, ounit a -> orth3 (omat a).
Proof.
  intros a Ha; split.
  - eapply meq_trans3; [apply mmul3; [apply meq_refl3|apply meq_sym3, omat_conj]|].
    eapply meq_trans3; [apply meq_sym3, omat_mul; [exact Ha|apply ounit_conj, Ha]|].
    rewrite omul_conj_r by exact Ha; apply omat_id.
  - eapply meq_trans3; [apply mmul3; [apply meq_sym3, omat_conj|apply meq_refl3]|].
    eapply meq_trans3; [apply meq_sym3, omat_mul; [apply ounit_conj, Ha|exact Ha]|].
    rewrite omul_conj_l by exact Ha; apply omat_id.
Qed.

Lemma omat_det : forall a, ounit a -> det3 (omat a) = osign (fst a).
Proof.
  intros a [Hf Hq]; pose proof (mat_det (snd a) Hq) as D.
  assert (E : det3 (omat a) = osign (fst a) * (osign (fst a) * osign (fst a)) * det3 (as_matrix (snd a))).
  { unfold det3, dot, omat, mscal, cross; cbn [sumn]; fold (osign (fst a)); ring. }
  rewrite E, osign_sq, D; ring.
Qed.

Lemma omat_inj : forall a b, ounit a -> ounit b -> meq 3 3 (omat a) (omat b) ->
  fst a = fst b /\ meq 3 3 (as_matrix (snd a)) (as_matrix (snd b)).
Proof.
  intros a b Ha Hb M.
  assert (F : fst a = fst b).
  { assert (D : det3 (omat a) = det3 (omat b)) by (unfold det3, dot, cross; cbn [sumn]; rewrite !M by lia; reflexivity).
    rewrite !omat_det in D by assumption; destruct Ha as [[A|A] _], Hb as [[B|B] _]; rewrite A, B in *;
      unfold osign in D; cbn in D; try reflexivity; lra. }
  split; [exact F|]; intros i j Hi Hj; pose proof (M i j Hi Hj) as E; unfold omat, mscal in E; rewrite F in E.
  destruct (fst b =? 0)%Z; lra.
Qed.

(** ** Equality and hashing *)

Lemma allclose_refl : forall t q, 0 < t -> qallclose t q q = true.
Proof. intros t q H; unfold qallclose; rewrite !np_isclose_refl by exact H; reflexivity. Qed.

Lemma q_equal_complete : forall p q, unit p -> unit q -> meq 3 3 (as_matrix p) (as_matrix q) ->
  q_equal p q = Ret true.
Proof.
  intros p q Hp Hq M; unfold q_equal; rewrite !to_rot_unit by assumption; cbn [bind]; f_equal.
  destruct (mat_inj p q Hp Hq M) as [->| ->].
  - rewrite allclose_refl by apply tol_pos; reflexivity.
  - rewrite qopp_opp, (allclose_refl _ q) by apply tol_pos; apply orb_true_r.
Qed.

Lemma close_bound : forall a b, Rabs b <= 1 -> np_isclose (/ 10 ^ 7) a b = true -> Rabs (a - b) <= 11 / 1000000.
Proof.
  intros a b Hb H; unfold np_isclose in H; apply Rleb_true in H.
  replace (/ 10 ^ 7) with (1 / 10000000) in H by field; replace (/ 10 ^ 5) with (1 / 100000) in H by field.
  pose proof (Rabs_pos b); lra.
Qed.

Lemma prod_close : forall a b c d, Rabs a <= 1 -> Rabs d <= 1 ->
  Rabs (a - c) <= 11 / 1000000 -> Rabs (b - d) <= 11 / 1000000 -> Rabs (a * b - c * d) <= 22 / 1000000.
Proof.
  intros a b c d Ha Hd H1 H2; replace (a * b - c * d) with (a * (b - d) + (a - c) * d) by ring.
  eapply Rle_trans; [apply Rabs_triang|]; rewrite !Rabs_mult.
  pose proof (Rabs_pos a); pose proof (Rabs_pos d); pose proof (Rabs_pos (a - c)); pose proof (Rabs_pos (b - d)).
  assert (Rabs a * Rabs (b - d) <= 1 * (11 / 1000000)) by (apply Rmult_le_compat; assumption).
  assert (Rabs (a - c) * Rabs d <= 11 / 1000000 * 1) by (apply Rmult_le_compat; assumption).
  lra.
Qed.

Lemma allclose_mat : forall p q, unit p -> unit q -> qallclose (/ 10 ^ 7) p q = true ->
  forall i j, (i < 3)%nat -> (j < 3)%nat -> Rabs (as_matrix p i j - as_matrix q i j) <= / 10 ^ 4.
Proof.
  intros p q Hp Hq H i j Hi Hj; unfold qallclose in H.
  apply andb_prop in H as [H Cw]; apply andb_prop in H as [H Cz]; apply andb_prop in H as [Cx Cy].
  unfold unit in *.
  pose proof (unit_le _ _ _ _ Hp) as Px; pose proof (unit_le (qy p) (qx p) (qz p) (qw p) ltac:(lra)) as Py;
  pose proof (unit_le (qz p) (qx p) (qy p) (qw p) ltac:(lra)) as Pz; pose proof (unit_le (qw p) (qx p) (qy p) (qz p) ltac:(lra)) as Pw.
  pose proof (unit_le _ _ _ _ Hq) as Qx; pose proof (unit_le (qy q) (qx q) (qz q) (qw q) ltac:(lra)) as Qy;
  pose proof (unit_le (qz q) (qx q) (qy q) (qw q) ltac:(lra)) as Qz; pose proof (unit_le (qw q) (qx q) (qy q) (qz q) ltac:(lra)) as Qw.
  apply close_bound in Cx, Cy, Cz, Cw; try assumption.
  pose proof (prod_close _ _ _ _ Px Qx Cx Cx) as Bxx; pose proof (prod_close _ _ _ _ Py Qy Cy Cy) as Byy;
  pose proof (prod_close _ _ _ _ Pz Qz Cz Cz) as Bzz; pose proof (prod_close _ _ _ _ Pw Qw Cw Cw) as Bww;
  pose proof (prod_close _ _ _ _ Px Qy Cx Cy) as Bxy; pose proof (prod_close _ _ _ _ Px Qz Cx Cz) as Bxz;
  pose proof (prod_close _ _ _ _ Px Qw Cx Cw) as Bxw; pose proof (prod_close _ _ _ _ Py Qz Cy Cz) as Byz;
  pose proof (prod_close _ _ _ _ Py Qw Cy Cw) as Byw; pose proof (prod_close _ _ _ _ Pz Qw Cz Cw) as Bzw.
  apply abs_le_inv in Bxx, Byy, Bzz, Bww, Bxy, Bxz, Bxw, Byz, Byw, Bzw.
  replace (/ 10 ^ 4) with (1 / 10000) by field.
  clear - Bxx Byy Bzz Bww Bxy Bxz Bxw Byz Byw Bzw Hi Hj.
  mat_entries i j Hi Hj; cbn; apply Rabs_le; lra.
Qed.

Lemma q_equal_sound : forall p q, unit p -> unit q -> q_equal p q = Ret true ->
  forall i j, (i < 3)%nat -> (j < 3)%nat -> Rabs (as_matrix p i j - as_matrix q i j) <= / 10 ^ 4.
Proof.
  intros p q Hp Hq E; unfold q_equal in E; rewrite !to_rot_unit in E by assumption; cbn [bind] in E.
  apply Ret_inj in E; apply orb_prop in E as [E|E]; [apply allclose_mat; assumption|].
  intros i j Hi Hj; rewrite <- (mat_opp p); apply allclose_mat; try assumption; apply unit_opp; assumption.
Qed.

Lemma q_equal_total : forall p q, unit p -> unit q -> exists b, q_equal p q = Ret b.
Proof. intros p q Hp Hq; unfold q_equal; rewrite !to_rot_unit by assumption; cbn [bind]; eauto. Qed.

Lemma hash_same : forall p q, unit p -> unit q -> meq 3 3 (as_matrix p) (as_matrix q) ->
  exists k, q_hash_key p = Ret k /\ q_hash_key q = Ret k.
Proof.
  intros p q Hp Hq M; unfold q_hash_key; rewrite !to_rot_unit by assumption; cbn [bind].
  destruct (mat_inj p q Hp Hq M) as [->| ->]; rewrite ?mat_opp; eauto.
Qed.

(** ** Summary *)

Lemma so3_closed : forall p q, so3_is_element p = true -> so3_is_element q = true ->
  (exists u, so3_mul p q = Ret u /\ unit u) /\ (exists u, so3_inv p = Ret u /\ unit u).
Proof.
  intros p q Hp Hq; destruct (to_rot_accepts p Hp) as (r & Er & Ur), (to_rot_accepts q Hq) as (s & Es & Us).
  split; eexists; (split; [|]).
  - unfold so3_mul, q_combine; rewrite Er, Es; cbn [bind]; apply so3_element_unit, unit_mul; assumption.
  - apply unit_mul; assumption.
  - unfold so3_inv, q_invert; rewrite Er; cbn [bind]; apply so3_element_unit, unit_conj; assumption.
  - apply unit_conj; assumption.
Qed.

Lemma so3_matrices : forall p q pq qi, unit p -> unit q -> so3_mul p q = Ret pq -> so3_inv q = Ret qi ->
  (forall v i, (i < 3)%nat -> mvec 3 (as_matrix q) v i = rotated q v i) /\
  orthogonal3 1 (as_matrix q) /\
  meq 3 3 (as_matrix pq) (mmul 3 (as_matrix p) (as_matrix q)) /\
  meq 3 3 (as_matrix qi) (mtr (as_matrix q)) /\
  meq 3 3 (as_matrix so3_id) mid /\
  (meq 3 3 (as_matrix p) (as_matrix q) <-> p = q \/ p = qopp q).
Proof.
  intros p q pq qi Hp Hq E1 E2; rewrite so3_mul_unit in E1 by assumption; rewrite so3_inv_unit in E2 by assumption.
  apply Ret_inj in E1, E2; subst pq qi; split; [intros v i Hi; apply mat_rotates; assumption|].
  split; [split; [apply mat_orth, Hq|split; [apply mat_orth', Hq|apply mat_det, Hq]]|].
  split; [apply mat_mul|]; split; [apply mat_conj|]; split; [apply mat_id|]; split.
  - apply mat_inj; assumption.
  - intros [->| ->]; [apply meq_refl3|rewrite mat_opp; apply meq_refl3].
Qed.

Lemma o3_matrices : forall a b ab bi, ounit a -> ounit b -> o3_mul a b = Ret ab -> o3_inv b = Ret bi ->
  orthogonal3 (if (fst b =? 0)%Z then 1 else -1) (omat b) /\
  meq 3 3 (omat ab) (mmul 3 (omat a) (omat b)) /\
  meq 3 3 (omat bi) (mtr (omat b)) /\
  meq 3 3 (omat o3_id) mid /\ meq 3 3 (omat o3_inversion) (mscal (-1) mid) /\
  (meq 3 3 (omat a) (omat b) <-> fst a = fst b /\ (snd a = snd b \/ snd a = qopp (snd b))).
Proof.
  intros a b ab bi Ha Hb E1 E2; rewrite o3_mul_unit in E1 by assumption; rewrite o3_inv_unit in E2 by assumption.
  apply Ret_inj in E1, E2; subst ab bi.
  split; [destruct (omat_orth b Hb); split; [assumption|split; [assumption|apply omat_det, Hb]]|].
  split; [apply omat_mul; assumption|]; split; [apply omat_conj|]; split; [apply omat_id|]; split.
  - intros i j Hi Hj; unfold omat, mscal; cbn [fst snd o3_inversion Z.eqb]; rewrite (mat_id i j Hi Hj); reflexivity.
  - split.
    + intros M; destruct (omat_inj a b Ha Hb M) as [F K]; split; [exact F|].
      apply mat_inj; [apply Ha|apply Hb|exact K].
    + intros [F [K|K]]; unfold omat; rewrite F, K; [|rewrite mat_opp]; apply meq_refl3.
Qed.

Lemma equal_all : forall p q, unit p -> unit q ->
  (exists b, q_equal p q = Ret b) /\
  (meq 3 3 (as_matrix p) (as_matrix q) ->
     q_equal p q = Ret true /\ exists k, q_hash_key p = Ret k /\ q_hash_key q = Ret k) /\
  (q_equal p q = Ret true ->
     forall i j, (i < 3)%nat -> (j < 3)%nat -> Rabs (as_matrix p i j - as_matrix q i j) <= / 10 ^ 4).
Proof.
  intros p q Hp Hq; split; [apply q_equal_total; assumption|]; split.
  - intros M; split; [apply q_equal_complete|apply hash_same]; assumption.
  - apply q_equal_sound; assumption.
Qed.

Lemma o3_equal_all : forall a b, ounit a -> ounit b ->
  (exists t, o3_equal a b = Ret t) /\
  (meq 3 3 (omat a) (omat b) -> o3_equal a b = Ret true /\ exists k, o3_hash_key a = Ret k /\ o3_hash_key b = Ret k) /\
  (o3_equal a b = Ret true ->
     fst a = fst b /\ forall i j, (i < 3)%nat -> (j < 3)%nat -> Rabs (omat a i j - omat b i j) <= / 10 ^ 4).
Proof.
  intros a b Ha Hb; destruct (equal_all (snd a) (snd b) (proj2 Ha) (proj2 Hb)) as (T & E & S).
  unfold o3_equal, o3_hash_key; split; [|split].
  - destruct (fst a =? fst b)%Z; [exact T|exists false; reflexivity].
  - intros M.
    destruct (o3_mul a b) as [|ab] eqn:Em; [rewrite o3_mul_unit in Em by assumption; discriminate Em|].
    destruct (o3_inv b) as [|bi] eqn:Ei; [rewrite o3_inv_unit in Ei by assumption; discriminate Ei|].
    destruct (o3_matrices a b ab bi Ha Hb Em Ei) as (_ & _ & _ & _ & _ & K).
    apply K in M as [F Q].
    assert (M : meq 3 3 (as_matrix (snd a)) (as_matrix (snd b))).
    { destruct Q as [->|Q]; [apply meq_refl3|]; rewrite Q; intros i j Hi Hj; mat_entries i j Hi Hj; cbn; ring. }
    destruct (E M) as (E1 & k & K1 & K2); rewrite F, Z.eqb_refl; split; [exact E1|].
    rewrite K1, K2; eexists; split; reflexivity.
  - destruct (Z.eqb_spec (fst a) (fst b)) as [F|]; [|discriminate]; intros Q; split; [exact F|].
    intros i j Hi Hj; specialize (S Q i j Hi Hj); unfold omat, mscal; rewrite F.
    match goal with |- Rabs (?c * ?x - ?c * ?y) <= _ => replace (c * x - c * y) with (c * (x - y)) by ring; rewrite Rabs_mult end.
    replace (Rabs _) with 1 at 1; [rewrite Rmult_1_l; exact S|].
    destruct (fst b =? 0)%Z; [rewrite Rabs_R1|rewrite Rabs_left by lra]; lra.
Qed.
