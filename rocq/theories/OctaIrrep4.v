(** The five irreps of the octahedral group are irreducible, different, and all. *)
From Coq Require Import Reals ZArith Bool List Lia Lra Arith.
From Verif Require Import LibRes LibMat LibMatS IrrepModel SpecRep PlanarModel SpaceModel SpecSpace SpaceProofs OctaModel SpecOcta
  OctaProofs SpecOctaIrrep OctaIrrep1 OctaIrrep2 OctaIrrep3.
Import ListNotations.
Open Scope R_scope.

(** values at t, k, s and one more half turn *)
Definition lit (l : list (list R)) : mat := fun i j => nth j (nth i l []) 0.

Definition at_t (l : Z) : mat :=
  if (l =? 0)%Z then lit [[1]] else if (l =? 1)%Z then lit [[0; -1; 0]; [-1; 0; 0]; [0; 0; -1]]
  else if (l =? -1)%Z then lit [[0; 1; 0]; [1; 0; 0]; [0; 0; 1]] else if (l =? 2)%Z then lit [[0; 1]; [1; 0]] else lit [[-1]].
Definition at_k (l : Z) : mat :=
  if (l =? 0)%Z then lit [[1]] else if (l =? 1)%Z then lit [[-1; 0; 0]; [0; -1; 0]; [0; 0; 1]]
  else if (l =? -1)%Z then lit [[-1; 0; 0]; [0; -1; 0]; [0; 0; 1]] else if (l =? 2)%Z then lit [[1; 0]; [0; 1]] else lit [[1]].
Definition at_s (l : Z) : mat :=
  if (l =? 0)%Z then lit [[1]] else if (l =? 1)%Z then lit [[0; 1; 0]; [0; 0; 1]; [1; 0; 0]]
  else if (l =? -1)%Z then lit [[0; 1; 0]; [0; 0; 1]; [1; 0; 0]]
  else if (l =? 2)%Z then lit [[- (1 / 2); - (3 / 2 * / sqrt 3)]; [3 / 2 * / sqrt 3; - (1 / 2)]] else lit [[1]].

Ltac value_at :=
  unfold octa_size, vmat, at_t, at_k, at_s; cbn [Z.eqb Pos.eqb orb];
  let i := fresh "i" in let j := fresh "j" in let Hi := fresh "Hi" in let Hj := fresh "Hj" in intros i j Hi Hj; unfold lit;
  first [ destruct i; [|lia]; destruct j; [|lia]; unfold mid, axes_sign, det3, dot, cross, squares, table_mat; tnorm; lra
        | value3 i j Hi Hj
        | value2 i j Hi Hj ].

Lemma value_t : forall l, in_range l -> meq (octa_size l) (octa_size l) (octa_value l gen_t) (at_t l).
Proof.
  intros l Hl; eapply meq_trans; [apply (value_tabled l _ _ Hl tab_t)|].
  apply range_cases in Hl as [->|[->|[->|[->| ->]]]]; value_at.
Qed.
Lemma value_k : forall l, in_range l -> meq (octa_size l) (octa_size l) (octa_value l (el 0)) (at_k l).
Proof.
  intros l Hl; eapply meq_trans; [apply (value_tabled l _ _ Hl tab_k)|].
  apply range_cases in Hl as [->|[->|[->|[->| ->]]]]; value_at.
Qed.
Lemma value_s : forall l, in_range l -> meq (octa_size l) (octa_size l) (octa_value l (el 11)) (at_s l).
Proof.
  intros l Hl; eapply meq_trans; [apply (value_tabled l _ _ Hl tab_s)|].
  apply range_cases in Hl as [->|[->|[->|[->| ->]]]]; value_at.
Qed.

Lemma maps_at : forall l l' X q A B, meq (octa_size l) (octa_size l) (octa_value l q) A -> meq (octa_size l') (octa_size l') (octa_value l' q) B ->
  octahedral q -> maps_reps (octa_size l) (octa_size l') (octa_value l) (octa_value l') X ->
  meq (octa_size l) (octa_size l') (mmul (octa_size l) A X) (mmul (octa_size l') X B).
Proof.
  intros l l' X q A B HA HB Hq H; specialize (H q Hq); intros i j Hi Hj.
  rewrite <- (mmul_ext (octa_size l) (octa_size l) (octa_size l') _ _ X X HA (meq_refl _ _ _) i j Hi Hj).
  rewrite <- (mmul_ext (octa_size l) (octa_size l') (octa_size l') X X _ _ (meq_refl _ _ _) HB i j Hi Hj).
  apply H; assumption.
Qed.

(** all equations of the three generators, entry by entry *)
Ltac col_eqs HT HK HR i j :=
  lazymatch j with
  | O => idtac
  | Datatypes.S ?k => pose proof (HT i k ltac:(lia) ltac:(lia)); pose proof (HK i k ltac:(lia) ltac:(lia)); pose proof (HR i k ltac:(lia) ltac:(lia)); col_eqs HT HK HR i k
  end.
(** the same equations times [h], and h * h = 1 / 3 times the entries *)
Ltac times h :=
  repeat match goal with
  | E : _ = _ :> R |- _ => lazymatch E with ?E' => generalize (f_equal (Rmult h) E); revert E' end
  end; intros.

Ltac equations HT HK HR i m :=
  lazymatch i with
  | O => idtac
  | Datatypes.S ?k => col_eqs HT HK HR k m; equations HT HK HR k m
  end.

Lemma schur : forall l l' X, in_range l -> in_range l' ->
  maps_reps (octa_size l) (octa_size l') (octa_value l) (octa_value l') X ->
  exists a, meq (octa_size l) (octa_size l') X (if (l =? l')%Z then mscal a mid else mzero).
Proof.
  intros l l' X Hl Hl' H.
  pose proof (maps_at l l' X gen_t _ _ (value_t l Hl) (value_t l' Hl') gen_t_oct H) as T.
  pose proof (maps_at l l' X (el 0) _ _ (value_k l Hl) (value_k l' Hl') (el_oct 0 ltac:(lia)) H) as K.
  pose proof (maps_at l l' X (el 11) _ _ (value_s l Hl) (value_s l' Hl') (el_oct 11 ltac:(lia)) H) as Q.
  clear H; exists (X 0%nat 0%nat).
  assert (H3 : 0 < / sqrt 3) by (apply Rinv_0_lt_compat, sqrt_lt_R0; lra).
  assert (Z3 : forall x, / sqrt 3 * x = 0 -> x = 0) by (intros x E; apply Rmult_integral in E as [E|E]; [lra|exact E]).
  assert (H9 : / sqrt 3 * / sqrt 3 = 1 / 3) by exact inv_sqrt3.
  apply range_cases in Hl as [->|[->|[->|[->| ->]]]]; (apply range_cases in Hl' as [->|[->|[->|[->| ->]]]]);
    unfold octa_size, at_t, at_k, at_s, lit, mmul in T, K, Q; cbn [Z.eqb Pos.eqb orb] in T, K, Q; unfold octa_size; cbn [Z.eqb Pos.eqb orb];
    set (h := / sqrt 3) in *; clearbody h.
  all: lazymatch type of T with meq ?n ?m _ _ => equations T K Q n m end; clear T K Q; cbn [sumn nth] in *;
    intros i j Hi Hj; unfold mscal, mid, mzero.
  all: try (destruct i as [|[|[|i]]]; try (exfalso; lia); (destruct j as [|[|[|j]]]; try (exfalso; lia)); cbn [Nat.eqb]; lra).
  all: assert (E9 : forall a b, h * h * X a b = 1 / 3 * X a b) by (intros; rewrite H9; reflexivity); clear H9;
    times h;
    pose proof (E9 0 0)%nat; pose proof (E9 0 1)%nat; pose proof (E9 1 0)%nat; pose proof (E9 1 1)%nat; pose proof (E9 2 0)%nat;
    pose proof (E9 2 1)%nat; pose proof (E9 0 2)%nat; pose proof (E9 1 2)%nat;
    destruct i as [|[|[|i]]]; try (exfalso; lia); (destruct j as [|[|[|j]]]; try (exfalso; lia)); cbn [Nat.eqb]; lra.
Qed.

(** characters *)
Lemma octa_cases : forall (P : quat -> Prop), (forall p q, octahedral p -> octahedral q -> same_rotation p q -> P q -> P p) ->
  (forall n, (n < 24)%nat -> P (el n)) -> forall q, octahedral q -> P q.
Proof.
  intros P HP H q Hq; destruct (elements_complete q Hq) as (p & I & S); apply (In_nth _ _ so3_id) in I as (n & Hn & <-).
  apply (HP q (el n) Hq); [apply el_oct; exact Hn|exact S|apply H; exact Hn].
Qed.

Lemma char_same : forall l p q, octahedral p -> octahedral q -> same_rotation p q -> char_of l p = char_of l q.
Proof. intros l p q Hp Hq S; unfold char_of; rewrite (value_same l p q S Hp Hq); reflexivity. Qed.

(** trace of the matrix, number of axes kept, sign of the permutation *)
Definition ttrace (a : list Z) : Z := (nth 0 a 0 + nth 4 a 0 + nth 8 a 0)%Z.
Definition tkept (a : list Z) : Z := (nth 0 a 0 * nth 0 a 0 + nth 4 a 0 * nth 4 a 0 + nth 8 a 0 * nth 8 a 0)%Z.
Definition tsign (a : list Z) : Z :=
  let s k := (nth k a 0 * nth k a 0)%Z in
  (s 0%nat * (s 4%nat * s 8%nat - s 5%nat * s 7%nat) + s 1%nat * (s 5%nat * s 6%nat - s 3%nat * s 8%nat) + s 2%nat * (s 3%nat * s 7%nat - s 4%nat * s 6%nat))%Z.

Lemma sign_table : forall q a, tabled q a -> axes_sign (as_matrix q) = IZR (tsign a).
Proof.
  intros q a H; rewrite (sign_ext _ _ H); unfold axes_sign, det3, dot, cross, squares, table_mat, tsign; tnorm.
  rewrite !plus_IZR, !mult_IZR, !minus_IZR, !mult_IZR; ring.
Qed.

Lemma trace_table : forall q a, tabled q a -> trace 3 (as_matrix q) = IZR (ttrace a).
Proof. intros q a H; unfold trace; cbn [sumn]; rewrite !H by lia; unfold table_mat, ttrace; tnorm; rewrite !plus_IZR; ring. Qed.

Lemma trace_yzx : forall M, trace 3 (yzx M) = trace 3 M.
Proof. intros M; unfold trace, yzx; tnorm; ring. Qed.

Lemma trace_plane : forall P, (forall i, (i < 3)%nat -> P i 0%nat + P i 1%nat + P i 2%nat = 1) ->
  trace 2 (on_plane P) = P 0%nat 0%nat + P 1%nat 1%nat + P 2%nat 2%nat - 1.
Proof.
  intros P H; unfold trace, on_plane; cbn [sumn].
  pose proof (plane_gram 0 0 ltac:(lia) ltac:(lia)) as G00; pose proof (plane_gram 0 1 ltac:(lia) ltac:(lia)) as G01;
  pose proof (plane_gram 0 2 ltac:(lia) ltac:(lia)) as G02; pose proof (plane_gram 1 1 ltac:(lia) ltac:(lia)) as G11;
  pose proof (plane_gram 1 2 ltac:(lia) ltac:(lia)) as G12; pose proof (plane_gram 2 2 ltac:(lia) ltac:(lia)) as G22.
  cbn [Nat.eqb] in *; pose proof (H 0%nat ltac:(lia)) as H0; pose proof (H 1%nat ltac:(lia)) as H1; pose proof (H 2%nat ltac:(lia)) as H2.
  transitivity (P 0%nat 0%nat * (plane 0 0 * plane 0 0 + plane 1 0 * plane 1 0) + (P 0%nat 1%nat + P 1%nat 0%nat) * (plane 0 0 * plane 0 1 + plane 1 0 * plane 1 1)
    + (P 0%nat 2%nat + P 2%nat 0%nat) * (plane 0 0 * plane 0 2 + plane 1 0 * plane 1 2) + P 1%nat 1%nat * (plane 0 1 * plane 0 1 + plane 1 1 * plane 1 1)
    + (P 1%nat 2%nat + P 2%nat 1%nat) * (plane 0 1 * plane 0 2 + plane 1 1 * plane 1 2) + P 2%nat 2%nat * (plane 0 2 * plane 0 2 + plane 1 2 * plane 1 2)); [ring|].
  rewrite G00, G01, G02, G11, G12, G22; lra.
Qed.

Lemma char_table : forall n, (n < 24)%nat -> let a := nth n octa_tables [] in
  char_of 0 (el n) = 1 /\ char_of 1 (el n) = IZR (ttrace a) /\ char_of (-1) (el n) = IZR (tsign a * ttrace a) /\
  char_of 2 (el n) = IZR (tkept a - 1) /\ char_of 3 (el n) = IZR (tsign a).
Proof.
  intros n Hn a; pose proof (tabled_nth n Hn) as T; fold (el n) a in T.
  pose proof (sign_table _ _ T) as ES; pose proof (trace_table _ _ T) as ET.
  unfold char_of, octa_size, octa_value; cbn [Z.eqb Pos.eqb orb]; repeat split.
  - unfold trace; cbn; ring.
  - rewrite trace_yzx; exact ET.
  - rewrite mult_IZR, <- ES, <- ET, <- (trace_yzx (as_matrix (el n))); unfold trace, mscal; cbn [sumn]; ring.
  - change (trace 2 (on_plane (squares (as_matrix (el n)))) = IZR (tkept a - 1)).
    rewrite trace_plane by (intros i Hi; apply squares_row; [apply el_oct; exact Hn|exact Hi]).
    unfold squares; rewrite !T by lia; unfold table_mat, tkept; tnorm; rewrite minus_IZR, !plus_IZR, !mult_IZR; ring.
  - unfold trace; cbn [sumn]; rewrite ES; ring.
Qed.

Lemma complete_table : forall n, (n < 24)%nat -> let a := nth n octa_tables [] in
  (1 + 3 * ttrace a + 3 * (tsign a * ttrace a) + 2 * (tkept a - 1) + tsign a)%Z = (if Nat.eqb n 3 then 24 else 0)%Z.
Proof. intros n Hn; do 24 (destruct n as [|n]; [vm_compute; reflexivity|]); exfalso; lia. Qed.

Lemma characters_complete : forall q, octahedral q ->
  (same_rotation q so3_id -> INR (octa_size 0) * char_of 0 q + INR (octa_size 1) * char_of 1 q + INR (octa_size (-1)) * char_of (-1) q
    + INR (octa_size 2) * char_of 2 q + INR (octa_size 3) * char_of 3 q = 24) /\
  (~ same_rotation q so3_id -> INR (octa_size 0) * char_of 0 q + INR (octa_size 1) * char_of 1 q + INR (octa_size (-1)) * char_of (-1) q
    + INR (octa_size 2) * char_of 2 q + INR (octa_size 3) * char_of 3 q = 0).
Proof.
  assert (SS : forall p q r, same_rotation p q -> same_rotation q r -> same_rotation p r) by (intros p q r; apply meq_trans).
  apply octa_cases.
  - intros p q Hp Hq S; rewrite !(char_same _ p q Hp Hq S); intros [A B]; split; intros K.
    + apply A; apply (SS _ p); [apply meq_sym; exact S|exact K].
    + apply B; intros K'; apply K; apply (SS _ q); assumption.
  - intros n Hn; destruct (char_table n Hn) as (-> & -> & -> & -> & ->).
    assert (E : INR (octa_size 0) * 1 + INR (octa_size 1) * IZR (ttrace (nth n octa_tables [])) + INR (octa_size (-1)) * IZR (tsign (nth n octa_tables []) * ttrace (nth n octa_tables []))
      + INR (octa_size 2) * IZR (tkept (nth n octa_tables []) - 1) + INR (octa_size 3) * IZR (tsign (nth n octa_tables [])) = if Nat.eqb n 3 then 24 else 0).
    { pose proof (f_equal IZR (complete_table n Hn)) as Q; rewrite !plus_IZR, !mult_IZR in Q; unfold octa_size; cbn [Z.eqb Pos.eqb orb INR].
      destruct (Nat.eqb n 3); rewrite <- Q, ?mult_IZR; ring. }
    rewrite E; destruct (Nat.eqb_spec n 3) as [->|Ne]; split; intros K; try reflexivity.
    + exfalso; apply K; apply meq_refl.
    + exfalso; apply Ne; apply elements_distinct; [exact Hn|lia|exact K].
Qed.

(** frequencies 2 and 3 of SO(3) *)
Lemma wigner_table : forall n, (n < 24)%nat -> let a := nth n octa_tables [] in let m := (ttrace a - 1)%Z in
  ((m * m + m - 1 = tsign a * ttrace a + (tkept a - 1)) /\ (m * m * m + m * m - 2 * m - 1 = tsign a + ttrace a + tsign a * ttrace a))%Z.
Proof. intros n Hn; do 24 (destruct n as [|n]; [vm_compute; split; reflexivity|]); exfalso; lia. Qed.

Lemma frequencies : forall q, octahedral q -> forall t, trace 3 (as_matrix q) = 1 + 2 * cos t ->
  1 + 2 * cos t = char_of 1 q /\
  1 + 2 * cos t + 2 * cos (2 * t) = char_of (-1) q + char_of 2 q /\
  1 + 2 * cos t + 2 * cos (2 * t) + 2 * cos (3 * t) = char_of 3 q + char_of 1 q + char_of (-1) q.
Proof.
  apply (octa_cases (fun q => forall t, trace 3 (as_matrix q) = 1 + 2 * cos t ->
    1 + 2 * cos t = char_of 1 q /\
    1 + 2 * cos t + 2 * cos (2 * t) = char_of (-1) q + char_of 2 q /\
    1 + 2 * cos t + 2 * cos (2 * t) + 2 * cos (3 * t) = char_of 3 q + char_of 1 q + char_of (-1) q)).
  - intros p q Hp Hq S H t E; rewrite !(char_same _ p q Hp Hq S); apply H; rewrite <- E; unfold trace; cbn [sumn]; rewrite !S by lia; reflexivity.
  - intros n Hn t E; destruct (char_table n Hn) as (_ & -> & -> & -> & ->); pose proof (tabled_nth n Hn) as T; fold (el n) in T; rewrite (trace_table _ _ T) in E; clear T.
    destruct (wigner_table n Hn) as [W2 W3]; apply (f_equal IZR) in W2, W3.
    repeat (rewrite plus_IZR in W2 || rewrite minus_IZR in W2 || rewrite mult_IZR in W2);
    repeat (rewrite plus_IZR in W3 || rewrite minus_IZR in W3 || rewrite mult_IZR in W3); rewrite ?minus_IZR, ?mult_IZR.
    set (w := IZR (ttrace _)) in *; set (g := IZR (tsign _)) in *; set (k := IZR (tkept _)) in *; clearbody w g k; subst w.
    assert (C2 : cos (2 * t) = 2 * (cos t * cos t) - 1) by (rewrite cos_2a_cos; ring).
    assert (C3 : cos (3 * t) = 4 * (cos t * cos t * cos t) - 3 * cos t).
    { replace (3 * t) with (2 * t + t) by ring; rewrite cos_plus, C2, sin_2a; pose proof (sin2_cos2 t) as P; unfold Rsqr in P.
      replace (2 * sin t * cos t * sin t) with (2 * cos t * (sin t * sin t)) by ring; replace (sin t * sin t) with (1 - cos t * cos t) by lra; ring. }
    rewrite C2, C3; split; [lra|split; lra].
Qed.
