(** The rotations of the cube: their matrices, the list of all of them, and the
    check that admits them. *)
From Coq Require Import Reals ZArith Bool List Lia Lra.
From Verif Require Import LibRes LibMat LibTrig FinGroupModel ParamModel ParamProofs PlanarModel SpaceModel SpecSpace
  SpaceProofs SpaceThms SphereModel SphereProofs OctaModel SpecOcta.
Import ListNotations.
Open Scope R_scope.

Lemma half_sq2 : sqrt 2 / 2 * (sqrt 2 / 2) = 1 / 2.
Proof. replace (sqrt 2 / 2 * (sqrt 2 / 2)) with (sqrt 2 * sqrt 2 / 4) by field; rewrite sqrt_sqrt by lra; field. Qed.

(** ** Numbers near -1, 0 or 1 *)

Definition near (e x s : R) : Prop := - e <= x - s <= e.

Lemma near_abs : forall e x s, near e x s <-> Rabs (x - s) <= e.
Proof.
  intros e x s; unfold near; split; intros H; [apply Rabs_le; exact H|].
  apply abs_le_inv in H; exact H.
Qed.

Lemma near_mul : forall e x y s t, 0 <= e <= 1 -> Rabs s <= 1 -> Rabs t <= 1 -> near e x s -> near e y t ->
  near (3 * e) (x * y) (s * t).
Proof.
  intros e x y s t He Hs Ht Hx Hy; apply near_abs in Hx; apply near_abs in Hy; apply near_abs.
  replace (x * y - s * t) with ((x - s) * (y - t) + s * (y - t) + t * (x - s)) by ring.
  eapply Rle_trans; [apply Rabs_triang|]; eapply Rle_trans; [apply Rplus_le_compat_r, Rabs_triang|].
  rewrite !Rabs_mult.
  pose proof (Rabs_pos (x - s)); pose proof (Rabs_pos (y - t)); pose proof (Rabs_pos s); pose proof (Rabs_pos t).
  assert (Rabs (x - s) * Rabs (y - t) <= 1 * e) by (apply Rmult_le_compat; lra).
  assert (Rabs s * Rabs (y - t) <= 1 * e) by (apply Rmult_le_compat; lra).
  assert (Rabs t * Rabs (x - s) <= 1 * e) by (apply Rmult_le_compat; lra).
  lra.
Qed.

Definition near_sign (e x : R) : Prop := exists s, sign_or_zero s /\ near e x s.

Lemma soz_abs : forall s, sign_or_zero s -> Rabs s <= 1.
Proof. intros s [->|[->| ->]]; unfold Rabs; destruct (Rcase_abs _); lra. Qed.

(** The unit vectors along the axes. *)
Definition axes : list (R * R * R) := [(1, 0, 0); (-1, 0, 0); (0, 1, 0); (0, -1, 0); (0, 0, 1); (0, 0, -1)].

Lemma row_axis : forall e a b c, 0 <= e <= 1 / 1000 -> a * a + b * b + c * c = 1 ->
  near_sign e a -> near_sign e b -> near_sign e c ->
  exists s, In s axes /\ near e a (fst (fst s)) /\ near e b (snd (fst s)) /\ near e c (snd s).
Proof.
  intros e a b c He H (s & S & A) (t & T & B) (u & U & C).
  assert (He1 : 0 <= e <= 1) by lra.
  pose proof (near_mul e a a s s He1 (soz_abs s S) (soz_abs s S) A A) as A2.
  pose proof (near_mul e b b t t He1 (soz_abs t T) (soz_abs t T) B B) as B2.
  pose proof (near_mul e c c u u He1 (soz_abs u U) (soz_abs u U) C C) as C2.
  unfold near in A2, B2, C2.
  destruct S as [->|[->| ->]], T as [->|[->| ->]], U as [->|[->| ->]]; try (exfalso; lra);
    eexists (_, _, _); (split; [|split; [exact A|split; [exact B|exact C]]]); cbn; tauto.
Qed.

Lemma axes_abs : forall s, In s axes -> Rabs (fst (fst s)) <= 1 /\ Rabs (snd (fst s)) <= 1 /\ Rabs (snd s) <= 1.
Proof.
  intros s H; assert (P1 : Rabs 1 <= 1) by (rewrite Rabs_R1; lra); assert (P0 : Rabs 0 <= 1) by (rewrite Rabs_R0; lra).
  assert (Pm : Rabs (-1) <= 1) by (apply soz_abs; left; reflexivity).
  cbn in H; decompose [or] H; try subst s; try contradiction; cbn; auto.
Qed.

Ltac pick n :=
  exists (nth n octa_elements so3_id); split; [apply nth_In; cbn; lia|];
  pose proof half_sq2; cbn [nth octa_elements];
  set (w2 := sqrt 2 / 2) in *; clearbody w2;
  intros i j Hi Hj; destruct i as [|[|[|i]]]; [| | |exfalso; lia]; (destruct j as [|[|[|j]]]; [| | |exfalso; lia]);
  unfold near in *; cbn [as_matrix mat3 qx qy qz qw]; lra.

(** Two rows near the axes decide which rotation it is. *)
Lemma nearest : forall t a b c d e f g h k, 0 <= t <= 1 / 1000 -> rot9 a b c d e f g h k ->
  near_sign t a -> near_sign t b -> near_sign t c -> near_sign t d -> near_sign t e -> near_sign t f ->
  exists q, In q octa_elements /\
    forall i j, (i < 3)%nat -> (j < 3)%nat -> near (7 * t) (mat3 a b c d e f g h k i j) (as_matrix q i j).
Proof.
  intros t a b c d e f g h k Ht [] A B C D E F.
  destruct (row_axis t a b c Ht r00 A B C) as (s & Hs & A' & B' & C').
  destruct (row_axis t d e f Ht r11 D E F) as (u & Hu & D' & E' & F').
  destruct (axes_abs s Hs) as (Sa & Sb & Sc); destruct (axes_abs u Hu) as (Ud & Ue & Uf).
  assert (Ht1 : 0 <= t <= 1) by lra.
  pose proof (near_mul t a d _ _ Ht1 Sa Ud A' D') as AD; pose proof (near_mul t b e _ _ Ht1 Sb Ue B' E') as BE;
  pose proof (near_mul t c f _ _ Ht1 Sc Uf C' F') as CF; pose proof (near_mul t b f _ _ Ht1 Sb Uf B' F') as BF;
  pose proof (near_mul t c e _ _ Ht1 Sc Ue C' E') as CE; pose proof (near_mul t c d _ _ Ht1 Sc Ud C' D') as CD;
  pose proof (near_mul t a f _ _ Ht1 Sa Uf A' F') as AF; pose proof (near_mul t a e _ _ Ht1 Sa Ue A' E') as AE;
  pose proof (near_mul t b d _ _ Ht1 Sb Ud B' D') as BD.
  clear Sa Sb Sc Ud Ue Uf A B C D E F r00 r11 r22 c00 c11 c22 c01 c02 c12 r02 r12 fa fb fc fd fe ff.
  unfold near in AD, BE, CF, BF, CE, CD, AF, AE, BD, A', B', C', D', E', F'.
  unfold axes in Hs, Hu; cbn [In] in Hs, Hu.
  destruct Hs as [<-|[<-|[<-|[<-|[<-|[<-|[]]]]]]]; (destruct Hu as [<-|[<-|[<-|[<-|[<-|[<-|[]]]]]]]);
    cbn [fst snd] in *.
  - exfalso; lra.
  - exfalso; lra.
  - pick 3%nat.
  - pick 0%nat.
  - pick 17%nat.
  - pick 12%nat.
  - exfalso; lra.
  - exfalso; lra.
  - pick 1%nat.
  - pick 2%nat.
  - pick 18%nat.
  - pick 19%nat.
  - pick 22%nat.
  - pick 15%nat.
  - exfalso; lra.
  - exfalso; lra.
  - pick 11%nat.
  - pick 6%nat.
  - pick 14%nat.
  - pick 23%nat.
  - exfalso; lra.
  - exfalso; lra.
  - pick 8%nat.
  - pick 5%nat.
  - pick 7%nat.
  - pick 9%nat.
  - pick 13%nat.
  - pick 20%nat.
  - exfalso; lra.
  - exfalso; lra.
  - pick 10%nat.
  - pick 4%nat.
  - pick 16%nat.
  - pick 21%nat.
  - exfalso; lra.
  - exfalso; lra.
Qed.

(** ** The list of the elements *)

(** Their matrices, row by row. *)
Definition octa_tables : list (list Z) := ([
  [1; 0; 0; 0; (-1); 0; 0; 0; (-1)];
  [(-1); 0; 0; 0; 1; 0; 0; 0; (-1)];
  [(-1); 0; 0; 0; (-1); 0; 0; 0; 1];
  [1; 0; 0; 0; 1; 0; 0; 0; 1];
  [0; 0; (-1); (-1); 0; 0; 0; 1; 0];
  [0; (-1); 0; 0; 0; (-1); 1; 0; 0];
  [0; 1; 0; 0; 0; (-1); (-1); 0; 0];
  [0; 0; 1; 1; 0; 0; 0; 1; 0];
  [0; (-1); 0; 0; 0; 1; (-1); 0; 0];
  [0; 0; 1; (-1); 0; 0; 0; (-1); 0];
  [0; 0; (-1); 1; 0; 0; 0; (-1); 0];
  [0; 1; 0; 0; 0; 1; 1; 0; 0];
  [1; 0; 0; 0; 0; (-1); 0; 1; 0];
  [0; 0; 1; 0; 1; 0; (-1); 0; 0];
  [0; (-1); 0; 1; 0; 0; 0; 0; 1];
  [0; 1; 0; (-1); 0; 0; 0; 0; 1];
  [0; 0; (-1); 0; 1; 0; 1; 0; 0];
  [1; 0; 0; 0; 0; 1; 0; (-1); 0];
  [(-1); 0; 0; 0; 0; 1; 0; 1; 0];
  [(-1); 0; 0; 0; 0; (-1); 0; (-1); 0];
  [0; 0; 1; 0; (-1); 0; 1; 0; 0];
  [0; 0; (-1); 0; (-1); 0; (-1); 0; 0];
  [0; 1; 0; 1; 0; 0; 0; 0; (-1)];
  [0; (-1); 0; (-1); 0; 0; 0; 0; (-1)]])%Z.

Definition table_mat (l : list Z) : mat := fun i j => IZR (nth (3 * i + j) l 0%Z).

Lemma octa_table : forall n, (n < 24)%nat -> forall i j, (i < 3)%nat -> (j < 3)%nat ->
  as_matrix (nth n octa_elements so3_id) i j = table_mat (nth n octa_tables []) i j.
Proof.
  intros n Hn i j Hi Hj; pose proof half_sq2.
  do 24 (destruct n as [|n]; [cbn [nth octa_elements octa_tables]; set (w2 := sqrt 2 / 2) in *; clearbody w2;
    mat_entries i j Hi Hj; unfold table_mat; cbn [as_matrix mat3 qx qy qz qw nth Nat.mul Nat.add]; lra|]).
  exfalso; lia.
Qed.

Lemma mat_rot9 : forall q, unit q ->
  rot9 (as_matrix q 0 0)%nat (as_matrix q 0 1)%nat (as_matrix q 0 2)%nat (as_matrix q 1 0)%nat (as_matrix q 1 1)%nat
       (as_matrix q 1 2)%nat (as_matrix q 2 0)%nat (as_matrix q 2 1)%nat (as_matrix q 2 2)%nat.
Proof.
  intros q H; apply rotation_rot9; repeat split; [apply mat_orth, H|apply mat_orth', H|apply mat_det, H].
Qed.

Lemma mat_mat3 : forall m i j, (i < 3)%nat -> (j < 3)%nat ->
  mat3 (m 0 0)%nat (m 0 1)%nat (m 0 2)%nat (m 1 0)%nat (m 1 1)%nat (m 1 2)%nat (m 2 0)%nat (m 2 1)%nat (m 2 2)%nat i j
  = m i j.
Proof. intros m i j Hi Hj; mat_entries i j Hi Hj; reflexivity. Qed.

Lemma nearest_element : forall t q, 0 <= t <= 1 / 1000 -> unit q ->
  (forall i j, (i < 3)%nat -> (j < 3)%nat -> near_sign t (as_matrix q i j)) ->
  exists p, In p octa_elements /\
    forall i j, (i < 3)%nat -> (j < 3)%nat -> Rabs (as_matrix q i j - as_matrix p i j) <= 7 * t.
Proof.
  intros t q Ht Hq N.
  destruct (nearest t _ _ _ _ _ _ _ _ _ Ht (mat_rot9 q Hq)) as (p & Hp & E); try (apply N; lia).
  exists p; split; [exact Hp|]; intros i j Hi Hj; apply near_abs; rewrite <- (mat_mat3 (as_matrix q)) by assumption.
  apply E; assumption.
Qed.

Lemma tables_ok : length octa_tables = 24%nat /\
  forallb (fun l => Nat.eqb (length l) 9 && forallb (fun z => (z =? -1) || (z =? 0) || (z =? 1))%Z l) octa_tables = true.
Proof. split; reflexivity. Qed.

Lemma table_entry : forall n i j, (n < 24)%nat -> (i < 3)%nat -> (j < 3)%nat ->
  sign_or_zero (table_mat (nth n octa_tables []) i j).
Proof.
  intros n i j Hn Hi Hj; destruct tables_ok as [L F]; rewrite forallb_forall in F.
  specialize (F (nth n octa_tables []) (nth_In _ _ ltac:(rewrite L; exact Hn))).
  apply andb_prop in F as [F1 F2]; apply Nat.eqb_eq in F1; rewrite forallb_forall in F2.
  assert (B : (3 * i + j < length (nth n octa_tables []))%nat) by (rewrite F1; lia).
  specialize (F2 _ (nth_In (nth n octa_tables []) 0%Z B)).
  unfold table_mat, sign_or_zero; apply orb_prop in F2 as [F2|F2]; [apply orb_prop in F2 as [F2|F2]|];
    apply Z.eqb_eq in F2; rewrite F2; auto.
Qed.

Lemma elements_unit : Forall unit octa_elements.
Proof.
  pose proof half_sq2; unfold octa_elements; set (w2 := sqrt 2 / 2) in *; clearbody w2; cbn zeta.
  repeat (apply Forall_cons; [unfold unit; cbn [qx qy qz qw]; lra|]); apply Forall_nil.
Qed.

Lemma elements_octahedral : Forall octahedral octa_elements.
Proof.
  apply Forall_forall; intros q Hq; split; [exact (proj1 (Forall_forall _ _) elements_unit q Hq)|].
  apply (In_nth _ _ so3_id) in Hq as (n & Hn & <-); change (length octa_elements) with 24%nat in Hn.
  intros i j Hi Hj; rewrite octa_table by assumption; apply table_entry; assumption.
Qed.

Lemma soz_near : forall t x, 0 <= t -> sign_or_zero x -> near_sign t x.
Proof. intros t x Ht H; exists x; split; [exact H|unfold near; lra]. Qed.

(** Every rotation of the cube is in the list, up to the sign of the quaternion. *)
Lemma elements_complete : forall q, octahedral q -> exists p, In p octa_elements /\ same_rotation q p.
Proof.
  intros q [U H]; destruct (nearest_element 0 q ltac:(lra) U) as (p & Hp & E).
  { intros i j Hi Hj; apply soz_near; [lra|apply H; assumption]. }
  exists p; split; [exact Hp|]; intros i j Hi Hj; specialize (E i j Hi Hj).
  apply abs_le_inv in E; lra.
Qed.

Lemma tables_nodup : NoDup octa_tables.
Proof.
  assert (H : nodup (list_eq_dec Z.eq_dec) octa_tables = octa_tables) by (vm_compute; reflexivity).
  rewrite <- H; apply NoDup_nodup.
Qed.

Lemma elements_distinct : forall n m, (n < 24)%nat -> (m < 24)%nat ->
  same_rotation (nth n octa_elements so3_id) (nth m octa_elements so3_id) -> n = m.
Proof.
  intros n m Hn Hm E; destruct tables_ok as [L F].
  apply (proj1 (NoDup_nth octa_tables []) tables_nodup); [rewrite L; exact Hn|rewrite L; exact Hm|].
  rewrite forallb_forall in F.
  pose proof (F (nth n octa_tables []) (nth_In _ _ ltac:(rewrite L; exact Hn))) as Fn.
  pose proof (F (nth m octa_tables []) (nth_In _ _ ltac:(rewrite L; exact Hm))) as Fm.
  apply andb_prop in Fn as [Fn _]; apply andb_prop in Fm as [Fm _]; apply Nat.eqb_eq in Fn, Fm.
  apply (nth_ext _ _ 0%Z 0%Z); [congruence|]; intros k Hk; rewrite Fn in Hk.
  specialize (E (k / 3)%nat (k mod 3)%nat ltac:(apply Nat.div_lt_upper_bound; lia) ltac:(apply Nat.mod_upper_bound; lia)).
  rewrite !octa_table in E by (try assumption; try (apply Nat.div_lt_upper_bound; lia); apply Nat.mod_upper_bound; lia).
  unfold table_mat in E; apply eq_IZR in E; rewrite <- (Nat.div_mod k 3) in E by lia; exact E.
Qed.

(** ** The group *)

Lemma octahedral_row : forall q i, octahedral q -> (i < 3)%nat ->
  exists j s, (j < 3)%nat /\ is_sign s /\ forall k, (k < 3)%nat -> as_matrix q i k = if Nat.eqb k j then s else 0.
Proof.
  intros q i [U H] Hi.
  destruct (row_axis 0 (as_matrix q i 0%nat) (as_matrix q i 1%nat) (as_matrix q i 2%nat)) as (s & Hs & A & B & C).
  - lra.
  - pose proof (mat_orth q U i i Hi Hi) as O; unfold mmul, mtr, mid in O; rewrite Nat.eqb_refl in O; cbn [sumn] in O; lra.
  - apply soz_near; [lra|apply H; lia].
  - apply soz_near; [lra|apply H; lia].
  - apply soz_near; [lra|apply H; lia].
  - unfold near in A, B, C; unfold axes in Hs; cbn [In] in Hs.
    destruct Hs as [<-|[<-|[<-|[<-|[<-|[<-|[]]]]]]]; cbn [fst snd] in A, B, C.
    + exists 0%nat, 1; split; [lia|split; [left; reflexivity|]]; intros k Hk; destruct k as [|[|[|k]]]; [| | |lia]; cbn [Nat.eqb]; lra.
    + exists 0%nat, (-1); split; [lia|split; [right; reflexivity|]]; intros k Hk; destruct k as [|[|[|k]]]; [| | |lia]; cbn [Nat.eqb]; lra.
    + exists 1%nat, 1; split; [lia|split; [left; reflexivity|]]; intros k Hk; destruct k as [|[|[|k]]]; [| | |lia]; cbn [Nat.eqb]; lra.
    + exists 1%nat, (-1); split; [lia|split; [right; reflexivity|]]; intros k Hk; destruct k as [|[|[|k]]]; [| | |lia]; cbn [Nat.eqb]; lra.
    + exists 2%nat, 1; split; [lia|split; [left; reflexivity|]]; intros k Hk; destruct k as [|[|[|k]]]; [| | |lia]; cbn [Nat.eqb]; lra.
    + exists 2%nat, (-1); split; [lia|split; [right; reflexivity|]]; intros k Hk; destruct k as [|[|[|k]]]; [| | |lia]; cbn [Nat.eqb]; lra.
Qed.

Lemma octahedral_mul : forall p q, octahedral p -> octahedral q -> octahedral (qmul p q).
Proof.
  intros p q Hp Hq; split; [apply unit_mul; [apply Hp|apply Hq]|]; intros i j Hi Hj.
  rewrite mat_mul by assumption; destruct (octahedral_row p i Hp Hi) as (k & s & Hk & Hs & R).
  unfold mmul; rewrite (sumn_ext 3 _ (fun l => if Nat.eqb l k then s * as_matrix q k j else 0)).
  - rewrite (sumn_single 3 k); [rewrite Nat.eqb_refl|exact Hk|].
    + destruct (proj2 Hq k j Hk Hj) as [->|[->| ->]], Hs as [->| ->]; unfold sign_or_zero;
        (left; lra) || (right; left; lra) || (right; right; lra).
    + intros l Hl N; apply Nat.eqb_neq in N; rewrite N; reflexivity.
  - intros l Hl; rewrite R by exact Hl; destruct (Nat.eqb_spec l k) as [->|]; ring.
Qed.

Lemma octahedral_conj : forall q, octahedral q -> octahedral (qconj q).
Proof.
  intros q [U H]; split; [apply unit_conj, U|]; intros i j Hi Hj; rewrite mat_conj by assumption; apply H; assumption.
Qed.
Lemma octahedral_opp : forall q, octahedral q -> octahedral (qopp q).
Proof. intros q [U H]; split; [apply unit_opp, U|]; intros i j Hi Hj; rewrite mat_opp; apply H; assumption. Qed.
Lemma octahedral_id : octahedral so3_id.
Proof.
  split; [apply unit_id|]; intros i j Hi Hj; rewrite mat_id by assumption; unfold mid, sign_or_zero.
  destruct (Nat.eqb i j); auto.
Qed.
Lemma octahedral_same : forall p q, unit p -> octahedral q -> same_rotation p q -> octahedral p.
Proof. intros p q U [_ H] E; split; [exact U|]; intros i j Hi Hj; rewrite E by assumption; apply H; assumption. Qed.

Lemma soz_sq : forall x, sign_or_zero x -> Rabs x = x * x.
Proof. intros x [->|[->| ->]]; unfold Rabs; destruct (Rcase_abs _); lra. Qed.

Lemma octa_close_refl : forall x, octa_close x x = true.
Proof. intros x; apply np_isclose_refl, tol_pos. Qed.

Lemma octa_accepts : forall q, octahedral q -> octa_is_element q = true.
Proof.
  intros q [U H]; unfold octa_is_element; rewrite to_rot_unit by exact U.
  destruct (mat_rot9 q U).
  assert (S : forall i j, (i < 3)%nat -> (j < 3)%nat -> Rabs (as_matrix q i j) = as_matrix q i j * as_matrix q i j)
    by (intros i j Hi Hj; apply soz_sq, H; assumption).
  cbn [forallb]; rewrite !S by lia; rewrite c00, c11, c22, r00, r11, r22, octa_close_refl; cbn [andb].
  assert (E : forall i j, (i < 3)%nat -> (j < 3)%nat ->
     octa_close (as_matrix q i j * as_matrix q i j) 1 || octa_close (as_matrix q i j * as_matrix q i j) 0 = true).
  { intros i j Hi Hj; apply orb_true_iff; destruct (H i j Hi Hj) as [->|[->| ->]].
    - left; replace (-1 * -1) with 1 by ring; apply octa_close_refl.
    - right; rewrite Rmult_0_r; apply octa_close_refl.
    - left; rewrite Rmult_1_r; apply octa_close_refl. }
  rewrite !E by lia; reflexivity.
Qed.

Lemma octa_element_ok : forall q, octahedral q -> octa_element q = Ret q.
Proof. intros q H; unfold octa_element; rewrite octa_accepts by exact H; reflexivity. Qed.

(** What is admitted is a rotation of the cube up to rounding. *)
Lemma octa_admits : forall q, octa_is_element q = true ->
  exists r p, to_rot q = Ret r /\ In p octa_elements /\
    forall i j, (i < 3)%nat -> (j < 3)%nat -> Rabs (as_matrix r i j - as_matrix p i j) <= / 10 ^ 4.
Proof.
  intros q H; unfold octa_is_element in H; destruct (to_rot q) as [|r] eqn:E; [discriminate|].
  assert (U : unit r).
  { destruct (to_rot_accepts q) as (r' & E' & U); [unfold so3_is_element; rewrite E; reflexivity|congruence]. }
  apply andb_prop in H as [_ H].
  destruct (nearest_element (11 / 1000000) r ltac:(lra) U) as (p & Hp & B).
  - intros i j Hi Hj; rewrite forallb_forall in H.
    specialize (H i ltac:(cbn; lia)); rewrite forallb_forall in H; specialize (H j ltac:(cbn; lia)).
    apply orb_prop in H as [H|H]; apply close_bound in H.
    + unfold Rabs at 2 in H; destruct (Rcase_abs (as_matrix r i j)).
      * exists (-1); split; [left; reflexivity|]; apply abs_le_inv in H; unfold near; lra.
      * exists 1; split; [right; right; reflexivity|]; apply abs_le_inv in H; unfold near; lra.
    + rewrite Rabs_R1; lra.
    + exists 0; split; [right; left; reflexivity|]; rewrite Rminus_0_r, Rabs_Rabsolu in H.
      apply abs_le_inv in H; unfold near; lra.
    + rewrite Rabs_R0; lra.
  - exists r, p; split; [reflexivity|split; [exact Hp|]]; intros i j Hi Hj.
    eapply Rle_trans; [apply B; assumption|]; replace (/ 10 ^ 4) with (1 / 10000) by field; lra.
Qed.

Lemma octa_mul_ok : forall p q, octahedral p -> octahedral q -> octa_mul p q = Ret (qmul p q).
Proof.
  intros p q Hp Hq; unfold octa_mul; rewrite combine_unit by (apply Hp || apply Hq); cbn [bind].
  apply octa_element_ok, octahedral_mul; assumption.
Qed.
Lemma octa_inv_ok : forall q, octahedral q -> octa_inv q = Ret (qconj q).
Proof.
  intros q Hq; unfold octa_inv; rewrite invert_unit by apply Hq; cbn [bind].
  apply octa_element_ok, octahedral_conj; assumption.
Qed.
