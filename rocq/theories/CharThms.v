(** Characters of O(3), and concrete cases. *)
From Coq Require Import Reals ZArith Bool List Lia Lra.
From Verif Require Import LibRes LibMat LibTrig FinGroupModel ParamModel PlanarModel SpecPlanar IrrepModel SpecIrrep SpaceModel SpecSpace SpaceProofs SpaceEx
  CharModel SpecChar CharProofs CharRestrict.
Import ListNotations.
Open Scope R_scope.

Lemma o3_character_so3 : forall j l e, (j = 0 \/ j = 1)%Z -> (0 <= l)%Z -> exists c, so3_character l (snd e) = Ret c /\
  o3_character j l e = Ret ((if (j =? 1)%Z && negb (fst e =? 0)%Z then -1 else 1) * c).
Proof.
  intros j l e Hj Hl; unfold o3_character, so3_character; rewrite (proj2 (Z.leb_le 0 l) Hl); cbn [assert_ bind].
  destruct (Z.eqb_spec l 0) as [->|Ne]; (eexists; split; [reflexivity|]).
  - destruct Hj as [-> | ->]; cbn [Z.eqb Pos.eqb orb andb assert_ bind]; [f_equal; ring|].
    destruct (fst e =? 0)%Z; cbn [negb]; f_equal; change (Z.to_nat 1) with 1%nat; ring.
  - destruct Hj as [-> | ->]; cbn [Z.eqb Pos.eqb orb andb assert_ bind].
    + f_equal; change (Z.to_nat 0) with 0%nat; rewrite pow_O; ring.
    + f_equal; change (Z.to_nat 1) with 1%nat; rewrite pow_1; destruct (fst e =? 0)%Z; cbn [negb]; ring.
Qed.

Lemma o3_character_value : forall j l e, (j = 0 \/ j = 1)%Z -> (0 <= l)%Z -> ounit e ->
  exists c, o3_character j l e = Ret c /\ forall t, turns_by (snd e) t ->
    (/ 10 ^ 8 < half_sine (snd e) -> c = owave (fst e) j l t) /\
    Rabs (c - owave (fst e) j l t) <= 2 / 3 * (IZR l * (IZR l + 1) * (2 * IZR l + 1)) * / 10 ^ 16.
Proof.
  intros j l e Hj Hl [_ U]; destruct (o3_character_so3 j l e Hj Hl) as (c & E & E'); destruct (character_value l (snd e) Hl U) as (c' & Ec & V).
  rewrite E in Ec; apply Ret_inj in Ec; subst c'; eexists; split; [exact E'|]; intros t Ht; destruct (V t Ht) as [V1 V2]; unfold owave.
  split; [intros F; rewrite (V1 F); reflexivity|]; rewrite <- Rmult_minus_distr_l, Rabs_mult.
  destruct ((j =? 1)%Z && negb (fst e =? 0)%Z); [rewrite Rabs_left by lra|rewrite Rabs_R1]; lra.
Qed.

Lemma o3_tensor_characters : forall J l, (fst J = 0 \/ fst J = 1)%Z -> (0 <= snd J)%Z -> (fst l = 0 \/ fst l = 1)%Z -> (0 <= snd l)%Z ->
  exists xs, o3_tensor J l = Ret xs /\ NoDup (map fst xs) /\ Forall (fun x => (fst (fst x) = 0 \/ fst (fst x) = 1)%Z /\ (0 <= snd (fst x))%Z) xs /\
    forall i t, weighted (fun x => owave i (fst x) (snd x) t) xs = owave i (fst J) (snd J) t * owave i (fst l) (snd l) t.
Proof.
  intros [a J] [b l] Ha HJ Hb Hl; cbn [fst snd] in *; unfold o3_tensor; cbn [fst snd].
  rewrite (proj2 (Z.leb_le 0 J) HJ), (proj2 (Z.leb_le 0 l) Hl).
  assert (A1 : ((a =? 0) || (a =? 1))%Z = true) by (destruct Ha as [-> | ->]; reflexivity).
  assert (B1 : ((b =? 0) || (b =? 1))%Z = true) by (destruct Hb as [-> | ->]; reflexivity).
  rewrite A1, B1; cbn [assert_ bind]; eexists; split; [reflexivity|]; split; [|split].
  - rewrite map_map; cbn [fst]; unfold py_range; rewrite map_map; apply FinFun.Injective_map_NoDup; [intros x y E; injection E; lia|apply seq_NoDup].
  - apply Forall_forall; intros x I; apply in_map_iff in I as (y & <- & I); unfold py_range in I; apply in_map_iff in I as (k & <- & _); cbn [fst snd].
    split; [pose proof (Z.mod_pos_bound (a + b) 2 ltac:(lia)); lia|lia].
  - intros i t; pose proof (product_range J l t HJ Hl) as P.
    set (r := py_range (Z.abs (J - l)) (J + l + 1)) in *; clearbody r.
    set (s := (if ((a + b) mod 2 =? 1)%Z && negb (i =? 0)%Z then -1 else 1)).
    assert (E : weighted (fun x => owave i (fst x) (snd x) t) (map (fun j => (((a + b) mod 2)%Z, j, 1%nat)) r) =
      s * weighted (fun j => wave (Z.to_nat j) t) (map (fun j => (j, 1%nat)) r)).
    { clear P; induction r as [|j r IH]; unfold weighted in *; cbn [map fold_right fst snd INR] in *; [ring|]; rewrite IH; unfold owave; fold s; ring. }
    rewrite E, P; unfold owave, s; destruct Ha as [-> | ->], Hb as [-> | ->], (i =? 0)%Z; cbn; ring.
Qed.

(** ** Cases *)

(** A half turn and frequency 2; its opposite quaternion. *)
Lemma half_turn_2 : unit (Quat 1 0 0 0) /\ / 10 ^ 8 < half_sine (Quat 1 0 0 0) /\ turns_by (Quat 1 0 0 0) PI /\ wave 2 PI = 1.
Proof.
  split; [unfold unit; cbn; lra|]; split; [|split].
  - unfold half_sine; cbn [qx qy qz]; replace (1 * 1 + 0 * 0 + 0 * 0) with 1 by ring; rewrite sqrt_1.
    apply Rlt_le_trans with (/ 1); [apply Rinv_lt_contravar; lra|lra].
  - unfold turns_by, trace; cbn [sumn as_matrix mat3 qx qy qz qw]; rewrite cos_PI; lra.
  - rewrite (proj1 (wave_pi 2)); reflexivity.
Qed.

(** 1 times 2 is 1 + 2 + 3. *)
Lemma tensor_1_2 : so3_tensor 1 2 = Ret [(1%Z, 1%nat); (2%Z, 1%nat); (3%Z, 1%nat)] /\
  o3_tensor (1, 1)%Z (1, 2)%Z = Ret [((0, 1)%Z, 1%nat); ((0, 2)%Z, 1%nat); ((0, 3)%Z, 1%nat)].
Proof. split; reflexivity. Qed.

(** Frequency 2 on the third of turns: 0, 1 and 1 again. *)
Lemma restricted_2_c3 : so3_restrict_ids 2 (S3PPlane false 3) = Ret [[0%Z]; [1%Z]; [1%Z]].
Proof. vm_compute. reflexivity. Qed.
