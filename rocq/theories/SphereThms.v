(** The other grids, and the elements standing for the points of a grid. *)
From Coq Require Import Reals ZArith Bool List Lia Lra.
From Verif Require Import LibRes LibMat LibMatS LibTrig ParamModel SpaceModel SphereModel SpecSpace SpecSphere SpaceProofs
  SphereProofs SphereFrame SphereGrid SphereHealpix.
Import ListNotations.
Open Scope R_scope.

(** ** Longitude and latitude *)

Definition lat (M la : Z) : R := cos (IZR la * PI / (IZR M - 1)).

Lemma lat_angle : forall M la, (1 < M)%Z -> (0 <= la <= M - 1)%Z -> 0 <= IZR la * PI / (IZR M - 1) <= PI.
Proof.
  intros M la P H; assert (MP : 0 < IZR M - 1) by (rewrite <- minus_IZR; apply IZR_lt; lia).
  assert (A : 0 <= IZR la) by (apply IZR_le; lia).
  assert (B : IZR la <= IZR M - 1) by (rewrite <- minus_IZR; apply IZR_le; lia).
  pose proof PI_RGT_0 as Q; unfold Rdiv; split.
  - apply Rmult_le_pos; [apply Rmult_le_pos; lra|left; apply Rinv_0_lt_compat, MP].
  - apply (Rmult_le_reg_r (IZR M - 1)); [exact MP|].
    replace (IZR la * PI * / (IZR M - 1) * (IZR M - 1)) with (PI * IZR la) by (field; lra).
    apply Rmult_le_compat_l; lra.
Qed.

Lemma lat_inj : forall M a b, (1 < M)%Z -> (0 <= a <= M - 1)%Z -> (0 <= b <= M - 1)%Z -> lat M a = lat M b -> a = b.
Proof.
  intros M a b P A B E; assert (MP : 0 < IZR M - 1) by (rewrite <- minus_IZR; apply IZR_lt; lia).
  pose proof (lat_angle M a P A) as LA; pose proof (lat_angle M b P B) as LB; pose proof PI_RGT_0 as Q.
  unfold lat in E; apply cos_inj in E; [|exact LA|exact LB].
  apply eq_IZR, (Rmult_eq_reg_r (PI / (IZR M - 1))).
  - transitivity (IZR a * PI / (IZR M - 1)); [field; lra|rewrite E; field; lra].
  - apply Rmult_integral_contrapositive; split; [lra|apply Rinv_neq_0_compat; lra].
Qed.

Lemma lat_first : forall M, lat M 0 = 1.
Proof. intros M; unfold lat; replace (0 * PI / (IZR M - 1)) with 0 by (unfold Rdiv; ring); apply cos_0. Qed.

Lemma lat_last : forall M, (1 < M)%Z -> lat M (M - 1) = -1.
Proof.
  intros M P; unfold lat; assert (MP : 0 < IZR M - 1) by (rewrite <- minus_IZR; apply IZR_lt; lia).
  rewrite minus_IZR; replace ((IZR M - 1) * PI / (IZR M - 1)) with PI by (field; lra); apply cos_PI.
Qed.

Lemma lat_flip : forall M la, (1 < M)%Z -> lat M (M - 1 - la) = - lat M la.
Proof.
  intros M la P; unfold lat; assert (MP : 0 < IZR M - 1) by (rewrite <- minus_IZR; apply IZR_lt; lia).
  rewrite !minus_IZR; replace ((IZR M - 1 - IZR la) * PI / (IZR M - 1)) with (- (IZR la * PI / (IZR M - 1)) + PI) by (field; lra).
  rewrite neg_cos, cos_neg; reflexivity.
Qed.

Lemma lat_inside : forall M la, (1 < M)%Z -> (0 < la < M - 1)%Z -> -1 < lat M la < 1.
Proof.
  intros M la P H; pose proof (COS_bound (IZR la * PI / (IZR M - 1))) as B; fold (lat M la) in B.
  assert (A : lat M la <> 1).
  { intros E; rewrite <- (lat_first M) in E; apply lat_inj in E; lia. }
  assert (A' : lat M la <> -1).
  { intros E; rewrite <- (lat_last M P) in E; apply lat_inj in E; lia. }
  lra.
Qed.

Lemma parallel_eq : forall N M la, (1 < M)%Z -> (0 <= la < M)%Z ->
  parallel N M la = if (la =? 0)%Z then [pole] else if (la =? M - 1)%Z then [opposite pole] else circle (lat M la) N 0.
Proof.
  intros N M la P H; unfold parallel; destruct (la =? 0)%Z; [reflexivity|].
  destruct (la =? M - 1)%Z.
  - unfold opposite, pole; cbn [vx vy vz]; rewrite Ropp_0; reflexivity.
  - unfold circle; apply map_ext_in; intros j Hj; apply in_range in Hj; unfold at_angles, lat.
    replace (2 * PI / IZR N * (IZR j + 0)) with (IZR j * 2 * PI / IZR N); [reflexivity|].
    field; apply not_0_IZR; lia.
Qed.

Definition lpoints (N M : Z) : list vec := flat_map (parallel N M) (range 0 M).

Lemma longlat_eq : forall N M, longlat N M = if (1 <? M)%Z then Ret (lpoints N M) else Raise.
Proof.
  intros N M; unfold longlat; destruct (Z.ltb_spec 1 M) as [P|P]; [|reflexivity].
  cbn [assert_ bind]; fold (lpoints N M); unfold stack; destruct (lpoints N M) as [|p l] eqn:E; [|reflexivity].
  exfalso; assert (I : In pole (lpoints N M)).
  { apply in_flat_map; exists 0%Z; split; [apply in_range; lia|rewrite parallel_eq by lia; left; reflexivity]. }
  rewrite E in I; exact I.
Qed.

Lemma lpoints_in : forall N M p, (1 < M)%Z -> In p (lpoints N M) <->
  p = pole \/ p = opposite pole \/ exists la, (0 < la < M - 1)%Z /\ In p (circle (lat M la) N 0).
Proof.
  intros N M p P; unfold lpoints; rewrite in_flat_map; split.
  - intros (la & Hla & H); apply in_range in Hla; rewrite parallel_eq in H by lia.
    destruct (Z.eqb_spec la 0) as [->|X]; [destruct H as [<-|[]]; left; reflexivity|].
    destruct (Z.eqb_spec la (M - 1)) as [->|Y]; [destruct H as [<-|[]]; right; left; reflexivity|].
    right; right; exists la; split; [lia|exact H].
  - intros [->|[->|(la & Hla & H)]].
    + exists 0%Z; split; [apply in_range; lia|rewrite parallel_eq by lia; left; reflexivity].
    + exists (M - 1)%Z; split; [apply in_range; lia|rewrite parallel_eq by lia].
      destruct (Z.eqb_spec (M - 1) 0) as [X|X]; [lia|]; rewrite Z.eqb_refl; left; reflexivity.
    + exists la; split; [apply in_range; lia|rewrite parallel_eq by lia].
      destruct (Z.eqb_spec la 0) as [X|X]; [lia|]; destruct (Z.eqb_spec la (M - 1)) as [Y|Y]; [lia|exact H].
Qed.

Lemma lpoints_count : forall N M, (0 <= N)%Z -> (1 < M)%Z -> Z.of_nat (length (lpoints N M)) = (2 + N * (M - 2))%Z.
Proof.
  intros N M NP P; unfold lpoints; rewrite flat_map_length_sum.
  assert (C : forall k, (Z.of_nat k < M - 1)%Z ->
     Z.of_nat (list_sum (map (fun a => length (parallel N M a)) (range 0 (Z.of_nat k + 1)))) = (1 + N * Z.of_nat k)%Z).
  { intros k; induction k as [|k IH]; intros L.
    - change (range 0 (Z.of_nat 0 + 1)) with [0%Z]; cbn [map list_sum fold_right]; rewrite parallel_eq by lia.
      rewrite Z.eqb_refl; cbn [length]; lia.
    - replace (Z.of_nat (S k) + 1)%Z with (Z.of_nat k + 1 + 1)%Z by lia.
      rewrite range_snoc by lia; rewrite map_app, list_sum_app, Nat2Z.inj_add, IH by lia; cbn [map list_sum fold_right].
      rewrite parallel_eq by lia.
      destruct (Z.eqb_spec (Z.of_nat k + 1) 0) as [X|X]; [lia|].
      destruct (Z.eqb_spec (Z.of_nat k + 1) (M - 1)) as [Y|Y]; [lia|].
      rewrite ring_length; lia. }
  specialize (C (Z.to_nat (M - 2)) ltac:(lia)).
  replace (range 0 M) with (range 0 (Z.of_nat (Z.to_nat (M - 2)) + 1) ++ [(M - 1)%Z]).
  - rewrite map_app, list_sum_app, Nat2Z.inj_add, C; cbn [map list_sum fold_right]; rewrite parallel_eq by lia.
    destruct (Z.eqb_spec (M - 1) 0) as [X|X]; [lia|]; rewrite Z.eqb_refl, Z2Nat.id by lia; cbn [length]; lia.
  - rewrite Z2Nat.id by lia; replace (M - 2 + 1)%Z with (M - 1)%Z by lia; rewrite <- range_snoc by lia; f_equal; lia.
Qed.

Lemma across_pole : across pole = opposite pole.
Proof. unfold across, opposite, pole; cbn [vx vy vz]; f_equal; ring. Qed.
Lemma across_across : forall p, across (across p) = p.
Proof. intros [x y z]; unfold across; cbn [vx vy vz]; f_equal; ring. Qed.
Lemma opposite_opposite : forall p, opposite (opposite p) = p.
Proof. intros [x y z]; unfold opposite; cbn [vx vy vz]; f_equal; ring. Qed.

Lemma lpoints_sphere : forall N M, (1 < M)%Z -> Forall on_sphere (lpoints N M).
Proof.
  intros N M P; apply Forall_forall; intros p Hp; apply (lpoints_in N M p P) in Hp as [->|[->|(la & Hla & H)]].
  - unfold on_sphere, pole; cbn [vx vy vz]; ring.
  - unfold on_sphere, opposite, pole; cbn [vx vy vz]; ring.
  - pose proof (lat_inside M la P Hla) as B.
    assert (S : Forall on_sphere (circle (lat M la) N 0)) by (apply ring_sphere; lra).
    rewrite Forall_forall in S; exact (S p H).
Qed.

Lemma longlat_ok : forall N M, (0 < N)%Z -> (1 < M)%Z -> exists l, longlat N M = Ret l /\
  Z.of_nat (length l) = (2 + N * (M - 2))%Z /\ NoDup l /\ Forall on_sphere l /\
  closed_under (turned (2 * PI / IZR N)) l /\ closed_under across l /\ (Z.Even N -> closed_under opposite l).
Proof.
  intros N M NP P; exists (lpoints N M); rewrite longlat_eq; replace (1 <? M)%Z with true by (symmetry; apply Z.ltb_lt, P).
  split; [reflexivity|split; [apply lpoints_count; lia|split; [|split; [apply lpoints_sphere, P|split; [|split]]]]].
  - apply (NoDup_keyed _ _ _ _ vz (lat M)).
    + apply range_NoDup.
    + intros la H; apply in_range in H; rewrite parallel_eq by lia.
      destruct (Z.eqb_spec la 0) as [X|X]; [constructor; [intros []|constructor]|].
      destruct (Z.eqb_spec la (M - 1)) as [Y|Y]; [constructor; [intros []|constructor]|].
      apply ring_NoDup, lat_inside; lia.
    + intros la p H Hp; apply in_range in H; rewrite parallel_eq in Hp by lia.
      destruct (Z.eqb_spec la 0) as [X|X]; [destruct Hp as [<-|[]]; rewrite X, lat_first; reflexivity|].
      destruct (Z.eqb_spec la (M - 1)) as [Y|Y]; [destruct Hp as [<-|[]]; rewrite Y, lat_last by exact P; reflexivity|].
      exact (ring_height _ _ _ _ Hp).
    + intros a b A B; apply in_range in A, B; apply lat_inj; lia.
  - intros p Hp; apply (lpoints_in N M p P) in Hp; apply (lpoints_in N M _ P); destruct Hp as [->|[->|(la & Hla & H)]].
    + left; unfold turned, pole; cbn [vx vy vz]; f_equal; ring.
    + right; left; unfold turned, opposite, pole; cbn [vx vy vz]; f_equal; ring.
    + right; right; exists la; split; [exact Hla|].
      replace (2 * PI / IZR N) with (2 * PI / IZR N * IZR 1) by ring; apply ring_turned; assumption.
  - intros p Hp; apply (lpoints_in N M p P) in Hp; apply (lpoints_in N M _ P); destruct Hp as [->|[->|(la & Hla & H)]].
    + right; left; apply across_pole.
    + left; rewrite <- across_pole; apply across_across.
    + right; right; exists (M - 1 - la)%Z; split; [lia|]; rewrite lat_flip by exact P; apply ring_across, H.
  - intros [k ->] p Hp; apply (lpoints_in (2 * k) M p P) in Hp; apply (lpoints_in (2 * k) M _ P).
    destruct Hp as [->|[->|(la & Hla & H)]].
    + right; left; reflexivity.
    + left; apply opposite_opposite.
    + right; right; exists (M - 1 - la)%Z; split; [lia|]; rewrite lat_flip by exact P; apply ring_opposite; [lia|exact H].
Qed.

(** An odd number of meridians: the opposite of a point on the first of them is
    not a point of the grid. *)
Lemma longlat_odd : forall N M, (0 < N)%Z -> Z.Odd N -> (2 < M)%Z ->
  exists p, In p (lpoints N M) /\ ~ In (opposite p) (lpoints N M).
Proof.
  intros N M NP [k O] P; pose proof (lat_inside M 1 ltac:(lia) ltac:(lia)) as B.
  exists (at_angles (lat M 1) 0); split.
  - apply lpoints_in; [lia|]; right; right; exists 1%Z; split; [lia|].
    replace (at_angles (lat M 1) 0) with (at_angles (lat M 1) (2 * PI / IZR N * (IZR 0 + 0)))
      by (f_equal; field; apply not_0_IZR; lia).
    apply ring_at, NP.
  - intros H; rewrite at_opposite in H; apply lpoints_in in H; [|lia]; destruct H as [H|[H|(la & Hla & H)]].
    + unfold at_angles, pole in H; injection H as _ _ H; lra.
    + unfold at_angles, opposite, pole in H; cbn [vx vy vz] in H; injection H as _ _ H; lra.
    + pose proof (ring_height _ _ _ _ H) as E; cbn [at_angles vz] in E; rewrite <- E in H.
      apply in_map_iff in H as (j & H & _); apply at_inj in H as (n & H); [|lra].
      pose proof PI_RGT_0 as Q.
      assert (F : (2 * j = N * (1 + 2 * n))%Z).
      { apply eq_IZR; rewrite !mult_IZR, plus_IZR, mult_IZR.
        assert (N0 : IZR N <> 0) by (apply not_0_IZR; lia).
        apply (Rmult_eq_reg_l (PI / IZR N)).
        - transitivity (2 * PI / IZR N * (IZR j + 0)); [field; exact N0|rewrite H; field; exact N0].
        - apply Rmult_integral_contrapositive; split; [lra|apply Rinv_neq_0_compat, N0]. }
      lia.
Qed.

(** ** Fibonacci *)

Lemma fibonacci_ok : forall N, (1 < N)%Z -> exists l, fibonacci N = Ret l /\
  Z.of_nat (length l) = N /\ NoDup l /\ Forall on_sphere l /\
  hd_error l = Some (Vec 0 1 0) /\ hd_error (rev l) = Some (Vec 0 (-1) 0).
Proof.
  intros N P; unfold fibonacci; destruct (Z.eqb_spec N 1) as [X|X]; [lia|]; clear X.
  assert (NP : 0 < IZR N - 1) by (rewrite <- minus_IZR; apply IZR_lt; lia).
  match goal with |- context [map ?g (range 0 N)] => set (f := g) end; eexists; split; [reflexivity|].
  assert (Y : forall i, vy (f i) = 1 - 2 * (IZR i / (IZR N - 1))) by reflexivity.
  split; [rewrite map_length, range_length; lia|split; [|split; [|split]]].
  - apply (FinFun.Injective_map_NoDup); [|apply range_NoDup].
    intros i j E; apply (f_equal vy) in E; rewrite !Y in E; apply eq_IZR.
    apply (Rmult_eq_reg_r (/ (IZR N - 1))); [|apply Rinv_neq_0_compat; lra].
    unfold Rdiv in E; lra.
  - apply Forall_map, Forall_forall; intros i Hi; apply in_range in Hi.
    assert (B : 0 <= IZR i / (IZR N - 1) <= 1).
    { assert (0 <= IZR i) by (apply IZR_le; lia).
      assert (IZR i <= IZR N - 1) by (rewrite <- minus_IZR; apply IZR_le; lia).
      unfold Rdiv; split; [apply Rmult_le_pos; [assumption|left; apply Rinv_0_lt_compat, NP]|].
      apply (Rmult_le_reg_r (IZR N - 1)); [exact NP|].
      replace (IZR i * / (IZR N - 1) * (IZR N - 1)) with (IZR i) by (field; lra); lra. }
    unfold f; set (y := 1 - 2 * (IZR i / (IZR N - 1))) in *; set (t := PI * (3 - sqrt 5) * IZR i).
    assert (YB : -1 <= y <= 1) by (unfold y; lra); clearbody y t.
    pose proof (at_sphere y t YB) as S; unfold on_sphere, at_angles in *; cbn [vx vy vz] in *; lra.
  - replace N with (N - 1 + 1)%Z by lia; unfold range; replace (Z.to_nat (N - 1 + 1 - 0)) with (S (Z.to_nat (N - 1))) by lia.
    cbn [seq map hd_error]; unfold f; cbn [Z.of_nat Z.add]; f_equal.
    replace (1 - 2 * (0 / (IZR N - 1))) with 1 by (field; lra).
    replace (1 - 1 ^ 2) with 0 by ring; rewrite sqrt_0, !Rmult_0_r; reflexivity.
  - replace (range 0 N) with (range 0 (N - 1) ++ [(N - 1)%Z]).
    + rewrite map_app, rev_app_distr; cbn [map rev app hd_error]; unfold f; f_equal.
      rewrite minus_IZR; replace (1 - 2 * ((IZR N - 1) / (IZR N - 1))) with (-1) by (field; lra).
      replace (1 - (-1) ^ 2) with 0 by ring; rewrite sqrt_0, !Rmult_0_r; reflexivity.
    + rewrite <- range_snoc by lia; f_equal; lia.
Qed.

(** ** The grid moved by an orthogonal matrix *)

Lemma random_ok : forall draws, draws <> [] -> Forall (fun y => y <> Vec 0 0 0) draws ->
  exists l, random_samples draws = Ret l /\
    Forall2 (fun y p => on_sphere p /\ exists s, 0 < s /\ p = Vec (s * vx y) (s * vy y) (s * vz y)) draws l.
Proof.
  intros draws N F; unfold random_samples; destruct draws as [|y0 draws]; [contradiction|]; cbn [length Nat.eqb negb assert_ bind].
  destruct (mapM_Forall2 _ _ vunit (fun y p => on_sphere p /\ exists s, 0 < s /\ p = Vec (s * vx y) (s * vy y) (s * vz y))
     (y0 :: draws)) as (l & E & R); [|exists l; split; [exact E|exact R]].
  eapply Forall_impl; [|exact F]; intros y Hy; destruct (vunit_total y Hy) as [p Hp]; exists p; split; [exact Hp|].
  destruct (vunit_Ret y p Hp) as (N0 & Ep & U); split; [apply vdot_sphere, U|].
  exists (/ vnorm y); split; [apply Rinv_0_lt_compat; pose proof (sqrt_pos (vdot y y)); unfold vnorm in *; lra|exact Ep].
Qed.

Definition raw (t : gtype) : res (list vec) :=
  match t with
  | Rand draws => random_samples draws
  | Healpix N => healpix N
  | Fibonacci N => fibonacci N
  | Longlat N M => longlat N M
  end.

Lemma raw_ok : forall t, proper t -> exists l, raw t = Ret l /\ Forall on_sphere l.
Proof.
  intros [draws|N|N|N M] P; cbn [proper raw] in *.
  - destruct P as [P F]; destruct (random_ok draws P F) as (l & E & R); exists l; split; [exact E|].
    clear - R; induction R as [|y p ys ps [S _] R IH]; constructor; assumption.
  - destruct (healpix_ok N P) as (l & E & _ & _ & S & _); eauto.
  - destruct (fibonacci_ok N P) as (l & E & _ & _ & S & _); eauto.
  - exists (lpoints N M); rewrite longlat_eq; replace (1 <? M)%Z with true by (symmetry; apply Z.ltb_lt, P).
    split; [reflexivity|apply lpoints_sphere, P].
Qed.

Lemma vmap_moves : forall m p, moved_by m p (vmap m p).
Proof.
  intros m p i Hi; unfold mvec, vmap; cbn [sumn]; destruct i as [|[|[|i]]]; try lia; cbn [coord vx vy vz]; ring.
Qed.

Lemma vmap_sphere : forall m p, meq 3 3 (mmul 3 (mtr m) m) mid -> on_sphere p -> on_sphere (vmap m p).
Proof.
  intros m [x y z] O P; unfold on_sphere in *; cbn [vx vy vz vmap] in *.
  assert (F : forall i j, (i < 3)%nat -> (j < 3)%nat ->
     m 0%nat i * m 0%nat j + m 1%nat i * m 1%nat j + m 2%nat i * m 2%nat j = if Nat.eqb i j then 1 else 0).
  { intros i j Hi Hj; specialize (O i j Hi Hj); unfold mmul, mtr, mid in O; cbn [sumn] in O; rewrite <- O; ring. }
  pose proof (F 0%nat 0%nat ltac:(lia) ltac:(lia)) as F00. pose proof (F 1%nat 1%nat ltac:(lia) ltac:(lia)) as F11.
  pose proof (F 2%nat 2%nat ltac:(lia) ltac:(lia)) as F22. pose proof (F 0%nat 1%nat ltac:(lia) ltac:(lia)) as F01.
  pose proof (F 0%nat 2%nat ltac:(lia) ltac:(lia)) as F02. pose proof (F 1%nat 2%nat ltac:(lia) ltac:(lia)) as F12.
  cbn in F00, F11, F22, F01, F02, F12; rewrite <- P; clear F O.
  set (a := m 0%nat 0%nat) in *; set (b := m 0%nat 1%nat) in *; set (c := m 0%nat 2%nat) in *.
  set (d := m 1%nat 0%nat) in *; set (e := m 1%nat 1%nat) in *; set (f := m 1%nat 2%nat) in *.
  set (g := m 2%nat 0%nat) in *; set (h := m 2%nat 1%nat) in *; set (k := m 2%nat 2%nat) in *.
  transitivity ((a * a + d * d + g * g) * (x * x) + (b * b + e * e + h * h) * (y * y) + (c * c + f * f + k * k) * (z * z)
    + 2 * (a * b + d * e + g * h) * (x * y) + 2 * (a * c + d * f + g * k) * (x * z) + 2 * (b * c + e * f + h * k) * (y * z)); [ring|].
  rewrite F00, F11, F22, F01, F02, F12; ring.
Qed.

Lemma vmap_mid : forall p, vmap mid p = p.
Proof. intros [x y z]; unfold vmap, mid; cbn; f_equal; ring. Qed.

Lemma det_mid : det mid = 1.
Proof. unfold det, mid; cbn; ring. Qed.

Lemma points_raw : forall t m d, orthogonal3 d m -> Rabs d = 1 ->
  sphere_points t m = (l <- raw t ;; Ret (map (vmap m) l)).
Proof.
  intros t m d (_ & _ & D) A; unfold sphere_points; fold (raw t); destruct (raw t) as [|l]; [reflexivity|].
  cbn [bind]; rewrite det_det3, D, A, isclose_refl; reflexivity.
Qed.

Lemma id_orthogonal : orthogonal3 1 mid.
Proof.
  split; [|split]; [| |rewrite <- det_det3; apply det_mid];
    intros i j Hi Hj; destruct i as [|[|[|i]]]; try lia; destruct j as [|[|[|j]]]; try lia;
    unfold mmul, mtr, mid; cbn; ring.
Qed.

Lemma points_id : forall t, sphere_points t mid = raw t.
Proof.
  intros t; rewrite (points_raw t mid 1 id_orthogonal) by apply Rabs_R1.
  destruct (raw t) as [|l]; [reflexivity|]; cbn [bind]; rewrite (map_ext _ (fun p => p) vmap_mid), map_id; reflexivity.
Qed.

Lemma moved_grid : forall t m d, proper t -> orthogonal3 d m -> Rabs d = 1 ->
  exists l pts, sphere_points t mid = Ret l /\ sphere_points t m = Ret pts /\
    Forall2 (moved_by m) l pts /\ Forall on_sphere l /\ Forall on_sphere pts.
Proof.
  intros t m d P O D; destruct (raw_ok t P) as (l & E & S); exists l, (map (vmap m) l).
  rewrite points_id, (points_raw t m d O D), E; cbn [bind].
  split; [reflexivity|split; [reflexivity|split; [|split; [exact S|]]]].
  - clear; induction l as [|p l IH]; constructor; [apply vmap_moves|exact IH].
  - apply Forall_map; eapply Forall_impl; [|exact S]; intros p; apply vmap_sphere; apply O.
Qed.

(** ** Elements *)

Lemma so3_grid_ok : forall t adj noise, proper t -> unit adj ->
  exists pts, sphere_points t (as_matrix adj) = Ret pts /\
  (forall l, so3_sphere_grid t adj noise = Ret l -> Forall2 (fun q p => stands_for q (opposite p)) l pts) /\
  (Forall2 (fun p y => ~ parallel_to p y) pts noise -> exists l, so3_sphere_grid t adj noise = Ret l).
Proof.
  intros t adj noise P U.
  destruct (moved_grid t (as_matrix adj) 1 P) as (l & pts & _ & E & _ & _ & S).
  - split; [apply mat_orth, U|split; [apply mat_orth', U|apply mat_det, U]].
  - apply Rabs_R1.
  - exists pts; split; [exact E|apply so3_from_points; assumption].
Qed.

Lemma stands_unique : forall q p p', stands_for q p -> stands_for q p' -> p = p'.
Proof.
  intros q [x y z] [x' y' z'] (_ & A) (_ & B).
  pose proof (A 0%nat ltac:(lia)) as A0; pose proof (B 0%nat ltac:(lia)) as B0.
  pose proof (A 1%nat ltac:(lia)) as A1; pose proof (B 1%nat ltac:(lia)) as B1.
  pose proof (A 2%nat ltac:(lia)) as A2; pose proof (B 2%nat ltac:(lia)) as B2.
  cbn [coord vx vy vz] in *; f_equal; congruence.
Qed.

Lemma Forall2_in_l : forall A B (R : A -> B -> Prop) l l' a, Forall2 R l l' -> In a l -> exists b, In b l' /\ R a b.
Proof.
  intros A B R l l' a F; induction F as [|x y l l' H F IH]; intros []; [subst; exists y|destruct IH as (b & I & Q); [assumption|exists b]];
    (split; [|assumption]); [left; reflexivity|right; exact I].
Qed.
Lemma Forall2_in_r : forall A B (R : A -> B -> Prop) l l' b, Forall2 R l l' -> In b l' -> exists a, In a l /\ R a b.
Proof.
  intros A B R l l' b F; induction F as [|x y l l' H F IH]; intros []; [subst; exists x|destruct IH as (a & I & Q); [assumption|exists a]];
    (split; [|assumption]); [left; reflexivity|right; exact I].
Qed.

Lemma so3_grid_opposite : forall t adj noise pts l, proper t -> unit adj ->
  sphere_points t (as_matrix adj) = Ret pts -> closed_under opposite pts ->
  so3_sphere_grid t adj noise = Ret l ->
  (forall q, In q l -> exists p, In p pts /\ stands_for q p) /\
  (forall p, In p pts -> exists q, In q l /\ stands_for q p).
Proof.
  intros t adj noise pts l P U E C H.
  destruct (so3_grid_ok t adj noise P U) as (pts' & E' & F & _); rewrite E in E'; apply Ret_inj in E'; subst pts'.
  specialize (F l H); split.
  - intros q Hq; destruct (Forall2_in_l _ _ _ _ _ q F Hq) as (p & Hp & S); exists (opposite p); split; [apply C, Hp|exact S].
  - intros p Hp; destruct (Forall2_in_r _ _ _ _ _ (opposite p) F (C p Hp)) as (q & Hq & S); exists q; split; [exact Hq|].
    rewrite opposite_opposite in S; exact S.
Qed.

Lemma o3_grid_ok : forall t adj, proper t -> ounit adj ->
  exists pts l, sphere_points t (omat adj) = Ret pts /\ o3_sphere_grid t adj = Ret l /\
    Forall2 (fun e p => fst e = 0%Z /\ stands_for (snd e) p) l pts.
Proof.
  intros t adj P U; destruct U as [Ff U].
  assert (O : exists d, orthogonal3 d (omat adj) /\ Rabs d = 1).
  { exists (if (fst adj =? 0)%Z then 1 else -1); split.
    - unfold omat; destruct (fst adj =? 0)%Z; split.
      + intros i j Hi Hj; rewrite <- (mat_orth _ U i j Hi Hj); unfold mmul, mtr, mscal; cbn [sumn]; ring.
      + split.
        * intros i j Hi Hj; rewrite <- (mat_orth' _ U i j Hi Hj); unfold mmul, mtr, mscal; cbn [sumn]; ring.
        * transitivity (det3 (as_matrix (snd adj))); [unfold det3, dot, cross, mscal; cbn [sumn]; ring|apply mat_det, U].
      + intros i j Hi Hj; rewrite <- (mat_orth _ U i j Hi Hj); unfold mmul, mtr, mscal; cbn [sumn]; ring.
      + split.
        * intros i j Hi Hj; rewrite <- (mat_orth' _ U i j Hi Hj); unfold mmul, mtr, mscal; cbn [sumn]; ring.
        * transitivity (- det3 (as_matrix (snd adj))); [unfold det3, dot, cross, mscal; cbn [sumn]; ring|rewrite mat_det by exact U; ring].
    - destruct (fst adj =? 0)%Z; [apply Rabs_R1|unfold Rabs; destruct (Rcase_abs (-1)); lra]. }
  destruct O as (d & O & D); destruct (moved_grid t (omat adj) d P O D) as (l0 & pts & _ & E & _ & _ & S).
  destruct (o3_from_points t adj pts E S) as (l & El & F); exists pts, l; auto.
Qed.

Lemma noise_exists : forall pts, Forall on_sphere pts -> exists noise, Forall2 (fun p y => ~ parallel_to p y) pts noise.
Proof.
  intros pts S; induction S as [|[x y z] pts P S (noise & F)]; [exists []; constructor|].
  destruct (Req_dec z 0) as [->|Z].
  - exists (Vec 0 0 1 :: noise); constructor; [|exact F].
    intros (c & E); cbn [vx vy vz] in E; injection E as E1 E2 E3; lra.
  - destruct (Req_dec x 0) as [->|X].
    + exists (Vec 1 0 0 :: noise); constructor; [|exact F].
      intros (c & E); cbn [vx vy vz] in E; injection E as E1 E2 E3; lra.
    + exists (Vec 0 0 1 :: noise); constructor; [|exact F].
      intros (c & E); cbn [vx vy vz] in E; injection E as E1 E2 E3.
      symmetry in E1; apply Rmult_integral in E1 as [->|E1]; [lra|exact (X E1)].
Qed.

Lemma so3_grid_runs : forall t adj, proper t -> unit adj -> exists noise l, so3_sphere_grid t adj noise = Ret l.
Proof.
  intros t adj P U.
  destruct (moved_grid t (as_matrix adj) 1 P) as (l0 & pts & _ & E & _ & _ & S).
  - split; [apply mat_orth, U|split; [apply mat_orth', U|apply mat_det, U]].
  - apply Rabs_R1.
  - destruct (noise_exists pts S) as [noise F]; exists noise.
    destruct (so3_from_points t adj noise pts E S) as [_ T]; exact (T F).
Qed.

Lemma points_so3_id : forall t, sphere_points t (as_matrix so3_id) = sphere_points t mid.
Proof.
  intros t; rewrite points_id, (points_raw t _ 1).
  - destruct (raw t) as [|l]; [reflexivity|]; cbn [bind]; rewrite (map_ext _ (fun p => p)), map_id; [reflexivity|].
    intros [x y z]; unfold vmap, so3_id; cbn; f_equal; ring.
  - split; [apply mat_orth, unit_id|split; [apply mat_orth', unit_id|apply mat_det, unit_id]].
  - apply Rabs_R1.
Qed.

(** The elements need not stand for the points of the grid. *)
Lemma so3_grid_wrong : forall N M, (0 < N)%Z -> Z.Odd N -> (2 < M)%Z ->
  (exists noise l, so3_sphere_grid (Longlat N M) so3_id noise = Ret l) /\
  exists pts p, longlat N M = Ret pts /\ In p pts /\
    forall noise l q, so3_sphere_grid (Longlat N M) so3_id noise = Ret l -> In q l -> ~ stands_for q p.
Proof.
  intros N M NP O P; split; [apply so3_grid_runs; [cbn; lia|apply unit_id]|].
  destruct (longlat_odd N M NP O P) as (p & Hp & Np); exists (lpoints N M), p.
  rewrite longlat_eq; destruct (Z.ltb_spec 1 M) as [L|L]; [|lia].
  split; [reflexivity|split; [exact Hp|]]; intros noise l q H Hq S.
  destruct (so3_grid_ok (Longlat N M) so3_id noise) as (pts & E & F & _); [cbn; lia|apply unit_id|].
  specialize (F l H); rewrite points_so3_id, points_id in E; cbn [raw] in E; rewrite longlat_eq in E.
  destruct (Z.ltb_spec 1 M) as [_|L']; [|lia]; apply Ret_inj in E; subst pts.
  destruct (Forall2_in_l _ _ _ _ _ q F Hq) as (p' & Hp' & S').
  apply Np; rewrite (stands_unique q p _ S S'), opposite_opposite; exact Hp'.
Qed.
