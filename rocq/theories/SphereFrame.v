(** The elements of SO(3) and O(3) built from points of the sphere. *)
From Coq Require Import Reals ZArith Bool List Lia Lra.
From Verif Require Import LibRes LibMat LibMatS LibTrig ParamModel ParamProofs SpaceModel SphereModel SpecSpace SpecSphere
  SpaceProofs SphereProofs.
Import ListNotations.
Open Scope R_scope.

Lemma vdot_sphere : forall p, on_sphere p <-> vdot p p = 1.
Proof. intros p; unfold on_sphere, vdot; tauto. Qed.

Lemma columns_rotation : forall x c p, vdot x x = 1 -> vdot c c = 1 -> vdot p p = 1 ->
  vdot x c = 0 -> vdot x p = 0 -> vdot c p = 0 -> det (cols x c p) = 1 -> orthogonal3 1 (cols x c p).
Proof.
  intros x c p X C P XC XP CP D.
  assert (O : meq 3 3 (mmul 3 (mtr (cols x c p)) (cols x c p)) mid).
  { unfold vdot in *; intros i j Hi Hj; unfold mmul, mtr, mid; cbn [sumn].
    destruct i as [|[|[|i]]]; try lia; destruct j as [|[|[|j]]]; try lia; cbn; lra. }
  pose proof (rows_orthogonal 3 (mtr (cols x c p)) O) as [_ Q].
  split; [exact Q|split; [exact O|rewrite <- det_det3; exact D]].
Qed.

Section Frame.
Variables (p c : vec).
Hypotheses (P : vdot p p = 1) (C : vdot c c = 1) (PC : vdot c p = 0).

Lemma cross_unit : vdot (vcross p c) (vcross p c) = 1.
Proof using P C PC.
  transitivity (vdot p p * vdot c c - vdot c p * vdot c p).
  - unfold vdot, vcross; cbn [vx vy vz]; ring.
  - rewrite P, C, PC; ring.
Qed.

Lemma cross_c : vdot (vcross p c) c = 0.
Proof using. unfold vdot, vcross; cbn [vx vy vz]; ring. Qed.
Lemma cross_p : vdot (vcross p c) p = 0.
Proof using. unfold vdot, vcross; cbn [vx vy vz]; ring. Qed.

Lemma frame_det : det (cols (vcross p c) c p) = - 1.
Proof using P C PC.
  transitivity (- vdot (vcross p c) (vcross p c)); [|rewrite cross_unit; ring].
  unfold det, cols, vdot, vcross; cbn; ring.
Qed.
End Frame.

Lemma vdot_scal_l : forall s u v, vdot (vscal s u) v = s * vdot u v.
Proof. intros; unfold vdot, vscal; cbn [vx vy vz]; ring. Qed.
Lemma vdot_comm : forall u v, vdot u v = vdot v u.
Proof. intros; unfold vdot; ring. Qed.
Lemma vdot_pos : forall u, 0 <= vdot u u.
Proof.
  intros u; unfold vdot; pose proof (Rle_0_sqr (vx u)); pose proof (Rle_0_sqr (vy u)); pose proof (Rle_0_sqr (vz u)).
  unfold Rsqr in *; lra.
Qed.
Lemma vdot_zero : forall u, vdot u u = 0 -> u = Vec 0 0 0.
Proof.
  intros [x y z]; unfold vdot; cbn [vx vy vz]; intros H.
  destruct (sum_sq_0 x y z 0) as (X & Y & Z & _); [lra|]; subst; reflexivity.
Qed.
Lemma vnorm_zero : forall u, vnorm u = 0 <-> u = Vec 0 0 0.
Proof.
  intros u; split.
  - intros H; apply vdot_zero, sqrt_eq_0; [apply vdot_pos|exact H].
  - intros ->; unfold vnorm, vdot; cbn [vx vy vz]; replace (0 * 0 + 0 * 0 + 0 * 0) with 0 by ring; apply sqrt_0.
Qed.
Lemma vunit_Ret : forall u v, vunit u = Ret v -> vnorm u <> 0 /\ v = vscal (/ vnorm u) u /\ vdot v v = 1.
Proof.
  intros u v H; unfold vunit in H; destruct (Req_EM_T (vnorm u) 0) as [Z|Z]; [discriminate|].
  apply Ret_inj in H; subst v; split; [exact Z|split; [reflexivity|]].
  rewrite vdot_scal_l, vdot_comm, vdot_scal_l.
  replace (vdot u u) with (vnorm u * vnorm u) by (apply sqrt_sqrt, vdot_pos).
  field; exact Z.
Qed.
Lemma vunit_total : forall u, u <> Vec 0 0 0 -> exists v, vunit u = Ret v.
Proof.
  intros u H; unfold vunit; destruct (Req_EM_T (vnorm u) 0) as [Z|Z]; [|eauto].
  exfalso; apply H, vnorm_zero, Z.
Qed.

Lemma rejection : forall y p v, vdot p p = 1 -> vunit (vsub y (vscal (vdot y p) p)) = Ret v ->
  vdot v v = 1 /\ vdot v p = 0.
Proof.
  intros y p v P H; apply vunit_Ret in H as (_ & -> & H); split; [exact H|].
  rewrite vdot_scal_l; replace (vdot (vsub y (vscal (vdot y p) p)) p) with (vdot y p * (1 - vdot p p)).
  - rewrite P; ring.
  - unfold vdot, vsub, vscal; cbn [vx vy vz]; ring.
Qed.

(** ** SO(3) *)

Lemma isclose_refl : forall x, isclose x x = true.
Proof.
  intros x; unfold isclose, np_isclose; replace (x - x) with 0 by ring; rewrite Rabs_R0.
  apply Rleb_true; pose proof (Rabs_pos x).
  assert (0 < / 10 ^ 8) by (apply Rinv_0_lt_compat, pow_lt; lra).
  assert (0 < / 10 ^ 5) by (apply Rinv_0_lt_compat, pow_lt; lra).
  assert (0 <= / 10 ^ 5 * Rabs x) by (apply Rmult_le_pos; lra); lra.
Qed.

Lemma frame_ok : forall p y m, on_sphere p -> frame p y = Ret m ->
  det m = -1 /\ orthogonal3 1 (oriented m) /\ forall i, (i < 3)%nat -> oriented m i 2%nat = coord (opposite p) i.
Proof.
  intros p y m P H; apply vdot_sphere in P; unfold frame in H.
  apply bind_Ret in H as (c & Hc & H); apply Ret_inj in H; subst m.
  destruct (rejection _ _ _ P Hc) as [C PC].
  pose proof (frame_det p c P C PC) as D.
  assert (E : forall i j, (i < 3)%nat -> (j < 3)%nat ->
     oriented (cols (vcross p c) c p) i j = cols (vcross p c) c (opposite p) i j).
  { intros i j Hi Hj; unfold oriented; rewrite D.
    destruct i as [|[|[|i]]]; try lia; destruct j as [|[|[|j]]]; try lia; cbn; ring. }
  split; [exact D|split].
  - assert (O : orthogonal3 1 (cols (vcross p c) c (opposite p))).
    { apply columns_rotation.
      - apply cross_unit; assumption.
      - exact C.
      - rewrite <- P; unfold vdot, opposite; cbn [vx vy vz]; ring.
      - apply cross_c.
      - transitivity (- vdot (vcross p c) p); [unfold vdot, opposite; cbn [vx vy vz]; ring|rewrite cross_p; ring].
      - transitivity (- vdot c p); [unfold vdot, opposite; cbn [vx vy vz]; ring|rewrite PC; ring].
      - transitivity (- det (cols (vcross p c) c p)); [unfold det, cols, opposite; cbn; ring|rewrite D; ring]. }
    destruct O as (O1 & O2 & O3); split; [|split].
    + intros i j Hi Hj; rewrite <- (O1 i j Hi Hj); unfold mmul, mtr; cbn [sumn]; rewrite !E by lia; reflexivity.
    + intros i j Hi Hj; rewrite <- (O2 i j Hi Hj); unfold mmul, mtr; cbn [sumn]; rewrite !E by lia; reflexivity.
    + rewrite <- O3; unfold det3, dot, cross; cbn [sumn]; rewrite !E by lia; reflexivity.
  - intros i Hi; rewrite E by lia; destruct i as [|[|[|i]]]; try lia; reflexivity.
Qed.

Lemma frame_total : forall p y, on_sphere p -> ~ parallel_to p y -> exists m, frame p y = Ret m.
Proof.
  intros p y P N; apply vdot_sphere in P; unfold frame.
  destruct (vunit_total (vsub (vsub y p) (vscal (vdot (vsub y p) p) p))) as [c ->]; [|cbn [bind]; eauto].
  intros E; apply N; exists (vdot (vsub y p) p + 1).
  set (s := vdot (vsub y p) p) in *; clearbody s.
  destruct p as [a b c], y as [a' b' c']; unfold vsub, vscal in E; cbn [vx vy vz] in *.
  injection E as E1 E2 E3; f_equal; lra.
Qed.

Lemma stands_matrix : forall q m p, unit q -> meq 3 3 (as_matrix q) m ->
  (forall i, (i < 3)%nat -> m i 2%nat = coord p i) -> stands_for q p.
Proof.
  intros q m p U E H; split; [exact U|]; intros i Hi.
  rewrite <- (mat_rotates q (coord pole) i U Hi), <- (H i Hi), <- (E i 2%nat Hi ltac:(lia)).
  unfold mvec; cbn [sumn coord pole vx vy vz]; ring.
Qed.

Lemma element_mat : forall m, orthogonal3 1 m -> so3_element_mat m = Ret (from_matrix m).
Proof.
  intros m O; unfold so3_element_mat; rewrite det_det3; destruct O as (_ & _ & ->).
  rewrite isclose_refl; reflexivity.
Qed.

Lemma mapM_Forall2 : forall A B (f : A -> res B) (R : A -> B -> Prop) l,
  Forall (fun a => exists b, f a = Ret b /\ R a b) l -> exists l', mapM f l = Ret l' /\ Forall2 R l l'.
Proof.
  intros A B f R l H; induction H as [|a l (b & E & Rab) H (l' & E' & F)]; [exists []; split; [reflexivity|constructor]|].
  exists (b :: l'); split; [cbn; rewrite E; cbn [bind]; rewrite E'; reflexivity|constructor; assumption].
Qed.

Lemma so3_from_points : forall t adj noise pts,
  sphere_points t (as_matrix adj) = Ret pts -> Forall on_sphere pts ->
  (forall l, so3_sphere_grid t adj noise = Ret l -> Forall2 (fun q p => stands_for q (opposite p)) l pts) /\
  (Forall2 (fun p y => ~ parallel_to p y) pts noise -> exists l, so3_sphere_grid t adj noise = Ret l).
Proof.
  intros t adj noise pts E S; unfold so3_sphere_grid; rewrite E; cbn [bind].
  split.
  - intros l H; apply assert_Ret in H as (L & H); apply Nat.eqb_eq in L.
    apply bind_Ret in H as (fs & Hf & H); apply assert_Ret in H as (_ & H).
    clear E; revert noise L fs Hf l H; induction S as [|p pts P S IH]; intros noise L fs Hf l H.
    + cbn in Hf; apply Ret_inj in Hf; subst fs; cbn in H; apply Ret_inj in H; subst l; constructor.
    + destruct noise as [|y noise]; [discriminate|]; cbn [List.combine mapM] in Hf.
      apply bind_Ret in Hf as (m & Hm & Hf); apply bind_Ret in Hf as (ms & Hms & Hf).
      apply Ret_inj in Hf; subst fs; cbn [map mapM] in H.
      destruct (frame_ok p y m P Hm) as (_ & O & C).
      rewrite (element_mat _ O) in H; cbn [bind] in H; apply bind_Ret in H as (qs & Hq & H).
      apply Ret_inj in H; subst l; constructor.
      * destruct (from_matrix_ok _ O) as [U M]; exact (stands_matrix _ _ _ U M C).
      * exact (IH noise ltac:(cbn in L; lia) ms Hms qs Hq).
  - intros N.
    assert (L : length noise = length pts) by (clear - N; induction N; cbn; congruence).
    rewrite L, Nat.eqb_refl; cbn [assert_ bind].
    assert (M : exists fs, mapM (fun '(p, y) => frame p y) (List.combine pts noise) = Ret fs /\
       Forall (fun m => det m = -1 /\ orthogonal3 1 (oriented m)) fs).
    { clear E L; induction N as [|p y pts noise Np N IH]; [exists []; split; [reflexivity|constructor]|].
      inversion S as [|? ? P S' X]; subst; destruct (IH S') as (fs & Ef & Ff).
      destruct (frame_total p y P Np) as [m Hm]; exists (m :: fs); split.
      - cbn [List.combine mapM]; rewrite Hm; cbn [bind]; rewrite Ef; reflexivity.
      - destruct (frame_ok p y m P Hm) as (D & O & _); constructor; [split; assumption|exact Ff]. }
    destruct M as (fs & -> & F); cbn [bind].
    replace (forallb (fun m => isclose (Rabs (det m)) 1) fs) with true.
    + cbn [assert_ bind].
      destruct (mapM_Forall2 _ _ so3_element_mat (fun _ _ => True) (map oriented fs)) as (l & El & _); [|exists l; exact El].
      apply Forall_map; eapply Forall_impl; [|exact F]; intros m (_ & O); exists (from_matrix (oriented m)).
      split; [apply element_mat, O|exact I].
    + symmetry; apply forallb_forall; intros m Hm; rewrite Forall_forall in F; destruct (F m Hm) as (-> & _).
      replace (Rabs (-1)) with 1 by (unfold Rabs; destruct (Rcase_abs (-1)); lra); apply isclose_refl.
Qed.

(** ** O(3) *)

Lemma atan2_scale : forall c y x, 0 < c -> atan2 (c * y) (c * x) = atan2 y x.
Proof.
  intros c y x P; unfold atan2.
  assert (Q : x <> 0 -> c * y / (c * x) = y / x) by (intros; field; split; lra).
  assert (PX : 0 < x -> 0 < c * x) by (intros; apply Rmult_lt_0_compat; lra).
  assert (PX' : x < 0 -> c * x < 0) by (intros; replace 0 with (c * 0) by ring; apply Rmult_lt_compat_l; lra).
  assert (PY : 0 < y -> 0 < c * y) by (intros; apply Rmult_lt_0_compat; lra).
  assert (PY' : y < 0 -> c * y < 0) by (intros; replace 0 with (c * 0) by ring; apply Rmult_lt_compat_l; lra).
  destruct (Rtotal_order x 0) as [X|[->|X]].
  - specialize (PX' X); rewrite Q by lra.
    destruct (Rtotal_order y 0) as [Y|[->|Y]]; [specialize (PY' Y)| |specialize (PY Y)];
      repeat match goal with |- context [if ?d then _ else _] => destruct d; try lra end.
  - rewrite !Rmult_0_r.
    destruct (Rtotal_order y 0) as [Y|[->|Y]]; [specialize (PY' Y)| |specialize (PY Y)];
      repeat match goal with |- context [if ?d then _ else _] => destruct d; try lra end.
  - specialize (PX X); rewrite Q by lra.
    destruct (Rlt_dec 0 (c * x)), (Rlt_dec 0 x); try lra.
Qed.

Lemma o3_point : forall p, on_sphere p ->
  stands_for (from_euler_zyz 0 (acos (clip (vz p))) (atan2 (vy p) (vx p))) p.
Proof.
  intros [x y z] P; unfold on_sphere in P; cbn [vx vy vz] in *.
  assert (Z : -1 <= z <= 1).
  { pose proof (Rle_0_sqr x); pose proof (Rle_0_sqr y); unfold Rsqr in *.
    assert (z * z <= 1) by lra; split.
    - destruct (Rle_dec (-1) z) as [L|L]; [exact L|exfalso].
      assert (0 < (-1 - z) * (1 - z)) by (apply Rmult_lt_0_compat; lra); lra.
    - destruct (Rle_dec z 1) as [L|L]; [exact L|exfalso].
      assert (0 < (z - 1) * (z + 1)) by (apply Rmult_lt_0_compat; lra); lra. }
  unfold clip; rewrite (Rmax_right (-1) z) by lra; rewrite (Rmin_right 1 z) by lra.
  set (th := acos z); set (ph := atan2 y x).
  assert (CT : cos th = z) by (apply cos_acos; lra).
  assert (ST : sin th = sqrt (1 - z * z)) by (unfold th; rewrite sin_acos by lra; unfold Rsqr; reflexivity).
  assert (XY : sin th * cos ph = x /\ sin th * sin ph = y).
  { set (r := sqrt (1 - z * z)) in *.
    assert (R2 : r * r = 1 - z * z).
    { apply sqrt_sqrt; pose proof (Rle_0_sqr x); pose proof (Rle_0_sqr y); unfold Rsqr in *; lra. }
    rewrite ST; destruct (Req_dec r 0) as [R0|R0].
    - rewrite R0 in *; destruct (sum_sq_0 x y 0 0) as (X & Y & _); [lra|]; rewrite X, Y; split; ring.
    - assert (RP : 0 < r) by (pose proof (sqrt_pos (1 - z * z)); unfold r in *; lra).
      assert (U : y / r * (y / r) + x / r * (x / r) = 1).
      { replace (y / r * (y / r) + x / r * (x / r)) with ((x * x + y * y) / (r * r)) by (field; exact R0).
        replace (x * x + y * y) with (r * r) by lra; field; exact R0. }
      assert (E : ph = atan2 (y / r) (x / r)).
      { rewrite <- (atan2_scale r (y / r) (x / r) RP); unfold ph; f_equal; field; exact R0. }
      destruct (atan2_sc _ _ U) as [S C]; rewrite <- E in S, C; rewrite S, C; split; field; exact R0. }
  destruct XY as [X Y]; clearbody th ph.
  assert (Uq : unit (from_euler_zyz 0 th ph)).
  { apply unit_mul; [|apply unit_mul].
    - unfold unit, around_z; cbn [qx qy qz qw]; pose proof (sin2cos2 (ph / 2)); lra.
    - unfold unit, around_y; cbn [qx qy qz qw]; pose proof (sin2cos2 (th / 2)); lra.
    - unfold unit, around_z; cbn [qx qy qz qw]; pose proof (sin2cos2 (0 / 2)); lra. }
  apply (stands_matrix _ _ _ Uq (meq_refl3 _)); intros i Hi.
  replace (from_euler_zyz 0 th ph) with
    (Quat (- (sin (ph / 2) * sin (th / 2))) (cos (ph / 2) * sin (th / 2))
          (sin (ph / 2) * cos (th / 2)) (cos (ph / 2) * cos (th / 2))).
  - destruct (half_angle th) as [CT' ST'], (half_angle ph) as [CP' SP'].
    pose proof (sin2cos2 (ph / 2)) as S1; pose proof (sin2cos2 (th / 2)) as S2.
    rewrite <- CT, CT' in *; rewrite <- X, <- Y, ST', CP', SP'.
    set (s := sin (ph / 2)) in *; set (c := cos (ph / 2)) in *; set (u := sin (th / 2)) in *; set (v := cos (th / 2)) in *.
    destruct i as [|[|[|i]]]; try lia; cbn [as_matrix mat3 qx qy qz qw coord vx vy vz]; try ring.
    transitivity ((s * s + c * c) * (v * v - u * u)); [ring|rewrite S1; ring].
  - unfold from_euler_zyz, around_z, around_y, qmul; cbn [qx qy qz qw].
    replace (0 / 2) with 0 by field; rewrite sin_0, cos_0; f_equal; ring.
Qed.

Lemma o3_from_points : forall t adj pts,
  sphere_points t (omat adj) = Ret pts -> Forall on_sphere pts ->
  exists l, o3_sphere_grid t adj = Ret l /\ Forall2 (fun e p => fst e = 0%Z /\ stands_for (snd e) p) l pts.
Proof.
  intros t adj pts E S; unfold o3_sphere_grid; unfold omat in E; rewrite E; cbn [bind].
  destruct (mapM_Forall2 _ _ (fun p => o3_element (0%Z, from_euler_zyz 0 (acos (clip (vz p))) (atan2 (vy p) (vx p))))
     (fun p e => fst e = 0%Z /\ stands_for (snd e) p) pts) as (l & El & F).
  - eapply Forall_impl; [|exact S]; intros p P; pose proof (o3_point p P) as Q.
    exists (0%Z, from_euler_zyz 0 (acos (clip (vz p))) (atan2 (vy p) (vx p))); split; [|split; [reflexivity|exact Q]].
    unfold o3_element; cbn [fst snd]; rewrite (is_element_unit _ (proj1 Q)); reflexivity.
  - exists l; split; [exact El|]; clear - F; induction F; constructor; assumption.
Qed.

(** ** A rotation taking the pole to a point *)

Lemma pole2point_ok : forall point, point <> Vec 0 0 0 ->
  exists m, find_rotation_pole2point point = Ret m /\ orthogonal3 1 m /\
    exists s, 0 < s /\ moved_by m pole (Vec (s * vx point) (s * vy point) (s * vz point)).
Proof.
  intros point N; unfold find_rotation_pole2point.
  destruct (vunit_total point N) as [p Hp]; rewrite Hp; cbn [bind].
  destruct (vunit_Ret _ _ Hp) as (N0 & Ep & P).
  set (y := if isclose (Rabs (vdot (Vec 0 0 1) p)) 1 then Vec 1 0 0 else Vec 0 0 1).
  assert (W : vsub y (vscal (vdot y p) p) <> Vec 0 0 0).
  { intros E; clear Ep N Hp.
    unfold vsub, vscal in E; injection E as E1 E2 E3.
    unfold y in *; clear y; destruct p as [a b c]; unfold vdot in *; cbn [vx vy vz] in *.
    destruct (isclose (Rabs (0 * a + 0 * b + 1 * c)) 1) eqn:Q; cbn [vx vy vz] in *.
    - assert (A : a * a = 1) by lra.
      assert (C : c * c = 0) by (pose proof (Rle_0_sqr b); pose proof (Rle_0_sqr c); unfold Rsqr in *; lra).
      apply Rsqr_0_uniq in C; subst c; unfold isclose, np_isclose in Q; apply Rleb_true in Q.
      replace (0 * a + 0 * b + 1 * 0) with 0 in Q by ring; rewrite Rabs_R0, Rabs_R1 in Q.
      replace (Rabs (0 - 1)) with 1 in Q by (unfold Rabs; destruct (Rcase_abs (0 - 1)); lra); lra.
    - assert (C : c * c = 1) by lra.
      assert (A : Rabs (0 * a + 0 * b + 1 * c) = 1).
      { replace (0 * a + 0 * b + 1 * c) with c by ring; apply sq_1 in C as [->| ->]; unfold Rabs;
          [destruct (Rcase_abs 1)|destruct (Rcase_abs (-1))]; lra. }
      rewrite A, isclose_refl in Q; discriminate. }
  destruct (vunit_total _ W) as [c Hc]; rewrite Hc; cbn [bind].
  destruct (rejection _ _ _ P Hc) as [C PC].
  pose proof (frame_det p c P C PC) as D; rewrite D.
  assert (O : orthogonal3 1 (cols (vscal (-1) (vcross p c)) c p)).
  { apply columns_rotation; try assumption.
    - rewrite vdot_scal_l, vdot_comm, vdot_scal_l, cross_unit by assumption; ring.
    - rewrite vdot_scal_l, cross_c; ring.
    - rewrite vdot_scal_l, cross_p; ring.
    - transitivity (- det (cols (vcross p c) c p)); [unfold det, cols, vscal; cbn; ring|rewrite D; ring]. }
  rewrite det_det3; pose proof O as (_ & _ & ->); rewrite isclose_refl; cbn [assert_ bind].
  eexists; split; [reflexivity|split; [exact O|]].
  exists (/ vnorm point); split.
  - apply Rinv_0_lt_compat; pose proof (sqrt_pos (vdot point point)); unfold vnorm in *; lra.
  - rewrite Ep; intros i Hi; unfold mvec; cbn [sumn].
    destruct i as [|[|[|i]]]; try lia; cbn; ring.
Qed.
