(** Grids of points on the sphere and the elements standing for them. *)
From Coq Require Import Reals ZArith List.
From Verif Require Import LibRes LibMat SpaceModel SphereModel SpecSpace SpecSphere SphereProofs SphereFrame SphereHealpix
  SphereThms SphereEx.
Import ListNotations.
Open Scope R_scope.

(** C87: the HEALPix grid of N has 12 N^2 different points on the sphere, mapped
    to each other by quarter turns, by the reflection in the equator and by the
    inversion; the assertion on their number never fails. *)
Theorem C87_healpix : forall N : Z,
  (0 < N)%Z ->
  exists l : list vec,
  healpix N = Ret l /\ Z.of_nat (length l) = (12 * N ^ 2)%Z /\ NoDup l /\ Forall on_sphere l /\ closed_under (turned (PI / 2)) l /\ closed_under across l /\ closed_under opposite l.
Proof. exact @healpix_ok. Qed.
Print Assumptions C87_healpix.

(** The grid of N meridians and M parallels. *)
Theorem C87_longlat : forall N M : Z,
  (0 < N)%Z ->
  (1 < M)%Z ->
  exists l : list vec,
  longlat N M = Ret l /\
  Z.of_nat (length l) = (2 + N * (M - 2))%Z /\
  NoDup l /\ Forall on_sphere l /\ closed_under (turned (2 * PI / IZR N)) l /\ closed_under across l /\ (Z.Even N -> closed_under opposite l).
Proof. exact @longlat_ok. Qed.
Print Assumptions C87_longlat.

(** The Fibonacci grid. *)
Theorem C87_fibonacci : forall N : Z,
  (1 < N)%Z ->
  exists l : list vec,
  fibonacci N = Ret l /\
  Z.of_nat (length l) = N /\ NoDup l /\ Forall on_sphere l /\ hd_error l = Some {| vx := 0; vy := 1; vz := 0 |} /\ hd_error (rev l) = Some {| vx := 0; vy := -1; vz := 0 |}.
Proof. exact @fibonacci_ok. Qed.
Print Assumptions C87_fibonacci.

(** Random samples are the draws, pushed onto the sphere. *)
Theorem C87_random : forall draws : list vec,
  draws <> [] ->
  Forall (fun y : vec => y <> {| vx := 0; vy := 0; vz := 0 |}) draws ->
  exists l : list vec,
  random_samples draws = Ret l /\ Forall2 (fun y p : vec => on_sphere p /\ (exists s : R, 0 < s /\ p = {| vx := s * vx y; vy := s * vy y; vz := s * vz y |})) draws l.
Proof. exact @random_ok. Qed.
Print Assumptions C87_random.

(** [adj] moves every point of the grid and keeps it on the sphere. *)
Theorem C87_moved : forall (t : gtype) (m : mat) (d : R),
  proper t ->
  orthogonal3 d m ->
  Rabs d = 1 -> exists l pts : list vec, sphere_points t mid = Ret l /\ sphere_points t m = Ret pts /\ Forall2 (moved_by m) l pts /\ Forall on_sphere l /\ Forall on_sphere pts.
Proof. exact @moved_grid. Qed.
Print Assumptions C87_moved.

(** A rotation matrix becomes a quaternion with that matrix. *)
Theorem C87_quaternion : forall m : mat, orthogonal3 1 m -> unit (from_matrix m) /\ meq 3 3 (as_matrix (from_matrix m)) m.
Proof. exact @from_matrix_ok. Qed.
Print Assumptions C87_quaternion.

(** O3.sphere_grid returns, in order, rotations taking the pole to the points of the grid. *)
Theorem C87_o3 : forall (t : gtype) (adj : oval),
  proper t ->
  ounit adj ->
  exists (pts : list vec) (l : list oval),
  sphere_points t (omat adj) = Ret pts /\ o3_sphere_grid t adj = Ret l /\ Forall2 (fun (e : Z * quat) (p : vec) => fst e = 0%Z /\ stands_for (snd e) p) l pts.
Proof. exact @o3_grid_ok. Qed.
Print Assumptions C87_o3.

(** SO3.sphere_grid returns rotations as long as no draw lies on the line through
    its point; they take the pole to the points opposite to those of the grid. *)
Theorem C87_so3_opposite : forall (t : gtype) (adj : quat) (noise : list vec),
  proper t ->
  unit adj ->
  exists pts : list vec,
  sphere_points t (as_matrix adj) = Ret pts /\
  (forall l : list quat, so3_sphere_grid t adj noise = Ret l -> Forall2 (fun (q : quat) (p : vec) => stands_for q (opposite p)) l pts) /\
  (Forall2 (fun p y : vec => ~ parallel_to p y) pts noise -> exists l : list quat, so3_sphere_grid t adj noise = Ret l).
Proof. exact @so3_grid_ok. Qed.
Print Assumptions C87_so3_opposite.

(** On grids with inversion symmetry the two sets of points are the same. *)
Theorem C87_so3_inversion : forall (t : gtype) (adj : quat) (noise pts : list vec) (l : list quat),
  proper t ->
  unit adj ->
  sphere_points t (as_matrix adj) = Ret pts ->
  closed_under opposite pts ->
  so3_sphere_grid t adj noise = Ret l ->
  (forall q : quat, In q l -> exists p : vec, In p pts /\ stands_for q p) /\ (forall p : vec, In p pts -> exists q : quat, In q l /\ stands_for q p).
Proof. exact @so3_grid_opposite. Qed.
Print Assumptions C87_so3_inversion.

(** On others they are not: the elements do not represent the grid. *)
Theorem C87_so3_refuted : forall N M : Z,
  (0 < N)%Z ->
  Z.Odd N ->
  (2 < M)%Z ->
  (exists (noise : list vec) (l : list quat), so3_sphere_grid (Longlat N M) so3_id noise = Ret l) /\
  (exists (pts : list vec) (p : vec),
  longlat N M = Ret pts /\ In p pts /\ (forall (noise : list vec) (l : list quat) (q : quat), so3_sphere_grid (Longlat N M) so3_id noise = Ret l -> In q l -> ~ stands_for q p)).
Proof. exact @so3_grid_wrong. Qed.
Print Assumptions C87_so3_refuted.

(** find_rotation_pole2point takes the pole towards any point but the origin. *)
Theorem C87_pole2point : forall point : vec,
  point <> {| vx := 0; vy := 0; vz := 0 |} ->
  exists m : mat, find_rotation_pole2point point = Ret m /\ orthogonal3 1 m /\ (exists s : R, 0 < s /\ moved_by m pole {| vx := s * vx point; vy := s * vy point; vz := s * vz point |}).
Proof. exact @pole2point_ok. Qed.
Print Assumptions C87_pole2point.

(** A grid of three points. *)
Example C87_ex :
  longlat 1 3 = Ret [Vec 0 0 1; Vec 1 0 0; Vec 0 0 (-1)] /\
  (exists noise l, so3_sphere_grid (Longlat 1 3) so3_id noise = Ret l) /\
  forall noise l, so3_sphere_grid (Longlat 1 3) so3_id noise = Ret l ->
    exists a b c, l = [a; b; c] /\ stands_for a (Vec 0 0 (-1)) /\ stands_for b (Vec (-1) 0 0) /\ stands_for c (Vec 0 0 1).
Proof. exact small_grid. Qed.

Example C87_ex_matrix : orthogonal3 1 (mat3 1 0 0 0 (-1) 0 0 0 (-1)) /\
  from_matrix (mat3 1 0 0 0 (-1) 0 0 0 (-1)) = Quat 1 0 0 0.
Proof. exact half_turn. Qed.

Example C87_ex_proper : proper (Healpix 2) /\ proper (Fibonacci 10) /\ proper (Longlat 4 5) /\ fibonacci 1 = Raise.
Proof. repeat split. Qed.
