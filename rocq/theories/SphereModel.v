(** Model of the grids of points on the sphere and of the elements of SO(3) and
    O(3) standing for them.
    Sources: /repo/escnn/group/groups/so3_utils.py, so3group.py, o3group.py.

    Points are triples of exact reals, arrays of points are lists.  The grids
    'ico', 'cube', 'tetra', 'cube_vertices' (orbits of the polyhedral groups)
    and 'thomson', 'thomson_cube' (numerical optimisation) are not modelled; the
    functions below that turn points into elements take any list of points.
    The draws of np.random.randn are parameters.  A division by zero, which
    numpy turns into nan or inf, is [Raise]: the assertions on determinants
    and the check of the new element reject such entries.  scipy's
    `Rotation.from_matrix` is the branch for orthogonal input. *)
From Coq Require Import Reals ZArith Bool List.
From Verif Require Import LibRes LibMat LibTrig ParamModel SpaceModel.
Import ListNotations.
Open Scope R_scope.

(** A numpy array of shape (3,). *)
Record vec := Vec { vx : R; vy : R; vz : R }.

Definition vdot (u v : vec) : R := vx u * vx v + vy u * vy v + vz u * vz v.
Definition vscal (c : R) (u : vec) : vec := Vec (c * vx u) (c * vy u) (c * vz u).
Definition vsub (u v : vec) : vec := Vec (vx u - vx v) (vy u - vy v) (vz u - vz v).
(** np.cross *)
Definition vcross (u v : vec) : vec :=
  Vec (vy u * vz v - vz u * vy v) (vz u * vx v - vx u * vz v) (vx u * vy v - vy u * vx v).
(** np.linalg.norm *)
Definition vnorm (u : vec) : R := sqrt (vdot u u).
(** u / np.linalg.norm(u) *)
Definition vunit (u : vec) : res vec :=
  if Req_EM_T (vnorm u) 0 then Raise else Ret (vscal (/ vnorm u) u).

(** The array with the given columns. *)
Definition cols (a b c : vec) : mat :=
  mat3 (vx a) (vx b) (vx c) (vy a) (vy b) (vy c) (vz a) (vz b) (vz c).
(** np.linalg.det *)
Definition det (m : mat) : R :=
  m 0%nat 0%nat * (m 1%nat 1%nat * m 2%nat 2%nat - m 1%nat 2%nat * m 2%nat 1%nat)
  - m 0%nat 1%nat * (m 1%nat 0%nat * m 2%nat 2%nat - m 1%nat 2%nat * m 2%nat 0%nat)
  + m 0%nat 2%nat * (m 1%nat 0%nat * m 2%nat 1%nat - m 1%nat 1%nat * m 2%nat 0%nat).
(** adj @ p *)
Definition vmap (m : mat) (p : vec) : vec :=
  let row i := m i 0%nat * vx p + m i 1%nat * vy p + m i 2%nat * vz p in
  Vec (row 0%nat) (row 1%nat) (row 2%nat).

(** np.isclose with the default tolerances *)
Definition isclose (a b : R) : bool := np_isclose (/ 10 ^ 8) a b.

(** ** Grids *)

(** np.stack: refuses an empty list *)
Definition stack (l : list vec) : res (list vec) := match l with [] => Raise | _ => Ret l end.

(** range(a, b) *)
Definition range (a b : Z) : list Z := map (fun k => (a + Z.of_nat k)%Z) (seq 0 (Z.to_nat (b - a))).

(** _random_sphere_samples so3_utils.py:281-286; [draws] is rng.randn(n, 3) *)
Definition random_samples (draws : list vec) : res (list vec) :=
  assert (negb (Nat.eqb (length draws) 0)) ;; mapM vunit draws.

(** [np.cos(phi) * sin_theta, np.sin(phi) * sin_theta, cos_theta] so3_utils.py:298-302, 311-315 *)
Definition at_angles (cos_theta phi : R) : vec :=
  let sin_theta := sqrt (1 - cos_theta ^ 2) in
  Vec (cos phi * sin_theta) (sin phi * sin_theta) cos_theta.

(** north polar cap so3_utils.py:293-302 *)
Definition north_cap (N : Z) : list vec :=
  flat_map (fun i => map (fun j =>
      at_angles (1 - IZR i ^ 2 / (3 * IZR N ^ 2)) (PI / (2 * IZR i) * (IZR j - / 2)))
    (range 1 (4 * i + 1))) (range 1 N).

(** north equatorial belt so3_utils.py:304-315 *)
Definition north_belt (N : Z) : list vec :=
  flat_map (fun i => map (fun j =>
      let s := ((i - N + 1) mod 2)%Z in
      at_angles (4 / 3 - 2 * IZR i / (3 * IZR N)) (PI / (2 * IZR N) * (IZR j - IZR s / 2)))
    (range 1 (4 * N + 1))) (range N (2 * N + 1)).

(** sp[2] *= -1 so3_utils.py:321-322 *)
Definition mirrored (p : vec) : vec := Vec (vx p) (vy p) (vz p * -1).

(** _spherical_healpix_grid so3_utils.py:289-331 *)
Definition healpix (N : Z) : res (list vec) :=
  let north := north_cap N ++ north_belt N in
  let south := map mirrored (filter (fun p => if Rlt_dec 0 (vz p) then true else false) north) in
  let points := south ++ north in
  assert (Z.of_nat (length points) =? 12 * N ^ 2)%Z ;; stack points.

(** _fibonacci_sphere_samples so3_utils.py:378-396; N = 1 divides 0 by 0 *)
Definition fibonacci (N : Z) : res (list vec) :=
  if (N =? 1)%Z then Raise else
  Ret (map (fun i =>
      let phi := PI * (3 - sqrt 5) in
      let y := 1 - 2 * (IZR i / (IZR N - 1)) in
      let radius := sqrt (1 - y ^ 2) in
      let theta := phi * IZR i in
      Vec (cos theta * radius) y (sin theta * radius)) (range 0 N)).

(** one pass of the loop over latitudes so3_utils.py:405-427 *)
Definition parallel (N M la : Z) : list vec :=
  if (la =? 0)%Z then [Vec 0 0 1]
  else if (la =? M - 1)%Z then [Vec 0 0 (-1)]
  else let theta := IZR la * PI / (IZR M - 1) in
       let z := cos theta in
       let r := sqrt (1 - z ^ 2) in
       map (fun lo => let phi := IZR lo * 2 * PI / IZR N in
                      Vec (cos phi * r) (sin phi * r) z) (range 0 N).

(** _longlat_sphere_grid so3_utils.py:399-431 *)
Definition longlat (N M : Z) : res (list vec) :=
  assert (1 <? M)%Z ;; stack (flat_map (parallel N M) (range 0 M)).

(** The first argument of sphere_grid with the arguments of each grid. *)
Inductive gtype := Rand (draws : list vec) | Healpix (N : Z) | Fibonacci (N : Z) | Longlat (N M : Z).

(** _sphere_grid so3_utils.py:434-465; [adj] is never None, so3group.py:248-250 *)
Definition sphere_points (t : gtype) (adj : mat) : res (list vec) :=
  l <- match t with
       | Rand draws => random_samples draws
       | Healpix N => healpix N
       | Fibonacci N => fibonacci N
       | Longlat N M => longlat N M
       end ;;
  assert (isclose (Rabs (det adj)) 1) ;; Ret (map (vmap adj) l).

(** ** Elements *)

(** Rotation.from_matrix of scipy: the largest of the diagonal and the trace
    (the first of equal ones, np.argmax) decides which component is divided by *)
Definition from_matrix (m : mat) : quat :=
  let t := m 0%nat 0%nat + m 1%nat 1%nat + m 2%nat 2%nat in
  let by_axis i j k :=
    (1 - t + 2 * m i i, m j i + m i j, m k i + m i k, m k j - m j k) in
  let le x y := if Rle_dec x y then true else false in
  let a := m 0%nat 0%nat in let e := m 1%nat 1%nat in let k := m 2%nat 2%nat in
  let q :=
    if le e a && le k a && le t a then
      let '(p, q, r, w) := by_axis 0%nat 1%nat 2%nat in Quat p q r w
    else if le k e && le t e then
      let '(p, q, r, w) := by_axis 1%nat 2%nat 0%nat in Quat r p q w
    else if le t k then
      let '(p, q, r, w) := by_axis 2%nat 0%nat 1%nat in Quat q r p w
    else Quat (m 2%nat 1%nat - m 1%nat 2%nat) (m 0%nat 2%nat - m 2%nat 0%nat)
              (m 1%nat 0%nat - m 0%nat 1%nat) (1 + t) in
  qscal (/ qnorm q) q.

(** SO3.element(m, param='MAT'): _check_param, then _change_param to 'Q',
    so3_utils.py:78-83, 106-122, group.py:985-1002 *)
Definition so3_element_mat (m : mat) : res quat :=
  assert (isclose (det m) 1) ;; Ret (from_matrix m).

(** The columns of elements[i], so3group.py:255-260; [noise] is the i-th row of
    np.random.randn(len(points), 3) *)
Definition frame (p noise : vec) : res mat :=
  let y := vsub noise p in
  c1 <- vunit (vsub y (vscal (vdot y p) p)) ;;
  Ret (cols (vcross p c1) c1 p).

(** det[i], so3group.py:261-262, and elements[i, :, 2] *= det[i], so3group.py:263 *)
Definition oriented (m : mat) : mat :=
  fun i j => if Nat.eqb j 2 then m i j * det m else m i j.

(** SO3.sphere_grid so3group.py:248-267; [adj] is an element in 'Q' *)
Definition so3_sphere_grid (t : gtype) (adj : quat) (noise : list vec) : res (list quat) :=
  points <- sphere_points t (as_matrix adj) ;;
  assert (Nat.eqb (length noise) (length points)) ;;
  frames <- mapM (fun '(p, y) => frame p y) (List.combine points noise) ;;
  assert (forallb (fun m => isclose (Rabs (det m)) 1) frames) ;;
  mapM so3_element_mat (map oriented frames).

(** the rotation by [t] around the axis of a letter of the Euler sequence *)
Definition around_y (t : R) : quat := Quat 0 (sin (t / 2)) 0 (cos (t / 2)).
Definition around_z (t : R) : quat := Quat 0 0 (sin (t / 2)) (cos (t / 2)).

(** Rotation.from_euler('zyz', [a, b, c]): rotations about fixed axes, the first
    one applied first *)
Definition from_euler_zyz (a b c : R) : quat := qmul (around_z c) (qmul (around_y b) (around_z a)).

(** np.clip(z, -1., 1.) *)
Definition clip (z : R) : R := Rmin 1 (Rmax (-1) z).

(** O3.sphere_grid o3group.py:375-387; [adj] is the matrix of an element, [omat] *)
Definition o3_sphere_grid (t : gtype) (adj : oval) : res (list oval) :=
  points <- sphere_points t (mscal (if (fst adj =? 0)%Z then 1 else -1) (as_matrix (snd adj))) ;;
  mapM (fun p =>
      let theta := acos (clip (vz p)) in
      let phi := atan2 (vy p) (vx p) in
      o3_element (0%Z, from_euler_zyz 0 theta phi)) points.

(** find_rotation_pole2point so3_utils.py:249-273 *)
Definition find_rotation_pole2point (point : vec) : res mat :=
  p <- vunit point ;;
  let y := Vec 0 0 1 in
  let y := if isclose (Rabs (vdot y p)) 1 then Vec 1 0 0 else y in
  c1 <- vunit (vsub y (vscal (vdot y p) p)) ;;
  let c0 := vcross p c1 in
  let rot := cols (vscal (det (cols c0 c1 p)) c0) c1 p in
  assert (isclose (det rot) 1) ;; Ret rot.
