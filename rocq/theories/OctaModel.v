(** Model of the octahedral group: its elements, its subgroups, and the two maps
    of each of them.
    Sources: /repo/escnn/group/groups/octa.py, utils.py, so3_utils.py,
             /repo/escnn/group/group.py.

    Elements are stored as quaternions ('Q').  scipy's `create_group('O')`, which
    so3_utils._grid('cube') calls (so3_utils.py:561-568), is not part of the
    repository: [octa_elements] is the list it returns, in its order.  The
    asserts at octa.py:561-568 and 599-606 are about an axis that is always one of
    the two constants of _subgroup and about an order that is always 2, 3 or 4;
    they hold and are left out.  Numbers are exact reals. *)
From Coq Require Import Reals ZArith Bool List.
From Verif Require Import LibRes LibMat LibTrig FinGroupModel ParamModel PlanarModel SpaceModel.
Import ListNotations.
Open Scope R_scope.

(** np.isclose(x, y, atol=ATOL, rtol=RTOL) with the constants of octa.py:137-138 *)
Definition octa_close (x y : R) : bool := np_isclose (/ 10 ^ 7) x y.

(** Octahedral._is_element octa.py:132-160 *)
Definition octa_is_element (q : quat) : bool :=
  match to_rot q with
  | Raise => false
  | Ret r =>
      let at_ := fun i j => Rabs (as_matrix r i j) in
      forallb (fun j => octa_close (at_ 0%nat j + at_ 1%nat j + at_ 2%nat j) 1) [0; 1; 2]%nat
      && forallb (fun i => octa_close (at_ i 0%nat + at_ i 1%nat + at_ i 2%nat) 1) [0; 1; 2]%nat
      && forallb (fun i => forallb (fun j => octa_close (at_ i j) 1 || octa_close (at_ i j) 0) [0; 1; 2]%nat) [0; 1; 2]%nat
  end.

(** GroupElement.__init__ group.py:985-1002 *)
Definition octa_element (q : quat) : res quat := if octa_is_element q then Ret q else Raise.

(** Octahedral._combine, _inverse octa.py:100-115 under GroupElement.__matmul__,
    __invert__ group.py:1010-1028 *)
Definition octa_mul (p q : quat) : res quat := u <- q_combine p q ;; octa_element u.
Definition octa_inv (q : quat) : res quat := u <- q_invert q ;; octa_element u.

(** Rotation.create_group('O').as_quat(): the identity matrix of size four, eight
    thirds of a turn, and twelve more with c = sqrt(2) / 2 *)
Definition octa_elements : list quat :=
  let c := sqrt 2 / 2 in
  [ Quat 1 0 0 0; Quat 0 1 0 0; Quat 0 0 1 0; Quat 0 0 0 1;
    Quat (1/2) (-(1/2)) (-(1/2)) (1/2); Quat (1/2) (-(1/2)) (1/2) (1/2);
    Quat (1/2) (1/2) (-(1/2)) (1/2); Quat (1/2) (1/2) (1/2) (1/2);
    Quat (1/2) (-(1/2)) (-(1/2)) (-(1/2)); Quat (1/2) (-(1/2)) (1/2) (-(1/2));
    Quat (1/2) (1/2) (-(1/2)) (-(1/2)); Quat (1/2) (1/2) (1/2) (-(1/2));
    Quat c 0 0 c; Quat 0 c 0 c; Quat 0 0 c c;
    Quat 0 0 (-c) c; Quat 0 (-c) 0 c; Quat (-c) 0 0 c;
    Quat 0 c c 0; Quat 0 (-c) c 0; Quat c 0 c 0;
    Quat (-c) 0 c 0; Quat c c 0 0; Quat (-c) c 0 0 ].

(** adj @ e @ (~adj) and (~adj) @ e @ adj *)
Definition octa_to_adj (adj e : quat) : res quat :=
  u <- octa_mul adj e ;; i <- octa_inv adj ;; octa_mul u i.
Definition octa_from_adj (adj e : quat) : res quat :=
  i <- octa_inv adj ;; u <- octa_mul i e ;; octa_mul u adj.

(** A numpy array of shape (3,). *)
Definition axis3 := (R * R * R)%type.
Definition ax (a : axis3) : R := fst (fst a).
Definition ay (a : axis3) : R := snd (fst a).
Definition az (a : axis3) : R := snd a.

(** np.allclose(v, axis) for two vectors of length three *)
Definition allclose3 (x y z : R) (a : axis3) : bool :=
  np_isclose (/ 10 ^ 8) x (ax a) && np_isclose (/ 10 ^ 8) y (ay a) && np_isclose (/ 10 ^ 8) z (az a).

(** octa_to_cn octa.py:560-595; the ValueError of cn.element becomes None *)
Definition octa_to_cn (adj : quat) (N : Z) (a : axis3) (e : quat) : res (option pval) :=
  u <- octa_to_adj adj e ;;
  let n := sqrt (qx u * qx u + qy u * qy u + qz u * qz u) in
  if np_isclose (/ 10 ^ 8) n 0 then Ret (Some (VF (VC 0)))
  else if allclose3 (qx u / n) (qy u / n) (qz u / n) a
       then or_none (element_radians (Fin (Cyc N)) (2 * atan2 n (qw u)))
       else Ret None.

(** cn_to_octa octa.py:598-620 *)
Definition cn_to_octa (adj : quat) (N : Z) (a : axis3) (v : pval) : res quat :=
  t <- to_radians1 (Fin (Cyc N)) v ;;
  let s := sin (t / 2) in
  g <- octa_element (Quat (ax a * s) (ay a * s) (az a * s) (cos (t / 2))) ;;
  octa_from_adj adj g.

(** build_trivial_subgroup_maps utils.py:22-37; `assert e.group == C` is the type
    of the argument *)
Definition trivial_parent (v : pval) : res quat := Ret so3_id.
Definition trivial_child (e : quat) : res (option pval) :=
  b <- q_equal e so3_id ;; Ret (if b then Some (VF (VC 0)) else None).

(** Subgroup ids without the adjoint: 'octa', 'tetra', (flip, N). *)
Inductive octaid := OcSelf | OcTetra | OcPlane (flip : bool) (N : Z).

(** change_axis octa.py:206-211 *)
Definition change_axis : quat :=
  let n := sqrt (1 * 1 + 1 * 1 + (-1) * (-1)) in
  let s := sin (PI / 3) in
  Quat (1 / n * s) (1 / n * s) (- 1 / n * s) (cos (PI / 3)).

(** Octahedral._process_subgroup_id octa.py:187-216; [adj] is the last entry of
    the id, the identity when there is none *)
Definition octa_process (id : octaid) (adj : quat) : res (octaid * quat) :=
  match id with
  | OcPlane flip N =>
      assert ((N =? 1) || (N =? 2) || (N =? 3) || (N =? 4))%Z ;;
      if flip && (N =? 1)%Z
      then c <- octa_element change_axis ;; a <- octa_mul c adj ;; Ret (OcPlane false 2, a)
      else Ret (id, adj)
  | _ => Ret (id, adj)
  end.

(** A subgroup: None for the group itself, the order of a cyclic group otherwise;
    the inclusion and the restriction.  Elements of the group itself are [EQ],
    those of a cyclic group are [EP]. *)
Record osub := {
  os_order : option Z;
  os_incl : sval -> res quat;
  os_restr : quat -> res (option sval)
}.

Definition cyclic_sub (N : Z) (f : pval -> res quat) (g : quat -> res (option pval)) : osub :=
  {| os_order := Some N;
     os_incl := fun e => match e with EP v => f v | _ => Raise end;
     os_restr := fun e => opt_map EP (g e) |}.

Definition z_axis : axis3 := (0, 0, 1).
Definition diagonal_axis : axis3 := (1 / sqrt 3, 1 / sqrt 3, 1 / sqrt 3).

(** Octahedral._subgroup octa.py:218-283 on a processed id; a NotImplementedError
    or a ValueError is [Raise].  [build_adjoint_map] utils.py:11-19. *)
Definition octa_subgroup_raw (id : octaid) (adj : quat) : res osub :=
  match id with
  | OcSelf =>
      i <- octa_inv adj ;;
      Ret {| os_order := None;
             os_incl := fun e => match e with EQ q => octa_to_adj i q | _ => Raise end;
             os_restr := fun e => opt_map EQ (u <- octa_to_adj adj e ;; Ret (Some u)) |}
  | OcTetra => Raise
  | OcPlane false N =>
      if (N =? 1)%Z then Ret (cyclic_sub 1 trivial_parent trivial_child)
      else if (N =? 2)%Z then Ret (cyclic_sub 2 (cn_to_octa adj 2 z_axis) (octa_to_cn adj 2 z_axis))
      else if (N =? 3)%Z then Ret (cyclic_sub 3 (cn_to_octa adj 3 diagonal_axis) (octa_to_cn adj 3 diagonal_axis))
      else if (N =? 4)%Z then Ret (cyclic_sub 4 (cn_to_octa adj 4 z_axis) (octa_to_cn adj 4 z_axis))
      else Raise
  | OcPlane true N => Raise
  end.

(** Group.subgroup group.py:316-343: process the id, then build *)
Definition octa_subgroup (id : octaid) (adj : quat) : res osub :=
  x <- octa_process id adj ;; octa_subgroup_raw (fst x) (snd x).

(** The ids behind cube_vertices_representation, cube_faces_representation and
    cube_edges_representation octa.py:380-400 *)
Definition cube_vertices_id : octaid := OcPlane false 3.
Definition cube_faces_id : octaid := OcPlane false 4.
Definition cube_edges_id : octaid := OcPlane true 1.

(** Octahedral._restrict_irrep octa.py:285-307 for the id (False, 1): the change
    of basis (before the factor of adj, octa.py:317) and the ids of the irreps *)
Definition octa_restrict_trivial (size : nat) : mat * list Z := (mid, repeat 1%Z size).
