(** Model of the characters of SO(3) and O(3), of their tensor products of irreps,
    and of the irreps of the planar subgroups in the restriction of an irrep of SO(3).
    Sources: /repo/escnn/group/groups/so3_utils.py, so3group.py, o3group.py.

    Elements are in the parametrisation 'Q'.  Wigner matrices (lie_learn) and with
    them the change of basis of a restriction are left out.  get_irrep_id is called
    with ids only. *)
From Coq Require Import Reals ZArith Bool List.
From Verif Require Import LibRes LibMat LibTrig FinGroupModel ParamModel PlanarModel IrrepModel SpaceModel.
Import ListNotations.
Open Scope R_scope.

(** range(a, b) *)
Definition py_range (a b : Z) : list Z := map (fun k => (a + Z.of_nat k)%Z) (seq 0 (Z.to_nat (b - a))).

(** _character so3_utils.py:204-219 *)
Definition q_character (q : quat) (l : Z) : R :=
  if (l =? 0)%Z then 1
  else
    let theta := 2 * atan2 (sqrt (qx q * qx q + qy q * qy q + qz q * qz q)) (qw q) in
    let s := sin (1 / 2 * theta) in
    if negb (np_isclose (/ 10 ^ 8) s 0) then sin ((IZR l + 1 / 2) * theta) / sin (1 / 2 * theta)
    else IZR (2 * l + 1).

(** SO3.irrep(l).character: the assertion so3group.py:843, the trivial character
    utils.py:48-52, _build_character so3group.py:933-938 *)
Definition so3_character (l : Z) (q : quat) : res R :=
  assert (0 <=? l)%Z ;; if (l =? 0)%Z then Ret 1 else Ret (q_character q l).

(** O3.irrep(j, l).character: the assertions o3group.py:1140-1141, _build_character
    o3group.py:1251-1262 *)
Definition o3_character (j l : Z) (e : oval) : res R :=
  assert ((j =? 0) || (j =? 1))%Z ;; assert (0 <=? l)%Z ;;
  if (l =? 0)%Z && (j =? 0)%Z then Ret 1
  else
    let inv_action := (if (fst e =? 0)%Z then 1 else -1) ^ Z.to_nat j in
    if (l =? 0)%Z then Ret inv_action else Ret (q_character (snd e) l * inv_action).

(** SO3._tensor_product_irreps so3group.py:880-886: the ids with their multiplicities *)
Definition so3_tensor (J l : Z) : res (list (Z * nat)) :=
  assert (0 <=? J)%Z ;; assert (0 <=? l)%Z ;;
  Ret (map (fun j => (j, 1%nat)) (py_range (Z.abs (J - l)) (J + l + 1))).

(** O3._tensor_product_irreps o3group.py:1188-1194 *)
Definition o3_tensor (J l : Z * Z) : res (list ((Z * Z) * nat)) :=
  assert ((fst J =? 0) || (fst J =? 1))%Z ;; assert (0 <=? snd J)%Z ;;
  assert ((fst l =? 0) || (fst l =? 1))%Z ;; assert (0 <=? snd l)%Z ;;
  Ret (map (fun j => ((((fst J + fst l) mod 2)%Z, j), 1%nat)) (py_range (Z.abs (snd J - snd l)) (snd J + snd l + 1))).

(** The list of irreps of SO3._restrict_irrep so3group.py:538-652, for 'so3' and the
    planar subgroups; [id] is an id after _process_subgroup_id. *)
Definition so3_restrict_ids (l : Z) (id : so3pid) : res (list (list Z)) :=
  assert (0 <=? l)%Z ;;
  let so2_ids := map (fun f => [f]) (py_range 0 (l + 1)) in
  let o2_ids := [(l mod 2)%Z; 0%Z] :: map (fun f => [1%Z; f]) (py_range 1 (l + 1)) in
  match id with
  | S3PSelf => Ret [[l]]
  | S3PPlane false N =>
      if (N =? -1)%Z then Ret so2_ids
      else if (0 <? N)%Z then
        xs <- mapM (fun irr => x <- so2_restrict_irrep irr N ;; Ret (snd x)) so2_ids ;; Ret (List.concat xs)
      else Raise
  | S3PPlane true N =>
      if (N =? -1)%Z then Ret o2_ids
      else if (1 <? N)%Z then
        xs <- mapM (fun irr => x <- o2_restrict_irrep irr (Some 0) N ;; Ret (snd x)) o2_ids ;; Ret (List.concat xs)
      else Raise
  end.
