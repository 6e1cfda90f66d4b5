(** Model of the irreps of the octahedral group.
    Sources: /repo/escnn/group/groups/octa.py, utils.py, /repo/escnn/group/irrep.py,
             representation.py.

    The matrices of frequency 1 come from lie_learn's wigner_D_matrix, which is not
    part of the repository: they are the parameter [D1].  joblib's cache of
    _build_octa_irrep_picklable is left out: the function is computed anew.  The
    iteration order of sets and the fuel of the loop are those of [generate]. *)
From Coq Require Import Reals ZArith Bool List.
From Verif Require Import LibRes LibMat FinGroupModel ParamModel PlanarModel SpaceModel GenModel OctaModel.
Import ListNotations.
Open Scope R_scope.

(** equality of two tuples of numbers *)
Fixpoint tuple_eqb (h k : list R) : bool :=
  match h, k with
  | [], [] => true
  | x :: h', y :: k' => (if Req_EM_T x y then true else false) && tuple_eqb h' k'
  | _, _ => false
  end.

(** two elements are the same key of a set or dictionary when both __hash__ and
    __eq__ agree, group.py:1005-1008, 1030-1031, octa.py:117-128 *)
Definition octa_eqb (p q : quat) : bool :=
  match q_hash_key p, q_hash_key q, q_equal p q with
  | Ret h, Ret k, Ret b => tuple_eqb h k && b
  | _, _, _ => false
  end.

(** np.array of rows *)
Definition of_rows (l : list (list R)) : mat := fun i j => nth j (nth i l []) 0.

(** r, k, s and t of octa.py:652-657, 703-708, 735-740 *)
Definition octa_gens : res (quat * quat * quat) :=
  let r3 := nth 17 octa_elements so3_id in
  r2 <- octa_mul r3 r3 ;; r <- octa_mul r2 r3 ;;
  let k := nth 0 octa_elements so3_id in
  let s := nth 11 octa_elements so3_id in
  si <- octa_inv s ;; u <- octa_mul si k ;; v <- octa_mul u s ;; t <- octa_mul v r ;;
  Ret (t, k, s).

(** change_of_basis octa.py:365-369, 686-690 *)
Definition octa_cob : mat := of_rows [[0; 0; 1]; [1; 0; 0]; [0; 1; 0]].

(** rho_t, rho_k, rho_s and their size, octa.py:645-752 *)
Definition octa_matrices (l : Z) : res (nat * (mat * mat * mat)) :=
  if (l =? -1)%Z then
    let rho_t := of_rows [[1; 0; 0]; [0; 0; 1]; [0; 1; 0]] in
    let rho_k := of_rows [[1; 0; 0]; [0; -1; 0]; [0; 0; -1]] in
    let rho_s := of_rows [[0; 1; 0]; [0; 0; 1]; [1; 0; 0]] in
    let move A := mmul 3 (mmul 3 (mtr octa_cob) A) octa_cob in
    Ret (3%nat, (move rho_t, move rho_k, move rho_s))
  else if (l =? 2)%Z then
    let rho_t := of_rows [[0; 1]; [1; 0]] in
    let rho_k := of_rows [[1; 0]; [0; 1]] in
    let rho_s := mscal (1 / 2) (of_rows [[-1; - sqrt 3]; [sqrt 3; -1]]) in
    Ret (2%nat, (rho_t, rho_k, rho_s))
  else if (l =? 3)%Z then
    Ret (1%nat, (of_rows [[-1]], of_rows [[1]], of_rows [[1]]))
  else Raise.

(** _build_octa_irrep, _build_octa_irrep_picklable octa.py:633-764 *)
Definition octa_build (order : list quat -> list quat) (fuel : nat) (l : Z) : res (nat * list (quat * mat)) :=
  g <- octa_gens ;;
  m <- octa_matrices l ;;
  let '(t, k, s) := g in
  let '(d, (rho_t, rho_k, rho_s)) := m in
  rho <- generate octa_eqb octa_mul octa_inv so3_id octa_elements order fuel
    [(t, (d, rho_t)); (k, (d, rho_k)); (s, (d, rho_s))] ;;
  rho <- mapM (fun kv => g <- octa_element (fst kv) ;; Ret (g, snd kv)) rho ;;
  Ret (d, fold_left (fun acc kv => dset octa_eqb acc (fst kv) (snd kv)) rho []).

(** set(a) == set(b) *)
Definition same_set (a b : list quat) : bool :=
  forallb (fun x => smem octa_eqb x b) a && forallb (fun x => smem octa_eqb x a) b.

(** Octahedral.irrep octa.py:401-461 with the check and the lookup of
    Representation.__init__ representation.py:198-202, 444-449: the size of the
    irrep and its matrices *)
Definition octa_irrep (D1 : quat -> mat) (order : list quat -> list quat) (fuel : nat) (l : Z)
    : res (nat * (quat -> res mat)) :=
  assert ((-1 <=? l) && (l <=? 3))%Z ;;
  if (l =? 0)%Z then Ret (1%nat, fun _ => Ret mid)
  else if (l =? 1)%Z then Ret (3%nat, fun q => Ret (D1 q))
  else
    b <- octa_build order fuel l ;;
    let '(d, rho) := b in
    _ <- dget octa_eqb rho so3_id ;;
    assert (same_set (map fst rho) octa_elements) ;;
    Ret (d, dget octa_eqb rho).
