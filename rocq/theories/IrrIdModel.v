(** Model of how irreps are passed to SO(3) and O(3): Group.get_irrep_id
    (escnn/group/group.py:853-864), its use in _tensor_product_irreps
    (so3group.py:880-886, o3group.py:1188-1194) and the Clebsch-Gordan
    coefficients of O(3) (o3group.py:1196-1205).

    Simplifications. An irrep is its group and its id, a list of ints. The dictionary
    self.representations is a parameter [reps] that gives for a name whether it is an
    irrep, and its id. The coefficients of SO(3) (_clebsh_gordan_tensor_so3) are a
    parameter [cg3]. *)
From Coq Require Import String List ZArith Bool.
From Verif Require Import LibRes ProdModel CharModel.
Import ListNotations.
Open Scope Z_scope.

Inductive igroup := GSO3 | GO3.
Definition igroup_eqb (a b : igroup) : bool :=
  match a, b with GSO3, GSO3 => true | GO3, GO3 => true | _, _ => false end.

(** An argument: an irrep, another representation, a name, a tuple or an int. *)
Inductive irr_arg := AIrrep (G : igroup) (id : list Z) | ARepr | AName (s : string) | ATuple (id : list Z) | AInt (n : Z).
(** What get_irrep_id returns: an id, or (line 860) a representation. *)
Inductive irr_res := RId (id : list Z) | RRepr (id : list Z).

(** irrep so3group.py:830-871 and o3group.py:1125-1186: the id of irrep( *args );
    a wrong number of arguments raises TypeError *)
Definition irrep_id (G : igroup) (args : list Z) : res (list Z) :=
  match G, args with
  | GSO3, [l] => assert (0 <=? l) ;; Ret [l]
  | GO3, [j; l] => assert ((j =? 0) || (j =? 1)) ;; assert (0 <=? l) ;; Ret [j; l]
  | _, _ => Raise
  end.

(** group.py:853-864; a reducible representation reaches line 864 and is no frequency *)
Definition get_irrep_id (G : igroup) (reps : string -> option (bool * list Z)) (psi : irr_arg) : res irr_res :=
  match psi with
  | AIrrep H id => assert (igroup_eqb H G) ;; Ret (RId id)
  | AName s =>
      match reps s with
      | Some (irreducible, id) => assert irreducible ;; Ret (RRepr id)
      | None => Raise
      end
  | ATuple id => i <- irrep_id G id ;; Ret (RId i)
  | AInt n => i <- irrep_id G [n] ;; Ret (RId i)
  | ARepr => Raise
  end.

(** `l, = x`: a representation is not iterable *)
Definition unpack1 (r : irr_res) : res Z := match r with RId [l] => Ret l | _ => Raise end.
(** `x[0]` and `x[1]`: a representation has no items *)
Definition items2 (r : irr_res) : res (Z * Z) := match r with RId (j :: l :: _) => Ret (j, l) | _ => Raise end.

(** so3group.py:880-886 *)
Definition so3_product (reps : string -> option (bool * list Z)) (J l : irr_arg) : res (list (Z * nat)) :=
  a <- get_irrep_id GSO3 reps J ;; J' <- unpack1 a ;;
  b <- get_irrep_id GSO3 reps l ;; l' <- unpack1 b ;; so3_tensor J' l'.
(** o3group.py:1188-1194 *)
Definition o3_product (reps : string -> option (bool * list Z)) (J l : irr_arg) : res (list (Z * Z * nat)) :=
  a <- get_irrep_id GO3 reps J ;; b <- get_irrep_id GO3 reps l ;;
  J' <- items2 a ;; l' <- items2 b ;; o3_tensor J' l'.

(** np.zeros(shape, dtype, order, ...) with its positional arguments: the shape is an
    int or a tuple, an int is not a dtype (TypeError), four positional ints are too many *)
Definition np_zeros {A} (args : list Z) (a : A) : res A :=
  match args with [_] => Ret a | _ => Raise end.

(** o3group.py:1196-1205; [empty] is the array that np.zeros would give *)
Definition o3_coeff {A} (cg3 : Z -> Z -> Z -> res A) (empty : A) (reps : string -> option (bool * list Z))
    (m n j : irr_arg) : res A :=
  a <- get_irrep_id GO3 reps m ;; b <- get_irrep_id GO3 reps n ;; c <- get_irrep_id GO3 reps j ;;
  m' <- items2 a ;; n' <- items2 b ;; j' <- items2 c ;;
  if (fst m' + fst n') mod 2 =? fst j' then cg3 (snd m') (snd n') (snd j')
  else np_zeros [2 * snd m' + 1; 2 * snd n' + 1; 0; 2 * snd j' + 1] empty.
