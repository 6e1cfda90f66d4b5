(** Model of the irreducible representations of a direct product of two groups.
    Source: /repo/escnn/group/directproduct.py.
    An irrep object is a record of what the product reads from it.  A matrix a
    representation returns is taken to be a fresh array: directproduct.py:947 and
    974 change it in place.  The cache `self._irreps` is not modelled: an irrep is
    rebuilt on each call. *)
From Coq Require Import Reals ZArith Bool List.
From Verif Require Import LibRes LibMat FinGroupModel ProdModel ParamModel PlanarModel IrrepModel.
Import ListNotations.
Open Scope R_scope.

(** IrreducibleRepresentation.type irrep.py:57-62 *)
Inductive rtype := TR | TC | TH.

Definition is_TR (t : rtype) : bool := match t with TR => true | _ => false end.
Definition is_TC (t : rtype) : bool := match t with TC => true | _ => false end.

(** The id of an irrep: the tuple of integers of a group of the library, or
    `(id1, id2, i)` for a product (directproduct.py:546). *)
Inductive iid := Leaf (l : list Z) | Pair (a b : iid) (i : Z).

(** IrreducibleRepresentation irrep.py:22-104: `id`, `size`, `type`, the callable
    `representation` and the callable `character`. *)
Record oirrep (V : Type) := {
  oi_id : iid;
  oi_size : nat;
  oi_type : rtype;
  oi_fun : gel V -> res sqmat;
  oi_chi : gel V -> res R
}.
Arguments oi_id {V}. Arguments oi_size {V}. Arguments oi_type {V}.
Arguments oi_fun {V}. Arguments oi_chi {V}.

(** sum_of_squares_constituents irrep.py:97-104 *)
Definition oi_sosc {V} (r : oirrep V) : nat :=
  match oi_type r with TR => 1 | TC => 2 | TH => 4 end.

(** Representation.__call__ representation.py:330-350 *)
Definition ocall {V} (G : gobj V) (r : oirrep V) (g : gel V) : res sqmat :=
  assert gname_eqb (el_grp g) (g_name G) ;; oi_fun r g.

(** Representation.character representation.py:243-281, with a callable *)
Definition ochar {V} (G : gobj V) (r : oirrep V) (g : gel V) : res R :=
  assert gname_eqb (el_grp g) (g_name G) ;; oi_chi r g.

(** endomorphism_basis irrep.py:106-135.  np.diag([1., -1.])[::-1] is
    [[0, -1], [1, 0]]; np.diag([1., -1., 1., -1.])[::-1] has the rows
    (0, 0, 0, -1), (0, 0, 1, 0), (0, -1, 0, 0), (1, 0, 0, 0). *)
Definition rows (l : list (list R)) : mat := fun i j => nth j (nth i l []) 0.
Definition oi_endo {V} (r : oirrep V) : list mat :=
  match oi_type r with
  | TR => [mid]
  | TC => let h := Nat.div (oi_size r) 2 in
          [kron h h mid mid; kron h h (mat2 0 (-1) 1 0) mid]
  | TH => let q := Nat.div (oi_size r) 4 in
          map (fun b => kron q q b mid)
            [mid;
             rows [[0; 0; 0; -1]; [0; 0; 1; 0]; [0; -1; 0; 0]; [1; 0; 0; 0]];
             rows [[0; 0; -1; 0]; [0; 0; 0; -1]; [1; 0; 0; 0]; [0; 1; 0; 0]];
             rows [[0; -1; 0; 0]; [1; 0; 0; 0]; [0; 0; 0; 1]; [0; 0; -1; 0]]]
  end.

(** `psi[h:, :h]`; `psi[:h, :h]` is [psi] itself, read below h. *)
Definition lower (h : nat) (A : mat) : mat := fun i j => A (h + i)%nat j.

(** The four assignments to R: directproduct.py:855-858 and 953-956.  [h] is
    `size // 2`; the last one is `R[:size//2:, size//2:] = -imag`. *)
Definition fill (h : nat) (real imag : mat) : mat :=
  fun i j =>
    if (i <? h)%nat then (if (j <? h)%nat then real i j else - imag i (j - h)%nat)
    else (if (j <? h)%nat then imag (i - h)%nat j else real (i - h)%nat (j - h)%nat).

Section ProdIrrep.
  Context {V1 V2 : Type}.
  Variables (G1 : gobj V1) (G2 : gobj V2).

  (** `assert g.group == G; g1, g2 = G.split_element(g)` *)
  Definition split (g : gel (V1 * V2)) : res (gel V1 * gel V2) :=
    assert gname_eqb (el_grp g) (NProd (g_name G1) (g_name G2)) ;; split_element G1 G2 g.

  (** tensor_product_left directproduct.py:842-860.  Assigning blocks of another
      shape than half of R raises. *)
  Definition tensor_left (psi1 : oirrep V1) (psi2 : oirrep V2) (g : gel (V1 * V2)) : res sqmat :=
    let size := (oi_size psi1 * oi_size psi2)%nat in
    let h2 := Nat.div (oi_size psi2) 2 in
    x <- split g ;;
    a <- ocall G1 psi1 (fst x) ;; b <- ocall G2 psi2 (snd x) ;;
    assert Nat.eqb (fst a * h2) (Nat.div size 2) && Nat.eqb (fst b) (2 * h2) ;;
    let real := kron h2 h2 (snd a) (snd b) in
    let imag := kron h2 h2 (snd a) (lower h2 (snd b)) in
    Ret (size, fill (Nat.div size 2) real imag).

  (** tensor_product_right directproduct.py:862-865 *)
  Definition tensor_right (psi1 : oirrep V1) (psi2 : oirrep V2) (g : gel (V1 * V2)) : res sqmat :=
    x <- split g ;;
    a <- ocall G1 psi1 (fst x) ;; b <- ocall G2 psi2 (snd x) ;;
    Ret ((fst a * fst b)%nat, kron (fst b) (fst b) (snd a) (snd b)).

  (** character directproduct.py:867-870 *)
  Definition tensor_char (psi1 : oirrep V1) (psi2 : oirrep V2) (g : gel (V1 * V2)) : res R :=
    x <- split g ;;
    a <- ochar G1 psi1 (fst x) ;; b <- ochar G2 psi2 (snd x) ;; Ret (a * b).

  (** `if i == 1: imag_2 *= -1` directproduct.py:946-947, 973-974 *)
  Definition conj_imag (i : Z) (A : mat) : mat := if (i =? 1)%Z then mopp A else A.

  (** tensor_product directproduct.py:932-958 *)
  Definition tensor_complex (psi1 : oirrep V1) (psi2 : oirrep V2) (i : Z) (g : gel (V1 * V2)) : res sqmat :=
    let size := Nat.div (oi_size psi1 * oi_size psi2) 2 in
    let h1 := Nat.div (oi_size psi1) 2 in
    let h2 := Nat.div (oi_size psi2) 2 in
    x <- split g ;;
    a <- ocall G1 psi1 (fst x) ;; b <- ocall G2 psi2 (snd x) ;;
    assert Nat.eqb (h1 * h2) (Nat.div size 2) && Nat.eqb (fst a) (2 * h1) && Nat.eqb (fst b) (2 * h2) ;;
    let real_1 := snd a in let imag_1 := lower h1 (snd a) in
    let real_2 := snd b in let imag_2 := conj_imag i (lower h2 (snd b)) in
    let real := msub (kron h2 h2 real_1 real_2) (kron h2 h2 imag_1 imag_2) in
    let imag := madd (kron h2 h2 real_1 imag_2) (kron h2 h2 imag_1 real_2) in
    Ret (size, fill (Nat.div size 2) real imag).

  (** character directproduct.py:960-978 *)
  Definition complex_char (psi1 : oirrep V1) (psi2 : oirrep V2) (i : Z) (g : gel (V1 * V2)) : res R :=
    let h1 := Nat.div (oi_size psi1) 2 in
    let h2 := Nat.div (oi_size psi2) 2 in
    x <- split g ;;
    a <- ocall G1 psi1 (fst x) ;; b <- ocall G2 psi2 (snd x) ;;
    Ret (2 * (trace h1 (snd a) * trace h2 (snd b) -
              trace h1 (lower h1 (snd a)) * trace h2 (conj_imag i (lower h2 (snd b))))).

  (** tensor_product_irrep directproduct.py:824-877 *)
  Definition tensor_product_irrep (psi1 : oirrep V1) (psi2 : oirrep V2) :
      res ((gel (V1 * V2) -> res sqmat) * (gel (V1 * V2) -> res R)) :=
    if is_TR (oi_type psi1) && negb (is_TR (oi_type psi2)) then
      Ret (tensor_left psi1 psi2, tensor_char psi1 psi2)
    else if is_TR (oi_type psi2) then
      Ret (tensor_right psi1 psi2, tensor_char psi1 psi2)
    else Raise.

  Definition zero_one (i : Z) : bool := (i =? 0)%Z || (i =? 1)%Z.

  (** DirectProductGroup.irrep directproduct.py:520-576; [irr1] and [irr2] are
      the methods `irrep` of the factors. *)
  Definition prod_irrep (irr1 : iid -> res (oirrep V1)) (irr2 : iid -> res (oirrep V2))
      (id1 id2 : iid) (i : Z) : res (oirrep (V1 * V2)) :=
    psi1 <- irr1 id1 ;; psi2 <- irr2 id2 ;;
    assert (if is_TC (oi_type psi1) && is_TC (oi_type psi2) then zero_one i else (i =? 0)%Z) ;;
    if is_TR (oi_type psi1) || is_TR (oi_type psi2) then
      assert (i =? 0)%Z ;;
      f <- tensor_product_irrep psi1 psi2 ;;
      Ret {| oi_id := Pair id1 id2 i; oi_size := (oi_size psi1 * oi_size psi2)%nat;
             oi_type := if is_TR (oi_type psi1) then oi_type psi2 else oi_type psi1;
             oi_fun := fst f; oi_chi := snd f |}
    else if is_TC (oi_type psi1) || is_TC (oi_type psi2) then
      assert zero_one i ;;
      Ret {| oi_id := Pair id1 id2 i; oi_size := Nat.div (oi_size psi1 * oi_size psi2) 2;
             oi_type := TC; oi_fun := tensor_complex psi1 psi2 i; oi_chi := complex_char psi1 psi2 i |}
    else
      assert (i =? 0)%Z ;;
      Ret {| oi_id := Pair id1 id2 i; oi_size := Nat.div (oi_size psi1 * oi_size psi2) 2;
             oi_type := TH; oi_fun := tensor_complex psi1 psi2 0; oi_chi := complex_char psi1 psi2 0 |}.

  (** The ids built by _build_representations directproduct.py:593-604, in order;
      [l1] and [l2] are `G1.irreps()` and `G2.irreps()`. *)
  Definition prod_ids (l1 : list (oirrep V1)) (l2 : list (oirrep V2)) : list (iid * iid * Z) :=
    flat_map (fun psi1 => flat_map (fun psi2 =>
      (oi_id psi1, oi_id psi2, 0%Z) ::
      (if is_TC (oi_type psi1) && is_TC (oi_type psi2) then [(oi_id psi1, oi_id psi2, 1%Z)] else []))
      l2) l1.

  (** The irreps built by it. *)
  Definition prod_irreps (irr1 : iid -> res (oirrep V1)) (irr2 : iid -> res (oirrep V2))
      (l1 : list (oirrep V1)) (l2 : list (oirrep V2)) : res (list (oirrep (V1 * V2))) :=
    mapM (fun x => prod_irrep irr1 irr2 (fst (fst x)) (snd (fst x)) (snd x)) (prod_ids l1 l2).

  (** The method `irrep` of the product, on ids. *)
  Definition prod_irr (irr1 : iid -> res (oirrep V1)) (irr2 : iid -> res (oirrep V2))
      (id : iid) : res (oirrep (V1 * V2)) :=
    match id with Pair a b i => prod_irrep irr1 irr2 a b i | Leaf _ => Raise end.
End ProdIrrep.

(** C_N, D_N, SO(2) and O(2) as group objects.  The constructor of an element
    normalises an angle (so2group.py:179-214, o2group.py:220-259), so the values
    of elements are the normalised ones, and [g_is] holds of those only.
    `elements` and `generators` of the continuous groups raise. *)
Definition in_turn (t : R) : bool :=
  if Rle_dec 0 t then (if Rlt_dec t (2 * PI) then true else false) else false.

Definition planar_obj (G : pgrp) : gobj pval := {|
  g_name := match G with Fin G => NFin G | SO2 => NOther 0 | O2 => NOther 1 end;
  g_is v := match G, v with
            | Fin G, VF v => is_element G v
            | SO2, VS t => in_turn t
            | O2, VO f t => ((f =? 0)%Z || (f =? 1)%Z) && in_turn t
            | _, _ => false
            end;
  g_comb := pmul G;
  g_inv := pinv G;
  g_one := pid G;
  g_eq v w := match pequal G v w with Ret b => b | Raise => false end;
  g_elements := match G with
                | Fin G => match elements G with Ret l => Some (map VF l) | Raise => None end
                | _ => None
                end;
  g_gens := match G with
            | Fin G => match generators G with Ret l => map VF l | Raise => [] end
            | _ => []
            end
|}.

(** Their irreps as objects: cyclicgroup.py:399-452, dihedralgroup.py:547-636,
    so2group.py:426-467, o2group.py:630-691 (modelled in IrrepModel). *)
Definition planar_oirrep (r : irrep) : oirrep pval := {|
  oi_id := Leaf (ir_id r); oi_size := ir_size r;
  oi_type := if ir_complex r then TC else TR;
  oi_fun := fun g => ir_rep r (el_val g); oi_chi := fun g => ir_char r (el_val g) |}.

Definition planar_irr (G : pgrp) (id : iid) : res (oirrep pval) :=
  match id with Leaf l => r <- p_irrep G l ;; Ret (planar_oirrep r) | Pair _ _ _ => Raise end.
