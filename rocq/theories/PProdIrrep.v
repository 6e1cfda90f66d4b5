(** C60: the irreps of a direct product. *)
From Coq Require Import Reals ZArith List Bool.
From Verif Require Import LibRes SpecGroup SpecRep FinGroupModel SpecFinGroup ProdModel SpecProd PlanarModel SpecPlanar IrrepModel SpecIrrep
  ProdIrrepModel SpecProdIrrep ProdIrrepFin ProdIrrepEx.
Import ListNotations.
Open Scope R_scope.

(** The irrep built from two irreps of real or complex type is an irreducible
    orthogonal representation with its own character, commutant and form, so it
    can be a factor of another product. *)
Theorem C60_irrep : forall V1 V2 (G1 : gobj V1) (G2 : gobj V2),
  is_group (el_mem G1) (el_mul G1) (el_inv G1) (el_one G1) -> is_group (el_mem G2) (el_mul G2) (el_inv G2) (el_one G2) ->
  forall irr1 irr2 id1 id2 i psi1 psi2,
  irr1 id1 = Ret psi1 -> irr2 id2 = Ret psi2 -> good_irrep G1 psi1 -> good_irrep G2 psi2 ->
  (if is_TC (oi_type psi1) && is_TC (oi_type psi2) then (i = 0 \/ i = 1)%Z else i = 0%Z) ->
  exists r, prod_irrep G1 G2 irr1 irr2 id1 id2 i = Ret r /\ good_irrep (prod_grp G1 G2) r /\ oi_id r = Pair id1 id2 i.
Proof. exact @product_irrep. Qed.
Print Assumptions C60_irrep.

(** Any other index is refused. *)
Theorem C60_rejects : forall V1 V2 (G1 : gobj V1) (G2 : gobj V2) irr1 irr2 id1 id2 i psi1 psi2,
  irr1 id1 = Ret psi1 -> irr2 id2 = Ret psi2 ->
  ~ (if is_TC (oi_type psi1) && is_TC (oi_type psi2) then (i = 0 \/ i = 1)%Z else i = 0%Z) ->
  prod_irrep G1 G2 irr1 irr2 id1 id2 i = Raise.
Proof. exact @prod_irrep_rejects. Qed.
Print Assumptions C60_rejects.

(** Together they have the character of the tensor product. *)
Theorem C60_character : forall V1 V2 (G1 : gobj V1) (G2 : gobj V2) irr1 irr2 id1 id2 psi1 psi2 a b g c1 c2,
  irr1 id1 = Ret psi1 -> irr2 id2 = Ret psi2 -> good_irrep G1 psi1 -> good_irrep G2 psi2 ->
  el_mem G1 a -> el_mem G2 b -> pair_elements G1 G2 a b = Ret g -> oi_chi psi1 a = Ret c1 -> oi_chi psi2 b = Ret c2 ->
  (is_TC (oi_type psi1) && is_TC (oi_type psi2) = false ->
     exists r, prod_irrep G1 G2 irr1 irr2 id1 id2 0 = Ret r /\ oi_chi r g = Ret (c1 * c2)) /\
  (is_TC (oi_type psi1) && is_TC (oi_type psi2) = true ->
     exists r r' x x', prod_irrep G1 G2 irr1 irr2 id1 id2 0 = Ret r /\ prod_irrep G1 G2 irr1 irr2 id1 id2 1 = Ret r' /\
       oi_chi r g = Ret x /\ oi_chi r' g = Ret x' /\ x + x' = c1 * c2).
Proof. exact @product_character. Qed.
Print Assumptions C60_character.

(** The irreps built for two lists are again irreps no two of which share
    anything, found by their ids, and account for the product of the dimensions. *)
Theorem C60_list : forall V1 V2 (G1 : gobj V1) (G2 : gobj V2),
  is_group (el_mem G1) (el_mul G1) (el_inv G1) (el_one G1) -> is_group (el_mem G2) (el_mul G2) (el_inv G2) (el_one G2) ->
  forall irr1 irr2 l1 l2, irrep_list G1 irr1 l1 -> irrep_list G2 irr2 l2 ->
  exists l, prod_irreps G1 G2 irr1 irr2 l1 l2 = Ret l /\
    irrep_list (prod_grp G1 G2) (prod_irr G1 G2 irr1 irr2) l /\ algebra_dim l = (algebra_dim l1 * algebra_dim l2)%nat.
Proof. exact @product_irreps. Qed.
Print Assumptions C60_list.

(** C_N, D_N, SO(2) and O(2) meet the hypotheses. *)
Theorem C60_planar : forall G, pvalid G ->
  is_group (el_mem (planar_obj G)) (el_mul (planar_obj G)) (el_inv (planar_obj G)) (el_one (planar_obj G)) /\
  forall ids, Forall (irrep_ok G) ids -> NoDup ids -> exists l,
    mapM (fun id => planar_irr G (Leaf id)) ids = Ret l /\ irrep_list (planar_obj G) (planar_irr G) l /\ map oi_id l = map Leaf ids.
Proof. exact planar_factors. Qed.
Print Assumptions C60_planar.

(** For two groups among C_N and D_N these are all irreps: they account for the
    whole group algebra. *)
Theorem C60_all : forall G H, valid_grp G = true -> valid_grp H = true -> exists l1 l2 l n m,
  order G = Ret n /\ order H = Ret m /\
  mapM (fun id => planar_irr (Fin G) (Leaf id)) (built_irreps G) = Ret l1 /\
  mapM (fun id => planar_irr (Fin H) (Leaf id)) (built_irreps H) = Ret l2 /\
  let P := prod_grp (planar_obj (Fin G)) (planar_obj (Fin H)) in
  prod_irreps (planar_obj (Fin G)) (planar_obj (Fin H)) (planar_irr (Fin G)) (planar_irr (Fin H)) l1 l2 = Ret l /\
  irrep_list P (prod_irr (planar_obj (Fin G)) (planar_obj (Fin H)) (planar_irr (Fin G)) (planar_irr (Fin H))) l /\
  Z.of_nat (algebra_dim l) = (n * m)%Z.
Proof. exact planar_product. Qed.
Print Assumptions C60_all.

(** Two complex irreps: SO(2) x C_3 with the ids (2) and (1), index 1. *)
Example C60_ex : exists r, prod_irrep (planar_obj SO2) (planar_obj (Fin (Cyc 3))) (planar_irr SO2) (planar_irr (Fin (Cyc 3)))
    (Leaf [2%Z]) (Leaf [1%Z]) 1 = Ret r /\
  good_irrep (prod_grp (planar_obj SO2) (planar_obj (Fin (Cyc 3)))) r /\ oi_size r = 2%nat /\ oi_type r = TC.
Proof. exact so2_c3. Qed.

(** A real and a complex one: D_4 x C_3, ids (1, 1) and (1). *)
Example C60_ex_left : exists r, prod_irrep (planar_obj (Fin (Dih 4))) (planar_obj (Fin (Cyc 3))) (planar_irr (Fin (Dih 4))) (planar_irr (Fin (Cyc 3)))
    (Leaf [1%Z; 1%Z]) (Leaf [1%Z]) 0 = Ret r /\
  good_irrep (prod_grp (planar_obj (Fin (Dih 4))) (planar_obj (Fin (Cyc 3)))) r /\ oi_size r = 4%nat /\ oi_type r = TC.
Proof. exact d4_c3. Qed.
