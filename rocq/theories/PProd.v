(** Properties C07, C08 and C53: direct products. *)
From Coq Require Import List ZArith Lia String.
From Verif Require Import LibRes SpecGroup SpecFinGroup SpecProd SpecNest FinGroupModel
  ProdModel ProdProofs NestModel NestProofs.
Import ListNotations.
Open Scope Z_scope.

(** C07: group laws, elements, generators, pairing and coordinate inclusions *)
Theorem C07_product_group : forall V1 V2 (G1 : gobj V1) (G2 : gobj V2),
  is_group (el_mem G1) (el_mul G1) (el_inv G1) (el_one G1) ->
  is_group (el_mem G2) (el_mul G2) (el_inv G2) (el_one G2) ->
  let P := prod_grp G1 G2 in
  is_group (el_mem P) (el_mul P) (el_inv P) (el_one P).
Proof. exact (fun V1 V2 G1 G2 => prod_is_group G1 G2). Qed.
Print Assumptions C07_product_group.

Theorem C07_product_elements : forall V1 V2 (G1 : gobj V1) (G2 : gobj V2) l1 l2,
  g_elements G1 = Some l1 -> g_elements G2 = Some l2 ->
  enumerates (fun v => g_is G1 v = true) l1 ->
  enumerates (fun v => g_is G2 v = true) l2 ->
  exists l, prod_elements G1 G2 = Ret l /\ enumerates (el_mem (prod_grp G1 G2)) l /\
    List.length l = (List.length l1 * List.length l2)%nat /\
    g_elements (prod_grp G1 G2) = Some (map el_val l).
Proof. exact (fun V1 V2 G1 G2 => prod_elements_ok G1 G2). Qed.
Print Assumptions C07_product_elements.

Theorem C07_product_generators : forall V1 V2 (G1 : gobj V1) (G2 : gobj V2),
  is_group (el_mem G1) (el_mul G1) (el_inv G1) (el_one G1) ->
  is_group (el_mem G2) (el_mul G2) (el_inv G2) (el_one G2) ->
  Forall (fun v => g_is G1 v = true) (g_gens G1) ->
  Forall (fun v => g_is G2 v = true) (g_gens G2) ->
  (forall x, el_mem G1 x -> generated (el_mul G1) (el_one G1) (map (El (g_name G1)) (g_gens G1)) x) ->
  (forall x, el_mem G2 x -> generated (el_mul G2) (el_one G2) (map (El (g_name G2)) (g_gens G2)) x) ->
  let P := prod_grp G1 G2 in
  exists gens, prod_generators G1 G2 = Ret gens /\ Forall (el_mem P) gens /\
    forall x, el_mem P x -> generated (el_mul P) (el_one P) gens x.
Proof. exact (fun V1 V2 G1 G2 => prod_generators_ok G1 G2). Qed.
Print Assumptions C07_product_generators.

Theorem C07_product_pairing : forall V1 V2 (G1 : gobj V1) (G2 : gobj V2),
  is_group (el_mem G1) (el_mul G1) (el_inv G1) (el_one G1) ->
  is_group (el_mem G2) (el_mul G2) (el_inv G2) (el_one G2) ->
  let P := prod_grp G1 G2 in
  is_embedding (el_mem P) (el_mul P) (el_mem G1) (el_mul G1) (inclusion1 G1 G2) /\
  is_embedding (el_mem P) (el_mul P) (el_mem G2) (el_mul G2) (inclusion2 G1 G2) /\
  (forall a b, el_mem G1 a -> el_mem G2 b -> exists e,
     pair_elements G1 G2 a b = Ret e /\ el_mem P e /\ split_element G1 G2 e = Ret (a, b)) /\
  (forall e, el_mem P e -> exists a b,
     split_element G1 G2 e = Ret (a, b) /\ el_mem G1 a /\ el_mem G2 b /\
     pair_elements G1 G2 a b = Ret e) /\
  (forall e f ef, el_mem P e -> el_mem P f -> el_mul P e f = Ret ef ->
     exists a b c d ac bd,
       split_element G1 G2 e = Ret (a, b) /\ split_element G1 G2 f = Ret (c, d) /\
       el_mul G1 a c = Ret ac /\ el_mul G2 b d = Ret bd /\
       split_element G1 G2 ef = Ret (ac, bd)).
Proof. exact (fun V1 V2 G1 G2 => prod_pairing G1 G2). Qed.
Print Assumptions C07_product_pairing.

(** The hypotheses hold for every pair of cyclic or dihedral groups. *)
Theorem C07_instances : forall G, 
  match G with Cyc N => 0 < N | Dih N => 0 < N end ->
  is_group (el_mem (fin_obj G)) (el_mul (fin_obj G)) (el_inv (fin_obj G)) (el_one (fin_obj G)) /\
  (exists l, g_elements (fin_obj G) = Some l /\ enumerates (fun v => g_is (fin_obj G) v = true) l) /\
  Forall (fun v => g_is (fin_obj G) v = true) (g_gens (fin_obj G)) /\
  forall x, el_mem (fin_obj G) x ->
    generated (el_mul (fin_obj G)) (el_one (fin_obj G)) (map (El (NFin G)) (g_gens (fin_obj G))) x.
Proof. exact fin_instances. Qed.
Print Assumptions C07_instances.

Example C07_nontrivial :
  el_mul (prod_grp (fin_obj (Cyc 6)) (fin_obj (Dih 4)))
    (El (NProd (NFin (Cyc 6)) (NFin (Dih 4))) (VC 4, VD 1 0))
    (El (NProd (NFin (Cyc 6)) (NFin (Dih 4))) (VC 5, VD 0 1)) =
  Ret (El (NProd (NFin (Cyc 6)) (NFin (Dih 4))) (VC 3, VD 1 3)).
Proof. reflexivity. Qed.

(** C08 is false of the code.  Whenever the two factors are different, the subgroup is
    a proper product and the second restriction map asserts the group of its argument,
    the restriction raises on every element of the product. *)
Theorem C08_restriction_refuted : forall V (G1 G2 : gobj V) (S1 S2 : sub V),
  g_order (s_grp S1) <> 1 -> g_order (s_grp S2) <> 1 ->
  g_name G1 <> g_name G2 ->
  (forall e, el_grp e <> g_name G2 -> s_restr S2 e = Raise) ->
  exists H incl restr, prod_subgroup G1 G2 S1 S2 = SubProd H incl restr /\
    forall e, el_mem (prod_grp G1 G2) e -> restr e = Raise.
Proof. exact (fun V G1 G2 S1 S2 => prod_restrict_raises G1 G2 S1 S2). Qed.
Print Assumptions C08_restriction_refuted.

(** Its hypotheses: C_4 x C_6 and its subgroup C_2 x C_3. *)
Example C08_refuted_witness : exists S1 S2,
  fin_sub (Cyc 4) (IdC 2) = Ret S1 /\ fin_sub (Cyc 6) (IdC 3) = Ret S2 /\
  g_order (s_grp S1) = 2 /\ g_order (s_grp S2) = 3 /\
  forall e, el_grp e <> NFin (Cyc 6) -> s_restr S2 e = Raise.
Proof. exact c08_witness. Qed.

(** With equal factors but different ids it silently returns wrong elements: in
    C_4 x C_4 restricted to C_4 x C_2, (2, 0) is sent to (1, 0), whose inclusion is
    (1, 0), and (1, 0), which is in the subgroup, is sent to None. *)
Theorem C08_wrong_element_refuted : exists S1 S2 H incl restr e1 e2 h,
  fin_sub (Cyc 4) (IdC 4) = Ret S1 /\ fin_sub (Cyc 4) (IdC 2) = Ret S2 /\
  prod_subgroup (fin_obj (Cyc 4)) (fin_obj (Cyc 4)) S1 S2 = SubProd H incl restr /\
  restr e1 = Ret (Some h) /\ incl h <> Ret e1 /\
  restr e2 = Ret None /\ exists k, el_mem H k /\ incl k = Ret e2.
Proof. exact c08_wrong_element. Qed.
Print Assumptions C08_wrong_element_refuted.

(** What does hold: the inclusion is always an embedding; restriction is right when
    one of the two subgroups is trivial, when the two factors and ids coincide, for
    the diagonal subgroup, and would always be right with the two maps in place. *)
Theorem C08_inclusion_ok : forall V (G1 G2 : gobj V) (S1 S2 : sub V),
  good_sub G1 S1 -> good_sub G2 S2 ->
  is_embedding (el_mem (prod_grp G1 G2)) (el_mul (prod_grp G1 G2))
    (el_mem (prod_grp (s_grp S1) (s_grp S2))) (el_mul (prod_grp (s_grp S1) (s_grp S2)))
    (prod_inclusion G1 G2 (s_grp S1) (s_grp S2) (s_incl S1) (s_incl S2)).
Proof. exact (fun V G1 G2 S1 S2 => prod_inclusion_embedding G1 G2 S1 S2). Qed.
Print Assumptions C08_inclusion_ok.

Theorem C08_one_trivial_ok : forall V (G1 G2 : gobj V) (S1 S2 : sub V),
  good_gobj G1 -> good_gobj G2 -> good_sub G1 S1 -> good_sub G2 S2 ->
  g_order (s_grp S1) = 1 \/ g_order (s_grp S2) = 1 ->
  exists H incl restr, prod_subgroup G1 G2 S1 S2 = SubOne H incl restr /\
    is_embedding (el_mem (prod_grp G1 G2)) (el_mul (prod_grp G1 G2)) (el_mem H) (el_mul H) incl /\
    is_restriction (el_mem (prod_grp G1 G2)) (el_mem H) incl restr.
Proof. exact prod_sub_one. Qed.
Print Assumptions C08_one_trivial_ok.

Theorem C08_same_factor_ok : forall V (G : gobj V) (S : sub V),
  good_gobj G -> good_sub G S -> g_order (s_grp S) <> 1 ->
  exists H incl restr, prod_subgroup G G S S = SubProd H incl restr /\
    is_embedding (el_mem (prod_grp G G)) (el_mul (prod_grp G G)) (el_mem H) (el_mul H) incl /\
    is_restriction (el_mem (prod_grp G G)) (el_mem H) incl restr.
Proof. exact prod_restrict_same. Qed.
Print Assumptions C08_same_factor_ok.

Theorem C08_diagonal_ok : forall V (G : gobj V), good_gobj G ->
  is_embedding (el_mem (prod_grp G G)) (el_mul (prod_grp G G)) (el_mem G) (el_mul G)
    (diag_inclusion G) /\
  is_restriction (el_mem (prod_grp G G)) (el_mem G) (diag_inclusion G) (diag_restriction G).
Proof. exact double_good. Qed.
Print Assumptions C08_diagonal_ok.

(** Cyclic and dihedral groups and all their documented subgroups are instances. *)
Theorem C08_instances : forall G id,
  match G with Cyc N => 0 < N | Dih N => 0 < N end -> documented G id ->
  good_gobj (fin_obj G) /\
  exists S, fin_sub G id = Ret S /\ s_grp S = fin_obj (subgroup_type id) /\
    good_sub (fin_obj G) S.
Proof. exact fin_sub_instances. Qed.
Print Assumptions C08_instances.

(** C53: a product whose second factor is again a product cannot construct a single
    element, because its own parametrisation string is split at the wrong place. *)
Theorem C53_right_nested_refuted : forall A (l r1 r2 : gtree A) v,
  wf (Node l (Node r1 r2)) -> make_element (Node l (Node r1 r2)) v = Raise.
Proof. exact right_nested_raises. Qed.
Print Assumptions C53_right_nested_refuted.

(** Products nested on the left construct every valid value. *)
Theorem C53_left_nested_ok : forall A (g : gtree A) v, wf g -> left_nested g ->
  valid_value g v -> make_element g v = Ret v.
Proof. exact left_nested_make. Qed.
Print Assumptions C53_left_nested_ok.

Theorem C53_split_inverts_pairing : forall p q, p <> [] -> q <> [] -> ~ In bar q ->
  split_param (pair_param p q) = Ret (p, q).
Proof. exact split_pair_param. Qed.
Print Assumptions C53_split_inverts_pairing.

(** (C_2 x C_3) x C_4 works, C_2 x (C_3 x C_4) does not. *)
Example C53_nontrivial :
  let atom N := Atom (s_ "int") [s_ "int"; s_ "radians"; s_ "MAT"]
                     (fun _ r => ((0 <=? r) && (r <? N))%bool) in
  let L := Node (Node (atom 2) (atom 3)) (atom 4) in
  let R := Node (atom 2) (Node (atom 3) (atom 4)) in
  wf L /\ left_nested L /\ wf R /\
  make_element L (VNode (VNode (VAtom 1) (VAtom 2)) (VAtom 3)) =
    Ret (VNode (VNode (VAtom 1) (VAtom 2)) (VAtom 3)) /\
  make_element R (VNode (VAtom 1) (VNode (VAtom 2) (VAtom 3))) = Raise.
Proof. exact c53_example. Qed.
