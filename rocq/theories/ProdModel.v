(** Model of DirectProductGroup and DoubleGroup.
    Sources: /repo/escnn/group/directproduct.py, /repo/escnn/group/doublegroup.py,
             /repo/escnn/group/group.py (GroupElement).
    A group object is a record of the methods the product calls on its factors.
    Only the default parametrisation (PARAM) of every group is modelled. *)
From Coq Require Import List ZArith Bool.
From Verif Require Import LibRes FinGroupModel.
Import ListNotations.

(** What `G == H` compares: the class and parameters of a group
    (cyclicgroup.py:303-311, dihedralgroup.py:358-366) and, for a product,
    the two factors (directproduct.py:378-382).
    [NOther n] stands for any other group of the library. *)
Inductive gname := NFin (G : grp) | NOther (n : Z) | NProd (a b : gname).

Definition grp_eqb (G H : grp) : bool :=
  match G, H with
  | Cyc n, Cyc m => (n =? m)%Z
  | Dih n, Dih m => (n =? m)%Z
  | _, _ => false
  end.

Fixpoint gname_eqb (a b : gname) : bool :=
  match a, b with
  | NFin G, NFin H => grp_eqb G H
  | NOther n, NOther m => (n =? m)%Z
  | NProd a1 a2, NProd b1 b2 => gname_eqb a1 b1 && gname_eqb a2 b2
  | _, _ => false
  end.

(** A Group object whose elements have values of type V. *)
Record gobj (V : Type) := {
  g_name : gname;
  g_is : V -> bool;                 (* _is_element *)
  g_comb : V -> V -> res V;         (* _combine *)
  g_inv : V -> res V;               (* _inverse *)
  g_one : V;                        (* identity.value *)
  g_eq : V -> V -> bool;            (* _equal *)
  g_elements : option (list V);     (* elements, None for a continuous group *)
  g_gens : list V                   (* generators *)
}.
Arguments g_name {V}. Arguments g_is {V}. Arguments g_comb {V}. Arguments g_inv {V}.
Arguments g_one {V}. Arguments g_eq {V}. Arguments g_elements {V}. Arguments g_gens {V}.

(** A GroupElement object: its group and its value. group.py:953-1002 *)
Record gel (V : Type) := El { el_grp : gname; el_val : V }.
Arguments El {V}. Arguments el_grp {V}. Arguments el_val {V}.

(** Group.element / GroupElement.__init__ group.py:92-113, 985-1002 *)
Definition mkel {V} (G : gobj V) (v : V) : res (gel V) :=
  if g_is G v then Ret (El (g_name G) v) else Raise.

(** GroupElement.__matmul__ group.py:1010-1021 *)
Definition el_mul {V} (G : gobj V) (a b : gel V) : res (gel V) :=
  if gname_eqb (el_grp b) (el_grp a)
  then v <- g_comb G (el_val a) (el_val b) ;; mkel G v
  else Raise.

(** GroupElement.__invert__ group.py:1023-1028 *)
Definition el_inv {V} (G : gobj V) (a : gel V) : res (gel V) :=
  v <- g_inv G (el_val a) ;; mkel G v.

(** GroupElement.__eq__ group.py:1005-1008 *)
Definition el_eq {V} (G : gobj V) (a b : gel V) : bool :=
  gname_eqb (el_grp b) (el_grp a) && g_eq G (el_val a) (el_val b).

(** The identity element object. *)
Definition el_one {V} (G : gobj V) : gel V := El (g_name G) (g_one G).

Section Prod.
  Context {V1 V2 : Type}.
  Variables (G1 : gobj V1) (G2 : gobj V2).

  (** _combine directproduct.py:221-248, _inverse 250-268, _is_element 270-293,
      _equal 295-324, elements 123-136, generators 186-192 *)
  Definition prod_grp : gobj (V1 * V2) := {|
    g_name := NProd (g_name G1) (g_name G2);
    g_is e := g_is G1 (fst e) && g_is G2 (snd e);
    g_comb e f := a <- g_comb G1 (fst e) (fst f) ;;
                  b <- g_comb G2 (snd e) (snd f) ;; Ret (a, b);
    g_inv e := a <- g_inv G1 (fst e) ;; b <- g_inv G2 (snd e) ;; Ret (a, b);
    g_one := (g_one G1, g_one G2);
    g_eq e f := g_eq G1 (fst e) (fst f) && g_eq G2 (snd e) (snd f);
    g_elements :=
      match g_elements G1, g_elements G2 with
      | Some l1, Some l2 => Some (flat_map (fun a => map (fun b => (a, b)) l2) l1)
      | _, _ => None
      end;
    g_gens := map (fun g => (g, g_one G2)) (g_gens G1) ++
              map (fun g => (g_one G1, g)) (g_gens G2)
  |}.

  (** pair_elements directproduct.py:200-207.  The code passes a 3-tuple whose
      third entry (the parametrisation) is never read; the pair is modelled. *)
  Definition pair_elements (a : gel V1) (b : gel V2) : res (gel (V1 * V2)) :=
    assert gname_eqb (el_grp a) (g_name G1) ;;
    assert gname_eqb (el_grp b) (g_name G2) ;;
    mkel prod_grp (el_val a, el_val b).

  (** split_element directproduct.py:209-215 *)
  Definition split_element (g : gel (V1 * V2)) : res (gel V1 * gel V2) :=
    assert gname_eqb (el_grp g) (NProd (g_name G1) (g_name G2)) ;;
    a <- mkel G1 (fst (el_val g)) ;;
    b <- mkel G2 (snd (el_val g)) ;;
    Ret (a, b).

  (** inclusion1/inclusion2 directproduct.py:194-198 *)
  Definition inclusion1 (a : gel V1) := pair_elements a (el_one G2).
  Definition inclusion2 (b : gel V2) := pair_elements (el_one G1) b.

  (** elements directproduct.py:123-136, as element objects *)
  Definition prod_elements : res (list (gel (V1 * V2))) :=
    match g_elements G1, g_elements G2 with
    | Some l1, Some l2 =>
        mapM (fun p => pair_elements (El (g_name G1) (fst p)) (El (g_name G2) (snd p)))
             (list_prod l1 l2)
    | _, _ => Raise
    end.

  (** generators directproduct.py:186-192, as element objects *)
  Definition prod_generators : res (list (gel (V1 * V2))) :=
    a <- mapM (fun g => inclusion1 (El (g_name G1) g)) (g_gens G1) ;;
    b <- mapM (fun g => inclusion2 (El (g_name G2) g)) (g_gens G2) ;;
    Ret (a ++ b).
End Prod.

(** The triple returned by Group.subgroup for the factor groups: the subgroup
    object and the two maps. *)
Record sub (V : Type) := {
  s_grp : gobj V;
  s_incl : gel V -> res (gel V);
  s_restr : gel V -> res (option (gel V))
}.
Arguments s_grp {V}. Arguments s_incl {V}. Arguments s_restr {V}.

(** order(): group.py:79-90; -1 for continuous groups *)
Definition g_order {V} (G : gobj V) : Z :=
  match g_elements G with Some l => Z.of_nat (length l) | None => -1 end.

Section SubMaps.
  (** Both factors use the same type of values: in Python any value can be
      handed to any map, and it is the maps themselves that assert the group of
      their argument. *)
  Context {V : Type}.
  Variables (G1 G2 : gobj V).

  (** inclusion directproduct.py:735-750 *)
  Definition prod_inclusion (H1 H2 : gobj V) (incl1 incl2 : gel V -> res (gel V))
      (e : gel (V * V)) : res (gel (V * V)) :=
    p <- split_element H1 H2 e ;;
    a <- incl1 (fst p) ;;
    b <- incl2 (snd p) ;;
    mkel (prod_grp G1 G2) (el_val a, el_val b).

  (** restrict directproduct.py:711-732; the ValueError of the constructor is
      caught and turned into None *)
  Definition prod_restrict (H1 H2 : gobj V)
      (r1 r2 : gel V -> res (option (gel V)))
      (e : gel (V * V)) : res (option (gel (V * V))) :=
    p <- split_element G1 G2 e ;;
    oa <- r1 (fst p) ;;
    ob <- r2 (snd p) ;;
    match oa, ob with
    | Some a, Some b =>
        match mkel (prod_grp H1 H2) (el_val a, el_val b) with
        | Ret x => Ret (Some x)
        | Raise => Ret None
        end
    | _, _ => Ret None
    end.

  (** restrict_left directproduct.py:757-768, inclusion_left 771-784 *)
  Definition restrict_left (r1 : gel V -> res (option (gel V))) (e : gel (V * V))
      : res (option (gel V)) :=
    p <- split_element G1 G2 e ;;
    if negb (el_eq G2 (snd p) (el_one G2)) then Ret None else r1 (fst p).
  Definition inclusion_left (H : gobj V) (incl1 : gel V -> res (gel V)) (e : gel V)
      : res (gel (V * V)) :=
    assert gname_eqb (el_grp e) (g_name H) ;;
    a <- incl1 e ;;
    mkel (prod_grp G1 G2) (el_val a, g_one G2).

  (** restrict_right directproduct.py:790-801, inclusion_right 804-817 *)
  Definition restrict_right (r2 : gel V -> res (option (gel V))) (e : gel (V * V))
      : res (option (gel V)) :=
    p <- split_element G1 G2 e ;;
    if negb (el_eq G1 (fst p) (el_one G1)) then Ret None else r2 (snd p).
  Definition inclusion_right (H : gobj V) (incl2 : gel V -> res (gel V)) (e : gel V)
      : res (gel (V * V)) :=
    assert gname_eqb (el_grp e) (g_name H) ;;
    b <- incl2 e ;;
    mkel (prod_grp G1 G2) (g_one G1, el_val b).

  (** The result of DirectProductGroup._subgroup: one of the factors when the
      other one is trivial, otherwise a product. *)
  Inductive prod_sub :=
  | SubOne (H : gobj V) (incl : gel V -> res (gel (V * V)))
           (restr : gel (V * V) -> res (option (gel V)))
  | SubProd (H : gobj (V * V)) (incl : gel (V * V) -> res (gel (V * V)))
            (restr : gel (V * V) -> res (option (gel (V * V)))).

  (** _subgroup directproduct.py:456-492.  Line 492 passes child2 twice. *)
  Definition prod_subgroup (S1 S2 : sub V) : prod_sub :=
    if (g_order (s_grp S1) =? 1)%Z then
      SubOne (s_grp S2) (inclusion_right (s_grp S2) (s_incl S2))
             (restrict_right (s_restr S2))
    else if (g_order (s_grp S2) =? 1)%Z then
      SubOne (s_grp S1) (inclusion_left (s_grp S1) (s_incl S1))
             (restrict_left (s_restr S1))
    else
      SubProd (prod_grp (s_grp S1) (s_grp S2))
              (prod_inclusion (s_grp S1) (s_grp S2) (s_incl S1) (s_incl S2))
              (prod_restrict (s_grp S1) (s_grp S2) (s_restr S2) (s_restr S2)).
End SubMaps.

Section Double.
  Context {V : Type}.
  Variable G : gobj V.

  (** doublegroup.py:151-160 *)
  Definition diag_inclusion (e : gel V) : res (gel (V * V)) :=
    assert gname_eqb (el_grp e) (g_name G) ;;
    mkel (prod_grp G G) (el_val e, el_val e).
  (** doublegroup.py:138-148 *)
  Definition diag_restriction (e : gel (V * V)) : res (option (gel V)) :=
    p <- split_element G G e ;;
    if el_eq G (fst p) (snd p) then Ret (Some (fst p)) else Ret None.
End Double.

(** C_N and D_N as group objects. *)
Definition val_eqb (a b : val) : bool :=
  match a, b with
  | VC x, VC y => (x =? y)%Z
  | VD f x, VD g y => (f =? g)%Z && (x =? y)%Z
  | _, _ => false
  end.

(** _equal: cyclicgroup.py:152-172, dihedralgroup.py:183-203 *)
Definition fin_obj (G : grp) : gobj val := {|
  g_name := NFin G;
  g_is := is_element G;
  g_comb := combine G;
  g_inv := inverse G;
  g_one := gid G;
  g_eq := val_eqb;
  g_elements := match elements G with Ret l => Some l | Raise => None end;
  g_gens := match generators G with Ret l => l | Raise => [] end
|}.

(** The maps of the subgroups of C_N and D_N on element objects, with what they
    assert about the group of their argument: the cyclic restriction asserts the
    group itself (cyclicgroup.py:593), the cyclic inclusion nothing
    (cyclicgroup.py:582-586), the dihedral maps only the class, and they take the
    rotation order from the group of the argument (dihedralgroup.py:708-806). *)
Definition fin_incl (G : grp) (id : sgid) (e : gel val) : res (gel val) :=
  v <- match G, id, el_grp e with
       | Cyc N, IdC M, _ => parent_c N M (el_val e)
       | Dih N, IdD None _, NFin (Cyc M') => cn_to_dn N M' (el_val e)
       | Dih N, IdD (Some a) M, n =>
           if (M =? 1)%Z then
             match n with
             | NFin (Cyc M') => assert (M' =? 2)%Z ;; flip_to_dn a N (el_val e)
             | _ => Raise
             end
           else
             match n with
             | NFin (Dih M') => dm_to_dn a N M' (el_val e)
             | _ => Raise
             end
       | _, _, _ => Raise
       end ;;
  Ret (El (NFin G) v).

Definition fin_restr (G : grp) (id : sgid) (e : gel val) : res (option (gel val)) :=
  o <- match G, id, el_grp e with
       | Cyc N, IdC M, n => assert gname_eqb n (NFin G) ;; child_c N M (el_val e)
       | Dih _, IdD None M, NFin (Dih N') => dn_to_cn N' M (el_val e)
       | Dih _, IdD (Some a) M, NFin (Dih N') =>
           if (M =? 1)%Z then dn_to_flip a (el_val e) else dn_to_dm a N' M (el_val e)
       | _, _, _ => Raise
       end ;;
  sg <- subgroup G id ;;
  Ret (match o with
       | Some v => Some (El (NFin (sg_group sg)) v)
       | None => None
       end).

(** Group.subgroup for C_N and D_N: group.py:316-343 *)
Definition fin_sub (G : grp) (id : sgid) : res (sub val) :=
  sg <- subgroup G id ;;
  Ret {| s_grp := fin_obj (sg_group sg); s_incl := fin_incl G id;
         s_restr := fin_restr G id |}.
