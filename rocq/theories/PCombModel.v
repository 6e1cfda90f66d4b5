(** Model of the composition of subgroup ids in direct products of cyclic and
    dihedral groups: DirectProductGroup._combine_subgroups
    (escnn/group/directproduct.py:494-502) over CyclicGroup._combine_subgroups
    (escnn/group/groups/cyclicgroup.py:313-319) and
    DihedralGroup._combine_subgroups (escnn/group/groups/dihedralgroup.py:368-382).

    Unlike [FinGroupModel.combine_subgroups], the ids are arbitrary Python values
    built of ints, None and pairs, because a product hands the halves of whatever
    pair it is given to its factors. *)
From Coq Require Import List ZArith Bool.
From Verif Require Import LibRes FinGroupModel ProdModel.
Import ListNotations.
Open Scope Z_scope.

Inductive pid := PInt (n : Z) | PNone | PPair (a b : pid).

(** the asserts on the type of an id: cyclicgroup.py:277, dihedralgroup.py:308-310 *)
Definition to_sgid (p : pid) : res sgid :=
  match p with
  | PInt M => Ret (IdC M)
  | PPair PNone (PInt M) => Ret (IdD None M)
  | PPair (PInt a) (PInt M) => Ret (IdD (Some a) M)
  | _ => Raise
  end.

(** cyclicgroup.py:313-319: the second id is returned without being looked at
    (_process_subgroup_id is the identity, group.py:313-314);
    dihedralgroup.py:368-382: indexing an int or None raises TypeError, and
    element() (376, 381) refuses what is not a pair of ints. *)
Definition leaf_combine (G : grp) (id1 id2 : pid) : res pid :=
  i <- to_sgid id1 ;;
  sg <- subgroup G i ;;
  match G, i with
  | Cyc _, _ => Ret id2
  | Dih _, IdC _ => Raise
  | Dih _, IdD None _ => Ret (PPair PNone id2)
  | Dih _, IdD (Some a) M1 =>
      if M1 =? 1 then
        Ret (PPair (match id2 with PInt 2 => PInt a | _ => PNone end) (PInt 1))
      else
        match id2 with
        | PPair PNone _ => Ret id2
        | PPair (PInt b) rest =>
            e <- element (sg_group sg) (VD 0 b) ;;
            g <- sg_incl sg e ;;
            match g with
            | VD _ r => Ret (PPair (PInt (a + r)) rest)
            | VC _ => Raise
            end
        | _ => Raise
        end
  end.

(** directproduct.py:494-502 *)
Definition prod_combine (G1 G2 : grp) (id1 id2 : pid) : res pid :=
  match id1, id2 with
  | PPair a1 b1, PPair a2 b2 =>
      a <- leaf_combine G1 a1 a2 ;; b <- leaf_combine G2 b1 b2 ;; Ret (PPair a b)
  | _, _ => Raise
  end.

(** Group.subgroup (group.py:316-343) of a product, directproduct.py:440-492 *)
Definition prod_sub_of (G1 G2 : grp) (id : pid) : res (@prod_sub val) :=
  match id with
  | PPair a b =>
      i1 <- to_sgid a ;; i2 <- to_sgid b ;;
      S1 <- fin_sub G1 i1 ;; S2 <- fin_sub G2 i2 ;;
      Ret (prod_subgroup (fin_obj G1) (fin_obj G2) S1 S2)
  | _ => Raise
  end.
