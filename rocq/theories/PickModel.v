(** Model of the picklable form of subgroup ids, used as a key of the cache of
    restricted irreps (escnn/group/irrep.py:240, 286):
    Group._encode/_decode_subgroup_id_pickleable (escnn/group/group.py:866-887) and
    those of DirectProductGroup (escnn/group/directproduct.py:616-648).

    Simplifications. An id is a Python value built of ints, booleans, None, strings,
    group elements and tuples; the values [U] of group elements are opaque. Which
    values a group accepts is a parameter [valid]: element(value, param) with the
    parametrisation the value is stored in. Groups are equal when their names are. *)
From Coq Require Import String List ZArith Bool.
From Verif Require Import LibRes ProdModel.
Import ListNotations.
Open Scope string_scope.

Inductive pyid (U : Type) :=
| YInt (n : Z) | YBool (b : bool) | YNone | YStr (s : string)
| YElem (g : gel U)
| YVal (u : U)                (* the value of an element, `id.value` *)
| YTup (l : list (pyid U)).
Arguments YInt {U}. Arguments YBool {U}. Arguments YNone {U}. Arguments YStr {U}.
Arguments YElem {U}. Arguments YVal {U}. Arguments YTup {U}.

(** the loops over the entries of a tuple, [LibRes.mapM] in a form that allows the
    recursion below *)
Definition each {A B} (f : A -> res B) : list A -> res (list B) :=
  fix go l := match l with [] => Ret [] | a :: l' => b <- f a ;; bs <- go l' ;; Ret (b :: bs) end.
(** `id[0] == s` *)
Definition is_str {U} (y : pyid U) (s : string) : bool := match y with YStr t => t =? s | _ => false end.

Section Pick.
  Context {U : Type}.
  Variable valid : gname -> U -> bool.
  Variable param : gname -> string.

  (** Group.element group.py:92-113: what is not a value of the group raises *)
  Definition element_of (G : gname) (y : pyid U) : res (pyid U) :=
    match y with
    | YVal u => if valid G u then Ret (YElem (El G u)) else Raise
    | _ => Raise
    end.

  (** group.py:879-887 *)
  Fixpoint encode (y : pyid U) : pyid U :=
    match y with
    | YElem g => YTup [YStr "GROUPELEMENT"; YVal (el_val g); YStr (param (el_grp g))]
    | YTup l => YTup (map encode l)
    | _ => y
    end.
  (** group.py:866-877; `id[0]`, `id[1]` and `id[2]` raise IndexError on short tuples *)
  Fixpoint decode (G : gname) (y : pyid U) : res (pyid U) :=
    match y with
    | YTup l =>
        match l with
        | [] => Raise
        | h :: rest =>
            if is_str h "GROUPELEMENT" then match rest with v :: _ :: _ => element_of G v | _ => Raise end
            else l' <- each (decode G) l ;; Ret (YTup l')
        end
    | _ => Ret y
    end.

  (** directproduct.py:633-648 *)
  Fixpoint prod_encode (G1 G2 : gname) (y : pyid U) : res (pyid U) :=
    match y with
    | YElem g =>
        let enc t := Ret (YTup [YStr t; YVal (el_val g); YStr (param (el_grp g))]) in
        if gname_eqb (el_grp g) (NProd G1 G2) then enc "G"
        else if gname_eqb (el_grp g) G1 then enc "G1"
        else if gname_eqb (el_grp g) G2 then enc "G2"
        else Raise
    | YTup l => l' <- each (prod_encode G1 G2) l ;; Ret (YTup l')
    | _ => Ret y
    end.
  (** directproduct.py:616-631 *)
  Fixpoint prod_decode (G1 G2 : gname) (y : pyid U) : res (pyid U) :=
    match y with
    | YTup l =>
        match l with
        | [] => Raise
        | h :: rest =>
            let elem G := match rest with v :: _ :: _ => element_of G v | _ => Raise end in
            if is_str h "G" then elem (NProd G1 G2)
            else if is_str h "G1" then elem G1
            else if is_str h "G2" then elem G2
            else l' <- each (prod_decode G1 G2) l ;; Ret (YTup l')
        end
    | _ => Ret y
    end.
End Pick.
