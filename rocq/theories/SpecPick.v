(** Specification vocabulary for the picklable form of subgroup ids. *)
From Coq Require Import String List ZArith.
From Verif Require Import LibRes ProdModel PickModel.
Import ListNotations.

(** Ids whose elements are valid elements of one of the groups [gs], without empty
    tuples and without tuples that begin with one of the strings [tags]. *)
Inductive plain {U} (valid : gname -> U -> bool) (gs : list gname) (tags : list string) : pyid U -> Prop :=
| plain_int n : plain valid gs tags (YInt n)
| plain_bool b : plain valid gs tags (YBool b)
| plain_none : plain valid gs tags YNone
| plain_str s : plain valid gs tags (YStr s)
| plain_elem g : In (el_grp g) gs -> valid (el_grp g) (el_val g) = true -> plain valid gs tags (YElem g)
| plain_tup y l : (forall t, In t tags -> y <> YStr t) -> (forall x, In x (y :: l) -> plain valid gs tags x) ->
    plain valid gs tags (YTup (y :: l)).

(** The encoded form has no group elements in it. *)
Inductive no_elements {U} : pyid U -> Prop :=
| ne_int n : no_elements (YInt n)
| ne_bool b : no_elements (YBool b)
| ne_none : no_elements YNone
| ne_str s : no_elements (YStr s)
| ne_val u : no_elements (YVal u)
| ne_tup l : (forall x, In x l -> no_elements x) -> no_elements (YTup l).

(** A value that occurs in an id. *)
Inductive occurs {U} (g : gel U) : pyid U -> Prop :=
| occ_here : occurs g (YElem g)
| occ_in x l : In x l -> occurs g x -> occurs g (YTup l).

(** The strings that mark encoded elements. *)
Definition group_tags : list string := ["GROUPELEMENT"%string].
Definition product_tags : list string := ["G"%string; "G1"%string; "G2"%string].
