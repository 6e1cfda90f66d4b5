(** Specification vocabulary for group objects and their subgroups. *)
From Coq Require Import List ZArith.
From Verif Require Import LibRes SpecGroup ProdModel.

(** The valid elements of a group object. *)
Definition el_mem {V} (G : gobj V) (e : gel V) : Prop :=
  el_grp e = g_name G /\ g_is G (el_val e) = true.

(** A group object that is a group, with an `==` that is equality. *)
Record good_gobj {V} (G : gobj V) : Prop := {
  gg_group : is_group (el_mem G) (el_mul G) (el_inv G) (el_one G);
  gg_eq : forall a b, el_mem G a -> el_mem G b -> (el_eq G a b = true <-> a = b)
}.

(** A subgroup triple whose maps are mutually inverse. *)
Record good_sub {V} (G : gobj V) (S : sub V) : Prop := {
  gs_grp : good_gobj (s_grp S);
  gs_emb : is_embedding (el_mem G) (el_mul G) (el_mem (s_grp S)) (el_mul (s_grp S)) (s_incl S);
  gs_res : is_restriction (el_mem G) (el_mem (s_grp S)) (s_incl S) (s_restr S)
}.
