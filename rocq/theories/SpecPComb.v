(** Specification vocabulary for nested subgroups of a direct product. *)
From Coq Require Import List ZArith.
From Verif Require Import LibRes SpecFinGroup FinGroupModel ProdModel SpecProd PCombModel.

(** The Python value of an id of a subgroup of C_N or D_N. *)
Definition of_sgid (i : sgid) : pid :=
  match i with
  | IdC M => PInt M
  | IdD None M => PPair PNone (PInt M)
  | IdD (Some a) M => PPair (PInt a) (PInt M)
  end.

(** T is the same group as S, included the way S is included in H and then H by
    [up] in the whole group. *)
Definition nested_in {V} (T S : @prod_sub V) (up : gel (V * V) -> res (gel (V * V))) : Prop :=
  match T, S with
  | SubOne K incl _, SubOne K' incl' _ =>
      K = K' /\ forall e, el_mem K e -> incl e = (m <- incl' e ;; up m)
  | SubProd K incl _, SubProd K' incl' _ =>
      K = K' /\ forall e, el_mem K e -> incl e = (m <- incl' e ;; up m)
  | _, _ => False
  end.

(** A subgroup of order one. *)
Definition trivial_id (i : sgid) : Prop := i = IdC 1 \/ i = IdD None 1.
