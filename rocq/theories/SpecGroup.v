(** Specification vocabulary for groups given by operations that may raise.
    Nothing here refers to the model of the library. *)
From Coq Require Import List.
From Verif Require Import LibRes.
Import ListNotations.

Section Group.
  Context {T : Type}.
  Variable mem : T -> Prop.            (* valid elements *)
  Variable op : T -> T -> res T.       (* g @ h *)
  Variable inv : T -> res T.           (* ~g *)
  Variable e : T.                      (* identity *)

  (** The operations never raise on valid elements, stay inside the valid
      elements and satisfy the group laws. *)
  Record is_group : Prop := {
    grp_id : mem e;
    grp_op : forall a b, mem a -> mem b -> exists c, op a b = Ret c /\ mem c;
    grp_inv : forall a, mem a -> exists b, inv a = Ret b /\ mem b;
    grp_assoc : forall a b c ab bc,
      mem a -> mem b -> mem c -> op a b = Ret ab -> op b c = Ret bc ->
      op ab c = op a bc;
    grp_id_l : forall a, mem a -> op e a = Ret a;
    grp_id_r : forall a, mem a -> op a e = Ret a;
    grp_inv_l : forall a b, mem a -> inv a = Ret b -> op b a = Ret e;
    grp_inv_r : forall a b, mem a -> inv a = Ret b -> op a b = Ret e
  }.

  (** [generated gens x]: x is a product of generators. *)
  Inductive generated (gens : list T) : T -> Prop :=
  | gen_id : generated gens e
  | gen_mul : forall g x y, In g gens -> generated gens x -> op g x = Ret y ->
      generated gens y.
End Group.

(** [l] lists every valid element exactly once. *)
Definition enumerates {T} (mem : T -> Prop) (l : list T) : Prop :=
  NoDup l /\ forall x, In x l <-> mem x.

Section Sub.
  Context {T S : Type}.
  Variable memG : T -> Prop.
  Variable opG : T -> T -> res T.
  Variable memH : S -> Prop.
  Variable opH : S -> S -> res S.
  Variable incl : S -> res T.
  Variable restr : T -> res (option S).   (* Ret None: "not in the subgroup" *)

  (** Inclusion: total on the subgroup, injective, multiplicative. *)
  Record is_embedding : Prop := {
    emb_mem : forall h, memH h -> exists g, incl h = Ret g /\ memG g;
    emb_inj : forall h1 h2, memH h1 -> memH h2 -> incl h1 = incl h2 -> h1 = h2;
    emb_mul : forall h1 h2 h12 g1 g2,
      memH h1 -> memH h2 -> opH h1 h2 = Ret h12 ->
      incl h1 = Ret g1 -> incl h2 = Ret g2 ->
      incl h12 = opG g1 g2
  }.

  (** Restriction: never raises on valid elements, returns the preimage
      exactly when there is one and [None] exactly when there is none. *)
  Record is_restriction : Prop := {
    res_total : forall g, memG g -> exists o, restr g = Ret o;
    res_some : forall g h, memG g ->
      (restr g = Ret (Some h) <-> memH h /\ incl h = Ret g);
    res_none : forall g, memG g ->
      (restr g = Ret None <-> ~ exists h, memH h /\ incl h = Ret g)
  }.
End Sub.
