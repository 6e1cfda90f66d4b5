(** Specification vocabulary for nested direct products. *)
From Coq Require Import List Ascii String.
From Verif Require Import NestModel.
Import ListNotations.
Open Scope list_scope.

Definition bar := ch "|".

(** Well-formed atoms: the default parametrisation is one of the accepted ones, and
    the names of parametrisations are non-empty words without bars or brackets. *)
Definition plain (s : str) : Prop :=
  s <> [] /\ ~ In bar s /\ ~ In (ch "[") s /\ ~ In (ch "]") s.
Fixpoint wf {A} (g : gtree A) : Prop :=
  match g with
  | Atom p ps _ => In p ps /\ Forall plain ps
  | Node l r => wf l /\ wf r
  end.

(** Every product has a right factor that is not itself a product. *)
Fixpoint left_nested {A} (g : gtree A) : Prop :=
  match g with
  | Atom _ _ _ => True
  | Node l (Atom _ _ _) => left_nested l
  | Node _ (Node _ _) => False
  end.

(** A value is valid when each component passes the test of its own group. *)
Fixpoint valid_value {A} (g : gtree A) (v : vtree A) : Prop :=
  match g, v with
  | Atom p _ ok, VAtom a => ok p a = true
  | Node l r, VNode x y => valid_value l x /\ valid_value r y
  | _, _ => False
  end.
