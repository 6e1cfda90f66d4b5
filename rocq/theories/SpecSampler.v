(** What the messages of a point convolution are. *)
From Coq Require Import String Ascii.
From Coq Require Import List Arith Bool Reals.
From Verif Require Import LibRes LibMat BlocksModel SpecBlocks.
Import ListNotations.
Local Open Scope nat_scope.

(** The elements for a pair of representations: those that pass the filter, times their `shape[0]`. *)
Definition scaled_elements {A X P} (generator : A -> A -> res (option (kbasis X P))) (bf : option (attr X -> bool)) (i o : A) : list (attr X * (nat -> nat -> P -> R)) :=
  match generator i o with
  | Ret (Some kb) => map (fun e => (el_attr e, fun a c p => el_sample e a c p * INR (el_dim e))%R)
                       (filter (fun e => match bf with Some f => f (el_attr e) | None => true end) (kb_elements kb))
  | _ => []
  end.

(** A name of an attribute of a module has no dot. *)
Fixpoint dotless (s : string) : Prop := match s with EmptyString => True | String c s' => c <> "."%char /\ dotless s' end.

(** Row [r] of a filter applied to group [g] of the features [x], where a group has [n] channels. *)
Definition row_message (n : nat) (F : nat -> nat -> R) (x : list R) (r g : nat) : R :=
  sumn n (fun c => F r c * nth (g * n + c)%nat x 0)%R.

(** How many fields before [o] carry the same name, and how many fields carry a name. *)
Definition earlier {A} (name : A -> string) (ft : list A) (o : nat) (l : string) : nat :=
  List.length (filter (fun r => String.eqb (name r) l) (firstn o ft)).
Definition carrying {A} (name : A -> string) (ft : list A) (l : string) : nat :=
  List.length (filter (fun r => String.eqb (name r) l) ft).

(** The fields with name [l] take up consecutive channels. *)
Definition one_run {A} (name : A -> string) (size : A -> nat) (ft : list A) (l : string) : Prop :=
  exists a k, forall c, (a <= c < a + k) <-> exists o r, nth_error ft o = Some r /\ name r = l /\ field_start size ft o <= c < field_start size ft o + size r.

(** Only one representation occurs. *)
Definition one_kind {A} (ft : list A) : Prop := ft <> [] /\ forall a b, In a ft -> In b ft -> a = b.
(** [ft] consists of [groups] copies of [period]. *)
Definition copies {A} (groups : nat) (period : list A) : list A := concat (repeat period groups).

(** Weights and features that fit a sampler with [dim] weights and types of sizes [n] and [m]. *)
Definition fitting (dim n m : nat) (w x : list R) (groups : nat) : Prop :=
  List.length w = dim /\ List.length x = n * groups /\ 0 < groups /\ m mod groups = 0.
(** The filter that the weights [w] stand for: the sum of the described elements, each times its weight. *)
Definition drawn {A X P} (size : A -> nat) (elements : A -> A -> list (attr X * (nat -> nat -> P -> R))) (ins outs : list A) (infos : list (info X)) (w : list R) (pt : P) (r e : nat) : R :=
  sumn (List.length infos) (fun k => nth k w 0 * match nth_error infos k with Some f => element_at size elements ins outs f r e pt | None => 0 end)%R.
