(** Which entry of an expanded filter a weight multiplies. *)
From Coq Require Import String.
From Coq Require Import List ZArith Arith Bool Reals.
From Verif Require Import LibRes LibMat BlocksModel.
Import ListNotations.
Local Open Scope nat_scope.

(** The first channel (or the first irrep) of field [i]. *)
Definition field_start {A} (size : A -> nat) (ft : list A) (i : nat) : nat := list_sum (map size (firstn i ft)).

Section Elements.
Context {X : Type}.
Variable S : nat.
(** The squared norm of a sampled element over all entries and points. *)
Definition energy (o i : nat) (s : nat -> nat -> nat -> R) : R :=
  sumn o (fun a => sumn i (fun b => sumn S (fun p => s a b p * s a b p)%R)).
(** An element is divided by the root of its mean energy, unless that is tiny. *)
Definition unit_scale (o i dim : nat) (s : nat -> nat -> nat -> R) : R :=
  if Rlt_dec (energy o i s / INR dim) (1 / 10 ^ 12) then 1%R else sqrt (energy o i s / INR dim).
Definition unit_sample (kb : kbasis X nat) (e : element X nat) : nat -> nat -> nat -> R :=
  fun a b p => (el_sample e a b p / unit_scale (kb_out kb) (kb_in kb) (el_dim e) (el_sample e))%R.
(** The elements that pass the filter and do not vanish on the points. *)
Definition accepted (bf : option (attr X -> bool)) (kb : kbasis X nat) (e : element X nat) : bool :=
  match bf with Some f => f (el_attr e) | None => true end &&
  (if Rlt_dec (1 / 100) (energy (kb_out kb) (kb_in kb) (unit_sample kb e)) then true else false).
Definition kept (bf : option (attr X -> bool)) (kb : kbasis X nat) : list (attr X * (nat -> nat -> nat -> R)) :=
  map (fun e => (el_attr e, unit_sample kb e)) (filter (accepted bf kb) (kb_elements kb)).
(** The sampled elements for a pair of representations. *)
Definition elements_of {A} (generator : A -> A -> res (option (kbasis X nat))) (bf : option (attr X -> bool)) (i o : A) : list (attr X * (nat -> nat -> nat -> R)) :=
  match generator i o with Ret (Some kb) => kept bf kb | _ => [] end.
End Elements.

Section Info.
Context {A X P : Type}.
Variable name : A -> string.
Variables size nirreps : A -> nat.
Variable elements : A -> A -> list (attr X * (nat -> nat -> P -> R)).
Variables ins outs : list A.

(** The description [f] of weight [k] names existing fields and an element of
    their basis, whose attributes it carries. *)
Definition describes (k : nat) (f : info X) : Prop :=
  exists ri ro a s,
    nth_error ins (in_field_position f) = Some ri /\ nth_error outs (out_field_position f) = Some ro /\
    nth_error (elements ri ro) (block_id f) = Some (a, s) /\
    in_repr f = name ri /\ out_repr f = name ro /\
    in_irreps_position f = field_start nirreps ins (in_field_position f) + at_in a /\
    out_irreps_position f = field_start nirreps outs (out_field_position f) + at_out a /\
    i_attr f = {| at_in := at_in a; at_out := at_out a; at_id := k; at_rest := at_rest a |}.
Definition slot (f : info X) : nat * nat * nat := (out_field_position f, in_field_position f, block_id f).

(** The value the described element takes at row [r] and column [c] of the
    filter: zero outside the block of the two fields. *)
Definition element_at (f : info X) (r c : nat) (p : P) : R :=
  match nth_error outs (out_field_position f), nth_error ins (in_field_position f) with
  | Some ro, Some ri =>
      let r0 := field_start size outs (out_field_position f) in
      let c0 := field_start size ins (in_field_position f) in
      if (Nat.leb r0 r && Nat.ltb r (r0 + size ro)) && (Nat.leb c0 c && Nat.ltb c (c0 + size ri)) then
        match nth_error (elements ri ro) (block_id f) with Some (_, s) => s (r - r0) (c - c0) p | None => 0%R end
      else 0%R
  | _, _ => 0%R
  end.
End Info.
