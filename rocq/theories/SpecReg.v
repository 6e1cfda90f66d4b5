(** Regular representations and coset representatives, said without the model. *)
From Coq Require Import Reals ZArith List.
From Verif Require Import LibRes LibMat SpecRep RepModel.
Import ListNotations.
Open Scope R_scope.

(** [eqb] decides equality of valid elements. *)
Definition decides {T} (mem : T -> Prop) (eqb : T -> T -> bool) : Prop :=
  forall x y, mem x -> mem y -> (eqb x y = true <-> x = y).

(** [A] permutes the axes like [g] permutes the elements: A e_y = e_{g y}. *)
Definition permutes {T} (op : T -> T -> res T) (els : list T) (g : T) (A : mat) : Prop :=
  forall i j x y z, nth_error els i = Some x -> nth_error els j = Some y -> op g y = Ret z ->
    (x = z -> A i j = 1) /\ (x <> z -> A i j = 0).

(** An irrep of a finite group as the library describes it: orthogonal, with its
    character, and of the shape its type claims: the first size / sosc diagonal
    entries carry the same share of the trace as any others. *)
Definition typed_irrep {T} (mem : T -> Prop) (op : T -> T -> res T) (inv : T -> res T) (e : T) (s : girrep T) : Prop :=
  (0 < gi_size s)%nat /\ (0 < gi_sosc s)%nat /\ (exists m, gi_size s = m * gi_sosc s)%nat /\
  orth_rep mem op inv e (gi_size s) (gi_rep s) /\ is_character mem (gi_size s) (gi_rep s) (gi_char s) /\
  forall g A, mem g -> gi_rep s g = Ret (gi_size s, A) ->
    INR (gi_sosc s) * sumn (gi_size s / gi_sosc s) (fun a => A a a) = trace (gi_size s) A.

(** The list of irreps is complete: their characters, weighted by the
    multiplicities, add up to the character of the regular representation. *)
Definition complete_irreps {T} (mem : T -> Prop) (e : T) (n : nat) (ss : list (girrep T)) : Prop :=
  forall g, mem g -> exists cs,
    mapM (fun s => c <- gi_char s g ;; Ret (INR (gi_size s / gi_sosc s) * c)) ss = Ret cs /\
    (g = e -> fold_right Rplus 0 cs = INR n) /\ (g <> e -> fold_right Rplus 0 cs = 0).

(** [reps] contains exactly one element of every left coset x H. *)
Definition transversal {T S} (mem : T -> Prop) (op : T -> T -> res T) (memH : S -> Prop)
    (incl : S -> res T) (reps : list T) : Prop :=
  NoDup reps /\ Forall mem reps /\
  forall x, mem x -> exists r, In r reps /\ (exists h g, memH h /\ incl h = Ret g /\ op r g = Ret x) /\
    forall r', In r' reps -> (exists h g, memH h /\ incl h = Ret g /\ op r' g = Ret x) -> r' = r.

(** One of the irreps is the trivial one. *)
Definition has_trivial {T} (mem : T -> Prop) (ss : list (girrep T)) : Prop :=
  exists s, In s ss /\ gi_size s = 1%nat /\ gi_sosc s = 1%nat /\
    forall g A, mem g -> gi_rep s g = Ret (1%nat, A) -> A 0%nat 0%nat = 1.
