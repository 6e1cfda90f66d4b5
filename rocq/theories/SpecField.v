(** Which channels belong to which field. *)
From Coq Require Import List ZArith Arith.
From Verif Require Import LibRes.
Import ListNotations.

(** The channels of field [i], when the fields are stored one after the other. *)
Definition field_chans {A V} (size : A -> nat) (ft : list A) (chans : list V) (i : nat) : list V :=
  match nth_error ft i with
  | None => []
  | Some r => firstn (size r) (skipn (list_sum (map size (firstn i ft))) chans)
  end.

(** [(ft', chans')] consists of the fields [sel] of [(ft, chans)], in that order. *)
Definition picks {A V} (size : A -> nat) (ft : list A) (chans : list V) (sel : list nat) (ft' : list A) (chans' : list V) : Prop :=
  map (nth_error ft) sel = map Some ft' /\ chans' = flat_map (field_chans size ft chans) sel.

(** The fields that carry the label [l], in order. *)
Definition labelled {L} (leqb : L -> L -> bool) (labels : list L) (l : L) : list nat :=
  filter (fun i => match nth_error labels i with Some l' => leqb l' l | None => false end) (seq 0 (length labels)).

(** [l] lists the numbers a, a+1, ..., b-1 in some order. *)
Definition consecutive (l : list Z) : Prop :=
  exists a b, (0 <= a)%Z /\ forall z, In z l <-> (a <= z < b)%Z.

From Verif Require Import LibPy FieldModel.
(** The positions an index expression means on an axis of length [n], as for
    Python sequences and masks. *)
Definition means (n : nat) (i : index) (sel : list nat) : Prop :=
  match i with
  | IInt z => exists p, py_index n z = Ret p /\ sel = [p]
  | ISlice a b k => slice_positions n a b k = Ret sel
  | IBool mask => (n <= length mask)%nat /\ sel = filter (fun p => nth p mask false) (seq 0 n)
  | ILong l => mapM (py_index n) l = Ret sel
  | IEllipsis => False
  end.

(** The expression that indexes axis [a] of a tensor with [naxes] axes. *)
Inductive entry (naxes : nat) : list index -> nat -> option index -> Prop :=
| entry_plain : forall s a, ~ In IEllipsis s -> entry naxes s a (nth_error s a)
| entry_ellipsis : forall pre post a, ~ In IEllipsis pre -> ~ In IEllipsis post ->
    entry naxes (pre ++ IEllipsis :: post) a
      (if Nat.ltb a (length pre) then nth_error pre a
       else if Nat.ltb a (naxes - length post) then Some (ISlice None None None)
       else nth_error post (a - (naxes - length post))).

(** a < l[0] < l[1] < ... *)
Fixpoint rising (a : nat) (l : list nat) : Prop := match l with [] => True | b :: l' => (a < b)%nat /\ rising b l' end.
(** The fields of the pieces between consecutive breaks. *)
Fixpoint between (a : nat) (l : list nat) : list (list nat) :=
  match l with [] => [] | b :: l' => seq a (b - a) :: between b l' end.
