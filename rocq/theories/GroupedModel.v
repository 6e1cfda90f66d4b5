(** Model of the pattern shared by the nonlinearities, pooling maps, batch
    normalisations and dropout of escnn/nn/modules: the fields of a type are
    grouped by a label (their size, or size and sub-field size, or name), the
    channels of every group are kept as a slice when they form a single run and
    as a list of indices otherwise, and the forward pass treats one group after
    the other.

    Simplifications. As in FieldModel a tensor is the list of its channels; a
    channel is an element of a type [V]. In the modules that treat every batch
    entry and position separately a channel is the value at one of them, a real
    number. *)
From Coq Require Import List ZArith Arith Bool.
From Verif Require Import LibRes LibPy FieldModel.
Import ListNotations.

Section Grouped.
Context {A L : Type}.
Variable size : A -> nat.
Variable leqb : L -> L -> bool.

(** The second loop of the constructors (norm.py:97-106, gated1.py:148-164,
    induced_norm.py:102-111, ...): the channels of a group as [min, max+1] or as a list *)
Definition buffer (idx : list (L * list nat)) (lc : L * bool) : res (L * channels) :=
  i <- lookup leqb idx (fst lc) ;;
  if (snd lc : bool) then a <- list_min i ;; b <- list_max i ;; Ret (fst lc, Run a (b + 1)) else Ret (fst lc, Listed i).
(** Both loops (norm.py:82-106): the first one collects the channels
    ([indices_by_label]) and finds the runs ([contiguous_labels]) *)
Definition buffers (ft : list A) (labels : list L) : res (list (L * channels)) :=
  mapM (buffer (indices_by_label size leqb [] 0 labels ft)) (contiguous_labels leqb [] None labels).
(** the defaultdict _nfields (norm.py:94) *)
Definition nfields (labels : list L) (l : L) : nat := length (filter (fun l' => leqb l' l) labels).
End Grouped.

(** The channels meant by `[:, indices[0]:indices[1]]` or `[:, indices]` *)
Definition positions (n : nat) (c : channels) : res (list nat) :=
  match c with
  | Run a e => slice_positions n (Some (Z.of_nat a)) (Some (Z.of_nat e)) None
  | Listed i => Ret i
  end.
Definition read {V} (x : list V) (c : channels) : res (list V) :=
  p <- positions (length x) c ;; mapM (get_nth x) p.
Fixpoint set_all {W} (out : list W) (p : list nat) (v : list W) : res (list W) :=
  match p, v with
  | [], [] => Ret out
  | i :: p', w :: v' => assert (Nat.ltb i (length out)) ;; set_all (firstn i out ++ w :: skipn (S i) out) p' v'
  | _, _ => Raise
  end.
(** `out[:, indices] = v`; a single channel is broadcast *)
Definition write {W} (out : list W) (c : channels) (v : list W) : res (list W) :=
  p <- positions (length out) c ;;
  set_all out p (match v with [w] => repeat w (length p) | _ => v end).

(** `t.view(b, -1, s, *spatial)` on a list of channels *)
Fixpoint chunks {V} (n s : nat) (l : list V) : list (list V) :=
  match n with 0 => [] | S n' => firstn s l :: chunks n' s (skipn s l) end.
Definition view {V} (s : nat) (l : list V) : res (list (list V)) :=
  assert (negb (Nat.eqb s 0)) ;;
  assert (Nat.eqb (length l mod s) 0) ;;
  Ret (chunks (length l / s) s l).

(** The loop of the forward passes (norm.py:153-196, gated1.py:223-250, ...):
    [next] is next_bias, next_gate or next_var; [proc] computes the new channels
    of a group. The tensor [out] starts as torch.empty, of arbitrary content. *)
Fixpoint grouped_loop {L V W} (leqb : L -> L -> bool) (nf : L -> nat) (inb outb : list (L * channels))
  (proc : L -> nat -> list V -> res (list W)) (x : list V) (order : list L) (next : nat) (out : list W) : res (list W) :=
  match order with
  | [] => Ret out
  | s :: order' =>
      ci <- lookup leqb inb s ;;
      co <- lookup leqb outb s ;;
      fm <- read x ci ;;
      w <- proc s next fm ;;
      out' <- write out co w ;;
      grouped_loop leqb nf inb outb proc x order' (next + nf s) out'
  end.
