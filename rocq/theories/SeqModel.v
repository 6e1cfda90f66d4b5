(** SequentialModule, nn/modules/sequential_module.py:57-135. *)
From Coq Require Import String DecimalString List ZArith Arith Bool.
From Verif Require Import LibRes LibPy.
Import ListNotations.

(** str of a nonnegative int *)
Definition str (n : nat) : string := NilEmpty.string_of_uint (Nat.to_uint n).

Section Seq.
(** Modules [M] with their declared types and their forward functions on
    tensors [X]; equality of types.  The names refused by
    torch.nn.Module.add_module: empty, containing a dot, or an attribute. *)
Context {M T X : Type}.
Variables (tin tout : M -> T) (run : M -> X -> res X) (typ : X -> T) (teqb : T -> T -> bool).
Variable refused : string -> bool.

(** The state of the object: in_type, out_type and the dictionary _modules. *)
Record seq_state := { s_in : option T; s_out : option T; s_mods : list (string * M) }.
Definition empty_seq : seq_state := {| s_in := None; s_out := None; s_mods := [] |}.
(** EquivariantModule types compared with an attribute that can be None *)
Definition opt_eqb (a : T) (b : option T) : bool := match b with Some t => teqb a t | None => false end.

(** add_module 94-108; torch's add_module assigns self._modules[name] *)
Definition add_module (s : seq_state) (name : string) (m : M) : res seq_state :=
  i <- (if Nat.eqb (length (s_mods s)) 0 then
          match s_in s, s_out s with None, None => Ret (Some (tin m)) | _, _ => Raise end
        else assert (opt_eqb (tin m) (s_out s)) ;; Ret (s_in s)) ;;
  assert (negb (refused name)) ;;
  Ret {| s_in := i; s_out := Some (tout m); s_mods := dset String.eqb (s_mods s) name m |}.
Definition add_all (l : list (string * M)) (s : seq_state) : res seq_state :=
  fold_left (fun r km => s <- r ;; add_module s (fst km) (snd km)) l (Ret s).
(** __init__ 57-69 with an OrderedDict and with modules *)
Definition from_dict (d : list (string * M)) : res seq_state := add_all d empty_seq.
Definition from_args (ms : list M) : res seq_state := add_all (combine (map str (seq 0 (length ms))) ms) empty_seq.
(** append 110-114 *)
Definition append (s : seq_state) (m : M) : res seq_state := add_module s (str (length (s_mods s))) m.
(** __getitem__ with a slice 116-118 *)
Definition slice (s : seq_state) (a b k : option Z) : res seq_state :=
  d <- py_slice (s_mods s) a b k ;; from_dict d.
(** __getitem__ with an int 119-125 *)
Definition seq_get (s : seq_state) (i : Z) : res M :=
  let n := Z.of_nat (length (s_mods s)) in
  assert ((- n <=? i) && (i <? n))%Z ;; get_nth (map snd (s_mods s)) (Z.to_nat (i mod n)).
(** forward 72-92 *)
Definition forward (s : seq_state) (x : X) : res X :=
  assert (opt_eqb (typ x) (s_in s)) ;;
  y <- fold_left (fun r m => x <- r ;; run m x) (map snd (s_mods s)) (Ret x) ;;
  assert (opt_eqb (typ y) (s_out s)) ;; Ret y.

(** Calls on one object after its construction; a slice goes on with the new object. *)
Inductive op := Append (m : M) | Slice (a b k : option Z).
Definition step (r : res seq_state) (o : op) : res seq_state :=
  s <- r ;; match o with Append m => append s m | Slice a b k => slice s a b k end.
Inductive start := Args (ms : list M) | Dict (d : list (string * M)).
Definition begin (b : start) : res seq_state := match b with Args ms => from_args ms | Dict d => from_dict d end.
Definition history (b : start) (ops : list op) : res seq_state := fold_left step ops (begin b).
End Seq.
Arguments seq_state : clear implicits.
Arguments op : clear implicits.
Arguments start : clear implicits.
