(** What a sequence of modules should do. *)
From Coq Require Import String List ZArith Arith Bool.
From Verif Require Import LibRes LibPy SeqModel.
Import ListNotations.

(** The modules supplied so far, as for a Python list. *)
Definition supplied {M} (r : res (list M)) (o : op M) : res (list M) :=
  l <- r ;; match o with Append m => Ret (l ++ [m])%list | Slice a b k => py_slice l a b k end.
Definition all_supplied {M} (b : start M) (ops : list (op M)) : res (list M) :=
  fold_left supplied ops (Ret match b with Args ms => ms | Dict d => map snd d end).

(** Each module takes what the previous one gives. *)
Fixpoint chained {M T} (tin tout : M -> T) (l : list M) : Prop :=
  match l with
  | m :: (m' :: _) as l' => tout m = tin m' /\ chained tin tout l'
  | _ => True
  end.
(** [y] results from [x] by running the modules one after the other. *)
Inductive runs {M X} (run : M -> X -> res X) : list M -> X -> X -> Prop :=
| runs_nil : forall x, runs run [] x x
| runs_cons : forall m l x y z, run m x = Ret y -> runs run l y z -> runs run (m :: l) x z.

(** No module is appended to the result of a slice that drops leading modules,
    skips modules or reverses them, and none to a module built from named ones. *)
Definition from_start (o : option Z) : bool := match o with None | Some 0%Z => true | _ => false end.
Definition unit_step (o : option Z) : bool := match o with None | Some 1%Z => true | _ => false end.
Fixpoint numbered {M} (clean : bool) (ops : list (op M)) : bool :=
  match ops with
  | [] => true
  | Append _ :: ops' => clean && numbered clean ops'
  | Slice a _ k :: ops' => numbered (clean && from_start a && unit_step k) ops'
  end.
Definition well_numbered {M} (b : start M) (ops : list (op M)) : bool :=
  numbered (match b with Args _ => true | Dict _ => false end) ops.
