(** Model of the breadth-first generation of irrep matrices from generators.
    Source: /repo/escnn/group/irrep.py:162-222.
    Python sets are lists without repetition; the order in which a set is
    iterated is not defined by Python, so it is the parameter [order].
    The `while` loop takes fuel; running out of fuel is [Raise] and the
    theorems hold for every sufficient amount. *)
From Coq Require Import Reals ZArith Bool List.
From Verif Require Import LibRes LibMat LibTrig ParamModel PlanarModel IrrepModel RepModel.
Import ListNotations.
Open Scope R_scope.

Section Gen.
Context {T : Type}.
(** `==` of group elements, which also decides set and dictionary membership *)
Variable eqb : T -> T -> bool.
Variable op : T -> T -> res T.          (* g @ e *)
Variable inv : T -> res T.              (* ~g *)
Variable e : T.                         (* group.identity *)
Variable els : list T.                  (* group.elements; group.order() is its length *)
Variable order : list T -> list T.      (* iteration order of a set *)

(** x in s *)
Definition smem (x : T) (s : list T) : bool := existsb (eqb x) s.
(** s | {x} *)
Definition sadd (s : list T) (x : T) : list T := if smem x s then s else s ++ [x].

(** rho[x] of a dictionary; a missing key is a KeyError *)
Fixpoint dget (rho : list (T * mat)) (x : T) : res mat :=
  match rho with
  | [] => Raise
  | (y, A) :: rho' => if eqb x y then Ret A else dget rho' x
  end.
(** x in rho *)
Definition dmem (rho : list (T * mat)) (x : T) : bool := smem x (map fst rho).
(** rho[x] = A *)
Fixpoint dset (rho : list (T * mat)) (x : T) (A : mat) : list (T * mat) :=
  match rho with
  | [] => [(x, A)]
  | (y, B) :: rho' => if eqb x y then (y, A) :: rho' else (y, B) :: dset rho' x A
  end.

(** irrep.py:183-187: the dictionary of the generators, then the identity *)
Definition init_rho (gens : list (T * (nat * mat))) : list (T * mat) :=
  dset (fold_left (fun rho ga => dset rho (fst ga) (snd (snd ga))) gens []) e mid.

(** irrep.py:195-201: one generator and one element *)
Definition visit (d : nat) (g : T) (st : list (T * mat) * list T) (x : T) : res (list (T * mat) * list T) :=
  let '(rho, new) := st in
  gx <- op g x ;;
  rho <- (if dmem rho gx then Ret rho
          else A <- dget rho g ;; B <- dget rho x ;; Ret (dset rho gx (mmul d A B))) ;;
  gi <- inv g ;; gix <- op gi x ;;
  rho <- (if dmem rho gix then Ret rho
          else A <- dget rho g ;; B <- dget rho x ;; Ret (dset rho gix (mmul d (mtr A) B))) ;;
  Ret (rho, sadd (sadd new gx) gix).

Fixpoint foldM {A B} (f : B -> A -> res B) (l : list A) (b : B) : res B :=
  match l with [] => Ret b | a :: l' => b <- f b a ;; foldM f l' b end.

(** irrep.py:191-203 *)
Fixpoint bfs (fuel : nat) (d : nat) (gens : list T) (rho : list (T * mat)) (elements added : list T)
    : res (list (T * mat) * list T) :=
  match fuel with
  | O => Raise
  | S fuel =>
      match added with
      | [] => Ret (rho, elements)
      | _ =>
          st <- foldM (fun st g => foldM (visit d g) (order added) st) gens (rho, []) ;;
          let added := filter (fun x => negb (smem x elements)) (snd st) in
          bfs fuel d gens (fst st) (elements ++ added) added
      end
  end.

(** irrep.py:207-220 *)
Definition check_all (d : nat) (rho : list (T * mat)) (elements : list T) : res unit :=
  _ <- mapM (fun a =>
    ai <- inv a ;;
    assert (smem ai elements) ;;
    Ai <- dget rho ai ;; A <- dget rho a ;;
    assert (allclose d d Ai (mtr A)) ;;
    _ <- mapM (fun b =>
      ab <- op a b ;;
      assert (smem ab elements) ;;
      B <- dget rho b ;; AB <- dget rho ab ;;
      assert (allclose d d (mmul d A B) AB) ;; Ret tt) (order elements) ;;
    Ret tt) (order elements) ;;
  Ret tt.

(** generate_irrep_matrices_from_generators irrep.py:162-222. A generator comes
    with a square matrix and its size. *)
Definition generate (fuel : nat) (gens : list (T * (nat * mat))) : res (list (T * mat)) :=
  assert (Nat.ltb 0 (length els)) ;;
  match gens with
  | [] => Raise                      (* generators[0] *)
  | (_, (d, _)) :: _ =>
      _ <- mapM (fun ga => assert (Nat.eqb (fst (snd ga)) d) ;; Ret tt) gens ;;
      r <- bfs fuel d (map fst gens) (init_rho gens) [e] [e] ;;
      let '(rho, elements) := r in
      assert (Nat.eqb (length elements) (length els)) ;;
      _ <- check_all d rho elements ;;
      Ret rho
  end.
End Gen.
