(** Model of homomorphism_space (escnn/group/representation.py:1068-1116) and
    Representation.endomorphism_basis (391-435).

    Simplifications. Two irreps of a group are equal (`==`, 369-377) when their
    ids are equal: the name and everything else compared there is determined by
    the id. An array of matrices is the list of its matrices; the size of the
    irreps adds up to the size of the representation (checked by the constructor,
    RepModel), so every slice assigned to lies in the array. The assignment of
    endomorphism_basis() to sum_of_squares_constituents many slices (1104-1108) needs
    as many matrices; numpy would also broadcast a single one, which is refused here.
    The assert on the groups (1081) is left to the types. *)
From Coq Require Import Reals List ZArith Arith Bool.
From Verif Require Import LibRes LibMat RepModel.
Import ListNotations.
Open Scope R_scope.

(** zeros with E at rows j..j+n-1 and columns i..i+n-1: `basis[k, j:j+n, i:i+n] = E` *)
Definition placed (j i n : nat) (E : mat) : mat :=
  fun a b => if Nat.leb j a && Nat.ltb a (j + n) && (Nat.leb i b && Nat.ltb b (i + n)) then E (a - j)%nat (b - i)%nat else 0.

Section Endo.
Context {T : Type}.
Variable irr : list Z -> res (girrep T).

(** the inner loop 1099-1112 (421-431): [i] is the column of in_irrep, [j] the row *)
Fixpoint hom_out (x : girrep T) (i : nat) (outs : list (girrep T)) (j : nat) : res (list mat) :=
  match outs with
  | [] => Ret []
  | y :: outs' =>
      l <- (if list_eq_dec Z.eq_dec (gi_id y) (gi_id x) then
              assert (Nat.eqb (length (gi_endo x)) (gi_sosc x)) ;; Ret (map (placed j i (gi_size x)) (gi_endo x))
            else Ret []) ;;
      l' <- hom_out x i outs' (j + gi_size y) ;;
      Ret (l ++ l')%list
  end.
(** the outer loop 1094-1113 (416-432) *)
Fixpoint hom_in (ins : list (girrep T)) (i : nat) (outs : list (girrep T)) : res (list mat) :=
  match ins with
  | [] => Ret []
  | x :: ins' =>
      l <- hom_out x i outs 0 ;;
      l' <- hom_in ins' (i + gi_size x) outs ;;
      Ret (l ++ l')%list
  end.
(** homomorphism_space 1068-1116 *)
Definition homomorphism_space (r1 r2 : repr T) : res (list mat) :=
  ins <- mapM irr (r_irreps r1) ;;
  outs <- mapM irr (r_irreps r2) ;;
  basis <- hom_in ins 0 outs ;;
  Ret (map (fun B => mmul (r_size r1) (mmul (r_size r2) (r_cob r2) B) (r_inv r1)) basis).
(** endomorphism_basis 391-435: the same loops with self for both *)
Definition repr_endomorphisms (r : repr T) : res (list mat) :=
  ins <- mapM irr (r_irreps r) ;;
  basis <- hom_in ins 0 ins ;;
  Ret (map (fun B => mmul (r_size r) (mmul (r_size r) (r_cob r) B) (r_inv r)) basis).
End Endo.
