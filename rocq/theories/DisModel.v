(** Model of `disentangle`. Source: /repo/escnn/group/representation.py:588-722.
    The names and the supported nonlinearities of the returned
    representations are left out. *)
From Coq Require Import Reals ZArith Bool List.
From Verif Require Import LibRes LibMat LibTrig ParamModel IrrepModel RepModel.
Import ListNotations.
Open Scope R_scope.

Section Disentangle.
Context {T : Type}.
Variable irr : list Z -> res (girrep T).
Variable linv : nat -> mat -> res mat.
(** scipy connected_components of an n x n graph: number and labels *)
Variable components : nat -> (nat -> nat -> bool) -> nat * (nat -> nat).

(** irreps_pos[i], representation.py:653 *)
Definition ipos (sizes : list nat) (i : nat) : nat := list_sum (firstn i sizes).

(** cob_mask[:, i_pos:i_pos + irr.size].any(axis=1)[row], representation.py:649-650, 656-660 *)
Definition irrep_mask (n : nat) (cob : mat) (sizes : list nat) (i row : nat) : bool :=
  existsb (fun c => Nat.ltb c n && negb (np_isclose (/ 10 ^ 8) (cob row c) 0)) (seq (ipos sizes i) (nth i sizes 0%nat)).

(** graph, representation.py:664-666; the first [m] vertices are the irreps *)
Definition dis_graph (m n : nat) (cob : mat) (sizes : list nat) (a b : nat) : bool :=
  if Nat.ltb a m
  then (if Nat.ltb b m then false else irrep_mask n cob sizes a (b - m)%nat)
  else (if Nat.ltb b m then irrep_mask n cob sizes b (a - m)%nat else false).

(** One pass of the loop over the blocks, representation.py:683-715. *)
Definition dis_block (r : repr T) (irreps : list (girrep T)) (lab : nat -> nat) (b : nat) : res (repr T) :=
  let m := length irreps in
  let sizes := map gi_size irreps in
  let ii := filter (fun i => Nat.eqb (lab i) b) (seq 0 m) in
  let rr := filter (fun j => Nat.eqb (lab (m + j)%nat) b) (seq 0 (r_size r)) in
  assert (Nat.eqb (list_sum (map (fun i => nth i sizes 0%nat) ii)) (length rr)) ;;
  let cc := flat_map (fun i => seq (ipos sizes i) (nth i sizes 0%nat)) ii in
  assert (Nat.eqb (length cc) (length rr)) ;;
  mk_repr irr linv (flat_map (fun i => match nth_error irreps i with Some s => [gi_id s] | None => [] end) ii)
    (length rr) (fun x y => r_cob r (nth x rr 0%nat) (nth y cc 0%nat)) None.

(** disentangle representation.py:588-722. The rows of the returned matrix are
    filled block after block with the unit vectors of the rows of the block. *)
Definition disentangle (r : repr T) : res (mat * list (repr T)) :=
  irreps <- mapM irr (r_irreps r) ;;
  let m := length irreps in
  let n := r_size r in
  let c := components (m + n)%nat (dis_graph m n (r_cob r) (map gi_size irreps)) in
  let lab := snd c in
  reps <- mapM (dis_block r irreps lab) (seq 0 (fst c)) ;;
  let order := flat_map (fun b => filter (fun j => Nat.eqb (lab (m + j)%nat) b) (seq 0 n)) (seq 0 (fst c)) in
  Ret (fun i j => match nth_error order i with Some k => if Nat.eqb k j then 1 else 0 | None => 0 end, reps).
End Disentangle.
