(** Model of induced representations of a finite group.
    Sources: /repo/escnn/group/homspace.py:62-73, 161-243,
      /repo/escnn/group/representation.py:896-1002, /repo/escnn/group/group.py:508-579.
    [T] and [S] are the elements of the group and of the subgroup. An array of
    shape (rows, m, columns) is the list of its m slices. *)
From Coq Require Import Reals ZArith Bool List.
From Verif Require Import LibRes LibMat LibTrig ParamModel IrrepModel RepModel RegModel.
Import ListNotations.
Open Scope R_scope.

Section Induced.
Context {T S : Type}.
Variables (irrG : list Z -> res (girrep T)) (irrH : list Z -> res (girrep S)).
(** rho.restrict(self.sgid) *)
Variable restrict : list Z -> res (repr S).
(** scipy connected_components of an n x n graph: number and labels *)
Variable components : nat -> (nat -> nat -> bool) -> nat * (nat -> nat).
Variable linv : nat -> mat -> res mat.

(** homspace.py:189-190: the columns b with sum_k E_k[0, b]^2 > eps *)
Definition nonnull (psi : girrep S) : list nat :=
  filter (fun b => negb (Rleb (fold_right Rplus 0 (map (fun E : mat => E 0%nat b ^ 2) (gi_endo psi))) (/ 10 ^ 9)))
    (seq 0 (gi_size psi)).

(** einsum 'kj,kab->ajb' at one j, homspace.py:194-198 *)
Definition o_col (psi : girrep S) (j : nat) : mat := fun a b =>
  fold_right Rplus 0 (map (fun E : mat => E 0%nat j * E a b) (gi_endo psi)).

(** The loop homspace.py:185-204: the slices of `basis`, each with the position
    it occupies in `column_mask`. *)
Fixpoint psi_slices (psi : girrep S) (ids : list (list Z)) (p : nat) : res (list (nat * mat)) :=
  match ids with
  | [] => Ret []
  | id :: ids' =>
      r <- irrH id ;;
      rest <- psi_slices psi ids' (p + gi_size r) ;;
      if list_eq_dec Z.eq_dec id (gi_id psi) then
        assert (Nat.eqb (length (nonnull psi)) (gi_sosc psi)) ;;
        Ret (map (fun j => ((p + j)%nat,
                    fun a b => if Nat.leb p a && Nat.ltb a (p + gi_size r) then o_col psi j (a - p)%nat b else 0))
                 (nonnull psi) ++ rest)
      else Ret rest
  end.

(** homspace.py:206-239: keep the first slice of every component of the graph
    of those that [rho]'s endomorphisms mix. *)
Definition select (rho : girrep T) (rho_H : repr S) (sl : list (nat * mat)) : res (list (nat * mat)) :=
  if Nat.ltb 1 (gi_sosc rho) then
    let t := length sl in
    let col a := fst (nth a sl (0%nat, mzero)) in
    let endom (E : mat) a b := mmul (gi_size rho) (mmul (gi_size rho) (r_inv rho_H) E) (r_cob rho_H) (col a) (col b) in
    let ortho a b := negb (Rleb (fold_right Rplus 0 (map (fun E => endom E a b ^ 2) (gi_endo rho))) (/ 10 ^ 9)) in
    assert (Nat.eqb (list_sum (map (fun a => length (filter (ortho a) (seq 0 t))) (seq 0 t))) (t * gi_sosc rho)) ;;
    let c := components t ortho in
    assert (Nat.eqb (fst c * gi_sosc rho) t) ;;
    first <- mapM (fun i => let cols := filter (fun a => Nat.eqb (snd c a) i) (seq 0 t) in
                            assert (Nat.eqb (length cols) (gi_sosc rho)) ;;
                            match cols with [] => Raise | a :: _ => Ret a end) (seq 0 (fst c)) ;;
    let kept := filter (fun a => existsb (Nat.eqb a) first) (seq 0 t) in
    assert (Nat.eqb (length kept) (fst c)) ;;
    Ret (map (fun a => nth a sl (0%nat, mzero)) kept)
  else Ret sl.

(** HomSpace._dirac_kernel_ft homspace.py:161-243 *)
Definition dirac_kernel_ft (rho : girrep T) (psi : girrep S) : res (list mat) :=
  rho_H <- restrict (gi_id rho) ;;
  sl <- psi_slices psi (r_irreps rho_H) 0 ;;
  sl <- select rho rho_H sl ;;
  Ret (map (fun s => mmul (gi_size rho) (r_cob rho_H) (snd s)) sl).

(** The columns of ift.reshape(size, rho.size * m_rho), representation.py:975-994:
    row i * psi.size + p, column m * rho.size + o *)
Definition ift_columns (rho : girrep T) (psi : girrep S) (vals : list mat) (B : list mat) : list (nat -> R) :=
  flat_map (fun Bm => map (fun o => fun row =>
      mmul (gi_size rho) (nth (row / gi_size psi) vals mzero) Bm o (row mod gi_size psi)
        / sqrt (INR (length vals)) / sqrt (INR (gi_size psi)) * sqrt (INR (gi_size rho)))
    (seq 0 (gi_size rho))) B.

Definition columns_mat (cs : list (nat -> R)) : mat := fun i j => nth j cs (fun _ => 0) i.

(** One turn of the loop representation.py:969-995 *)
Definition induced_step (psi : girrep S) (reps : list T) (size : nat) (rho : girrep T)
  : res (list (girrep T) * list (nat -> R)) :=
  B <- dirac_kernel_ft rho psi ;;
  match B with
  | [] => Ret ([], [])
  | _ =>
      vals <- mapM (fun r => A <- gi_rep rho r ;; Ret (snd A)) reps ;;
      let cs := ift_columns rho psi vals B in
      let M := columns_mat cs in
      assert (allclose (length cs) (length cs) (mmul size (mtr M) M) mid) ;;
      Ret (repeat rho (length B), cs)
  end.

(** The checks and the loop representation.py:954-1002, with the list of
    representatives at hand. [same g1 g2] is `homspace.same_coset(g1, g2)`. *)
Definition build_induced (same : T -> T -> res bool) (index : option nat) (ids : list (list Z)) (psi : girrep S)
    (reps : list T) : res (list (list Z) * mat * mat) :=
  _ <- match index with Some k => assert (Nat.eqb k (length reps)) ;; Ret tt | None => Ret tt end ;;
  let size := (gi_size psi * length reps)%nat in
  let num := combine (seq 0 (length reps)) reps in
  _ <- mapM (fun x => mapM (fun y => if Nat.eqb (fst x) (fst y) then Ret tt
                                     else b <- same (snd x) (snd y) ;; assert (negb b) ;; Ret tt) num) num ;;
  rhos <- mapM irrG ids ;;
  parts <- mapM (induced_step psi reps size) rhos ;;
  let irreps := flat_map fst parts in
  let cols := flat_map snd parts in
  let cob := columns_mat cols in
  assert (Nat.eqb (length cols) size) ;;
  assert (allclose size size (mmul size cob (mtr cob)) mid) ;;
  assert (allclose size size (mmul size (mtr cob) cob) mid) ;;
  Ret (map gi_id irreps, cob, mtr cob).

(** Group.induced_representation group.py:555-579 *)
Definition induced_representation (same : T -> T -> res bool) (index : option nat) (ids : list (list Z))
    (psi : girrep S) (reps : list T) : res (repr T) :=
  x <- build_induced same index ids psi reps ;;
  mk_repr irrG linv (fst (fst x)) (gi_size psi * length reps) (snd (fst x)) (Some (snd x)).
End Induced.
