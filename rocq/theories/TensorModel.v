(** Model of the tensor product of two representations.
    Source: /repo/escnn/group/group.py:762-843, 896-901.
    A group enters as in RepModel, with [tensor m n] for
    `group._tensor_product_irreps(m, n)` and [cg m n j] for
    `group._clebsh_gordan_coeff(m, n, j)`. Names and supported nonlinearities are
    left out. *)
From Coq Require Import Reals ZArith Bool List.
From Verif Require Import LibRes LibMat IrrepModel RepModel.
Import ListNotations.
Open Scope R_scope.

(** `A[r:r+h, c:c+w] = B` *)
Definition fill (A : mat) (r h c w : nat) (B : mat) : mat := fun i j =>
  if (Nat.leb r i && Nat.ltb i (r + h) && Nat.leb c j && Nat.ltb j (c + w))%bool then B (i - r)%nat (j - c)%nat else A i j.

(** `a.reshape(-1, w)`: the number of rows and the entries in row-major order *)
Definition reshape2 (a : arr4) (w : nat) : res (nat * mat) :=
  let total := (a_d0 a * a_d1 a * a_d2 a * a_d3 a)%nat in
  assert (Nat.ltb 0 w) ;; assert (Nat.eqb (total mod w) 0) ;;
  Ret ((total / w)%nat, fun r c =>
    let p := (r * w + c)%nat in
    a_at a (p / (a_d1 a * a_d2 a * a_d3 a))%nat ((p / (a_d2 a * a_d3 a)) mod a_d1 a)%nat ((p / a_d3 a) mod a_d2 a)%nat (p mod a_d3 a)%nat).

Section Tensor.
Context {T : Type}.
Variable irr : list Z -> res (girrep T).
Variable linv : nat -> mat -> res mat.
Variable tensor : list Z -> list Z -> res (list (list Z * nat)).
Variable cg : list Z -> list Z -> list Z -> res arr4.

(** 784-788: [size] and `irreps` after the loop over the summands *)
Fixpoint summands (l : list (list Z * nat)) (size : nat) (irreps : list (list Z)) : res (nat * list (list Z)) :=
  match l with
  | [] => Ret (size, irreps)
  | (j, k) :: l' => r <- irr j ;; summands l' (size + gi_size r * k) (irreps ++ repeat (gi_id r) k)
  end.

(** 792-799: `i` and `change_of_basis` after the loop. An array with one row would be
    broadcast by numpy; here the number of rows must agree. *)
Fixpoint columns (m n : list Z) (l : list (list Z * nat)) (p size i : nat) (cob : mat) : res (nat * mat) :=
  match l with
  | [] => Ret (i, cob)
  | (j, k) :: l' =>
      r <- irr j ;;
      a <- cg m n (gi_id r) ;;
      B <- reshape2 a (gi_size r * k) ;;
      assert (Nat.eqb (fst B) size) ;;
      columns m n l' p size (i + gi_size r * k) (fill cob p size (p + i) (gi_size r * k) (snd B))
  end.

(** 803-807 *)
Definition permute (d1 d2 D2 q : nat) (perm : mat) : mat :=
  fold_left (fun P i => fill P (q + i * D2) d2 (q * d1 + i * d2) d2 mid) (seq 0 d1) perm.

(** the local variables of the loops *)
Record tstate := { ts_cob : mat; ts_irreps : list (list Z); ts_perm : mat; ts_p : nat; ts_q : nat }.

(** the loop over rho2.irreps, 780-810 *)
Fixpoint second (r1 : girrep T) (D2 : nat) (ids2 : list (list Z)) (s : tstate) : res tstate :=
  match ids2 with
  | [] => Ret s
  | id2 :: ids =>
      r2 <- irr id2 ;;
      l <- tensor (gi_id r1) (gi_id r2) ;;
      x <- summands l 0 (ts_irreps s) ;;
      let size := fst x in
      assert (Nat.eqb size (gi_size r1 * gi_size r2)) ;;
      y <- columns (gi_id r1) (gi_id r2) l (ts_p s) size 0 (ts_cob s) ;;
      assert (Nat.eqb (fst y) size) ;;
      second r1 D2 ids {| ts_cob := snd y; ts_irreps := snd x;
                          ts_perm := permute (gi_size r1) (gi_size r2) D2 (ts_q s) (ts_perm s);
                          ts_p := ts_p s + size; ts_q := ts_q s + gi_size r2 |}
  end.

(** the loop over rho1.irreps, 774-818, on `change_of_basis`, `irreps` and `p` *)
Fixpoint first (D2 : nat) (ids2 ids1 : list (list Z)) (cob : mat) (irreps : list (list Z)) (p : nat) : res (mat * list (list Z) * nat) :=
  match ids1 with
  | [] => Ret (cob, irreps, p)
  | id1 :: ids =>
      r1 <- irr id1 ;;
      let n := (gi_size r1 * D2)%nat in
      s <- second r1 D2 ids2 {| ts_cob := cob; ts_irreps := irreps; ts_perm := mzero; ts_p := p; ts_q := 0 |} ;;
      let P := ts_perm s in
      assert (allclose n n (mmul n P (mtr P)) mid) ;;
      assert (allclose n n (mmul n (mtr P) P) mid) ;;
      let a := (ts_p s - n)%nat in
      first D2 ids2 ids (fill (ts_cob s) a n a n (mmul n P (fun i j => ts_cob s (a + i)%nat (a + j)%nat))) (ts_irreps s) (ts_p s)
  end.

(** Group._tensor_product 762-843; a change of basis without an inverse is inverted
    by Representation.__init__ *)
Definition tensor_product (rho1 rho2 : repr T) : res (repr T) :=
  let D := (r_size rho1 * r_size rho2)%nat in
  x <- first (r_size rho2) (r_irreps rho2) (r_irreps rho1) mzero [] 0 ;;
  let cob := mmul D (kron (r_size rho2) (r_size rho2) (r_cob rho1) (r_cob rho2)) (fst (fst x)) in
  let irreps := snd (fst x) in
  let p := snd x in
  s <- irreps_size irr irreps ;;
  assert (Nat.eqb p s) ;;
  assert (Nat.eqb p D) ;;
  if Nat.ltb 1 (length irreps) then mk_repr irr linv irreps D cob None
  else match irreps with
       | id :: _ => r <- irr id ;; change_basis irr linv (repr_of_irrep r) (D, cob)
       | [] => Raise
       end.

(** _tensor_product_character 896-901, which the new representation is given when it
    has more than one irrep *)
Definition tensor_character (rho1 rho2 : repr T) (e : T) : res R :=
  a <- r_character rho1 e ;; b <- r_character rho2 e ;; Ret (a * b).
End Tensor.
