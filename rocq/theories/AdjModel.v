(** Model of AdjointBasis (escnn/kernels/basis.py:103-164) and of the argument
    `adjoint` of the kernel bases of the plane (escnn/kernels/r2.py:123-127,
    156-160, 189-193).

    Simplifications. The buffer `adj` is exact instead of float32. A square array
    is a pair of its size and a matrix. [hash_tensor] stands for hash(self.adj):
    torch.Tensor.__hash__ is the identity of the object, a number [oid]. *)
From Coq Require Import Reals List ZArith Arith Bool.
From Verif Require Import LibRes LibMat RepModel PlanarModel KernelModel PolarModel.
Import ListNotations.
Open Scope R_scope.

(** a row of `points @ self.adj.T` 149 *)
Definition transformed (A : mat) (x : point) : point :=
  (fst x * A 0%nat 0%nat + snd x * A 0%nat 1%nat, fst x * A 1%nat 0%nat + snd x * A 1%nat 1%nat).
(** the asserts of __init__ 115-121 *)
Definition check_adjoint (n : nat) (A : mat) : res unit :=
  assert (allclose n n (mmul n A (mtr A)) mid) ;; assert (allclose n n (mmul n (mtr A) A) mid) ;; Ret tt.

Record plane_basis := { pb_sub : psubgroup; pb_shells : shells; pb_kernels : skbasis pval hattr; pb_axis : R; pb_adj : option mat }.
(** r2.py:123-127 and 156-160: np.allclose(adjoint, np.eye(2)) raises for arrays
    that do not broadcast with a 2x2 array; a 1x1 array does, is not close to
    both 0 and 1, and fails the assert *)
Definition with_adjoint (b : psubgroup * shells * skbasis pval hattr) (axis : R) (adjoint : option (nat * mat)) : res plane_basis :=
  let '(sg, s, k) := b in
  match adjoint with
  | None => Ret {| pb_sub := sg; pb_shells := s; pb_kernels := k; pb_axis := axis; pb_adj := None |}
  | Some (n, A) =>
      assert (Nat.eqb n 2) ;;
      if allclose 2 2 A mid then Ret {| pb_sub := sg; pb_shells := s; pb_kernels := k; pb_axis := axis; pb_adj := None |}
      else _u <- check_adjoint n A ;; Ret {| pb_sub := sg; pb_shells := s; pb_kernels := k; pb_axis := axis; pb_adj := Some A |}
  end.
(** kernels_O2_subgroup_act_R2 r2.py:132-160 with all its arguments *)
Definition adjoint_kernels (linv : nat -> mat -> res mat) (sid : psgid) (L : nat) (radii sigma : list R)
    (flt : option (rattr * list Z -> bool)) (axis : R) (adjoint : option (nat * mat)) (rin rout : repr pval) : res (option plane_basis) :=
  o <- kernels_on_plane linv sid L radii sigma flt axis rin rout ;;
  match o with
  | None => Ret None
  | Some b => a <- with_adjoint b axis adjoint ;; Ret (Some a)
  end.
(** sample basis.py:146-150 *)
Definition pb_sample (b : plane_basis) (x : point) (idx : nat) : res mat :=
  sk_sample (p_irr O2) (circ_filters (pb_shells b) (pb_axis b)) (pb_kernels b) (match pb_adj b with None => x | Some A => transformed A x end) idx.
(** __getitem__ 152-153 and the inherited __iter__ (basis.py:86-88), which asks for
    one index after the other; without an adjoint, those of the basis itself *)
Definition pb_get (b : plane_basis) (idx : nat) : res (sattr hattr) := sk_get (pb_kernels b) idx.
Definition pb_iter (b : plane_basis) : res (list (sattr hattr)) :=
  match pb_adj b with None => sk_iter (pb_kernels b) | Some _ => mapM (pb_get b) (seq 0 (sk_dim (pb_kernels b))) end.

(** __eq__ 155-161 of two adjoint bases; [same] compares the bases inside.
    torch.allclose has the tolerances of np.allclose. *)
Definition adj_eq {B} (same : B -> B -> bool) (n : nat) (b b' : B) (A A' : mat) : bool := same b b' && allclose n n A A'.
(** __hash__ 163-164 *)
Definition adj_hash {B} (hash : B -> Z) (oid : Z) (b : B) : Z := (oid + 1000 * hash b)%Z.
