(** Model of the bases of functions on a homogeneous space.
    Sources: /repo/escnn/group/homspace.py:77-160, 245-317, 394-452.
    [T] and [S] are the elements of G and of H. An array of shape (rows, m, columns)
    is the list of its m slices. `scalar_basis` (279-317) is [basis] with the trivial irrep
    of H. Left out: the cache of `induced_representation` by
    name (C25) and irreps passed as objects, which stand for their ids. *)
From Coq Require Import Reals ZArith Bool List.
From Verif Require Import LibRes LibMat PlanarModel IrrepModel RepModel IndModel FourierModel GSpaceModel FieldMapModel.
Import ListNotations.
Open Scope R_scope.

Section Bases.
Context {T S : Type}.
Variables (irrG : list Z -> res (girrep T)) (irrH : list Z -> res (girrep S)).
(** rho.restrict(self.sgid) *)
Variable restrict : list Z -> res (repr S).
Variable components : nat -> (nat -> nat -> bool) -> nat * (nat -> nat).
Variable linv : nat -> mat -> res mat.

(** HomSpace.basis homspace.py:77-160: `_dirac_kernel_ft` looks the two irreps up again *)
Definition basis (g : T) (rho psi : list Z) : res (list mat) :=
  rho <- irrG rho ;;
  psi <- irrH psi ;;
  rho' <- irrG (gi_id rho) ;;
  psi' <- irrH (gi_id psi) ;;
  B <- dirac_kernel_ft irrH restrict components rho' psi' ;;
  M <- gi_rep rho g ;;
  Ret (map (mmul (gi_size rho) (snd M)) B).

(** HomSpace.dimension_basis homspace.py:245-277 *)
Definition basis_shape (rho psi : list Z) : res (nat * nat * nat) :=
  rho <- irrG rho ;;
  psi <- irrH psi ;;
  m <- dimension_basis restrict psi rho ;;
  Ret (gi_size rho, m, gi_size psi).

(** basis_rho = self.basis(...)[:, :, 0]; basis_rho.T.reshape(-1), homspace.py:444-448 *)
Definition first_columns (n : nat) (B : list mat) : list R :=
  flat_map (fun Bm : mat => map (fun i => Bm i 0%nat) (seq 0 n)) B.

(** HomSpace.complete_basis homspace.py:394-452 for a new name. Blocks that do not
    fill np.empty(ind_repr.size) exactly are modelled as an exception. *)
Definition complete_basis (g : T) (psi : list Z) (ids : list (list Z)) : res (list R) :=
  p <- irrH psi ;;
  ind <- spectral irrG restrict linv p ids ;;
  match ind with
  | None => Ret []
  | Some r =>
      rs <- mapM irrG ids ;;
      bs <- mapM (fun id => rho <- irrG id ;; B <- basis g id (gi_id p) ;; Ret (first_columns (gi_size rho) B)) (map gi_id rs) ;;
      assert (Nat.eqb (length (concat bs)) (r_size r)) ;;
      Ret (concat bs)
  end.
End Bases.

(** rho.restrict(sgid) for an irrep of a planar group, group.py:657-718 *)
Definition hom_restrict (linv : nat -> mat -> res mat) (G : pgrp) (sid : sub_id) (H : pgrp) (id : list Z) : res (repr pval) :=
  s <- p_irr G id ;;
  restrict_representation (p_irr G) (p_irr H) linv (any_restrict_irrep G sid) (repr_of_irrep s).
