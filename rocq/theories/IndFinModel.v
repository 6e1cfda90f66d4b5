(** Restricting an irrep of C_N or D_N to a subgroup, as the construction of
    induced representations does. *)
From Coq Require Import Reals ZArith Bool List.
From Verif Require Import LibRes LibMat FinGroupModel PlanarModel IrrepModel RepModel.
Import ListNotations.

(** `rho.restrict(self.sgid)` homspace.py:168, representation.py:305-330,
    group.py:657-719: [H] is the subgroup [sid] of [G]. The cache is left out. *)
Definition fin_restrict (linv : nat -> mat -> res mat) (G H : grp) (sid : sgid) (id : list Z) : res (repr pval) :=
  s <- p_irr (Fin G) id ;;
  restrict_representation (p_irr (Fin G)) (p_irr (Fin H)) linv (fun id => fin_restrict_irrep G id sid) (repr_of_irrep s).
