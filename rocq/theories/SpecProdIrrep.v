(** What a correct irrep object is, and when two of them share nothing. *)
From Coq Require Import Reals ZArith List.
From Verif Require Import LibRes LibMat SpecRep ProdModel SpecProd ProdIrrepModel.
Import ListNotations.
Open Scope R_scope.

(** The 2h x 2h matrix [A] is [[X, -Y], [Y, X]] for some X and Y. *)
Definition realified (h : nat) (A : mat) : Prop :=
  forall i j, (i < h)%nat -> (j < h)%nat ->
    A (h + i)%nat (h + j)%nat = A i j /\ A i (h + j)%nat = - A (h + i)%nat j.

(** [r] is a real or complex irreducible orthogonal representation of [G] with
    its own character and commutant, in realified form if it is complex. *)
Record good_irrep {V} (G : gobj V) (r : oirrep V) : Prop := {
  gi_orth : orth_rep (el_mem G) (el_mul G) (el_inv G) (el_one G) (oi_size r) (oi_fun r);
  gi_trace : is_character (el_mem G) (oi_size r) (oi_fun r) (oi_chi r);
  gi_form : match oi_type r with
            | TR => True
            | TC => exists h, oi_size r = (2 * h)%nat /\
                      forall g A, el_mem G g -> oi_fun r g = Ret (oi_size r, A) -> realified h A
            | TH => False
            end;
  gi_comm : spans_commutant (el_mem G) (oi_size r) (oi_fun r) (oi_endo r);
  gi_irr : irreducible (el_mem G) (oi_size r) (oi_fun r)
}.

(** Only 0 intertwines the two. *)
Definition disjoint_objs {V} (G : gobj V) (r r' : oirrep V) : Prop :=
  forall X, (forall g A B, el_mem G g -> oi_fun r g = Ret (oi_size r, A) -> oi_fun r' g = Ret (oi_size r', B) ->
               meq (oi_size r) (oi_size r') (mmul (oi_size r) A X) (mmul (oi_size r') X B)) ->
    meq (oi_size r) (oi_size r') X mzero.

(** [l] lists good irreps, no two of which share anything, that [irr] finds by
    their ids. *)
Definition irrep_list {V} (G : gobj V) (irr : iid -> res (oirrep V)) (l : list (oirrep V)) : Prop :=
  Forall (fun r => good_irrep G r /\ irr (oi_id r) = Ret r) l /\ ForallOrdPairs (disjoint_objs G) l.

(** The dimension of the group algebra the irreps in [l] account for. *)
Definition algebra_dim {V} (l : list (oirrep V)) : nat :=
  fold_right Nat.add 0%nat (map (fun r => (oi_size r * (oi_size r / oi_sosc r))%nat) l).
