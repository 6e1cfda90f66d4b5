(** Model of representations assembled from irreps, for an arbitrary group.
    Sources: /repo/escnn/group/representation.py, /repo/escnn/group/group.py,
      /repo/escnn/group/irrep.py.
    A group enters through the type [T] of its elements and the function [irr]
    that is `group.irrep( *id )`. Matrices are exact real matrices with their
    size; `np.allclose` is modelled with its tolerances. Names, supported
    nonlinearities and the registry `group.representations` are left out here. *)
From Coq Require Import Reals ZArith Bool List.
From Verif Require Import LibRes LibMat LibTrig ParamModel PlanarModel IrrepModel.
Import ListNotations.
Open Scope R_scope.

(** An irrep as the rest of the library sees it: irrep.py:22-104. *)
Record girrep (T : Type) := {
  gi_id : list Z;
  gi_size : nat;
  gi_sosc : nat;
  gi_endo : list mat;
  gi_rep : T -> res sqmat;
  gi_char : T -> res R
}.
Arguments gi_id {T}. Arguments gi_size {T}. Arguments gi_sosc {T}. Arguments gi_endo {T}.
Arguments gi_rep {T}. Arguments gi_char {T}.

(** Representation representation.py:32-241, without an explicit [character]:
    [r_fun] is `self.representation`. *)
Record repr (T : Type) := {
  r_size : nat;
  r_irreps : list (list Z);
  r_cob : mat;
  r_inv : mat;
  r_fun : T -> res sqmat
}.
Arguments r_size {T}. Arguments r_irreps {T}. Arguments r_cob {T}. Arguments r_inv {T}.
Arguments r_fun {T}.

(** all(f(i) for i in range(n)) *)
Fixpoint forallb_n (n : nat) (f : nat -> bool) : bool :=
  match n with O => true | S n' => forallb_n n' f && f n' end.

(** np.allclose(A, B) of two r x c matrices, rtol = 1e-5, atol = 1e-8 *)
Definition allclose (r c : nat) (A B : mat) : bool :=
  forallb_n r (fun i => forallb_n c (fun j => np_isclose (/ 10 ^ 8) (A i j) (B i j))).

Section Rep.
Context {T : Type}.
Variable irr : list Z -> res (girrep T).
(** scipy.linalg.inv *)
Variable linv : nat -> mat -> res mat.

(** sum(self.group.irrep( *irr ).size for irr in irreps) *)
Definition irreps_size (ids : list (list Z)) : res nat :=
  l <- mapM irr ids ;; Ret (list_sum (map gi_size l)).

(** The blocks of direct_sum(element), representation.py:1049-1056. The code
    evaluates each distinct irrep once and repeats the value. *)
Definition irrep_blocks (ids : list (list Z)) (e : T) : res (list sqmat) :=
  mapM (fun id => r <- irr id ;; gi_rep r e) ids.

(** direct_sum_factory representation.py:1005-1065; [None] means that no change
    of basis is applied. `sparse.block_diag([])` raises. *)
Definition direct_sum_factory (ids : list (list Z)) (cob : option (nat * mat * mat))
  : res (T -> res sqmat) :=
  size <- irreps_size ids ;;
  match cob with
  | None =>
      Ret (fun e => bs <- irrep_blocks ids e ;;
                    match bs with [] => Raise | _ => Ret (bsize bs, bdiag bs) end)
  | Some (n, Q, Qi) =>
      assert (Nat.eqb n size) ;;
      assert (allclose n n (mmul n Q Qi) mid) ;;
      assert (allclose n n (mmul n Qi Q) mid) ;;
      Ret (fun e => bs <- irrep_blocks ids e ;;
                    match bs with
                    | [] => Raise
                    | _ => assert (Nat.eqb (bsize bs) n) ;;
                           Ret (n, mmul n (mmul n Q (bdiag bs)) Qi)
                    end)
  end.

(** Representation.__init__ representation.py:154-208 with
    `representation = None`, `character = None`. The sizes are compared only
    when there is more than one irrep (line 178). *)
Definition mk_repr (ids : list (list Z)) (n : nat) (cob : mat) (inv : option mat) : res (repr T) :=
  assert (Nat.ltb 0 n) ;;
  inv <- match inv with None => linv n cob | Some i => Ret i end ;;
  assert (allclose n n (mmul n cob inv) mid) ;;
  assert (allclose n n (mmul n inv cob) mid) ;;
  _ <- (if Nat.ltb 1 (length ids)
        then s <- irreps_size ids ;; assert (Nat.eqb s n) ;; Ret tt
        else Ret tt) ;;
  f <- direct_sum_factory ids (if allclose n n cob mid then None else Some (n, cob, inv)) ;;
  Ret {| r_size := n; r_irreps := ids; r_cob := cob; r_inv := inv; r_fun := f |}.

(** character representation.py:243-269 with `self._characters = None` *)
Definition r_character (r : repr T) (e : T) : res R :=
  A <- r_fun r e ;; Ret (trace (fst A) (snd A)).

(** directsum representation.py:517-585 *)
Definition directsum (rs : list (repr T)) (Q : option (nat * mat)) : res (repr T) :=
  match rs with
  | [] => Raise
  | _ =>
      let ids := flat_map r_irreps rs in
      let size := list_sum (map r_size rs) in
      let cob := bdiag (map (fun r => (r_size r, r_cob r)) rs) in
      let cob_inv := bdiag (map (fun r => (r_size r, r_inv r)) rs) in
      match Q with
      | Some (n, Q) =>
          assert (Nat.eqb n size) ;;
          let c := mmul size Q cob in
          ci <- linv size c ;;
          mk_repr ids size c (Some ci)
      | None => mk_repr ids size cob (Some cob_inv)
      end
  end.

(** change_basis representation.py:725-763 *)
Definition change_basis (r : repr T) (Q : nat * mat) : res (repr T) :=
  assert (Nat.eqb (fst Q) (r_size r)) ;;
  qi <- linv (r_size r) (snd Q) ;;
  mk_repr (r_irreps r) (r_size r) (mmul (r_size r) (snd Q) (r_cob r))
    (Some (mmul (r_size r) (r_inv r) qi)).

(** An IrreducibleRepresentation seen as a Representation, irrep.py:85-92 *)
Definition repr_of_irrep (r : girrep T) : repr T :=
  {| r_size := gi_size r; r_irreps := [gi_id r]; r_cob := mid; r_inv := mid; r_fun := gi_rep r |}.

(** multiplicity representation.py:238-241, 437-441 *)
Definition r_multiplicity (r : repr T) (id : list Z) : nat :=
  length (filter (fun x => if list_eq_dec Z.eq_dec x id then true else false) (r_irreps r)).
End Rep.

(** Group.restrict_representation group.py:657-719: [irrG] is `self.irrep`,
    [irrH] is `sg.irrep`, [restr] is `self._restrict_irrep(irr, id)`. *)
Definition restrict_representation {G H : Type} (irrG : list Z -> res (girrep G))
    (irrH : list Z -> res (girrep H)) (linv : nat -> mat -> res mat)
    (restr : list Z -> res (sqmat * list (list Z))) (r : repr G) : res (repr H) :=
  parts <- mapM (fun id => x <- restr id ;; s <- irrG id ;;
                           assert (Nat.eqb (fst (fst x)) (gi_size s)) ;; Ret x) (r_irreps r) ;;
  let blocks := map fst parts in
  let ids := flat_map snd parts in
  assert (Nat.eqb (bsize blocks) (r_size r)) ;;
  mk_repr irrH linv ids (r_size r) (mmul (r_size r) (r_cob r) (bdiag blocks)) None.

(** The irreps of C_N, D_N, SO(2) and O(2) in this form. *)
Definition girrep_of (r : irrep) : girrep pval :=
  {| gi_id := ir_id r; gi_size := ir_size r; gi_sosc := ir_sosc r; gi_endo := endomorphism_basis r;
     gi_rep := ir_rep r; gi_char := ir_char r |}.
Definition p_irr (G : pgrp) (id : list Z) : res (girrep pval) := r <- p_irrep G id ;; Ret (girrep_of r).
