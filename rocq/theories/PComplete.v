(** C78: the kernels on a point and linear layers reach every equivariant map. *)
From Coq Require Import String.
From Coq Require Import Reals ZArith Bool List Arith Lia Lra Permutation.
From Verif Require Import LibRes LibMat FieldModel FinGroupModel PlanarModel SpecPlanar IrrepModel SpecRep SpecIrrep RepModel SpecRepr KernelModel SpecKernel PolarModel SpecPolar KernelPlanar
  BlocksModel SpecBlocks LayerModel SpecLayer GridModel ImageModel SpecRdConv RdConvModel RdConvEx SeqModel ExportModel LinearModel SpecComplete SpecLinear CompleteCor CompletePlanar CompleteEx.
Import ListNotations.
Open Scope R_scope.

(** C_N and SO(2): the kernels on a point between two representations form a basis of
    the equivariant maps between them.  Without kernels the only such map is zero. *)
Theorem C78_point_basis : forall G, pvalid G -> rotations G -> forall P rin rout, planar_repr G rin -> planar_repr G rout ->
  sharp (r_size rin) (r_inv rin) -> sharp (r_size rout) (r_cob rout) ->
  exists o, kernels_on_point P (p_irr G) (p_tensor G) (p_cg G) [0%Z] rin rout = Ret o /\
  let maps := intertwiner (pmember G) (r_size rout) (r_fun rout) (r_size rin) (r_fun rin) in
  match o with
  | None => forall X, maps X -> meq (r_size rout) (r_size rin) X mzero
  | Some k => forall x, exists S, (forall t, (t < sk_dim k)%nat -> sk_sample (p_irr G) (point_filters P [0%Z]) k x t = Ret (S t)) /\
      basis_of maps (r_size rout) (r_size rin) (sk_dim k) S /\
      exists E, forall t, (t < sk_dim k)%nat -> square_sum (r_size rout) (r_size rin) (E t) = 1 /\
        meq (r_size rout) (r_size rin) (S t) (mmul (r_size rin) (mmul (r_size rout) (r_cob rout) (E t)) (r_inv rin))
  end.
Proof. exact rotations_point_basis. Qed.
Print Assumptions C78_point_basis.

(** A linear layer between fields with orthogonal changes of basis: its matrices are the
    equivariant ones, all of them, and each for one list of weights only. *)
Theorem C78_linear : forall A (rep : A -> repr pval) name aeqb order sort,
  (forall a b, aeqb a b = true <-> a = b) -> (forall l, Permutation (order l) l) -> (forall l, Permutation (sort l) l) ->
  forall G, pvalid G -> rotations G ->
  forall ins outs, Forall (fun a => planar_repr G (rep a) /\ sharp (r_size (rep a)) (r_inv (rep a)) /\ orthogonal (r_size (rep a)) (r_cob (rep a))) ins ->
  Forall (fun a => planar_repr G (rep a) /\ sharp (r_size (rep a)) (r_cob (rep a)) /\ orthogonal (r_size (rep a)) (r_cob (rep a))) outs -> told_apart name ins -> told_apart name outs ->
  forall bias c, mk_linear rep name aeqb order sort (p_irr G) (p_trivial_id G) (point_generator rep (p_irr G) (p_tensor G) (p_cg G) (p_trivial_id G)) ins outs bias = Ret c ->
  (forall w f, length (fst w) = bb_dim (ll_expansion c) -> linear_expand rep name c w = Ret f -> equivariant_matrix rep (pmember G) ins outs (fun r q => entry (fst f) [r; q])) /\
  (forall W, equivariant_matrix rep (pmember G) ins outs W -> exists w, length w = bb_dim (ll_expansion c) /\
     (forall v f, linear_expand rep name c (w, v) = Ret f ->
        forall r q, (r < type_size (asize rep) outs)%nat -> (q < type_size (asize rep) ins)%nat -> entry (fst f) [r; q] = W r q) /\
     (bb_dim (ll_expansion c) = 0%nat -> meq (type_size (asize rep) outs) (type_size (asize rep) ins) W mzero)) /\
  (forall w w' f f', length (fst w) = bb_dim (ll_expansion c) -> length (fst w') = bb_dim (ll_expansion c) ->
     linear_expand rep name c w = Ret f -> linear_expand rep name c w' = Ret f' ->
     (forall r q, (r < type_size (asize rep) outs)%nat -> (q < type_size (asize rep) ins)%nat -> entry (fst f) [r; q] = entry (fst f') [r; q]) -> fst w = fst w').
Proof. exact @rotations_linear_complete. Qed.
Print Assumptions C78_linear.

(** Without orthogonality it fails: after a change of basis by 10^-7 the samples of the
    kernel are too small to be kept, and no weight is left for the equivariant maps. *)
Theorem C78_small_basis_refuted : forall bias, exists c, c4_linear shrunk [false] [true] bias = Ret c /\ bb_dim (ll_expansion c) = 0%nat /\
  equivariant_matrix shrunk (pmember (Fin (Cyc 4))) [false] [true] (fun _ _ => 1).
Proof. exact shrunk_lost. Qed.
Print Assumptions C78_small_basis_refuted.

(** Two vectors of C_4 have kernels. *)
Example C78_point_ex : exists k, kernels_on_point unit (p_irr (Fin (Cyc 4))) (p_tensor (Fin (Cyc 4))) (p_cg (Fin (Cyc 4))) [0%Z] (field true) (field true) = Ret (Some k).
Proof. exact vectors_kernels. Qed.

(** The fields of C_4 in these examples meet the hypotheses. *)
Example C78_fields_ex : forall l, Forall (fun a => planar_repr (Fin (Cyc 4)) (field a) /\ sharp (r_size (field a)) (r_inv (field a)) /\ orthogonal (r_size (field a)) (r_cob (field a))) l /\
  Forall (fun a => planar_repr (Fin (Cyc 4)) (field a) /\ sharp (r_size (field a)) (r_cob (field a)) /\ orthogonal (r_size (field a)) (r_cob (field a))) l.
Proof. exact fields_orth. Qed.

(** A layer between vectors that turns them by a quarter. *)
Example C78_linear_ex : exists c w f, c4_linear field [true] [true] true = Ret c /\ length w = bb_dim (ll_expansion c) /\ linear_expand field label c (w, []) = Ret f /\
  entry (fst f) [0; 1]%nat = -1 /\ entry (fst f) [1; 0]%nat = 1.
Proof. exact turning_layer. Qed.

(** The shrunk fields meet all hypotheses but orthogonality. *)
Example C78_shrunk_ex : forall b, planar_repr (Fin (Cyc 4)) (shrunk b) /\ sharp (r_size (shrunk b)) (r_inv (shrunk b)) /\ sharp (r_size (shrunk b)) (r_cob (shrunk b)).
Proof. exact shrunk_ok. Qed.
