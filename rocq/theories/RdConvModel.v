(** Model of the convolution layers as a whole: _RdConv
    (/repo/escnn/nn/modules/conv/rd_convolution.py:21-278, 338-346), R2Conv
    (r2convolution.py:139-231), the kernel bases of GSpace2D
    (/repo/escnn/gspaces/r2.py:48-60, 100-144) and FieldType.transform
    (/repo/escnn/nn/field_type.py:216-261, 338-346). The parts are the models of
    the expansion (BlocksModel), the bias (LayerModel), the convolution
    (ImageModel) and the steerable kernels (KernelModel, PolarModel).

    Simplifications. A representation is an element of any type [A] with its name
    and its contents [rep]; [aeqb] is its `==`. The padding is an integer and one
    of the four modes. The filter and the bias are expanded at every call, as in
    training mode (LayerModel is about evaluation mode). The checks that the two
    types have the same gspace are left out, and so is the cache of
    GSpace.build_kernel_basis. *)
From Coq Require Import String.
From Coq Require Import Reals ZArith Bool List Arith.
From Verif Require Import LibRes LibMat FieldModel FinGroupModel ParamModel PlanarModel IrrepModel RepModel KernelModel PolarModel BlocksModel LayerModel GridModel ImageModel.
Import ListNotations.
Local Open Scope nat_scope.

Section Layer.
Context {A X T : Type}.
Variable rep : A -> repr T.
Variable name : A -> string.
Variable aeqb : A -> A -> bool.
Variable order : list A -> list A.
Variable sort : list (string * string) -> list (string * string).
Definition asize (a : A) : nat := r_size (rep a).

(** FieldType.fiber_representation field_type.py:216-226 *)
Definition fiber_matrix (ft : list A) (g : T) : res mat :=
  l <- mapM (fun a => r_fun (rep a) g) ft ;; Ret (bdiag l).
(** FieldType.transform field_type.py:338-346; [base] is `gspace.basespace_action` *)
Definition field_transform (half : R -> R) (affine : array R -> mat -> nat -> res (array R)) (base : T -> res (nat * mat))
    (ft : list A) (g : T) (x : array R) : res (array R) :=
  rho <- fiber_matrix ft g ;;
  M <- base g ;;
  transform half affine (type_size asize ft) rho (fst M) (snd M) x.

(** rd_convolution.py:164-165: every field equals the one at the same place of the first group *)
Definition equal_groups (l : list A) (s : nat) : bool :=
  forallb (fun i => match nth_error l i, nth_error l (i mod s) with Some a, Some b => aeqb a b | _, _ => false end) (seq 0 (length l)).

Record rdconv := {
  rc_in : list A; rc_out : list A; rc_d : nat; rc_k : nat; rc_padding : nat; rc_mode : pad_mode;
  rc_stride : nat; rc_dilation : nat; rc_groups : nat; rc_bias : option (nat * mat); rc_expansion : blocks A X nat }.

(** _RdConv.__init__ 105-238. [generator] is _build_kernel_basis followed by
    sampling on the grid of the filter, of k ^ d points. *)
Definition mk_rdconv (irr : list Z -> res (girrep T)) (tid : list Z) (generator : A -> A -> res (option (BlocksModel.kbasis X nat)))
    (ins outs : list A) (d k padding : nat) (mode : pad_mode) (stride dilation groups : nat) (bias : bool) (bf : option (attr X -> bool)) : res rdconv :=
  let in_size := (length ins / groups) in
  let out_size := (length outs / groups) in
  (* 154-175 *)
  first <- (if Nat.ltb 1 groups then
              assert (Nat.eqb (length ins mod groups) 0) ;;
              assert (Nat.eqb (length outs mod groups) 0) ;;
              assert (equal_groups ins in_size) ;;
              assert (equal_groups outs out_size) ;;
              Ret (firstn in_size ins)
            else Ret ins) ;;
  (* 177-218 *)
  m <- mk_bias irr tid bias (map rep outs) ;;
  (* 226-238 *)
  b <- mk_blocks (k ^ d) name asize aeqb order sort first outs generator bf ;;
  assert (negb (Nat.eqb (bb_dim b) 0)) ;;
  Ret {| rc_in := ins; rc_out := outs; rc_d := d; rc_k := k; rc_padding := padding; rc_mode := mode; rc_stride := stride;
         rc_dilation := dilation; rc_groups := groups; rc_bias := m; rc_expansion := b |}.

(** expand_parameters 273-280 *)
Definition rc_expand (c : rdconv) (weights bias : list R) : res (array R * option (list R)) :=
  f <- forward (rc_k c ^ rc_d c) name asize (rc_expansion c) weights ;;
  Ret (reshape_filter (type_size asize (rc_out c)) (type_size asize (bb_in (rc_expansion c))) (rc_k c) (rc_d c) f,
       expand_bias (map rep (rc_out c)) (rc_bias c) bias).

Fixpoint same_type (l m : list A) : bool :=
  match l, m with [], [] => true | a :: l', b :: m' => aeqb a b && same_type l' m' | _, _ => false end.
(** R2Conv.forward r2convolution.py:193-231 (R3Conv.forward r3convolution.py:186-222):
    a GeometricTensor is its type and its tensor *)
Definition rc_forward (c : rdconv) (weights bias : list R) (x : list A * array R) : res (list A * array R) :=
  assert (same_type (fst x) (rc_in c)) ;;
  fb <- rc_expand c weights bias ;;
  y <- conv_forward (rc_mode c) (rc_padding c) (rc_groups c) (rc_stride c) (rc_dilation c) (fst fb) (snd fb) (snd x) ;;
  Ret (rc_out c, y).
End Layer.
Arguments rdconv : clear implicits.

(** ** The plane *)
Local Open Scope R_scope.
(** GSpace2D.basespace_action r2.py:58, 142-144: o2.irrep(1, 1).restrict(sg_id) *)
Definition r2_action (linv : nat -> mat -> res mat) (sid : psgid) (sg : psubgroup) : res (repr pval) :=
  o2_restrict linv sid (ps_group sg) [1%Z; 1%Z].

(** get_grid_coords rd_convolution.py:379-401 in the plane: the points of the filter *)
Definition r2_points (k dilation : nat) : list point :=
  map (fun q => (grid_coords k dilation q 0%nat, grid_coords k dilation q 1%nat)) (seq 0 (k ^ 2)%nat).

(** Sampling a SteerableKernelBasis on the points (SingleBlockBasisExpansion
    basisexpansion_singleblock.py:52-65): element number [idx] with the attributes
    the iteration over the basis yields at that place *)
Definition sampled {G T B} (irrF : list Z -> res (girrep G)) (F : filters point B) (k : skbasis T B) (pts : list point)
    : res (BlocksModel.kbasis (sattr B) nat) :=
  attrs <- sk_iter k ;;
  vals <- mapM (fun idx => mapM (fun x => sk_sample irrF F k x idx) pts) (seq 0 (sk_dim k)) ;;
  Ret {| kb_out := sk_size_out k; kb_in := sk_size_in k;
         kb_elements := map (fun av => {| el_attr := {| at_in := sa_ii (fst av); at_out := sa_oo (fst av); at_id := sa_idx (fst av); at_rest := fst av |};
                                          el_dim := fst (sa_shape (fst av));
                                          el_sample := fun o i q => nth q (snd av) mzero o i |}) (List.combine attrs vals) |}.

(** R2Conv._build_kernel_basis r2convolution.py:188-191 and GSpace2D._basis_generator
    r2.py:100-139 for groups of rotations, sampled: no filter, axis pi / 2
    (kernels/r2.py:26-68, 163-192) *)
Definition r2_generator {A} (rep : A -> repr pval) (linv : nat -> mat -> res mat) (sid : psgid) (L : nat) (radii sigma : list R) (k dilation : nat)
    (i o : A) : res (option (BlocksModel.kbasis (sattr hattr) nat)) :=
  r <- kernels_on_plane linv sid L radii sigma None (PI / 2) (rep i) (rep o) ;;
  match r with
  | None => Ret None
  | Some (sg, s, kb) => b <- sampled (p_irr O2) (circ_filters s (PI / 2)) kb (r2_points k dilation) ;; Ret (Some b)
  end.

(** R2Conv with C_N or SO(2) acting on the plane: [sid] is (None, N) or (None, -1) *)
Definition mk_r2conv {A} (rep : A -> repr pval) name aeqb order sort linv (sid : psgid) (L : nat) (radii sigma : list R)
    (ins outs : list A) (k padding : nat) (mode : pad_mode) (stride dilation groups : nat) (bias : bool) (bf : option (attr (sattr hattr) -> bool))
    : res (rdconv A (sattr hattr)) :=
  sg <- p_subgroup O2 sid ;;
  mk_rdconv rep name aeqb order sort (p_irr (ps_group sg)) (p_trivial_id (ps_group sg)) (r2_generator rep linv sid L radii sigma k dilation)
    ins outs 2 k padding mode stride dilation groups bias bf.
