(** C77: layers with parameters in every state. *)
From Coq Require Import String.
From Coq Require Import Reals ZArith Bool List Arith Lia Lra Permutation.
From Verif Require Import LibRes LibMat FieldModel FinGroupModel PlanarModel SpecPlanar IrrepModel SpecRep SpecIrrep RepModel SpecRepr KernelModel SpecKernel PolarModel SpecPolar KernelPlanar
  BlocksModel SpecBlocks LayerModel SpecLayer GridModel SpecGrid ImageModel SpecImage TransposedModel SpecRdConv RdConvModel RdConvEx SeqModel ExportModel ExportEx LinearModel StateCor StateEx.
Import ListNotations.
Open Scope R_scope.

(** Any group and dimension: a convolution layer commutes with the elements that act on
    the grid after any sequence of parameter changes and switches between training and
    evaluation mode. *)
Theorem C77_conv : forall A X T (rep : A -> repr T) name aeqb order sort (generator : A -> A -> res (option (BlocksModel.kbasis X nat))) bf,
  (forall a b, aeqb a b = true <-> a = b) -> (forall l, Permutation (order l) l) -> (forall l, Permutation (sort l) l) ->
  forall half, half 0 = 0 -> half 1 = 1 -> half (-1) = -1 ->
  forall affine base irr mem op e tid ins outs n k p mode stride dil groups bias c g M,
  (forall i, irr tid = Ret i -> trivial_rep mem (gi_size i) (gi_rep i)) ->
  Forall (fun a => proper irr mem op e (rep a) /\ (0 < r_size (rep a))%nat) (ins ++ outs) -> told_apart name ins -> told_apart name outs ->
  (forall i o, In i ins -> In o outs -> exists kb, generator i o = Ret kb /\ forall q, kb = Some q -> kb_out q = r_size (rep o) /\ kb_in q = r_size (rep i)) ->
  mem g -> base g = Ret (n, M) -> signed_perm n M ->
  (forall i o kb el Bi Bo, In i ins -> In o outs -> generator i o = Ret (Some kb) -> In el (kb_elements kb) ->
     r_fun (rep i) g = Ret (r_size (rep i), Bi) -> r_fun (rep o) g = Ret (r_size (rep o), Bo) ->
     filter_of_steerable n k dil (r_size (rep o)) (r_size (rep i)) M Bi Bo (el_sample el)) ->
  mk_rdconv rep name aeqb order sort irr tid generator ins outs n k p mode stride dil groups bias bf = Ret c ->
  forall w0 zeros ops m, length (fst w0) = bb_dim (rc_expansion c) -> (forall w, In (SetParams w) ops -> length (fst w) = bb_dim (rc_expansion c)) ->
  obj_run (conv_expand rep name c) false ops (new_layer w0 zeros) = Ret m ->
  forall x y B ws, shape x = B :: type_size (asize rep) ins :: ws -> length ws = n -> fits k p stride dil ws -> conv_call rep name aeqb c m (ins, x) = Ret (outs, y) ->
  exists x' y' z, field_transform rep half affine base ins g x = Ret x' /\ conv_call rep name aeqb c m (ins, x') = Ret (outs, y') /\
    field_transform rep half affine base outs g y = Ret z /\ same_array y' z.
Proof. exact conv_any. Qed.
Print Assumptions C77_conv.

(** Transposed convolutions without output padding. *)
Theorem C77_transposed : forall A X T (rep : A -> repr T) name aeqb order sort (generator : A -> A -> res (option (BlocksModel.kbasis X nat))) bf,
  (forall a b, aeqb a b = true <-> a = b) -> (forall l, Permutation (order l) l) -> (forall l, Permutation (sort l) l) ->
  forall half, half 0 = 0 -> half 1 = 1 -> half (-1) = -1 ->
  forall affine base irr mem op e tid ins outs n k p stride dil groups bias c g M,
  (forall i, irr tid = Ret i -> trivial_rep mem (gi_size i) (gi_rep i)) ->
  Forall (fun a => proper irr mem op e (rep a) /\ (0 < r_size (rep a))%nat) (ins ++ outs) -> told_apart name ins -> told_apart name outs ->
  (forall i o, In i ins -> In o outs -> exists kb, generator i o = Ret kb /\ forall q, kb = Some q -> kb_out q = r_size (rep o) /\ kb_in q = r_size (rep i)) ->
  mem g -> base g = Ret (n, M) -> signed_perm n M ->
  (forall i o kb el Bi Bo, In i ins -> In o outs -> generator i o = Ret (Some kb) -> In el (kb_elements kb) ->
     r_fun (rep i) g = Ret (r_size (rep i), Bi) -> r_fun (rep o) g = Ret (r_size (rep o), Bo) ->
     filter_of_steerable n k dil (r_size (rep o)) (r_size (rep i)) M Bi Bo (el_sample el)) ->
  mk_rdconvt rep name aeqb order sort irr tid generator ins outs n k p 0 stride dil groups bias bf = Ret c ->
  forall w0 zeros ops m, length (fst w0) = bb_dim (rt_expansion c) -> (forall w, In (SetParams w) ops -> length (fst w) = bb_dim (rt_expansion c)) ->
  obj_run (convt_expand rep name c) false ops (new_layer w0 zeros) = Ret m ->
  forall x y B ws, shape x = B :: type_size (asize rep) ins :: ws -> length ws = n -> convt_call rep name aeqb c m (ins, x) = Ret (outs, y) ->
  exists x' y' z, field_transform rep half affine base ins g x = Ret x' /\ convt_call rep name aeqb c m (ins, x') = Ret (outs, y') /\
    field_transform rep half affine base outs g y = Ret z /\ same_array y' z.
Proof. exact convt_any. Qed.
Print Assumptions C77_transposed.

(** Linear layers, for all elements of the group. *)
Theorem C77_linear : forall A X T (rep : A -> repr T) name aeqb order sort (generator : A -> A -> res (option (BlocksModel.kbasis X nat))),
  (forall a b, aeqb a b = true <-> a = b) -> (forall l, Permutation (order l) l) -> (forall l, Permutation (sort l) l) -> inhabited X ->
  forall irr mem op e tid ins outs bias c g,
  (forall i, irr tid = Ret i -> trivial_rep mem (gi_size i) (gi_rep i)) ->
  Forall (fun a => proper irr mem op e (rep a) /\ (0 < r_size (rep a))%nat) (ins ++ outs) -> told_apart name ins -> told_apart name outs ->
  (forall i o, In i ins -> In o outs -> exists kb, generator i o = Ret kb /\ forall q, kb = Some q -> kb_out q = r_size (rep o) /\ kb_in q = r_size (rep i)) ->
  mem g ->
  (forall i o kb el Bi Bo, In i ins -> In o outs -> generator i o = Ret (Some kb) -> In el (kb_elements kb) ->
     r_fun (rep i) g = Ret (r_size (rep i), Bi) -> r_fun (rep o) g = Ret (r_size (rep o), Bo) ->
     meq (r_size (rep o)) (r_size (rep i)) (mmul (r_size (rep i)) (fun a b => el_sample el a b 0%nat) Bi) (mmul (r_size (rep o)) Bo (fun a b => el_sample el a b 0%nat))) ->
  mk_linear rep name aeqb order sort irr tid generator ins outs bias = Ret c ->
  forall w0 zeros ops m, length (fst w0) = bb_dim (ll_expansion c) -> (forall w, In (SetParams w) ops -> length (fst w) = bb_dim (ll_expansion c)) ->
  obj_run (linear_expand rep name c) true ops (new_layer w0 zeros) = Ret m ->
  forall x y, linear_call rep name aeqb c m (ins, x) = Ret (outs, y) ->
  exists x' y' z, transform0 rep ins g x = Ret x' /\ linear_call rep name aeqb c m (ins, x') = Ret (outs, y') /\ transform0 rep outs g y = Ret z /\ same_array y' z.
Proof. exact linear_any. Qed.
Print Assumptions C77_linear.

(** The groups of rotations of the plane C_N and SO(2), with the kernels the code builds. *)
Theorem C77_r2conv : forall A (rep : A -> repr pval) name aeqb order sort,
  (forall a b, aeqb a b = true <-> a = b) -> (forall l, Permutation (order l) l) -> (forall l, Permutation (sort l) l) ->
  forall N sg linv L radii sigma, (0 < N \/ N = -1)%Z -> p_subgroup O2 (IO2 None N) = Ret sg -> correct_inverse linv -> (exists p, mk_profile radii sigma = Ret p) ->
  forall ins outs, Forall (fun a => planar_repr (ps_group sg) (rep a) /\ sharp (r_size (rep a)) (r_inv (rep a))) ins ->
  Forall (fun a => planar_repr (ps_group sg) (rep a) /\ sharp (r_size (rep a)) (r_cob (rep a))) outs -> told_apart name ins -> told_apart name outs ->
  forall k p mode stride dil groups bias bf half, half 0 = 0 -> half 1 = 1 -> half (-1) = -1 ->
  forall affine base h M c w0 zeros ops m, mk_r2conv rep name aeqb order sort linv (IO2 None N) L radii sigma ins outs k p mode stride dil groups bias bf = Ret c ->
  r2_action linv (IO2 None N) sg = Ret base -> pmember (ps_group sg) h -> r_fun base h = Ret (2%nat, M) -> signed_perm 2 M ->
  length (fst w0) = bb_dim (rc_expansion c) -> (forall w, In (SetParams w) ops -> length (fst w) = bb_dim (rc_expansion c)) ->
  obj_run (conv_expand rep name c) false ops (new_layer w0 zeros) = Ret m ->
  forall x y B ws, shape x = B :: type_size (asize rep) ins :: ws -> length ws = 2%nat -> fits k p stride dil ws -> conv_call rep name aeqb c m (ins, x) = Ret (outs, y) ->
  exists x' y' z, field_transform rep half affine (r_fun base) ins h x = Ret x' /\ conv_call rep name aeqb c m (ins, x') = Ret (outs, y') /\
    field_transform rep half affine (r_fun base) outs h y = Ret z /\ same_array y' z.
Proof. exact @r2conv_states. Qed.
Print Assumptions C77_r2conv.

(** Transposed. *)
Theorem C77_r2conv_transposed : forall A (rep : A -> repr pval) name aeqb order sort,
  (forall a b, aeqb a b = true <-> a = b) -> (forall l, Permutation (order l) l) -> (forall l, Permutation (sort l) l) ->
  forall N sg linv L radii sigma, (0 < N \/ N = -1)%Z -> p_subgroup O2 (IO2 None N) = Ret sg -> correct_inverse linv -> (exists p, mk_profile radii sigma = Ret p) ->
  forall ins outs, Forall (fun a => planar_repr (ps_group sg) (rep a) /\ sharp (r_size (rep a)) (r_inv (rep a))) ins ->
  Forall (fun a => planar_repr (ps_group sg) (rep a) /\ sharp (r_size (rep a)) (r_cob (rep a))) outs -> told_apart name ins -> told_apart name outs ->
  forall k p stride dil groups bias bf half, half 0 = 0 -> half 1 = 1 -> half (-1) = -1 ->
  forall affine base h M c w0 zeros ops m,
  mk_rdconvt rep name aeqb order sort (p_irr (ps_group sg)) (p_trivial_id (ps_group sg)) (r2_generator rep linv (IO2 None N) L radii sigma k dil) ins outs 2 k p 0 stride dil groups bias bf = Ret c ->
  r2_action linv (IO2 None N) sg = Ret base -> pmember (ps_group sg) h -> r_fun base h = Ret (2%nat, M) -> signed_perm 2 M ->
  length (fst w0) = bb_dim (rt_expansion c) -> (forall w, In (SetParams w) ops -> length (fst w) = bb_dim (rt_expansion c)) ->
  obj_run (convt_expand rep name c) false ops (new_layer w0 zeros) = Ret m ->
  forall x y B ws, shape x = B :: type_size (asize rep) ins :: ws -> length ws = 2%nat -> convt_call rep name aeqb c m (ins, x) = Ret (outs, y) ->
  exists x' y' z, field_transform rep half affine (r_fun base) ins h x = Ret x' /\ convt_call rep name aeqb c m (ins, x') = Ret (outs, y') /\
    field_transform rep half affine (r_fun base) outs h y = Ret z /\ same_array y' z.
Proof. exact @r2convt_states. Qed.
Print Assumptions C77_r2conv_transposed.

(** Linear layers between fields of C_N or SO(2). *)
Theorem C77_rotations_linear : forall A (rep : A -> repr pval) name aeqb order sort,
  (forall a b, aeqb a b = true <-> a = b) -> (forall l, Permutation (order l) l) -> (forall l, Permutation (sort l) l) ->
  forall G, pvalid G -> rotations G ->
  forall ins outs, Forall (fun a => planar_repr G (rep a) /\ sharp (r_size (rep a)) (r_inv (rep a))) ins ->
  Forall (fun a => planar_repr G (rep a) /\ sharp (r_size (rep a)) (r_cob (rep a))) outs -> told_apart name ins -> told_apart name outs ->
  forall bias c w0 zeros ops m,
  mk_linear rep name aeqb order sort (p_irr G) (p_trivial_id G) (point_generator rep (p_irr G) (p_tensor G) (p_cg G) (p_trivial_id G)) ins outs bias = Ret c -> length (fst w0) = bb_dim (ll_expansion c) ->
  (forall w, In (SetParams w) ops -> length (fst w) = bb_dim (ll_expansion c)) -> obj_run (linear_expand rep name c) true ops (new_layer w0 zeros) = Ret m ->
  forall g x y, pmember G g -> linear_call rep name aeqb c m (ins, x) = Ret (outs, y) ->
  exists x' y' z, transform0 rep ins g x = Ret x' /\ linear_call rep name aeqb c m (ins, x') = Ret (outs, y') /\ transform0 rep outs g y = Ret z /\ same_array y' z.
Proof. exact @rotations_linear. Qed.
Print Assumptions C77_rotations_linear.

(** A layer of each kind for C_4 that was evaluated, loaded, trained and evaluated. *)
Example C77_conv_ex : forall linv, correct_inverse linv -> exists c w m y,
  mk_r2conv field label Bool.eqb (fun l => l) (fun l => l) linv (IO2 None 4) 1 [0; 1] [1; 1] [false] [false] 3 1 PadCircular 1 1 1 false None = Ret c /\
  length w = bb_dim (rc_expansion c) /\ obj_run (conv_expand field label c) false (history (w, []) (w, [])) (new_layer (w, []) (ones, None)) = Ret m /\
  ly_training m = false /\ conv_call field label Bool.eqb c m ([false], ones) = Ret ([false], y).
Proof. exact conv_reached. Qed.

(** Transposed, from 2 by 2 to 3 by 3 pixels. *)
Example C77_transposed_ex : forall linv, correct_inverse linv -> exists c w m y,
  mk_rdconvt field label Bool.eqb (fun l => l) (fun l => l) (p_irr (ps_group c4)) (p_trivial_id (ps_group c4)) (r2_generator field linv (IO2 None 4) 1 [0; 1] [1; 1] 3 1)
    [false] [false] 2 3 1 0 2 1 1 false None = Ret c /\
  length w = bb_dim (rt_expansion c) /\ obj_run (convt_expand field label c) false (history (w, []) (w, [])) (new_layer (w, []) (ones, None)) = Ret m /\
  ly_training m = false /\ convt_call field label Bool.eqb c m ([false], ones) = Ret ([false], y) /\ shape y = [1; 1; 3; 3]%nat.
Proof. exact convt_reached. Qed.

(** Linear, from a scalar and a vector to a scalar and a vector. *)
Example C77_linear_ex : exists c,
  mk_linear field label Bool.eqb (fun l => l) (fun l => l) (p_irr (Fin (Cyc 4))) (p_trivial_id (Fin (Cyc 4))) (point_generator field (p_irr (Fin (Cyc 4))) (p_tensor (Fin (Cyc 4))) (p_cg (Fin (Cyc 4))) (p_trivial_id (Fin (Cyc 4))))
    [false; true] [false; true] true = Ret c /\
  forall w w' zeros, length (fst w) = bb_dim (ll_expansion c) -> length (fst w') = bb_dim (ll_expansion c) -> exists m,
    obj_run (linear_expand field label c) true (history w w') (new_layer w zeros) = Ret m /\ ly_training m = false /\
    forall x B, shape x = [B; 3%nat] -> exists y, linear_call field label Bool.eqb c m ([false; true], x) = Ret ([false; true], y) /\ shape y = [B; 3%nat].
Proof. exact linear_reached. Qed.

(** The fields of these examples meet the hypotheses. *)
Example C77_fields_ex : Forall (fun a => planar_repr (Fin (Cyc 4)) (field a) /\ sharp (r_size (field a)) (r_inv (field a))) [false; true] /\
  Forall (fun a => planar_repr (Fin (Cyc 4)) (field a) /\ sharp (r_size (field a)) (r_cob (field a))) [false; true].
Proof. exact fields_fit. Qed.
