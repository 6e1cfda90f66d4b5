(** C79: tensor products of representations. C80: TensorProductModule. *)
From Coq Require Import String.
From Coq Require Import Reals ZArith Bool List Arith Lia Lra Permutation.
From Verif Require Import LibRes LibMat FieldModel FinGroupModel PlanarModel SpecPlanar IrrepModel SpecRep SpecIrrep RepModel SpecRepr KernelModel SpecKernel PolarModel KernelPlanar
  BlocksModel LayerModel GridModel SpecGrid ImageModel RdConvModel RdConvEx SeqModel ExportModel ExportEx LinearModel StateEx TensorModel SpecTensor TensorCor TensorModModel SpecTensorMod TensorModThms TensorModCor TensorModComp TensorEx.
Import ListNotations.
Open Scope R_scope.

(** Any group whose Clebsch-Gordan coefficients decompose the products of its irreps: the
    tensor product of two representations can be built, it is again a representation
    with the sizes multiplied, and its values are the products of the values. *)
Theorem C79_any : forall T (irr : list Z -> res (girrep T)) linv tensor cg (mem : T -> Prop) (ok : list Z -> Prop),
  (forall j, ok j -> exists r, irr j = Ret r /\ gi_id r = j /\ (0 < gi_size r)%nat /\ forall g, mem g -> exists D, gi_rep r g = Ret (gi_size r, D)) ->
  (forall m n, ok m -> ok n -> sound_pair irr mem ok tensor cg m n) -> correct_inverse linv ->
  forall rho1 rho2, Forall ok (r_irreps rho1) -> Forall ok (r_irreps rho2) ->
  total_size irr (r_irreps rho1) (r_size rho1) -> total_size irr (r_irreps rho2) (r_size rho2) -> (0 < r_size rho1)%nat -> (0 < r_size rho2)%nat ->
  reproduces irr mem rho1 -> reproduces irr mem rho2 ->
  exists r, tensor_product irr linv tensor cg rho1 rho2 = Ret r /\ r_size r = (r_size rho1 * r_size rho2)%nat /\
    Forall ok (r_irreps r) /\ total_size irr (r_irreps r) (r_size r) /\
    (orthogonal (r_size rho1) (r_cob rho1) -> orthogonal (r_size rho2) (r_cob rho2) -> orthogonal (r_size r) (r_cob r)) /\
    (sharp (r_size r) (r_cob r) -> reproduces irr mem r /\
       forall g A B, mem g -> r_fun rho1 g = Ret (r_size rho1, A) -> r_fun rho2 g = Ret (r_size rho2, B) ->
       exists C, r_fun r g = Ret (r_size r, C) /\ is_tensor (r_size rho1) (r_size rho2) A B C).
Proof. exact tensor_any. Qed.
Print Assumptions C79_any.

(** The groups of rotations of the plane C_N and SO(2), with the coefficients of the code. *)
Theorem C79_rotations : forall G, pvalid G -> rotations G -> forall linv, correct_inverse linv -> forall rho1 rho2, planar_repr G rho1 -> planar_repr G rho2 ->
  exists r, tensor_product (p_irr G) linv (p_tensor G) (p_cg G) rho1 rho2 = Ret r /\ r_size r = (r_size rho1 * r_size rho2)%nat /\
    (orthogonal (r_size rho1) (r_cob rho1) -> orthogonal (r_size rho2) (r_cob rho2) -> orthogonal (r_size r) (r_cob r)) /\
    (meq (r_size rho1) (r_size rho1) (r_cob rho1) mid -> meq (r_size rho2) (r_size rho2) (r_cob rho2) mid -> sharp (r_size r) (r_cob r)) /\
    (sharp (r_size r) (r_cob r) -> planar_repr G r /\
       forall g A B, pmember G g -> r_fun rho1 g = Ret (r_size rho1, A) -> r_fun rho2 g = Ret (r_size rho2, B) ->
       exists C, r_fun r g = Ret (r_size r, C) /\ is_tensor (r_size rho1) (r_size rho2) A B C).
Proof. exact rot_tensor_product. Qed.
Print Assumptions C79_rotations.

(** The character given to the product is the trace of its values. *)
Theorem C79_character : forall G, pvalid G -> rotations G -> forall linv, correct_inverse linv -> forall rho1 rho2 r, planar_repr G rho1 -> planar_repr G rho2 -> tensor_product (p_irr G) linv (p_tensor G) (p_cg G) rho1 rho2 = Ret r ->
  sharp (r_size r) (r_cob r) -> forall g, pmember G g -> exists v, tensor_character rho1 rho2 g = Ret v /\ r_character r g = Ret v.
Proof. exact rot_tensor_character. Qed.
Print Assumptions C79_character.

(** The coefficients of C_4 meet the hypothesis of C79_any. *)
Example C79_sound_ex : sound_pair (p_irr (Fin (Cyc 4))) (pmember (Fin (Cyc 4))) (irrep_ok (Fin (Cyc 4))) (p_tensor (Fin (Cyc 4))) (p_cg (Fin (Cyc 4))) [1%Z] [1%Z].
Proof. exact vectors_sound. Qed.

(** The tensor square of the vectors of C_4. *)
Example C79_square_ex : forall linv, correct_inverse linv -> exists r, c4_product linv (field true) (field true) = Ret r /\ r_size r = 4%nat /\ planar_repr (Fin (Cyc 4)) r /\
  forall g A, pmember (Fin (Cyc 4)) g -> r_fun (field true) g = Ret (2%nat, A) -> exists C, r_fun r g = Ret (4%nat, C) /\ C 0%nat 3%nat = A 0%nat 1%nat * A 0%nat 1%nat.
Proof. exact vector_square. Qed.

(** Any group with products and intertwiners: the module commutes in every state with
    the elements that act on the grid. *)
Theorem C80_any : forall A X T (rep : A -> repr T) name hname aeqb order sort (product : repr T -> repr T -> res (repr T)) (generator : (option A -> repr T) -> option A -> option A -> res (option (BlocksModel.kbasis X nat))),
  (forall a b, aeqb a b = true <-> a = b) -> forall irr mem op e, info X -> (forall l, Permutation (order l) l) -> (forall l, Permutation (sort l) l) ->
  forall ins outs, Forall (fun a => proper irr mem op e (rep a) /\ (0 < r_size (rep a))%nat) (ins ++ outs) ->
  (forall i hid, In i ins -> product (rep i) (rep i) = Ret hid -> proper irr mem op e hid /\ r_size hid = (r_size (rep i) * r_size (rep i))%nat /\
     forall g B, mem g -> r_fun (rep i) g = Ret (r_size (rep i), B) -> exists H, r_fun hid g = Ret (r_size hid, H) /\ is_tensor (r_size (rep i)) (r_size (rep i)) B B H) ->
  (forall i o hid, In i ins -> In o outs -> product (rep i) (rep i) = Ret hid ->
     exists kb, generator (with_hidden hid rep) None (Some o) = Ret kb /\ forall q, kb = Some q -> kb_out q = r_size (rep o) /\ kb_in q = r_size hid /\
       forall el g H Bo, In el (kb_elements q) -> mem g -> r_fun hid g = Ret (r_size hid, H) -> r_fun (rep o) g = Ret (r_size (rep o), Bo) ->
       meq (r_size (rep o)) (r_size hid) (mmul (r_size hid) (fun a b => el_sample el a b 0%nat) H) (mmul (r_size (rep o)) Bo (fun a b => el_sample el a b 0%nat))) ->
  forall c w0 zeros ops m, mk_tensor_module rep name hname aeqb order sort product generator ins outs = Ret c -> length (fst w0) = bb_dim (tp_expansion c) -> (forall w, In (SetParams w) ops -> length (fst w) = bb_dim (tp_expansion c)) ->
  obj_run (tensor_expand rep name hname c) true ops (new_layer w0 zeros) = Ret m ->
  forall half, half 0 = 0 -> half 1 = 1 -> half (-1) = -1 -> forall affine base g n M, mem g -> base g = Ret (n, M) -> signed_perm n M ->
  forall x y B ws, shape x = B :: type_size (asize rep) ins :: ws -> length ws = n -> tensor_call rep name hname aeqb c m (ins, x) = Ret (outs, y) ->
  exists x' y' z, field_transform rep half affine base ins g x = Ret x' /\ tensor_call rep name hname aeqb c m (ins, x') = Ret (outs, y') /\
    field_transform rep half affine base outs g y = Ret z /\ same_array y' z.
Proof. exact @tensor_states. Qed.
Print Assumptions C80_any.

(** C_N and SO(2): every usable state answers every input, with these products. *)
Theorem C80_value : forall A (rep : A -> repr pval) name hname aeqb order sort,
  (forall a b, aeqb a b = true <-> a = b) -> (forall l, Permutation (order l) l) -> (forall l, Permutation (sort l) l) ->
  forall G linv, pvalid G -> rotations G -> correct_inverse linv ->
  let product := tensor_product (p_irr G) linv (p_tensor G) (p_cg G) in
  let generator := fun rep' : option A -> repr pval => point_generator rep' (p_irr G) (p_tensor G) (p_cg G) (p_trivial_id G) in
  forall ins outs,
  Forall (fun a => planar_repr G (rep a) /\ orthogonal (asize rep a) (r_cob (rep a)) /\ forall hid, product (rep a) (rep a) = Ret hid -> sharp (r_size hid) (r_cob hid)) ins ->
  Forall (fun a => planar_repr G (rep a) /\ sharp (asize rep a) (r_cob (rep a))) outs ->
  forall c w0 zeros ops m M, mk_tensor_module rep name hname aeqb order sort product generator ins outs = Ret c -> length (fst w0) = bb_dim (tp_expansion c) -> (forall w, In (SetParams w) ops -> length (fst w) = bb_dim (tp_expansion c)) ->
  obj_run (tensor_expand rep name hname c) true ops (new_layer w0 zeros) = Ret m -> obj_used (tensor_expand rep name hname c) m = Ret M ->
  forall x B sp, shape x = B :: type_size (asize rep) ins :: sp -> exists y, tensor_call rep name hname aeqb c m (ins, x) = Ret (outs, y) /\ shape y = B :: type_size (asize rep) outs :: sp /\
    shape y = tensor_shape rep aeqb c (shape x) /\
    forall i o f b ch p, In i ins -> In o outs -> (f < length outs)%nat -> (ch < asize rep o)%nat -> entry y (b :: (f * asize rep o + ch)%nat :: p) =
      sumn (asize rep i) (fun j => sumn (asize rep i) (fun l => entry (fst M) [(f * asize rep o + ch)%nat; (j * asize rep i + l)%nat] * (entry x (b :: (f * asize rep i + j)%nat :: p) * entry x (b :: (f * asize rep i + l)%nat :: p)))).
Proof. exact @rotations_tensor_value. Qed.
Print Assumptions C80_value.

(** It commutes with the elements that act on the grid. *)
Theorem C80_commutes : forall A (rep : A -> repr pval) name hname aeqb order sort,
  (forall a b, aeqb a b = true <-> a = b) -> (forall l, Permutation (order l) l) -> (forall l, Permutation (sort l) l) ->
  forall G linv, pvalid G -> rotations G -> correct_inverse linv ->
  let product := tensor_product (p_irr G) linv (p_tensor G) (p_cg G) in
  let generator := fun rep' : option A -> repr pval => point_generator rep' (p_irr G) (p_tensor G) (p_cg G) (p_trivial_id G) in
  forall ins outs,
  Forall (fun a => planar_repr G (rep a) /\ orthogonal (asize rep a) (r_cob (rep a)) /\ forall hid, product (rep a) (rep a) = Ret hid -> sharp (r_size hid) (r_cob hid)) ins ->
  Forall (fun a => planar_repr G (rep a) /\ sharp (asize rep a) (r_cob (rep a))) outs ->
  forall c w0 zeros ops m, mk_tensor_module rep name hname aeqb order sort product generator ins outs = Ret c -> length (fst w0) = bb_dim (tp_expansion c) -> (forall w, In (SetParams w) ops -> length (fst w) = bb_dim (tp_expansion c)) ->
  obj_run (tensor_expand rep name hname c) true ops (new_layer w0 zeros) = Ret m ->
  forall half, half 0 = 0 -> half 1 = 1 -> half (-1) = -1 -> forall affine base g n M, pmember G g -> base g = Ret (n, M) -> signed_perm n M ->
  forall x y B ws, shape x = B :: type_size (asize rep) ins :: ws -> length ws = n -> tensor_call rep name hname aeqb c m (ins, x) = Ret (outs, y) ->
  exists x' y' z, field_transform rep half affine base ins g x = Ret x' /\ tensor_call rep name hname aeqb c m (ins, x') = Ret (outs, y') /\
    field_transform rep half affine base outs g y = Ret z /\ same_array y' z.
Proof. exact @rotations_tensor_states. Qed.
Print Assumptions C80_commutes.

(** On the point it commutes with all elements. *)
Theorem C80_commutes_point : forall A (rep : A -> repr pval) name hname aeqb order sort,
  (forall a b, aeqb a b = true <-> a = b) -> (forall l, Permutation (order l) l) -> (forall l, Permutation (sort l) l) ->
  forall G linv, pvalid G -> rotations G -> correct_inverse linv ->
  let product := tensor_product (p_irr G) linv (p_tensor G) (p_cg G) in
  let generator := fun rep' : option A -> repr pval => point_generator rep' (p_irr G) (p_tensor G) (p_cg G) (p_trivial_id G) in
  forall ins outs,
  Forall (fun a => planar_repr G (rep a) /\ orthogonal (asize rep a) (r_cob (rep a)) /\ forall hid, product (rep a) (rep a) = Ret hid -> sharp (r_size hid) (r_cob hid)) ins ->
  Forall (fun a => planar_repr G (rep a) /\ sharp (asize rep a) (r_cob (rep a))) outs ->
  forall c w0 zeros ops m, mk_tensor_module rep name hname aeqb order sort product generator ins outs = Ret c -> length (fst w0) = bb_dim (tp_expansion c) -> (forall w, In (SetParams w) ops -> length (fst w) = bb_dim (tp_expansion c)) ->
  obj_run (tensor_expand rep name hname c) true ops (new_layer w0 zeros) = Ret m ->
  forall g x y B ws, pmember G g -> shape x = B :: type_size (asize rep) ins :: ws -> tensor_call rep name hname aeqb c m (ins, x) = Ret (outs, y) ->
  exists x' y' z, transform0 rep ins g x = Ret x' /\ tensor_call rep name hname aeqb c m (ins, x') = Ret (outs, y') /\ transform0 rep outs g y = Ret z /\ same_array y' z.
Proof. exact @rotations_tensor_states0. Qed.
Print Assumptions C80_commutes_point.

(** Its matrices are the projections of the tensor square that commute with the group, all
    of them, each for one list of weights; the module exists exactly if there is one that
    is not zero. *)
Theorem C80_projections : forall A (rep : A -> repr pval) name hname aeqb order sort,
  (forall a b, aeqb a b = true <-> a = b) -> (forall l, Permutation (order l) l) -> (forall l, Permutation (sort l) l) ->
  forall G linv, pvalid G -> rotations G -> correct_inverse linv ->
  let product := tensor_product (p_irr G) linv (p_tensor G) (p_cg G) in
  let generator := fun rep' : option A -> repr pval => point_generator rep' (p_irr G) (p_tensor G) (p_cg G) (p_trivial_id G) in
  forall ins outs,
  Forall (fun a => planar_repr G (rep a) /\ orthogonal (asize rep a) (r_cob (rep a)) /\ forall hid, product (rep a) (rep a) = Ret hid -> sharp (r_size hid) (r_cob hid)) ins ->
  Forall (fun a => planar_repr G (rep a) /\ sharp (asize rep a) (r_cob (rep a)) /\ orthogonal (asize rep a) (r_cob (rep a))) outs ->
  forall i o C, (0 < C)%nat -> ins = repeat i C -> outs = repeat o C ->
  (forall c w M, mk_tensor_module rep name hname aeqb order sort product generator ins outs = Ret c -> length (fst w) = bb_dim (tp_expansion c) -> tensor_expand rep name hname c w = Ret M ->
     commuting_projection rep (pmember G) i outs (fun r q => entry (fst M) [r; q])) /\
  (forall c W, mk_tensor_module rep name hname aeqb order sort product generator ins outs = Ret c -> commuting_projection rep (pmember G) i outs W -> exists w, length w = bb_dim (tp_expansion c) /\
     forall v M, tensor_expand rep name hname c (w, v) = Ret M -> forall r q, (r < type_size (asize rep) outs)%nat -> (q < asize rep i * asize rep i)%nat -> entry (fst M) [r; q] = W r q) /\
  (forall c w w' M M', mk_tensor_module rep name hname aeqb order sort product generator ins outs = Ret c -> length (fst w) = bb_dim (tp_expansion c) -> length (fst w') = bb_dim (tp_expansion c) ->
     tensor_expand rep name hname c w = Ret M -> tensor_expand rep name hname c w' = Ret M' ->
     (forall r q, (r < type_size (asize rep) outs)%nat -> (q < asize rep i * asize rep i)%nat -> entry (fst M) [r; q] = entry (fst M') [r; q]) -> fst w = fst w') /\
  ((exists c, mk_tensor_module rep name hname aeqb order sort product generator ins outs = Ret c) <-> exists W r q, commuting_projection rep (pmember G) i outs W /\ (r < type_size (asize rep) outs)%nat /\ (q < asize rep i * asize rep i)%nat /\ W r q <> 0).
Proof. exact @rotations_tensor_complete. Qed.
Print Assumptions C80_projections.

(** Direct sums of irreps in their own basis meet the hypotheses on the inputs. *)
Theorem C80_plain : forall G linv, pvalid G -> rotations G -> correct_inverse linv -> forall r, planar_repr G r -> meq (r_size r) (r_size r) (r_cob r) mid ->
  orthogonal (r_size r) (r_cob r) /\ forall hid, tensor_product (p_irr G) linv (p_tensor G) (p_cg G) r r = Ret hid -> sharp (r_size hid) (r_cob hid).
Proof. exact plain_hidden. Qed.
Print Assumptions C80_plain.

(** The fields of C_4 in these examples. *)
Example C80_fields_ex : forall linv, correct_inverse linv -> forall l,
  Forall (fun a => planar_repr (Fin (Cyc 4)) (field a) /\ orthogonal (asize field a) (r_cob (field a)) /\ forall hid, c4_product linv (field a) (field a) = Ret hid -> sharp (r_size hid) (r_cob hid)) l /\
  Forall (fun a => planar_repr (Fin (Cyc 4)) (field a) /\ sharp (asize field a) (r_cob (field a)) /\ orthogonal (asize field a) (r_cob (field a))) l.
Proof. exact module_fields. Qed.

(** A module that answers with the squared lengths of two vectors, after training and
    evaluation. *)
Example C80_lengths_ex : forall linv, correct_inverse linv -> exists c w m, c4_module linv [true; true] [false; false] = Ret c /\ length w = bb_dim (tp_expansion c) /\
  obj_run (tensor_expand field label "hidden" c) true (history (w, []) (w, [])) (new_layer (w, []) (ones, None)) = Ret m /\ ly_training m = false /\
  forall x B sp, shape x = B :: 4%nat :: sp -> exists y, tensor_call field label "hidden" Bool.eqb c m ([true; true], x) = Ret ([false; false], y) /\ shape y = B :: 2%nat :: sp /\
    forall b f p, (f < 2)%nat -> entry y (b :: f :: p) = entry x (b :: (f * 2)%nat :: p) ^ 2 + entry x (b :: (f * 2 + 1)%nat :: p) ^ 2.
Proof. exact lengths_reached. Qed.

(** There is no module from vectors to vectors. *)
Example C80_none_ex : forall linv, correct_inverse linv -> forall n, c4_module linv (repeat true n) (repeat true n) = Raise.
Proof. exact no_vector_products. Qed.
