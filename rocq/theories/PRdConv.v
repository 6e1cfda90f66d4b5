(** C61: convolution layers, from their construction to their output. *)
From Coq Require Import String.
From Coq Require Import Reals ZArith Bool List Arith Lia Lra Permutation.
From Verif Require Import LibRes LibMat FieldModel FinGroupModel ParamModel PlanarModel SpecPlanar IrrepModel SpecRep SpecIrrep RepModel SpecRepr KernelModel SpecKernel PolarModel SpecPolar
  BlocksModel SpecBlocks LayerModel SpecLayer GridModel SpecGrid ImageModel SpecImage RdConvModel SpecRdConv RdConvCor RdConvEx.
Import ListNotations.
Open Scope R_scope.

(** Any group and any dimension: a layer that expands samples of steerable kernels
    commutes with the elements that act on the grid, for all weights, biases,
    numbers of groups and padding modes. *)
Theorem C61_layer : forall A X T (rep : A -> repr T) name aeqb order sort (generator : A -> A -> res (option (BlocksModel.kbasis X nat))) bf,
  (forall a b, aeqb a b = true <-> a = b) -> (forall l, Permutation (order l) l) -> (forall l, Permutation (sort l) l) ->
  forall half, half 0 = 0 -> half 1 = 1 -> half (-1) = -1 ->
  forall affine base irr mem op e tid ins outs n k p mode stride dil groups bias c g M w b x y B ws,
  (forall i, irr tid = Ret i -> trivial_rep mem (gi_size i) (gi_rep i)) ->
  Forall (fun a => proper irr mem op e (rep a) /\ (0 < r_size (rep a))%nat) (ins ++ outs) -> told_apart name ins -> told_apart name outs ->
  (forall i o, In i ins -> In o outs -> exists kb, generator i o = Ret kb /\ forall q, kb = Some q -> kb_out q = r_size (rep o) /\ kb_in q = r_size (rep i)) ->
  mem g -> base g = Ret (n, M) -> signed_perm n M ->
  (forall i o kb el Bi Bo, In i ins -> In o outs -> generator i o = Ret (Some kb) -> In el (kb_elements kb) ->
     r_fun (rep i) g = Ret (r_size (rep i), Bi) -> r_fun (rep o) g = Ret (r_size (rep o), Bo) ->
     filter_of_steerable n k dil (r_size (rep o)) (r_size (rep i)) M Bi Bo (el_sample el)) ->
  mk_rdconv rep name aeqb order sort irr tid generator ins outs n k p mode stride dil groups bias bf = Ret c ->
  length w = bb_dim (rc_expansion c) -> shape x = B :: type_size (asize rep) ins :: ws -> length ws = n -> fits k p stride dil ws ->
  rc_forward rep name aeqb c w b (ins, x) = Ret (outs, y) ->
  exists x' y' z, field_transform rep half affine base ins g x = Ret x' /\ rc_forward rep name aeqb c w b (ins, x') = Ret (outs, y') /\
    field_transform rep half affine base outs g y = Ret z /\ same_array y' z.
Proof. exact layer_ok. Qed.
Print Assumptions C61_layer.

(** R2Conv for C_N and SO(2): when the constructor returns. *)
Theorem C61_built : forall A (rep : A -> repr pval) name aeqb order sort,
  (forall a b, aeqb a b = true <-> a = b) -> (forall l, Permutation (order l) l) -> (forall l, Permutation (sort l) l) ->
  forall N sg linv L radii sigma, (0 < N \/ N = -1)%Z -> p_subgroup O2 (IO2 None N) = Ret sg -> correct_inverse linv -> (exists p, mk_profile radii sigma = Ret p) ->
  forall ins outs, Forall (fun a => planar_repr (ps_group sg) (rep a) /\ sharp (r_size (rep a)) (r_inv (rep a))) ins ->
  Forall (fun a => planar_repr (ps_group sg) (rep a) /\ sharp (r_size (rep a)) (r_cob (rep a))) outs -> told_apart name ins -> told_apart name outs ->
  forall k p mode stride dil groups bias bf,
  (exists c, mk_r2conv rep name aeqb order sort linv (IO2 None N) L radii sigma ins outs k p mode stride dil groups bias bf = Ret c) <->
  grouped groups ins /\ grouped groups outs /\
    exists i o, In i ins /\ In o outs /\ elements_of (k ^ 2) (r2_generator rep linv (IO2 None N) L radii sigma k dil) bf i o <> [].
Proof. exact @r2conv_built. Qed.
Print Assumptions C61_built.

(** When forward returns. *)
Theorem C61_runs : forall A (rep : A -> repr pval) name aeqb order sort,
  (forall a b, aeqb a b = true <-> a = b) -> (forall l, Permutation (order l) l) -> (forall l, Permutation (sort l) l) ->
  forall N sg linv L radii sigma, (0 < N \/ N = -1)%Z -> p_subgroup O2 (IO2 None N) = Ret sg -> correct_inverse linv -> (exists p, mk_profile radii sigma = Ret p) ->
  forall ins outs, Forall (fun a => planar_repr (ps_group sg) (rep a) /\ sharp (r_size (rep a)) (r_inv (rep a))) ins ->
  Forall (fun a => planar_repr (ps_group sg) (rep a) /\ sharp (r_size (rep a)) (r_cob (rep a))) outs -> told_apart name ins -> told_apart name outs ->
  forall k p mode stride dil groups bias bf c w b x B ws,
  mk_r2conv rep name aeqb order sort linv (IO2 None N) L radii sigma ins outs k p mode stride dil groups bias bf = Ret c -> length w = bb_dim (rc_expansion c) ->
  shape x = B :: type_size (asize rep) ins :: ws -> length ws = 2%nat ->
  ((exists y, rc_forward rep name aeqb c w b (ins, x) = Ret y) <->
   (0 < groups)%nat /\ (0 < stride)%nat /\ (0 < dil)%nat /\ (0 < k)%nat /\ forallb (pad_ok mode p) ws = true /\ Forall (fun v => dil * (k - 1) + 1 <= v + 2 * p)%nat ws).
Proof. exact @r2conv_runs. Qed.
Print Assumptions C61_runs.

(** The output of the moved input is the moved output. *)
Theorem C61_equivariant : forall A (rep : A -> repr pval) name aeqb order sort,
  (forall a b, aeqb a b = true <-> a = b) -> (forall l, Permutation (order l) l) -> (forall l, Permutation (sort l) l) ->
  forall N sg linv L radii sigma, (0 < N \/ N = -1)%Z -> p_subgroup O2 (IO2 None N) = Ret sg -> correct_inverse linv -> (exists p, mk_profile radii sigma = Ret p) ->
  forall ins outs, Forall (fun a => planar_repr (ps_group sg) (rep a) /\ sharp (r_size (rep a)) (r_inv (rep a))) ins ->
  Forall (fun a => planar_repr (ps_group sg) (rep a) /\ sharp (r_size (rep a)) (r_cob (rep a))) outs -> told_apart name ins -> told_apart name outs ->
  forall k p mode stride dil groups bias bf half, half 0 = 0 -> half 1 = 1 -> half (-1) = -1 ->
  forall affine base h M c w b x y B ws,
  mk_r2conv rep name aeqb order sort linv (IO2 None N) L radii sigma ins outs k p mode stride dil groups bias bf = Ret c -> r2_action linv (IO2 None N) sg = Ret base ->
  pmember (ps_group sg) h -> r_fun base h = Ret (2%nat, M) -> signed_perm 2 M ->
  length w = bb_dim (rc_expansion c) -> shape x = B :: type_size (asize rep) ins :: ws -> length ws = 2%nat -> fits k p stride dil ws ->
  rc_forward rep name aeqb c w b (ins, x) = Ret (outs, y) ->
  exists x' y' z, field_transform rep half affine (r_fun base) ins h x = Ret x' /\ rc_forward rep name aeqb c w b (ins, x') = Ret (outs, y') /\
    field_transform rep half affine (r_fun base) outs h y = Ret z /\ same_array y' z.
Proof. exact @r2conv_equivariant. Qed.
Print Assumptions C61_equivariant.

(** The groups whose elements all act on the grid are C_1, C_2 and C_4. *)
Theorem C61_quarter_turns : forall N sg linv, (0 < N)%Z -> p_subgroup O2 (IO2 None N) = Ret sg -> correct_inverse linv ->
  exists base, r2_action linv (IO2 None N) sg = Ret base /\
    ((forall h, pmember (ps_group sg) h -> exists M, r_fun base h = Ret (2%nat, M) /\ signed_perm 2 M) <-> (N = 1 \/ N = 2 \/ N = 4)%Z).
Proof. exact quarter_turns. Qed.
Print Assumptions C61_quarter_turns.

(** A layer for C_4 with 3 x 3 filters from a scalar and a vector field to two
    scalars, on circular images of 5 x 5 pixels, and a quarter turn. *)
Example C61_ex : forall linv, correct_inverse linv -> exists c, 
  mk_r2conv field label Bool.eqb (fun l => l) (fun l => l) linv (IO2 None 4) 1 [0; 1] [1; 1] ins outs 3 1 PadCircular 1 1 1 true None = Ret c /\
  p_subgroup O2 (IO2 None 4) = Ret c4 /\
  (Forall (fun a => planar_repr (ps_group c4) (field a) /\ sharp (r_size (field a)) (r_inv (field a))) ins /\
   Forall (fun a => planar_repr (ps_group c4) (field a) /\ sharp (r_size (field a)) (r_cob (field a))) outs /\ told_apart label ins /\ told_apart label outs) /\
  fits 3 1 1 1 [5%nat; 5%nat] /\ type_size (asize field) ins = 3%nat /\
  forall w b x, length w = bb_dim (rc_expansion c) -> shape x = [2; 3; 5; 5]%nat -> exists y, rc_forward field label Bool.eqb c w b (ins, x) = Ret y.
Proof.
  intros linv Hinv. destruct (layer_built linv Hinv) as (c & E). exists c. split; [exact E|]. split; [reflexivity|].
  assert (Forall (fun a => planar_repr (ps_group c4) (field a) /\ sharp (r_size (field a)) (r_inv (field a))) ins) as F1.
  { apply Forall_forall. intros a _. destruct (fields_ok a) as (? & ? & ?). auto. }
  assert (Forall (fun a => planar_repr (ps_group c4) (field a) /\ sharp (r_size (field a)) (r_cob (field a))) outs) as F2.
  { apply Forall_forall. intros a _. destruct (fields_ok a) as (? & ? & ?). auto. }
  split; [split; [exact F1|split; [exact F2|split; apply names_ok]]|]. split; [repeat constructor|]. split; [reflexivity|].
  intros w b x Lw Sx. apply (C61_runs _ field label Bool.eqb (fun l => l) (fun l => l) eqb_true_iff (fun l => Permutation_refl l) (fun l => Permutation_refl l)
    4 c4 linv 1 [0; 1] [1; 1] (or_introl eq_refl) eq_refl Hinv prof_ok ins outs F1 F2 (names_ok _) (names_ok _) 3 1 PadCircular 1 1 1 true None c w b x 2%nat [5%nat; 5%nat] E Lw Sx eq_refl).
  repeat split; try lia. repeat constructor; cbn; lia.
Qed.
