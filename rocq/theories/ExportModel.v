(** Model of the export of trainable layers to PyTorch.
    Sources: /repo/escnn/nn/modules/conv/r2convolution.py:349-376,
      conv/r3convolution.py:342-369, conv/r2_transposed_convolution.py:255-283,
      conv/r3_transposed_convolution.py:369-397, linear.py:289-311,
      sequential_module.py:150-170.
    The object keeps its mode and the buffers filter (matrix) and expanded_bias as in
    LayerModel; here the expansion of the parameters can raise. A PyTorch module is
    the arguments it was constructed with and its parameters; that the new module
    shares the memory of the buffers is left out. *)
From Coq Require Import String.
From Coq Require Import Reals ZArith Bool List Arith.
From Verif Require Import LibRes LibMat FieldModel RepModel BlocksModel LayerModel GridModel ImageModel TransposedModel RdConvModel SeqModel.
Import ListNotations.
Open Scope R_scope.

(** ** The object *)
(** the parameters: weights and bias *)
Definition params := (list R * list R)%type.
(** what expand_parameters returns: filter (or matrix) and bias *)
Definition expansion := (array R * option (list R))%type.

Section Object.
Variable expand : params -> res expansion.
(** train: _RdConv.train rd_convolution.py:296-336 and _RdConvTransposed.train expand
    when the mode changes ([always] is false); Linear.train linear.py:242-276 expands
    at every call ([always] is true) *)
Definition obj_train (always mode : bool) (m : @layer params expansion) : res (@layer params expansion) :=
  if mode then Ret {| ly_training := true; ly_params := ly_params m; ly_buffer := None |}
  else if always || ly_training m then
    f <- expand (ly_params m) ;; Ret {| ly_training := false; ly_params := ly_params m; ly_buffer := Some f |}
  else Ret {| ly_training := false; ly_params := ly_params m; ly_buffer := ly_buffer m |}.
(** the filter and bias forward uses: r2convolution.py:207-212, linear.py:198-203 *)
Definition obj_used (m : @layer params expansion) : res expansion :=
  if negb (ly_training m) then match ly_buffer m with Some f => Ret f | None => Raise end else expand (ly_params m).
(** what is done to an object between its construction and its use *)
Inductive obj_op := Train (mode : bool) | SetParams (w : params).
Definition obj_step (always : bool) (o : obj_op) (m : @layer params expansion) : res (@layer params expansion) :=
  match o with Train mode => obj_train always mode m | SetParams w => Ret (set_params w m) end.
Fixpoint obj_run (always : bool) (ops : list obj_op) (m : @layer params expansion) : res (@layer params expansion) :=
  match ops with [] => Ret m | o :: ops' => m' <- obj_step always o m ;; obj_run always ops' m' end.

(** The common part of the exports: `self.eval()`, then the filter and, if there is a
    bias, the expanded bias *)
Definition obj_export (always has_bias : bool) (m : @layer params expansion) : res (@layer params expansion * expansion) :=
  m' <- obj_train always false m ;;
  f <- match ly_buffer m' with Some f => Ret f | None => Raise end ;;
  b <- (if has_bias then match snd f with Some b => Ret (Some b) | None => Raise end else Ret None) ;;
  Ret (m', (fst f, b)).
End Object.

(** ** The PyTorch modules *)
(** torch.nn.Conv2d, Conv3d with padding_mode 'zeros', its default *)
Record torch_conv := { tc_weight : array R; tc_bias : option (list R); tc_padding : nat; tc_stride : nat; tc_dilation : nat; tc_groups : nat }.
Definition torch_conv_call (t : torch_conv) (x : array R) : res (array R) :=
  conv_forward PadZeros (tc_padding t) (tc_groups t) (tc_stride t) (tc_dilation t) (tc_weight t) (tc_bias t) x.
(** torch.nn.ConvTranspose2d, ConvTranspose3d *)
Record torch_convt := { tt_weight : array R; tt_bias : option (list R); tt_padding : nat; tt_output_padding : nat; tt_stride : nat; tt_dilation : nat; tt_groups : nat }.
Definition torch_convt_call (t : torch_convt) (x : array R) : res (array R) :=
  conv_transpose (tt_groups t) (tt_stride t) (tt_padding t) (tt_output_padding t) (tt_dilation t) (tt_weight t) (tt_bias t) x.
(** the checks of the constructors of torch.nn.Conv2d and the others *)
Definition torch_groups_ok (cin cout groups : nat) : bool :=
  Nat.ltb 0 groups && Nat.eqb (cin mod groups) 0 && Nat.eqb (cout mod groups) 0.
(** torch.nn.functional.linear on a batch of vectors *)
Definition linear (M : array R) (bias : option (list R)) (x : array R) : res (array R) :=
  assert (Nat.eqb (length (shape x)) 2 && Nat.eqb (nth 1 (shape x) 0%nat) (nth 1 (shape M) 0%nat)) ;;
  assert (match bias with Some b => Nat.eqb (length b) (nth 0 (shape M) 0%nat) | None => true end) ;;
  Ret {| shape := [nth 0 (shape x) 0%nat; nth 0 (shape M) 0%nat];
         entry := fun idx => sumn (nth 1 (shape M) 0%nat) (fun i => entry M [nth 1 idx 0%nat; i] * entry x [nth 0 idx 0%nat; i]) +
                             match bias with Some b => nth (nth 1 idx 0%nat) b 0 | None => 0 end |}.

Section Layers.
Context {A X T : Type}.
Variable rep : A -> repr T.
Variable name : A -> string.
Variable aeqb : A -> A -> bool.
Variable order : list A -> list A.
Variable sort : list (string * string) -> list (string * string).
Local Notation size := (asize rep).

(** ** R2Conv, R3Conv *)
Definition conv_expand (c : rdconv A X) (w : params) : res expansion := rc_expand rep name c (fst w) (snd w).
(** forward r2convolution.py:193-231, r3convolution.py:186-222, in both modes *)
Definition conv_call (c : rdconv A X) (m : @layer params expansion) (x : list A * array R) : res (list A * array R) :=
  assert (same_type aeqb (fst x) (rc_in c)) ;;
  fb <- obj_used (conv_expand c) m ;;
  y <- conv_forward (rc_mode c) (rc_padding c) (rc_groups c) (rc_stride c) (rc_dilation c) (fst fb) (snd fb) (snd x) ;;
  Ret (rc_out c, y).
Definition is_some {B} (o : option B) : bool := match o with Some _ => true | None => false end.
(** export r2convolution.py:349-376, r3convolution.py:342-369 *)
Definition conv_export (c : rdconv A X) (m : @layer params expansion) : res (@layer params expansion * torch_conv) :=
  e <- obj_export (conv_expand c) false (is_some (rc_bias c)) m ;;
  assert (torch_groups_ok (type_size size (rc_in c)) (type_size size (rc_out c)) (rc_groups c)) ;;
  Ret (fst e, {| tc_weight := fst (snd e); tc_bias := snd (snd e); tc_padding := rc_padding c; tc_stride := rc_stride c;
                 tc_dilation := rc_dilation c; tc_groups := rc_groups c |}).

(** ** R2ConvTransposed, R3ConvTransposed *)
Record rdconvt := {
  rt_in : list A; rt_out : list A; rt_d : nat; rt_k : nat; rt_padding : nat; rt_output_padding : nat;
  rt_stride : nat; rt_dilation : nat; rt_groups : nat; rt_bias : option (nat * mat); rt_expansion : blocks A X nat }.
(** _RdConvTransposed.__init__ rd_transposed_convolution.py:98-225; [generator] as in
    mk_rdconv. The filter maps to the fields of one group. *)
Definition mk_rdconvt (irr : list Z -> res (girrep T)) (tid : list Z) (generator : A -> A -> res (option (BlocksModel.kbasis X nat)))
    (ins outs : list A) (d k padding output_padding stride dilation groups : nat) (bias : bool) (bf : option (attr X -> bool)) : res rdconvt :=
  let in_size := (length ins / groups)%nat in
  let out_size := (length outs / groups)%nat in
  first <- (if Nat.ltb 1 groups then
              assert (Nat.eqb (length ins mod groups) 0) ;;
              assert (Nat.eqb (length outs mod groups) 0) ;;
              assert (equal_groups aeqb ins in_size) ;;
              assert (equal_groups aeqb outs out_size) ;;
              Ret (firstn out_size outs)
            else Ret outs) ;;
  m <- mk_bias irr tid bias (map rep outs) ;;
  b <- mk_blocks (k ^ d)%nat name size aeqb order sort ins first generator bf ;;
  assert (negb (Nat.eqb (bb_dim b) 0)) ;;
  Ret {| rt_in := ins; rt_out := outs; rt_d := d; rt_k := k; rt_padding := padding; rt_output_padding := output_padding; rt_stride := stride;
         rt_dilation := dilation; rt_groups := groups; rt_bias := m; rt_expansion := b |}.
(** expand_parameters rd_transposed_convolution.py:243-262 *)
Definition convt_expand (c : rdconvt) (w : params) : res expansion :=
  f <- BlocksModel.forward (rt_k c ^ rt_d c)%nat name size (rt_expansion c) (fst w) ;;
  Ret (transpose01 (reshape_filter (type_size size (bb_out (rt_expansion c))) (type_size size (rt_in c)) (rt_k c) (rt_d c) f),
       expand_bias (map rep (rt_out c)) (rt_bias c) (snd w)).
(** forward r2_transposed_convolution.py:119-139, r3_transposed_convolution.py:119-140 *)
Definition convt_call (c : rdconvt) (m : @layer params expansion) (x : list A * array R) : res (list A * array R) :=
  assert (same_type aeqb (fst x) (rt_in c)) ;;
  fb <- obj_used (convt_expand c) m ;;
  y <- conv_transpose (rt_groups c) (rt_stride c) (rt_padding c) (rt_output_padding c) (rt_dilation c) (fst fb) (snd fb) (snd x) ;;
  Ret (rt_out c, y).
(** export r2_transposed_convolution.py:255-283, r3_transposed_convolution.py:369-397:
    output_padding is not passed on, its default is 0 *)
Definition convt_export (c : rdconvt) (m : @layer params expansion) : res (@layer params expansion * torch_convt) :=
  e <- obj_export (convt_expand c) false (is_some (rt_bias c)) m ;;
  assert (torch_groups_ok (type_size size (rt_in c)) (type_size size (rt_out c)) (rt_groups c)) ;;
  Ret (fst e, {| tt_weight := fst (snd e); tt_bias := snd (snd e); tt_padding := rt_padding c; tt_output_padding := 0; tt_stride := rt_stride c;
                 tt_dilation := rt_dilation c; tt_groups := rt_groups c |}).

(** ** Linear *)
Record linear_layer := { ll_in : list A; ll_out : list A; ll_bias : option (nat * mat); ll_expansion : blocks A X nat }.
(** Linear.__init__ linear.py:108-180; [generator] is build_fiber_intertwiner_basis
    followed by sampling at the origin *)
Definition mk_linear (irr : list Z -> res (girrep T)) (tid : list Z) (generator : A -> A -> res (option (BlocksModel.kbasis X nat)))
    (ins outs : list A) (bias : bool) : res linear_layer :=
  m <- mk_bias irr tid bias (map rep outs) ;;
  b <- mk_blocks 1 name size aeqb order sort ins outs generator None ;;
  Ret {| ll_in := ins; ll_out := outs; ll_bias := m; ll_expansion := b |}.
(** expand_parameters 222-240 *)
Definition linear_expand (c : linear_layer) (w : params) : res expansion :=
  f <- BlocksModel.forward 1 name size (ll_expansion c) (fst w) ;;
  Ret (reshape_filter (type_size size (ll_out c)) (type_size size (ll_in c)) 1 0 f, expand_bias (map rep (ll_out c)) (ll_bias c) (snd w)).
(** forward 182-207 *)
Definition linear_call (c : linear_layer) (m : @layer params expansion) (x : list A * array R) : res (list A * array R) :=
  assert (same_type aeqb (fst x) (ll_in c)) ;;
  fb <- obj_used (linear_expand c) m ;;
  y <- linear (fst fb) (snd fb) (snd x) ;;
  Ret (ll_out c, y).
(** export 289-311 *)
Definition linear_export (c : linear_layer) (m : @layer params expansion) : res (@layer params expansion * expansion) :=
  obj_export (linear_expand c) true (is_some (ll_bias c)) m.
End Layers.

(** ** SequentialModule.export sequential_module.py:150-170 *)
(** [export] is None for modules whose export raises; modules that are not
    EquivariantModules cannot be added. The result is a torch.nn.Sequential. *)
Definition seq_export {M T E} (export : M -> res E) (s : seq_state M T) : res (list (string * E)) :=
  mapM (fun nm => e <- export (snd nm) ;; Ret (fst nm, e)) (s_mods s).
(** torch.nn.Sequential.forward *)
Definition torch_seq_call {E Y} (call : E -> Y -> res Y) (l : list (string * E)) (y : Y) : res Y :=
  fold_left (fun r ne => y <- r ;; call (snd ne) y) l (Ret y).
