(** C75: exports of convolutions, transposed convolutions, Linear and sequences. *)
From Coq Require Import String.
From Coq Require Import Reals List ZArith Arith Bool Lia Lra.
From Verif Require Import LibRes LibMat FieldModel RepModel PlanarModel KernelModel SpecPolar BlocksModel LayerModel GridModel ImageModel RdConvModel SeqModel ExportModel
  SpecRepr SpecRep SpecIrrep SpecGrid SpecImage KernelPlanar ParamModel SpecPlanar IrrepModel PolarModel RdConvEx ExportThms ExportCor ExportEx.
Import ListNotations.
Open Scope R_scope.

(** C75. Convolutions with zero padding, after any sequence of calls to train and
    changes of parameters: the exported PyTorch module returns on a tensor exactly
    when the layer does, and the same; export leaves the layer in evaluation mode
    with its parameters and what it computes unchanged. *)
Theorem C75_conv : forall A X T (rep : A -> repr T) name aeqb order sort, (forall a b, aeqb a b = true <-> a = b) ->
  forall irr tid (generator : A -> A -> res (option (BlocksModel.kbasis X nat))) ins outs d k p stride dil groups bias bf c,
  mk_rdconv rep name aeqb order sort irr tid generator ins outs d k p PadZeros stride dil groups bias bf = Ret c ->
  forall w0 zeros ops m, obj_run (conv_expand rep name c) false ops (new_layer w0 zeros) = Ret m ->
  (forall m' t, conv_export rep name c m = Ret (m', t) ->
     ly_training m' = false /\ ly_params m' = ly_params m /\ (forall x, conv_call rep name aeqb c m' x = conv_call rep name aeqb c m x) /\
     forall x y, conv_call rep name aeqb c m (ins, x) = Ret (outs, y) <-> torch_conv_call t x = Ret y) /\
  (forall x y, conv_call rep name aeqb c m x = Ret y -> exists m' t, conv_export rep name c m = Ret (m', t)).
Proof. exact @conv_export_ok. Qed.
Print Assumptions C75_conv.

(** With any other padding mode the export still pads with zeros: a layer between
    scalar fields of C_4 and an image for which the values differ. *)
Theorem C75_padding_mode_refuted : forall linv mode, correct_inverse linv -> mode <> PadZeros -> exists c w m' t y y',
  mk_r2conv field label Bool.eqb (fun l => l) (fun l => l) linv (IO2 None 4) 1 [0; 1] [1; 1] [false] [false] 3 1 mode 1 1 1 false None = Ret c /\
  let m := new_layer (w, []) (ones, None) in
  conv_call field label Bool.eqb c m ([false], ones) = Ret ([false], y) /\ conv_export field label c m = Ret (m', t) /\ torch_conv_call t ones = Ret y' /\
  shape y = shape y' /\ valid (shape y) [0; 0; 0; 0]%nat /\ entry y [0; 0; 0; 0]%nat <> entry y' [0; 0; 0; 0]%nat.
Proof. exact padding_mode_lost. Qed.
Print Assumptions C75_padding_mode_refuted.

(** Transposed convolutions without output_padding. *)
Theorem C75_transposed : forall A X T (rep : A -> repr T) name aeqb order sort, (forall a b, aeqb a b = true <-> a = b) ->
  forall irr tid (generator : A -> A -> res (option (BlocksModel.kbasis X nat))) ins outs d k p stride dil groups bias bf c,
  mk_rdconvt rep name aeqb order sort irr tid generator ins outs d k p 0 stride dil groups bias bf = Ret c ->
  forall w0 zeros ops m, obj_run (convt_expand rep name c) false ops (new_layer w0 zeros) = Ret m ->
  (forall m' t, convt_export rep name c m = Ret (m', t) ->
     ly_training m' = false /\ ly_params m' = ly_params m /\ (forall x, convt_call rep name aeqb c m' x = convt_call rep name aeqb c m x) /\
     forall x y, convt_call rep name aeqb c m (ins, x) = Ret (outs, y) <-> torch_convt_call t x = Ret y) /\
  (forall x y, convt_call rep name aeqb c m x = Ret y -> exists m' t, convt_export rep name c m = Ret (m', t)).
Proof. exact @convt_export_ok. Qed.
Print Assumptions C75_transposed.

(** With output_padding the shape of the output of the exported module is always
    another. *)
Theorem C75_output_padding_refuted : forall A X T (rep : A -> repr T) name aeqb order sort, (forall a b, aeqb a b = true <-> a = b) ->
  forall irr tid (generator : A -> A -> res (option (BlocksModel.kbasis X nat))) ins outs d k p op stride dil groups bias bf c,
  mk_rdconvt rep name aeqb order sort irr tid generator ins outs d k p op stride dil groups bias bf = Ret c ->
  forall w0 zeros ops m, obj_run (convt_expand rep name c) false ops (new_layer w0 zeros) = Ret m -> (0 < op)%nat ->
  forall m' t, convt_export rep name c m = Ret (m', t) ->
  forall x y y', convt_call rep name aeqb c m (ins, x) = Ret (outs, y) -> torch_convt_call t x = Ret y' -> (2 < length (shape x))%nat -> shape y <> shape y'.
Proof. exact @convt_export_shape. Qed.
Print Assumptions C75_output_padding_refuted.

(** A transposed layer between scalar fields of C_4 with stride 2 and output_padding
    0 or 1, an image it returns on, and its export. *)
Example C75_transposed_ex : forall linv op, correct_inverse linv -> (op < 2)%nat -> exists c w y m' t,
  mk_rdconvt field label Bool.eqb (fun l => l) (fun l => l) (p_irr (ps_group c4)) (p_trivial_id (ps_group c4)) (r2_generator field linv (IO2 None 4) 1 [0; 1] [1; 1] 3 1)
    [false] [false] 2 3 1 op 2 1 1 false None = Ret c /\
  let m := new_layer (w, []) (ones, None) in
  convt_call field label Bool.eqb c m ([false], ones) = Ret ([false], y) /\ shape y = [1; 1; 3 + op; 3 + op]%nat /\ 0 < entry y [0; 0; 0; 0]%nat /\
  convt_export field label c m = Ret (m', t).
Proof. exact transposed_scalars. Qed.

(** Linear: the exported module computes what the layer computes after the export,
    and before it if the layer was in training mode. The export returns if the
    current weights can be expanded. *)
Theorem C75_linear : forall A X T (rep : A -> repr T) name aeqb, (forall a b, aeqb a b = true <-> a = b) ->
  forall (c : @linear_layer A X) w0 zeros ops m, obj_run (linear_expand rep name c) true ops (new_layer w0 zeros) = Ret m ->
  (forall m' t, linear_export rep name c m = Ret (m', t) -> ly_training m' = false /\ ly_params m' = ly_params m /\
     (forall x y, linear_call rep name aeqb c m' (ll_in c, x) = Ret (ll_out c, y) <-> linear (fst t) (snd t) x = Ret y) /\
     (ly_training m = true -> forall x y, linear_call rep name aeqb c m (ll_in c, x) = Ret (ll_out c, y) <-> linear (fst t) (snd t) x = Ret y)) /\
  ((exists m' t, linear_export rep name c m = Ret (m', t)) <-> exists e, linear_expand rep name c (ly_params m) = Ret e).
Proof. exact @linear_export_ok. Qed.
Print Assumptions C75_linear.

(** In evaluation mode parameters that were set since are used by the export, not by
    the layer before it. *)
Theorem C75_linear_eval_refuted : exists c w1 w2 m m' t y y' y'',
  mk_linear field label Bool.eqb (fun l => l) (fun l => l) (p_irr (ps_group c4)) (p_trivial_id (ps_group c4)) unit_gen [false] [false] false = Ret c /\
  obj_run (linear_expand field label c) true [Train false; SetParams (w2, [])] (new_layer (w1, []) (unit_x, None)) = Ret m /\
  linear_call field label Bool.eqb c m ([false], unit_x) = Ret ([false], y) /\ linear_export field label c m = Ret (m', t) /\
  linear (fst t) (snd t) unit_x = Ret y' /\ linear_call field label Bool.eqb c m' ([false], unit_x) = Ret ([false], y'') /\
  entry y [0; 0]%nat = 1 /\ entry y' [0; 0]%nat = 0 /\ entry y'' [0; 0]%nat = 0.
Proof. exact stale_linear. Qed.
Print Assumptions C75_linear_eval_refuted.

(** Sequences: the exported module has the names of the members and computes the
    tensor of what the sequence returns if the members' exports do. *)
Theorem C75_sequential : forall M T X E Y (run : M -> X -> res X) (typ : X -> T) teqb (tensor : X -> Y) (export : M -> res E) (call : E -> Y -> res Y) (s : seq_state M T) l,
  (forall m e, In m (map snd (s_mods s)) -> export m = Ret e -> forall x y, run m x = Ret y -> call e (tensor x) = Ret (tensor y)) ->
  seq_export export s = Ret l -> map fst l = map fst (s_mods s) /\
  forall x y, SeqModel.forward run typ teqb s x = Ret y -> torch_seq_call call l (tensor x) = Ret (tensor y).
Proof. exact @seq_export_same. Qed.
Print Assumptions C75_sequential.

(** Sequences of convolutions with zero padding. *)
Theorem C75_sequential_conv : forall A X T (rep : A -> repr T) name aeqb order sort, (forall a b, aeqb a b = true <-> a = b) ->
  forall teqb (s : seq_state (rdconv A X * @layer params expansion) (list A)) l, Forall (zero_padded rep name aeqb order sort) (map snd (s_mods s)) ->
  seq_export (fun cm => e <- conv_export rep name (fst cm) (snd cm) ;; Ret (snd e)) s = Ret l ->
  forall x y, SeqModel.forward (fun cm => conv_call rep name aeqb (fst cm) (snd cm)) fst teqb s x = Ret y ->
  torch_seq_call torch_conv_call l (snd x) = Ret (snd y).
Proof. exact @conv_seq_export. Qed.
Print Assumptions C75_sequential_conv.

(** Two layers in a sequence: it returns, and so does its export. *)
Example C75_sequential_ex : forall linv, correct_inverse linv -> exists (cm : rdconv bool (sattr hattr) * @layer params expansion) s l y,
  zero_padded field label Bool.eqb (fun l => l) (fun l => l) cm /\ s_mods s = [("0"%string, cm); ("1"%string, cm)] /\
  seq_export (fun cm => e <- conv_export field label (fst cm) (snd cm) ;; Ret (snd e)) s = Ret l /\
  SeqModel.forward (fun cm => conv_call field label Bool.eqb (fst cm) (snd cm)) fst (same_type Bool.eqb) s ([false], ones) = Ret ([false], y) /\ shape y = shape ones.
Proof. exact two_layers. Qed.
