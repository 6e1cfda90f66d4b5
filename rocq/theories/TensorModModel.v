(** Model of TensorProductModule.
    Source: /repo/escnn/nn/modules/nonlinearities/tensor.py:23-206,
      /repo/escnn/nn/field_type.py:101-106.
    The representation the constructor creates gets the label [None], the others are
    [Some a]. The state is that of ExportModel with [always] true and no bias; the
    second component of the parameters is not used. coords and the initialisation of
    the weights are left out. *)
From Coq Require Import String.
From Coq Require Import Reals ZArith Bool List Arith.
From Verif Require Import LibRes LibMat FieldModel IrrepModel RepModel BlocksModel LayerModel GridModel ImageModel RdConvModel SeqModel ExportModel TensorModel.
Import ListNotations.
Open Scope R_scope.

(** FieldType.uniform, computed by FieldType.__init__ field_type.py:101-106; without
    fields `self.representations[0]` raises *)
Definition uniform {A} (aeqb : A -> A -> bool) (ft : list A) : res bool :=
  match ft with [] => Raise | rho :: _ => Ret (forallb (fun psi => aeqb psi rho) ft) end.

(** the labels once `hid_repr` exists *)
Definition with_hidden {A B} (h : B) (f : A -> B) (a : option A) : B := match a with None => h | Some a => f a end.
Definition option_eqb {A} (aeqb : A -> A -> bool) (a b : option A) : bool :=
  match a, b with None, None => true | Some a, Some b => aeqb a b | _, _ => false end.

Record tensor_module {A X T} := { tp_in : list A; tp_out : list A; tp_hidden : repr T; tp_expansion : blocks (option A) X nat }.
Arguments tensor_module : clear implicits.

Section Module.
Context {A X T : Type}.
Variable rep : A -> repr T.
Variable name : A -> string.
Variable hname : string.
Variable aeqb : A -> A -> bool.
Variable order : list (option A) -> list (option A).
Variable sort : list (string * string) -> list (string * string).
Local Notation size := (asize rep).

(** __init__ 60-102 for two types of one gspace; [product] is `Representation.tensor`
    and [generator] is build_fiber_intertwiner_basis sampled at the origin; an empty
    basis raises *)
Definition mk_tensor_module (product : repr T -> repr T -> res (repr T)) (generator : (option A -> repr T) -> option A -> option A -> res (option (BlocksModel.kbasis X nat)))
    (ins outs : list A) : res (tensor_module A X T) :=
  u <- uniform aeqb ins ;; v <- uniform aeqb outs ;;
  assert u ;; assert v ;;
  assert (Nat.eqb (List.length ins) (List.length outs)) ;;
  match ins with
  | [] => Raise
  | i :: _ =>
      hid <- product (rep i) (rep i) ;;
      b <- mk_blocks 1 (with_hidden hname name) (asize (with_hidden hid rep)) (option_eqb aeqb) order sort [None] (map Some outs) (generator (with_hidden hid rep)) None ;;
      assert (negb (Nat.eqb (bb_dim b) 0)) ;;
      Ret {| tp_in := ins; tp_out := outs; tp_hidden := hid; tp_expansion := b |}
  end.

(** construct 104-115 *)
Definition tensor_construct product generator (channels : nat) (i o : A) : res (tensor_module A X T) :=
  mk_tensor_module product generator (repeat i channels) (repeat o channels).

(** expand_parameters 166-174 *)
Definition tensor_expand (c : tensor_module A X T) (w : params) : res expansion :=
  f <- BlocksModel.forward 1 (with_hidden hname name) (asize (with_hidden (tp_hidden c) rep)) (tp_expansion c) (fst w) ;;
  Ret (reshape_filter (type_size size (tp_out c)) (r_size (tp_hidden c)) 1 0 f, None).

(** 117-144 on the data: [C] fields of size [s] in, [so] out, and the hidden fields of
    size [h]. The asserts are what `view` checks. *)
Definition tensor_apply (C s so h : nat) (M x : array R) : res (array R) :=
  let B := nth 0 (shape x) 0%nat in
  let sp := skipn 2 (shape x) in
  assert (Nat.leb 2 (List.length (shape x)) && Nat.eqb (nth 1 (shape x) 0%nat) (C * s)) ;;
  let input b c i p := entry x (b :: (c * s + i)%nat :: p) in
  let tensor_features b c i o p := input b c i p * input b c o p in
  assert (Nat.eqb (s * s) h) ;;
  let tensor_features b c k p := tensor_features b c (k / s)%nat (k mod s)%nat p in
  assert (Nat.eqb (nth 0 (shape M) 0%nat) (C * so) && Nat.eqb (nth 1 (shape M) 0%nat) h) ;;
  let _matrix c o i := entry M [(c * so + o)%nat; i] in
  let output b c o p := sumn h (fun i => _matrix c o i * tensor_features b c i p) in
  Ret {| shape := B :: (C * so)%nat :: sp;
         entry := fun idx => output (nth 0 idx 0%nat) (nth 1 idx 0%nat / so)%nat (nth 1 idx 0%nat mod so)%nat (skipn 2 idx) |}.

(** forward 117-144 *)
Definition tensor_call (c : tensor_module A X T) (m : @layer params expansion) (x : list A * array R) : res (list A * array R) :=
  assert (same_type aeqb (fst x) (tp_in c)) ;;
  match tp_in c, tp_out c with
  | i :: _, o :: _ =>
      M <- obj_used (tensor_expand c) m ;;
      y <- tensor_apply (List.length (tp_in c)) (size i) (size o) (r_size (tp_hidden c)) (fst M) (snd x) ;;
      Ret (tp_out c, y)
  | _, _ => Raise
  end.

(** evaluate_output_shape 146-150 *)
Definition tensor_shape (c : tensor_module A X T) (sh : list nat) : list nat :=
  if negb (same_type aeqb (tp_in c) (tp_out c)) then firstn 1 sh ++ [type_size size (tp_out c)] ++ skipn 2 sh else sh.
End Module.
