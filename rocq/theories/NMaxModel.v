(** Model of NormMaxPool, escnn/nn/modules/pooling/norm_max.py.

    Simplifications. A tensor is an [array R] of shape batch :: channels :: spatial
    axes as in SPoolModel, and its fields are listed beside it. A channel is a
    function of the batch entry and of the position. The index of a position in the
    flattened grid, which max_pool2d returns and gather uses, is the position itself.
    The arguments are integers used on both axes. Empty batches, on which the views of
    lines 163 and 186 raise, are excluded in the theorems. *)
From Coq Require Import Reals ZArith Bool List Arith.
From Verif Require Import LibRes LibMat FieldModel GroupedModel GridModel ImageModel ShapeModel SPoolModel.
Import ListNotations.
Open Scope R_scope.

Definition channel := nat -> list nat -> R.

Section NormMax.
Context {A : Type}.
Variable size : A -> nat.
Variable teqb : list A -> list A -> bool.

Record nm_module := { nm_type : list A; nm_layer : max_layer; nm_buffers : list (nat * channels); nm_order : list nat }.
(** 24-122; [dim] is the dimension of the space. The fields are grouped by size. *)
Definition mk_nm (dim : nat) (ft : list A) (l : max_layer) : res nm_module :=
  assert (Nat.eqb dim 2) ;;
  b <- buffers size Nat.eqb ft (map size ft) ;;
  Ret {| nm_type := ft; nm_layer := l; nm_buffers := b; nm_order := map fst b |}.

(** 163-166: the norms of a field *)
Definition nm_norm (v : list channel) : channel := fun bt q => sqrt (rsum (map (fun ch => ch bt q ^ 2) v)).
(** the indices of torch's max_pool2d: the first of the points that have the largest
    value *)
Definition first_largest (f : list nat -> R) (l : list (list nat)) : list nat :=
  match l with [] => [] | q :: l' => fold_left (fun best q => if Rlt_dec (f best) (f q) then q else best) l' q end.
(** 168-186: a field is read where its norm is largest *)
Definition nm_pick (l : max_layer) (ws : list nat) (v : list channel) : list channel :=
  map (fun ch bt pos => ch bt (first_largest (nm_norm v bt) (window_points (m_kernel l) (m_stride l) (m_padding l) (m_dilation l) ws pos))) v.
(** 160-215 for the fields of size [s] *)
Definition nm_group (l : max_layer) (ws : list nat) (s next : nat) (fm : list channel) : res (list channel) :=
  fields <- view s fm ;; Ret (concat (map (nm_pick l ws) fields)).

(** evaluate_output_shape 219-233 *)
Definition nm_eval_shape (m : nm_module) (sh : list Z) : res (list Z) :=
  let w := pool_window (m_kernel (nm_layer m)) (m_stride (nm_layer m)) (m_padding (nm_layer m)) (m_dilation (nm_layer m)) in
  norm_max_eval_shape (Z.of_nat (type_size size (nm_type m))) w w sh.
(** forward 124-217; the shapes are those of [norm_max_forward_shape] (which also
    makes the checks of view and gather), [xt] is the type of the input and [junk] the
    content of torch.empty. A window that misses the input raises, as in [max_pool]. *)
Definition nm_forward (m : nm_module) (xt : list A) (junk : list channel) (x : array R) : res (array R) :=
  assert (teqb xt (nm_type m)) ;;
  let l := nm_layer m in
  let c := type_size size (nm_type m) in
  let w := pool_window (m_kernel l) (m_stride l) (m_padding l) (m_dilation l) in
  o <- norm_max_forward_shape (Z.of_nat c) w w (m_ceil l)
         (map (fun s => (Z.of_nat (nfields Nat.eqb (map size (nm_type m)) s), Z.of_nat s)) (nm_order m)) (map Z.of_nat (shape x)) ;;
  let ws := skipn 2 (shape x) in
  let os := map Z.to_nat (skipn 2 o) in
  assert (forallb (fun pos => negb (Nat.eqb (length (window_points (m_kernel l) (m_stride l) (m_padding l) (m_dilation l) ws pos)) 0)) (all_indices os)) ;;
  out <- grouped_loop Nat.eqb (nfields Nat.eqb (map size (nm_type m))) (nm_buffers m) (nm_buffers m) (nm_group l ws)
           (map (fun o bt q => entry x (bt :: o :: q)) (seq 0 c)) (nm_order m) 0 junk ;;
  Ret {| shape := firstn 2 (shape x) ++ os;
         entry := fun idx => match idx with bt :: o :: pos => nth o out (fun _ _ => 0) bt pos | _ => 0 end |}.
End NormMax.
