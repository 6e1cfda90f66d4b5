(** Model of evaluate_output_shape and of the shapes the forward passes produce.
    Sources: /repo/escnn/nn/modules/conv/rd_convolution.py:145-156, 338-349,
    conv/rd_transposed_convolution.py:320-331, pooling/pointwise_max.py:55-156,
    pooling/pointwise_avg.py:63-124, pooling/norm_max.py:143-233,
    multiple_module.py:122-131, pointconv/rd_point_convolution.py:378-382,
    sequential_module.py:135-147.
    Shapes are lists of integers. Python divides integers exactly here. *)
From Coq Require Import Reals ZArith Bool List.
From Verif Require Import LibRes.
Import ListNotations.
Open Scope Z_scope.

(** math.floor and math.ceil *)
Definition math_floor (r : R) : Z := Int_part r.
Definition math_ceil (r : R) : Z := - Int_part (- r)%R.
(** int / int *)
Definition py_div (a b : Z) : res R := if b =? 0 then Raise else Ret (IZR a / IZR b)%R.

Fixpoint shape_eq (l m : list Z) : bool :=
  match l, m with [], [] => true | a :: l', b :: m' => (a =? b) && shape_eq l' m' | _, _ => false end.

(** ** Convolutions *)
(** The argument padding: an integer or a tuple *)
Inductive pad_arg := PadInt (p : Z) | PadTuple (l : list Z).

(** rd_convolution.py:145-150: what the constructor accepts *)
Definition padding_accepted (d : nat) (p : pad_arg) : bool :=
  match p with PadInt _ => true | PadTuple l => Nat.eqb (length l) d end.

(** 2 * self.padding in an integer sum: adding a tuple raises *)
Definition twice_padding (p : pad_arg) : res Z := match p with PadInt p => Ret (2 * p) | PadTuple _ => Raise end.

(** _RdConv.evaluate_output_shape rd_convolution.py:338-349 *)
Definition conv_eval_shape (cin cout : Z) (d : nat) (k stride : Z) (padding : pad_arg) (dilation : Z) (sh : list Z) : res (list Z) :=
  assert (Nat.eqb (length sh) (2 + d)) ;;
  assert (nth 1 sh 0 =? cin) ;;
  wo <- mapM (fun w => p2 <- twice_padding padding ;; q <- py_div (w + p2 - dilation * (k - 1) - 1) stride ;; Ret (math_floor (q + 1)%R)) (firstn d (skipn 2 sh)) ;;
  Ret (nth 0 sh 0 :: cout :: wo).

(** an integer argument in an integer sum: adding a tuple raises *)
Definition as_int (p : pad_arg) : res Z := match p with PadInt p => Ret p | PadTuple _ => Raise end.

(** _RdConvTransposed.evaluate_output_shape rd_transposed_convolution.py:320-331 *)
Definition transposed_eval_shape (cin cout : Z) (d : nat) (k stride : Z) (padding output_padding : pad_arg) (dilation : Z) (sh : list Z) : res (list Z) :=
  assert (Nat.eqb (length sh) (2 + d)) ;;
  assert (nth 1 sh 0 =? cin) ;;
  wo <- mapM (fun w => p2 <- twice_padding padding ;; op <- as_int output_padding ;;
                       Ret ((w - 1) * stride - p2 + dilation * (k - 1) + op + 1)) (firstn d (skipn 2 sh)) ;;
  Ret (nth 0 sh 0 :: cout :: wo).

(** ** Pooling *)
(** The arguments of a pooling window along one axis *)
Record window := { w_kernel : Z; w_stride : Z; w_padding : Z; w_dilation : Z }.

(** torch's max_pool and avg_pool along an axis of size [w] (pooling_output_shape
    and pool2d_shape_check in torch): the last window must start inside the input
    or the left padding *)
Definition torch_pool_size (ceil : bool) (k : window) (w : Z) : res Z :=
  assert ((0 <? w_kernel k) && (0 <? w_stride k) && (0 <? w_dilation k)) ;;
  assert ((0 <=? w_padding k) && (w_padding k <=? w_kernel k / 2)) ;;
  let o := (w + 2 * w_padding k - w_dilation k * (w_kernel k - 1) - 1 + (if ceil then w_stride k - 1 else 0)) / w_stride k + 1 in
  let o := if ceil && ((o - 1) * w_stride k >=? w + w_padding k) then o - 1 else o in
  assert (1 <=? o) ;;
  Ret o.

(** The shape of the output of _PointwiseMaxPoolND.forward pointwise_max.py:98-130
    and PointwiseAvgPool2D.forward pointwise_avg.py:83-105 *)
Definition pool_forward_shape (c : Z) (ks : list window) (ceil : bool) (sh : list Z) : res (list Z) :=
  assert (Nat.eqb (length sh) (2 + length ks)) ;;
  assert (nth 1 sh 0 =? c) ;;
  o <- mapM (fun kw => torch_pool_size ceil (fst kw) (snd kw)) (combine ks (skipn 2 sh)) ;;
  Ret (nth 0 sh 0 :: c :: o).

(** _PointwiseMaxPoolND.evaluate_output_shape pointwise_max.py:132-156,
    PointwiseAvgPool2D.evaluate_output_shape pointwise_avg.py:107-124 (dilation 1),
    PointwiseAvgPool3D.evaluate_output_shape pointwise_avg_3d.py:102-122 *)
Definition pool_eval_shape (c : Z) (ks : list window) (ceil : bool) (sh : list Z) : res (list Z) :=
  assert (Nat.eqb (length sh) (2 + length ks)) ;;
  assert (nth 1 sh 0 =? c) ;;
  o <- mapM (fun kw => q <- py_div (snd kw + 2 * w_padding (fst kw) - w_dilation (fst kw) * (w_kernel (fst kw) - 1) - 1) (w_stride (fst kw)) ;; Ret (q + 1)%R)
       (combine ks (skipn 2 sh)) ;;
  Ret (nth 0 sh 0 :: c :: map (if ceil then math_ceil else math_floor) o).

(** NormMaxPool.forward norm_max.py:126-217 as far as shapes are concerned, for
    groups of [f] fields of size [s], on a non-empty batch: the output is allocated
    with the predicted shape ho x wo; indx, with f * po * pw entries for each sample,
    is viewed as rows of ho * wo entries, gather wants no more rows than there are
    fields, and the result must fill the f * s channels or be one channel to repeat. *)
Definition group_fits (ho wo po pw : Z) (fs : Z * Z) : bool :=
  let rows := fst fs * po * pw / (ho * wo) in
  negb (ho * wo =? 0) && (fst fs * po * pw mod (ho * wo) =? 0) && (rows <=? fst fs) && ((rows =? fst fs) || (rows * snd fs =? 1)).
Definition norm_max_eval_shape (c : Z) (kh kw : window) (sh : list Z) : res (list Z) :=
  pool_eval_shape c [kh; kw] false sh.
Definition norm_max_forward_shape (c : Z) (kh kw : window) (ceil : bool) (groups : list (Z * Z)) (sh : list Z) : res (list Z) :=
  assert (Nat.eqb (length sh) 4) ;;
  o <- norm_max_eval_shape c kh kw sh ;;
  assert (forallb (fun n => 0 <=? n) o) ;;
  po <- torch_pool_size ceil kh (nth 2 sh 0) ;;
  pw <- torch_pool_size ceil kw (nth 3 sh 0) ;;
  assert (forallb (group_fits (nth 2 o 0) (nth 3 o 0) po pw) groups) ;;
  Ret o.

(** ** Modules made of modules *)
(** Calling a Python function: [npos] positional parameters, *args if [star] *)
Definition call {A} (npos : nat) (star : bool) (given : nat) (body : res A) : res A :=
  if Nat.eqb given npos || (star && Nat.leb npos given) then body else Raise.

(** MultipleModule.evaluate_output_shape multiple_module.py:122-131.
    BranchingModule.evaluate_output_shape branching_module.py:221-227 gives a
    dictionary [branches]; MergeModule.evaluate_output_shape merge_module.py:114 takes
    only keyword arguments and is given the dictionary as a positional one. *)
Definition multiple_eval_shape {L} (c : Z) (labels : list (L * Z)) (merge : list (L * list Z) -> res (list Z)) (sh : list Z) : res (list Z) :=
  assert (Nat.ltb 1 (length sh)) ;;
  assert (nth 1 sh 0 =? c) ;;
  branches <- (assert (Nat.eqb (length sh) 4) ;; Ret (map (fun lc => (fst lc, nth 0 sh 0 :: snd lc :: skipn 2 sh)) labels)) ;;
  call 0 false 1 (merge branches).

(** _RdPointConv: forward takes a tensor of features, one row for each node, and
    returns one row for each node (rd_point_convolution.py:311-330). *)
Definition point_forward_shape (cin cout : Z) (sh : list Z) : res (list Z) :=
  match sh with [n; c] => assert (c =? cin) ;; Ret [n; cout] | _ => Raise end.
(** rd_point_convolution.py:378-382 *)
Definition point_eval_shape (cin cout : Z) (sh : list Z) : res (list Z) :=
  assert (Nat.eqb (length sh) 3) ;;
  assert (nth 1 sh 0 =? cin) ;;
  Ret [nth 0 sh 0; cout; nth 2 sh 0].

(** SequentialModule.evaluate_output_shape sequential_module.py:135-147 *)
Definition sequential_eval_shape (c : Z) (evals : list (list Z -> res (list Z))) (sh : list Z) : res (list Z) :=
  assert (Nat.ltb 1 (length sh)) ;;
  assert (nth 1 sh 0 =? c) ;;
  fold_left (fun s e => t <- s ;; e t) evals (Ret sh).
