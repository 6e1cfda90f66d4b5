(** Model of the layers that pool over windows of the grid.
    Sources: /repo/escnn/nn/modules/pooling/pointwise_max.py, pointwise_avg.py,
    pointwise_avg_3d.py, pointwise_adaptive_avg.py, pointwise_adaptive_max.py.
    As in ImageModel a tensor is an [array R] of shape batch :: channels :: spatial
    axes and the representation is an argument of the theorems, so the checks on the
    type of the input (and, for the maxima, that its representations support
    'pointwise') are left out here. The arguments kernel_size, stride, padding,
    dilation and output_size are integers, used on every axis: tuples are not
    modelled. *)
From Coq Require Import Reals ZArith Bool List.
From Verif Require Import LibRes LibMat GridModel ImageModel ShapeModel.
Import ListNotations.
Open Scope R_scope.

(** torch's size along an axis: see [torch_pool_size] *)
Definition pool_window (k s p d : nat) : window :=
  {| w_kernel := Z.of_nat k; w_stride := Z.of_nat s; w_padding := Z.of_nat p; w_dilation := Z.of_nat d |}.
Definition pool_size (ceil : bool) (k s p d w : nat) : res nat :=
  o <- torch_pool_size ceil (pool_window k s p d) (Z.of_nat w) ;; Ret (Z.to_nat o).

(** The points of the input under the window at [pos]: the taps are [d] apart, the
    window starts [s] times [pos] from the start of the padding; a tap outside the
    input is skipped. *)
Definition window_points (k s p d : nat) (ws pos : list nat) : list (list nat) :=
  flat_map (fun t =>
      match all_some (map (fun wj => pad_read PadZeros p (fst wj) (snd wj))
              (combine ws (map (fun pt => s * fst pt + d * snd pt)%nat (combine pos t)))) with
      | Some q => [q] | None => [] end)
    (all_indices (repeat k (length ws))).

(** the largest entry *)
Definition rmax (l : list R) : R := match l with [] => 0 | a :: l' => fold_left Rmax l' a end.

(** torch.nn.functional.max_pool2d, max_pool3d. Where the taps of a window all miss
    the input torch gives minus infinity; here it raises. *)
Definition max_pool (ceil : bool) (k s p d : nat) (x : array R) : res (array R) :=
  assert (Nat.leb 2 (length (shape x))) ;;
  let ws := skipn 2 (shape x) in
  os <- mapM (pool_size ceil k s p d) ws ;;
  assert (forallb (fun pos => negb (Nat.eqb (length (window_points k s p d ws pos)) 0)) (all_indices os)) ;;
  Ret {| shape := firstn 2 (shape x) ++ os;
         entry := fun idx => rmax (map (fun q => entry x (firstn 2 idx ++ q)) (window_points k s p d ws (skipn 2 idx))) |}.

(** torch.nn.functional.avg_pool2d, avg_pool3d with count_include_pad: the sum is
    divided by the number of taps inside the padded input *)
Definition taps_inside (k s p w i : nat) : nat := (Nat.min (s * i + k) (w + 2 * p) - s * i)%nat.
Definition divisor (k s p : nat) (ws pos : list nat) : nat :=
  fold_right Nat.mul 1%nat (map (fun wi => taps_inside k s p (fst wi) (snd wi)) (combine ws pos)).
Definition avg_pool (ceil : bool) (k s p : nat) (x : array R) : res (array R) :=
  assert (Nat.leb 2 (length (shape x))) ;;
  let ws := skipn 2 (shape x) in
  os <- mapM (pool_size ceil k s p 1) ws ;;
  Ret {| shape := firstn 2 (shape x) ++ os;
         entry := fun idx => rsum (map (fun q => entry x (firstn 2 idx ++ q)) (window_points k s p 1 ws (skipn 2 idx))) /
                             INR (divisor k s p ws (skipn 2 idx)) |}.

(** _PointwiseMaxPoolND pointwise_max.py:74-96 (stride None is kernel_size) *)
Record max_layer := { m_kernel : nat; m_stride : nat; m_padding : nat; m_dilation : nat; m_ceil : bool }.
Definition max_init (kernel : nat) (stride : option nat) (padding dilation : nat) (ceil : bool) : max_layer :=
  {| m_kernel := kernel; m_stride := match stride with Some s => s | None => kernel end; m_padding := padding; m_dilation := dilation; m_ceil := ceil |}.
(** _PointwiseMaxPoolND.forward pointwise_max.py:111-127 *)
Definition max_forward (l : max_layer) (x : array R) : res (array R) :=
  max_pool (m_ceil l) (m_kernel l) (m_stride l) (m_padding l) (m_dilation l) x.
(** _PointwiseMaxPoolND.evaluate_output_shape pointwise_max.py:132-156, for a type
    with [c] channels on a space of dimension [n] *)
Definition max_eval_shape (l : max_layer) (c n : nat) (sh : list Z) : res (list Z) :=
  pool_eval_shape (Z.of_nat c) (repeat (pool_window (m_kernel l) (m_stride l) (m_padding l) (m_dilation l)) n) (m_ceil l) sh.
(** _PointwiseMaxPoolND.export pointwise_max.py:163-176: a torch.nn.MaxPool with
    ceil_mode False, its default *)
Definition max_export (l : max_layer) : max_layer :=
  {| m_kernel := m_kernel l; m_stride := m_stride l; m_padding := m_padding l; m_dilation := m_dilation l; m_ceil := false |}.
(** torch.nn.MaxPool2d.forward, MaxPool3d.forward *)
Definition torch_max (l : max_layer) (x : array R) : res (array R) :=
  max_pool (m_ceil l) (m_kernel l) (m_stride l) (m_padding l) (m_dilation l) x.

(** ** The Gaussian filter *)
(** pointwise_max.py:228-245, pointwise_avg.py:190-209, pointwise_avg_3d.py:188-210:
    the normalised filter, repeated for [c] channels *)
Definition blur_weight (size : nat) (sigma : R) (t : list nat) : R :=
  let mean := (INR size - 1) / 2 in
  exp (- rsum (map (fun i => (INR i - mean) ^ 2) t) / (2 * sigma ^ 2)).
Definition blur_filter (size n c : nat) (sigma : R) : array R :=
  let total := rsum (map (blur_weight size sigma) (all_indices (repeat size n))) in
  {| shape := c :: 1%nat :: repeat size n; entry := fun idx => blur_weight size sigma (skipn 2 idx) / total |}.
(** F.conv2d, F.conv3d with groups the number of channels *)
Definition blur (size n c stride padding : nat) (sigma : R) (x : array R) : res (array R) :=
  conv_forward PadZeros padding (nth 1 (shape x) 0%nat) stride 1 (blur_filter size n c sigma) None x.

(** _PointwiseMaxPoolAntialiasedND pointwise_max.py:219-280; [rounds r] is
    int(round(r)). The maxima are taken densely (stride 1), then blurred and
    subsampled; the padding is applied by both. *)
Definition amax_forward (rounds : R -> nat) (sigma : R) (l : max_layer) (n c : nat) (x : array R) : res (array R) :=
  assert (Nat.eqb (m_dilation l) 1) ;;
  assert (if Rlt_dec 0 sigma then true else false) ;;
  let size := (2 * rounds (4 * sigma)%R + 1)%nat in
  y <- max_pool (m_ceil l) (m_kernel l) 1 (m_padding l) (m_dilation l) x ;;
  blur size n c (m_stride l) (m_padding l + (size - 1) / 2) sigma y.

(** PointwiseAvgPool2D pointwise_avg.py:65-102, PointwiseAvgPool3D
    pointwise_avg_3d.py:60-98 *)
Definition avg_forward (kernel : nat) (stride : option nat) (padding : nat) (ceil : bool) (x : array R) : res (array R) :=
  avg_pool ceil kernel (match stride with Some s => s | None => kernel end) padding x.

(** PointwiseAvgPoolAntialiased2D pointwise_avg.py:169-188, 228 and
    PointwiseAvgPoolAntialiased3D pointwise_avg_3d.py *)
Definition aavg_padding (rounds : R -> nat) (sigma : R) (padding : option nat) : nat :=
  match padding with Some p => p | None => ((2 * rounds (3 * sigma)%R + 1 - 1) / 2)%nat end.
Definition aavg_forward (rounds : R -> nat) (sigma : R) (stride padding : option nat) (n c : nat) (x : array R) : res (array R) :=
  assert (if Rlt_dec 0 sigma then true else false) ;;
  let size := (2 * rounds (3 * sigma)%R + 1)%nat in
  blur size n c (match stride with Some s => s | None => size end) (aavg_padding rounds sigma padding) sigma x.
(** PointwiseAvgPoolAntialiased2D.evaluate_output_shape pointwise_avg.py:233-246 *)
Definition aavg_eval_shape (rounds : R -> nat) (sigma : R) (stride padding : option nat) (c n : nat) (sh : list Z) : res (list Z) :=
  let size := (2 * rounds (3 * sigma)%R + 1)%nat in
  pool_eval_shape (Z.of_nat c) (repeat (pool_window size (match stride with Some s => s | None => size end) (aavg_padding rounds sigma padding) 1) n) false sh.

(** ** Adaptive pooling *)
(** torch's start_index and end_index: cell [i] of [o] along an axis of size [w] *)
Definition cell_start (o w i : nat) : nat := (i / o * w + (i mod o * w) / o)%nat.
Definition cell_end (o w i : nat) : nat := (1 + ((i + 1) * w - 1) / o)%nat.
Definition cell_points (o : nat) (ws pos : list nat) : list (list nat) :=
  fold_right (fun wi l => flat_map (fun j => map (cons j) l) (seq (cell_start o (fst wi) (snd wi)) (cell_end o (fst wi) (snd wi) - cell_start o (fst wi) (snd wi))))
    [[]] (combine ws pos).
(** torch.nn.functional.adaptive_avg_pool2d, adaptive_max_pool2d and their 3d
    versions: the spatial axes must not be empty *)
Definition adaptive_pool (f : list R -> R) (o : nat) (x : array R) : res (array R) :=
  assert (Nat.leb 2 (length (shape x))) ;;
  let ws := skipn 2 (shape x) in
  assert (forallb (Nat.ltb 0) ws) ;;
  Ret {| shape := firstn 2 (shape x) ++ repeat o (length ws);
         entry := fun idx => f (map (fun q => entry x (firstn 2 idx ++ q)) (cell_points o ws (skipn 2 idx))) |}.
Definition mean (l : list R) : R := rsum l / INR (length l).
(** _PointwiseAdaptiveAvgPoolND.forward pointwise_adaptive_avg.py:62-91 and
    _PointwiseAdaptiveMaxPoolND.forward pointwise_adaptive_max.py *)
Definition adaptive_avg_forward (o : nat) (x : array R) : res (array R) := adaptive_pool mean o x.
Definition adaptive_max_forward (o : nat) (x : array R) : res (array R) := adaptive_pool rmax o x.
(** evaluate_output_shape pointwise_adaptive_avg.py:93-96 *)
Definition adaptive_eval_shape (o n c : nat) (sh : list nat) : res (list nat) :=
  assert (Nat.eqb (length sh) (2 + n)) ;;
  assert (Nat.eqb (nth 1 sh 0%nat) c) ;;
  Ret (nth 0 sh 0%nat :: c :: repeat o n).
