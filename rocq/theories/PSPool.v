(** C71, C72, C73: pooling over windows of the grid. *)
From Coq Require Import Reals List ZArith Arith.
From Verif Require Import LibRes LibMat GridModel SpecGrid ImageModel ShapeModel SPoolModel SpecSPool SpecPool SPoolThms SPoolBlur SPoolCor ImageEx SPoolEx.
Import ListNotations.
Open Scope R_scope.

(** ** C71: max and average pooling *)
(** Every output of max pooling is the largest entry under its window. *)
Theorem C71_max_value : forall l x y B c ws, shape x = B :: c :: ws -> max_forward l x = Ret y ->
  exists os, shape y = B :: c :: os /\ length os = length ws /\ forall bt o pos, valid os pos ->
    largest (under (m_kernel l) (m_stride l) (m_padding l) (m_dilation l) ws pos) (fun q => entry x (bt :: o :: q)) (entry y (bt :: o :: pos)).
Proof. exact max_value. Qed.
Print Assumptions C71_max_value.

(** Every output of average pooling is the sum under its window over the number of
    taps that fall on the padded input. *)
Theorem C71_avg_value : forall kernel stride padding ceil x y B c ws, shape x = B :: c :: ws -> avg_forward kernel stride padding ceil x = Ret y ->
  let s := match stride with Some s => s | None => kernel end in
  exists os, shape y = B :: c :: os /\ length os = length ws /\ forall bt o pos, valid os pos ->
    exists m t, taps_on kernel s padding ws pos m /\ sums_to (under kernel s padding 1 ws pos) (fun q => entry x (bt :: o :: q)) t /\ entry y (bt :: o :: pos) * INR m = t.
Proof. exact avg_value. Qed.
Print Assumptions C71_avg_value.

(** Where the windows fit, max pooling commutes with the symmetries of the grid for
    the representations that permute the channels. *)
Theorem C71_max : forall half, half 0 = 0 -> half 1 = 1 -> half (-1) = -1 -> forall affine c rho n M x y B ws, signed_perm n M -> (0 < n)%nat ->
  shape x = B :: c :: ws -> length ws = n -> forall l, SpecPool.permutes c rho ->
  Forall (fits (m_kernel l) (m_stride l) (m_padding l) (m_dilation l)) ws -> max_forward l x = Ret y ->
  exists x' y' z, transform half affine c rho n M x = Ret x' /\ max_forward l x' = Ret y' /\ transform half affine c rho n M y = Ret z /\ same_array y' z.
Proof. exact max_commutes_with. Qed.
Print Assumptions C71_max.

(** Average pooling commutes with them for every representation. *)
Theorem C71_avg : forall half, half 0 = 0 -> half 1 = 1 -> half (-1) = -1 -> forall affine c rho n M x y B ws, signed_perm n M -> (0 < n)%nat ->
  shape x = B :: c :: ws -> length ws = n -> forall kernel stride padding ceil,
  Forall (fits kernel (match stride with Some s => s | None => kernel end) padding 1) ws -> avg_forward kernel stride padding ceil x = Ret y ->
  exists x' y' z, transform half affine c rho n M x = Ret x' /\ avg_forward kernel stride padding ceil x' = Ret y' /\ transform half affine c rho n M y = Ret z /\ same_array y' z.
Proof. exact avg_commutes_with. Qed.
Print Assumptions C71_avg.

Example C71_ex : signed_perm 2 quarter /\ SpecPool.permutes 2 swap /\ Forall (fits 2 2 1 1) [4; 6]%nat /\
  (exists y, max_forward (max_init 2 None 1 1 true) ramp = Ret y) /\ exists y, avg_forward 2 None 1 true ramp = Ret y.
Proof. exact max_example. Qed.

(** The condition on the sizes is needed: picking every second of two pixels does
    not commute with exchanging them, in either mode. *)
Theorem C71_max_refuted : forall half, half 0 = 0 -> half 1 = 1 -> half (-1) = -1 -> forall affine ceil,
  exists x y x' y' z, shape x = [1; 1; 2]%nat /\ max_forward (max_init 1 (Some 2%nat) 0 1 ceil) x = Ret y /\ transform half affine 1 mid 1 mirror x = Ret x' /\
    max_forward (max_init 1 (Some 2%nat) 0 1 ceil) x' = Ret y' /\ transform half affine 1 mid 1 mirror y = Ret z /\ ~ same_array y' z.
Proof. exact max_stride_needed. Qed.
Print Assumptions C71_max_refuted.
Theorem C71_avg_refuted : forall half, half 0 = 0 -> half 1 = 1 -> half (-1) = -1 -> forall affine ceil,
  exists x y x' y' z, shape x = [1; 1; 2]%nat /\ avg_forward 1 (Some 2%nat) 0 ceil x = Ret y /\ transform half affine 1 mid 1 mirror x = Ret x' /\
    avg_forward 1 (Some 2%nat) 0 ceil x' = Ret y' /\ transform half affine 1 mid 1 mirror y = Ret z /\ ~ same_array y' z.
Proof. exact avg_stride_needed. Qed.
Print Assumptions C71_avg_refuted.

(** The export of max pooling is the layer, except in ceil mode where the windows do
    not fit. *)
Theorem C71_export : forall l x B c ws, shape x = B :: c :: ws ->
  m_ceil l = false \/ Forall (fits (m_kernel l) (m_stride l) (m_padding l) (m_dilation l)) ws ->
  torch_max (max_export l) x = max_forward l x.
Proof. exact export_same. Qed.
Print Assumptions C71_export.
Theorem C71_export_refuted : let l := max_init 2 (Some 2%nat) 0 1 true in exists y y',
  max_forward l {| shape := [1; 1; 3; 3]%nat; entry := fun _ => 0 |} = Ret y /\ torch_max (max_export l) {| shape := [1; 1; 3; 3]%nat; entry := fun _ => 0 |} = Ret y' /\
  shape y = [1; 1; 2; 2]%nat /\ shape y' = [1; 1; 1; 1]%nat.
Proof. exact export_differs. Qed.
Print Assumptions C71_export_refuted.

(** In floor mode the predicted shape is the computed one. *)
Theorem C71_shape : forall l x y B c ws n, shape x = B :: c :: ws -> length ws = n -> (0 < n)%nat -> m_ceil l = false -> max_forward l x = Ret y ->
  max_eval_shape l c n (map Z.of_nat (shape x)) = Ret (map Z.of_nat (shape y)).
Proof. exact max_predicted. Qed.
Print Assumptions C71_shape.

(** ** C72: the antialiased layers *)
(** The antialiased average commutes with the symmetries of the grid for every
    representation where the windows of the filter fit. *)
Theorem C72_avg : forall half, half 0 = 0 -> half 1 = 1 -> half (-1) = -1 -> forall affine c rho n M x y B ws, signed_perm n M -> (0 < n)%nat ->
  shape x = B :: c :: ws -> length ws = n -> forall rounds sigma stride padding,
  (let size := (2 * rounds (3 * sigma)%R + 1)%nat in Forall (fits size (match stride with Some s => s | None => size end) (aavg_padding rounds sigma padding) 1) ws) ->
  aavg_forward rounds sigma stride padding n c x = Ret y ->
  exists x' y' z, transform half affine c rho n M x = Ret x' /\ aavg_forward rounds sigma stride padding n c x' = Ret y' /\ transform half affine c rho n M y = Ret z /\ same_array y' z.
Proof. exact aavg_commutes_with. Qed.
Print Assumptions C72_avg.

(** The antialiased maximum, for the representations that permute the channels. *)
Theorem C72_max : forall half, half 0 = 0 -> half 1 = 1 -> half (-1) = -1 -> forall affine c rho n M x y B ws, signed_perm n M -> (0 < n)%nat ->
  shape x = B :: c :: ws -> length ws = n -> forall rounds sigma l, SpecPool.permutes c rho ->
  Forall (fun w => exists q, (w + 4 * m_padding l = m_kernel l + m_stride l * q)%nat) ws ->
  amax_forward rounds sigma l n c x = Ret y ->
  exists x' y' z, transform half affine c rho n M x = Ret x' /\ amax_forward rounds sigma l n c x' = Ret y' /\ transform half affine c rho n M y = Ret z /\ same_array y' z.
Proof. exact amax_commutes_with. Qed.
Print Assumptions C72_max.
Example C72_ex : Forall (fun w => exists q, (w + 4 * 0 = 2 + 2 * q)%nat) [4; 6]%nat /\ (exists y, amax_forward to_one (1 / 3) (max_init 2 (Some 2%nat) 0 1 false) 2 2 ramp = Ret y) /\
  Forall (fits (2 * to_one 1 + 1) 1 1 1) [4; 6]%nat /\ exists y, aavg_forward to_one (1 / 3) (Some 1%nat) None 2 2 ramp = Ret y.
Proof. exact blur_example. Qed.

(** Without padding the antialiased average of a constant image is the constant. *)
Theorem C72_constant : forall rounds sigma stride x y B c ws n v, shape x = B :: c :: ws -> length ws = n -> aavg_forward rounds sigma stride (Some 0%nat) n c x = Ret y ->
  (forall idx, valid (shape x) idx -> entry x idx = v) -> forall idx, valid (shape y) idx -> entry y idx = v.
Proof. exact aavg_constant. Qed.
Print Assumptions C72_constant.
Example C72_constant_ex : exists y, aavg_forward to_one (1 / 3) (Some 1%nat) (Some 0%nat) 2 2 {| shape := [1; 2; 4; 6]%nat; entry := fun _ => 7 |} = Ret y.
Proof. exact aavg_constant_example. Qed.

(** The predicted shapes are the computed ones for the antialiased average, and for
    the antialiased maximum without padding. With the default padding the average
    has one value for every [s]-th point of the input; C72_ex has such a layer. *)
Theorem C72_avg_shape : forall rounds sigma stride padding x y B c ws n, shape x = B :: c :: ws -> length ws = n -> aavg_forward rounds sigma stride padding n c x = Ret y ->
  aavg_eval_shape rounds sigma stride padding c n (map Z.of_nat (shape x)) = Ret (map Z.of_nat (shape y)).
Proof. exact aavg_predicted. Qed.
Print Assumptions C72_avg_shape.
Theorem C72_default_padding : forall rounds sigma s x y B c ws n, shape x = B :: c :: ws -> length ws = n -> aavg_forward rounds sigma (Some s) None n c x = Ret y ->
  shape y = B :: c :: map (fun w => ((w - 1) / s + 1)%nat) ws.
Proof. exact aavg_default_shape. Qed.
Print Assumptions C72_default_padding.
Theorem C72_max_shape : forall rounds sigma l x y B c ws n, shape x = B :: c :: ws -> length ws = n -> (0 < n)%nat -> m_ceil l = false -> m_padding l = 0%nat ->
  amax_forward rounds sigma l n c x = Ret y -> max_eval_shape l c n (map Z.of_nat (shape x)) = Ret (map Z.of_nat (shape y)).
Proof. exact amax_predicted. Qed.
Print Assumptions C72_max_shape.

(** The padding is applied twice: with a padding of at least half the stride the
    predicted shape is always wrong. *)
Theorem C72_max_shape_refuted : forall rounds sigma l x y B c ws n, shape x = B :: c :: ws -> length ws = n -> (0 < n)%nat -> m_ceil l = false -> (m_stride l <= 2 * m_padding l)%nat ->
  amax_forward rounds sigma l n c x = Ret y -> max_eval_shape l c n (map Z.of_nat (shape x)) <> Ret (map Z.of_nat (shape y)).
Proof. exact amax_mispredicted. Qed.
Print Assumptions C72_max_shape_refuted.
Example C72_max_shape_refuted_ex : exists y, amax_forward to_one (1 / 3) (max_init 2 (Some 2%nat) 1 1 false) 2 2 ramp = Ret y.
Proof. exact amax_mis_example. Qed.

(** ** C73: adaptive pooling *)
(** The outputs are the largest entry and the mean of the cells. *)
Theorem C73_value : forall o x B c ws, shape x = B :: c :: ws ->
  (forall y, adaptive_max_forward o x = Ret y -> shape y = B :: c :: repeat o (length ws) /\
     forall bt ch pos, valid (repeat o (length ws)) pos -> largest (in_cell o ws pos) (fun q => entry x (bt :: ch :: q)) (entry y (bt :: ch :: pos))) /\
  (forall y, adaptive_avg_forward o x = Ret y -> shape y = B :: c :: repeat o (length ws) /\
     forall bt ch pos, valid (repeat o (length ws)) pos -> exists l, l <> [] /\ NoDup l /\ (forall q, In q l <-> in_cell o ws pos q) /\
       entry y (bt :: ch :: pos) * INR (length l) = fold_right Rplus 0 (map (fun q => entry x (bt :: ch :: q)) l)).
Proof. exact adaptive_value. Qed.
Print Assumptions C73_value.

(** For all sizes the adaptive average commutes with the symmetries of the grid, and
    the adaptive maximum does so for the representations that permute the channels. *)
Theorem C73_commutes : forall half, half 0 = 0 -> half 1 = 1 -> half (-1) = -1 -> forall affine c rho n M x B ws o, signed_perm n M -> shape x = B :: c :: ws -> length ws = n ->
  (forall y, adaptive_avg_forward o x = Ret y ->
     exists x' y' z, transform half affine c rho n M x = Ret x' /\ adaptive_avg_forward o x' = Ret y' /\ transform half affine c rho n M y = Ret z /\ same_array y' z) /\
  (SpecPool.permutes c rho -> forall y, adaptive_max_forward o x = Ret y ->
     exists x' y' z, transform half affine c rho n M x = Ret x' /\ adaptive_max_forward o x' = Ret y' /\ transform half affine c rho n M y = Ret z /\ same_array y' z).
Proof. exact adaptive_commutes. Qed.
Print Assumptions C73_commutes.

(** The predicted shape is the computed one. *)
Theorem C73_shape : forall f o n x y B c ws, shape x = B :: c :: ws -> length ws = n -> adaptive_pool f o x = Ret y -> adaptive_eval_shape o n c (shape x) = Ret (shape y).
Proof. exact adaptive_predicted. Qed.
Print Assumptions C73_shape.
Example C73_ex : (exists y, adaptive_avg_forward 3 ramp = Ret y) /\ (exists y, adaptive_max_forward 3 ramp = Ret y).
Proof. exact adaptive_example. Qed.
