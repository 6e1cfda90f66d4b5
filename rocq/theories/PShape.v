(** C38: predicted and computed shapes. *)
From Coq Require Import Reals ZArith Bool List Lia.
From Verif Require Import LibRes GridModel ImageModel TransposedModel ShapeModel SpecShape ShapeThms ShapeCor.
Import ListNotations.
Open Scope Z_scope.

(** C38. Convolutions with integer padding, in any dimension and padding mode:
    whenever the forward pass succeeds the prediction is its shape. *)
Theorem C38_conv : forall m p groups stride dil cout cin k n f bias x y,
  conv_forward m p groups stride dil (reshape_filter cout cin k n f) bias x = Ret y ->
  conv_eval_shape (Z.of_nat (groups * cin)) (Z.of_nat cout) n (Z.of_nat k) (Z.of_nat stride) (PadInt (Z.of_nat p)) (Z.of_nat dil) (map Z.of_nat (shape x)) =
  Ret (map Z.of_nat (shape y)).
Proof. exact conv_predicted. Qed.
Print Assumptions C38_conv.

(** Transposed convolutions with integer paddings. *)
Theorem C38_transposed : forall groups stride p op dil cout cin k n f bias x y,
  transposed_forward groups stride p op dil cout cin k n f bias x = Ret y ->
  transposed_eval_shape (Z.of_nat cin) (Z.of_nat (groups * cout)) n (Z.of_nat k) (Z.of_nat stride) (PadInt (Z.of_nat p)) (PadInt (Z.of_nat op)) (Z.of_nat dil) (map Z.of_nat (shape x)) =
  Ret (map Z.of_nat (shape y)).
Proof. exact transposed_predicted. Qed.
Print Assumptions C38_transposed.

(** Tuples of paddings are accepted by the constructors; every prediction then
    raises. *)
Theorem C38_tuple_refuted : forall cin cout d k stride p dil sh, (0 < d)%nat ->
  padding_accepted d (PadTuple (repeat p d)) = true /\
  conv_eval_shape cin cout d k stride (PadTuple (repeat p d)) dil sh = Raise /\
  transposed_eval_shape cin cout d k stride (PadTuple (repeat p d)) (PadInt 0) dil sh = Raise.
Proof.
  exact (fun cin cout d k stride p dil sh H => conj (eq_trans (f_equal (fun n => Nat.eqb n d) (repeat_length p d)) (Nat.eqb_refl d))
    (conj (tuple_padding_raises cin cout d k stride (repeat p d) dil sh H)
          (tuple_padding_raises_t cin cout d k stride _ _ dil sh H (ex_intro _ (repeat p d) (or_introl eq_refl))))).
Qed.
Print Assumptions C38_tuple_refuted.

(** Pooling layers without ceil_mode: the prediction is the shape torch computes. *)
Theorem C38_pool_floor : forall c ks sh o, pool_forward_shape c ks false sh = Ret o -> pool_eval_shape c ks false sh = Ret o.
Proof. exact pool_floor. Qed.
Print Assumptions C38_pool_floor.

(** With ceil_mode: the prediction is never below and at most one above the shape
    torch computes, and equal to it exactly if along every axis the last predicted
    window starts inside the input. *)
Theorem C38_pool_ceil : forall c ks sh o, pool_forward_shape c ks true sh = Ret o ->
  exists p, pool_eval_shape c ks true sh = Ret p /\ Forall2 (fun a b => a = b \/ a = b + 1) p o /\
  (p = o <-> last_windows_start_inside ks (skipn 2 sh) (skipn 2 p)).
Proof. exact pool_ceil_windows. Qed.
Print Assumptions C38_pool_ceil.

(** So with ceil_mode the property fails, for inputs of every even size. *)
Theorem C38_pool_ceil_refuted : forall b c m, 1 <= m ->
  pool_forward_shape c [simple_window 1 2] true [b; c; 2 * m] = Ret [b; c; m] /\
  pool_eval_shape c [simple_window 1 2] true [b; c; 2 * m] = Ret [b; c; m + 1].
Proof. exact pool_ceil_wrong. Qed.
Print Assumptions C38_pool_ceil_refuted.

(** NormMaxPool runs exactly if torch's pooling and the prediction, which ignores
    ceil_mode, give the same shape, which then is the shape of its output. *)
Theorem C38_norm_max : forall c kh kw ceil groups sh o, Forall (fun fs => 0 < fst fs) groups -> groups <> [] -> 0 <= nth 0 sh 0 -> 0 <= c ->
  (norm_max_forward_shape c kh kw ceil groups sh = Ret o <-> pool_forward_shape c [kh; kw] ceil sh = Ret o /\ norm_max_eval_shape c kh kw sh = Ret o).
Proof. exact norm_max_iff. Qed.
Print Assumptions C38_norm_max.

(** But ceil_mode is not taken into account: on inputs of odd size the pooling
    succeeds and the layer raises. *)
Theorem C38_norm_max_refuted : forall b c m groups, 1 <= m -> Forall (fun fs => 0 < fst fs) groups -> groups <> [] ->
  pool_forward_shape c [simple_window 2 2; simple_window 2 2] true [b; c; 2 * m + 1; 2 * m + 1] = Ret [b; c; m + 1; m + 1] /\
  norm_max_eval_shape c (simple_window 2 2) (simple_window 2 2) [b; c; 2 * m + 1; 2 * m + 1] = Ret [b; c; m; m] /\
  norm_max_forward_shape c (simple_window 2 2) (simple_window 2 2) true groups [b; c; 2 * m + 1; 2 * m + 1] = Raise.
Proof. exact norm_max_ceil_raises. Qed.
Print Assumptions C38_norm_max_refuted.

(** MultipleModule: the prediction always raises. *)
Theorem C38_multiple_refuted : forall (L : Type) c (labels : list (L * Z)) merge sh, multiple_eval_shape c labels merge sh = Raise.
Proof. exact multiple_raises. Qed.
Print Assumptions C38_multiple_refuted.

(** Point convolutions: the prediction raises on the shape of every tensor the
    layer accepts. *)
Theorem C38_point_refuted : forall cin cout sh o, point_forward_shape cin cout sh = Ret o -> point_eval_shape cin cout sh = Raise.
Proof. exact point_raises. Qed.
Print Assumptions C38_point_refuted.

(** SequentialModule: predictions compose. *)
Theorem C38_sequential : forall (X : Type) (size : X -> list Z) c (mods : list ((X -> res X) * (list Z -> res (list Z)))),
  (forall m, In m mods -> forall x y, fst m x = Ret y -> snd m (size x) = Ret (size y)) ->
  forall x y, (1 < length (size x))%nat -> nth 1 (size x) 0 = c ->
  fold_left (fun s m => t <- s ;; fst m t) mods (Ret x) = Ret y -> sequential_eval_shape c (map snd mods) (size x) = Ret (size y).
Proof. exact sequential_predicted. Qed.
Print Assumptions C38_sequential.

(** Instances of the hypotheses: a 3 x 3 convolution, stride 2, on 5 x 6 pixels ... *)
Example conv_runs : exists y, conv_forward PadReflect 1 1 2 1 (reshape_filter 4 2 3 2 (fun _ _ _ => 1%R)) None {| shape := [7; 2; 5; 6]%nat; entry := fun _ => 1%R |} = Ret y /\ shape y = [7; 4; 3; 3]%nat.
Proof. eexists; split; reflexivity. Qed.
(** ... the transposed one ... *)
Example transposed_runs : exists y, transposed_forward 1 2 1 1 1 4 2 3 2 (fun _ _ _ => 1%R) None {| shape := [7; 2; 3; 3]%nat; entry := fun _ => 1%R |} = Ret y /\ shape y = [7; 4; 6; 6]%nat.
Proof. eexists; split; reflexivity. Qed.
(** ... 3 x 2 windows with padding and dilation ... *)
Example pool_runs : pool_forward_shape 3 [{| w_kernel := 3; w_stride := 2; w_padding := 1; w_dilation := 2 |}; simple_window 2 2] false [7; 3; 9; 5] = Ret [7; 3; 4; 2].
Proof. reflexivity. Qed.
Example pool_ceil_runs : pool_forward_shape 3 [simple_window 2 2; simple_window 1 2] true [7; 3; 9; 6] = Ret [7; 3; 5; 3].
Proof. reflexivity. Qed.
(** ... and two fields of size 2 and one of size 3, with ceil_mode. *)
Example norm_max_example : norm_max_forward_shape 7 (simple_window 2 2) (simple_window 3 1) true [(2, 2); (1, 3)] [7; 7; 8; 5] = Ret [7; 7; 4; 3].
Proof. apply C38_norm_max; [repeat constructor; cbn; lia|discriminate|cbn; lia|lia|]. split; [reflexivity|apply pool_floor; reflexivity]. Qed.
