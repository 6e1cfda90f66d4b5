(** Model of the bias and of the train / eval state of the trainable layers.
    Sources: /repo/escnn/nn/modules/conv/rd_convolution.py,
      /repo/escnn/nn/modules/linear.py,
      /repo/escnn/nn/modules/nonlinearities/tensor.py.
    The group enters through `fibergroup.irrep( *id )`, as in RepModel. *)
From Coq Require Import Reals ZArith Bool List Arith.
From Verif Require Import LibRes LibMat FinGroupModel PlanarModel RepModel.
Import ListNotations.
Open Scope R_scope.

(** ** Bias expansion rd_convolution.py:177-218, linear.py:120-160 *)
Section Bias.
Context {T : Type}.
Variable irr : list Z -> res (girrep T).
(** `group.trivial_representation.id` *)
Variable tid : list Z.

(** is_trivial representation.py:286, for an irrep *)
Definition is_trivial (i : girrep T) : bool := if list_eq_dec Z.eq_dec tid (gi_id i) then true else false.
(** 185-189: the number of trivial irreps *)
Fixpoint count_trivials (ids : list (list Z)) : res nat :=
  match ids with
  | [] => Ret 0%nat
  | id :: ids' => i <- irr id ;; n <- count_trivials ids' ;; Ret (if is_trivial i then S n else n)
  end.
(** `M[p:p+n, c] = v` *)
Definition set_column (M : mat) (p n c : nat) (v : nat -> R) : mat :=
  fun i j => if Nat.eqb j c && Nat.leb p i && Nat.ltb i (p + n) then v (i - p)%nat else M i j.
(** 202-207: the loop over the irreps of a field; the matrix has [t] columns *)
Fixpoint bias_field (t : nat) (r : repr T) (p : nat) (ids : list (list Z)) (pi c : nat) (M : mat) : res (nat * mat) :=
  match ids with
  | [] => Ret (c, M)
  | id :: ids' =>
      i <- irr id ;;
      if is_trivial i then
        assert (Nat.ltb pi (r_size r)) ;; assert (Nat.ltb c t) ;;
        bias_field t r p ids' (pi + gi_size i) (S c) (set_column M p (r_size r) c (fun a => r_cob r a pi))
      else bias_field t r p ids' (pi + gi_size i) c M
  end.
(** 199-208: the loop over the fields *)
Fixpoint bias_loop (t : nat) (ft : list (repr T)) (p c : nat) (M : mat) : res mat :=
  match ft with
  | [] => Ret M
  | r :: ft' => cM <- bias_field t r p (r_irreps r) 0 c M ;; bias_loop t ft' (p + r_size r) (fst cM) (snd cM)
  end.
(** 177-218: number of bias parameters and bias_expansion, if there is a bias *)
Definition mk_bias (bias : bool) (ft : list (repr T)) : res (option (nat * mat)) :=
  if bias then
    t <- count_trivials (flat_map r_irreps ft) ;;
    if Nat.ltb 0 t then M <- bias_loop t ft 0 0 mzero ;; Ret (Some (t, M)) else Ret None
  else Ret None.
(** expand_parameters 275-278: `bias_expansion @ bias` *)
Definition expand_bias (ft : list (repr T)) (m : option (nat * mat)) (b : list R) : option (list R) :=
  match m with
  | None => None
  | Some (t, M) => Some (map (fun i => sumn t (fun j => M i j * nth j b 0)) (seq 0 (list_sum (map r_size ft))))
  end.
End Bias.

(** trivial_representation.id: cyclicgroup.py:397, dihedralgroup.py:545,
    so2group.py:415, o2group.py:619 *)
Definition p_trivial_id (G : pgrp) : list Z :=
  match G with Fin (Cyc _) | SO2 => [0%Z] | Fin (Dih _) | O2 => [0%Z; 0%Z] end.

(** ** Training and evaluation mode *)
(** [W]: values of the parameters; [F]: expanded filter and bias. The buffers
    `filter` (`matrix`) and `expanded_bias` are present or absent together:
    [ly_buffer = None] means that they have been deleted. *)
Section Mode.
Context {W F : Type}.
Variable expand : W -> F.
Record layer := { ly_training : bool; ly_params : W; ly_buffer : option F }.
(** __init__: nn.Module starts in training mode; the buffers hold zeros *)
Definition new_layer (w : W) (zeros : F) : layer := {| ly_training := true; ly_params := w; ly_buffer := Some zeros |}.
(** _RdConv.train rd_convolution.py:296-336 (also _RdConvTransposed) *)
Definition conv_train (mode : bool) (m : layer) : layer :=
  let buffer := if mode then None
                else if ly_training m then Some (expand (ly_params m)) else ly_buffer m in
  {| ly_training := mode; ly_params := ly_params m; ly_buffer := buffer |}.
(** Linear.train linear.py:242-281 and TensorProductModule.train tensor.py:176-206 *)
Definition linear_train (mode : bool) (m : layer) : layer :=
  let buffer := if negb mode then Some (expand (ly_params m)) else None in
  {| ly_training := mode; ly_params := ly_params m; ly_buffer := buffer |}.
(** forward: the filter and bias used, linear.py:198-203 and
    r2convolution.py:207-212; a missing buffer raises AttributeError *)
Definition used (m : layer) : res F :=
  if negb (ly_training m) then match ly_buffer m with Some f => Ret f | None => Raise end
  else Ret (expand (ly_params m)).
(** an optimiser step, or any other assignment to the parameters *)
Definition set_params (w : W) (m : layer) : layer :=
  {| ly_training := ly_training m; ly_params := w; ly_buffer := ly_buffer m |}.
End Mode.

(** _RdPointConv rd_point_convolution.py: only the bias is kept in a buffer *)
Section PointMode.
Context {W F B : Type}.
Variable expand_filter : W -> F.
Variable expand_bias : W -> B.
(** train 340-376: as _RdConv.train, for the bias only *)
Definition point_train : bool -> layer -> layer := conv_train expand_bias.
(** forward 313-322 and message 328-338: the filter is computed from the current
    weights in both modes *)
Definition point_used (m : @layer W B) : res (F * B) :=
  b <- used expand_bias m ;; Ret (expand_filter (ly_params m), b).
End PointMode.
