(** C76: upsampling. *)
From Coq Require Import Reals List ZArith Arith Bool Lia Lra.
From Verif Require Import LibRes LibMat GridModel SpecGrid ImageModel SpecImage SPoolThms ImageEx UpModel SpecUp UpThms UpEx.
Import ListNotations.
Open Scope R_scope.

(** C76. The forward pass returns on images of the right type with at least one pixel
    and channel when exactly one of size and scale_factor was given and the sizes of
    the output are positive. *)
Theorem C76_returns : forall u x, (exists y, up_forward u x = Ret y) <->
  exists B ws os, shape x = B :: u_channels u :: ws /\ length ws = u_d u /\ length os = u_d u /\ (0 < u_channels u)%nat /\
    Forall (fun w => 0 < w)%nat ws /\ Forall (fun o => 0 < o)%nat os /\ upsized (u_size u) (u_scale u) ws os.
Proof. exact up_returns. Qed.
Print Assumptions C76_returns.

(** Bilinear and trilinear: the multilinear interpolation at the centres of the cells
    of the output. *)
Theorem C76_linear_value : forall u x y, u_mode u = Linear false -> whole (u_scale u) (skipn 2 (shape x)) -> up_forward u x = Ret y ->
  exists B ws os, shape x = B :: u_channels u :: ws /\ shape y = B :: u_channels u :: os /\ upsized (u_size u) (u_scale u) ws os /\
    forall bt ch pos, valid os pos -> interpolated centre ws os pos (fun q => entry x (bt :: ch :: q)) (entry y (bt :: ch :: pos)).
Proof. exact linear_value. Qed.
Print Assumptions C76_linear_value.

(** With align_corners: at the places for which the corners coincide. *)
Theorem C76_aligned_value : forall u x y, u_mode u = Linear true -> Forall (fun o => 1 < o)%nat (skipn 2 (shape y)) -> up_forward u x = Ret y ->
  exists B ws os, shape x = B :: u_channels u :: ws /\ shape y = B :: u_channels u :: os /\ upsized (u_size u) (u_scale u) ws os /\
    forall bt ch pos, valid os pos -> interpolated aligned ws os pos (fun q => entry x (bt :: ch :: q)) (entry y (bt :: ch :: pos)).
Proof. exact aligned_value. Qed.
Print Assumptions C76_aligned_value.

(** Nearest: the pixel that contains the left end of the cell of the output. *)
Theorem C76_nearest_value : forall u x y, u_mode u = Nearest -> whole (u_scale u) (skipn 2 (shape x)) -> up_forward u x = Ret y ->
  exists B ws os, shape x = B :: u_channels u :: ws /\ shape y = B :: u_channels u :: os /\ upsized (u_size u) (u_scale u) ws os /\
    forall bt ch pos, valid os pos -> exists q, length q = length ws /\ (forall a, (a < length ws)%nat -> left_cell (nth a ws 0%nat) (nth a os 0%nat) (nth a pos 0%nat) (nth a q 0%nat)) /\
      entry y (bt :: ch :: pos) = entry x (bt :: ch :: q).
Proof. exact nearest_value. Qed.
Print Assumptions C76_nearest_value.

(** The predicted shape is the computed one. *)
Theorem C76_shape : forall u x y, up_forward u x = Ret y -> up_eval_shape u (shape x) = Ret (map Z.of_nat (shape y)).
Proof. exact up_predicted. Qed.
Print Assumptions C76_shape.

(** One size for all axes, or a scale: the layer commutes with the symmetries of the
    grid, for every representation, when the scale takes the sizes to integers; with
    align_corners unless several pixels are reduced to one; nearest if the sizes of
    the output are multiples of those of the input. *)
Theorem C76_commutes : forall half, half 0 = 0 -> half 1 = 1 -> half (-1) = -1 -> forall affine rho M u x y,
  signed_perm (u_d u) M -> up_forward u x = Ret y -> (forall l, u_size u = Some l -> exists o, l = repeat o (u_d u)) -> 
  match u_mode u with
  | Linear false => whole (u_scale u) (skipn 2 (shape x))
  | Linear true => Forall2 (fun w o => 1 < o \/ o = w)%nat (skipn 2 (shape x)) (skipn 2 (shape y))
  | Nearest => whole (u_scale u) (skipn 2 (shape x)) /\ Forall2 Nat.divide (skipn 2 (shape x)) (skipn 2 (shape y))
  end ->
  exists x' y' z, transform half affine (u_channels u) rho (u_d u) M x = Ret x' /\ up_forward u x' = Ret y' /\
    transform half affine (u_channels u) rho (u_d u) M y = Ret z /\ same_array y' z.
Proof. exact up_commutes. Qed.
Print Assumptions C76_commutes.

(** Images of 4 by 6 pixels scaled by 2 and by 3/2, and brought to 7 by 7 pixels. *)
Example C76_ex : exists u v w, mk_upsampling 2 3 (Some 2) None (Linear false) = Ret u /\ mk_upsampling 2 3 (Some (3 / 2)) None Nearest = Ret v /\ mk_upsampling 2 3 None (Some (inl 7%nat)) (Linear true) = Ret w /\
  signed_perm 2 quarter /\ whole (u_scale u) [4; 6]%nat /\ whole (u_scale v) [4; 6]%nat /\
  (exists y, up_forward u image46 = Ret y /\ shape y = [2; 3; 8; 12]%nat) /\ (exists y, up_forward v image46 = Ret y /\ shape y = [2; 3; 6; 9]%nat) /\ (exists y, up_forward w image46 = Ret y /\ shape y = [2; 3; 7; 7]%nat).
Proof. exact up_example. Qed.

(** Nearest never commutes with half turns for other sizes. *)
Theorem C76_nearest_refuted : forall half, half 0 = 0 -> half 1 = 1 -> half (-1) = -1 -> forall affine w o, (0 < w)%nat -> (0 < o)%nat -> ~ Nat.divide w o ->
  mk_upsampling 2 1 None (Some (inl o)) Nearest = Ret (sized Nearest o) /\
  exists y x' y' z, up_forward (sized Nearest o) (ramp_of w) = Ret y /\ transform half affine 1 mid 2 mirror (ramp_of w) = Ret x' /\ up_forward (sized Nearest o) x' = Ret y' /\
    transform half affine 1 mid 2 mirror y = Ret z /\ ~ same_array y' z.
Proof. exact nearest_skewed. Qed.
Print Assumptions C76_nearest_refuted.

(** With align_corners and one pixel in the output the layer reads a corner. *)
Theorem C76_corner_refuted : forall half, half 0 = 0 -> half 1 = 1 -> half (-1) = -1 -> forall affine w, (1 < w)%nat ->
  mk_upsampling 2 1 None (Some (inl 1%nat)) (Linear true) = Ret (sized (Linear true) 1) /\
  exists y x' y' z, up_forward (sized (Linear true) 1) (ramp_of w) = Ret y /\ transform half affine 1 mid 2 mirror (ramp_of w) = Ret x' /\ up_forward (sized (Linear true) 1) x' = Ret y' /\
    transform half affine 1 mid 2 mirror y = Ret z /\ ~ same_array y' z.
Proof. exact corner_skewed. Qed.
Print Assumptions C76_corner_refuted.

(** With a scale that does not take the size to an integer the bilinear layer does not
    commute with half turns. *)
Theorem C76_scale_refuted : forall half, half 0 = 0 -> half 1 = 1 -> half (-1) = -1 -> forall affine,
  mk_upsampling 2 1 (Some (3 / 2)) None (Linear false) = Ret (scaled (Linear false) (3 / 2)) /\
  exists y x' y' z, up_forward (scaled (Linear false) (3 / 2)) (ramp_of 3) = Ret y /\ shape y = [1; 1; 4; 4]%nat /\ transform half affine 1 mid 2 mirror (ramp_of 3) = Ret x' /\ up_forward (scaled (Linear false) (3 / 2)) x' = Ret y' /\
    transform half affine 1 mid 2 mirror y = Ret z /\ ~ same_array y' z.
Proof. exact scale_skewed. Qed.
Print Assumptions C76_scale_refuted.
