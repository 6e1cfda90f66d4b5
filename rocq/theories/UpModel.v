(** Model of R2Upsampling and R3Upsampling.
    Source: /repo/escnn/nn/modules/rdupsampling.py.
    torch.nn.functional.interpolate is written out: the sizes of the output, and for
    every axis the positions of the input that are read and their weights, as in
    ATen/native/UpSample.h (area_pixel_compute_scale, compute_scales_value,
    area_pixel_compute_source_index, guard_index_and_lambda,
    compute_source_index_and_lambda, nearest_idx). Floats are exact reals, with
    math.floor and the truncations of torch as the integral part. The number of axes
    [d] is a parameter; a geometric tensor of the type of the layer is its array. *)
From Coq Require Import Reals ZArith Bool List Arith.
From Verif Require Import LibRes LibMat GridModel ImageModel ShapeModel.
Import ListNotations.
Open Scope R_scope.

(** 'nearest', or 'bilinear' ('trilinear') with or without align_corners *)
Inductive up_mode := Nearest | Linear (align : bool).
Record upsampling := { u_d : nat; u_channels : nat; u_size : option (list nat); u_scale : option R; u_mode : up_mode }.
(** _RdUpsampling.__init__ 25-94; size is an integer or a tuple *)
Definition mk_upsampling (d c : nat) (scale : option R) (size : option (nat + list nat)) (mode : up_mode) : res upsampling :=
  assert (Nat.eqb d 2 || Nat.eqb d 3) ;;
  assert (match size, scale with Some _, Some _ => false | _, _ => true end) ;;
  let sz := match size with Some (inl o) => Some (repeat o d) | Some (inr l) => Some l | None => None end in
  assert (match sz with Some l => Nat.eqb (length l) d | None => true end) ;;
  Ret {| u_d := d; u_channels := c; u_size := sz; u_scale := scale; u_mode := mode |}.

(** ** torch.nn.functional.interpolate *)
(** the sizes of the output *)
Definition up_sizes (size : option (list nat)) (scale : option R) (ws : list nat) : res (list Z) :=
  match size, scale with
  | Some l, None => if Nat.eqb (length l) (length ws) then Ret (map Z.of_nat l) else Raise
  | None, Some s => Ret (map (fun w => math_floor (INR w * s)) ws)
  | _, _ => Raise
  end.
(** compute_scales_value: what one step of the output is on the input *)
Definition up_step (scale : option R) (w o : nat) : R :=
  match scale with Some s => if Rlt_dec 0 s then 1 / s else INR w / INR o | None => INR w / INR o end.
(** area_pixel_compute_scale and area_pixel_compute_source_index *)
Definition source_index (align : bool) (scale : option R) (w o i : nat) : R :=
  if align then (if Nat.ltb 1 o then (INR w - 1) / (INR o - 1) else 0) * INR i
  else let src := up_step scale w o * (INR i + 1 / 2) - 1 / 2 in if Rlt_dec src 0 then 0 else src.
(** guard_index_and_lambda *)
Definition guard_index (r : R) (w : nat) : nat := Z.to_nat (Z.min (math_floor r) (Z.of_nat w - 1)).
Definition guard_lambda (r : R) (w : nat) : R := Rmin (Rmax (r - INR (guard_index r w)) 0) 1.
(** compute_source_index_and_lambda and nearest_idx: weights and positions along an
    axis of size [w] for output [i] of [o] *)
Definition axis_sources (mode : up_mode) (scale : option R) (w o i : nat) : list (R * nat) :=
  match mode with
  | Nearest => [(1, if Nat.eqb o w then i else if Nat.eqb o (2 * w) then (i / 2)%nat
                    else Z.to_nat (Z.min (math_floor (INR i * up_step scale w o)) (Z.of_nat w - 1)))]
  | Linear align =>
      if Nat.eqb o w then [(1, i); (0, i)]
      else let r := source_index align scale w o i in
           let i0 := guard_index r w in
           let l1 := guard_lambda r w in
           [(1 - l1, i0); (l1, (i0 + if Nat.ltb i0 (w - 1) then 1 else 0)%nat)]
  end.
(** the corners that are read, with the products of the weights *)
Fixpoint sources (axes : list (list (R * nat))) : list (R * list nat) :=
  match axes with
  | [] => [(1, [])]
  | a :: l => flat_map (fun wi => map (fun wq => (fst wi * fst wq, snd wi :: snd wq)) (sources l)) a
  end.
Definition all_axes (mode : up_mode) (scale : option R) (ws os pos : list nat) : list (list (R * nat)) :=
  map (fun woi => axis_sources mode scale (fst (fst woi)) (snd (fst woi)) (snd woi)) (combine (combine ws os) pos).
Definition interpolate (size : option (list nat)) (scale : option R) (mode : up_mode) (x : array R) : res (array R) :=
  let ws := skipn 2 (shape x) in
  zs <- up_sizes size scale ws ;;
  assert (forallb (Nat.ltb 0) ws && forallb (Z.ltb 0) zs && Nat.ltb 0 (nth 1 (shape x) 0%nat)) ;;
  let os := map Z.to_nat zs in
  Ret {| shape := firstn 2 (shape x) ++ os;
         entry := fun idx => rsum (map (fun wq => fst wq * entry x (firstn 2 idx ++ snd wq)) (sources (all_axes mode scale ws os (skipn 2 idx)))) |}.

(** ** The layer *)
(** forward 96-126 *)
Definition up_forward (u : upsampling) (x : array R) : res (array R) :=
  assert (Nat.eqb (length (shape x)) (2 + u_d u)) ;;
  assert (Nat.eqb (nth 1 (shape x) 0%nat) (u_channels u)) ;;
  interpolate (u_size u) (u_scale u) (u_mode u) x.
(** evaluate_output_shape 128-142 *)
Definition up_eval_shape (u : upsampling) (sh : list nat) : res (list Z) :=
  assert (Nat.eqb (length sh) (2 + u_d u)) ;;
  assert (Nat.eqb (nth 1 sh 0%nat) (u_channels u)) ;;
  os <- match u_size u with
        | Some l => Ret (map Z.of_nat l)
        | None => match u_scale u with Some s => Ret (map (fun i => math_floor (INR (nth (2 + i) sh 0%nat) * s)) (seq 0 (u_d u))) | None => Raise end
        end ;;
  Ret (Z.of_nat (nth 0 sh 0%nat) :: Z.of_nat (u_channels u) :: os).
