(** Model of the layers that work on images and volumes sampled on a grid.
    Sources: /repo/escnn/nn/field_type.py:228-346 (transform),
    /repo/escnn/nn/modules/masking_module.py, /repo/escnn/nn/modules/conv/rd_convolution.py:262-280, 338-401,
    /repo/escnn/nn/modules/conv/r2convolution.py:193-231, r3convolution.py:186-222.
    A tensor is an [array R] of shape batch :: channels :: spatial axes. The check
    that the type of the input is the type of the module is left out: here the
    representation is an argument. *)
From Coq Require Import Reals ZArith Bool List.
From Verif Require Import LibRes LibMat GridModel.
Import ListNotations.
Open Scope R_scope.

(** All the indices of an array, the last one moving fastest:
    itertools.product(range(s_1), ..., range(s_n)). *)
Fixpoint all_indices (sh : list nat) : list (list nat) :=
  match sh with [] => [[]] | s :: sh' => flat_map (fun i => map (cons i) (all_indices sh')) (seq 0 s) end.

(** sum of a list *)
Definition rsum (l : list R) : R := fold_right Rplus 0 l.

Fixpoint shape_eqb (l m : list nat) : bool :=
  match l, m with [], [] => true | a :: l', b :: m' => Nat.eqb a b && shape_eqb l' m' | _, _ => false end.

(** FieldType.transform_fibers field_type.py:258-261; [rho] is the matrix of the
    fiber representation, of size [c] *)
Definition transform_fibers (c : nat) (rho : mat) (x : array R) : res (array R) :=
  assert (Nat.leb 2 (length (shape x))) ;;
  assert (Nat.eqb (nth 1 (shape x) 0%nat) c) ;;
  Ret {| shape := shape x;
         entry := fun idx => sumn c (fun i => rho (nth 1 idx 0%nat) i * entry x (nth 0 idx 0%nat :: i :: skipn 2 idx)) |}.

(** FieldType.transform field_type.py:338-346 without coords: the fibers are
    transformed, then the grid; [M] is the matrix of the action on the base space *)
Definition transform (half : R -> R) (affine : array R -> mat -> nat -> res (array R))
  (c : nat) (rho : mat) (n : nat) (M : mat) (x : array R) : res (array R) :=
  y <- transform_fibers c rho x ;; linear_transform half affine y n n M true.

(** ** masking_module.py *)
(** one iteration of the loop of build_mask, masking_module.py:25-30.
    Dividing by zero raises. *)
Definition mask_value (s : nat) (margin sigma : R) (k : list nat) : res R :=
  let c := (INR s - 1) / 2 in
  let t := (c - margin / 100 * c) ^ 2 in
  let r := rsum (map (fun x => (INR x - c) ^ 2) k) in
  if Rlt_dec t r then
    if Req_EM_T (sigma ^ 2) 0 then Raise else Ret (exp ((t - r) / sigma ^ 2))
  else Ret 1.

Fixpoint mask_loop (s : nat) (margin sigma : R) (ks : list (list nat)) (m : list nat -> R) : res (list nat -> R) :=
  match ks with
  | [] => Ret m
  | k :: ks' => v <- mask_value s margin sigma k ;;
      mask_loop s margin sigma ks' (fun idx => if shape_eqb (skipn 2 idx) k then v else m idx)
  end.

(** build_mask masking_module.py:16-31 *)
Definition build_mask (s dim : nat) (margin sigma : R) : res (array R) :=
  m <- mask_loop s margin sigma (all_indices (repeat s dim)) (fun _ => 0) ;;
  Ret {| shape := 1%nat :: 1%nat :: repeat s dim; entry := m |}.

(** MaskModule.forward masking_module.py:86-92; the product broadcasts the first
    two axes of the mask, of size 1 *)
Definition mask_forward (mask x : array R) : res (array R) :=
  assert (shape_eqb (skipn 2 (shape x)) (skipn 2 (shape mask))) ;;
  Ret {| shape := shape x; entry := fun idx => entry x idx * entry mask (0%nat :: 0%nat :: skipn 2 idx) |}.

(** ** Convolutions *)
(** get_grid_coords rd_convolution.py:379-401: coordinate [j] of point [i] *)
Definition grid_coords (k dilation i j : nat) : R :=
  let actual_size := INR (dilation * (k - 1) + 1) in
  let origin := actual_size / 2 - 1 / 2 in
  let p := INR ((i / k ^ j) mod k) * INR dilation - origin in
  if Nat.leb 1 j then p * -1 else p.

(** the position of an index in an array of the shape k, ..., k *)
Definition ravel (k : nat) (t : list nat) : nat := fold_left (fun a i => (a * k + i)%nat) t 0%nat.

(** _RdConv.expand_parameters rd_convolution.py:273-274: [f o i q] is the expanded
    filter at the point [q] of the grid, reshaped to k x ... x k *)
Definition reshape_filter (cout cin k n : nat) (f : nat -> nat -> nat -> R) : array R :=
  {| shape := cout :: cin :: repeat k n;
     entry := fun idx => f (nth 0 idx 0%nat) (nth 1 idx 0%nat) (ravel k (skipn 2 idx)) |}.

(** torch.nn.functional.pad along an axis of size [w], by [p] on both sides: the
    index read at position [j], None for zero *)
Inductive pad_mode := PadZeros | PadReflect | PadReplicate | PadCircular.
Definition pad_ok (m : pad_mode) (p w : nat) : bool :=
  match m with
  | PadZeros => true
  | PadReflect => Nat.ltb p w
  | PadReplicate => Nat.ltb 0 w
  | PadCircular => Nat.leb p w && Nat.ltb 0 w
  end.
Definition pad_read (m : pad_mode) (p w j : nat) : option nat :=
  if Nat.leb p j && Nat.ltb j (p + w) then Some (j - p)%nat else
  match m with
  | PadZeros => None
  | PadReflect => Some (if Nat.ltb j p then (p - j)%nat else (2 * (w - 1) - (j - p))%nat)
  | PadReplicate => Some (if Nat.ltb j p then 0%nat else (w - 1)%nat)
  | PadCircular => Some (if Nat.ltb j p then (j + w - p)%nat else (j - p - w)%nat)
  end.

(** all the indices, if none is None *)
Fixpoint all_some (l : list (option nat)) : option (list nat) :=
  match l with
  | [] => Some []
  | None :: _ => None
  | Some a :: l' => match all_some l' with Some m => Some (a :: m) | None => None end
  end.

Definition pad (m : pad_mode) (p : nat) (x : array R) : res (array R) :=
  let ws := skipn 2 (shape x) in
  assert (forallb (pad_ok m p) ws) ;;
  Ret {| shape := firstn 2 (shape x) ++ map (fun w => w + 2 * p)%nat ws;
         entry := fun idx =>
           match all_some (map (fun wj => pad_read m p (fst wj) (snd wj)) (combine ws (skipn 2 idx))) with
           | Some js => entry x (firstn 2 idx ++ js)
           | None => 0
           end |}.

(** The size of the output along an axis of size [w], after padding *)
Definition conv_size (k stride dilation w : nat) : nat := ((w - (dilation * (k - 1) + 1)) / stride + 1)%nat.

(** torch.nn.functional.conv2d, conv3d (and any dimension) without padding: a
    correlation with the taps [dilation] apart, every [stride] positions *)
Definition conv (groups stride dilation : nat) (f : array R) (bias : option (list R)) (x : array R) : res (array R) :=
  let ks := skipn 2 (shape f) in
  let ws := skipn 2 (shape x) in
  let cout := nth 0 (shape f) 0%nat in
  let cin := nth 1 (shape f) 0%nat in
  assert (Nat.leb 2 (length (shape x)) && Nat.eqb (length ws) (length ks)) ;;
  assert (Nat.ltb 0 groups && Nat.ltb 0 stride && Nat.ltb 0 dilation && forallb (Nat.ltb 0) ks) ;;
  assert (Nat.eqb (cout mod groups) 0 && Nat.eqb (nth 1 (shape x) 0%nat) (groups * cin)) ;;
  assert (match bias with Some b => Nat.eqb (length b) cout | None => true end) ;;
  assert (forallb (fun kw => Nat.leb (dilation * (fst kw - 1) + 1) (snd kw)) (combine ks ws)) ;;
  Ret {| shape := nth 0 (shape x) 0%nat :: cout :: map (fun kw => conv_size (fst kw) stride dilation (snd kw)) (combine ks ws);
         entry := fun idx =>
           let b := nth 0 idx 0%nat in
           let o := nth 1 idx 0%nat in
           let g := (o / (cout / groups))%nat in
           sumn cin (fun i => rsum (map (fun t => entry f (o :: i :: t) *
               entry x (b :: (g * cin + i)%nat :: map (fun pt => stride * fst pt + dilation * snd pt)%nat (combine (skipn 2 idx) t)))
             (all_indices ks))) +
           match bias with Some v => nth o v 0 | None => 0 end |}.

(** R2Conv.forward r2convolution.py:205-231 and R3Conv.forward
    r3convolution.py:199-222, with the padding an integer. In
    mode zeros the padding is done by conv2d itself. *)
Definition conv_forward (m : pad_mode) (p groups stride dilation : nat) (f : array R) (bias : option (list R)) (x : array R) : res (array R) :=
  xp <- pad m p x ;; conv groups stride dilation f bias xp.
