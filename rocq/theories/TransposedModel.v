(** Model of the transposed convolutions.
    Sources: /repo/escnn/nn/modules/conv/rd_transposed_convolution.py:243-262,
    conv/r2_transposed_convolution.py:119-139, r3_transposed_convolution.py:119-140. *)
From Coq Require Import Reals ZArith Bool List.
From Verif Require Import LibRes LibMat GridModel ImageModel.
Import ListNotations.
Open Scope R_scope.

(** _filter.transpose(0, 1), rd_transposed_convolution.py:255 *)
Definition transpose01 (f : array R) : array R :=
  {| shape := nth 1 (shape f) 0%nat :: nth 0 (shape f) 0%nat :: skipn 2 (shape f);
     entry := fun idx => entry f (nth 1 idx 0%nat :: nth 0 idx 0%nat :: skipn 2 idx) |}.

(** (w - 1) * stride - 2 * padding + dilation * (k - 1) + output_padding + 1 *)
Definition transposed_size (k stride p op dilation w : nat) : Z :=
  ((Z.of_nat w - 1) * Z.of_nat stride - 2 * Z.of_nat p + Z.of_nat dilation * (Z.of_nat k - 1) + Z.of_nat op + 1)%Z.

Definition at_eqb (a b : list nat) : bool := forallb (fun ab => Nat.eqb (fst ab) (snd ab)) (combine a b).

(** torch's conv_transpose2d and conv_transpose3d (in any dimension): every input
    position adds its value times the filter around [stride] times the position;
    [p] pixels are cut off on every side and [op] added on one side. *)
Definition conv_transpose (groups stride p op dilation : nat) (f : array R) (bias : option (list R)) (x : array R) : res (array R) :=
  let ks := skipn 2 (shape f) in
  let ws := skipn 2 (shape x) in
  let cin := nth 0 (shape f) 0%nat in
  let cout := nth 1 (shape f) 0%nat in
  assert (Nat.leb 2 (length (shape x)) && Nat.eqb (length ws) (length ks)) ;;
  assert (Nat.ltb 0 groups && Nat.ltb 0 stride && Nat.ltb 0 dilation && forallb (Nat.ltb 0) ks) ;;
  assert (Nat.ltb op stride || Nat.ltb op dilation) ;;
  assert (Nat.eqb (cin mod groups) 0 && Nat.eqb (nth 1 (shape x) 0%nat) cin) ;;
  assert (match bias with Some b => Nat.eqb (length b) (groups * cout) | None => true end) ;;
  assert (forallb (fun kw => Z.leb 1 (transposed_size (fst kw) stride p op dilation (snd kw))) (combine ks ws)) ;;
  Ret {| shape := nth 0 (shape x) 0%nat :: (groups * cout)%nat :: map (fun kw => Z.to_nat (transposed_size (fst kw) stride p op dilation (snd kw))) (combine ks ws);
         entry := fun idx =>
           let b := nth 0 idx 0%nat in
           let o := nth 1 idx 0%nat in
           let g := (o / cout)%nat in
           sumn (cin / groups) (fun i => rsum (map (fun pos => rsum (map (fun t =>
               if at_eqb (map (fun q => q + p)%nat (skipn 2 idx)) (map (fun pt => stride * fst pt + dilation * snd pt)%nat (combine pos t))
               then entry f ((g * (cin / groups) + i)%nat :: (o mod cout)%nat :: t) * entry x (b :: (g * (cin / groups) + i)%nat :: pos)
               else 0) (all_indices ks))) (all_indices ws))) +
           match bias with Some v => nth o v 0 | None => 0 end |}.

(** expand_parameters and forward. BlocksBasisExpansion gives the filter for
    [cin] input channels of all the groups and the [cout] output channels of one. *)
Definition transposed_forward (groups stride p op dilation cout cin k n : nat) (f : nat -> nat -> nat -> R) (bias : option (list R)) (x : array R) : res (array R) :=
  conv_transpose groups stride p op dilation (transpose01 (reshape_filter cout cin k n f)) bias x.
