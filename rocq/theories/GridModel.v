(** Model of the exact transformation of sampled arrays.
    Source: /repo/escnn/gspaces/utils.py:24-78.
    [half] is the conversion to np.float16. The other branch, which calls
    scipy's affine_transform, is the parameter [affine]. *)
From Coq Require Import Reals ZArith Bool List.
From Verif Require Import LibRes LibMat LibTrig ParamModel RepModel.
Import ListNotations.
Open Scope R_scope.

(** A numpy array: its shape and its entries, by lists of indices. *)
Record array (A : Type) := { shape : list nat; entry : list nat -> A }.
Arguments shape {A}. Arguments entry {A}.

(** utils.py:32-34 *)
Definition flip_axes (n : nat) (M : mat) : mat := fun i j =>
  (if Nat.ltb j (n - 1) then -1 else 1) * ((if Nat.ltb i (n - 1) then -1 else 1) * M (n - 1 - i)%nat (n - 1 - j)%nat).

(** utils.py:44-48 *)
Definition looks_exact (n : nat) (T : mat) : bool :=
  let at_ i j := Rabs (T i j) in
  forallb_n n (fun j => np_isclose (/ 10 ^ 8) (sumn n (fun i => at_ i j)) 1) &&
  forallb_n n (fun i => np_isclose (/ 10 ^ 8) (sumn n (fun j => at_ i j)) 1) &&
  forallb_n n (fun i => forallb_n n (fun j => np_isclose (/ 10 ^ 8) (at_ i j) 1 || np_isclose (/ 10 ^ 8) (at_ i j) 0)).

(** utils.py:50-51 *)
Definition signed_axes (n : nat) (T : mat) : list Z :=
  map (fun i => fold_right Z.add 0%Z (map (fun j => (pyround (T i j) * Z.of_nat (j + 1))%Z) (seq 0 n))) (seq 0 n).

(** the position of [a] in [l] *)
Fixpoint index_of (a : nat) (l : list nat) : nat :=
  match l with [] => 0%nat | b :: l' => if Nat.eqb a b then 0%nat else S (index_of a l') end.

(** x.transpose(axs), which raises unless axs is a permutation of the axes *)
Definition transpose {A} (axs : list nat) (x : array A) : res (array A) :=
  let D := length (shape x) in
  assert (Nat.eqb (length axs) D) ;;
  assert (forallb (fun a => existsb (Nat.eqb a) axs) (seq 0 D)) ;;
  Ret {| shape := map (fun a => nth a (shape x) 0%nat) axs;
         entry := fun idx => entry x (map (fun a => nth (index_of a axs) idx 0%nat) (seq 0 D)) |}.

(** y[..., ::s_1, ..., ::s_n]: an axis with step -1 is read backwards *)
Definition restride {A} (d : nat) (steps : list Z) (y : array A) : array A :=
  {| shape := shape y;
     entry := fun idx => entry y (firstn d idx ++
       map (fun k => if (nth k steps 0 <? 0)%Z
                     then (nth (d + k) (shape y) 0 - 1 - nth (d + k) idx 0)%nat
                     else nth (d + k) idx 0%nat) (seq 0 (length steps))) |}.

Section Transform.
Variable half : R -> R.
Context {A : Type}.
Variable affine : array A -> mat -> nat -> res (array A).

(** linear_transform_array_nd utils.py:24-78; [r] and [c] are the shape of
    the matrix. A step of 0 is a ValueError. *)
Definition linear_transform (x : array A) (r c : nat) (M : mat) (exact : bool) : res (array A) :=
  let n := r in
  assert (Nat.eqb c n) ;;
  assert (Nat.leb n (length (shape x))) ;;
  let T := fun i j => half (flip_axes n M i j) in
  let D := length (shape x) in
  if exact && looks_exact n T then
    let axs := signed_axes n T in
    let steps := map Z.sgn axs in
    y <- transpose (seq 0 (D - n) ++ map (fun a => (D - n + Z.to_nat (Z.abs a) - 1)%nat) axs) x ;;
    assert (forallb (fun s => negb (s =? 0)%Z) steps) ;;
    Ret (restride (D - n) steps y)
  else affine x T n.
End Transform.
