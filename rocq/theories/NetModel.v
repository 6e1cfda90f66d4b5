(** Model of geometric tensors that are combined, and of MultipleModule on images. Sources:
    /repo/escnn/nn/geometric_tensor.py:668-702, 742-762, 817-859 (sums, multiples, direct sums),
    /repo/escnn/nn/modules/reshuffle_module.py:66-73, branching_module.py:163-219,
    merge_module.py:38-132, multiple_module.py:60-120.
    A tensor is its type and an [array R] of shape batch :: channels :: spatial axes; the
    functions of FieldModel that move channels around are used on its list of channels.
    Left out: coordinates of point clouds, the check of the number of axes, the checks that
    gspaces agree, and broadcasting in `+`, `-` and in the assignment to a slice, which here
    need equal shapes. *)
From Coq Require Import String Ascii.
From Coq Require Import Reals ZArith Bool List Arith.
From Verif Require Import LibRes LibPy FieldModel GridModel ImageModel FieldMapModel.
Import ListNotations.
Local Open Scope nat_scope.

Definition tensor (A : Type) : Type := (list A * array R)%type.

Section Net.
Context {A : Type}.
Variable size : A -> nat.
Variable teqb : list A -> list A -> bool.
Variable lleb : string -> string -> bool.

(** tensor[:, o, ...] for every o *)
Definition tchans (x : tensor A) : list chan := map (fun o bt q => entry (snd x) (bt :: o :: q)) (seq 0 (nth 1 (shape (snd x)) 0)).
(** the array with these channels and the other axes as in the shape *)
Definition of_chans (sh : list nat) (l : list chan) : array R :=
  {| shape := nth 0 sh 0 :: length l :: skipn 2 sh;
     entry := fun idx => match idx with bt :: o :: q => nth o l (fun _ _ => 0%R) bt q | _ => 0%R end |}.
Definition on_chans (f : gtensor A chan -> res (gtensor A chan)) (x : tensor A) : res (tensor A) :=
  y <- f {| g_type := fst x; g_chans := tchans x |} ;; Ret (g_type y, of_chans (shape (snd x)) (g_chans y)).

(** __add__ 668-684, __sub__ 686-702 *)
Definition pointwise (f : R -> R -> R) (x y : tensor A) : res (tensor A) :=
  assert (teqb (fst x) (fst y)) ;; assert (shape_eqb (shape (snd x)) (shape (snd y))) ;;
  Ret (fst x, {| shape := shape (snd x); entry := fun idx => f (entry (snd x) idx) (entry (snd y) idx) |}).
Definition t_add := pointwise Rplus.
Definition t_sub := pointwise Rminus.
(** __mul__ 742-762 *)
Definition t_scale (c : R) (x : tensor A) : tensor A :=
  (fst x, {| shape := shape (snd x); entry := fun idx => (entry (snd x) idx * c)%R |}).
(** tensor_directsum 817-859 *)
Definition t_directsum (ts : list (tensor A)) : res (tensor A) :=
  match ts with
  | [] => Raise
  | t0 :: ts' =>
      let s0 := shape (snd t0) in
      assert (forallb (fun t => let s := shape (snd t) in
        Nat.eqb (length s0) (length s) && Nat.eqb (nth 0 s0 0) (nth 0 s 0) && shape_eqb (skipn 2 s0) (skipn 2 s)) ts') ;;
      ft <- mk_type (flat_map fst ts) ;;
      let l := flat_map tchans ts in
      assert (Nat.eqb (length l) (type_size size ft)) ;; Ret (ft, of_chans s0 l)
  end.

(** ReshuffleModule.forward *)
Definition t_reshuffle (m : reshuffle) (x : tensor A) : res (tensor A) := on_chans (reshuffle_forward size teqb m) x.

(** ** MultipleModule *)
(** in_type of a module: a FieldType or a tuple of them *)
Inductive intype := One (ft : list A) | Several (fts : list (list A)).
(** the label of a module: a string or a list *)
Inductive labarg := LStr (l : string) | LList (ls : list string).
Definition labs (a : labarg) : list string := match a with LStr l => [l] | LList ls => ls end.
(** a module: its types, evaluate_output_shape and forward *)
Record netmod := { nm_in : intype; nm_out : list A; nm_shape : list (list nat) -> res (list nat); nm_run : list (tensor A) -> res (tensor A) }.
Record multiple := { mu_in : list A; mu_branching : @branching A string; mu_mods : list (netmod * list string); mu_out : list A }.

Definition smem (l : string) (ls : list string) : bool := existsb (String.eqb l) ls.
(** multiple_module.py:90-96 for one module; a FieldType has no __getitem__ *)
Definition check_labels (b : @branching A string) (m : netmod) (a : labarg) : res unit :=
  match a with
  | LStr l => t <- lookup String.eqb (br_out b) l ;; assert (match nm_in m with One t' => teqb t' t | Several _ => false end) ;; Ret tt
  | LList ls => _u <- mapM (fun il => t' <- (match nm_in m with One _ => Raise | Several ts => get_nth ts (fst il) end) ;;
                              t <- lookup String.eqb (br_out b) (snd il) ;; assert (teqb t' t) ;; Ret tt) (combine (seq 0 (length ls)) ls) ;; Ret tt
  end.
(** __init__ 62-100 with BranchingModule.__init__, whose register_buffer refuses dots
    (branching_module.py:161), and MergeModule.__init__ merge_module.py:38-73. The second
    component is the caller's list [modules] afterwards: merge_module.py:46 changes it. *)
Definition mk_multiple (ft : list A) (labels : list string) (mods : list (netmod * labarg)) (reshuffle : nat) : res (multiple * list (netmod * labarg)) :=
  let ml := flat_map (fun m => labs (snd m)) mods in
  assert (forallb (fun l => smem l labels) ml && forallb (fun l => smem l ml) labels) ;;
  b <- mk_branching size String.eqb lleb ft labels reshuffle ;;
  assert (forallb (fun l => negb (has_dot l)) labels) ;;
  _u <- mapM (fun m => check_labels b (fst m) (snd m)) mods ;;
  out <- mk_type (flat_map (fun m => nm_out (fst m)) mods) ;;
  Ret ({| mu_in := ft; mu_branching := b; mu_mods := map (fun m => (fst m, labs (snd m))) mods; mu_out := out |},
       map (fun m => (fst m, LList (labs (snd m)))) mods).

(** MergeModule.forward merge_module.py:75-112 and evaluate_output_shape 114-132; shapes are
    passed by keyword, and `self` is taken *)
Definition merge_forward (mods : list (netmod * list string)) (out : list A) (subs : list (string * tensor A)) : res (tensor A) :=
  assert (negb (smem "self" (map fst subs))) ;;
  shapes <- mapM (fun m => args <- mapM (lookup String.eqb subs) (snd m) ;; nm_shape (fst m) (map (fun t : tensor A => shape (snd t)) args)) mods ;;
  match shapes with
  | [] => Raise
  | s0 :: ss =>
      assert (forallb (fun s => Nat.eqb (nth 0 s0 0) (nth 0 s 0) && shape_eqb (skipn 2 s0) (skipn 2 s)) ss) ;;
      parts <- mapM (fun m => args <- mapM (lookup String.eqb subs) (snd m) ;; y <- nm_run (fst m) args ;;
                 assert (shape_eqb (shape (snd y)) (nth 0 s0 0 :: type_size size (nm_out (fst m)) :: skipn 2 s0)) ;; Ret y) mods ;;
      assert (Nat.eqb (list_sum (map (fun s => nth 1 s 0) shapes)) (type_size size out)) ;;
      Ret (out, of_chans s0 (flat_map tchans parts))
  end.
(** forward 102-120 with BranchingModule.forward *)
Definition multiple_forward (mu : multiple) (x : tensor A) : res (tensor A) :=
  assert (teqb (fst x) (mu_in mu)) ;;
  subs <- mapM (fun l => t <- on_chans (fun u => branch size String.eqb teqb (mu_branching mu) u l) x ;; Ret (l, t)) (br_labels (mu_branching mu)) ;;
  merge_forward (mu_mods mu) (mu_out mu) subs.
End Net.
Arguments netmod : clear implicits.
Arguments multiple : clear implicits.
Arguments intype : clear implicits.
