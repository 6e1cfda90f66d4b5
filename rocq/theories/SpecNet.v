(** Maps of feature fields that commute with a group element. *)
From Coq Require Import Reals List.
From Verif Require Import LibRes LibMat FieldModel RepModel GridModel SpecGrid SpecBlocks RdConvModel NetModel.
Import ListNotations.

Section Spec.
Context {A T : Type}.
Variables (rep : A -> repr T) (half : R -> R) (affine : array R -> mat -> nat -> res (array R)) (base : T -> res (nat * mat)) (g : T).

(** GeometricTensor.transform: the tensor transformed by [g], with its type *)
Definition moved_by (x : tensor A) : res (tensor A) := y <- field_transform rep half affine base (fst x) g (snd x) ;; Ret (fst x, y).

(** the same type and the same entries *)
Definition same_tensor (x y : tensor A) : Prop := fst x = fst y /\ same_array (snd x) (snd y).
Definition same_tensors (a b : res (tensor A)) : Prop :=
  match a, b with Raise, Raise => True | Ret x, Ret y => same_tensor x y | _, _ => False end.

(** batch :: channels :: n spatial axes, with the channels of the type *)
Definition shaped (n : nat) (x : tensor A) : Prop := exists B ws, shape (snd x) = B :: type_size (asize rep) (fst x) :: ws /\ length ws = n.

(** [y] has the fields [sel] of [x], in this order *)
Definition chooses (sel : list nat) (x y : tensor A) : Prop :=
  map (nth_error (fst x)) sel = map Some (fst y) /\
  (exists B ws, shape (snd x) = B :: type_size (asize rep) (fst x) :: ws /\ shape (snd y) = B :: type_size (asize rep) (fst y) :: ws) /\
  forall i s a o b p, nth_error sel i = Some s -> nth_error (fst y) i = Some a -> (o < (asize rep) a)%nat ->
    entry (snd y) (b :: (field_start (asize rep) (fst y) i + o)%nat :: p) = entry (snd x) (b :: (field_start (asize rep) (fst x) s + o)%nat :: p).
(** [y] has the fields of the [parts], one part after the other *)
Definition joins (parts : list (tensor A)) (y : tensor A) : Prop :=
  fst y = flat_map fst parts /\
  (exists B ws, shape (snd y) = B :: type_size (asize rep) (fst y) :: ws /\ Forall (fun q => shape (snd q) = B :: type_size (asize rep) (fst q) :: ws) parts) /\
  forall pre q post k b p, parts = pre ++ q :: post -> (k < type_size (asize rep) (fst q))%nat ->
    entry (snd y) (b :: (type_size (asize rep) (flat_map fst pre) + k)%nat :: p) = entry (snd q) (b :: k :: p).

(** To apply [F] and then [g] is to apply [g] and then [F]. *)
Definition commutes (F : tensor A -> res (tensor A)) (x : tensor A) : Prop := forall y, F x = Ret y ->
  exists x' y' z, moved_by x = Ret x' /\ F x' = Ret y' /\ moved_by y = Ret z /\ same_tensor y' z.
Definition commutes_all (F : list (tensor A) -> res (tensor A)) (xs : list (tensor A)) : Prop := forall y, F xs = Ret y ->
  exists xs' y' z, mapM moved_by xs = Ret xs' /\ F xs' = Ret y' /\ moved_by y = Ret z /\ same_tensor y' z.

(** [F] sees nothing but types and entries. *)
Definition steady (n : nat) (F : tensor A -> res (tensor A)) : Prop := forall x x', shaped n x -> same_tensor x x' -> same_tensors (F x) (F x').
Definition steady_all (n : nat) (F : list (tensor A) -> res (tensor A)) : Prop := forall xs xs', Forall (shaped n) xs -> Forall2 same_tensor xs xs' -> same_tensors (F xs) (F xs').

(** A module sees nothing but types and entries, gives tensors of its type, and tells their shape. *)
Definition reliable (n : nat) (m : netmod A) : Prop := steady_all n (nm_run m) /\
  forall xs y, Forall (shaped n) xs -> nm_run m xs = Ret y -> fst y = nm_out m /\ shaped n y /\ nm_shape m (map (fun t : tensor A => shape (snd t)) xs) = Ret (shape (snd y)).

(** Every representation has a matrix of its size at [g]. *)
Definition defined_at (ft : list A) : Prop := Forall (fun a => exists Z, r_fun (rep a) g = Ret (asize rep a, Z)) ft.
End Spec.

(** Every module of the list has the property at the input it gets when [x] passes through the list. *)
Fixpoint throughout {M X : Type} (run : M -> X -> res X) (P : M -> X -> Prop) (l : list M) (x : X) : Prop :=
  match l with [] => True | m :: l' => P m x /\ forall y, run m x = Ret y -> throughout run P l' y end.
