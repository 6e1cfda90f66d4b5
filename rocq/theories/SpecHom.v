(** Fields on a homogeneous space and bases of them, said without the model. *)
From Coq Require Import Reals ZArith List.
From Verif Require Import LibRes LibMat RepModel SpecRepr FinGroupModel PlanarModel GSpaceModel FieldMapModel.
Import ListNotations.
Open Scope R_scope.

(** The rows of [f] are functions on G with values in the space of [psi] that obey
    f(g h) = f(g) psi(h) for h in H (the transpose of f(g h) = psi(h^-1) f(g)), and
    together they transform like [rho] under G. *)
Definition mackey_field {T S} (mem : T -> Prop) (op : T -> T -> res T) (memH : S -> Prop) (incl : S -> res T)
    (rho : girrep T) (psi : girrep S) (f : T -> mat) : Prop :=
  (forall a g ag A, mem a -> mem g -> op a g = Ret ag -> gi_rep rho a = Ret (gi_size rho, A) ->
     meq (gi_size rho) (gi_size psi) (f ag) (mmul (gi_size rho) A (f g))) /\
  (forall h k g gk P, memH h -> incl h = Ret k -> mem g -> op g k = Ret gk -> gi_rep psi h = Ret (gi_size psi, P) ->
     meq (gi_size rho) (gi_size psi) (f gk) (mmul (gi_size psi) (f g) P)).

(** The product of the p-th columns of two matrices with [d] rows. *)
Definition column_product (d p : nat) (X Y : mat) : R := sumn d (fun o => X o p * Y o p).

(** The sum of the matrices E_k B_m with coefficients [c m k]. *)
Definition combination (d : nat) (Es Bs : list mat) (c : nat -> nat -> R) : mat := fun a b =>
  sumn (length Bs) (fun m => sumn (length Es) (fun k =>
    c m k * sumn d (fun i => nth k Es mzero a i * nth m Bs mzero i b))).

(** An irrep of H that occurs in the restriction [r] is [psi] or shares nothing with it. *)
Definition told_apart {S} (memH : S -> Prop) (irrH : list Z -> res (girrep S)) (psi : girrep S) (r : repr S) : Prop :=
  forall id s, In id (r_irreps r) -> irrH id = Ret s -> id <> gi_id psi ->
    forall X, (forall h A B, memH h -> gi_rep s h = Ret (gi_size s, A) -> gi_rep psi h = Ret (gi_size psi, B) ->
                 meq (gi_size s) (gi_size psi) (mmul (gi_size s) A X) (mmul (gi_size psi) X B)) ->
      meq (gi_size s) (gi_size psi) X mzero.

(** For each p the p-th columns of the matrices E_k B_m are orthonormal. *)
Definition orthonormal_columns (d s : nat) (Es Bs : list mat) : Prop :=
  forall m k m' k' p, (m < length Bs)%nat -> (k < length Es)%nat -> (m' < length Bs)%nat -> (k' < length Es)%nat -> (p < s)%nat ->
    column_product d p (fun a b => sumn d (fun i => nth k Es mzero a i * nth m Bs mzero i b))
                       (fun a b => sumn d (fun i => nth k' Es mzero a i * nth m' Bs mzero i b))
    = if Nat.eqb m m' then if Nat.eqb k k' then 1 else 0 else 0.

(** The functions [F], lists of matrices, are a basis of the [psi]-valued functions
    on G that transform like [rho], over the numbers that the commutant of [rho] is. *)
Definition basis_of_fields {T S} (mem : T -> Prop) (op : T -> T -> res T) (memH : S -> Prop) (incl : S -> res T)
    (rho : girrep T) (psi : girrep S) (n : nat) (F : T -> list mat) : Prop :=
  (forall g, mem g -> length (F g) = n) /\
  (forall m, (m < n)%nat -> mackey_field mem op memH incl rho psi (fun g => nth m (F g) mzero)) /\
  (forall g, mem g -> orthonormal_columns (gi_size rho) (gi_size psi) (gi_endo rho) (F g)) /\
  (forall f, mackey_field mem op memH incl rho psi f -> exists c, forall g, mem g ->
     meq (gi_size rho) (gi_size psi) (f g) (combination (gi_size rho) (gi_endo rho) (F g) c)).

(** The subgroup called [sid] has no reflections, or one of them is along the x-axis. *)
Definition untilted (sid : sub_id) : Prop :=
  match sid with IdF (IdD (Some a) _) => a = 0%Z | IdP (IO2 (Some a) _) => a = 0 | _ => True end.

(** The change of basis with which the irrep [id] is restricted is the identity or
    far enough from it that `np.allclose` sees the difference. *)
Definition sharp_at (G : pgrp) (sid : sub_id) (id : list Z) : Prop :=
  forall x, any_restrict_irrep G sid id = Ret x -> sharp (fst (fst x)) (snd (fst x)).
