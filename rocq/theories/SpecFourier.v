(** What the nonlinearities in the Fourier domain should do. *)
From Coq Require Import Reals List ZArith Arith Permutation.
From Verif Require Import LibRes LibMat SpecRep RepModel.
Import ListNotations.
Open Scope R_scope.

(** Left multiplication with [h] permutes the grid. *)
Definition left_permuted {T} (op : T -> T -> res T) (h : T) (grid : list T) : Prop :=
  exists l, mapM (op h) grid = Ret l /\ Permutation l grid.
(** The same for the cosets: every point is moved to a point of the grid times an
    element of the subgroup. *)
Definition left_permuted_mod {T S} (op : T -> T -> res T) (memH : S -> Prop) (incl : S -> res T) (h : T) (grid : list T) : Prop :=
  exists l l', mapM (op h) grid = Ret l /\ Permutation l' grid /\
    Forall2 (fun x y => exists c k, memH c /\ incl c = Ret k /\ op y k = Ret x) l l'.

(** The irrep [id] is a real orthogonal representation of positive size. *)
Definition usable_irrep {T} (irr : list Z -> res (girrep T)) (mem : T -> Prop) (op : T -> T -> res T) (inv : T -> res T) (e : T)
    (id : list Z) : Prop :=
  exists r, irr id = Ret r /\ irr (gi_id r) = Ret r /\ orth_rep mem op inv e (gi_size r) (gi_rep r) /\
    (0 < gi_size r)%nat /\ (0 < gi_sosc r)%nat.

(** The matrix of a representation at an element. *)
Definition at_element {T} (g : T) (r : repr T) : mat := match r_fun r g with Ret A => snd A | Raise => mzero end.

(** [z] is the minimum of sum_i (<b_i, z> - t_i)^2 + eps |z|^2, by its normal equations. *)
Definition ridge (eps : R) (n : nat) (pts : list (list R * R)) (z : list R) : Prop :=
  length z = n /\ forall i, (i < n)%nat ->
    fold_right Rplus 0 (map (fun p => nth i (fst p) 0 * sumn n (fun j => nth j (fst p) 0 * nth j z 0)) pts) + eps * nth i z 0 =
    fold_right Rplus 0 (map (fun p => nth i (fst p) 0 * snd p) pts).

(** [psi] is one dimensional and constantly 1. *)
Definition trivial_irrep {S} (memH : S -> Prop) (psi : girrep S) : Prop :=
  gi_size psi = 1%nat /\ forall c, memH c -> exists P, gi_rep psi c = Ret (1%nat, P) /\ P 0%nat 0%nat = 1.

(** The matrix of an irrep at an element, and the first [size / sosc] of its
    columns, each times sqrt(size): the matrix coefficients that form a basis of
    the functions on the group. *)
Definition irrep_at {T} (g : T) (r : girrep T) : mat := match gi_rep r g with Ret A => snd A | Raise => mzero end.
Definition coefficients {T} (rs : list (girrep T)) (g : T) : list R :=
  flat_map (fun r => flat_map (fun m => map (fun i => sqrt (INR (gi_size r)) * irrep_at g r i m) (seq 0 (gi_size r)))
                       (seq 0 (gi_size r / gi_sosc r))) rs.
(** Their number, which is also the squared norm of [coefficients rs g]. *)
Definition total_size {T} (rs : list (girrep T)) : nat := list_sum (map (fun r => gi_size r / gi_sosc r * gi_size r)%nat rs).
Definition coefficients_by {T} (normalize : bool) (rs : list (girrep T)) (g : T) : list R :=
  if normalize then map (fun a => a / sqrt (INR (total_size rs))) (coefficients rs g) else coefficients rs g.
Definition inner (u v : list R) : R := fold_right Rplus 0 (map (fun p => fst p * snd p) (combine u v)).
(** Restricted to the trivial subgroup the irrep is a sum of trivial ones. *)
Definition splits_fully {T S} (restrict : list Z -> res (repr S)) (psi : girrep S) (r : girrep T) : Prop :=
  exists d, restrict (gi_id r) = Ret d /\ r_irreps d = repeat (gi_id psi) (gi_size r).
