(** Which irrep ids are documented, and what a correct restriction and a correct
    Clebsch-Gordan decomposition are. *)
From Coq Require Import Reals ZArith List.
From Verif Require Import LibRes LibMat FinGroupModel PlanarModel IrrepModel SpecPlanar SpecRep.
Import ListNotations.
Open Scope R_scope.

(** The group is one the constructors accept. *)
Definition pvalid (G : pgrp) : Prop := match G with Fin G => valid_grp G = true | _ => True end.

(** The ids the documentation lists: cyclicgroup.py:399-411, dihedralgroup.py:547-561,
    so2group.py:426-438, o2group.py:630-642. *)
Definition irrep_ok (G : pgrp) (id : list Z) : Prop :=
  match G, id with
  | Fin (Cyc N), [k] => (0 <= 2 * k <= N)%Z
  | Fin (Dih N), [j; k] => (0 <= 2 * k <= N)%Z /\ (j = 1 \/ (j = 0 /\ (k = 0 \/ 2 * k = N)))%Z
  | SO2, [k] => (0 <= k)%Z
  | O2, [j; k] => (0 <= k)%Z /\ (j = 1 \/ (j = 0 /\ k = 0))%Z
  | _, _ => False
  end.

(** The values of the listed irreps of [H] at [h]. *)
Definition blocks (H : pgrp) (ids : list (list Z)) (h : pval) : res (list (nat * mat)) :=
  mapM (fun id => r <- p_irrep H id ;; ir_rep r h) ids.

(** The inclusion of a finite subgroup, on elements of planar groups. *)
Definition fin_incl (sg : subgroup_data) (h : pval) : res pval :=
  match h with VF h => g <- sg_incl sg h ;; Ret (VF g) | _ => Raise end.

(** The decomposition [(cob, ids)] of the irrep [r] of the parent reproduces it
    on the subgroup [H] included by [incl]. *)
Definition restricts (H : pgrp) (incl : pval -> res pval) (r : irrep)
    (x : (nat * mat) * list (list Z)) : Prop :=
  Forall (irrep_ok H) (snd x) /\
  decomposes (pmember H) (ir_size r) (fun h => g <- incl h ;; ir_rep r g) (fst x) (blocks H (snd x)).

(** [a] has shape (p, q, s, d) and its entries, read as a (p*q) x (s*d) matrix,
    are orthonormal columns. *)
Definition cg_orthonormal (a : arr4) : Prop :=
  forall s i s' i', (s < a_d2 a)%nat -> (i < a_d3 a)%nat -> (s' < a_d2 a)%nat -> (i' < a_d3 a)%nat ->
    sumn (a_d0 a) (fun x => sumn (a_d1 a) (fun y => a_at a x y s i * a_at a x y s' i')) =
    (if Nat.eqb s s' && Nat.eqb i i' then 1 else 0)%bool.

(** For every slice [s] the coefficients commute with the action:
    (A (x) B) C_s = C_s D. *)
Definition cg_intertwines (a : arr4) (A B D : mat) : Prop :=
  forall x y s i, (x < a_d0 a)%nat -> (y < a_d1 a)%nat -> (s < a_d2 a)%nat -> (i < a_d3 a)%nat ->
    sumn (a_d0 a) (fun x' => sumn (a_d1 a) (fun y' => A x x' * B y y' * a_at a x' y' s i)) =
    sumn (a_d3 a) (fun i' => a_at a x y s i' * D i' i).

(** Columns of the coefficients for two different targets are orthogonal. *)
Definition cg_separated (a b : arr4) : Prop :=
  forall s i s' i', (s < a_d2 a)%nat -> (i < a_d3 a)%nat -> (s' < a_d2 b)%nat -> (i' < a_d3 b)%nat ->
    sumn (a_d0 a) (fun x => sumn (a_d1 a) (fun y => a_at a x y s i * a_at b x y s' i')) = 0.

(** How often [j] is listed by a tensor product. *)
Definition listed (j : Z) (l : list (list Z * nat)) : nat :=
  list_sum (map snd (filter (fun p => match fst p with [x] => (x =? j)%Z | _ => false end) l)).

(** The coefficients [cg] and the list of summands [tp] decompose every tensor
    product of two irreps of [G]. *)
Definition cg_correct (G : pgrp) (cg : Z -> Z -> Z -> res arr4) (tp : Z -> Z -> list (list Z * nat)) : Prop :=
  forall m n, irrep_ok G [m] -> irrep_ok G [n] -> exists rm rn,
    p_irrep G [m] = Ret rm /\ p_irrep G [n] = Ret rn /\
    (* every summand exists, is listed once, and the dimensions add up *)
    Forall (fun p => irrep_ok G (fst p) /\ (0 < snd p)%nat) (tp m n) /\ NoDup (map fst (tp m n)) /\
    (exists ds, mapM (fun p => r <- p_irrep G (fst p) ;; Ret (snd p * ir_size r)%nat) (tp m n) = Ret ds /\
                list_sum ds = (ir_size rm * ir_size rn)%nat) /\
    (* the columns for one target *)
    (forall j, irrep_ok G [j] -> exists rj a,
      p_irrep G [j] = Ret rj /\ cg m n j = Ret a /\
      a_d0 a = ir_size rm /\ a_d1 a = ir_size rn /\ a_d3 a = ir_size rj /\
      a_d2 a = listed j (tp m n) /\ cg_orthonormal a /\
      forall g, pmember G g -> exists A B D,
        ir_rep rm g = Ret (ir_size rm, A) /\ ir_rep rn g = Ret (ir_size rn, B) /\
        ir_rep rj g = Ret (ir_size rj, D) /\ cg_intertwines a A B D) /\
    (* the columns for two targets *)
    (forall j j' a b, j <> j' -> irrep_ok G [j] -> irrep_ok G [j'] ->
      cg m n j = Ret a -> cg m n j' = Ret b -> cg_separated a b).

(** The band limits the documentation allows. *)
Definition bl_range (G : pgrp) (L : Z) : Prop :=
  match G with Fin (Cyc N) | Fin (Dih N) => (0 <= 2 * L <= N)%Z | _ => (0 <= L)%Z end.
