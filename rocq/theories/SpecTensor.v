(** Tensor products of matrices and what the Clebsch-Gordan coefficients of a
    group promise, said without the model of the tensor product. *)
From Coq Require Import Reals ZArith List.
From Verif Require Import LibRes LibMat IrrepModel SpecIrrep RepModel SpecRepr.
Import ListNotations.
Open Scope R_scope.

(** [C] is the tensor product of the [n] x [n] matrix [A] and the [m] x [m] matrix [B] *)
Definition is_tensor (n m : nat) (A B C : mat) : Prop :=
  forall i j k l, (i < n)%nat -> (j < n)%nat -> (k < m)%nat -> (l < m)%nat ->
  C (i * m + k)%nat (j * m + l)%nat = A i j * B k l.

(** The summands [tensor m n] and the coefficients [cg m n j] decompose the tensor
    product of the irreps [m] and [n]. *)
Definition sound_pair {T} (irr : list Z -> res (girrep T)) (mem : T -> Prop) (ok : list Z -> Prop)
    (tensor : list Z -> list Z -> res (list (list Z * nat))) (cg : list Z -> list Z -> list Z -> res arr4) (m n : list Z) : Prop :=
  exists rm rn l, irr m = Ret rm /\ irr n = Ret rn /\ tensor m n = Ret l /\
  NoDup (map fst l) /\
  (forall j k, In (j, k) l -> (0 < k)%nat /\ ok j /\ exists r a, irr j = Ret r /\ gi_id r = j /\ cg m n j = Ret a /\
     (0 < gi_size r)%nat /\ a_d0 a = gi_size rm /\ a_d1 a = gi_size rn /\ a_d2 a = k /\ a_d3 a = gi_size r /\ cg_orthonormal a /\
     forall g A B D, mem g -> gi_rep rm g = Ret (gi_size rm, A) -> gi_rep rn g = Ret (gi_size rn, B) -> gi_rep r g = Ret (gi_size r, D) ->
       cg_intertwines a A B D) /\
  (forall j k j' k' a b, In (j, k) l -> In (j', k') l -> j <> j' -> cg m n j = Ret a -> cg m n j' = Ret b -> cg_separated a b) /\
  (exists ds, mapM (fun p => r <- irr (fst p) ;; Ret (gi_size r * snd p)%nat) l = Ret ds /\ list_sum ds = (gi_size rm * gi_size rn)%nat).
