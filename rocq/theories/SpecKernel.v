(** What it means for filters and kernels to be steerable, what the library
    promises about irreps, tensor products and Clebsch-Gordan coefficients, and
    what it means for indexing to agree with iterating. *)
From Coq Require Import Reals List ZArith.
From Verif Require Import LibRes LibMat IrrepModel SpecRep SpecIrrep RepModel SpecRepr KernelModel.
Import ListNotations.
Open Scope R_scope.

(** The irreps [ok] of a group, with the decomposition of their tensor products. *)
Record kernel_data {T} (mem : T -> Prop) (ok : list Z -> Prop) (irr : list Z -> res (girrep T))
    (tpi : list Z -> list Z -> res (list (list Z * nat)))
    (cg : list Z -> list Z -> list Z -> res arr4) : Prop := {
  kd_irr : forall j, ok j -> exists r, irr j = Ret r /\ (0 < gi_size r)%nat /\
    (0 < gi_sosc r)%nat /\ length (gi_endo r) = gi_sosc r /\
    forall g, mem g -> exists D, gi_rep r g = Ret (gi_size r, D) /\ orthogonal (gi_size r) D /\
      Forall (fun E => meq (gi_size r) (gi_size r) (mmul (gi_size r) E D) (mmul (gi_size r) D E)) (gi_endo r);
  kd_id : forall j r, ok j -> irr j = Ret r -> gi_id r = j;
  kd_tpi : forall m n, ok m -> ok n -> exists l, tpi m n = Ret l /\ NoDup (map fst l) /\
    Forall (fun p => ok (fst p) /\ (0 < snd p)%nat) l;
  kd_cg : forall m n l j c rm rn rj, ok m -> ok n -> tpi m n = Ret l -> In (j, c) l ->
    irr m = Ret rm -> irr n = Ret rn -> irr j = Ret rj ->
    exists C, cg n m j = Ret C /\ a_d0 C = gi_size rn /\ a_d1 C = gi_size rm /\ a_d2 C = c /\ a_d3 C = gi_size rj /\
      forall g A B D, mem g -> gi_rep rn g = Ret (gi_size rn, A) -> gi_rep rm g = Ret (gi_size rm, B) ->
        gi_rep rj g = Ret (gi_size rj, D) -> cg_intertwines C A B D
}.

(** Every listed block of filters transforms with its irrep: Y_j(g x) = D_j(g) Y_j(x). *)
Definition steerable_filters {G P A} (mem : G -> Prop) (irr : list Z -> res (girrep G)) (act : G -> P -> P)
    (F : filters P A) : Prop :=
  forall j, In j (map fst (f_js F)) -> exists r, irr j = Ret r /\
    forall g x, mem g -> exists Y Y' D,
      harmonics irr F x j = Ret Y /\ harmonics irr F (act g x) j = Ret Y' /\ gi_rep r g = Ret (gi_size r, D) /\
      forall i o, (i < multiplicity F j)%nat -> (o < gi_size r)%nat ->
        Y' i o = sumn (gi_size r) (fun o' => D o o' * Y i o').

(** k(g x) = rho_out(g) k(x) rho_in(g)^-1; [act] may be undefined outside the group. *)
Definition steerable_kernel {T P} (mem : T -> Prop) (act : T -> res (P -> P)) (no ni : nat)
    (rho_out rho_in : T -> res (nat * mat)) (k : P -> res mat) : Prop :=
  forall g x, mem g -> exists f K K' A B Bi,
    act g = Ret f /\ k x = Ret K /\ k (f x) = Ret K' /\ rho_out g = Ret (no, A) /\ rho_in g = Ret (ni, B) /\
    inverse_of ni B Bi /\ meq no ni K' (mmul ni (mmul no A K) Bi).

(** The filter basis answers questions about single elements as it lists them. *)
Definition listed_attrs {P A} (F : filters P A) : Prop :=
  forall j, In j (map fst (f_js F)) -> exists l, f_attrs F j = Ret l /\ length l = multiplicity F j /\
    forall i, (i < multiplicity F j)%nat -> exists a, f_attr F j i = Ret a /\ nth_error l i = Some a.

(** basis[i] is the i-th element produced by iterating, for all i < len(basis). *)
Definition index_agrees {X} (dim : nat) (get : nat -> res X) (iter : res (list X)) : Prop :=
  exists l, iter = Ret l /\ length l = dim /\
    forall i, (i < dim)%nat -> exists a, get i = Ret a /\ nth_error l i = Some a.

(** The restriction of the irreps of a larger group along [incl]: the restricted
    representation is decomposed correctly into irreps [ok] of the subgroup. *)
Definition sound_restricted {G T} (memG : G -> Prop) (mem : T -> Prop) (ok : list Z -> Prop)
    (irrF : list Z -> res (girrep G)) (irr : list Z -> res (girrep T)) (incl : T -> res G)
    (restr : list Z -> res (repr T)) (j : list Z) : Prop :=
  exists s r, irrF j = Ret s /\ restr j = Ret r /\ r_size r = gi_size s /\ reproduces irr mem r /\
    Forall ok (r_irreps r) /\
    forall h, mem h -> exists g D D', incl h = Ret g /\ memG g /\ r_fun r h = Ret (r_size r, D') /\
      gi_rep s g = Ret (gi_size s, D) /\ meq (gi_size s) (gi_size s) D' D.
