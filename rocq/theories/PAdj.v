(** C93: kernel bases with an adjoint. *)
From Coq Require Import Reals List ZArith Arith.
From Verif Require Import LibRes LibMat FinGroupModel ParamModel PlanarModel SpecPlanar IrrepModel SpecRep SpecIrrep RepModel SpecRepr
  KernelModel SpecKernel PolarModel SpecPolar KernelPlanar KernelEx AdjModel SpecAdj AdjThms.
Import ListNotations.
Open Scope R_scope.

Theorem C93_value : forall (linv : nat -> mat -> res mat) (sid : psgid) (L : nat) (radii sigma : list R) (flt : option (rattr * list Z -> bool)) (axis : R) (n : nat) (A : mat) 
  (rin rout : repr pval) (b : plane_basis),
  adjoint_kernels linv sid L radii sigma flt axis (Some (n, A)) rin rout = Ret (Some b) ->
  sharp 2 A ->
  n = 2%nat /\
  (exists b0 : plane_basis,
  adjoint_kernels linv sid L radii sigma flt axis None rin rout = Ret (Some b0) /\
  (forall (x : point) (idx : nat), pb_sample b x idx = pb_sample b0 (move A x) idx) /\ (forall idx : nat, pb_get b idx = pb_get b0 idx)).
Proof. exact @adj_value. Qed.
Print Assumptions C93_value.
Theorem C93_steerable : forall (linv : nat -> mat -> res mat) (sid : psgid) (sg : psubgroup) (L : nat) (radii sigma : list R) (flt : option (rattr * list Z -> bool)) (axis : R) (A : mat)
  (rin rout : repr pval),
  correct_inverse linv ->
  pdocumented O2 sid ->
  p_subgroup O2 sid = Ret sg ->
  rotations (ps_group sg) ->
  (forall (j n : nat) (Q : mat) (ids : list (list Z)), (j <= L)%nat -> p_restrict_irrep O2 (ar_id circular j) sid = Ret (n, Q, ids) -> sharp n Q) ->
  (exists p : gprofile, mk_profile radii sigma = Ret p) ->
  sharp 2 (rot2 axis) ->
  planar_repr (ps_group sg) rin ->
  planar_repr (ps_group sg) rout ->
  sharp (r_size rin) (r_inv rin) ->
  sharp (r_size rout) (r_cob rout) ->
  orthogonal 2 A ->
  sharp 2 A ->
  exists (o : option plane_basis) (act : repr pval),
  adjoint_kernels linv sid L radii sigma flt axis (Some (2%nat, A)) rin rout = Ret o /\
  circ_action linv axis = Ret act /\
  (forall b : plane_basis,
  o = Some b ->
  pb_sub b = sg /\
  (forall idx : nat,
  (idx < sk_dim (pb_kernels b))%nat ->
  steerable_kernel (pmember (ps_group sg)) (fun h : pval => g <- ps_incl sg h;; Ret (seen_through A (act_of act g))) (r_size rout) (r_size rin) (r_fun rout) 
  (r_fun rin) (fun x : point => pb_sample b x idx)) /\ (flt = None -> index_agrees (sk_dim (pb_kernels b)) (pb_get b) (pb_iter b))).
Proof. exact @adj_steerable. Qed.
Print Assumptions C93_steerable.
Theorem C93_axis : forall (linv : nat -> mat -> res mat) (sid : psgid) (L : nat) (radii sigma : list R) (flt : option (rattr * list Z -> bool)) (a : R) (rin rout : repr pval) (b : plane_basis),
  sharp 2 (rot2 (- a)) ->
  adjoint_kernels linv sid L radii sigma flt a None rin rout = Ret (Some b) ->
  exists b' : plane_basis,
  adjoint_kernels linv sid L radii sigma flt 0 (Some (2%nat, rot2 (- a))) rin rout = Ret (Some b') /\
  sk_dim (pb_kernels b') = sk_dim (pb_kernels b) /\ (forall (x : point) (idx : nat), pb_sample b' x idx = pb_sample b x idx).
Proof. exact @adj_axis. Qed.
Print Assumptions C93_axis.
Theorem C93_close_ignored : forall (linv : nat -> mat -> res mat) (sid : psgid) (L : nat) (radii sigma : list R) (flt : option (rattr * list Z -> bool)) (axis : R) (A : mat) (rin rout : repr pval),
  allclose 2 2 A mid = true -> adjoint_kernels linv sid L radii sigma flt axis (Some (2%nat, A)) rin rout = adjoint_kernels linv sid L radii sigma flt axis None rin rout.
Proof. exact @adj_close. Qed.
Print Assumptions C93_close_ignored.
Theorem C93_refused : forall (linv : nat -> mat -> res mat) (sid : psgid) (L : nat) (radii sigma : list R) (flt : option (rattr * list Z -> bool)) (axis : R) (n : nat) (A : mat) 
  (rin rout : repr pval) (b : plane_basis),
  adjoint_kernels linv sid L radii sigma flt axis (Some (n, A)) rin rout = Ret (Some b) ->
  n = 2%nat /\
  (allclose 2 2 A mid = true \/
  (forall i j : nat,
  (i < 2)%nat ->
  (j < 2)%nat -> Rabs (mmul 2 A (mtr A) i j - mid i j) <= / 10 ^ 8 + / 10 ^ 5 * Rabs (mid i j) /\ Rabs (mmul 2 (mtr A) A i j - mid i j) <= / 10 ^ 8 + / 10 ^ 5 * Rabs (mid i j))).
Proof. exact @adj_refused. Qed.
Print Assumptions C93_refused.
Theorem C93_hash_refuted : forall (B : Type) (same : B -> B -> bool) (hash : B -> Z) (b : B) (n : nat) (A : mat) (oid oid' : Z),
  same b b = true -> oid <> oid' -> adj_eq same n b b A A = true /\ adj_hash hash oid b <> adj_hash hash oid' b.
Proof. exact @adj_hash_differs. Qed.
Print Assumptions C93_hash_refuted.

(** A quarter turn, and the kernels from scalars to vectors seen through it *)
Example C93_ex : orthogonal 2 (rot2 (- (PI / 2))) /\ sharp 2 (rot2 (- (PI / 2))) /\ allclose 2 2 (rot2 (- (PI / 2))) mid = false.
Proof. exact quarter. Qed.
Example C93_basis_ex : forall linv rin rout, correct_inverse linv -> so2_trivial = Ret rin -> so2_standard = Ret rout ->
  exists b, adjoint_kernels linv (IO2 None (-1)) 1 [1; 2] [1; 1] None 0 (Some (2%nat, rot2 (- (PI / 2)))) rin rout = Ret (Some b) /\ pb_adj b <> None /\ sk_dim (pb_kernels b) = 4%nat.
Proof. exact quarter_basis. Qed.
