(** C84: steerable networks on the plane, from their layers to their output. *)
From Coq Require Import String.
From Coq Require Import Reals ZArith Lia Lra Bool List Arith Permutation.
From Verif Require Import LibRes LibMat FieldModel NonlinModel PoolModel PlanarModel SpecPlanar RepModel SpecRepr KernelModel PolarModel BlocksModel
  GridModel SpecGrid ImageModel SPoolModel RdConvModel SpecRdConv RdConvEx SeqModel NetModel SpecNet CnnModel SpecCnn CnnProofs CnnThms CnnEx.
Import ListNotations.
Open Scope R_scope.

(** No layer sees anything but types and entries. *)
Theorem C84_steady : forall (A : Type) (rep : A -> repr pval) (name : A -> string) (aeqb : A -> A -> bool) (l : @layer A (sattr hattr)), steady rep 2 (layer_run rep name aeqb l).
Proof. exact @layer_steady. Qed.
Print Assumptions C84_steady.

(** The outputs of the layers have the sizes of their types, and fields of the group. *)
Theorem C84_outputs : forall (A : Type) (rep : A -> repr pval) (name : A -> string) (aeqb : A -> A -> bool) (order : list A -> list A) (sort : list (string * string) -> list (string * string)),
  (forall a b : A, aeqb a b = true <-> a = b) ->
  forall (supported : A -> list nonlin) (N : Z) (sg : psubgroup) (linv : nat -> mat -> res mat),
  (0 < N)%Z \/ N = (-1)%Z ->
  p_subgroup O2 (IO2 None N) = Ret sg ->
  forall (l : layer) (x y : tensor A),
  ready rep name aeqb order sort supported linv N (ps_group sg) l x ->
  shaped rep 2 x ->
  Forall (fun a : A => planar_repr (ps_group sg) (rep a)) (fst x) ->
  layer_run rep name aeqb l x = Ret y -> shaped rep 2 y /\ Forall (fun a : A => planar_repr (ps_group sg) (rep a)) (fst y).
Proof. exact @layer_keeps. Qed.
Print Assumptions C84_outputs.

(** A single layer commutes with the elements that act on the grid. *)
Theorem C84_layer : forall (A : Type) (rep : A -> repr pval) (name : A -> string) (aeqb : A -> A -> bool) (order : list A -> list A) (sort : list (string * string) -> list (string * string)),
  (forall a b : A, aeqb a b = true <-> a = b) ->
  (forall l : list A, Permutation (order l) l) ->
  (forall l : list (string * string), Permutation (sort l) l) ->
  forall (supported : A -> list nonlin) (N : Z) (sg : psubgroup) (linv : nat -> mat -> res mat),
  (0 < N)%Z \/ N = (-1)%Z ->
  p_subgroup O2 (IO2 None N) = Ret sg ->
  correct_inverse linv ->
  forall (half : R -> R) (affine : array R -> mat -> nat -> res (array R)) (base : repr pval) (h : pval) (M : mat),
  half 0 = 0 ->
  half 1 = 1 ->
  half (-1) = -1 ->
  r2_action linv (IO2 None N) sg = Ret base ->
  pmember (ps_group sg) h ->
  r_fun base h = Ret (2%nat, M) ->
  signed_perm 2 M ->
  forall (l : layer) (x : tensor A),
  ready rep name aeqb order sort supported linv N (ps_group sg) l x ->
  shaped rep 2 x -> Forall (fun a : A => planar_repr (ps_group sg) (rep a)) (fst x) -> commutes rep half affine (r_fun base) h (layer_run rep name aeqb l) x.
Proof. exact @layer_commutes. Qed.
Print Assumptions C84_layer.

(** A network of any length commutes with them. *)
Theorem C84_network : forall (A : Type) (rep : A -> repr pval) (name : A -> string) (aeqb : A -> A -> bool) (order : list A -> list A) (sort : list (string * string) -> list (string * string)),
  (forall a b : A, aeqb a b = true <-> a = b) ->
  (forall l : list A, Permutation (order l) l) ->
  (forall l : list (string * string), Permutation (sort l) l) ->
  forall (supported : A -> list nonlin) (N : Z) (sg : psubgroup) (linv : nat -> mat -> res mat),
  (0 < N)%Z \/ N = (-1)%Z ->
  p_subgroup O2 (IO2 None N) = Ret sg ->
  correct_inverse linv ->
  forall (half : R -> R) (affine : array R -> mat -> nat -> res (array R)) (base : repr pval) (h : pval) (M : mat),
  half 0 = 0 ->
  half 1 = 1 ->
  half (-1) = -1 ->
  r2_action linv (IO2 None N) sg = Ret base ->
  pmember (ps_group sg) h ->
  r_fun base h = Ret (2%nat, M) ->
  signed_perm 2 M ->
  forall (s : seq_state layer (list A)) (x : tensor A),
  shaped rep 2 x ->
  Forall (fun a : A => planar_repr (ps_group sg) (rep a)) (fst x) ->
  throughout (layer_run rep name aeqb) (ready rep name aeqb order sort supported linv N (ps_group sg)) (map snd (s_mods s)) x ->
  commutes rep half affine (r_fun base) h (forward (layer_run rep name aeqb) fst (same_type aeqb) s) x.
Proof. exact @network_equivariant. Qed.
Print Assumptions C84_network.

(** If the output is one pixel of scalars, it does not change. *)
Theorem C84_invariant : forall (A : Type) (rep : A -> repr pval) (name : A -> string) (aeqb : A -> A -> bool) (order : list A -> list A) (sort : list (string * string) -> list (string * string)),
  (forall a b : A, aeqb a b = true <-> a = b) ->
  (forall l : list A, Permutation (order l) l) ->
  (forall l : list (string * string), Permutation (sort l) l) ->
  forall (supported : A -> list nonlin) (N : Z) (sg : psubgroup) (linv : nat -> mat -> res mat),
  (0 < N)%Z \/ N = (-1)%Z ->
  p_subgroup O2 (IO2 None N) = Ret sg ->
  correct_inverse linv ->
  forall (half : R -> R) (affine : array R -> mat -> nat -> res (array R)) (base : repr pval) (h : pval) (M : mat),
  half 0 = 0 ->
  half 1 = 1 ->
  half (-1) = -1 ->
  r2_action linv (IO2 None N) sg = Ret base ->
  pmember (ps_group sg) h ->
  r_fun base h = Ret (2%nat, M) ->
  signed_perm 2 M ->
  forall (s : seq_state layer (list A)) (x y : tensor A) (B : nat),
  shaped rep 2 x ->
  Forall (fun a : A => planar_repr (ps_group sg) (rep a)) (fst x) ->
  throughout (layer_run rep name aeqb) (ready rep name aeqb order sort supported linv N (ps_group sg)) (map snd (s_mods s)) x ->
  forward (layer_run rep name aeqb) fst (same_type aeqb) s x = Ret y ->
  Forall (fun a : A => scalar_repr (ps_group sg) (rep a)) (fst y) ->
  shape (snd y) = [B; type_size (asize rep) (fst y); 1%nat; 1%nat] ->
  exists x' y' : tensor A, moved_by rep half affine (r_fun base) h x = Ret x' /\ forward (layer_run rep name aeqb) fst (same_type aeqb) s x' = Ret y' /\ same_tensor y' y.
Proof. exact @network_invariant. Qed.
Print Assumptions C84_invariant.

(** The elements of C_1, C_2 and C_4 all act on the grid: the network commutes with the whole group. *)
Theorem C84_whole_group : forall (A : Type) (rep : A -> repr pval) (name : A -> string) (aeqb : A -> A -> bool) (order : list A -> list A) (sort : list (string * string) -> list (string * string)),
  (forall a b : A, aeqb a b = true <-> a = b) ->
  (forall l : list A, Permutation (order l) l) ->
  (forall l : list (string * string), Permutation (sort l) l) ->
  forall (supported : A -> list nonlin) (N : Z) (sg : psubgroup) (linv : nat -> mat -> res mat),
  (0 < N)%Z \/ N = (-1)%Z ->
  p_subgroup O2 (IO2 None N) = Ret sg ->
  correct_inverse linv ->
  N = 1%Z \/ N = 2%Z \/ N = 4%Z ->
  exists base : repr pval,
  r2_action linv (IO2 None N) sg = Ret base /\
  (forall (half : R -> R) (affine : array R -> mat -> nat -> res (array R)) (h : pval) (s : seq_state layer (list A)) (x : tensor A),
  half 0 = 0 ->
  half 1 = 1 ->
  half (-1) = -1 ->
  pmember (ps_group sg) h ->
  shaped rep 2 x ->
  Forall (fun a : A => planar_repr (ps_group sg) (rep a)) (fst x) ->
  throughout (layer_run rep name aeqb) (ready rep name aeqb order sort supported linv N (ps_group sg)) (map snd (s_mods s)) x ->
  commutes rep half affine (r_fun base) h (forward (layer_run rep name aeqb) fst (same_type aeqb) s) x).
Proof. exact @network_whole_group. Qed.
Print Assumptions C84_whole_group.

(** Norm nonlinearity, convolution, pointwise nonlinearity, max pooling, average pooling and
    group pooling: pictures of 5 x 5 pixels give invariants. *)
Example C84_ex : forall linv, correct_inverse linv -> exists c m1 m2 m3,
  mk_r2conv field label Bool.eqb (fun l => l) (fun l => l) linv (IO2 None 4) 1 [0; 1] [1; 1] ins outs 3 1 PadCircular 1 1 1 true None = Ret c /\
  normed = Ret m1 /\ rectified = Ret m2 /\ pooled = Ret m3 /\
  forall w b lb x, length w = bb_dim (rc_expansion c) -> length lb = 2%nat -> shape x = [2; 3; 5; 5]%nat ->
  from_args layer_in layer_out (same_type Bool.eqb) (fun _ => false) (net c m1 m2 m3 w b lb) = Ret (wrap (net c m1 m2 m3 w b lb)) /\
  throughout (layer_run field label Bool.eqb) (ready field label Bool.eqb (fun l => l) (fun l => l) all_kinds linv 4 (ps_group c4)) (net c m1 m2 m3 w b lb) (ins, x) /\
  exists y, forward (layer_run field label Bool.eqb) fst (same_type Bool.eqb) (wrap (net c m1 m2 m3 w b lb)) (ins, x) = Ret (outs, y) /\ shape y = [2; 2; 1; 1]%nat /\
    Forall (fun a => scalar_repr (ps_group c4) (field a)) outs /\ (exists base, r2_action linv (IO2 None 4) c4 = Ret base /\
    forall half affine h, half 0 = 0 -> half 1 = 1 -> half (-1) = -1 -> pmember (ps_group c4) h ->
      commutes field half affine (r_fun base) h (forward (layer_run field label Bool.eqb) fst (same_type Bool.eqb) (wrap (net c m1 m2 m3 w b lb))) (ins, x)).
Proof.
  intros linv Hinv. destruct (layer_built linv Hinv) as (c & Ec). destruct parts as (m1 & m2 & m3 & E1 & E2 & E3). exists c, m1, m2, m3. do 4 (split; [assumption|]).
  intros w b lb x Lw Ll Sx. destruct (net_ready linv Hinv c m1 m2 m3 w b lb x Ec E1 E2 E3 Lw Ll Sx) as (Q1 & Q2 & y & Ey & Sy). split; [exact Q1|]. split; [exact Q2|].
  exists y. split; [exact Ey|]. split; [exact Sy|]. split; [repeat constructor; apply field_scalar|].
  destruct (C84_whole_group _ field label Bool.eqb (fun l => l) (fun l => l) eqb_true_iff (fun l => Permutation_refl l) (fun l => Permutation_refl l) all_kinds 4 c4 linv (or_introl eq_refl) eq_refl Hinv
    ltac:(lia)) as (base & Eb & H). exists base. split; [exact Eb|]. intros half affine h H0 H1 Hm Mh. apply H; auto.
  - exists 2%nat, [5; 5]%nat. split; [exact Sx|reflexivity].
  - apply all_planar.
Qed.
