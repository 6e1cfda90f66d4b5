(** What the layers of a network on the plane are given. *)
From Coq Require Import String.
From Coq Require Import Reals ZArith List.
From Verif Require Import LibRes LibMat FieldModel PlanarModel SpecPlanar RepModel SpecRepr NonlinModel SpecPool PoolModel PolarModel KernelModel BlocksModel
  GridModel SpecGrid ImageModel SPoolModel SpecSPool RdConvModel SpecRdConv NetModel CnnModel.
Import ListNotations.

(** representations by orthogonal matrices, by permutations, and by the number 1 *)
Definition orthogonal_repr (G : pgrp) (r : repr pval) : Prop := forall h B, pmember G h -> r_fun r h = Ret (r_size r, B) -> orthogonal (r_size r) B.
Definition permutation_repr (G : pgrp) (r : repr pval) : Prop := forall h B, pmember G h -> r_fun r h = Ret (r_size r, B) -> SpecPool.permutes (r_size r) B.
Definition scalar_repr (G : pgrp) (r : repr pval) : Prop := r_size r = 1%nat /\ forall h B, pmember G h -> r_fun r h = Ret (r_size r, B) -> B 0%nat 0%nat = 1%R.

Section Ready.
Context {A : Type}.
Variables (rep : A -> repr pval) (name : A -> string) (aeqb : A -> A -> bool) (order : list A -> list A)
  (sort : list (string * string) -> list (string * string)) (supported : A -> list nonlin) (linv : nat -> mat -> res mat) (N : Z) (G : pgrp).
Notation size := (asize rep).
(** The layer was built for inputs like [x]: with the type of [x], and the strides and the windows
    fit its sides. *)
Definition ready (l : @layer A (sattr hattr)) (x : tensor A) : Prop :=
  let ft := fst x in
  let ws := skipn 2 (shape (snd x)) in
  match l with
  | LConv c w b => exists L radii sigma outs k p mode stride dil groups bias bf,
      mk_r2conv rep name aeqb order sort linv (IO2 None N) L radii sigma ft outs k p mode stride dil groups bias bf = Ret c /\
      (exists pr, mk_profile radii sigma = Ret pr) /\ length w = bb_dim (rc_expansion c) /\ SpecRdConv.fits k p stride dil ws /\
      told_apart name ft /\ told_apart name outs /\
      Forall (fun a => sharp (r_size (rep a)) (r_inv (rep a))) ft /\
      Forall (fun a => planar_repr G (rep a) /\ sharp (r_size (rep a)) (r_cob (rep a))) outs
  | LNorm m lb junk => (exists f bias, mk_norm size supported ft f bias = Ret m) /\ length lb = length ft /\ length junk = type_size size ft /\
      Forall (fun a => orthogonal_repr G (rep a)) ft
  | LPoint m => (exists f, mk_pointwise supported ft f = Ret m) /\ Forall (fun a => permutation_repr G (rep a)) ft
  | LGroupPool m triv junk => mk_pool size supported true ft = Ret m /\ length junk = length ft /\ Forall (fun a => permutation_repr G (rep a)) ft /\
      planar_repr G (rep triv) /\ scalar_repr G (rep triv)
  | LAvg ft' k s p ceil => ft' = ft /\ Forall (SpecSPool.fits k (match s with Some s => s | None => k end) p 1) ws
  | LMax ft' l => ft' = ft /\ Forall (SpecSPool.fits (m_kernel l) (m_stride l) (m_padding l) (m_dilation l)) ws /\ Forall (fun a => permutation_repr G (rep a)) ft
  | LMask ft' mask => ft' = ft /\ exists s margin sigma, build_mask s 2 margin sigma = Ret mask /\ ws = repeat s 2
  end.
End Ready.
