(** Model of the modules that restrict a field type to a subgroup and that disentangle
    its representations. Sources: /repo/escnn/nn/field_type.py:365-400,
    /repo/escnn/nn/modules/restriction_module.py, disentangle_module.py.
    A tensor is its type and an [array R] of shape batch :: channels :: spatial axes.
    [uniq] is the iteration order of the set `_unique_representations`.
    Left out: coordinates of point clouds. *)
From Coq Require Import String Ascii.
From Coq Require Import Reals ZArith Bool List Arith.
From Verif Require Import LibRes LibPy LibMat FieldModel GroupedModel NonlinModel PoolModel FinGroupModel PlanarModel IrrepModel RepModel GridModel ImageModel RdConvModel GSpaceModel.
Import ListNotations.
Local Open Scope nat_scope.

(** `sg == fibergroup` cyclicgroup.py:245-249, dihedralgroup.py:279-283, so2group.py:253-257, o2group.py:328-332 *)
Definition pgrp_eqb (G H : pgrp) : bool :=
  match G, H with
  | Fin (Cyc N), Fin (Cyc M) => (N =? M)%Z
  | Fin (Dih N), Fin (Dih M) => (N =? M)%Z
  | SO2, SO2 => true
  | O2, O2 => true
  | _, _ => false
  end.

(** `_restrict_irrep` cyclicgroup.py:321-363, dihedralgroup.py:384-472, so2group.py:316-361,
    o2group.py:427-519 *)
Definition any_restrict_irrep (G : pgrp) (id : sub_id) (i : list Z) : res (sqmat * list (list Z)) :=
  match G, id with
  | Fin G, IdF id => fin_restrict_irrep G i id
  | Fin _, IdP _ => Raise
  | _, IdP id => p_restrict_irrep G i id
  | _, IdF _ => Raise
  end.
(** Group.restrict_representation group.py:657-718 of the planar groups, with the group
    of the result *)
Definition any_restrict (linv : nat -> mat -> res mat) (G : pgrp) (id : sub_id) (r : repr pval) : res (pgrp * repr pval) :=
  sg <- any_subgroup G id ;;
  d <- restrict_representation (p_irr G) (p_irr (ps_group sg)) linv (any_restrict_irrep G id) r ;;
  Ret (ps_group sg, d).

Section Maps.
Context {A T : Type}.
Variable rep : A -> repr T.
Variable name : A -> string.
Variable teqb : list A -> list A -> bool.
Definition rsize (a : A) : nat := r_size (rep a).

(** a dictionary filled in a loop over the representations *)
Definition by_name {X} (f : A -> res X) (uniq : list A) : res (list (string * X)) :=
  fold_left (fun r a => d <- r ;; x <- f a ;; Ret (dset String.eqb d (name a) x)) uniq (Ret []).

(** ** DisentangleModule *)
Fixpoint has_dot (s : string) : bool :=
  match s with EmptyString => false | String c s' => Ascii.eqb c "."%char || has_dot s' end.
Record dis_module := {
  dm_in : list A; dm_out : list (repr T); dm_cob : list (string * (nat * mat));
  dm_buffers : list (string * channels); dm_order : list string }.
(** __init__ 22-79: register_buffer refuses names with a dot *)
Definition mk_dis (dis : repr T -> res (mat * list (repr T))) (uniq ft : list A) : res dis_module :=
  d <- by_name (fun a => pr <- dis (rep a) ;; assert (negb (has_dot (name a))) ;; Ret (rsize a, pr)) uniq ;;
  outs <- mapM (fun a => e <- lookup String.eqb d (name a) ;; Ret (snd (snd e))) ft ;;
  out <- mk_type (concat outs) ;;
  g <- indexes_from_labels rsize String.eqb ft (map name ft) ;;
  b <- mapM pool_entry g ;;
  Ret {| dm_in := ft; dm_out := out; dm_cob := map (fun e => (fst e, (fst (snd e), fst (snd (snd e))))) d;
         dm_buffers := map (fun e => (fst (fst e), snd (fst e))) b; dm_order := map fst g |}.

(** a channel: its values by entry of the batch and position *)
Definition chan := nat -> list nat -> R.
(** 104-110: the fields of one representation, each multiplied by the matrix *)
Definition dis_group (cob : list (string * (nat * mat))) (nf : string -> nat) (l : string) (next : nat) (fm : list chan) : res (list chan) :=
  e <- lookup String.eqb cob l ;;
  let s := fst e in
  assert (Nat.eqb (length fm) (nf l * s)) ;;
  Ret (concat (map (fun v : list chan => map (fun (o : nat) bt q => sumn s (fun i => snd e o i * nth i v (fun _ _ => 0) bt q)%R) (seq 0 s)) (chunks (nf l) s fm))).
(** forward 81-118; [junk] is the content of torch.empty_like, and the last check is that
    of GeometricTensor *)
Definition dis_forward (m : dis_module) (junk : list chan) (xt : list A) (x : array R) : res (array R) :=
  assert (teqb xt (dm_in m)) ;;
  let c := type_size rsize (dm_in m) in
  let nf := nfields String.eqb (map name (dm_in m)) in
  out <- grouped_loop String.eqb nf (dm_buffers m) (dm_buffers m) (dis_group (dm_cob m) nf)
           (map (fun o bt q => entry x (bt :: o :: q)) (seq 0 c)) (dm_order m) 0 junk ;;
  assert (Nat.eqb (type_size r_size (dm_out m)) c) ;;
  Ret {| shape := shape x;
         entry := fun idx => match idx with bt :: o :: pos => nth o out (fun _ _ => 0%R) bt pos | _ => 0%R end |}.
End Maps.

(** ** RestrictionModule *)
Section Restriction.
Context {A : Type}.
Variable rep : A -> repr pval.
Variable name : A -> string.
Variable teqb : list A -> list A -> bool.
(** FieldType.restrict field_type.py:365-400, with the checks of FieldType.__init__ 70-75 *)
Definition type_restrict (linv : nat -> mat -> res mat) (s : gspace2) (uniq ft : list A) (id : sub_id) : res (gspace2 * list (repr pval)) :=
  r <- gspace2_restrict linv s id ;;
  let s' := fst (fst r) in
  d <- by_name name (fun a => any_restrict linv (gs_group s) id (rep a)) uniq ;;
  fields <- mapM (fun a => lookup String.eqb d (name a)) ft ;;
  out <- mk_type fields ;;
  assert (forallb (fun f => pgrp_eqb (fst f) (gs_group s')) out) ;;
  Ret (s', map snd out).
(** RestrictionModule 43-53 *)
Definition restriction_forward (ft xt : list A) (x : array R) : res (array R) := assert (teqb xt ft) ;; Ret x.
End Restriction.
