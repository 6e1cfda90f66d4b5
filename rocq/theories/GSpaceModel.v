(** Model of the plane with a group acting on it, GSpace2D, and of its restriction to
    subgroups. Sources: /repo/escnn/gspaces/r2.py:24-91, 142-243,
    /repo/escnn/group/groups/o2group.py:411-425.
    Left out: the names, `maximum_frequency`, and `isinstance` checks that the ids of
    this type always pass. *)
From Coq Require Import Reals ZArith Bool List.
From Verif Require Import LibRes LibMat FinGroupModel PlanarModel IrrepModel RepModel PolarModel GridModel ImageModel RdConvModel.
Import ListNotations.
Open Scope R_scope.

(** The id of a subgroup of one of the planar groups: that of a subgroup of SO(2) or
    O(2), or that of a subgroup of a finite group. *)
Inductive sub_id := IdP (id : psgid) | IdF (id : sgid).

(** `fibergroup.subgroup(id)` group.py:316-343 *)
Definition any_subgroup (G : pgrp) (id : sub_id) : res psubgroup :=
  match G, id with
  | Fin G, IdF id =>
      s <- subgroup G id ;;
      Ret {| ps_group := Fin (sg_group s);
             ps_incl := fun h => match h with VF v => u <- sg_incl s v ;; Ret (VF u) | _ => Raise end;
             ps_restr := fun g => match g with VF v => u <- sg_restr s v ;; Ret (match u with Some w => Some (VF w) | None => None end) | _ => Raise end |}
  | Fin _, IdP _ => Raise
  | _, IdP id => p_subgroup G id
  | _, IdF _ => Raise
  end.

(** `sg_id2 == 2` *)
Definition is_two (id : sub_id) : bool :=
  match id with IdP (ISO2 n) => (n =? 2)%Z | IdF (IdC n) => (n =? 2)%Z | _ => false end.

(** O2._combine_subgroups o2group.py:411-425; _process_subgroup_id returns the id
    unchanged (group.py:313-314). `sg_id2[0]` on an int raises TypeError; a tuple paired
    with None is refused later by the checks of _subgroup. *)
Definition o2_combine (id1 : psgid) (id2 : sub_id) : res psgid :=
  sg1 <- p_subgroup O2 id1 ;;
  match id1 with
  | ISO2 _ => Raise
  | IO2 None _ => match id2 with IdP (ISO2 n) => Ret (IO2 None n) | IdF (IdC n) => Ret (IO2 None n) | _ => Raise end
  | IO2 (Some a) M =>
      if (M =? 1)%Z then Ret (IO2 (if is_two id2 then Some a else None) 1) else
      match id2 with
      | IdP (ISO2 _) => Raise
      | IdF (IdC _) => Raise
      | IdP (IO2 None n) => Ret (IO2 None n)
      | IdF (IdD None n) => Ret (IO2 None n)
      | IdP (IO2 (Some b) n) =>
          e <- pelement (ps_group sg1) (VO 0 b) ;; g <- ps_incl sg1 e ;; x <- to_radians2 O2 g ;; Ret (IO2 (Some (a + snd x)) n)
      | IdF (IdD (Some k) n) =>
          e <- pelement (ps_group sg1) (VF (VD 0 k)) ;; g <- ps_incl sg1 e ;; x <- to_radians2 O2 g ;; Ret (IO2 (Some (a + snd x)) n)
      end
  end.

(** GSpace2D.__init__ r2.py:49-62 *)
Record gspace2 := { gs_id : psgid; gs_sub : psubgroup; gs_base : repr pval }.
Definition mk_gspace2 (linv : nat -> mat -> res mat) (sid : psgid) : res gspace2 :=
  sg <- p_subgroup O2 sid ;;
  base <- r2_action linv sid sg ;;
  Ret {| gs_id := sid; gs_sub := sg; gs_base := base |}.
Definition gs_group (s : gspace2) : pgrp := ps_group (gs_sub s).

(** GSpace2D.restrict r2.py:64-91: the space, the inclusion and the restriction *)
Definition gspace2_restrict (linv : nat -> mat -> res mat) (s : gspace2) (id : sub_id)
    : res (gspace2 * (pval -> res pval) * (pval -> res (option pval))) :=
  sid <- o2_combine (gs_id s) id ;;
  sg <- any_subgroup (gs_group s) id ;;
  s' <- mk_gspace2 linv sid ;;
  Ret (s', ps_incl sg, ps_restr sg).

(** rot2dOnR2 r2.py:155-174, flipRot2dOnR2 177-211, flip2dOnR2 214-228, trivialOnR2 231-243 *)
Definition rot2d_on_r2 (linv : nat -> mat -> res mat) (N : Z) : res gspace2 :=
  assert ((N =? -1)%Z || (0 <? N)%Z) ;; mk_gspace2 linv (IO2 None N).
Definition flip_rot2d_on_r2 (linv : nat -> mat -> res mat) (N : Z) (axis : R) : res gspace2 :=
  assert ((N =? -1)%Z || (0 <? N)%Z) ;; mk_gspace2 linv (IO2 (Some (2 * axis)) N).
Definition flip2d_on_r2 (linv : nat -> mat -> res mat) (axis : R) : res gspace2 := mk_gspace2 linv (IO2 (Some (2 * axis)) 1).
Definition trivial_on_r2 (linv : nat -> mat -> res mat) : res gspace2 := mk_gspace2 linv (IO2 None 1).
