(** C81: the plane with a group of rotations and reflections, and its restrictions. *)
From Coq Require Import Reals ZArith Bool List.
From Verif Require Import LibRes LibMat SpecGroup FinGroupModel PlanarModel SpecPlanar RepModel SpecRepr RdConvModel GSpaceModel SpecGSpace GSpaceThms GSpaceEx.
Import ListNotations.
Open Scope R_scope.

(** Every element of the group of a space acts on the plane by the matrix of the
    rotation or reflection of O(2) it stands for. *)
Theorem C81_space : forall linv sid, correct_inverse linv -> pdocumented O2 sid -> clear_axis sid ->
  exists s, mk_gspace2 linv sid = Ret s /\ gs_id s = sid /\ p_subgroup O2 sid = Ret (gs_sub s) /\
    forall h, pmember (gs_group s) h -> exists g B, ps_incl (gs_sub s) h = Ret g /\ pmember O2 g /\ r_fun (gs_base s) h = Ret (2%nat, B) /\ plane_matrix g B.
Proof. exact space_ok. Qed.
Print Assumptions C81_space.

(** The default space of eight rotations and reflections. *)
Example C81_space_ex : pdocumented O2 (IO2 (Some (2 * (PI / 2))) 8) /\ clear_axis (IO2 (Some (2 * (PI / 2))) 8).
Proof. exact eight_doc. Qed.

(** A space restricted to a subgroup of its group has this subgroup as its group, and
    the elements act on the plane as in the space it came from; for all subgroups whose
    axis is not past a full turn. *)
Theorem C81_restrict : forall linv sid s id, correct_inverse linv -> pdocumented O2 sid -> clear_axis sid -> mk_gspace2 linv sid = Ret s -> listed (gs_group s) id ->
  (forall b, joint_axis sid id b -> b <= 2 * PI /\ (b = 0 \/ / 10000000 <= b)) ->
  exists sg s', any_subgroup (gs_group s) id = Ret sg /\ gspace2_restrict linv s id = Ret (s', ps_incl sg, ps_restr sg) /\ gs_group s' = ps_group sg /\
    is_embedding (pmember (gs_group s)) (pmul (gs_group s)) (pmember (ps_group sg)) (pmul (ps_group sg)) (ps_incl sg) /\
    forall h, pmember (ps_group sg) h -> exists g q B B', ps_incl sg h = Ret g /\ pmember (gs_group s) g /\ ps_incl (gs_sub s') h = Ret q /\ ps_incl (gs_sub s) g = Ret q /\
      r_fun (gs_base s') h = Ret (2%nat, B') /\ r_fun (gs_base s) g = Ret (2%nat, B) /\ meq 2 2 B' B /\ plane_matrix q B'.
Proof. exact restrict_ok. Qed.
Print Assumptions C81_restrict.

(** Such subgroups: two rotations and two reflections, about the third of eight mirrors. *)
Example C81_restrict_ex : listed (Fin (Dih 8)) (IdF (IdD (Some 2%Z) 2)) /\
  forall b, joint_axis (IO2 (Some (2 * (PI / 2))) 8) (IdF (IdD (Some 2%Z) 2)) b -> b <= 2 * PI /\ (b = 0 \/ / 10000000 <= b).
Proof. exact eight_second. Qed.

(** Past a full turn restrict raises. *)
Theorem C81_refused : forall linv sid s id b, pdocumented O2 sid -> mk_gspace2 linv sid = Ret s -> listed (gs_group s) id -> joint_axis sid id b -> 2 * PI < b -> gspace2_restrict linv s id = Raise.
Proof. exact restrict_refused. Qed.
Print Assumptions C81_refused.

(** A mirror that is a documented subgroup of the default space of eight rotations and
    reflections, and to which it cannot be restricted. *)
Theorem C81_mirror_refuted : forall linv, correct_inverse linv -> exists s, flip_rot2d_on_r2 linv 8 (PI / 2) = Ret s /\
  listed (gs_group s) (IdF (IdD (Some 5%Z) 1)) /\ gspace2_restrict linv s (IdF (IdD (Some 5%Z) 1)) = Raise.
Proof. exact restrict_refuted. Qed.
Print Assumptions C81_mirror_refuted.

(** The default space of all rotations and reflections cannot be restricted to half of
    its mirrors and dihedral groups. *)
Theorem C81_axis_refuted : forall linv, correct_inverse linv -> exists s, flip_rot2d_on_r2 linv (-1) (PI / 2) = Ret s /\ gs_group s = O2 /\
  forall t n, PI < t < 2 * PI -> (0 < n)%Z -> listed O2 (IdP (IO2 (Some t) n)) /\ gspace2_restrict linv s (IdP (IO2 (Some t) n)) = Raise.
Proof. exact full_refuted. Qed.
Print Assumptions C81_axis_refuted.
