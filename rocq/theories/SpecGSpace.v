(** Subgroups of subgroups of O(2) and their actions on the plane, said without the functions of the model. *)
From Coq Require Import Reals ZArith.
From Verif Require Import LibMat FinGroupModel SpecFinGroup PlanarModel SpecPlanar GSpaceModel.
Open Scope R_scope.

(** The ids of the documentation of the four groups. *)
Definition listed (G : pgrp) (id : sub_id) : Prop :=
  match G, id with
  | Fin G, IdF id => documented G id
  | SO2, IdP id => pdocumented SO2 id
  | O2, IdP id => pdocumented O2 id
  | _, _ => False
  end.

(** The angle of the reflection at the origin of a subgroup of the group called [id1], if
    it has one: the angle of the group plus that of the subgroup inside the group. *)
Definition joint_axis (id1 : psgid) (id2 : sub_id) (b : R) : Prop :=
  match id1, id2 with
  | IO2 (Some a) M, IdP (IO2 (Some t) _) => M <> 1%Z /\ (t < 2 * PI /\ b = a + t \/ t = 2 * PI /\ b = a)
  | IO2 (Some a) M, IdF (IdD (Some k) _) => M <> 1%Z /\ b = a + 2 * PI / IZR M * IZR k
  | _, _ => False
  end.

(** Rotations and reflections of the plane: the matrix of an element of O(2). *)
Definition plane_matrix (g : pval) (M : mat) : Prop :=
  match g with
  | VO f t => M 0%nat 0%nat = cos t /\ M 1%nat 0%nat = sin t /\
              (f = 0%Z /\ M 0%nat 1%nat = - sin t /\ M 1%nat 1%nat = cos t \/ f = 1%Z /\ M 0%nat 1%nat = sin t /\ M 1%nat 1%nat = - cos t)
  | _ => False
  end.

(** The axis of the reflections is zero, or far enough from zero to be told apart from it
    by np.allclose. *)
Definition clear_axis (id : psgid) : Prop :=
  match id with IO2 (Some b) _ => b = 0 \/ / 10000000 <= b | _ => True end.
