(** What the elements of the planar groups and the subgroups of SO(2) and O(2)
    are, said without the functions of the model. *)
From Coq Require Import Reals ZArith.
From Verif Require Import FinGroupModel SpecFinGroup PlanarModel.
Open Scope R_scope.

(** An angle is stored in [0, 2 pi); a flip is 0 or 1. *)
Definition pmember (G : pgrp) (v : pval) : Prop :=
  match G, v with
  | Fin G, VF v => member G v
  | SO2, VS t => 0 <= t < 2 * PI
  | O2, VO f t => (f = 0 \/ f = 1)%Z /\ 0 <= t < 2 * PI
  | _, _ => False
  end.

(** Subgroup ids listed in the documentation, so2group.py:30-50, o2group.py:58-80. *)
Definition pdocumented (G : pgrp) (id : psgid) : Prop :=
  match G, id with
  | SO2, ISO2 M => (0 < M \/ M = -1)%Z
  | O2, IO2 None M => (0 < M \/ M = -1)%Z
  | O2, IO2 (Some a) M => (0 < M \/ M = -1)%Z /\ 0 <= a <= 2 * PI
  | _, _ => False
  end.

(** Two angles are the same rotation. *)
Definition same_angle (x y : R) : Prop := exists n : Z, x = y + 2 * PI * IZR n.

(** Which elements of the parent the subgroup consists of. *)
Definition in_psubgroup (id : psgid) (g : pval) : Prop :=
  match id, g with
  | ISO2 M, VS t =>
      (M = -1)%Z \/ exists r : Z, same_angle t (2 * PI / IZR M * IZR r)
  | IO2 None M, VO f t =>
      f = 0%Z /\ ((M = -1)%Z \/ exists r : Z, same_angle t (2 * PI / IZR M * IZR r))
  | IO2 (Some a) M, VO f t =>
      (M = -1)%Z \/ exists r : Z, same_angle t (2 * PI / IZR M * IZR r + IZR f * a)
  | _, _ => False
  end.

(** [g] is within [eps] radians of an element of the subgroup. *)
Definition near_psubgroup (eps : R) (id : psgid) (g : pval) : Prop :=
  match id, g with
  | ISO2 M, VS t =>
      (M = -1)%Z \/ exists (r : Z) u, same_angle u (2 * PI / IZR M * IZR r) /\ Rabs (t - u) <= eps
  | IO2 None M, VO f t =>
      f = 0%Z /\ ((M = -1)%Z \/
        exists (r : Z) u, same_angle u (2 * PI / IZR M * IZR r) /\ Rabs (t - u) <= eps)
  | IO2 (Some a) M, VO f t =>
      (M = -1)%Z \/
        exists (r : Z) u, same_angle u (2 * PI / IZR M * IZR r + IZR f * a) /\ Rabs (t - u) <= eps
  | _, _ => False
  end.

(** The rotated reflections of a dihedral subgroup about the axis [a] that go
    past a full turn. *)
Definition past_full_turn (id : psgid) (h : pval) : Prop :=
  match id, h with
  | IO2 (Some a) M, VF (VD f r) => f = 1%Z /\ 2 * PI <= 2 * PI / IZR M * IZR r + a
  | _, _ => False
  end.
