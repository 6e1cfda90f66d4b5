(** Which subgroup of O(3) each id names, as 3x3 matrices. *)
From Coq Require Import Reals ZArith List Bool.
From Verif Require Import LibRes LibMat FinGroupModel SpecFinGroup PlanarModel SpecPlanar SpaceModel SpecSpace SpaceO3Model.
Import ListNotations.
Open Scope R_scope.

(** The ids in the documentation of O3, o3group.py:33-97: the first entry of a
    planar id is a bool, the second a bool or a float. *)
Definition o3_documented (id : o3id) : Prop :=
  match id with
  | O3Name _ | O3Full _ => True
  | O3Plane (IBool _) (ABool _) N | O3Plane (IBool _) (AFloat _) N | O3Cone _ N => (N = -1 \/ 0 < N)%Z
  | O3Plane _ _ _ => False
  end.

Definition valid_adj (adj : option oval) : Prop := match adj with Some a => ounit a | None => True end.
Definition frame (adj : option oval) : mat := match adj with Some a => omat a | None => mid end.

(** The second entry of a documented planar id. *)
Definition ax_flip (f : axspec) : flipspec :=
  match f with ABool b => FBool b | AFloat a => FFloat a | ANone => FBool false end.

(** The group named by an id: with inversions it is C_2 times the group without,
    or just C_2 if that one is trivial. *)
Definition o3_group_of (id : o3id) : sgrp :=
  match id with
  | O3Name o3 => if o3 then GO3 else GSO3
  | O3Full inv => if inv then GO3 else GSO3
  | O3Plane inv f N =>
      let G := plane_group (flips (ax_flip f)) N in
      match inv with
      | IBool true => if negb (flips (ax_flip f)) && (N =? 1)%Z then GP (Fin (Cyc 2)) else GCyl G
      | _ => GP G
      end
  | O3Cone _ N => GP (plane_group true N)
  end.

(** Identity or inversion. *)
Definition inversion (i : Z) : mat := mscal (if (i =? 0)%Z then 1 else -1) mid.

(** The matrix that each of its elements stands for.  The elements of a cone are
    turns around Z and reflections at the plane through Z and the axis at angle
    [axis / 2] in the XY plane. *)
Definition o3_matrix (id : o3id) (h : sval) : mat :=
  match id, h with
  | O3Name true, EO e | O3Full true, EO e => omat e
  | O3Name false, EQ q | O3Full false, EQ q => as_matrix q
  | O3Plane (IBool false) f N, EP v => plane_matrix (ax_flip f) N v
  | O3Plane (IBool true) _ _, EP (VF (VC i)) => inversion i
  | O3Plane (IBool true) f N, EC i v => mmul 3 (inversion i) (plane_matrix (ax_flip f) N v)
  | O3Cone a N, EP v =>
      let k := plane_flip true N v in
      mmul 3 (Rz (plane_angle true N v + IZR k * match a with Some a => a | None => 0 end)) (mirrorY k)
  | _, _ => mid
  end.

(** A cone with its axis given explicitly. *)
Definition explicit_cone (id : o3id) : Prop := match id with O3Cone (Some _) _ => True | _ => False end.

(** The documented subgroups of a subgroup of O(3). *)
Definition o3_sub_documented (G : sgrp) (id : o3subid) : Prop :=
  match G, id with
  | GO3, DO3 id adj => o3_documented id /\ valid_adj adj
  | GSO3, DSO3 id adj => so3_documented id /\ unit adj
  | GP _, DPlane id => sub_documented G id
  | GCyl P, DCyl m id => documented (Cyc 2) (IdC m) /\ sub_documented (GP P) id
  | _, _ => False
  end.

(** What _combine_subgroups is for: it returns the id of a subgroup of the same
    type as the inner one, whose inclusion is the composition of the two. *)
Definition combined (id1 : o3id) (adj1 : option oval) (s1 : ssub oval) (id2 : o3subid) : Prop :=
  exists id adj s incl2, o3_combine_subgroups id1 adj1 id2 = Ret (id, adj) /\
    ounit adj /\ o3_subgroup id (Some adj) = Ret s /\
    o3_sub_subgroup (s3_group s1) id2 = Ret (s3_group s, incl2) /\
    forall h, smember (s3_group s) h ->
      exists g1 g2 g, incl2 h = Ret g1 /\ s3_incl s1 g1 = Ret g2 /\ s3_incl s h = Ret g /\ meq 3 3 (omat g) (omat g2).

(** When it does that: for the subgroups of O(3) and SO(3); never for those of
    cylinders and planar rotations; for the pyramids in a cone, only when their
    axis is at a multiple of a third of a turn. *)
Definition combinable (id1 : o3id) (id2 : o3subid) : Prop :=
  match id1, id2 with
  | O3Name _, _ | O3Full _, _ => True
  | O3Plane _ _ _, _ => False
  | O3Cone _ _, DPlane (BInt m) => m = 2%Z
  | O3Cone _ _, DPlane (BO2 (Some a) _) => same_angle (3 * a) 0
  | O3Cone _ N, DPlane (BDih (Some k) _) => same_angle (3 * (2 * PI / IZR N * IZR k)) 0
  | O3Cone _ _, _ => False
  end.
