(** The subgroups of O(3). *)
From Coq Require Import Reals ZArith List Bool.
From Verif Require Import LibRes LibMat FinGroupModel SpecFinGroup SpecGroup PlanarModel SpecPlanar SpaceModel SpecSpace
  SpaceO3Model SpecSpaceO3 SpaceO3Thms SpaceO3Comb SpaceO3Ex.
Open Scope R_scope.

(** C65: O3.subgroup succeeds for every documented id and every adjoint, and its
    inclusion and restriction are those of the documented subgroup of matrices:
    see [space_subgroup], [o3_group_of] and [o3_matrix].  Cones with an explicit
    axis are excepted. *)
Theorem C65_subgroups : forall id adj, o3_documented id -> ~ explicit_cone id -> valid_adj adj ->
  exists s, o3_subgroup id adj = Ret s /\
    space_subgroup ounit omat (frame adj) (o3_group_of id) (o3_matrix id) s.
Proof. exact o3_subgroups. Qed.
Print Assumptions C65_subgroups.

(** Full statement for cones with an explicit axis: the same.  It fails. *)
Theorem C65_cone_axis_refuted : exists s, o3_subgroup (O3Cone (Some (PI / 2)) 1) None = Ret s /\
  ~ space_subgroup ounit omat (frame None) (o3_group_of (O3Cone (Some (PI / 2)) 1)) (o3_matrix (O3Cone (Some (PI / 2)) 1)) s.
Proof. exact cone_axis_wrong. Qed.
Print Assumptions C65_cone_axis_refuted.

(** What is returned instead: the cone whose axis is turned the other way. *)
Theorem C65_cone_axis : forall a N adj, (N = -1 \/ 0 < N)%Z -> valid_adj adj ->
  exists s, o3_subgroup (O3Cone (Some a) N) adj = Ret s /\
    space_subgroup ounit omat (frame adj) (o3_group_of (O3Cone (Some (- a)) N)) (o3_matrix (O3Cone (Some (- a)) N)) s.
Proof. exact cone_mirrored. Qed.
Print Assumptions C65_cone_axis.

(** An inverted turn seen from a tilted and inverted frame; a mirror. *)
Example C65_case_cylinder : exists s g, o3_subgroup (O3Plane (IBool true) (ABool false) 3) (Some otilted) = Ret s /\
  s3_group s = GCyl (Fin (Cyc 3)) /\ s3_incl s (EC 1 (VF (VC 1))) = Ret g /\
  meq 3 3 (omat g) (conjugate (omat otilted) (mscal (-1) (Rz (2 * PI / 3)))).
Proof. exact cylinder_case. Qed.
Example C65_case_cone : exists s g, o3_subgroup (O3Cone None 2) None = Ret s /\ s3_group s = GP (Fin (Dih 2)) /\
  s3_incl s (EP (VF (VD 1 0))) = Ret g /\ meq 3 3 (omat g) (mat3 1 0 0 0 (-1) 0 0 0 1).
Proof. exact cone_case. Qed.

(** C66: exactly for which ids O3._combine_subgroups returns the id of a subgroup
    of the same type as the inner one, whose inclusion is the composition of the
    two inclusions: see [combined] and [combinable]. *)
Theorem C66_combine : forall id1 adj1 s1 id2, o3_documented id1 -> valid_adj adj1 ->
  o3_subgroup id1 adj1 = Ret s1 -> o3_sub_documented (s3_group s1) id2 ->
  (combined id1 adj1 s1 id2 <-> combinable id1 id2).
Proof. exact combined_iff. Qed.
Print Assumptions C66_combine.

(** Full statement: for all documented ids.  It fails. *)
Theorem C66_combine_refuted : exists s1, o3_subgroup (O3Cone None 4) None = Ret s1 /\
  o3_sub_documented (s3_group s1) (DPlane (BDih (Some 1%Z) 2)) /\
  ~ combined (O3Cone None 4) None s1 (DPlane (BDih (Some 1%Z) 2)).
Proof. exact not_combined_case. Qed.
Print Assumptions C66_combine_refuted.

(** For turns, with or without flips, it raises whatever the inner id. *)
Theorem C66_planar_raises : forall f N adj1 s1 id2, f <> ANone -> (N = -1 \/ 0 < N)%Z -> valid_adj adj1 ->
  o3_subgroup (O3Plane (IBool false) f N) adj1 = Ret s1 ->
  o3_combine_subgroups (O3Plane (IBool false) f N) adj1 id2 = Raise.
Proof. exact planar_raises. Qed.
Print Assumptions C66_planar_raises.

(** A mirror of the pyramid of D_3, in a tilted frame. *)
Example C66_case : exists s1, o3_subgroup (O3Cone None 3) (Some otilted) = Ret s1 /\
  o3_sub_documented (s3_group s1) (DPlane (BDih (Some 2%Z) 1)) /\
  combined (O3Cone None 3) (Some otilted) s1 (DPlane (BDih (Some 2%Z) 1)).
Proof. exact combined_case. Qed.
