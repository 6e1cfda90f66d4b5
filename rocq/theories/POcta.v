(** The octahedral group and its subgroups. *)
From Coq Require Import Reals ZArith Bool List.
From Verif Require Import LibRes LibMat FinGroupModel SpecGroup PlanarModel IrrepModel SpaceModel SpecSpace OctaModel SpecOcta
  OctaProofs OctaSub OctaThms OctaEx.
Import ListNotations.
Open Scope R_scope.

(** C88: the rotations of the cube are a group under the operations of the code,
    which never raise on them. *)
Theorem C88_group : is_group octahedral octa_mul octa_inv so3_id.
Proof. exact @octa_group. Qed.
Print Assumptions C88_group.

(** The listed elements are 24 different rotations of the cube, and all of them. *)
Theorem C88_elements : length octa_elements = 24%nat /\
  Forall octahedral octa_elements /\
  (forall n m : nat, (n < 24)%nat -> (m < 24)%nat -> same_rotation (nth n octa_elements so3_id) (nth m octa_elements so3_id) -> n = m) /\
  (forall q : quat, octahedral q -> exists p : quat, In p octa_elements /\ same_rotation q p).
Proof. exact @octa_list. Qed.
Print Assumptions C88_elements.

(** The membership check admits every rotation of the cube, and nothing that is
    farther than 1e-4 from one. *)
Theorem C88_check : (forall q : quat, octahedral q -> octa_is_element q = true) /\
  (forall q : quat,
  octa_is_element q = true ->
  exists r p : quat, to_rot q = Ret r /\ In p octa_elements /\ (forall i j : nat, (i < 3)%nat -> (j < 3)%nat -> Rabs (as_matrix r i j - as_matrix p i j) <= / 10 ^ 4)).
Proof. exact @octa_check. Qed.
Print Assumptions C88_check.

Example C88_case_element : octahedral (Quat (1/2) (1/2) (1/2) (1/2)) /\
  meq 3 3 (as_matrix (Quat (1/2) (1/2) (1/2) (1/2))) (mat3 0 0 1 1 0 0 0 1 0).
Proof. exact third_turn. Qed.
Example C88_case_refused : unit (Quat 0 0 (3/5) (4/5)) /\ octa_is_element (Quat 0 0 (3/5) (4/5)) = false.
Proof. exact eighth_refused. Qed.

(** The cyclic subgroups of order 1 to 4, seen from any frame: what their two maps
    do is the record [cyclic_subgroup]. *)
Theorem C88_cyclic : forall (N : Z) (adj : quat),
  (1 <= N <= 4)%Z -> octahedral adj -> exists s : osub, octa_subgroup (OcPlane false N) adj = Ret s /\ os_order s = Some N /\ cyclic_subgroup (as_matrix adj) N (os_incl s) (os_restr s).
Proof. exact @octa_cyclic. Qed.
Print Assumptions C88_cyclic.

Example C88_case_quarter : exists s g, octa_subgroup (OcPlane false 4) (Quat (1/2) (1/2) (1/2) (1/2)) = Ret s /\
  os_incl s (turn_by 1) = Ret g /\ octahedral g /\
  meq 3 3 (as_matrix g) (mat3 0 0 1 0 1 0 (-1) 0 0) /\ os_restr s g = Ret (Some (turn_by 1)).
Proof. exact moved_quarter. Qed.

(** The group as a subgroup of itself. *)
Theorem C88_self : forall adj : quat,
  octahedral adj ->
  exists s : osub,
  octa_subgroup OcSelf adj = Ret s /\
  os_order s = None /\
  (forall q : quat,
  octahedral q -> exists g : quat, os_incl s (EQ q) = Ret g /\ octahedral g /\ meq 3 3 (as_matrix g) (conjugate (as_matrix adj) (as_matrix q)) /\ os_restr s g = Ret (Some (EQ q))).
Proof. exact @octa_self. Qed.
Print Assumptions C88_self.

(** Full statement: the restriction finds every element of the subgroup, whatever
    quaternion it is written with.  It misses every element but the identity when
    the quaternion has the other sign ... *)
Theorem C88_restriction_refuted : forall (N : Z) (adj : quat) (s : osub) (r : Z) (g : quat),
  order N ->
  octahedral adj ->
  octa_subgroup (OcPlane false N) adj = Ret s ->
  (0 < r < N)%Z -> os_incl s (turn_by r) = Ret g -> octahedral (qopp g) /\ same_rotation (qopp g) g /\ q_equal (qopp g) g = Ret true /\ os_restr s (qopp g) = Ret None.
Proof. exact @restriction_sign. Qed.
Print Assumptions C88_restriction_refuted.

(** ... and elements of the group's own list are written that way. *)
Theorem C88_restriction_listed_refuted : exists (s : osub) (g h : quat),
  octa_subgroup (OcPlane false 4) so3_id = Ret s /\
  nth_error octa_elements 15 = Some g /\ octahedral g /\ os_incl s (turn_by 3) = Ret h /\ same_rotation g h /\ os_restr s g = Ret None.
Proof. exact @restriction_listed. Qed.
Print Assumptions C88_restriction_listed_refuted.

(** The subgroup behind cube_faces_representation is what leaves a face of the cube
    in place, the one behind cube_vertices_representation what leaves a vertex. *)
Theorem C88_faces : forall s : osub,
  octa_subgroup cube_faces_id so3_id = Ret s ->
  forall g : quat, octahedral g -> fixes g top_face <-> (exists (r : Z) (k : quat), (0 <= r < 4)%Z /\ os_incl s (turn_by r) = Ret k /\ same_rotation g k).
Proof. exact @face_stabiliser. Qed.
Print Assumptions C88_faces.
Theorem C88_vertices : forall s : osub,
  octa_subgroup cube_vertices_id so3_id = Ret s ->
  forall g : quat, octahedral g -> fixes g corner <-> (exists (r : Z) (k : quat), (0 <= r < 3)%Z /\ os_incl s (turn_by r) = Ret k /\ same_rotation g k).
Proof. exact @vertex_stabiliser. Qed.
Print Assumptions C88_vertices.

(** Full statement: the subgroup behind cube_edges_representation leaves an edge in
    place.  It is the half turn around X, which moves every edge, while every edge
    is left in place by some other rotation. *)
Theorem C88_edges_refuted : exists (s : osub) (g : quat),
  octa_subgroup cube_edges_id so3_id = Ret s /\
  os_incl s (turn_by 1) = Ret g /\
  octahedral g /\ (forall p : point, edge p -> ~ fixes g p) /\ (forall p : point, edge p -> exists h : quat, octahedral h /\ fixes h p /\ ~ same_rotation h so3_id).
Proof. exact @edge_moved. Qed.
Print Assumptions C88_edges_refuted.

Example C88_case_edges : exists s g, octa_subgroup cube_edges_id so3_id = Ret s /\ os_order s = Some 2%Z /\
  os_incl s (turn_by 1) = Ret g /\ octahedral g /\ meq 3 3 (as_matrix g) (mat3 1 0 0 0 (-1) 0 0 0 (-1)).
Proof. exact edge_subgroup. Qed.

(** Full statement: every documented id gives a subgroup.  Half of them raise. *)
Theorem C88_documented_refuted : forall adj : quat, octa_subgroup OcTetra adj = Raise /\ (forall N : Z, (2 <= N <= 4)%Z -> octa_subgroup (OcPlane true N) adj = Raise).
Proof. exact @octa_missing. Qed.
Print Assumptions C88_documented_refuted.

(** Full statement: an irrep restricts to the trivial subgroup.  The irrep named by
    the code does not exist for the trivial group. *)
Theorem C88_trivial_refuted : forall size : nat, (0 < size)%nat -> exists k : Z, In k (snd (octa_restrict_trivial size)) /\ cn_irrep 1 k = Raise.
Proof. exact @trivial_irreps. Qed.
Print Assumptions C88_trivial_refuted.
