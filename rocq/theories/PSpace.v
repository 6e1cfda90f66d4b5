(** SO(3), O(3) and the planar subgroups of SO(3). *)
From Coq Require Import Reals ZArith List Bool.
From Verif Require Import LibRes LibMat FinGroupModel SpecFinGroup SpecGroup PlanarModel SpecPlanar SpaceModel SpecSpace
  SpaceProofs SpaceThms SpaceSub SpaceComb SpaceEx.
Open Scope R_scope.

(** C62: quaternions of length one are a group, and so are the pairs of O(3). *)
Theorem C62_groups :
  is_group unit so3_mul so3_inv so3_id /\ is_group ounit o3_mul o3_inv o3_id.
Proof. exact (conj so3_group o3_group). Qed.
Print Assumptions C62_groups.

(** Whatever passes the check of the code multiplies to an exact element. *)
Theorem C62_closed : forall p q, so3_is_element p = true -> so3_is_element q = true ->
  (exists u, so3_mul p q = Ret u /\ unit u) /\ (exists u, so3_inv p = Ret u /\ unit u).
Proof. exact so3_closed. Qed.
Print Assumptions C62_closed.

(** The matrix of an element of SO(3) rotates by Rodrigues' formula; it is
    orthogonal with determinant one; products, inverses and the identity are
    those of matrices. *)
Theorem C62_matrix : forall p q pq qi, unit p -> unit q -> so3_mul p q = Ret pq -> so3_inv q = Ret qi ->
  (forall v i, (i < 3)%nat -> mvec 3 (as_matrix q) v i = rotated q v i) /\
  orthogonal3 1 (as_matrix q) /\
  meq 3 3 (as_matrix pq) (mmul 3 (as_matrix p) (as_matrix q)) /\
  meq 3 3 (as_matrix qi) (mtr (as_matrix q)) /\
  meq 3 3 (as_matrix so3_id) mid /\
  (meq 3 3 (as_matrix p) (as_matrix q) <-> p = q \/ p = qopp q).
Proof. exact so3_matrices. Qed.
Print Assumptions C62_matrix.

(** The same for O(3), with determinant -1 for inverted elements. *)
Theorem C62_matrix_o3 : forall a b ab bi, ounit a -> ounit b -> o3_mul a b = Ret ab -> o3_inv b = Ret bi ->
  orthogonal3 (if (fst b =? 0)%Z then 1 else -1) (omat b) /\
  meq 3 3 (omat ab) (mmul 3 (omat a) (omat b)) /\
  meq 3 3 (omat bi) (mtr (omat b)) /\
  meq 3 3 (omat o3_id) mid /\ meq 3 3 (omat o3_inversion) (mscal (-1) mid) /\
  (meq 3 3 (omat a) (omat b) <-> fst a = fst b /\ (snd a = snd b \/ snd a = qopp (snd b))).
Proof. exact o3_matrices. Qed.
Print Assumptions C62_matrix_o3.

(** Equality never raises, holds for equal matrices, and holds only for matrices
    that agree up to 1e-4 in each entry; equal matrices have equal hashes. *)
Theorem C62_equal : forall p q, unit p -> unit q ->
  (exists b, q_equal p q = Ret b) /\
  (meq 3 3 (as_matrix p) (as_matrix q) ->
     q_equal p q = Ret true /\ exists k, q_hash_key p = Ret k /\ q_hash_key q = Ret k) /\
  (q_equal p q = Ret true ->
     forall i j, (i < 3)%nat -> (j < 3)%nat -> Rabs (as_matrix p i j - as_matrix q i j) <= / 10 ^ 4).
Proof. exact equal_all. Qed.
Print Assumptions C62_equal.

(** The same for O(3). *)
Theorem C62_equal_o3 : forall a b, ounit a -> ounit b ->
  (exists t, o3_equal a b = Ret t) /\
  (meq 3 3 (omat a) (omat b) -> o3_equal a b = Ret true /\ exists k, o3_hash_key a = Ret k /\ o3_hash_key b = Ret k) /\
  (o3_equal a b = Ret true ->
     fst a = fst b /\ forall i j, (i < 3)%nat -> (j < 3)%nat -> Rabs (omat a i j - omat b i j) <= / 10 ^ 4).
Proof. exact o3_equal_all. Qed.
Print Assumptions C62_equal_o3.

(** Full statement: elements that compare equal have equal hashes.  It fails. *)
Theorem C62_hash_refuted : exists p q, unit p /\ unit q /\ q_equal p q = Ret true /\
  exists k l, q_hash_key p = Ret k /\ q_hash_key q = Ret l /\ k <> l.
Proof. exact hash_differs. Qed.
Print Assumptions C62_hash_refuted.

(** A rotation that permutes the axes, given by two different quaternions. *)
Example C62_case : unit tilted /\ meq 3 3 (as_matrix tilted) (mat3 0 0 1 1 0 0 0 1 0) /\
  tilted <> qopp tilted /\ meq 3 3 (as_matrix tilted) (as_matrix (qopp tilted)).
Proof. exact (conj tilted_unit (conj tilted_matrix tilted_opp)). Qed.

(** C63: SO3.subgroup succeeds for every documented id and every adjoint, and
    its inclusion and restriction are those of the documented subgroup of
    rotations: see [space_subgroup], [plane_matrix] and [so3_group_of]. *)
Theorem C63_subgroups : forall id adj, so3_documented id -> unit adj ->
  exists s, so3_subgroup id adj = Ret s /\
    space_subgroup unit as_matrix (as_matrix adj) (so3_group_of id) (so3_matrix id) s.
Proof. exact so3_subgroups. Qed.
Print Assumptions C63_subgroups.

(** A third of a turn seen from a tilted frame; a flip about a diagonal axis. *)
Example C63_case_turn : exists s g, so3_subgroup (S3Plane (FBool false) 3) tilted = Ret s /\
  s3_incl s (EP (VF (VC 1))) = Ret g /\ unit g /\
  meq 3 3 (as_matrix g) (conjugate (as_matrix tilted) (Rz (2 * PI / 3))).
Proof. exact c3_case. Qed.
Example C63_case_flip : exists s g, so3_subgroup (S3Plane (FFloat (PI / 2)) 2) so3_id = Ret s /\
  s3_incl s (EP (VF (VD 1 0))) = Ret g /\ meq 3 3 (as_matrix g) (mat3 0 1 0 1 0 0 0 0 (-1)).
Proof. exact flip_case. Qed.

(** C64: SO3._combine_subgroups returns, for every documented subgroup of every
    documented subgroup, the id of a subgroup of the same type whose inclusion
    is the composition of the two inclusions. *)
Theorem C64_combine : forall id1 adj1 s1 id2, so3_documented id1 -> unit adj1 ->
  so3_subgroup id1 adj1 = Ret s1 -> sub_documented (s3_group s1) id2 ->
  exists id adj s incl2, so3_combine_subgroups id1 adj1 id2 = Ret (id, adj) /\
    so3_documented id /\ unit adj /\ so3_subgroup id adj = Ret s /\
    sub_subgroup (s3_group s1) id2 = Ret (s3_group s, incl2) /\
    forall h, smember (s3_group s) h -> agree s1 s incl2 h.
Proof. exact so3_combine_correct. Qed.
Print Assumptions C64_combine.

(** D_2 inside D_4 inside a tilted frame. *)
Example C64_case : exists s1 id adj, so3_subgroup (S3Plane (FBool true) 4) tilted = Ret s1 /\
  sub_documented (s3_group s1) (BDih (Some 1%Z) 2) /\
  so3_combine_subgroups (S3Plane (FBool true) 4) tilted (BDih (Some 1%Z) 2) = Ret (id, adj) /\
  id = S3Plane (FFloat (1 * 2 * PI / 4)) 2 /\ adj = tilted.
Proof. exact combine_case. Qed.
