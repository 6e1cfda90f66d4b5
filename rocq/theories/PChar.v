(** Characters of SO(3) and O(3). *)
From Coq Require Import Reals ZArith Bool List.
From Verif Require Import LibRes LibMat FinGroupModel PlanarModel SpecPlanar IrrepModel SpecIrrep SpaceModel SpecSpace CharModel SpecChar
  CharProofs CharRestrict CharThms.
Import ListNotations.
Open Scope R_scope.

(** C90: the character of frequency l at a rotation by t is
    1 + 2 cos t + ... + 2 cos (l t): exactly, unless the rotation is closer to the
    identity than the tolerance of the code, and up to a tiny error then. *)
Theorem C90_value : forall (l : Z) (q : quat),
  (0 <= l)%Z ->
  unit q ->
  exists c : R,
  so3_character l q = Ret c /\
  (forall t : R, turns_by q t -> (/ 10 ^ 8 < half_sine q -> c = wave (Z.to_nat l) t) /\ Rabs (c - wave (Z.to_nat l) t) <= 2 / 3 * (IZR l * (IZR l + 1) * (2 * IZR l + 1)) * / 10 ^ 16).
Proof. exact @character_value. Qed.
Print Assumptions C90_value.

Example C90_case_half_turn : unit (Quat 1 0 0 0) /\ / 10 ^ 8 < half_sine (Quat 1 0 0 0) /\ turns_by (Quat 1 0 0 0) PI /\ wave 2 PI = 1.
Proof. exact half_turn_2. Qed.

(** Rotations by the same angle have the same character, to the last digit: it is a
    class function and does not depend on the quaternion. *)
Theorem C90_class : forall (l : Z) (p q : quat), unit p -> unit q -> trace 3 (as_matrix p) = trace 3 (as_matrix q) -> so3_character l p = so3_character l q.
Proof. exact @character_class. Qed.
Print Assumptions C90_class.

(** Frequency 1 is the rotation of space itself. *)
Theorem C90_standard : forall q : quat, unit q -> / 10 ^ 8 < half_sine q -> so3_character 1 q = Ret (trace 3 (as_matrix q)).
Proof. exact @character_standard. Qed.
Print Assumptions C90_standard.

(** The same in O(3). *)
Theorem C90_o3_value : forall (j l : Z) (e : oval),
  j = 0%Z \/ j = 1%Z ->
  (0 <= l)%Z ->
  ounit e ->
  exists c : R,
  o3_character j l e = Ret c /\
  (forall t : R,
  turns_by (snd e) t -> (/ 10 ^ 8 < half_sine (snd e) -> c = owave (fst e) j l t) /\ Rabs (c - owave (fst e) j l t) <= 2 / 3 * (IZR l * (IZR l + 1) * (2 * IZR l + 1)) * / 10 ^ 16).
Proof. exact @o3_character_value. Qed.
Print Assumptions C90_o3_value.

(** The irreps listed for a tensor product have the product of the characters. *)
Theorem C90_tensor : forall J l : Z,
  (0 <= J)%Z ->
  (0 <= l)%Z ->
  exists xs : list (Z * nat),
  so3_tensor J l = Ret xs /\
  NoDup (map fst xs) /\ Forall (fun x : Z * nat => (0 <= fst x)%Z) xs /\ (forall t : R, weighted (fun j : Z => wave (Z.to_nat j) t) xs = wave (Z.to_nat J) t * wave (Z.to_nat l) t).
Proof. exact @tensor_characters. Qed.
Print Assumptions C90_tensor.
Theorem C90_o3_tensor : forall J l : Z * Z,
  fst J = 0%Z \/ fst J = 1%Z ->
  (0 <= snd J)%Z ->
  fst l = 0%Z \/ fst l = 1%Z ->
  (0 <= snd l)%Z ->
  exists xs : list (Z * Z * nat),
  o3_tensor J l = Ret xs /\
  NoDup (map fst xs) /\
  Forall (fun x : Z * Z * nat => (fst (fst x) = 0%Z \/ fst (fst x) = 1%Z) /\ (0 <= snd (fst x))%Z) xs /\
  (forall (i : Z) (t : R), weighted (fun x : Z * Z => owave i (fst x) (snd x) t) xs = owave i (fst J) (snd J) t * owave i (fst l) (snd l) t).
Proof. exact @o3_tensor_characters. Qed.
Print Assumptions C90_o3_tensor.

Example C90_case_tensor : so3_tensor 1 2 = Ret [(1%Z, 1%nat); (2%Z, 1%nat); (3%Z, 1%nat)] /\
  o3_tensor (1, 1)%Z (1, 2)%Z = Ret [((0, 1)%Z, 1%nat); ((0, 2)%Z, 1%nat); ((0, 3)%Z, 1%nat)].
Proof. exact tensor_1_2. Qed.

(** The characters are orthonormal for the uniform measure of SO(3), under which the
    angle has the density (1 - cos t) / PI. *)
Theorem C90_orthonormal : forall m n : nat, exists F : R -> R, (forall t : R, derivable_pt_lim F t ((1 - cos t) * wave m t * wave n t)) /\ F PI - F 0 = (if (m =? n)%nat then PI else 0).
Proof. exact @wave_orthogonal. Qed.
Print Assumptions C90_orthonormal.

(** The irreps of a planar subgroup listed for the restriction of an irrep have its
    character on the subgroup. *)
Theorem C90_restriction : forall (id : so3id) (adj : quat) (l : Z),
  so3_documented id ->
  unit adj ->
  (0 <= l)%Z ->
  exists (x : so3pid * quat) (s : ssub quat) (ids : list (list Z)),
  so3_process id adj = Ret x /\
  so3_subgroup id adj = Ret s /\
  so3_restrict_ids l (fst x) = Ret ids /\
  match s3_group s with
  | GP H =>
  Forall (irrep_ok H) ids /\
  (forall h : pval,
  pmember H h ->
  exists (g : quat) (bs : list (nat * mat)), s3_incl s (EP h) = Ret g /\ unit g /\ blocks H ids h = Ret bs /\ (forall t : R, turns_by g t -> traces bs = wave (Z.to_nat l) t))
  | _ => ids = [[l]]
  end.
Proof. exact @restricted_characters. Qed.
Print Assumptions C90_restriction.

Example C90_case_restriction : so3_restrict_ids 2 (S3PPlane false 3) = Ret [[0%Z]; [1%Z]; [1%Z]].
Proof. exact restricted_2_c3. Qed.
