(** C09, C10, C54, C55: parametrisations, SO(2) and O(2), equality. *)
From Coq Require Import Reals ZArith Bool List Lia Lra.
From Verif Require Import LibRes LibTrig SpecGroup FinGroupModel SpecFinGroup ParamModel SpecParam
  ParamProofs PlanarModel SpecPlanar PlanarProofs ParamThms.
Import ListNotations.
Open Scope R_scope.

(** ** C09 *)

Theorem C09_cyclic_round_trip : forall N p, (0 < N)%Z -> p = PInt \/ p = PRad ->
  round_trips (cn_value N) (cn_change_param N) PInt p.
Proof. exact cn_round_trip. Qed.
Print Assumptions C09_cyclic_round_trip.

Theorem C09_dihedral_round_trip : forall N p, (0 < N)%Z -> p = PInt \/ p = PRad ->
  round_trips (dn_value N) (dn_change_param N) PInt p.
Proof. exact dn_round_trip. Qed.
Print Assumptions C09_dihedral_round_trip.

(** The matrix parametrisation survives exactly in C_1 and C_2. *)
Theorem C09_cyclic_matrix_refuted : forall N, (0 < N)%Z ->
  (round_trips (cn_value N) (cn_change_param N) PInt PMat <-> (N <= 2)%Z).
Proof. exact cn_matrix_iff. Qed.
Print Assumptions C09_cyclic_matrix_refuted.

Theorem C09_dihedral_matrix_refuted : forall N, (0 < N)%Z ->
  (round_trips (dn_value N) (dn_change_param N) PInt PMat <-> (N <= 2)%Z).
Proof. exact dn_matrix_iff. Qed.
Print Assumptions C09_dihedral_matrix_refuted.

(** Every rotation by at most a quarter turn is silently read back as the identity. *)
Theorem C09_cyclic_matrix_collapses : forall N r, (0 < N)%Z -> (0 <= r)%Z -> (4 * r <= N)%Z ->
  exists w, cn_change_param N (Pint r) PInt PMat = Ret w /\
            cn_change_param N w PMat PInt = Ret (Pint 0).
Proof. exact cn_mat_collapse. Qed.
Print Assumptions C09_cyclic_matrix_collapses.

Theorem C09_so2_round_trip : forall p, p = PRad \/ p = PMat ->
  round_trips so2_value so2_change_param PRad p.
Proof. exact so2_round_trip. Qed.
Print Assumptions C09_so2_round_trip.

Theorem C09_o2_round_trip : forall p, p = PRad \/ p = PMat ->
  round_trips o2_value o2_change_param PRad p.
Proof. exact o2_round_trip. Qed.
Print Assumptions C09_o2_round_trip.

Example C09_ex_cn : cn_value 5 (Pint 3).
Proof. exists 3%Z; split; [reflexivity|lia]. Qed.
Example C09_ex_dn : dn_value 5 (1%Z, Pint 3).
Proof. exists 1%Z, 3%Z; repeat split; auto; lia. Qed.
Example C09_ex_quarter : exists w, cn_change_param 4 (Pint 1) PInt PMat = Ret w /\
  cn_change_param 4 w PMat PInt = Ret (Pint 0).
Proof. apply cn_mat_collapse; lia. Qed.
Example C09_ex_so2 : so2_value (Pfloat 1).
Proof. exists 1; split; [reflexivity|pose proof PI2_3_2; lra]. Qed.
Example C09_ex_o2 : o2_value (1%Z, Pfloat 3).
Proof. exists 1%Z, 3; split; [reflexivity|split; [auto|pose proof PI2_3_2; lra]]. Qed.

(** ** C54: operations in a given parametrisation *)

Theorem C54_cyclic_combine : forall N p a b x y, (0 < N)%Z -> p <> PMat ->
  (0 <= a < N)%Z -> (0 <= b < N)%Z ->
  cn_change_param N (Pint a) PInt p = Ret x -> cn_change_param N (Pint b) PInt p = Ret y ->
  cn_combine N x y p = cn_change_param N (Pint ((a + b) mod N)) PInt p.
Proof. exact cn_combine_param. Qed.
Print Assumptions C54_cyclic_combine.

Theorem C54_dihedral_combine : forall N p f a g b x y, (0 < N)%Z -> p <> PMat ->
  (f = 0 \/ f = 1)%Z -> (g = 0 \/ g = 1)%Z -> (0 <= a < N)%Z -> (0 <= b < N)%Z ->
  dn_change_param N (f, Pint a) PInt p = Ret x -> dn_change_param N (g, Pint b) PInt p = Ret y ->
  dn_combine N x y p =
  dn_change_param N (((f + g) mod 2)%Z, Pint ((a + (if (f =? 0)%Z then b else - b)) mod N)%Z) PInt p.
Proof. exact dn_combine_param. Qed.
Print Assumptions C54_dihedral_combine.

Theorem C54_dihedral_inverse : forall N p f a x, (0 < N)%Z -> p <> PMat ->
  (f = 0 \/ f = 1)%Z -> (0 <= a < N)%Z ->
  dn_change_param N (f, Pint a) PInt p = Ret x ->
  dn_inverse N x p = dn_change_param N (f, Pint ((if (f =? 0)%Z then - a else a) mod N)%Z) PInt p.
Proof. exact dn_inverse_param. Qed.
Print Assumptions C54_dihedral_inverse.

(** C_N: the inverse of an element given in radians always raises. *)
Theorem C54_cyclic_inverse_refuted : forall N a x, (0 < N)%Z ->
  cn_change_param N (Pint a) PInt PRad = Ret x -> cn_inverse N x PRad = Raise.
Proof. exact cn_inverse_radians_raises. Qed.
Print Assumptions C54_cyclic_inverse_refuted.

Example C54_ex : exists x, cn_change_param 5 (Pint 3) PInt PRad = Ret x.
Proof. eexists; reflexivity. Qed.
Example C54_ex2 : exists x, dn_change_param 5 (1%Z, Pint 3) PInt PRad = Ret x.
Proof. eexists; reflexivity. Qed.

(** ** C10 *)

Theorem C10_so2_group : is_group (pmember SO2) (pmul SO2) (pinv SO2) (pid SO2).
Proof. exact so2_group. Qed.
Print Assumptions C10_so2_group.

Theorem C10_o2_group : is_group (pmember O2) (pmul O2) (pinv O2) (pid O2).
Proof. exact o2_group. Qed.
Print Assumptions C10_o2_group.

Theorem C10_inclusions_embed : forall G id, pdocumented G id ->
  exists sg, p_subgroup G id = Ret sg /\
    is_embedding (pmember G) (pmul G) (pmember (ps_group sg)) (pmul (ps_group sg)) (ps_incl sg).
Proof. exact planar_embedding. Qed.
Print Assumptions C10_inclusions_embed.

Theorem C10_inclusion_image : forall G id sg g,
  pdocumented G id -> p_subgroup G id = Ret sg -> pmember G g ->
  (in_psubgroup id g <-> exists h, pmember (ps_group sg) h /\ ps_incl sg h = Ret g).
Proof. exact planar_image. Qed.
Print Assumptions C10_inclusion_image.

Theorem C10_restriction_inverts : forall G id sg h g,
  pdocumented G id -> p_subgroup G id = Ret sg -> pmember (ps_group sg) h ->
  ~ past_full_turn id h -> ps_incl sg h = Ret g ->
  ps_restr sg g = Ret (Some h).
Proof. exact planar_restriction_inverts. Qed.
Print Assumptions C10_restriction_inverts.

(** About an axis [a] the dihedral restriction inverts the inclusion exactly
    when [a] is less than one rotation step; beyond that it raises. *)
Theorem C10_dihedral_restriction_refuted : forall a M sg, 0 <= a <= 2 * PI -> (1 < M)%Z ->
  p_subgroup O2 (IO2 (Some a) M) = Ret sg ->
  ((forall h g, pmember (ps_group sg) h -> ps_incl sg h = Ret g -> ps_restr sg g = Ret (Some h))
   <-> a < 2 * PI / IZR M).
Proof. exact o2_dihedral_restriction_iff. Qed.
Print Assumptions C10_dihedral_restriction_refuted.

Theorem C10_dihedral_restriction_raises : forall a M sg h g, 0 <= a <= 2 * PI -> (1 < M)%Z ->
  p_subgroup O2 (IO2 (Some a) M) = Ret sg -> pmember (ps_group sg) h ->
  past_full_turn (IO2 (Some a) M) h -> ps_incl sg h = Ret g -> ps_restr sg g = Raise.
Proof. exact planar_restriction_overflow. Qed.
Print Assumptions C10_dihedral_restriction_raises.

Theorem C10_restriction_complete : forall G id sg g,
  pdocumented G id -> p_subgroup G id = Ret sg -> pmember G g -> in_psubgroup id g ->
  ps_restr sg g <> Ret None.
Proof. exact planar_restriction_not_none. Qed.
Print Assumptions C10_restriction_complete.

Theorem C10_restriction_sound : forall G id sg g h,
  pdocumented G id -> p_subgroup G id = Ret sg -> pmember G g ->
  ps_restr sg g = Ret (Some h) -> near_psubgroup (/ 10 ^ 8) id g.
Proof. exact planar_restriction_sound. Qed.
Print Assumptions C10_restriction_sound.

(** For every C_M there is an angle just below a full turn on which the
    restriction raises instead of answering. *)
Theorem C10_so2_restriction_total_refuted : forall M, (0 < M)%Z ->
  exists t, 0 <= t < 2 * PI /\ so2_child M (VS t) = Raise.
Proof. exact so2_child_raises. Qed.
Print Assumptions C10_so2_restriction_total_refuted.

Example C10_ex_id : pdocumented O2 (IO2 (Some 1) 4) /\ pdocumented SO2 (ISO2 7).
Proof. pose proof PI2_3_2; cbn; split; [split; [lia|lra]|lia]. Qed.
Example C10_ex_sub : exists sg, p_subgroup O2 (IO2 (Some 1) 4) = Ret sg.
Proof. destruct (planar_embedding O2 (IO2 (Some 1) 4)) as (sg & E & _); [apply C10_ex_id|eauto]. Qed.
Example C10_ex_overflow : past_full_turn (IO2 (Some 2) 4) (VF (VD 1 3)).
Proof. pose proof PI_4; cbn; split; [reflexivity|lra]. Qed.
Example C10_ex_no_overflow : ~ past_full_turn (IO2 (Some 1) 4) (VF (VD 1 2)).
Proof. pose proof PI2_3_2; cbn; intros [_ K]; lra. Qed.
Example C10_ex_member : pmember (Fin (Dih 4)) (VF (VD 1 3)) /\ pmember O2 (VO 1 3).
Proof. pose proof PI2_3_2; cbn; repeat split; auto; try lia; lra. Qed.
Example C10_ex_in : in_psubgroup (IO2 (Some 1) 4) (VO 1 (PI / 2 + 1)).
Proof. right; exists 1%Z, 0%Z; field. Qed.

(** ** C55: equality and hashing *)

Theorem C55_finite_equality : forall G v w, pmember (Fin G) v -> pmember (Fin G) w ->
  exists b, pequal (Fin G) v w = Ret b /\ (b = true <-> v = w).
Proof. exact pequal_fin. Qed.
Print Assumptions C55_finite_equality.

Theorem C55_finite_hash : forall G v w, pmember (Fin G) v -> pmember (Fin G) w ->
  pequal (Fin G) v w = Ret true ->
  exists k, phash_key (Fin G) v = Ret k /\ phash_key (Fin G) w = Ret k.
Proof. exact phash_fin_eq. Qed.
Print Assumptions C55_finite_hash.

Theorem C55_reflexive : forall G v, pmember G v -> pequal G v v = Ret true.
Proof. exact pequal_refl. Qed.
Print Assumptions C55_reflexive.

Theorem C55_symmetry_refuted : forall G, G = SO2 \/ G = O2 ->
  exists a b, pmember G a /\ pmember G b /\
  pequal G a b = Ret true /\ pequal G b a = Ret false.
Proof. exact equal_not_symmetric. Qed.
Print Assumptions C55_symmetry_refuted.

Theorem C55_hash_refuted : forall G, G = SO2 \/ G = O2 ->
  exists a b, pmember G a /\ pmember G b /\
  pequal G a b = Ret true /\ phash_key G a <> phash_key G b.
Proof. exact hash_refuted. Qed.
Print Assumptions C55_hash_refuted.

Example C55_ex : pmember (Fin (Dih 4)) (VF (VD 1 3)) /\
  pequal (Fin (Dih 4)) (VF (VD 1 3)) (VF (VD 1 3)) = Ret true /\
  pequal (Fin (Dih 4)) (VF (VD 1 3)) (VF (VD 0 3)) = Ret false.
Proof. cbn; repeat split; auto; lia. Qed.
