(** Properties C01-C06: cyclic and dihedral groups and their subgroups. *)
From Coq Require Import List ZArith Lia.
From Verif Require Import LibRes SpecGroup SpecFinGroup FinGroupModel FinGroupProofs.
Import ListNotations.
Open Scope Z_scope.

(** C01 *)
Theorem C01_cyclic_group : forall N, 0 < N ->
  is_group (member (Cyc N)) (gmul (Cyc N)) (ginv (Cyc N)) (gid (Cyc N)) /\
  (exists l, elements (Cyc N) = Ret l /\ enumerates (member (Cyc N)) l /\
     order (Cyc N) = Ret N /\ Z.of_nat (length l) = N) /\
  (exists gens, generators (Cyc N) = Ret gens /\ (length gens <= 1)%nat /\
     Forall (member (Cyc N)) gens /\
     forall x, member (Cyc N) x -> generated (gmul (Cyc N)) (gid (Cyc N)) gens x).
Proof. exact cyc_full. Qed.
Print Assumptions C01_cyclic_group.

Example C01_nontrivial : 0 < 7 /\ gmul (Cyc 7) (VC 5) (VC 4) = Ret (VC 2) /\
  ginv (Cyc 7) (VC 5) = Ret (VC 2).
Proof. repeat split; vm_compute; congruence. Qed.

(** C02 *)
Theorem C02_dihedral_group : forall N, 0 < N ->
  is_group (member (Dih N)) (gmul (Dih N)) (ginv (Dih N)) (gid (Dih N)) /\
  (exists l, elements (Dih N) = Ret l /\ enumerates (member (Dih N)) l /\
     order (Dih N) = Ret (2 * N) /\ Z.of_nat (length l) = 2 * N) /\
  (exists gens, generators (Dih N) = Ret gens /\ Forall (member (Dih N)) gens /\
     forall x, member (Dih N) x -> generated (gmul (Dih N)) (gid (Dih N)) gens x) /\
  (forall a r s t ai,
     member (Dih N) (VD 0 r) -> member (Dih N) (VD 1 a) ->
     gmul (Dih N) (VD 1 a) (VD 0 r) = Ret s -> ginv (Dih N) (VD 1 a) = Ret ai ->
     gmul (Dih N) s ai = Ret t -> ginv (Dih N) (VD 0 r) = Ret t).
Proof. exact dih_full. Qed.
Print Assumptions C02_dihedral_group.

(** The flip and the rotation do not commute in D_5. *)
Example C02_nontrivial : 0 < 5 /\
  gmul (Dih 5) (VD 1 0) (VD 0 1) = Ret (VD 1 4) /\
  gmul (Dih 5) (VD 0 1) (VD 1 0) = Ret (VD 1 1).
Proof. repeat split; vm_compute; congruence. Qed.

(** C03: the ids of C_N are the divisors M of N *)
Theorem C03_cyclic_subgroups : forall N M, 0 < N -> 0 < M -> (M | N) ->
  exists sg, subgroup (Cyc N) (IdC M) = Ret sg /\ sg_group sg = Cyc M /\
    is_embedding (member (Cyc N)) (gmul (Cyc N)) (member (Cyc M)) (gmul (Cyc M))
      (sg_incl sg) /\
    is_restriction (member (Cyc N)) (member (Cyc M)) (sg_incl sg) (sg_restr sg) /\
    forall r, 0 <= r < N ->
      ((exists h, sg_restr sg (VC r) = Ret (Some h)) <-> (N / M | r)).
Proof. exact cyc_subgroups. Qed.
Print Assumptions C03_cyclic_subgroups.

Example C03_nontrivial : 0 < 12 /\ 0 < 4 /\ (4 | 12) /\
  parent_c 12 4 (VC 3) = Ret (VC 9) /\ child_c 12 4 (VC 9) = Ret (Some (VC 3)) /\
  child_c 12 4 (VC 8) = Ret None.
Proof. repeat split; try (vm_compute; congruence). exists 3; reflexivity. Qed.

(** C04 *)
Theorem C04_dihedral_subgroups : forall N id, 0 < N -> documented (Dih N) id ->
  exists sg, subgroup (Dih N) id = Ret sg /\ sg_group sg = subgroup_type id /\
    is_group (member (sg_group sg)) (gmul (sg_group sg)) (ginv (sg_group sg)) (gid (sg_group sg)) /\
    is_embedding (member (Dih N)) (gmul (Dih N)) (member (sg_group sg)) (gmul (sg_group sg))
      (sg_incl sg) /\
    is_restriction (member (Dih N)) (member (sg_group sg)) (sg_incl sg) (sg_restr sg) /\
    forall g, member (Dih N) g ->
      ((exists h, sg_restr sg g = Ret (Some h)) <-> in_subgroup (Dih N) id g).
Proof. exact dih_subgroups. Qed.
Print Assumptions C04_dihedral_subgroups.

Example C04_nontrivial : documented (Dih 12) (IdD (Some 2) 4) /\
  dm_to_dn 2 12 4 (VD 1 3) = Ret (VD 1 11) /\
  dn_to_dm 2 12 4 (VD 1 11) = Ret (Some (VD 1 3)) /\
  dn_to_dm 2 12 4 (VD 1 10) = Ret None.
Proof.
  repeat split; try (vm_compute; congruence). exists 3; reflexivity.
Qed.

(** C05 is false of the code: for M > 1, whenever an accepted axis lies outside the
    documented range 0 <= axis < N/M, the restriction map raises on some element of
    D_N and the inclusion map raises on some element of D_M. *)
Theorem C05_accepted_axis_refuted : forall N M a, 0 < N -> 1 < M -> (M | N) ->
  N / M <= a < N ->
  exists sg, subgroup (Dih N) (IdD (Some a) M) = Ret sg /\ sg_group sg = Dih M /\
    (exists h, member (Dih M) h /\ sg_incl sg h = Raise) /\
    (exists g, member (Dih N) g /\ sg_restr sg g = Raise).
Proof. exact accepted_axis_breaks. Qed.
Print Assumptions C05_accepted_axis_refuted.

(** The accepted ids whose restriction map is total are exactly the documented ones. *)
Theorem C05_usable_ids_are_the_documented_ones : forall N M a sg, 0 < N ->
  subgroup (Dih N) (IdD (Some a) M) = Ret sg ->
  ((forall g, member (Dih N) g -> exists o, sg_restr sg g = Ret o) <->
   documented (Dih N) (IdD (Some a) M)).
Proof. exact usable_iff_documented. Qed.
Print Assumptions C05_usable_ids_are_the_documented_ones.

Example C05_witness : exists sg, subgroup (Dih 4) (IdD (Some 3) 2) = Ret sg /\
  member (Dih 4) (VD 1 1) /\ sg_restr sg (VD 1 1) = Raise.
Proof. eexists; split; [reflexivity|]; split; [cbn; lia|reflexivity]. Qed.

(** C06 *)
Theorem C06_nested_subgroups : forall G id1 id2 sg1 sg2,
  valid_grp G = true -> documented G id1 -> subgroup G id1 = Ret sg1 ->
  documented (sg_group sg1) id2 -> subgroup (sg_group sg1) id2 = Ret sg2 ->
  exists id sg, combine_subgroups G id1 id2 = Ret id /\ documented G id /\
    subgroup G id = Ret sg /\ sg_group sg = sg_group sg2 /\
    forall h, member (sg_group sg2) h ->
      sg_incl sg h = (m <- sg_incl sg2 h ;; sg_incl sg1 m).
Proof. exact combine_subgroups_ok. Qed.
Print Assumptions C06_nested_subgroups.

(** D_12 > D_6 (axis 1) > D_3 (axis 1 of D_6): the combined id is (3, 3). *)
Example C06_nontrivial : documented (Dih 12) (IdD (Some 1) 6) /\
  documented (Dih 6) (IdD (Some 1) 3) /\
  combine_subgroups (Dih 12) (IdD (Some 1) 6) (IdD (Some 1) 3) = Ret (IdD (Some 3) 3).
Proof.
  repeat split; try (vm_compute; congruence); exists 2; reflexivity.
Qed.
