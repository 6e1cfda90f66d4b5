(** Property C94: composing the ids of nested subgroups of a direct product. *)
From Coq Require Import List ZArith Lia.
From Verif Require Import LibRes SpecGroup SpecFinGroup SpecProd FinGroupModel ProdModel PCombModel
  SpecPComb PCombProofs.
Import ListNotations.
Open Scope Z_scope.

(** When neither factor of the first subgroup is trivial, the composed id is
    accepted and names the same group with the composed inclusion. *)
Theorem C94_nested : forall G1 G2 i1 i2 j1 j2,
  valid_grp G1 = true -> valid_grp G2 = true -> documented G1 i1 -> documented G2 i2 ->
  ~ trivial_id i1 -> ~ trivial_id i2 ->
  documented (subgroup_type i1) j1 -> documented (subgroup_type i2) j2 ->
  exists k1 k2 up down T S,
    prod_combine G1 G2 (PPair (of_sgid i1) (of_sgid i2)) (PPair (of_sgid j1) (of_sgid j2))
      = Ret (PPair (of_sgid k1) (of_sgid k2)) /\
    documented G1 k1 /\ documented G2 k2 /\
    prod_sub_of G1 G2 (PPair (of_sgid i1) (of_sgid i2))
      = Ret (SubProd (prod_grp (fin_obj (subgroup_type i1)) (fin_obj (subgroup_type i2))) up down) /\
    prod_sub_of (subgroup_type i1) (subgroup_type i2) (PPair (of_sgid j1) (of_sgid j2)) = Ret S /\
    prod_sub_of G1 G2 (PPair (of_sgid k1) (of_sgid k2)) = Ret T /\ nested_in T S up.
Proof. exact prod_combine_nested. Qed.
Print Assumptions C94_nested.

(** When a factor is trivial, no id of a subgroup of the returned group can be
    composed with the id of that group. *)
Theorem C94_collapsed_refuted : forall G1 G2 i1 i2,
  valid_grp G1 = true -> valid_grp G2 = true -> documented G1 i1 -> documented G2 i2 ->
  trivial_id i1 \/ trivial_id i2 ->
  exists H up down, prod_sub_of G1 G2 (PPair (of_sgid i1) (of_sgid i2)) = Ret (SubOne (fin_obj H) up down) /\
    forall j, documented H j ->
      prod_combine G1 G2 (PPair (of_sgid i1) (of_sgid i2)) (of_sgid j) = Raise.
Proof. exact prod_combine_collapsed. Qed.
Print Assumptions C94_collapsed_refuted.

(** C_12 x D_12 > C_4 x D_6 > C_2 x D_3. *)
Example C94_ex : valid_grp (Cyc 12) = true /\ valid_grp (Dih 12) = true /\
  documented (Cyc 12) (IdC 4) /\ documented (Dih 12) (IdD (Some 1) 6) /\
  ~ trivial_id (IdC 4) /\ ~ trivial_id (IdD (Some 1) 6) /\
  documented (subgroup_type (IdC 4)) (IdC 2) /\ documented (subgroup_type (IdD (Some 1) 6)) (IdD (Some 1) 3) /\
  prod_combine (Cyc 12) (Dih 12) (PPair (PInt 4) (PPair (PInt 1) (PInt 6))) (PPair (PInt 2) (PPair (PInt 1) (PInt 3)))
    = Ret (PPair (PInt 2) (PPair (PInt 3) (PInt 3))).
Proof.
  repeat split; try (vm_compute; congruence); try (intros [E|E]; discriminate);
    try (exists 3; reflexivity); exists 2; reflexivity.
Qed.

(** C_4 x D_4 > 1 x D_2, and the rotations of D_2. *)
Example C94_collapsed_ex : valid_grp (Cyc 4) = true /\ valid_grp (Dih 4) = true /\
  documented (Cyc 4) (IdC 1) /\ documented (Dih 4) (IdD (Some 0) 2) /\
  trivial_id (IdC 1) /\ documented (Dih 2) (IdD None 2).
Proof.
  repeat split; try (vm_compute; congruence); try (left; reflexivity);
    try (exists 4; reflexivity); try (exists 2; reflexivity); exists 1; reflexivity.
Qed.
