(** When _combine_subgroups of O(3) composes the inclusions. *)
From Coq Require Import Reals ZArith Bool List Lia Lra.
From Verif Require Import LibRes LibMat LibTrig FinGroupModel SpecFinGroup SpecGroup ParamModel ParamProofs
  PlanarModel SpecPlanar PlanarProofs SpaceModel SpecSpace SpaceProofs SpaceTol SpaceThms SpaceSub SpaceComb
  SpaceO3Model SpecSpaceO3 SpaceO3Proofs SpaceO3Cone SpaceO3Thms.
Import ListNotations.
Open Scope R_scope.

(** ** Composition *)

Lemma moved_frame : forall adj1 G1 M1 s1 w, ounit adj1 -> space_subgroup ounit omat (omat adj1) G1 M1 s1 -> smember G1 w ->
  exists i, s3_incl s1 w = Ret i /\ o3_mul adj1 i = Ret (omul adj1 i) /\ ounit (omul adj1 i) /\
    meq 3 3 (omat (omul adj1 i)) (mmul 3 (M1 w) (omat adj1)).
Proof.
  intros adj1 G1 M1 s1 w Ha C Hw; destruct (sub_incl _ _ _ _ _ _ C w Hw) as (i & E & U & M).
  exists i; split; [exact E|]; split; [apply o3_mul_unit; assumption|]; split; [apply ounit_mul; assumption|].
  eapply meq_trans3; [apply omat_mul; assumption|].
  eapply meq_trans3; [apply mmul3; [apply meq_refl3|exact M]|]; unfold conjugate.
  eapply meq_trans3; [apply meq_sym3, mmul3_assoc|].
  eapply meq_trans3; [apply mmul3; [apply (proj1 (omat_orth adj1 Ha))|apply meq_refl3]|]; apply mmul3_id_l.
Qed.

Lemma compose : forall adj1 adj s1 s G1 G M1 M A2 incl2, ounit adj1 ->
  space_subgroup ounit omat (omat adj1) G1 M1 s1 -> space_subgroup ounit omat (omat adj) G M s ->
  meq 3 3 (omat adj) (mmul 3 A2 (omat adj1)) ->
  forall h g1, smember G h -> incl2 h = Ret g1 -> smember G1 g1 ->
    exists g2 g, s3_incl s1 g1 = Ret g2 /\ s3_incl s h = Ret g /\
      (meq 3 3 (omat g) (omat g2) <-> meq 3 3 (conjugate A2 (M h)) (M1 g1)).
Proof.
  intros adj1 adj s1 s G1 G M1 M A2 incl2 Ha C1 C E h g1 Hh I Hg1.
  destruct (sub_incl _ _ _ _ _ _ C1 g1 Hg1) as (g2 & I2 & _ & X2), (sub_incl _ _ _ _ _ _ C h Hh) as (g & Ig & _ & Xg).
  exists g2, g; split; [exact I2|]; split; [exact Ig|].
  assert (K : meq 3 3 (omat g) (conjugate (omat adj1) (conjugate A2 (M h)))).
  { eapply meq_trans3; [exact Xg|]; eapply meq_trans3; [apply conj3; [exact E|apply meq_refl3]|apply conj_conj]. }
  split; intros Q.
  - apply (conj_inj (omat adj1)); [apply omat_orth; exact Ha|].
    eapply meq_trans3; [apply meq_sym3, K|]; eapply meq_trans3; [exact Q|exact X2].
  - eapply meq_trans3; [exact K|]; eapply meq_trans3; [apply conj3; [apply meq_refl3|exact Q]|apply meq_sym3, X2].
Qed.

(** ** Ids *)

Lemma documented_pid : forall id adj, o3_documented id -> valid_adj adj ->
  exists pid a, o3_process id adj = Ret (pid, a) /\ pid_ok pid /\ ounit a.
Proof.
  intros id adj D Hadj.
  assert (X : (exists a N, id = O3Cone (Some a) N) \/ ~ explicit_cone id).
  { destruct id as [?|?|? ? ?|[a|] N]; cbn; auto; left; exists a, N; reflexivity. }
  destruct X as [(a & N & ->)|K].
  - destruct (cone_some_faithful a N adj D Hadj) as (E & P & U & _); eauto.
  - destruct (process_faithful id adj D K Hadj) as (pid & a & E & P & U & _); eauto.
Qed.

Lemma pid_documented : forall pid, pid_ok pid -> o3_documented (of_pid pid) /\ ~ explicit_cone (of_pid pid).
Proof.
  intros [?|[b|?] f N|N] H; cbn in *; try contradiction; split; auto; apply H.
Qed.

(** The subgroup of an id is that of its processed id. *)
Lemma subgroup_pid : forall id adj s, o3_documented id -> valid_adj adj -> o3_subgroup id adj = Ret s ->
  exists pid a, o3_process id adj = Ret (pid, a) /\ pid_ok pid /\ ounit a /\ o3_subgroup' pid a = Ret s /\
    space_subgroup ounit omat (omat a) (o3_group_of (of_pid pid)) (o3_matrix (of_pid pid)) s.
Proof.
  intros id adj s D Hadj E; destruct (documented_pid id adj D Hadj) as (pid & a & P & Ok & U).
  exists pid, a; split; [exact P|]; split; [exact Ok|]; split; [exact U|].
  unfold o3_subgroup in E; rewrite P in E; cbn [bind fst snd] in E; split; [exact E|].
  destruct (pid_correct pid a Ok U) as (s' & E' & C); rewrite E in E'; apply Ret_inj in E'; subst s'; exact C.
Qed.

Lemma pid_subgroup : forall pid a, pid_ok pid -> ounit a ->
  exists s, o3_subgroup (of_pid pid) (Some a) = Ret s /\
    space_subgroup ounit omat (omat a) (o3_group_of (of_pid pid)) (o3_matrix (of_pid pid)) s.
Proof.
  intros pid a Ok U; destruct (pid_documented pid Ok) as [D K]; apply (o3_subgroups (of_pid pid) (Some a) D K U).
Qed.

Lemma process_full : forall id b adj, (id = O3Full b \/ id = O3Name b) -> o3_process id adj = Ret (P3Full b, adj_of adj).
Proof. intros id b [a|] [->| ->]; reflexivity. Qed.

(** ** Subgroups of O(3) *)
Lemma combined_o3 : forall id1 adj1 s1 id2, (id1 = O3Full true \/ id1 = O3Name true) -> valid_adj adj1 ->
  o3_subgroup id1 adj1 = Ret s1 -> o3_sub_documented (s3_group s1) id2 -> combined id1 adj1 s1 id2.
Proof.
  intros id1 adj1 s1 id2 Hid Ha E1 D2; destruct (adj_ok adj1 Ha) as [U1 _].
  unfold o3_subgroup in E1; rewrite (process_full _ _ adj1 Hid) in E1; cbn [bind fst snd] in E1.
  set (a1 := adj_of adj1) in *.
  destruct (pid_correct (P3Full true) a1 I U1) as (s1' & E1' & C1); rewrite E1 in E1'; apply Ret_inj in E1'; subst s1'.
  cbn [of_pid o3_group_of] in C1; rewrite (sub_group _ _ _ _ _ _ C1) in D2.
  destruct id2 as [id2 adj2|? ?|?|? ?]; cbn in D2; try contradiction; destruct D2 as [D2 Ha2].
  destruct (documented_pid id2 adj2 D2 Ha2) as (pid & a2 & P2 & Ok & U2).
  destruct (pid_correct pid a2 Ok U2) as (s2 & E2 & C2).
  assert (Hw : smember GO3 (EO a2)) by exact U2.
  destruct (moved_frame a1 GO3 _ s1 (EO a2) U1 C1 Hw) as (i & I1 & I2 & Ui & Mi).
  destruct (pid_subgroup pid (omul a1 i) Ok Ui) as (s & Es & C).
  exists (of_pid pid), (omul a1 i), s, (fun h => g <- s3_incl s2 h ;; Ret (EO g)).
  split; [|split; [exact Ui|split; [exact Es|split]]].
  - unfold o3_combine_subgroups; rewrite (process_full _ _ adj1 Hid); cbn [bind fst snd]; fold a1.
    rewrite E1; cbn [bind]; rewrite P2; cbn [bind fst snd]; rewrite I1; cbn [bind]; rewrite I2; reflexivity.
  - rewrite (sub_group _ _ _ _ _ _ C1); cbn [o3_sub_subgroup]; unfold o3_subgroup; rewrite P2; cbn [bind fst snd].
    rewrite E2; cbn [bind]; rewrite (sub_group _ _ _ _ _ _ C), (sub_group _ _ _ _ _ _ C2); reflexivity.
  - intros h Hh; rewrite (sub_group _ _ _ _ _ _ C) in Hh.
    destruct (sub_incl _ _ _ _ _ _ C2 h Hh) as (g1 & X1 & V1 & Y1).
    destruct (compose a1 (omul a1 i) s1 s GO3 _ _ _ (omat a2) (fun h => g <- s3_incl s2 h ;; Ret (EO g)) U1 C1 C Mi h (EO g1) Hh)
      as (g2 & g & Z1 & Z2 & Z3); [rewrite X1; reflexivity|exact V1|].
    exists (EO g1), g2, g; rewrite X1; split; [reflexivity|]; split; [exact Z1|]; split; [exact Z2|].
    apply Z3, meq_sym3; exact Y1.
Qed.

(** ** Subgroups of SO(3) *)
Definition of_so3 (id : so3pid) : o3pid :=
  match id with S3PSelf => P3Full false | S3PPlane b n => P3Plane (IBool false) b n end.

Lemma so3_pid : forall id adj, so3_documented id -> unit adj ->
  exists pid a s, so3_process id adj = Ret (pid, a) /\ unit a /\ pid_ok (of_so3 pid) /\ so3_subgroup id adj = Ret s /\
    space_subgroup unit as_matrix (as_matrix a) (o3_group_of (of_pid (of_so3 pid))) (o3_matrix (of_pid (of_so3 pid))) s.
Proof.
  intros id adj D U; destruct (so3_subgroup_exists id adj D U) as [s E].
  destruct id as [|f N].
  - exists S3PSelf, adj, s; split; [reflexivity|]; split; [exact U|]; split; [exact I|]; split; [exact E|].
    apply (reframe unit as_matrix _ _ _ _ _ _ (so3_subgroup_correct S3Self adj s I U E)).
    intros [?|?|?|? ?] Hh; cbn in Hh; try contradiction; apply meq_refl3.
  - destruct (planar_base f N adj s D U E) as (b & M & a & P1 & P2 & P3 & P4 & P5 & P6).
    exists (S3PPlane b M), a, s; split; [exact P1|]; split; [exact P2|]; split; [|split; [exact E|]].
    + cbn; split; [exact P4|]; intros [X Y]; exact (P5 X Y).
    + apply (reframe unit as_matrix _ _ _ _ _ _ P6); intros [v|?|?|? ?] Hh; cbn in Hh; try contradiction.
      apply conj3; [apply meq_refl3|]; apply plain_plane; intros [X Y]; exact (P5 X Y).
Qed.

Lemma combined_so3 : forall id1 adj1 s1 id2, (id1 = O3Full false \/ id1 = O3Name false) -> valid_adj adj1 ->
  o3_subgroup id1 adj1 = Ret s1 -> o3_sub_documented (s3_group s1) id2 -> combined id1 adj1 s1 id2.
Proof.
  intros id1 adj1 s1 id2 Hid Ha E1 D2; destruct (adj_ok adj1 Ha) as [U1 _].
  unfold o3_subgroup in E1; rewrite (process_full _ _ adj1 Hid) in E1; cbn [bind fst snd] in E1.
  set (a1 := adj_of adj1) in *.
  destruct (pid_correct (P3Full false) a1 I U1) as (s1' & E1' & C1); rewrite E1 in E1'; apply Ret_inj in E1'; subst s1'.
  cbn [of_pid o3_group_of] in C1; rewrite (sub_group _ _ _ _ _ _ C1) in D2.
  destruct id2 as [? ?|id2 adj2|?|? ?]; cbn in D2; try contradiction; destruct D2 as [D2 U2].
  destruct (so3_pid id2 adj2 D2 U2) as (pid & a2 & s2 & P2 & Ua2 & Ok & E2 & C2).
  assert (Hw : smember GSO3 (EQ a2)) by exact Ua2.
  destruct (moved_frame a1 GSO3 _ s1 (EQ a2) U1 C1 Hw) as (i & I1 & I2 & Ui & Mi).
  destruct (pid_subgroup (of_so3 pid) (omul a1 i) Ok Ui) as (s & Es & C).
  exists (of_pid (of_so3 pid)), (omul a1 i), s, (fun h => g <- s3_incl s2 h ;; Ret (EQ g)).
  split; [|split; [exact Ui|split; [exact Es|split]]].
  - unfold o3_combine_subgroups; rewrite (process_full _ _ adj1 Hid); cbn [bind fst snd]; fold a1.
    rewrite E1; cbn [bind]; rewrite P2; cbn [bind fst snd]; rewrite I1; cbn [bind]; rewrite I2; destruct pid; reflexivity.
  - rewrite (sub_group _ _ _ _ _ _ C1); cbn [o3_sub_subgroup sub_subgroup]; rewrite E2; cbn [bind].
    rewrite (sub_group _ _ _ _ _ _ C), (sub_group _ _ _ _ _ _ C2); reflexivity.
  - intros h Hh; rewrite (sub_group _ _ _ _ _ _ C) in Hh.
    destruct (sub_incl _ _ _ _ _ _ C2 h Hh) as (g1 & X1 & V1 & Y1).
    destruct (compose a1 (omul a1 i) s1 s GSO3 _ _ _ (as_matrix a2) (fun h => g <- s3_incl s2 h ;; Ret (EQ g)) U1 C1 C Mi h (EQ g1) Hh)
      as (g2 & g & Z1 & Z2 & Z3); [rewrite X1; reflexivity|exact V1|].
    exists (EQ g1), g2, g; rewrite X1; split; [reflexivity|]; split; [exact Z1|]; split; [exact Z2|].
    apply Z3, meq_sym3; exact Y1.
Qed.

(** ** Cones *)

Lemma turn_cone : forall a k t, (k = 0 \/ k = 1)%Z ->
  meq 3 3 (conjugate (Rz a) (mmul 3 (Rz t) (mirrorY k))) (mmul 3 (Rz (t + IZR k * - (2 * a))) (mirrorY k)).
Proof.
  intros a k t Hk; eapply meq_trans3; [|apply turn_mirror; exact Hk].
  apply conj3; [|apply meq_refl3]; apply meq_sym3, omat_rot; replace (2 * a / 2 / 2) with (a / 2) by field; apply mat_turn.
Qed.

(** A reflection of each cone. *)
Definition a_mirror (n : Z) : pval :=
  if (n =? -1)%Z then VO 1 0 else if (n =? 1)%Z then VF (VC 1) else VF (VD 1 0).
Lemma a_mirror_ok : forall n, (n = -1 \/ 0 < n)%Z ->
  pmember (plane_group true n) (a_mirror n) /\ plane_flip true n (a_mirror n) = 1%Z.
Proof.
  intros n D; unfold plane_group, plane_flip, a_mirror; cbn [andb].
  destruct (Z.eqb_spec n (-1)) as [->|N0]; [cbn; split; [|reflexivity]; pose proof PI_RGT_0; split; [auto|lra]|].
  destruct (Z.eqb_spec n 1) as [->|N1]; [cbn; split; [lia|reflexivity]|].
  cbn; split; [lia|reflexivity].
Qed.

Definition cone_like (G : pgrp) : Prop := dihedral_like G.

(** One pyramid inside a cone, with the axis at angle [t]. *)
Lemma combined_cone : forall G id1 adj1 s1 a1 id2 n w t, dihedral_like G ->
  ounit a1 -> space_subgroup ounit omat (omat a1) (GP G) (cone_of G) s1 ->
  sub_documented (GP G) id2 -> flips (inner_flip G id2) = true -> inner_order id2 = n -> axis2 (inner_flip G id2) = t ->
  pmember G w -> flip_of w = 0%Z -> same_angle (angle_of G w) t ->
  (forall i, s3_incl s1 (EP w) = Ret i -> o3_combine_subgroups id1 adj1 (DPlane id2) = Ret (O3Cone None n, omul a1 i)) ->
  (combined id1 adj1 s1 (DPlane id2) <-> same_angle (3 * t) 0).
Proof.
  intros G id1 adj1 s1 a1 id2 n w t HG U1 C1 D2 F N T Hw Fw Aw K.
  destruct (inner_cases G id2 D2 (or_intror HG)) as (incl2 & S2 & Dn & In); rewrite F, N in S2, In; rewrite N in Dn.
  assert (Hw' : smember (GP G) (EP w)) by exact Hw.
  destruct (moved_frame a1 (GP G) _ s1 (EP w) U1 C1 Hw') as (i & I1 & I2 & Ui & Mi).
  specialize (K i I1).
  assert (Mi' : meq 3 3 (omat (omul a1 i)) (mmul 3 (Rz t) (omat a1))).
  { eapply meq_trans3; [exact Mi|]; apply mmul3; [|apply meq_refl3]; cbn [cone_of]; unfold cone_base.
    rewrite Fw, (Rz_same _ _ Aw); apply meq_sym3; intros r c Hr Hc; mat_entries r c Hr Hc; cbn; ring. }
  destruct (pid_subgroup (P3Cone n) (omul a1 i) Dn Ui) as (s & Es & C); cbn [of_pid o3_group_of] in Es, C.
  assert (Z : forall h, smember (GP (plane_group true n)) h -> exists v u g2 g, h = EP v /\ incl2 h = Ret (EP u) /\
    s3_incl s1 (EP u) = Ret g2 /\ s3_incl s h = Ret g /\
    (meq 3 3 (omat g) (omat g2) <->
     same_angle (plane_angle true n v + IZR (plane_flip true n v) * - (2 * t))
                (plane_angle true n v + IZR (plane_flip true n v) * t))).
  { intros h Hh; destruct (In h Hh) as (v & u & -> & I2' & Mu & Fu & Au); rewrite T in Au.
    destruct (compose a1 (omul a1 i) s1 s (GP G) _ _ _ (Rz t) incl2 U1 C1 C Mi' (EP v) (EP u) Hh I2' Mu) as (g2 & g & Z1 & Z2 & Z3).
    exists v, u, g2, g; split; [reflexivity|]; split; [exact I2'|]; split; [exact Z1|]; split; [exact Z2|].
    assert (Hk : (plane_flip true n v = 0 \/ plane_flip true n v = 1)%Z) by (apply plane_flip_01; assumption).
    assert (X : meq 3 3 (conjugate (Rz t) (o3_matrix (O3Cone None n) (EP v)))
      (mmul 3 (Rz (plane_angle true n v + IZR (plane_flip true n v) * - (2 * t))) (mirrorY (plane_flip true n v)))).
    { cbn [o3_matrix]; rewrite Rmult_0_r, Rplus_0_r; apply turn_cone; exact Hk. }
    assert (Y : meq 3 3 (cone_of G (EP u))
      (mmul 3 (Rz (plane_angle true n v + IZR (plane_flip true n v) * t)) (mirrorY (plane_flip true n v)))).
    { cbn [cone_of]; unfold cone_base; rewrite Fu, (Rz_same _ _ Au); apply meq_refl3. }
    split; intros Q.
    - apply Z3 in Q; apply (cone_matrix_inj _ _ (plane_flip true n v) (plane_flip true n v)); [exact Hk|exact Hk|].
      eapply meq_trans3; [apply meq_sym3, X|]; eapply meq_trans3; [exact Q|exact Y].
    - apply Z3; eapply meq_trans3; [exact X|]; rewrite (Rz_same _ _ Q); apply meq_sym3, Y. }
  split.
  - intros (id & adj & s' & incl' & K1 & _ & K2 & K3 & K4); rewrite K in K1; injection K1 as <- <-.
    rewrite Es in K2; apply Ret_inj in K2; subst s'.
    destruct (a_mirror_ok n Dn) as [Am Af].
    assert (Hm : smember (GP (plane_group true n)) (EP (a_mirror n))) by exact Am.
    rewrite (sub_group _ _ _ _ _ _ C1) in K3; cbn [o3_sub_subgroup] in K3; rewrite S2 in K3; injection K3 as _ <-.
    rewrite (sub_group _ _ _ _ _ _ C) in K4.
    destruct (K4 _ Hm) as (x1 & x2 & x & X1 & X2 & X & XX), (Z _ Hm) as (v & u & g2 & g & Ev & Z1 & Z2 & Z3 & Z4).
    injection Ev as <-; rewrite X1 in Z1; apply Ret_inj in Z1; subst x1.
    rewrite X2 in Z2; apply Ret_inj in Z2; subst x2; rewrite X in Z3; apply Ret_inj in Z3; subst x.
    apply Z4 in XX; rewrite Af in XX; destruct XX as [z Ez]; exists (- z)%Z; rewrite opp_IZR; cbn in Ez; lra.
  - intros [z Ez]; exists (O3Cone None n), (omul a1 i), s, incl2; split; [exact K|]; split; [exact Ui|]; split; [exact Es|].
    split.
    + rewrite (sub_group _ _ _ _ _ _ C1), (sub_group _ _ _ _ _ _ C); exact S2.
    + intros h Hh; rewrite (sub_group _ _ _ _ _ _ C) in Hh.
      destruct (Z h Hh) as (v & u & g2 & g & -> & Z1 & Z2 & Z3 & Z4).
      exists (EP u), g2, g; split; [exact Z1|]; split; [exact Z2|]; split; [exact Z3|]; apply Z4.
      assert (Hk : (plane_flip true n v = 0 \/ plane_flip true n v = 1)%Z) by (apply plane_flip_01; assumption).
      destruct Hk as [->| ->]; [apply sa_eq; ring|].
      exists (- z)%Z; rewrite opp_IZR; cbn; lra.
Qed.

Lemma process_cone : forall a N adj, (N = -1 \/ 0 < N)%Z -> valid_adj adj ->
  exists a1, ounit a1 /\ o3_process (O3Cone a N) adj = Ret (P3Cone N, a1).
Proof.
  intros [a|] N adj D Ha; destruct (adj_ok adj Ha) as [U _].
  - destruct (cone_some_faithful a N adj D Ha) as (E & _ & U' & _); eauto.
  - exists (adj_of adj); split; [exact U|reflexivity].
Qed.

Lemma cone_iff : forall a N adj1 s1 id2, (N = -1 \/ 0 < N)%Z -> valid_adj adj1 ->
  o3_subgroup (O3Cone a N) adj1 = Ret s1 -> o3_sub_documented (s3_group s1) id2 ->
  (combined (O3Cone a N) adj1 s1 id2 <-> combinable (O3Cone a N) id2).
Proof.
  intros a N adj1 s1 id2 D Ha E1 D2; destruct (process_cone a N adj1 D Ha) as (a1 & U1 & P1).
  pose proof E1 as E0; unfold o3_subgroup in E1; rewrite P1 in E1; cbn [bind fst snd o3_subgroup'] in E1.
  destruct (Z.eqb_spec N 1) as [->|N1].
  - (* the mirror *)
    cbn in E1; apply Ret_inj in E1; pose proof (osub_mir a1 U1) as C1; rewrite E1 in C1.
    rewrite <- E1 in D2; cbn [s3_group] in D2.
    destruct id2 as [? ?|? ?|[? ?|m|? ?|? ?]|? ?]; cbn in D2; try contradiction.
    assert (Hm : (m = 1 \/ m = 2)%Z).
    { destruct D2 as [P [k Hk]]; assert (k = 1 \/ k = 2)%Z by nia; lia. }
    assert (K : o3_combine_subgroups (O3Cone a 1) adj1 (DPlane (BInt m)) = Ret (O3Cone None 1, a1)).
    { unfold o3_combine_subgroups; rewrite P1; cbn [bind fst snd]; cbn; destruct Hm as [->| ->]; reflexivity. }
    destruct (pid_subgroup (P3Cone 1) a1 D U1) as (s & Es & C).
    cbn [combinable]; split.
    + intros (id & adj & s' & incl' & K1 & _ & K2 & K3 & _); rewrite K in K1; injection K1 as <- <-.
      cbn [of_pid] in Es; rewrite Es in K2; apply Ret_inj in K2; subst s'.
      rewrite (sub_group _ _ _ _ _ _ C1), (sub_group _ _ _ _ _ _ C) in K3.
      destruct Hm as [->| ->]; [|reflexivity]; cbn in K3; discriminate K3.
    + intros ->; exists (O3Cone None 1), a1, s.
      destruct (sub_subgroup (GP (Fin (Cyc 2))) (BInt 2)) as [|[G2 incl2]] eqn:S2; [cbn in S2; discriminate S2|].
      exists incl2; split; [exact K|]; split; [exact U1|]; split; [exact Es|].
      rewrite (sub_group _ _ _ _ _ _ C1), (sub_group _ _ _ _ _ _ C).
      cbn in S2; apply Ret_inj in S2; injection S2 as <- <-; split; [reflexivity|].
      intros h Hh; destruct (c2_cases h Hh) as (r & Hr & ->).
      assert (I : parent_c 2 2 (VC r) = Ret (VC r)) by (destruct Hr as [->| ->]; reflexivity).
      destruct (sub_incl _ _ _ _ _ _ C1 _ Hh) as (g2 & X1 & _ & Y1), (sub_incl _ _ _ _ _ _ C _ Hh) as (g & X2 & _ & Y2).
      exists (EP (VF (VC r))), g2, g; rewrite I; split; [reflexivity|]; split; [exact X1|]; split; [exact X2|].
      eapply meq_trans3; [exact Y2|]; eapply meq_trans3; [|apply meq_sym3, Y1]; apply conj3; [apply meq_refl3|].
      cbn [mirror_of of_pid o3_matrix plane_angle plane_flip andb Z.eqb Pos.eqb]; rewrite Rmult_0_r, Rplus_0_r.
      apply meq_sym3, mirror_cone.
  - (* pyramids *)
    assert (HG : dihedral_like (plane_group true N)) by (apply dihedral_documented; assumption).
    pose proof (osub_con _ a1 HG U1) as C1.
    assert (Es : s1 = {| s3_group := GP (plane_group true N); s3_incl := con_to_o3 a1 (plane_group true N);
                         s3_restr := o3_to_con a1 (plane_group true N) |}).
    { unfold plane_group; destruct (Z.eqb_spec N (-1)); [apply Ret_inj in E1; symmetry; exact E1|].
      destruct (Z.eqb_spec N 1); [contradiction|]; destruct (Z.ltb_spec 1 N); [|lia].
      apply Ret_inj in E1; symmetry; exact E1. }
    rewrite <- Es in C1; rewrite (sub_group _ _ _ _ _ _ C1) in D2.
    assert (S1 : o3_subgroup' (P3Cone N) a1 = Ret s1).
    { unfold o3_subgroup in E0; rewrite P1 in E0; exact E0. }
    unfold plane_group in *; destruct (Z.eqb_spec N (-1)) as [->|N0].
    + destruct id2 as [? ?|? ?|[? ?|?|[x|] n|? ?]|? ?]; cbn in D2; try contradiction.
      * cbn [combinable].
        apply (combined_cone O2 (O3Cone a (-1)) adj1 s1 a1 (BO2 (Some x) n) n (VO 0 (m x)) x); try assumption; try reflexivity.
        -- cbn; split; [auto|]; apply m_range.
        -- cbn; apply sa_m.
        -- intros i Hi; unfold o3_combine_subgroups; rewrite P1; cbn [bind fst snd]; rewrite S1; cbn [bind Z.eqb Pos.eqb].
           rewrite pelement_o2 by auto; cbn [bind]; rewrite Hi; cbn [bind].
           destruct (sub_incl _ _ _ _ _ _ C1 (EP (VO 0 (m x)))) as (i' & Hi' & Ui & _);
             [cbn; split; [auto|apply m_range]|].
           rewrite Hi in Hi'; apply Ret_inj in Hi'; subst i'; rewrite o3_mul_unit by assumption; reflexivity.
      * cbn [combinable]; split; [|contradiction]; intros (id & adj & s & incl2 & K1 & _ & K2 & _).
        unfold o3_combine_subgroups in K1; rewrite P1 in K1; cbn [bind fst snd] in K1; rewrite S1 in K1; cbn in K1.
        apply Ret_inj in K1; injection K1 as <- <-; discriminate K2.
    + destruct (Z.eqb_spec N 1) as [?|N2]; [contradiction|].
      destruct id2 as [? ?|? ?|[? ?|?|? ?|[k|] n]|? ?]; cbn in D2; try contradiction.
      * cbn [combinable]; destruct D2 as (Pn & Dv & Rk).
        assert (Hk : (0 <= k < N)%Z).
        { split; [lia|]; assert (N / n <= N)%Z by (apply Z.div_le_upper_bound; nia); lia. }
        replace (2 * PI / IZR N * IZR k) with (IZR k * 2 * PI / IZR N) by (field; apply not_0_IZR; lia).
        assert (El : is_element (Dih N) (VD 0 k) = true).
        { unfold is_element; destruct (Z.leb_spec 0 k); [|lia]; destruct (Z.ltb_spec k N); [|lia]; reflexivity. }
        apply (combined_cone (Fin (Dih N)) (O3Cone a N) adj1 s1 a1 (BDih (Some k) n) n (VF (VD 0 k)) (IZR k * 2 * PI / IZR N));
          try assumption; try reflexivity.
        -- cbn; auto.
        -- cbn; split; lia.
        -- cbn; apply sa_eq; field; apply not_0_IZR; lia.
        -- intros i Hi; unfold o3_combine_subgroups; rewrite P1; cbn [bind fst snd]; rewrite S1; cbn [bind].
           destruct (Z.ltb_spec 1 N); [|lia]; rewrite El; cbn [bind]; rewrite Hi; cbn [bind].
           destruct (sub_incl _ _ _ _ _ _ C1 (EP (VF (VD 0 k)))) as (i' & Hi' & Ui & _); [cbn; split; lia|].
           rewrite Hi in Hi'; apply Ret_inj in Hi'; subst i'; rewrite o3_mul_unit by assumption; reflexivity.
      * cbn [combinable]; split; [|contradiction]; intros (id & adj & s & incl2 & K1 & _ & K2 & _).
        unfold o3_combine_subgroups in K1; rewrite P1 in K1; cbn [bind fst snd] in K1; rewrite S1 in K1; cbn [bind] in K1.
        destruct (Z.ltb_spec 1 N); [|lia]; apply Ret_inj in K1; injection K1 as <- <-; discriminate K2.
Qed.

(** ** Cylinders *)

(** An int in place of the bool: 2 raises, 1 includes the inversion. *)
Lemma subgroup_two : forall f n adj, o3_subgroup (O3Plane (IInt 2) f n) adj = Raise.
Proof. intros [b|a|] n adj; reflexivity. Qed.
Lemma subgroup_one : forall f n adj s, o3_subgroup (O3Plane (IInt 1) f n) adj = Ret s ->
  (exists G, s3_group s = GCyl G) \/ (f = ABool false /\ n = 1%Z /\ s3_group s = GP (Fin (Cyc 2))).
Proof.
  intros [b|a|] n adj s E; [|discriminate E|discriminate E].
  unfold o3_subgroup in E; cbn in E; destruct b; cbn in E.
  - destruct (n =? -1)%Z; [apply Ret_inj in E; subst s; left; eexists; reflexivity|].
    destruct (1 <? n)%Z; [apply Ret_inj in E; subst s; left; eexists; reflexivity|discriminate E].
  - destruct (Z.eqb_spec n 1) as [->|N1]; cbn in E.
    + apply Ret_inj in E; subst s; right; repeat split.
    + destruct (n =? -1)%Z; [apply Ret_inj in E; subst s; left; eexists; reflexivity|].
      destruct (0 <? n)%Z; [|discriminate E].
      destruct (Z.eqb_spec n 1); [contradiction|]; apply Ret_inj in E; subst s; left; eexists; reflexivity.
Qed.

Lemma two_divisors : forall m, documented (Cyc 2) (IdC m) -> (m = 1 \/ m = 2)%Z.
Proof. intros m [P [k Hk]]; assert (k = 1 \/ k = 2)%Z by nia; lia. Qed.

(** What is returned for a cylinder. *)
Lemma cylinder_not : forall P id1 adj1 s1 m id2 f a1, planar_like P -> s3_group s1 = GCyl P ->
  documented (Cyc 2) (IdC m) -> sub_documented (GP P) id2 ->
  o3_combine_subgroups id1 adj1 (DCyl m id2) = Ret (O3Plane (IInt m) f (inner_order id2), a1) ->
  (f = ABool false -> flips (inner_flip P id2) = false) ->
  ~ combined id1 adj1 s1 (DCyl m id2).
Proof.
  intros P id1 adj1 s1 m id2 f a1 HP G1 Dm D2 K Hf (id & adj & s & incl2 & K1 & _ & K2 & K3 & _).
  rewrite K in K1; injection K1 as <- <-; rewrite G1 in K3; cbn [o3_sub_subgroup] in K3.
  destruct (inner_cases P id2 D2 HP) as (incl & S2 & _ & _).
  destruct (two_divisors m Dm) as [->| ->]; [|rewrite subgroup_two in K2; discriminate K2].
  rewrite S2 in K3; cbn in K3; injection K3 as K3 _.
  destruct (subgroup_one _ _ _ _ K2) as [[G E]|(-> & En & E)]; rewrite E in K3; [discriminate K3|].
  rewrite (Hf eq_refl), En in K3; discriminate K3.
Qed.

Lemma cylinder_iff : forall f N adj1 s1 id2, f <> ANone -> (N = -1 \/ 0 < N)%Z -> valid_adj adj1 ->
  o3_subgroup (O3Plane (IBool true) f N) adj1 = Ret s1 -> o3_sub_documented (s3_group s1) id2 ->
  ~ combined (O3Plane (IBool true) f N) adj1 s1 id2.
Proof.
  intros f N adj1 s1 id2 Hf D Ha E1 D2.
  pose proof (o3_process_plane true f N adj1 Hf Ha) as P1.
  pose proof (plane_pid_ok true (ax_flip f) N D) as [Ok1 Ok2].
  set (b := plane_b (ax_flip f) N) in *; set (M := plane_n (ax_flip f) N) in *; set (a1 := final_adj _ _ _ _) in *.
  assert (S1 : o3_subgroup' (P3Plane (IBool true) b M) a1 = Ret s1).
  { unfold o3_subgroup in E1; rewrite P1 in E1; exact E1. }
  clear E1; assert (L : planar_like (plane_group b M)) by (apply plane_like; [exact Ok1|intros X Y; apply Ok2; auto]).
  unfold plane_group in L; destruct b.
  - destruct (Z.eqb_spec M (-1)) as [E|M0].
    + rewrite E in *; cbn in S1; pose proof (Ret_inj _ _ _ S1) as Es; subst s1; cbn [s3_group] in D2.
      destruct id2 as [? ?|? ?|?|m [? ?|?|x n|? ?]]; try contradiction; destruct D2 as [Dm D2]; try contradiction.
      eapply (cylinder_not O2); [exact L|reflexivity|exact Dm|exact D2| |].
      * unfold o3_combine_subgroups; rewrite P1; cbn; reflexivity.
      * destruct x; intros X; discriminate X.
    + destruct (Z.eqb_spec M 1) as [?|M2]; [exfalso; apply Ok2; auto|].
      assert (M1 : (1 < M)%Z) by lia; cbn in S1.
      destruct (Z.eqb_spec M (-1)) as [?|M3]; [contradiction|]; destruct (Z.ltb_spec 1 M); [|lia].
      pose proof (Ret_inj _ _ _ S1) as Es; subst s1; cbn [s3_group] in D2.
      destruct id2 as [? ?|? ?|?|m [? ?|?|? ?|[k|] n]]; try contradiction; destruct D2 as [Dm D2]; try contradiction.
      * eapply (cylinder_not (Fin (Dih M))); [exact L|reflexivity|exact Dm|exact D2| |].
        -- unfold o3_combine_subgroups; rewrite P1; cbn [bind fst snd o3_subgroup' is_true negb andb].
           destruct (Z.eqb_spec M (-1)); [contradiction|]; destruct (Z.ltb_spec 1 M); [|lia]; cbn; reflexivity.
        -- intros X; discriminate X.
      * eapply (cylinder_not (Fin (Dih M))); [exact L|reflexivity|exact Dm|exact D2| |].
        -- unfold o3_combine_subgroups; rewrite P1; cbn [bind fst snd o3_subgroup' is_true negb andb].
           destruct (Z.eqb_spec M (-1)); [contradiction|]; destruct (Z.ltb_spec 1 M); [|lia]; cbn; reflexivity.
        -- reflexivity.
  - destruct (Z.eqb_spec M 1) as [E|M1].
    + rewrite E in *; cbn in S1; pose proof (Ret_inj _ _ _ S1) as Es; subst s1; cbn [s3_group] in D2.
      destruct id2 as [? ?|? ?|[? ?|m|? ?|? ?]|? ?]; try contradiction; cbn in D2.
      intros (id & adj & s & incl2 & K1 & _ & K2 & K3 & _).
      unfold o3_combine_subgroups in K1; rewrite P1 in K1; cbn in K1; injection K1 as <- <-.
      destruct (two_divisors m D2) as [->| ->]; [|rewrite subgroup_two in K2; discriminate K2].
      cbn in K3; injection K3 as K3 _.
      destruct (subgroup_one _ _ _ _ K2) as [[G X]|(_ & _ & X)]; rewrite X in K3; discriminate K3.
    + set (P := if (M =? -1)%Z then SO2 else Fin (Cyc M)) in *.
      assert (G1 : s3_group s1 = GCyl P).
      { unfold P; cbn in S1; destruct (Z.eqb_spec M (-1)); [apply Ret_inj in S1; subst s1; reflexivity|].
        destruct (Z.ltb_spec 0 M); [|lia]; destruct (Z.eqb_spec M 1); [contradiction|]; apply Ret_inj in S1; subst s1; reflexivity. }
      rewrite G1 in D2; destruct id2 as [? ?|? ?|?|m id2]; try contradiction; destruct D2 as [Dm D2].
      assert (X : exists n, id2 = BInt n).
      { unfold P in D2; destruct (M =? -1)%Z; destruct id2; cbn in D2; try contradiction; eauto. }
      destruct X as [n ->].
      eapply (cylinder_not P); [exact L|exact G1|exact Dm|exact D2| |].
      * unfold o3_combine_subgroups; rewrite P1; cbn [bind fst snd]; rewrite S1; cbn [bind is_true].
        destruct (Z.eqb_spec M 1); [contradiction|]; reflexivity.
      * intros _; unfold P; destruct (M =? -1)%Z; reflexivity.
Qed.

Lemma planar_raises : forall f N adj1 s1 id2, f <> ANone -> (N = -1 \/ 0 < N)%Z -> valid_adj adj1 ->
  o3_subgroup (O3Plane (IBool false) f N) adj1 = Ret s1 ->
  o3_combine_subgroups (O3Plane (IBool false) f N) adj1 id2 = Raise.
Proof.
  intros f N adj1 s1 id2 Hf D Ha E1; unfold o3_combine_subgroups, o3_subgroup in *.
  rewrite (o3_process_plane false f N adj1 Hf Ha) in *; cbn [bind fst snd] in *; rewrite E1; cbn [bind].
  destruct id2; reflexivity.
Qed.

Lemma combined_iff : forall id1 adj1 s1 id2, o3_documented id1 -> valid_adj adj1 ->
  o3_subgroup id1 adj1 = Ret s1 -> o3_sub_documented (s3_group s1) id2 ->
  (combined id1 adj1 s1 id2 <-> combinable id1 id2).
Proof.
  intros [b|b|[inv|?] f N|a N] adj1 s1 id2 D Ha E1 D2; cbn [o3_documented] in D; try contradiction.
  - cbn [combinable]; split; [auto|]; intros _; destruct b; [apply combined_o3|apply combined_so3]; auto.
  - cbn [combinable]; split; [auto|]; intros _; destruct b; [apply combined_o3|apply combined_so3]; auto.
  - assert (Hf : f <> ANone) by (intros ->; contradiction).
    assert (D' : (N = -1 \/ 0 < N)%Z) by (destruct f; [exact D|exact D|contradiction]).
    cbn [combinable]; split; [|contradiction]; intros C; destruct inv.
    + exact (cylinder_iff f N adj1 s1 id2 Hf D' Ha E1 D2 C).
    + destruct C as (id & adj & s & incl2 & K1 & _); rewrite (planar_raises f N adj1 s1 id2 Hf D' Ha E1) in K1; discriminate K1.
  - exact (cone_iff a N adj1 s1 id2 D Ha E1 D2).
Qed.
