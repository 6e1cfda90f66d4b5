(** C19-C21: representations assembled from irreps, direct sums, restriction. *)
From Coq Require Import Reals ZArith Bool List Lia Lra.
From Verif Require Import LibRes LibMat LibMatS FinGroupModel SpecFinGroup ParamModel PlanarModel SpecPlanar
  IrrepModel SpecRep SpecIrrep RepModel SpecRepr RepProofs RepThms.
Import ListNotations.
Open Scope R_scope.

(** ** C19 *)

Theorem C19_homomorphism : forall T (irr : list Z -> res (girrep T)) (mem : T -> Prop) op e linv,
  correct_inverse linv -> forall ids n cob inv,
  Forall (sound_irrep irr mem op e) ids -> ids <> [] -> total_size irr ids n -> good_inv n cob inv ->
  exists r, mk_repr irr linv ids n cob inv = Ret r /\ r_size r = n /\
    lin_rep mem op e n (r_fun r) /\
    forall g, mem g -> exists cs, mapM (fun id => x <- irr id ;; gi_char x g) ids = Ret cs /\
      r_character r g = Ret (fold_right Rplus 0 cs).
Proof. exact (fun T irr mem op e linv H => mk_repr_homomorphism irr mem op e linv H). Qed.
Print Assumptions C19_homomorphism.

(** The irreps of C_N, D_N, SO(2) and O(2) meet the hypothesis. *)
Theorem C19_planar_irreps : forall G id, pvalid G -> irrep_ok G id ->
  sound_irrep (p_irr G) (pmember G) (pmul G) (pid G) id.
Proof. exact p_irr_sound. Qed.
Print Assumptions C19_planar_irreps.

Theorem C19_change_basis : forall T (irr : list Z -> res (girrep T)) (mem : T -> Prop) op e linv,
  correct_inverse linv -> forall r Q Qi, proper irr mem op e r -> inverse_of (r_size r) Q Qi ->
  sharp (r_size r) (mmul (r_size r) Q (r_cob r)) ->
  exists d, change_basis irr linv r (r_size r, Q) = Ret d /\ r_size d = r_size r /\ proper irr mem op e d /\
    r_irreps d = r_irreps r /\
    forall g, mem g -> exists A B, r_fun r g = Ret (r_size r, A) /\ r_fun d g = Ret (r_size r, B) /\
      meq (r_size r) (r_size r) B (mmul (r_size r) (mmul (r_size r) Q A) Qi).
Proof. exact (fun T irr mem op e linv H => change_basis_ok irr mem op e linv H). Qed.
Print Assumptions C19_change_basis.

(** With one irrep the size is not compared: the identity of any size is
    accepted and the values have another size than the representation claims. *)
Theorem C19_single_irrep_size_refuted : forall T (irr : list Z -> res (girrep T)) (mem : T -> Prop) op e linv id s n,
  correct_inverse linv -> sound_irrep irr mem op e id -> irr id = Ret s -> (0 < n)%nat ->
  exists r, mk_repr irr linv [id] n mid None = Ret r /\ r_size r = n /\
    forall g, mem g -> exists A, r_fun r g = Ret (gi_size s, A).
Proof. exact single_irrep_size. Qed.
Print Assumptions C19_single_irrep_size_refuted.

Example C19_ex : Forall (irrep_ok (Fin (Dih 6))) [[1%Z; 2%Z]; [0%Z; 3%Z]] /\
  total_size (p_irr (Fin (Dih 6))) [[1%Z; 2%Z]; [0%Z; 3%Z]] 3 /\
  good_inv 2 (shear (1 / 2)) None.
Proof.
  split; [repeat apply Forall_cons; cbn; [lia|lia|constructor]|split; [|eexists; apply shear_inverse]].
  eexists; split; [reflexivity|reflexivity].
Qed.

(** A correct inverse exists. *)
Example C19_inverse_ex : exists linv, correct_inverse linv.
Proof. exact inverse_exists. Qed.

(** ** C20 *)

Theorem C20_direct_sum : forall T (irr : list Z -> res (girrep T)) (mem : T -> Prop) op e linv,
  correct_inverse linv -> forall rs (Q : option mat) q Qi,
  rs <> [] -> Forall (proper irr mem op e) rs ->
  let n := list_sum (map r_size rs) in
  q = match Q with None => mid | Some m => m end -> inverse_of n q Qi ->
  sharp n (match Q with None => bdiag (map (fun r => (r_size r, r_cob r)) rs)
                      | Some m => mmul n m (bdiag (map (fun r => (r_size r, r_cob r)) rs)) end) ->
  exists d, directsum irr linv rs (option_map (fun m => (n, m)) Q) = Ret d /\ r_size d = n /\
    proper irr mem op e d /\ r_irreps d = flat_map r_irreps rs /\
    forall g, mem g -> exists vs A,
      mapM (fun r => r_fun r g) rs = Ret vs /\ r_fun d g = Ret (n, A) /\
      meq n n A (mmul n (mmul n q (bdiag vs)) Qi).
Proof. exact (fun T irr mem op e linv H => directsum_ok irr mem op e linv H). Qed.
Print Assumptions C20_direct_sum.

Example C20_ex : exists s1 s2, p_irr (Fin (Dih 6)) [1%Z; 2%Z] = Ret s1 /\ p_irr (Fin (Dih 6)) [0%Z; 3%Z] = Ret s2 /\
  Forall (proper (p_irr (Fin (Dih 6))) (pmember (Fin (Dih 6))) (pmul (Fin (Dih 6))) (pid (Fin (Dih 6))))
    [repr_of_irrep s1; repr_of_irrep s2] /\
  sharp 3 (bdiag (map (fun r => (r_size r, r_cob r)) [repr_of_irrep s1; repr_of_irrep s2])).
Proof.
  eexists _, _; split; [reflexivity|split; [reflexivity|split]].
  - assert (X : forall id s, irrep_ok (Fin (Dih 6)) id -> p_irr (Fin (Dih 6)) id = Ret s ->
      proper (p_irr (Fin (Dih 6))) (pmember (Fin (Dih 6))) (pmul (Fin (Dih 6))) (pid (Fin (Dih 6))) (repr_of_irrep s))
      by (intros id s O E; eapply irrep_proper; [apply p_irr_sound; [reflexivity|exact O]|exact E]).
    constructor; [apply (X [1%Z; 2%Z])|constructor; [apply (X [0%Z; 3%Z])|constructor]]; try reflexivity; cbn; lia.
  - left; apply (bdiag_mid [(2%nat, mid); (1%nat, mid)]); repeat constructor; cbn; intros i j _ _; reflexivity.
Qed.

(** Without [sharp] the stored change of basis may fail to reproduce the values. *)
Theorem C20_small_basis_refuted : forall linv t, correct_inverse linv -> 0 < t <= / 10 ^ 8 ->
  exists r, mk_repr (p_irr (Fin (Cyc 4))) linv [[1%Z]] 2 (shear t) None = Ret r /\
    r_size r = 2%nat /\ inverse_of 2 (r_cob r) (r_inv r) /\
    exists A B, r_fun r (VF (VC 1)) = Ret (2%nat, A) /\
      values (p_irr (Fin (Cyc 4))) [[1%Z]] (VF (VC 1)) = Ret [(2%nat, B)] /\
      ~ meq 2 2 A (mmul 2 (mmul 2 (r_cob r) (bdiag [(2%nat, B)])) (r_inv r)).
Proof. exact small_basis_dropped. Qed.
Print Assumptions C20_small_basis_refuted.

(** ** C21 *)

Theorem C21_restriction : forall G H (irrG : list Z -> res (girrep G)) (irrH : list Z -> res (girrep H))
    (memG : G -> Prop) (memH : H -> Prop) opH eH incl restr linv, correct_inverse linv ->
  forall r, r_irreps r <> [] -> reproduces irrG memG r -> total_size irrG (r_irreps r) (r_size r) ->
  Forall (sound_restriction irrG irrH memG memH opH eH incl restr) (r_irreps r) ->
  (forall parts, mapM restr (r_irreps r) = Ret parts ->
     sharp (r_size r) (mmul (r_size r) (r_cob r) (bdiag (map fst parts)))) ->
  exists d, restrict_representation irrG irrH linv restr r = Ret d /\ r_size d = r_size r /\
    proper irrH memH opH eH d /\
    forall h, memH h -> exists g A B, incl h = Ret g /\ r_fun r g = Ret (r_size r, A) /\
      r_fun d h = Ret (r_size r, B) /\ meq (r_size r) (r_size r) B A.
Proof. exact (fun G H irrG irrH memG memH opH eH incl restr linv Hi => restrict_ok irrG irrH memG memH opH eH incl restr linv Hi). Qed.
Print Assumptions C21_restriction.

Theorem C21_finite : forall linv, correct_inverse linv ->
  forall G sid r, valid_grp G = true -> documented G sid -> planar_repr (Fin G) r ->
  (forall parts, mapM (fun id => fin_restrict_irrep G id sid) (r_irreps r) = Ret parts ->
     sharp (r_size r) (mmul (r_size r) (r_cob r) (bdiag (map fst parts)))) ->
  exists sg d, subgroup G sid = Ret sg /\
    restrict_representation (p_irr (Fin G)) (p_irr (Fin (sg_group sg))) linv
      (fun id => fin_restrict_irrep G id sid) r = Ret d /\ r_size d = r_size r /\
    forall h, member (sg_group sg) h -> exists g A B, sg_incl sg h = Ret g /\
      r_fun r (VF g) = Ret (r_size r, A) /\ r_fun d (VF h) = Ret (r_size r, B) /\ meq (r_size r) (r_size r) B A.
Proof. exact fin_restrict_repr. Qed.
Print Assumptions C21_finite.

Theorem C21_planar : forall linv, correct_inverse linv ->
  forall G sid r, pdocumented G sid -> planar_repr G r ->
  (forall parts, mapM (fun id => p_restrict_irrep G id sid) (r_irreps r) = Ret parts ->
     sharp (r_size r) (mmul (r_size r) (r_cob r) (bdiag (map fst parts)))) ->
  exists sg d, p_subgroup G sid = Ret sg /\
    restrict_representation (p_irr G) (p_irr (ps_group sg)) linv
      (fun id => p_restrict_irrep G id sid) r = Ret d /\ r_size d = r_size r /\
    forall h, pmember (ps_group sg) h -> exists g A B, ps_incl sg h = Ret g /\
      r_fun r g = Ret (r_size r, A) /\ r_fun d h = Ret (r_size r, B) /\ meq (r_size r) (r_size r) B A.
Proof. exact p_restrict_repr. Qed.
Print Assumptions C21_planar.

Example C21_ex : exists s, p_irr O2 [1%Z; 2%Z] = Ret s /\ planar_repr O2 (repr_of_irrep s) /\
  pdocumented O2 (IO2 (Some 1) 3) /\
  forall parts, mapM (fun id => p_restrict_irrep O2 id (IO2 None (-1))) [[1%Z; 2%Z]] = Ret parts ->
    sharp 2 (mmul 2 mid (bdiag (map fst parts))).
Proof.
  eexists; split; [reflexivity|split; [|split]].
  - apply (planar_irrep_repr O2 [1%Z; 2%Z]); [exact I|cbn; lia|reflexivity].
  - cbn; pose proof PI2_1; split; [left; reflexivity|lra].
  - intros parts E; vm_compute in E; apply Ret_inj in E; subst parts; left; rewrite mid_l.
    apply (bdiag_mid [(2%nat, mid)]); repeat constructor; cbn; intros i j _ _; reflexivity.
Qed.
