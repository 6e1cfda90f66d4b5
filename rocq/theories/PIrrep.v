(** C11-C18, C56, C57: irreps of C_N, D_N, SO(2), O(2), their restriction,
    commutants and Clebsch-Gordan coefficients. *)
From Coq Require Import Reals ZArith Bool List Lia Lra.
From Verif Require Import LibRes LibMat LibTrig SpecGroup FinGroupModel SpecFinGroup PlanarModel SpecPlanar
  IrrepModel SpecRep SpecIrrep IrrepProofs RestrictThms ExhaustProofs EndoProofs CGThms IrrepThms.
Import ListNotations.
Open Scope R_scope.

(** ** C11, C12, C13: accepted ids, homomorphism, orthogonality, character *)

Theorem C11_cyclic_irreps : forall N k, (0 < N)%Z -> (0 <= 2 * k <= N)%Z ->
  exists r, p_irrep (Fin (Cyc N)) [k] = Ret r /\ ir_id r = [k] /\
    orth_rep (pmember (Fin (Cyc N))) (pmul (Fin (Cyc N))) (pinv (Fin (Cyc N))) (pid (Fin (Cyc N)))
      (ir_size r) (ir_rep r) /\
    is_character (pmember (Fin (Cyc N))) (ir_size r) (ir_rep r) (ir_char r).
Proof. exact (fun N k HN Hk => irrep_is_rep (Fin (Cyc N)) [k] (proj2 (Z.ltb_lt _ _) HN) Hk). Qed.
Print Assumptions C11_cyclic_irreps.

Theorem C12_dihedral_irreps : forall N j k, (0 < N)%Z ->
  (0 <= 2 * k <= N /\ (j = 1 \/ (j = 0 /\ (k = 0 \/ 2 * k = N))))%Z ->
  exists r, p_irrep (Fin (Dih N)) [j; k] = Ret r /\ ir_id r = [j; k] /\
    orth_rep (pmember (Fin (Dih N))) (pmul (Fin (Dih N))) (pinv (Fin (Dih N))) (pid (Fin (Dih N)))
      (ir_size r) (ir_rep r) /\
    is_character (pmember (Fin (Dih N))) (ir_size r) (ir_rep r) (ir_char r).
Proof. exact (fun N j k HN Hk => irrep_is_rep (Fin (Dih N)) [j; k] (proj2 (Z.ltb_lt _ _) HN) Hk). Qed.
Print Assumptions C12_dihedral_irreps.

Theorem C13_so2_irreps : forall k, (0 <= k)%Z ->
  exists r, p_irrep SO2 [k] = Ret r /\ ir_id r = [k] /\
    orth_rep (pmember SO2) (pmul SO2) (pinv SO2) (pid SO2) (ir_size r) (ir_rep r) /\
    is_character (pmember SO2) (ir_size r) (ir_rep r) (ir_char r).
Proof. exact (fun k Hk => irrep_is_rep SO2 [k] I Hk). Qed.
Print Assumptions C13_so2_irreps.

Theorem C13_o2_irreps : forall j k, (0 <= k /\ (j = 1 \/ (j = 0 /\ k = 0)))%Z ->
  exists r, p_irrep O2 [j; k] = Ret r /\ ir_id r = [j; k] /\
    orth_rep (pmember O2) (pmul O2) (pinv O2) (pid O2) (ir_size r) (ir_rep r) /\
    is_character (pmember O2) (ir_size r) (ir_rep r) (ir_char r).
Proof. exact (fun j k Hk => irrep_is_rep O2 [j; k] I Hk). Qed.
Print Assumptions C13_o2_irreps.

Theorem C13_modulo_full_turns : forall id r t u, same_angle t u ->
  (p_irrep SO2 id = Ret r ->
     ir_rep r (VS t) = ir_rep r (VS u) /\ ir_char r (VS t) = ir_char r (VS u)) /\
  (p_irrep O2 id = Ret r -> forall f,
     ir_rep r (VO f t) = ir_rep r (VO f u) /\ ir_char r (VO f t) = ir_char r (VO f u)).
Proof. exact irrep_mod_2pi. Qed.
Print Assumptions C13_modulo_full_turns.

(** No other id is accepted by any of the four groups. *)
Theorem C12_accepted_ids : forall G id, pvalid G ->
  (exists r, p_irrep G id = Ret r) <-> irrep_ok G id.
Proof. exact p_irrep_accepts. Qed.
Print Assumptions C12_accepted_ids.

Example C11_ex : (0 < 7)%Z /\ (0 <= 2 * 3 <= 7)%Z. Proof. lia. Qed.
Example C12_ex : irrep_ok (Fin (Dih 6)) [0%Z; 3%Z] /\ irrep_ok (Fin (Dih 6)) [1%Z; 2%Z] /\
  ~ irrep_ok (Fin (Dih 6)) [0%Z; 2%Z].
Proof. cbn; lia. Qed.
Example C13_ex : exists t u, t <> u /\ same_angle t u /\ exists r, p_irrep O2 [1%Z; 2%Z] = Ret r.
Proof.
  exists 0, (2 * PI); pose proof PI_RGT_0; split; [lra|split; [|eexists; reflexivity]].
  exists (-1)%Z; lra.
Qed.

(** ** C14 *)

(** The ids of the constructor are the valid ones, each once. *)
Theorem C14_built_irreps : forall G, valid_grp G = true ->
  NoDup (built_irreps G) /\ forall id, In id (built_irreps G) <-> irrep_ok (Fin G) id.
Proof. exact built_irreps_exact. Qed.
Print Assumptions C14_built_irreps.

Theorem C14_dimensions : forall G, valid_grp G = true ->
  exists ds n, order G = Ret n /\
    mapM (fun id => r <- p_irrep (Fin G) id ;;
                    Ret (Z.of_nat (ir_size r * (ir_size r / ir_sosc r)))) (built_irreps G) = Ret ds /\
    fold_right Z.add 0%Z ds = n.
Proof. exact dimensions_sum. Qed.
Print Assumptions C14_dimensions.

(** The weighted sum of the characters is the character of the regular representation. *)
Theorem C14_regular_character : forall G g, valid_grp G = true -> pmember (Fin G) g ->
  exists cs n, order G = Ret n /\
    mapM (fun id => r <- p_irrep (Fin G) id ;; c <- ir_char r g ;;
                    Ret (INR (ir_size r / ir_sosc r) * c)) (built_irreps G) = Ret cs /\
    (g = pid (Fin G) -> fold_right Rplus 0 cs = IZR n) /\
    (g <> pid (Fin G) -> fold_right Rplus 0 cs = 0).
Proof. exact regular_character. Qed.
Print Assumptions C14_regular_character.

Example C14_ex : valid_grp (Dih 6) = true /\ built_irreps (Dih 6) =
  [[0; 0]; [1; 0]; [1; 1]; [1; 2]; [1; 3]; [0; 3]]%Z.
Proof. split; reflexivity. Qed.
Example C14_ex_element : pmember (Fin (Dih 6)) (VF (VD 1 4)) /\ VF (VD 1 4) <> pid (Fin (Dih 6)).
Proof. cbn; split; [lia|discriminate]. Qed.

(** ** C15, C16, C17: restriction *)

Theorem C15_cyclic_restriction : forall N M id, (0 < N)%Z -> documented (Cyc N) (IdC M) ->
  irrep_ok (Fin (Cyc N)) id ->
  exists sg r x, subgroup (Cyc N) (IdC M) = Ret sg /\ p_irrep (Fin (Cyc N)) id = Ret r /\
    cn_restrict_irrep N id M = Ret x /\ restricts (Fin (sg_group sg)) (fin_incl sg) r x.
Proof. exact cn_restrict_ok. Qed.
Print Assumptions C15_cyclic_restriction.

Theorem C16_dihedral_restriction : forall N a M id, (0 < N)%Z -> documented (Dih N) (IdD a M) ->
  irrep_ok (Fin (Dih N)) id ->
  exists sg r x, subgroup (Dih N) (IdD a M) = Ret sg /\ p_irrep (Fin (Dih N)) id = Ret r /\
    dn_restrict_irrep N id a M = Ret x /\ restricts (Fin (sg_group sg)) (fin_incl sg) r x.
Proof. exact dn_restrict_ok. Qed.
Print Assumptions C16_dihedral_restriction.

Theorem C17_planar_restriction : forall G sid id, pdocumented G sid -> irrep_ok G id ->
  exists sg r x, p_subgroup G sid = Ret sg /\ p_irrep G id = Ret r /\
    p_restrict_irrep G id sid = Ret x /\ restricts (ps_group sg) (ps_incl sg) r x.
Proof. exact p_restrict_ok. Qed.
Print Assumptions C17_planar_restriction.

Example C15_ex : documented (Cyc 12) (IdC 4) /\ irrep_ok (Fin (Cyc 12)) [5%Z].
Proof. cbn; split; [split; [lia|exists 3%Z; reflexivity]|lia]. Qed.
Example C16_ex : documented (Dih 12) (IdD (Some 2%Z) 4) /\ irrep_ok (Fin (Dih 12)) [1%Z; 5%Z].
Proof. cbn; split; [split; [lia|split; [exists 3%Z; reflexivity|lia]]|lia]. Qed.
Example C17_ex : pdocumented SO2 (ISO2 5) /\ irrep_ok SO2 [7%Z].
Proof. cbn; lia. Qed.

(** ** C18: Clebsch-Gordan coefficients *)

Theorem C18_cyclic : forall N, (0 < N)%Z ->
  cg_correct (Fin (Cyc N)) (cn_cg N) (cn_tensor_irreps N).
Proof. exact cn_cg_correct. Qed.
Print Assumptions C18_cyclic.

Theorem C18_so2 : cg_correct SO2 so2_cg so2_tensor_irreps.
Proof. exact so2_cg_correct. Qed.
Print Assumptions C18_so2.

Example C18_ex : cn_tensor_irreps 6 1 2 = [([1%Z], 1%nat); ([3%Z], 2%nat)] /\
  irrep_ok (Fin (Cyc 6)) [1%Z] /\ irrep_ok (Fin (Cyc 6)) [2%Z].
Proof. cbn; split; [reflexivity|lia]. Qed.
Example C18_ex_so2 : so2_tensor_irreps 3 3 = [([0%Z], 2%nat); ([6%Z], 1%nat)] /\ irrep_ok SO2 [3%Z].
Proof. cbn; split; [reflexivity|lia]. Qed.

(** ** C56: commutants *)

Theorem C56_endomorphism_basis : forall G id r, pvalid G -> irrep_ok G id -> p_irrep G id = Ret r ->
  spans_commutant (pmember G) (ir_size r) (ir_rep r) (endomorphism_basis r) /\
  irreducible (pmember G) (ir_size r) (ir_rep r).
Proof. exact endomorphisms. Qed.
Print Assumptions C56_endomorphism_basis.

Example C56_ex : pvalid (Fin (Cyc 5)) /\ irrep_ok (Fin (Cyc 5)) [2%Z] /\
  exists r, p_irrep (Fin (Cyc 5)) [2%Z] = Ret r /\ length (endomorphism_basis r) = 2%nat.
Proof. split; [reflexivity|split; [cbn; lia|]]; eexists; split; reflexivity. Qed.
Example C56_ex_dihedral : irrep_ok (Fin (Dih 5)) [1%Z; 2%Z] /\
  exists r, p_irrep (Fin (Dih 5)) [1%Z; 2%Z] = Ret r /\ length (endomorphism_basis r) = 1%nat.
Proof. split; [cbn; lia|]; eexists; split; reflexivity. Qed.

(** ** C57: band limited lists *)

Theorem C57_band_limited : forall G L, pvalid G ->
  (bl_range G L -> exists l, bl_irreps G L = Ret l /\ NoDup l /\
    forall id, In id l <-> (exists r, p_irrep G id = Ret r /\ (ir_freq r <= L)%Z)) /\
  (~ bl_range G L -> bl_irreps G L = Raise).
Proof. exact bl_irreps_exact. Qed.
Print Assumptions C57_band_limited.

Example C57_ex : bl_range (Fin (Dih 8)) 4 /\ bl_irreps (Fin (Dih 8)) 4 =
  Ret [[0; 0]; [1; 0]; [1; 1]; [1; 2]; [1; 3]; [1; 4]; [0; 4]]%Z.
Proof. cbn; split; [lia|reflexivity]. Qed.
Example C57_ex_out : ~ bl_range (Fin (Cyc 8)) 5. Proof. cbn; lia. Qed.
