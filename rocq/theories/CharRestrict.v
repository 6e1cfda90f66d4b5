(** The irreps of planar subgroups in the restriction of an irrep of SO(3). *)
From Coq Require Import Reals ZArith Bool List Lia Lra.
From Verif Require Import LibRes LibMat LibMatS LibTrig SpecGroup FinGroupModel SpecFinGroup FinGroupProofs ParamModel ParamProofs PlanarModel SpecPlanar PlanarProofs
  IrrepModel SpecRep SpecIrrep IrrepProofs RepProofs RestrictProofs RestrictThms SpaceModel SpecSpace SpaceProofs SpaceThms SpaceSub CharModel SpecChar CharProofs.
Import ListNotations.
Open Scope R_scope.

Definition ktr (kd : kind) (f : Z) (t : R) : R := trace (kdim kd) (kmat kd f t).

Lemma ktr_1 : forall s k f t, ktr (K1 s k) f t = rsign (s * f) * cos (IZR k * t).
Proof. intros; unfold ktr, trace, kmat, mat1; cbn [kdim sumn]; ring. Qed.
Lemma ktr_2 : forall k f t, ktr (K2 k) f t = (1 + rsign f) * cos (IZR k * t).
Proof. intros; unfold ktr, trace, kmat; cbn [kdim sumn]; unfold mat2; ring. Qed.

Lemma traces_app : forall a b, traces (a ++ b) = traces a + traces b.
Proof. induction a as [|x a IH]; intros b; unfold traces in *; cbn [app map fold_right]; [ring|rewrite IH; ring]. Qed.

Lemma blocks_traces : forall H ids h, pvalid H -> Forall (irrep_ok H) ids -> pmember H h ->
  exists bs, blocks H ids h = Ret bs /\
    traces bs = fold_right Rplus 0 (map (fun id => ktr (irrep_kind H id) (fl H h) (th H h)) ids).
Proof.
  intros H ids h HH HI Hh; destruct (blocks_ret H ids h HH HI Hh) as (bs & E & F); exists bs; split; [exact E|].
  clear E HI; remember (map (kblk H h) ids) as ks eqn:K; revert ids K; induction F as [|p q ks bs [E1 E2] F IH]; intros ids K.
  - destruct ids; [reflexivity|discriminate].
  - destruct ids as [|id ids]; [discriminate|]; cbn [map] in K; injection K as K1 K2; subst p.
    unfold traces in *; cbn [map fold_right]; rewrite (IH ids K2); f_equal.
    rewrite <- E1; cbn [fst snd kblk] in *; unfold ktr; apply trace_ext, meq_sym, E2.
Qed.

(** restricting an irrep does not change the trace *)
Lemma restricts_trace : forall G H incl id r x h g, pvalid G -> pvalid H -> irrep_as G id r (irrep_kind G id) ->
  restricts H incl r x -> pmember H h -> incl h = Ret g -> pmember G g ->
  exists bs, blocks H (snd x) h = Ret bs /\ traces bs = ktr (irrep_kind G id) (fl G g) (th G g).
Proof.
  intros G H incl id r x h g HG HH A [_ (_ & O & D)] Hh Eg Hg; destruct (D h Hh) as (M & bs & EM & EB & Sz & V).
  rewrite Eg in EM; cbn [bind] in EM; destruct A as (_ & _ & Es & _ & _ & _ & Hr); destruct (Hr g Hg) as (N & EN & VN & _).
  rewrite EN in EM; apply Ret_inj in EM; injection EM as Ed <-; exists bs; split; [exact EB|].
  unfold traces; rewrite <- bdiag_trace, Sz, <- Ed.
  transitivity (trace (kdim (irrep_kind G id)) N); [|apply trace_ext; exact VN].
  rewrite Ed; rewrite (trace_ext _ _ _ V); symmetry; apply conj_trace; apply orthogonal_inverse; exact O.
Qed.

Lemma concat_blocks : forall H h xs (tr : list Z -> R) irrs,
  Forall2 (fun irr ids => exists bs, blocks H ids h = Ret bs /\ traces bs = tr irr) irrs xs ->
  exists bs, blocks H (List.concat xs) h = Ret bs /\ traces bs = fold_right Rplus 0 (map tr irrs).
Proof.
  intros H h xs tr irrs F; induction F as [|irr ids irrs xs (b1 & E1 & T1) F (b2 & E2 & T2)].
  - exists []; split; reflexivity.
  - exists (b1 ++ b2); split; [|rewrite traces_app, T1, T2; reflexivity].
    cbn [List.concat]; unfold blocks in *; apply mapM_app; assumption.
Qed.

(** ** Sums over the frequencies *)

Lemma py_range_S : forall a b, (a <= b)%Z -> py_range a (b + 1) = py_range a b ++ [b].
Proof.
  intros a b H; unfold py_range; replace (Z.to_nat (b + 1 - a)) with (S (Z.to_nat (b - a))) by lia.
  rewrite seq_S, map_app; cbn [map]; do 2 f_equal; lia.
Qed.

Lemma fold_plus_app : forall a b, fold_right Rplus 0 (a ++ b) = fold_right Rplus 0 a + fold_right Rplus 0 b.
Proof. induction a as [|x a IH]; intros b; cbn [app fold_right]; [ring|rewrite IH; ring]. Qed.

Lemma rsign_0 : rsign 0 = 1.
Proof. unfold rsign; cbn; ring. Qed.

Lemma so2_sum : forall l t, fold_right Rplus 0 (map (fun id => ktr (irrep_kind SO2 id) 0 t) (map (fun f => [f]) (py_range 0 (Z.of_nat l + 1)))) = wave l t.
Proof.
  induction l as [|l IH]; intros t.
  - change (py_range 0 (Z.of_nat 0 + 1)) with [0%Z]; cbn [map fold_right irrep_kind Z.eqb]; rewrite ktr_1, wave_0_t, Z.mul_0_l, rsign_0, Rmult_0_l, cos_0; ring.
  - rewrite py_range_S, map_app, map_app, fold_plus_app by lia; replace (Z.of_nat (S l)) with (Z.of_nat l + 1)%Z at 1 by lia.
    rewrite IH, wave_S; f_equal; cbn [map fold_right irrep_kind]; rewrite (proj2 (Z.eqb_neq (Z.of_nat (S l)) 0)) by lia.
    rewrite ktr_2, rsign_0, INR_IZR_INZ; ring.
Qed.

Lemma cos_k_pi : forall k, cos (INR (S k) * PI) = - cos (INR k * PI).
Proof. intros k; rewrite S_INR; replace ((INR k + 1) * PI) with (INR k * PI + PI) by ring; apply neg_cos. Qed.

Lemma wave_pi : forall l, wave l PI = rsign (Z.of_nat l mod 2) /\ cos (INR l * PI) = rsign (Z.of_nat l mod 2).
Proof.
  induction l as [|l [IH1 IH2]].
  - rewrite wave_0_t; cbn [INR]; rewrite Rmult_0_l, cos_0; change (Z.of_nat 0 mod 2)%Z with 0%Z; rewrite rsign_0; auto.
  - assert (E : rsign (Z.of_nat (S l) mod 2) = - rsign (Z.of_nat l mod 2)).
    { assert (C : (Z.of_nat l mod 2 = 0 /\ Z.of_nat (S l) mod 2 = 1 \/ Z.of_nat l mod 2 = 1 /\ Z.of_nat (S l) mod 2 = 0)%Z).
      { pose proof (Z.mod_pos_bound (Z.of_nat l) 2 ltac:(lia)); rewrite Nat2Z.inj_succ; unfold Z.succ; rewrite <- Z.add_mod_idemp_l by lia.
        assert (D : (Z.of_nat l mod 2 = 0 \/ Z.of_nat l mod 2 = 1)%Z) by lia; destruct D as [-> | ->]; [left|right]; split; reflexivity. }
      destruct C as [[-> ->]|[-> ->]]; unfold rsign; cbn; ring. }
    rewrite E; rewrite wave_S, IH1, cos_k_pi, IH2; split; ring.
Qed.

Definition o2_angle (f : Z) (t : R) : R := if (f =? 0)%Z then t else PI.

Lemma o2_sum : forall l f t, (f = 0 \/ f = 1)%Z ->
  fold_right Rplus 0 (map (fun id => ktr (irrep_kind O2 id) f t) ([(Z.of_nat l mod 2)%Z; 0%Z] :: map (fun f => [1%Z; f]) (py_range 1 (Z.of_nat l + 1)))) =
  wave l (o2_angle f t).
Proof.
  intros l f t Hf; cbn [map fold_right irrep_kind Z.eqb]; rewrite ktr_1, Rmult_0_l, cos_0, Rmult_1_r.
  assert (G : forall n, fold_right Rplus 0 (map (fun id => ktr (irrep_kind O2 id) f t) (map (fun f => [1%Z; f]) (py_range 1 (Z.of_nat n + 1)))) =
    if (f =? 0)%Z then wave n t - 1 else 0).
  { induction n as [|n IH]; [cbn [map py_range Z.of_nat Z.to_nat seq fold_right]; rewrite wave_0_t; change (Z.to_nat (0 + 1 - 1)) with 0%nat; cbn; destruct (f =? 0)%Z; ring|].
    rewrite py_range_S, map_app, map_app, fold_plus_app by lia; replace (Z.of_nat (S n)) with (Z.of_nat n + 1)%Z at 1 by lia.
    rewrite IH; cbn [map fold_right irrep_kind]; rewrite (proj2 (Z.eqb_neq (Z.of_nat (S n)) 0)) by lia; rewrite ktr_2.
    destruct Hf as [-> | ->]; cbn [Z.eqb]; [rewrite wave_S, rsign_0, INR_IZR_INZ; ring|unfold rsign; cbn; ring]. }
  rewrite G; unfold o2_angle; destruct Hf as [-> | ->]; cbn [Z.eqb].
  - rewrite Z.mul_0_r, rsign_0; ring.
  - rewrite Z.mul_1_r, (proj1 (wave_pi l)); ring.
Qed.

(** ** The subgroups *)

Lemma process_pid : forall f N adj x, so3_process (S3Plane f N) adj = Ret x ->
  fst x = if flips f && (N =? 1)%Z then S3PPlane false 2 else S3PPlane (flips f) N.
Proof.
  intros f N adj x E; unfold so3_process in E; apply bind_Ret in E as ([b a] & E1 & E2); cbn [fst snd] in E2.
  assert (B : b = flips f).
  { destruct f as [b'|r]; [apply Ret_inj in E1; cbn; congruence|].
    apply bind_Ret in E1 as (u & _ & E1); apply bind_Ret in E1 as (v & _ & E1); apply bind_Ret in E1 as (w & _ & E1); apply Ret_inj in E1; cbn; congruence. }
  subst b; destruct (flips f && (N =? 1)%Z).
  - apply bind_Ret in E2 as (u & _ & E2); apply bind_Ret in E2 as (v & _ & E2); apply Ret_inj in E2; subst x; reflexivity.
  - apply Ret_inj in E2; subst x; reflexivity.
Qed.

Lemma trace_conjugate : forall A M, orth3 A -> trace 3 (conjugate A M) = trace 3 M.
Proof.
  intros A M [O _]; unfold conjugate; rewrite trace_mmul_comm; rewrite (trace_ext 3 _ M); [reflexivity|].
  eapply meq_trans; [apply mmul_assoc_eq|]; eapply meq_trans; [apply mmul_ext; [apply meq_refl|exact O]|]; apply mid_r.
Qed.

Lemma trace_plane_matrix : forall f N v t, plane_angle (flips f) N v = t -> (plane_flip (flips f) N v = 0 \/ plane_flip (flips f) N v = 1)%Z ->
  trace 3 (plane_matrix f N v) = 1 + 2 * cos (o2_angle (plane_flip (flips f) N v) t).
Proof.
  intros f N v t E H; unfold plane_matrix, o2_angle; rewrite E; destruct H as [-> | ->]; cbn [Z.eqb].
  - rewrite Rmult_0_l, Rplus_0_r; unfold trace, mmul, Rz, halfX; cbn [sumn mat3 Z.eqb]; unfold mid; cbn [Nat.eqb]; ring.
  - rewrite cos_PI; unfold trace, mmul, Rz, halfX; cbn [sumn mat3 Z.eqb]; ring.
Qed.

Lemma so2_ids_ok : forall l, Forall (irrep_ok SO2) (map (fun f => [f]) (py_range 0 (l + 1))).
Proof. intros l; apply Forall_forall; intros x I; apply in_map_iff in I as (f & <- & I); unfold py_range in I; apply in_map_iff in I as (k & <- & _); cbn [irrep_ok]; lia. Qed.
Lemma o2_ids_ok : forall l, Forall (irrep_ok O2) ([(l mod 2)%Z; 0%Z] :: map (fun f => [1%Z; f]) (py_range 1 (l + 1))).
Proof.
  intros l; constructor.
  - cbn [irrep_ok]; pose proof (Z.mod_pos_bound l 2 ltac:(lia)); lia.
  - apply Forall_forall; intros x I; apply in_map_iff in I as (f & <- & I); unfold py_range in I; apply in_map_iff in I as (k & <- & _); cbn [irrep_ok]; lia.
Qed.

(** restricting each of a list of irreps *)
Lemma restrict_each : forall G sid sg irrs, pvalid G -> pdocumented G sid -> p_subgroup G sid = Ret sg -> Forall (irrep_ok G) irrs ->
  exists xs, mapM (fun irr => x <- p_restrict_irrep G irr sid ;; Ret (snd x)) irrs = Ret xs /\
    Forall (irrep_ok (ps_group sg)) (List.concat xs) /\
    forall h g, pvalid (ps_group sg) -> pmember (ps_group sg) h -> ps_incl sg h = Ret g -> pmember G g ->
      Forall2 (fun irr ids => exists bs, blocks (ps_group sg) ids h = Ret bs /\ traces bs = ktr (irrep_kind G irr) (fl G g) (th G g)) irrs xs.
Proof.
  intros G sid sg irrs HG HD Esg F; induction F as [|irr irrs Hi F (xs & E & O & V)].
  - exists []; split; [reflexivity|]; split; [constructor|intros; constructor].
  - destruct (p_restrict_ok G sid irr HD Hi) as (sg' & r & x & E1 & E2 & E3 & E4); rewrite Esg in E1; apply Ret_inj in E1; subst sg'.
    exists (snd x :: xs); split; [cbn [mapM]; rewrite E3; cbn [bind]; rewrite E; reflexivity|]; split.
    + cbn [List.concat]; apply Forall_app; split; [apply E4|exact O].
    + intros h g HH Hh Eg Hg; constructor; [|apply V; assumption].
      destruct (p_irrep_kind G irr HG Hi) as (r' & Er & A); rewrite E2 in Er; apply Ret_inj in Er; subst r'.
      eapply restricts_trace; eassumption.
Qed.

Definition rotations (H : pgrp) (ids : list (list Z)) (l : nat) : Prop :=
  Forall (irrep_ok H) ids /\ forall h, pmember H h -> exists bs, blocks H ids h = Ret bs /\ traces bs = wave l (o2_angle (fl H h) (th H h)).

Lemma ids_so2 : forall l, (0 <= l)%Z -> exists ids, so3_restrict_ids l (S3PPlane false (-1)) = Ret ids /\ rotations SO2 ids (Z.to_nat l).
Proof.
  intros l Hl; unfold so3_restrict_ids; rewrite (proj2 (Z.leb_le 0 l) Hl); cbn [assert_ bind Z.eqb Pos.eqb]; eexists; split; [reflexivity|].
  split; [apply so2_ids_ok|]; intros h Hh; destruct (blocks_traces SO2 _ h I (so2_ids_ok l) Hh) as (bs & E & T); exists bs; split; [exact E|].
  rewrite T; clear T E; unpack; cbn [phase fst snd]; unfold o2_angle; cbn [Z.eqb]; rewrite <- so2_sum, Z2Nat.id by exact Hl; reflexivity.
Qed.

Lemma ids_o2 : forall l, (0 <= l)%Z -> exists ids, so3_restrict_ids l (S3PPlane true (-1)) = Ret ids /\ rotations O2 ids (Z.to_nat l).
Proof.
  intros l Hl; unfold so3_restrict_ids; rewrite (proj2 (Z.leb_le 0 l) Hl); cbn [assert_ bind Z.eqb Pos.eqb]; eexists; split; [reflexivity|].
  split; [apply o2_ids_ok|]; intros h Hh; destruct (blocks_traces O2 _ h I (o2_ids_ok l) Hh) as (bs & E & T); exists bs; split; [exact E|].
  rewrite T; clear T E; rewrite <- o2_sum by (apply fl_cases; exact Hh); rewrite Z2Nat.id by exact Hl; reflexivity.
Qed.

Lemma ids_cyc : forall l N, (0 <= l)%Z -> (0 < N)%Z -> exists ids, so3_restrict_ids l (S3PPlane false N) = Ret ids /\ rotations (Fin (Cyc N)) ids (Z.to_nat l).
Proof.
  intros l N Hl HN; unfold so3_restrict_ids; rewrite (proj2 (Z.leb_le 0 l) Hl), (proj2 (Z.eqb_neq N (-1))), (proj2 (Z.ltb_lt 0 N)) by lia; cbn [assert_ bind].
  assert (HD : pdocumented SO2 (ISO2 N)) by (cbn; lia).
  destruct (p_subgroup_cases SO2 (ISO2 N) HD) as (sg & Esg & C); inversion C; subst; [|lia].
  destruct (restrict_each SO2 (ISO2 N) _ _ I HD Esg (so2_ids_ok l)) as (xs & E & O & V); cbn [ps_group ps_incl p_restrict_irrep] in *.
  rewrite E; cbn [bind]; eexists; split; [reflexivity|]; split; [exact O|].
  assert (HV : pvalid (Fin (Cyc N))) by (cbn; apply Z.ltb_lt; lia).
  intros h Hh; assert (X : exists r, h = VF (VC r)) by (unpack; eauto); destruct X as [r ->].
  pose proof (V (VF (VC r)) _ HV Hh (so2_parent_eq N r HN) (m_range _)) as F; pose proof (concat_blocks _ _ _ _ _ F) as (bs & EB & T).
  exists bs; split; [exact EB|]; rewrite T; cbn [phase fst snd]; unfold o2_angle; cbn [Z.eqb].
  rewrite <- (Z2Nat.id l) at 1 by exact Hl; rewrite so2_sum; apply wave_cos; rewrite sa_m; reflexivity.
Qed.

Lemma ids_dih : forall l N, (0 <= l)%Z -> (1 < N)%Z -> exists ids, so3_restrict_ids l (S3PPlane true N) = Ret ids /\ rotations (Fin (Dih N)) ids (Z.to_nat l).
Proof.
  intros l N Hl HN; unfold so3_restrict_ids; rewrite (proj2 (Z.leb_le 0 l) Hl), (proj2 (Z.eqb_neq N (-1))), (proj2 (Z.ltb_lt 1 N)) by lia; cbn [assert_ bind].
  assert (HD : pdocumented O2 (IO2 (Some 0) N)) by (cbn; pose proof PI_RGT_0; repeat split; try lia; lra).
  destruct (p_subgroup_cases O2 (IO2 (Some 0) N) HD) as (sg & Esg & C); inversion C; subst; try lia.
  destruct (restrict_each O2 (IO2 (Some 0) N) _ _ I HD Esg (o2_ids_ok l)) as (xs & E & O & V); cbn [ps_group ps_incl p_restrict_irrep] in *.
  rewrite E; cbn [bind]; eexists; split; [reflexivity|]; split; [exact O|].
  assert (HV : pvalid (Fin (Dih N))) by (cbn; apply Z.ltb_lt; lia).
  intros h Hh; assert (X : exists f r, h = VF (VD f r)) by (unpack; eauto); destruct X as (f & r & ->); pose proof (proj1 Hh) as Hf.
  pose proof (V (VF (VD f r)) _ HV Hh (dn_to_o2_eq 0 N f r ltac:(lia) Hf) ltac:(split; [exact Hf|apply m_range])) as F; pose proof (concat_blocks _ _ _ _ _ F) as (bs & EB & T).
  exists bs; split; [exact EB|]; rewrite T; cbn [phase fst snd].
  rewrite <- (Z2Nat.id l) at 1 2 by exact Hl; rewrite o2_sum by exact Hf; apply wave_cos; unfold o2_angle.
  destruct (_ =? 0)%Z; [|reflexivity]; rewrite sa_m, Rmult_0_r, Rplus_0_r; reflexivity.
Qed.

(** the irreps for the processed id *)
Lemma ids_plane : forall l f N, (0 <= l)%Z -> (N = -1 \/ 0 < N)%Z ->
  exists ids, so3_restrict_ids l (if flips f && (N =? 1)%Z then S3PPlane false 2 else S3PPlane (flips f) N) = Ret ids /\
    rotations (plane_group (flips f) N) ids (Z.to_nat l).
Proof.
  intros l f N Hl HN; unfold plane_group; destruct (flips f); cbn [andb].
  - destruct (Z.eqb_spec N 1) as [->|N1]; cbn [Z.eqb Pos.eqb]; [apply ids_cyc; lia|].
    destruct (Z.eqb_spec N (-1)) as [->|N2]; [apply ids_o2; exact Hl|apply ids_dih; lia].
  - destruct (Z.eqb_spec N (-1)) as [->|N2]; [apply ids_so2; exact Hl|apply ids_cyc; lia].
Qed.

(** the angle of the rotation an element stands for *)
Lemma plane_turn : forall f N v, (N = -1 \/ 0 < N)%Z -> pmember (plane_group (flips f) N) v ->
  trace 3 (plane_matrix f N v) = 1 + 2 * cos (o2_angle (fl (plane_group (flips f) N) v) (th (plane_group (flips f) N) v)).
Proof.
  intros f N v HN Hv.
  assert (F : (plane_flip (flips f) N v = 0 \/ plane_flip (flips f) N v = 1)%Z).
  { unfold plane_flip, plane_group in *; destruct (flips f); cbn [andb] in *.
    - destruct (Z.eqb_spec N 1) as [->|N1]; cbn [Z.eqb Pos.eqb] in *; [unpack; cbn; lia|].
      destruct (Z.eqb_spec N (-1)); unpack; cbn; apply Hv.
    - destruct (Z.eqb_spec N (-1)); unpack; cbn; auto. }
  rewrite (trace_plane_matrix f N v _ eq_refl F); clear F; f_equal; f_equal.
  unfold plane_flip, plane_angle, plane_group in *; destruct (flips f); cbn [andb] in *.
  - destruct (Z.eqb_spec N 1) as [->|N1]; cbn [Z.eqb Pos.eqb] in *.
    + unpack; cbn [phase fst snd]; unfold o2_angle; cbn [Z.eqb].
      match goal with |- context [ang 2 ?r] => assert (C : (r = 0 \/ r = 1)%Z) by lia; destruct C as [-> | ->] end; cbn [Z.eqb];
        unfold ang; f_equal; field.
    + destruct (Z.eqb_spec N (-1)); unpack; reflexivity.
  - destruct (Z.eqb_spec N (-1)); unpack; reflexivity.
Qed.

Lemma restricted_characters : forall id adj l, so3_documented id -> unit adj -> (0 <= l)%Z ->
  exists x s ids, so3_process id adj = Ret x /\ so3_subgroup id adj = Ret s /\ so3_restrict_ids l (fst x) = Ret ids /\
    match s3_group s with
    | GP H => Forall (irrep_ok H) ids /\ forall h, pmember H h -> exists g bs, s3_incl s (EP h) = Ret g /\ unit g /\
        blocks H ids h = Ret bs /\ forall t, turns_by g t -> traces bs = wave (Z.to_nat l) t
    | _ => ids = [[l]]
    end.
Proof.
  intros id adj l HD U Hl; destruct (so3_subgroups id adj HD U) as (s & Es & S).
  pose proof Es as Ep; unfold so3_subgroup in Ep; apply bind_Ret in Ep as (x & Ep & _); exists x, s.
  pose proof (sub_group _ _ _ _ _ _ S) as G; destruct id as [|f N].
  - exists [[l]]; split; [exact Ep|]; split; [exact Es|]; rewrite G; cbn [so3_group_of]; split; [|reflexivity].
    cbn in Ep; apply Ret_inj in Ep; subst x; unfold so3_restrict_ids; rewrite (proj2 (Z.leb_le 0 l) Hl); reflexivity.
  - destruct (ids_plane l f N Hl HD) as (ids & E & O & V); exists ids; split; [exact Ep|]; split; [exact Es|].
    rewrite (process_pid f N adj x Ep); split; [exact E|]; rewrite G; cbn [so3_group_of]; split; [exact O|].
    intros h Hh; destruct (sub_incl _ _ _ _ _ _ S (EP h) Hh) as (g & Eg & Ug & Mg); destruct (V h Hh) as (bs & EB & T).
    exists g, bs; split; [exact Eg|]; split; [exact Ug|]; split; [exact EB|]; intros t Ht; rewrite T; apply wave_cos.
    unfold turns_by in Ht; rewrite (trace_ext _ _ _ Mg), trace_conjugate in Ht by (apply mat_orth3; exact U).
    cbn [so3_matrix] in Ht; rewrite plane_turn in Ht by assumption; lra.
Qed.
