(** The irreps of C_N and D_N exhaust the regular representation; commutants. *)
From Coq Require Import Reals ZArith Bool List Lia Lra Setoid Morphisms.
From Verif Require Import LibRes LibMat LibTrig SpecGroup FinGroupModel SpecFinGroup FinGroupProofs
  ParamModel ParamProofs PlanarModel SpecPlanar PlanarProofs IrrepModel SpecRep SpecIrrep IrrepProofs
  RestrictProofs.
Import ListNotations.
Open Scope R_scope.

(** ** Sums of cosines *)

Lemma dirichlet : forall n x,
  sin (x / 2) * (1 + 2 * sumn n (fun k => cos (INR (S k) * x))) = sin (INR n * x + x / 2).
Proof.
  induction n as [|n IH]; intros x; cbn [sumn].
  - cbn [INR]; rewrite Rmult_0_l, Rplus_0_l; ring.
  - replace (sin (x / 2) * (1 + 2 * (sumn n (fun k => cos (INR (S k) * x)) + cos (INR (S n) * x))))
      with (sin (x / 2) * (1 + 2 * sumn n (fun k => cos (INR (S k) * x))) +
            2 * sin (x / 2) * cos (INR (S n) * x)) by ring.
    rewrite IH; set (y := INR (S n) * x).
    replace (INR n * x + x / 2) with (y - x / 2) by (unfold y; rewrite S_INR; field).
    fold y; rewrite sin_plus, sin_minus; ring.
Qed.

Lemma halves : forall N, (0 < N)%Z ->
  (exists p, (0 < p)%Z /\ N = (2 * p)%Z /\ ((N - 1) / 2 = p - 1)%Z /\ (N / 2 = p)%Z /\ (N mod 2 =? 0)%Z = true) \/
  (exists p, (0 <= p)%Z /\ N = (2 * p + 1)%Z /\ ((N - 1) / 2 = p)%Z /\ (N / 2 = p)%Z /\ (N mod 2 =? 0)%Z = false).
Proof.
  intros N HN; destruct (Z.Even_or_Odd N) as [[p ->]|[p ->]]; [left|right]; exists p; split; try lia;
    (split; [reflexivity|]).
  - repeat split.
    + replace (2 * p - 1)%Z with (1 + (p - 1) * 2)%Z by ring; rewrite Z.div_add by lia; reflexivity.
    + rewrite Z.mul_comm; apply Z.div_mul; lia.
    + rewrite Z.mul_comm, Z.mod_mul by lia; reflexivity.
  - repeat split.
    + replace (2 * p + 1 - 1)%Z with (p * 2)%Z by ring; apply Z.div_mul; lia.
    + replace (2 * p + 1)%Z with (1 + p * 2)%Z by ring; rewrite Z.div_add by lia; reflexivity.
    + replace (2 * p + 1)%Z with (1 + p * 2)%Z by ring; rewrite Z.mod_add by lia; reflexivity.
Qed.

(** half-range sum: [n] full frequencies, and the Nyquist one when N is even *)
Lemma char_sum : forall N r, (0 < N)%Z -> (0 <= r < N)%Z ->
  1 + 2 * sumn (Z.to_nat ((N - 1) / 2)) (fun k => cos (INR (S k) * ang N r)) +
    (if (N mod 2 =? 0)%Z then cos (IZR (N / 2) * ang N r) else 0) = if (r =? 0)%Z then IZR N else 0.
Proof.
  intros N r HN Hr; pose proof (IZR_pos N HN) as HNr; pose proof PI_RGT_0 as HP.
  set (n := Z.to_nat ((N - 1) / 2)).
  assert (HnZ : INR n = IZR ((N - 1) / 2)).
  { unfold n; rewrite INR_IZR_INZ, Z2Nat.id; [reflexivity|apply Z.div_pos; lia]. }
  clearbody n.
  destruct (Z.eqb_spec r 0) as [->|Hr0].
  - assert (E0 : ang N 0 = 0) by (unfold ang; ring); rewrite E0.
    rewrite (sumn_ext n _ (fun _ => 1)) by (intros; rewrite Rmult_0_r; apply cos_0).
    rewrite sumn_const, Rmult_0_r, cos_0, HnZ.
    destruct (halves N HN) as [(p & Hp & E & -> & _ & ->)|(p & Hp & E & -> & _ & ->)]; subst N.
    + rewrite minus_IZR, mult_IZR; lra.
    + rewrite plus_IZR, mult_IZR; lra.
  - assert (Hs : sin (ang N r / 2) <> 0).
    { apply Rgt_not_eq, sin_gt_0; unfold ang.
      - assert (0 < IZR r) by (apply IZR_lt; lia).
        replace (2 * PI / IZR N * IZR r / 2) with (PI * IZR r / IZR N) by (field; lra).
        apply Rdiv_lt_0_compat; [apply Rmult_lt_0_compat|]; lra.
      - assert (IZR r < IZR N) by (apply IZR_lt; lia).
        replace (2 * PI / IZR N * IZR r / 2) with (PI * (IZR r / IZR N)) by (field; lra).
        rewrite <- (Rmult_1_r PI) at 2; apply Rmult_lt_compat_l; [lra|].
        apply Rmult_lt_reg_r with (IZR N); [lra|]; field_simplify; lra. }
    apply Rmult_eq_reg_l with (sin (ang N r / 2)); [|exact Hs].
    rewrite Rmult_plus_distr_l, dirichlet, Rmult_0_r, HnZ.
    destruct (halves N HN) as [(p & Hp & E & -> & -> & ->)|(p & Hp & E & -> & -> & ->)].
    + assert (EN : IZR N = 2 * IZR p) by (rewrite E, mult_IZR; reflexivity).
      assert (E1 : IZR p * ang N r = PI * IZR r) by (unfold ang; rewrite EN; field; lra).
      replace (IZR (p - 1) * ang N r + ang N r / 2) with (- (ang N r / 2) + PI * IZR r)
        by (rewrite minus_IZR; rewrite Rmult_minus_distr_r, E1; field).
      rewrite sin_add_PI_Z, E1, cos_PI_Z, sin_neg; ring.
    + assert (EN : IZR N = 2 * IZR p + 1) by (rewrite E, plus_IZR, mult_IZR; reflexivity).
      replace (IZR p * ang N r + ang N r / 2) with (PI * IZR r) by (unfold ang; rewrite EN; field; lra).
      rewrite sin_PI_Z; ring.
Qed.

(** ** The ids built by the constructor *)

Lemma built_irreps_exact : forall G, valid_grp G = true ->
  NoDup (built_irreps G) /\ forall id, In id (built_irreps G) <-> irrep_ok (Fin G) id.
Proof.
  intros [N|N] HG; apply Z.ltb_lt in HG; cbn [built_irreps].
  - split.
    + apply FinFun.Injective_map_NoDup; [intros x y E; injection E as E; exact E|apply zrange_NoDup].
    + intros id; rewrite in_map_iff; split.
      * intros (k & <- & Hk); apply zrange_In in Hk; cbn [irrep_ok].
        pose proof (half_le N k); lia.
      * destruct id as [|k [|]]; cbn [irrep_ok]; try contradiction; intros H; exists k; split; [reflexivity|].
        apply zrange_In; pose proof (half_le N k); lia.
  - assert (Hz : forall k, In k (zrange (N / 2 + 1)) <-> (0 <= 2 * k <= N)%Z).
    { intros k; rewrite zrange_In; pose proof (half_le N k); lia. }
    split.
    + constructor.
      * intros H; apply in_app_or in H as [H|H].
        -- apply in_map_iff in H as (k & E & _); discriminate E.
        -- destruct (halves N HG) as [(p & Hp & E & _ & E2 & EM)|(p & Hp & E & _ & _ & EM)]; rewrite EM in H; [|contradiction].
           destruct H as [H|[]]; injection H as H; lia.
      * apply NoDup_app_intro.
        -- apply FinFun.Injective_map_NoDup; [intros x y E; injection E as E; exact E|apply zrange_NoDup].
        -- destruct (N mod 2 =? 0)%Z; repeat constructor; intros [].
        -- intros x H1 H2; apply in_map_iff in H1 as (k & <- & _).
           destruct (N mod 2 =? 0)%Z; [destruct H2 as [H2|[]]; discriminate H2|contradiction].
    + intros id; split.
      * intros [<-|H]; [cbn [irrep_ok]; lia|].
        apply in_app_or in H as [H|H].
        -- apply in_map_iff in H as (k & <- & Hk); apply Hz in Hk; cbn [irrep_ok]; lia.
        -- destruct (halves N HG) as [(p & Hp & E & _ & E2 & EM)|(p & Hp & E & _ & _ & EM)]; rewrite EM in H; [|contradiction].
           destruct H as [<-|[]]; cbn [irrep_ok]; lia.
      * destruct id as [|j [|k [|]]]; cbn [irrep_ok]; try contradiction; intros [Hk Hj].
        destruct Hj as [-> | [-> [-> | Hk2]]].
        -- right; apply in_or_app; left; apply in_map_iff; exists k; split; [reflexivity|apply Hz; exact Hk].
        -- left; reflexivity.
        -- right; apply in_or_app; right.
           destruct (halves N HG) as [(p & Hp & E & _ & E2 & ->)|(p & Hp & E & _ & _ & EM)]; [|lia].
           left; do 2 f_equal; lia.
Qed.

(** ** Characters of the kinds *)

Definition kchar (kd : kind) (f : Z) (t : R) : R :=
  match kd with
  | K1 s k => rsign (s * f) * cos (IZR k * t)
  | K2 k => (1 + rsign f) * cos (IZR k * t)
  end.

Lemma kchar_trace : forall kd f t, trace (kdim kd) (kmat kd f t) = kchar kd f t.
Proof. intros [s k|k] f t; unfold trace; cbn; unfold mat1, mat2; ring. Qed.

Lemma irrep_char_val : forall G id r v, irrep_as G id r (irrep_kind G id) -> pmember G v ->
  ir_char r v = Ret (kchar (irrep_kind G id) (fl G v) (th G v)).
Proof.
  intros G id r v (_ & _ & _ & _ & _ & _ & Hr) Hv; destruct (Hr v Hv) as (A & _ & MA & ->).
  rewrite (trace_ext _ _ _ MA), kchar_trace; reflexivity.
Qed.

(** size // sum_of_squares_constituents *)
Definition kmult (G : pgrp) (kd : kind) : nat :=
  match G, kd with
  | Fin (Dih _), K2 _ => 2
  | O2, K2 _ => 2
  | _, _ => 1
  end.

Lemma irrep_mult : forall G id r, irrep_as G id r (irrep_kind G id) ->
  (ir_size r / ir_sosc r)%nat = kmult G (irrep_kind G id).
Proof.
  intros G id r (_ & _ & Es & _ & Ec & _); unfold ir_sosc; rewrite Es, Ec.
  destruct G as [[N|N]| |]; destruct (irrep_kind _ id); reflexivity.
Qed.

Lemma zrange_fold : forall (f : Z -> R) n,
  fold_right Rplus 0 (map f (zrange (Z.of_nat n))) = sumn n (fun k => f (Z.of_nat k)).
Proof. intros f n; unfold zrange; rewrite Nat2Z.id, map_map, sumn_list; reflexivity. Qed.

Lemma fold_right_Rplus_app : forall l1 l2,
  fold_right Rplus 0 (l1 ++ l2) = fold_right Rplus 0 l1 + fold_right Rplus 0 l2.
Proof. induction l1 as [|x l1 IH]; intros l2; cbn; [ring|rewrite IH; ring]. Qed.

(** sum over the frequencies 0..N/2 of a function that treats 0 and N/2 apart *)
Lemma sum_halves : forall N (f g : Z -> R), (0 < N)%Z ->
  (forall k, (k = 0 \/ 2 * k = N)%Z -> f k = g k) ->
  fold_right Rplus 0 (map f (zrange (N / 2 + 1))) =
  g 0%Z + sumn (Z.to_nat ((N - 1) / 2)) (fun k => f (Z.of_nat (S k))) +
  (if (N mod 2 =? 0)%Z then g (N / 2)%Z else 0).
Proof.
  intros N f g HN Hfg.
  destruct (halves N HN) as [(p & Hp & E & -> & -> & ->)|(p & Hp & E & -> & -> & ->)].
  - replace (p + 1)%Z with (Z.of_nat (S (S (Z.to_nat (p - 1))))) by lia.
    rewrite zrange_fold, sumn_S_first; cbn [sumn].
    rewrite <- (Hfg 0%Z), <- (Hfg p) by auto.
    replace (Z.of_nat (S (Z.to_nat (p - 1)))) with p by lia; cbn [Z.of_nat]; ring.
  - replace (p + 1)%Z with (Z.of_nat (S (Z.to_nat p))) by lia.
    rewrite zrange_fold, sumn_S_first, <- (Hfg 0%Z) by auto; cbn [Z.of_nat]; ring.
Qed.

Definition wchar (G : pgrp) (v : pval) (id : list Z) : R :=
  INR (kmult G (irrep_kind G id)) * kchar (irrep_kind G id) (fl G v) (th G v).

Lemma wchar_sum : forall G v, valid_grp G = true -> pmember (Fin G) v ->
  fold_right Rplus 0 (map (wchar (Fin G) v) (built_irreps G)) =
  match G, v with
  | Cyc N, VF (VC r) => if (r =? 0)%Z then IZR N else 0
  | Dih N, VF (VD f r) => if (f =? 0)%Z && (r =? 0)%Z then 2 * IZR N else 0
  | _, _ => 0
  end.
Proof.
  intros [N|N] v HG Hv; apply Z.ltb_lt in HG; unpack; cbn [built_irreps].
  - rewrite map_map.
    rewrite (sum_halves N _ (fun k => cos (IZR k * ang N r))) by
      (try exact HG; intros k Hk; unfold wchar; cbn [irrep_kind]; rewrite (orb_half _ _ Hk);
       cbn; unfold rsign; cbn; ring).
    rewrite <- (char_sum N r HG Hv), Rmult_0_l, cos_0; f_equal; f_equal.
    rewrite <- sumn_scal_l; apply sumn_ext; intros k Hk; unfold wchar; cbn [irrep_kind].
    replace ((Z.of_nat (S k) =? 0)%Z || (2 * Z.of_nat (S k) =? N)%Z) with false.
    + cbn [kmult kchar phase fst snd]; rewrite (INR_IZR_INZ (S k)); unfold rsign; cbn [Z.eqb INR]; ring.
    + symmetry; apply orb_false_intro; apply Z.eqb_neq; [lia|].
      destruct (halves N HG) as [(p & Hp & E & E1 & _)|(p & Hp & E & E1 & _)]; lia.
  - destruct Hv as [Hf Hr].
    cbn [map fold_right]; rewrite map_app, fold_right_Rplus_app, map_map.
    rewrite (sum_halves N _ (fun k => rsign f * cos (IZR k * ang N r))) by
      (try exact HG; intros k Hk; unfold wchar; cbn [irrep_kind]; rewrite (orb_half _ _ Hk);
       cbn [kmult kchar phase fst snd INR]; rewrite Z.mul_1_l; ring).
    rewrite (sumn_ext _ _ (fun k => 2 * ((1 + rsign f) * cos (INR (S k) * ang N r)))).
    2:{ intros k Hk; unfold wchar; cbn [irrep_kind].
        replace ((Z.of_nat (S k) =? 0)%Z || (2 * Z.of_nat (S k) =? N)%Z) with false.
        - cbn [kmult kchar phase fst snd]; rewrite (INR_IZR_INZ (S k)); change (INR 2) with 2; reflexivity.
        - symmetry; apply orb_false_intro; apply Z.eqb_neq; [lia|].
          destruct (halves N HG) as [(p & Hp & E & E1 & _)|(p & Hp & E & E1 & _)]; lia. }
    rewrite 2!sumn_scal_l.
    replace (wchar (Fin (Dih N)) (VF (VD f r)) [0%Z; 0%Z]) with 1.
    2:{ unfold wchar; cbn; rewrite Rmult_0_l, cos_0; unfold rsign; cbn; ring. }
    replace (fold_right Rplus 0 (map (wchar (Fin (Dih N)) (VF (VD f r)))
      (if (N mod 2 =? 0)%Z then [[0%Z; (N / 2)%Z]] else []))) with
      (if (N mod 2 =? 0)%Z then cos (IZR (N / 2) * ang N r) else 0).
    2:{ destruct (halves N HG) as [(p & Hp & E & E1 & -> & ->)|(p & Hp & E & E1 & _ & ->)]; [|reflexivity].
        cbn [map fold_right]; unfold wchar; cbn [irrep_kind].
        rewrite orb_half by lia; cbn [kmult kchar phase fst snd INR]; rewrite Z.mul_0_l; unfold rsign; cbn [Z.eqb]; ring. }
    rewrite Rmult_0_l, cos_0.
    destruct Hf as [-> | ->]; cbn [Z.eqb andb]; unfold rsign; cbn [Z.eqb].
    + pose proof (char_sum N r HG Hr) as C.
      destruct (N mod 2 =? 0)%Z, (r =? 0)%Z; lra.
    + destruct (N mod 2 =? 0)%Z; lra.
Qed.

Lemma mapM_chars : forall G g ids, pvalid G -> pmember G g -> Forall (irrep_ok G) ids ->
  mapM (fun id => r <- p_irrep G id ;; c <- ir_char r g ;;
                  Ret (INR (ir_size r / ir_sosc r) * c)) ids = Ret (map (wchar G g) ids).
Proof.
  intros G g ids HG Hg; induction 1 as [|id ids Hid _ IH]; [reflexivity|].
  destruct (p_irrep_kind G id HG Hid) as (r & Er & A).
  cbn [mapM map]; rewrite Er; cbn [bind]; rewrite (irrep_char_val G id r g A Hg); cbn [bind].
  rewrite IH, (irrep_mult G id r A); reflexivity.
Qed.

Theorem regular_character : forall G g, valid_grp G = true -> pmember (Fin G) g ->
  exists cs n, order G = Ret n /\
    mapM (fun id => r <- p_irrep (Fin G) id ;; c <- ir_char r g ;;
                    Ret (INR (ir_size r / ir_sosc r) * c)) (built_irreps G) = Ret cs /\
    (g = pid (Fin G) -> fold_right Rplus 0 cs = IZR n) /\
    (g <> pid (Fin G) -> fold_right Rplus 0 cs = 0).
Proof.
  intros G g HG Hg.
  assert (Hall : Forall (irrep_ok (Fin G)) (built_irreps G)).
  { apply Forall_forall; intros id Hid; apply built_irreps_exact; assumption. }
  exists (map (wchar (Fin G) g) (built_irreps G)), (match G with Cyc N => N | Dih N => 2 * N end)%Z.
  split; [|split; [apply mapM_chars; assumption|]].
  - destruct G as [N|N]; apply Z.ltb_lt in HG; unfold order.
    + rewrite elements_C by exact HG; cbn [bind]; rewrite map_length, zrange_length; f_equal; lia.
    + rewrite elements_D by exact HG; cbn [bind]; rewrite app_length, !map_length, zrange_length; f_equal; lia.
  - rewrite (wchar_sum G g HG Hg); destruct G as [N|N]; unpack; cbn [pid gid]; split; intros E.
    + injection E as ->; reflexivity.
    + destruct (Z.eqb_spec r 0) as [->|]; [contradiction|reflexivity].
    + injection E as -> ->; cbn [Z.eqb andb]; rewrite mult_IZR; reflexivity.
    + destruct (Z.eqb_spec f 0) as [->|], (Z.eqb_spec r 0) as [->|]; try contradiction; reflexivity.
Qed.

(** The dimensions. *)
Theorem dimensions_sum : forall G, valid_grp G = true ->
  exists ds n, order G = Ret n /\
    mapM (fun id => r <- p_irrep (Fin G) id ;;
                    Ret (Z.of_nat (ir_size r * (ir_size r / ir_sosc r)))) (built_irreps G) = Ret ds /\
    fold_right Z.add 0%Z ds = n.
Proof.
  intros G HG.
  destruct (regular_character G (pid (Fin G)) HG (pid_member (Fin G) HG)) as (cs & n & En & Ecs & Hcs & _).
  specialize (Hcs eq_refl).
  assert (Hall : Forall (irrep_ok (Fin G)) (built_irreps G)).
  { apply Forall_forall; intros id Hid; apply built_irreps_exact; assumption. }
  rewrite mapM_chars in Ecs by (auto; apply (pid_member (Fin G)); exact HG); apply Ret_inj in Ecs; subst cs.
  assert (X : forall ids, Forall (irrep_ok (Fin G)) ids -> exists ds,
    mapM (fun id => r <- p_irrep (Fin G) id ;;
                    Ret (Z.of_nat (ir_size r * (ir_size r / ir_sosc r)))) ids = Ret ds /\
    IZR (fold_right Z.add 0%Z ds) = fold_right Rplus 0 (map (wchar (Fin G) (pid (Fin G))) ids)).
  { induction 1 as [|id ids Hid _ (ds & Ed & Es)]; [exists []; split; reflexivity|].
    destruct (p_irrep_kind (Fin G) id HG Hid) as (r & Er & A).
    eexists; split; [cbn [mapM]; rewrite Er; cbn [bind]; rewrite Ed; reflexivity|].
    cbn [fold_right map]; rewrite plus_IZR, Es; f_equal.
    rewrite <- INR_IZR_INZ, mult_INR, (irrep_mult _ _ _ A).
    unfold wchar; destruct A as (_ & _ & -> & _); destruct (phase_id (Fin G)) as [-> ->].
    rewrite Rmult_comm; f_equal.
    destruct (irrep_kind (Fin G) id); cbn; rewrite Rmult_0_r, cos_0, ?Z.mul_0_r; unfold rsign; cbn; ring. }
  destruct (X _ Hall) as (ds & Ed & Es); exists ds, n; split; [exact En|split; [exact Ed|]].
  apply eq_IZR; rewrite Es; exact Hcs.
Qed.
