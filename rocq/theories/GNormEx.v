(** GNormBatchNorm after histories, and examples. *)
From Coq Require Import Reals List ZArith Arith Bool Lia Lra.
From Verif Require Import LibRes LibPy LibMat ParamModel RepModel RepProofs SpecRepr FieldModel SpecField FieldProofs GroupedModel NonlinModel SpecNonlin ImageModel PoolModel BatchNormModel SpecBatch FNormModel SpecFNorm FNormProofs NamedProofs InnerBNCor BatchEx IIDEx GNormProofs GNormThms GNormCor GNormExport.
Import ListNotations.
Open Scope R_scope.

Section Reached.
Context {A L : Type}.
Variable size : A -> nat.
Variable name : A -> L.
Variable irreps : A -> list (nat * bool).
Variable cob inv : A -> mat.
Variable leqb : L -> L -> bool.
Hypothesis leqb_ok : forall a b, leqb a b = true <-> a = b.
Variable teqb : list A -> list A -> bool.
Variable ft uniq : list A.
Hypothesis Pos : Forall (fun r => (0 < size r)%nat) ft.
Hypothesis Lu : listing ft uniq.
Hypothesis Na : named_apart name ft.
Hypothesis Iok : forall r, In r ft -> irreps_ok (irreps r) (size r).
Hypothesis Inv : forall r, In r ft -> inverse_of (size r) (cob r) (inv r).
Hypothesis Sh : forall r, In r ft -> sharp (size r) (cob r).
Hypothesis Teq : teqb ft ft = true.
Variable affine track : bool.
Variable eps : R.
Variable mom : option R.
Variable m : gn_module (A := A) (L := L).
Variable st0 : gn_full (L := L).
Hypothesis Em : mk_gn size name irreps cob inv leqb affine track eps mom ft uniq = Ret (m, st0).
Variable junk : gtensor A chan -> list chan.
Hypothesis Lj : forall x, length (junk x) = type_size size ft.
Variable axes : gtensor A chan -> nat.
Hypothesis Ax : (forall x, axes x = 2%nat) \/ forall r, In r ft -> meq (size r) (size r) (cob r) mid.
Notation call := (fun t N st x => gn_forward size leqb teqb m t (axes x) N st (junk x) x).
Variable h : list (event (L * (list (list R) * list (list R))) (gtensor A chan)).
Variable st : gn_full (L := L).
Variable ys : list (option (gtensor A chan)).
Hypothesis Hh : forall t N x, In (Call t N x) h -> (t = true -> 0 < N)%nat /\ g_type x = ft /\ batch size ft N (g_chans x).
Hypothesis Hr : run call (gn_set leqb) gn_reset_running_stats st0 h = Ret (st, ys).
Notation Fst := (reached size name irreps cob inv leqb leqb_ok teqb ft uniq Pos Lu Na Iok Inv Sh Teq affine track eps mom m st0 Em junk Lj axes Ax h st ys Hh Hr).
Theorem gn_export_same :
  ((exists t, gn_export size leqb m st = Ret t) <-> track = true /\ forall r, In r ft -> exists a k, labelled leqb (map name ft) (name r) = seq a k) /\
  ((forall r, In r ft -> meq (size r) (size r) (cob r) mid) -> match mom with Some f => 0 <= f <= 1 | None => True end ->
   forall t, gn_export size leqb m st = Ret t -> (exists ms vs, bn_stats t = Some (ms, vs, gs_count st)) /\
   forall N x, g_type x = ft -> batch size ft N (g_chans x) ->
    exists st' y, gn_forward size leqb teqb m false 3 N st (junk x) x = Ret (st', y) /\ g_type y = ft /\
      bn3d_call eps mom (type_size size ft) 3 t (map (fun c => [c]) (g_chans x)) = Ret (t, map (fun c => [c]) (g_chans y))).
Proof.
  pose proof Fst as F. split.
  - apply (export_iff size name irreps cob inv leqb leqb_ok ft uniq Pos Lu Na Iok affine track eps mom m st0 Em st F).
  - intros Hid Hc t Et. destruct (export_same_fits size name irreps cob inv leqb leqb_ok teqb ft uniq Pos Lu Na Iok Inv Sh Teq affine track eps mom m st0 Em st F Hid Hc t Et) as [H1 H2]. split; [exact H1|].
    intros N x Tx B. apply (H2 3%nat N x (junk x) (Lj x) Tx B).
Qed.
Theorem gn_resets : gs_count (gn_reset_running_stats st) = 0%nat /\ gs_count (gn_reset_parameters st) = 0%nat /\ forall r, In r ft -> exists g g1 g2 g0,
  dget leqb (gs_groups st) (name r) = Some g /\ dget leqb (gs_groups (gn_reset_running_stats st)) (name r) = Some g1 /\ dget leqb (gs_groups (gn_reset_parameters st)) (name r) = Some g2 /\
  dget leqb (gs_groups st0) (name r) = Some g0 /\ gs_mean g1 = gs_mean g0 /\ gs_var g1 = gs_var g0 /\ gs_weight g1 = gs_weight g /\ gs_bias g1 = gs_bias g /\ g2 = g0.
Proof. apply (resets_fits size name irreps cob inv leqb leqb_ok ft uniq Lu Na affine track eps mom m st0 Em st Fst). Qed.
End Reached.

Theorem gn_axes : forall {A L} size (name : A -> L) irreps cob inv (leqb : L -> L -> bool), (forall a b, leqb a b = true <-> a = b) -> forall teqb (ft uniq : list A),
  Forall (fun r => (0 < size r)%nat) ft -> listing ft uniq -> named_apart name ft -> (forall r, In r ft -> sharp (size r) (cob r)) ->
  forall affine track eps mom m st0, mk_gn size name irreps cob inv leqb affine track eps mom ft uniq = Ret (m, st0) ->
  forall r, In r ft -> ~ meq (size r) (size r) (cob r) mid ->
  forall t axes N st junk x, length (g_chans x) = type_size size ft ->
    (axes <> 2%nat -> gn_forward size leqb teqb m t axes N st junk x = Raise) /\
    forall b y, gn_forward size leqb teqb m t axes N st junk x <> Raise -> bn3d_call eps mom (type_size size ft) axes b y = Raise.
Proof.
  intros A L size name irreps cob inv leqb leqb_ok teqb ft uniq Pos Lu Na Sh affine track eps mom m st0 Em r Hr Nid t axes N st junk x Lx.
  assert (axes <> 2%nat -> gn_forward size leqb teqb m t axes N st junk x = Raise) as K.
  { intros Ns. apply (forward_axes size name irreps cob inv leqb leqb_ok teqb ft uniq Pos Lu Na Sh affine track eps mom m st0 Em); [exists r; auto|exact Lx|exact Ns]. }
  split; [exact K|]. intros b y H. unfold bn3d_call. destruct (Nat.eqb_spec axes 3) as [->|]; [|reflexivity]. exfalso. apply H, K. discriminate.
Qed.

Lemma two_sharp : forall r, sharp (two_size r) (two_cob r).
Proof.
  intros [|]; [right|left; apply meq_refl]. destruct (allclose _ _ _ _) eqn:E; [|reflexivity]. exfalso. apply allclose_true with (i := 0%nat) (j := 1%nat) in E; [|cbn; lia|cbn; lia].
  unfold two_cob, two_size, mat2, mid in E. cbn in E. unfold np_isclose, Rleb in E. destruct (Rle_dec (Rabs (1 - 0)) _) as [K|K]; [|discriminate]. rewrite Rminus_0_r, Rabs_R1, Rabs_R0 in K. lra.
Qed.
Lemma two_not_id : ~ meq (two_size true) (two_size true) (two_cob true) mid.
Proof. intros H. specialize (H 0%nat 1%nat ltac:(cbn; lia) ltac:(cbn; lia)). unfold mid in H. cbn in H. lra. Qed.

Lemma gn_example : exists m st0 st y g a b c,
  listing [true; false] [false; true] /\ named_apart (fun r : bool => r) [true; false] /\ (forall r, irreps_ok (two_irreps r) (two_size r)) /\
  (forall r, sharp (two_size r) (two_cob r)) /\ ~ meq (two_size true) (two_size true) (two_cob true) mid /\
  mk_gn two_size (fun r => r) two_irreps two_cob two_inv Bool.eqb true true (1 / 100000) (Some (1 / 10)) [true; false] [false; true] = Ret (m, st0) /\
  (forall r, inverse_of (two_size r) (two_cob r) (two_inv r)) /\ (forall r, represents (two_irreps r) (two_cob r) (two_inv r) (two_size r) (two_rho r)) /\
  reorders 2 flip /\ moved_batch two_size [true; false] 2 (fun _ => two_rho) flip (g_chans two_x) (g_chans two_x') /\
  run (fun t N st x => gn_forward two_size Bool.eqb two_teqb m t 2 N st (two_junk x) x) (gn_set Bool.eqb) gn_reset_running_stats st0 [Call true 2 two_x] = Ret (st, [Some y]) /\
  irrep_variance (two_irreps true) 2 2 (coord (two_inv true) 2 [[1; 3]; [5; 7]]) 0 = 2 /\ irrep_variance (two_irreps true) 2 2 (coord (two_inv true) 2 [[1; 3]; [5; 7]]) 1 = 8 /\
  dget Bool.eqb (gs_groups st) true = Some g /\ nth 0 (nth 0 (gs_mean g) []) 0 = a /\ nth 0 (nth 0 (gs_var g) []) 0 = b /\ nth 1 (nth 0 (gs_var g) []) 0 = c /\ a = 4 / 10 /\ b = 11 / 10 /\ c = 17 / 10.
Proof.
  assert (listing [true; false] [false; true]) as Lu by (split; [repeat constructor; cbn; intuition discriminate|intros [|]; cbn; intuition]).
  assert (named_apart (fun r : bool => r) [true; false]) as Na by (intros a b _ _ E; exact E).
  assert (forall a b, Bool.eqb a b = true <-> a = b) as eqb_ok by (intros; apply Bool.eqb_true_iff).
  destruct (mk_gn two_size (fun r => r) two_irreps two_cob two_inv Bool.eqb true true (1 / 100000) (Some (1 / 10)) [true; false] [false; true]) as [|[m st0]] eqn:Em; [discriminate|].
  assert (forall x : gtensor bool (list R), length (two_junk x) = length (g_chans x)) as Lj by (intros x; apply map_length).
  destruct (gn_value two_size (fun r => r) two_irreps two_cob two_inv Bool.eqb eqb_ok two_teqb [true; false] [false; true] ltac:(repeat constructor) Lu Na (fun r _ => two_irreps_ok r) (fun r _ => two_inverse r) (fun r _ => two_sharp r) eq_refl
    true true (1 / 100000) (Some (1 / 10)) m st0 Em (fun _ => two_junk two_x) (fun x => eq_refl) (fun _ => 2%nat) (or_introl (fun _ => eq_refl)) [] st0 [] ltac:(intros ? ? ? []) eq_refl true 2%nat two_x ltac:(lia) eq_refl) as (st & y & Ey & Ty & By & Cy & Hy).
  { split; [reflexivity|repeat constructor]. }
  destruct (Hy 0%nat true 0%nat eq_refl eq_refl) as (g & g' & mu & var & Eg & Eg' & _ & _ & _ & _ & H). cbn [andb] in H. destruct H as [H1 H2].
  assert (dget Bool.eqb (gs_groups st0) true = Some (gn_start true 1 (gn_info_of two_size two_irreps two_cob two_inv true))) as E0.
  { destruct (GNormThms.mk_ok two_size (fun r => r) two_irreps two_cob two_inv Bool.eqb eqb_ok _ _ Lu Na _ _ _ _ _ _ Em) as (bb & _ & _ & _ & _ & _ & _ & _ & _ & _ & _ & _ & K). apply (K true). left; reflexivity. }
  rewrite E0 in Eg. injection Eg as <-.
  specialize (H1 0%nat ltac:(cbn; lia)). pose proof (H2 0%nat ltac:(cbn; lia)) as H3. specialize (H2 1%nat ltac:(cbn; lia)).
  unfold gn_start in H1, H2, H3. cbn [gs_mean gs_var gn_info_of gi_trivials gi_irreps] in H1, H2, H3. cbn [two_irreps trivials map length repeat nth app fst] in H1, H2, H3. unfold towards in H1, H2, H3.
  assert (irrep_variance (two_irreps true) 2 2 (coord (two_inv true) 2 [[1; 3]; [5; 7]]) 0 = 2 /\ irrep_variance (two_irreps true) 2 2 (coord (two_inv true) 2 [[1; 3]; [5; 7]]) 1 = 8) as [V0 V1].
  { unfold irrep_variance, centre, coord, ent. cbn. lra. }
  exists m, st0, st, y, g'. do 3 eexists. split; [exact Lu|]. split; [exact Na|]. split; [apply two_irreps_ok|]. split; [apply two_sharp|]. split; [apply two_not_id|]. split; [reflexivity|]. split; [apply two_inverse|]. split; [apply two_represents|].
  split; [apply flip_reorders|]. split; [apply two_moved|]. split; [cbn [run]; cbn beta; rewrite Ey; reflexivity|]. split; [exact V0|]. split; [exact V1|]. split; [exact Eg'|]. split; [reflexivity|]. split; [reflexivity|]. split; [reflexivity|].
  rewrite H1, H2, H3. unfold irrep_variance, centre, coord, ent. cbn. lra.
Qed.

(** ** The export with a change of basis *)
Definition swap_x : gtensor bool (list R) := {| g_type := [true]; g_chans := [[0]; [1]] |}.
Lemma gn_export_wrong : exists m st0 st' y t ys,
  mk_gn two_size (fun r => r) two_irreps two_cob two_inv Bool.eqb false true 3 (Some (1 / 10)) [true] [true] = Ret (m, st0) /\
  gn_export two_size Bool.eqb m st0 = Ret t /\
  gn_forward two_size Bool.eqb two_teqb m false 2 1 st0 (two_junk swap_x) swap_x = Ret (st', y) /\
  bn_call 3 (Some (1 / 10)) 2 false t (map (fun c => [c]) (g_chans swap_x)) = Ret (t, ys) /\
  ent (g_chans y) 1 0 = 1 / 2 /\ nth 0 (nth 0 (nth 1 ys []) []) 0 = 1 / sqrt 3.
Proof.
  assert (listing [true] [true]) as Lu by (split; [repeat constructor; cbn; intuition discriminate|intros b; cbn; intuition]).
  assert (named_apart (fun r : bool => r) [true]) as Na by (intros a b _ _ E; exact E).
  assert (forall a b, Bool.eqb a b = true <-> a = b) as eqb_ok by (intros; apply Bool.eqb_true_iff).
  destruct (mk_gn two_size (fun r => r) two_irreps two_cob two_inv Bool.eqb false true 3 (Some (1 / 10)) [true] [true]) as [|[m st0]] eqn:Em; [discriminate|].
  assert (Forall (fun r => (0 < two_size r)%nat) [true]) as Pos by repeat constructor.
  destruct (gn_value two_size (fun r => r) two_irreps two_cob two_inv Bool.eqb eqb_ok two_teqb [true] [true] Pos Lu Na (fun r _ => two_irreps_ok r) (fun r _ => two_inverse r) (fun r _ => two_sharp r) eq_refl
    false true 3 (Some (1 / 10)) m st0 Em (fun _ => two_junk swap_x) (fun x => eq_refl) (fun _ => 2%nat) (or_introl (fun _ => eq_refl)) [] st0 [] ltac:(intros ? ? ? []) eq_refl false 1%nat swap_x ltac:(lia) eq_refl) as (st & y & Ey & Ty & By & Cy & Hy).
  { split; [reflexivity|repeat constructor]. }
  destruct (Hy 0%nat true 0%nat eq_refl eq_refl) as (g & g' & mu & var & Eg & Eg' & _ & _ & H & H1 & _). cbn [orb negb] in H1. destruct H1 as [H1 H2].
  assert (dget Bool.eqb (gs_groups st0) true = Some (gn_start false 1 (gn_info_of two_size two_irreps two_cob two_inv true))) as E0.
  { destruct (GNormThms.mk_ok two_size (fun r => r) two_irreps two_cob two_inv Bool.eqb eqb_ok _ _ Lu Na _ _ _ _ _ _ Em) as (bb & _ & _ & _ & _ & _ & _ & _ & _ & _ & _ & _ & K). apply (K true). left; reflexivity. }
  rewrite E0 in Eg. injection Eg as <-.
  pose proof (GNormCor.fits0 two_size (fun r => r) two_irreps two_cob two_inv Bool.eqb eqb_ok _ _ Lu Na _ _ _ _ _ _ Em) as F0.
  destruct (exported two_size (fun r => r) two_irreps two_cob two_inv Bool.eqb eqb_ok [true] [true] Pos Lu Na (fun r _ => two_irreps_ok r) false true 3 (Some (1 / 10)) m st0 Em st0 F0 eq_refl) as (ms & vs & aff & Ex & Pm & Pv & Pa).
  { intros r [<-|[]]. exists 0%nat, 1%nat. reflexivity. }
  destruct aff as [[w b]|]; [destruct Pa; discriminate|].
  pose proof (placed_at two_size (fun r => r) Bool.eqb [true] [true] Lu _ _ ms 0%nat true 0%nat 1%nat Pm eq_refl eq_refl ltac:(cbn; lia)) as Vm.
  pose proof (placed_at two_size (fun r => r) Bool.eqb [true] [true] Lu _ _ vs 0%nat true 0%nat 1%nat Pv eq_refl eq_refl ltac:(cbn; lia)) as Vv.
  change (offset two_size [true] 0 + 1)%nat with 1%nat in Vm, Vv. unfold Bm, Bv, Bu, grp in Vm, Vv. rewrite E0 in Vm, Vv. unfold gn_start in Vm, Vv. cbn [gs_mean gs_var] in Vm, Vv. cbn [repeat map nth] in Vm, Vv.
  assert (nth 1 ms 0 = 0) as Vm1.
  { rewrite Vm. destruct (row_shift_ok (gn_info_of two_size two_irreps two_cob two_inv true) (two_irreps true) 2 (two_irreps_ok true) eq_refl eq_refl [0] eq_refl) as [_ K]. rewrite K by lia. unfold along, mid. cbn. ring. }
  assert (nth 1 vs 0 = 0) as Vv1.
  { rewrite Vv. cbn [gn_info_of gi_cob]. destruct (two_sharp true) as [K|K]; [exfalso; apply two_not_id, K|]. rewrite K. cbn [map nth]. rewrite lin_nth by (cbn; lia).
    destruct (row_scale_ok (gn_info_of two_size two_irreps two_cob two_inv true) (two_irreps true) 2 (two_irreps_ok true) eq_refl eq_refl [1; 1] eq_refl) as [_ K2].
    cbn [gn_info_of gi_irreps gi_trivials two_irreps map length repeat fst]. unfold sumn, two_size. rewrite !K2 by lia. cbn. ring. }
  exists m, st0, st, y. do 2 eexists. split; [reflexivity|]. split; [exact Ex|]. split; [exact Ey|]. split; [reflexivity|]. split.
  - specialize (H 1%nat 0%nat ltac:(cbn; lia) ltac:(lia)). assert (field_chans two_size [true] (g_chans y) 0 = g_chans y) as Ef.
    { destruct By as [Ly _]. unfold field_chans. cbn. destruct (g_chans y) as [|c0 [|c1 [|c2 c]]]; try discriminate. reflexivity. }
    rewrite Ef in H. rewrite H. unfold sumn, two_size. rewrite !H1, !H2. unfold gn_start. cbn [gs_weight gs_bias gs_mean gs_var]. cbn [gn_info_of gi_irreps gi_trivials two_irreps trivials map length repeat nth fst app].
    replace (Rmax 0 1) with 1 by (rewrite Rmax_right; lra). unfold along, coord, ent, mid. cbn. replace (Rmax 0 1) with 1 by (rewrite Rmax_right; lra).
    replace (1 + 3) with (2 * 2) by lra. rewrite sqrt_square by lra. lra.
  - cbn [g_chans swap_x map mapi nth]. unfold affine_of, normalise. cbn [bn_affine]. rewrite Vm1, Vv1. rewrite Rplus_0_l. cbn [nth]. unfold Rdiv. ring.
Qed.
