(** The sign group: functions on the group, and on the quotient by the whole group. *)
From Coq Require Import Reals String List ZArith Arith Bool Lia Lra Permutation.
From Verif Require Import LibRes LibPy LibMat LibMatS LibTrig SpecGroup ParamModel ParamProofs FieldModel GroupedModel NonlinModel PoolModel SpecRep IrrepModel RepModel RepProofs SpecRepr RepThms
  SpecInd IndModel IndProofs IndThms NonlinProofs SpecField SpecNonlin FourierModel SpecFourier FourierProofs FourierThms FourierCor FourierEqv FourierFin FourierEnd.
Import ListNotations.
Open Scope R_scope.

Lemma mk_fourier_ok : forall {T S} (irrG : list Z -> res (girrep T)) (restrict : list Z -> res (repr S)) linv psi order build channels ids function rho fn k normalize grid (val : T -> mat),
  correct_inverse linv -> spectral irrG restrict linv psi ids = Ret (Some rho) -> (0 < channels)%nat -> pointwise_function function = Ret fn ->
  build ids = Ret k -> length k = r_size rho -> grid <> [] -> (forall g, r_fun rho g = Ret (r_size rho, val g)) ->
  (exists B, inverse_of (r_size rho) (gram (r_size rho) (map (fun g => mv (r_size rho) (val g) (normalised normalize k)) grid)) B) ->
  exists m, mk_fourier irrG restrict linv psi order build channels ids function None normalize grid = Ret m /\ fm_rho m = rho /\ fm_out m = rho /\ fm_channels m = channels.
Proof.
  intros T S irrG restrict linv psi order build channels ids function rho fn k normalize grid val LI Es Hc Ef Ek Lk Ng Rv IV. unfold mk_fourier.
  rewrite Es; cbn [bind some_repr]. rewrite (proj2 (Nat.ltb_lt _ _) Hc); cbn [assert_]. rewrite Ef; cbn [bind].
  assert (E : sample_rows build normalize ids rho grid = Ret (map (fun g => mv (r_size rho) (val g) (normalised normalize k)) grid)).
  { unfold sample_rows. rewrite Ek; cbn [bind]. rewrite Lk, Nat.eqb_refl; cbn [assert_].
    destruct grid as [|g0 grid]; [congruence|]. change (Nat.ltb 0 (length (g0 :: grid))) with true. cbn [assert_].
    apply mapM_Ret_map. intros g _. rewrite Rv. reflexivity. }
  rewrite E; cbn [bind fst snd]. destruct (proj2 (LI _ _) IV) as (Gi & EG). rewrite EG; cbn [bind]. eexists; split; [reflexivity|]. repeat split.
Qed.

Lemma toy_usable : forall k, usable_irrep toy_irrG (fun _ => True) toy_op (fun a : bool => Ret a) false [k].
Proof. intros k. exists (toy_g k). split; [reflexivity|]. split; [reflexivity|]. split; [apply toy_orth|]. cbn; lia. Qed.

Lemma round_1 : np_isclose (/ 10 ^ 8) (INR (1 * 1) / INR 1) (IZR (pyround (INR (1 * 1) / INR 1))) = true /\ pyround (INR (1 * 1) / INR 1) = 1%Z.
Proof.
  assert (E : pyround (INR (1 * 1) / INR 1) = 1%Z) by (apply (round_div 1 1 1); lia). split; [|exact E]. rewrite E.
  replace (INR (1 * 1) / INR 1) with 1 by (cbn; field). apply np_isclose_refl. lra.
Qed.

Lemma toy_dim : forall k, dimension_basis toy_restrict toy_h (toy_g k) = Ret 1%nat.
Proof.
  intros k. unfold dimension_basis. cbn [toy_restrict bind]. replace (r_multiplicity (repr_of_irrep toy_h) (gi_id toy_h)) with 1%nat by reflexivity.
  cbn [gi_sosc toy_h toy_g]. destruct round_1 as [E1 E2]. rewrite E1, E2. reflexivity.
Qed.

Lemma toy_spectral : forall linv, correct_inverse linv -> exists rho, spectral toy_irrG toy_restrict linv toy_h [[0%Z]; [1%Z]] = Ret (Some rho) /\
  r_size rho = 2%nat /\ forall g, r_fun rho g = Ret (2%nat, V [toy_g 0; toy_g 1] g).
Proof.
  intros linv LI.
  assert (E : exists rho, spectral toy_irrG toy_restrict linv toy_h [[0%Z]; [1%Z]] = Ret (Some rho) /\ r_size rho = 2%nat).
  { unfold spectral. cbn [length Nat.ltb Nat.leb assert_ mapM toy_irrG bind map gi_id toy_g]. change (no_repetition [[0%Z]; [1%Z]]) with true. cbn [assert_].
    fold (toy_g 0). fold (toy_g 1). rewrite !toy_dim. cbn [bind]. cbn [map snd gi_size toy_g Nat.mul Nat.add list_sum fold_right Nat.eqb repeat flat_map fst app].
    destruct (mk_repr_eq toy_irrG linv LI [[0%Z]; [1%Z]] 2 mid None [toy_g 0; toy_g 1] eq_refl eq_refl ltac:(lia)) as (i & _ & _ & Er).
    { exists mid. apply inverse_of_mid. }
    rewrite Er. cbn [bind]. eexists; split; [reflexivity|]. reflexivity. }
  destruct E as (rho & E & Sz). exists rho. split; [exact E|]. split; [exact Sz|]. intros g.
  destruct (spectral_inv (fun _ => True) toy_op (fun a : bool => Ret a) false toy_irrG toy_restrict linv toy_h LI [[0%Z]; [1%Z]] rho) as (rs & ms & [Ers Fm] & _ & _ & _ & Rv).
  { repeat constructor; apply toy_usable. }
  { exact E. }
  cbn [mapM toy_irrG bind] in Ers. apply Ret_inj in Ers. subst rs. inversion Fm as [|? m1 ? ms1 E1 F1]; subst. inversion F1 as [|? m2 ? ms2 E2 F2]; subst. inversion F2; subst.
  rewrite toy_dim in E1, E2. apply Ret_inj in E1, E2. subst m1 m2. rewrite (Rv g I), Sz. reflexivity.
Qed.

Lemma toy_kernel : regular_kernel toy_irrG false [[0%Z]; [1%Z]] = Ret [1; 1].
Proof.
  unfold regular_kernel. cbn [mapM toy_irrG bind toy_g gi_rep gi_size gi_sosc snd]. cbn [Nat.div Nat.divmod fst seq flat_map map app concat length Nat.ltb Nat.leb assert_].
  unfold toy_sign. cbn [INR]. rewrite sqrt_1. rewrite Rmult_1_l. reflexivity.
Qed.

Lemma toy_module : exists linv m, correct_inverse linv /\
  mk_fourier toy_irrG toy_restrict linv toy_h (fun l => l) (regular_kernel toy_irrG false) 1 [[0%Z]; [1%Z]] "p_relu" None false [false; true] = Ret m.
Proof.
  destruct inverse_exists as [linv LI]. exists linv. destruct (toy_spectral linv LI) as (rho & E & Sz & Rv).
  destruct (mk_fourier_ok toy_irrG toy_restrict linv toy_h (fun l => l) (regular_kernel toy_irrG false) 1 [[0%Z]; [1%Z]] "p_relu" rho relu [1; 1] false [false; true]
    (V [toy_g 0; toy_g 1]) LI E ltac:(lia) eq_refl toy_kernel) as (m & Em & _).
  - rewrite Sz; reflexivity.
  - discriminate.
  - intros g. rewrite Sz. apply Rv.
  - rewrite Sz. exists (fun i j => / (2 + / 10 ^ 8) * mid i j).
    assert (P : 0 < 2 + / 10 ^ 8) by (assert (0 < / 10 ^ 8) by (apply Rinv_0_lt_compat; lra); lra).
    assert (G : forall i j, (i < 2)%nat -> (j < 2)%nat -> gram 2 (map (fun g : bool => mv 2 (V [toy_g 0; toy_g 1] g) (normalised false [1; 1])) [false; true]) i j = (2 + / 10 ^ 8) * mid i j).
    { intros i j Hi Hj. destruct i as [|[|i]]; [| |lia]; (destruct j as [|[|j]]; [| |lia]);
        unfold gram, mv, V, rval, normalised, lsum, toy_sign; cbn -[pow Rinv]; ring. }
    split; intros i j Hi Hj; unfold mmul; cbn [sumn]; rewrite !G by lia.
    + destruct i as [|[|i]]; [| |lia]; (destruct j as [|[|j]]; [| |lia]); unfold mid; cbn -[pow Rinv]; field; lra.
    + destruct i as [|[|i]]; [| |lia]; (destruct j as [|[|j]]; [| |lia]); unfold mid; cbn -[pow Rinv]; field; lra.
  - exists m. split; [exact LI|exact Em].
Qed.

Lemma toy_grid : left_permuted toy_op true [false; true].
Proof. exists [true; false]. split; [reflexivity|]. apply perm_swap. Qed.

Lemma toy_splits : forall id r, toy_irrG id = Ret r -> splits_fully toy_restrict toy_h r /\ Nat.divide (gi_sosc r) (gi_size r).
Proof.
  intros id r E. destruct id as [|k [|? ?]]; try discriminate. apply Ret_inj in E. subst r. split; [|exists 1%nat; reflexivity].
  exists (repr_of_irrep toy_h). split; reflexivity.
Qed.

(** ** over the whole group *)
Definition whole_restrict (id : list Z) : res (repr bool) := match id with [k] => Ret (repr_of_irrep (toy_g k)) | _ => Raise end.
Definition whole_components (_ : nat) (_ : nat -> nat -> bool) : nat * (nat -> nat) := (0%nat, fun _ => 0%nat).

Lemma whole_restriction : forall id r d, toy_irrG id = Ret r -> whole_restrict (gi_id r) = Ret d ->
  restriction_of toy_irrG (fun _ : bool => True) (fun c => Ret c) r d.
Proof.
  intros id r d E Ed. destruct id as [|k [|? ?]]; try discriminate. apply Ret_inj in E. subst r. cbn in Ed. apply Ret_inj in Ed. subst d.
  split; [reflexivity|split].
  - split; [apply inverse_of_mid|]. intros g _. exists [(1%nat, fun _ _ => toy_sign k g)], (fun _ _ => toy_sign k g). cbn.
    repeat split; intros i j Hi Hj; replace i with 0%nat by lia; replace j with 0%nat by lia; unfold mmul; cbn; lra.
  - intros h _. eexists _, _, _; cbn; repeat split; intros i j Hi Hj; reflexivity.
Qed.

Lemma whole_trivial : trivial_irrep (fun _ : bool => True) (toy_g 0).
Proof. split; [reflexivity|]. intros c _. exists (fun _ _ => toy_sign 0 c). split; [reflexivity|]. destruct c; reflexivity. Qed.

Lemma whole_sizes : forall id r h b, toy_irrG id = Ret r -> True -> gi_rep r h = Ret b -> fst b = gi_size r.
Proof. intros id r h b E _ Eb. destruct id as [|k [|? ?]]; try discriminate. apply Ret_inj in E. subst r. cbn in Eb. apply Ret_inj in Eb. subst b. reflexivity. Qed.

Lemma whole_dim : dimension_basis whole_restrict (toy_g 0) (toy_g 0) = Ret 1%nat /\ dimension_basis whole_restrict (toy_g 0) (toy_g 1) = Ret 0%nat.
Proof.
  split.
  - transitivity (assert (np_isclose (/ 10 ^ 8) (INR (1 * 1) / INR 1) (IZR (pyround (INR (1 * 1) / INR 1)))) ;; Ret (Z.to_nat (pyround (INR (1 * 1) / INR 1)))); [reflexivity|].
    destruct round_1 as [E1 E2]. rewrite E1, E2. reflexivity.
  - transitivity (assert (np_isclose (/ 10 ^ 8) (INR (0 * 1) / INR 1) (IZR (pyround (INR (0 * 1) / INR 1)))) ;; Ret (Z.to_nat (pyround (INR (0 * 1) / INR 1)))); [reflexivity|].
    assert (E : pyround (INR (0 * 1) / INR 1) = 0%Z) by (apply (round_div 0 0 1); lia). rewrite E.
    replace (INR (0 * 1) / INR 1) with 0 by (cbn; field). rewrite np_isclose_refl by lra. reflexivity.
Qed.

Lemma whole_spectral : forall linv, correct_inverse linv -> exists rho, spectral toy_irrG whole_restrict linv (toy_g 0) [[0%Z]; [1%Z]] = Ret (Some rho) /\
  r_size rho = 1%nat /\ forall g, r_fun rho g = Ret (1%nat, V [toy_g 0] g).
Proof.
  intros linv LI. destruct whole_dim as [D0 D1].
  assert (E : exists rho, spectral toy_irrG whole_restrict linv (toy_g 0) [[0%Z]; [1%Z]] = Ret (Some rho) /\ r_size rho = 1%nat).
  { unfold spectral. cbn [length Nat.ltb Nat.leb assert_ mapM toy_irrG bind map]. change (no_repetition [gi_id (toy_g 0); gi_id (toy_g 1)]) with true. cbn [assert_].
    change (toy_irrG (gi_id (toy_g 0))) with (Ret (toy_g 0)). change (toy_irrG (gi_id (toy_g 1))) with (Ret (toy_g 1)). cbn [bind].
    rewrite D0, D1. cbn [bind]. cbn [map snd gi_size toy_g Nat.mul Nat.add list_sum fold_right Nat.eqb repeat flat_map fst app gi_id].
    destruct (mk_repr_eq toy_irrG linv LI [[0%Z]] 1 mid None [toy_g 0] eq_refl eq_refl ltac:(lia)) as (i & _ & _ & Er).
    { exists mid. apply inverse_of_mid. }
    rewrite Er. cbn [bind]. eexists; split; [reflexivity|]. reflexivity. }
  destruct E as (rho & E & Sz). exists rho. split; [exact E|]. split; [exact Sz|]. intros g.
  destruct (spectral_inv (fun _ => True) toy_op (fun a : bool => Ret a) false toy_irrG whole_restrict linv (toy_g 0) LI [[0%Z]; [1%Z]] rho) as (rs & ms & [Ers Fm] & _ & _ & _ & Rv).
  { repeat constructor; apply toy_usable. }
  { exact E. }
  cbn [mapM toy_irrG bind] in Ers. apply Ret_inj in Ers. subst rs. inversion Fm as [|? m1 ? ms1 E1 F1]; subst. inversion F1 as [|? m2 ? ms2 E2 F2]; subst. inversion F2; subst.
  rewrite D0 in E1. rewrite D1 in E2. apply Ret_inj in E1, E2. subst m1 m2. rewrite (Rv g I), Sz. reflexivity.
Qed.

Lemma whole_nonnull : nonnull (toy_g 0) = [0%nat].
Proof.
  unfold nonnull; cbn [toy_g gi_size gi_endo seq filter map fold_right].
  replace (negb (Rleb (mid 0%nat 0%nat ^ 2 + 0) (/ 10 ^ 9))) with true; [reflexivity|].
  symmetry; apply negb_true_iff, Rleb_false; cbn; lra.
Qed.

Lemma whole_kernel : quotient_kernel toy_irrG toy_irrG whole_restrict whole_components (toy_g 0) [[0%Z]; [1%Z]] = Ret [1].
Proof.
  unfold quotient_kernel. cbn [mapM toy_irrG bind]. unfold dirac_kernel_ft.
  change (whole_restrict (gi_id (toy_g 0))) with (Ret (repr_of_irrep (toy_g 0))). change (whole_restrict (gi_id (toy_g 1))) with (Ret (repr_of_irrep (toy_g 1))).
  cbn [bind]. cbn [repr_of_irrep r_irreps psi_slices]. change (toy_irrG (gi_id (toy_g 0))) with (Ret (toy_g 0)). change (toy_irrG (gi_id (toy_g 1))) with (Ret (toy_g 1)).
  cbn [bind]. destruct (list_eq_dec Z.eq_dec (gi_id (toy_g 0)) (gi_id (toy_g 0))) as [_|X]; [|congruence].
  destruct (list_eq_dec Z.eq_dec (gi_id (toy_g 1)) (gi_id (toy_g 0))) as [X|_]; [discriminate|].
  rewrite whole_nonnull. cbn [length gi_sosc toy_g Nat.eqb assert_ bind map app]. unfold select. cbn [gi_sosc toy_g Nat.ltb Nat.leb bind map].
  cbn [gi_size seq flat_map map app concat length assert_ Nat.ltb Nat.leb bind snd r_cob]. change (gi_size (toy_g 0)) with 1%nat. cbn [seq flat_map map app]. apply f_equal. unfold mmul, o_col, mid. cbn. match goal with |- [?a] = [?b] => assert (a = b) as ->; [ring|reflexivity] end.
Qed.

Lemma whole_module : exists linv m, correct_inverse linv /\
  mk_fourier toy_irrG whole_restrict linv (toy_g 0) (fun l => l) (quotient_kernel toy_irrG toy_irrG whole_restrict whole_components (toy_g 0)) 2
    [[0%Z]; [1%Z]] "p_elu" None false [false] = Ret m.
Proof.
  destruct inverse_exists as [linv LI]. exists linv. destruct (whole_spectral linv LI) as (rho & E & Sz & Rv).
  destruct (mk_fourier_ok toy_irrG whole_restrict linv (toy_g 0) (fun l => l) (quotient_kernel toy_irrG toy_irrG whole_restrict whole_components (toy_g 0)) 2 [[0%Z]; [1%Z]] "p_elu" rho elu [1] false [false]
    (V [toy_g 0]) LI E ltac:(lia) eq_refl whole_kernel) as (m & Em & _).
  - rewrite Sz; reflexivity.
  - discriminate.
  - intros g. rewrite Sz. apply Rv.
  - rewrite Sz. exists (fun i j => / (1 + / 10 ^ 8) * mid i j).
    assert (P : 0 < 1 + / 10 ^ 8) by (assert (0 < / 10 ^ 8) by (apply Rinv_0_lt_compat; lra); lra).
    assert (G : gram 1 (map (fun g : bool => mv 1 (V [toy_g 0] g) (normalised false [1])) [false]) 0%nat 0%nat = 1 + / 10 ^ 8).
    { unfold gram, mv, V, rval, normalised, lsum, toy_sign, mid; cbn -[pow Rinv]; ring. }
    split; intros i j Hi Hj; replace i with 0%nat by lia; replace j with 0%nat by lia; unfold mmul; cbn [sumn]; rewrite !G; unfold mid; cbn -[pow Rinv]; field; lra.
  - exists m. split; [exact LI|exact Em].
Qed.

Lemma whole_grid : left_permuted_mod toy_op (fun _ : bool => True) (fun c => Ret c) true [false] /\ ~ left_permuted toy_op true [false].
Proof.
  split.
  - exists [true], [false]. split; [reflexivity|]. split; [apply Permutation_refl|]. constructor; [|constructor]. exists true, true. repeat split.
  - intros (l & E & P). cbn in E. apply Ret_inj in E. subst l. apply Permutation_length_1 in P. discriminate.
Qed.

(** the value of the first module at (1, 2): the samples 3 and -1 are rectified to 3 and 0 *)
Lemma toy_answer : forall linv m, correct_inverse linv ->
  mk_fourier toy_irrG toy_restrict linv toy_h (fun l => l) (regular_kernel toy_irrG false) 1 [[0%Z]; [1%Z]] "p_relu" None false [false; true] = Ret m ->
  exists y, fourier_forward (fun a b => Nat.eqb (length a) (length b)) m {| g_type := fm_in_type m; g_chans := [1; 2] |} = Ret y /\
    g_chans y = [3 / (2 + / 10 ^ 8); 3 / (2 + / 10 ^ 8)].
Proof.
  intros linv m LI E.
  destruct (pointwise_value (fun _ => True) toy_op (fun a : bool => Ret a) false toy_irrG toy_restrict linv toy_h (fun l => l) (fun a b => Nat.eqb (length a) (length b)) LI
    (fun l => Permutation_refl l) eq_refl toy_splits 1%nat [[0%Z]; [1%Z]] "p_relu" None false [false; true] m)
    as (fn & rs & rs' & ids' & Ef & Ers & Ers' & -> & Ti & Sr & To & H).
  - repeat constructor.
  - repeat constructor; apply toy_usable.
  - discriminate.
  - exact E.
  - apply Nat.eqb_refl.
  - apply Ret_inj in Ef. subst fn. rewrite Ers in Ers'. apply Ret_inj in Ers'. subst rs'. cbn [mapM toy_irrG bind] in Ers. apply Ret_inj in Ers. subst rs.
    cbn in Sr. assert (So : r_size (fm_out m) = 2%nat).
    { unfold mk_fourier in E. destruct (toy_spectral linv LI) as (rho & Es & Sz & _). rewrite Es in E. cbn [bind some_repr Nat.ltb Nat.leb assert_] in E.
      apply bind_Ret in E as (f & _ & E). apply bind_Ret in E as (A & _ & E). cbn [bind fst snd] in E. apply bind_Ret in E as (G & _ & E). apply Ret_inj in E. subst m. exact Sz. }
    destruct (H {| g_type := fm_in_type m; g_chans := [1; 2] |} eq_refl) as (y & Ey & Ty & Ly & Fy).
    { cbn [g_chans]. rewrite Ti. cbn. rewrite Sr. reflexivity. }
    exists y. split; [exact Ey|]. destruct (Fy 0%nat ltac:(lia)) as (z & [Lz Rz] & Fz). rewrite So in Fz.
    assert (Ev : field_chans r_size (fm_in_type m) [1; 2] 0 = [1; 2]) by (rewrite Ti; unfold field_chans; cbn; rewrite Sr; reflexivity).
    cbn [g_chans] in Rz. rewrite Ev in Rz. clear Ev. rewrite To in Ly, Fz. cbn [repeat map list_sum fold_right] in Ly. rewrite So in Ly. cbn in Ly.
    unfold field_chans in Fz; cbn [repeat nth_error] in Fz. rewrite So in Fz. cbn [firstn map list_sum fold_right skipn] in Fz.
    change (total_size [toy_g 0; toy_g 1]) with 2%nat in *.
    destruct z as [|a [|b [|? ?]]]; try discriminate. destruct (g_chans y) as [|c [|d [|? ?]]]; try discriminate. cbn [firstn] in Fz. injection Fz as -> ->.
    pose proof (Rz 0%nat ltac:(lia)) as R0. pose proof (Rz 1%nat ltac:(lia)) as R1. clear - R0 R1.
    unfold coefficients_by, coefficients, inner, irrep_at in R0, R1. cbn [flat_map map seq gi_size gi_sosc toy_g Nat.div Nat.divmod fst snd app gi_rep nth combine fold_right sumn INR toy_sign Z.eqb] in R0, R1.
    rewrite !sqrt_1 in R0, R1. unfold relu, Rmax in R0, R1. repeat (destruct (Rle_dec _ _) in R0; try lra). repeat (destruct (Rle_dec _ _) in R1; try lra).
    assert (P : 0 < / 10 ^ 8) by (apply Rinv_0_lt_compat; lra). set (ep := / 10 ^ 8) in *. clearbody ep.
    assert (Qa : a = 3 / (2 + ep)) by (apply (Rmult_eq_reg_r (2 + ep)); [|lra]; field_simplify; lra).
    assert (Qb : b = 3 / (2 + ep)) by (apply (Rmult_eq_reg_r (2 + ep)); [|lra]; field_simplify; lra).
    rewrite Qa, Qb. reflexivity.
Qed.
