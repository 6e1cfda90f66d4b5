(** VectorFieldNonLinearity *)
From Coq Require Import Reals List ZArith Arith Bool Lia Lra Permutation.
From Verif Require Import LibRes LibPy LibMat FieldModel SpecField FieldProofs ParamModel ParamProofs GroupedModel GroupedProofs NonlinModel SpecNonlin NonlinProofs NormThms INormThms PoolModel SpecPool PoolThms ConcatThms.
Import ListNotations.
Open Scope R_scope.

Lemma slice_start_0 : forall n, slice_positions n (Some 0%Z) None (Some 2%Z) = slice_positions n None None (Some 2%Z).
Proof. intros n. unfold slice_positions, slice_end. cbn [Z.eqb Z.ltb Z.compare]. rewrite Z.min_l by lia. reflexivity. Qed.
Lemma broadcast_same : forall (v : list R) m, length v = m -> (match v with [w] => repeat w m | _ => v end) = v.
Proof. intros [|a [|b v]] m E; [reflexivity| |reflexivity]. cbn in E. subst m. reflexivity. Qed.

Lemma write_pairs : forall n u w junk, length u = n -> length w = n -> length junk = (2 * n)%nat ->
  exists out, (o <- write_step junk 0 u ;; write_step o 1 w) = Ret out /\ length out = (2 * n)%nat /\
    forall i, (i < n)%nat -> nth_error out (2 * i) = nth_error u i /\ nth_error out (2 * i + 1) = nth_error w i.
Proof.
  intros n u w junk Lu Lw Lj. pose proof (step2_positions n 0 (or_introl eq_refl)) as E0. pose proof (step2_positions n 1 (or_intror eq_refl)) as E1.
  cbn [Z.eqb] in E0, E1. change (Z.to_nat 0) with 0%nat in *. change (Z.to_nat 1) with 1%nat in *.
  unfold write_step at 1. rewrite Lj, slice_start_0, E0. cbn [bind]. rewrite broadcast_same by (rewrite map_length, seq_length; exact Lu).
  assert (forall t, (t < 2)%nat -> NoDup (map (fun i => (2 * i + t)%nat) (seq 0 n))) as ND.
  { intros t Ht. apply FinFun.Injective_map_NoDup; [intros a b; lia|apply seq_NoDup]. }
  assert (forall t m, (t < 2)%nat -> (m = 2 * n)%nat -> Forall (fun i => (i < m)%nat) (map (fun i => (2 * i + t)%nat) (seq 0 n))) as Fa.
  { intros t m Ht ->. apply Forall_forall. intros i Hi. apply in_map_iff in Hi. destruct Hi as (k & <- & Hk). apply in_seq in Hk. lia. }
  assert (forall t k, (k < n)%nat -> nth_error (map (fun i => (2 * i + t)%nat) (seq 0 n)) k = Some (2 * k + t)%nat) as Np.
  { intros t k Hk. apply (map_nth_error (fun i => (2 * i + t)%nat)). rewrite (nth_error_nth' _ 0%nat) by (rewrite seq_length; exact Hk). rewrite seq_nth by exact Hk. reflexivity. }
  destruct (set_all_nth 0 (map (fun i => (2 * i + 0)%nat) (seq 0 n)) u junk) as (o & Eo & Lo & H1 & H2);
    [rewrite !map_length, seq_length; exact Lu|apply ND; lia|apply Fa; [lia|exact Lj]|]. rewrite Eo. cbn [bind].
  unfold write_step. rewrite Lo, Lj, E1. cbn [bind]. rewrite broadcast_same by (rewrite map_length, seq_length; exact Lw).
  destruct (set_all_nth 0 (map (fun i => (2 * i + 1)%nat) (seq 0 n)) w o) as (o' & Eo' & Lo' & H1' & H2');
    [rewrite !map_length, seq_length; exact Lw|apply ND; lia|apply Fa; [lia|congruence]|]. exists o'. split; [exact Eo'|split; [congruence|]].
  intros i Hi. destruct (nth_error u i) as [a|] eqn:Ea; [|apply nth_error_None in Ea; lia]. destruct (nth_error w i) as [b|] eqn:Eb; [|apply nth_error_None in Eb; lia]. split.
  - rewrite H2'.
    + rewrite <- (Nat.add_0_r (2 * i)). apply (H1 i); [apply Np, Hi|exact Ea].
    + intros K. apply in_map_iff in K. destruct K as (k & Ek & _). lia.
  - apply (H1' i); [apply Np, Hi|exact Eb].
Qed.

(** *** the position of the maximum *)
Lemma positions_of_max_In : forall m v k p, In p (positions_of_max m k v) <-> exists i, (i < length v)%nat /\ p = (k + i)%nat /\ nth i v 0 = m.
Proof.
  intros m v; induction v as [|a v IH]; intros k p; cbn [positions_of_max].
  - split; [intros []|]. intros (i & Hi & _). cbn in Hi. lia.
  - assert (In p (positions_of_max m (S k) v) <-> exists i, (i < length v)%nat /\ p = (k + S i)%nat /\ nth i v 0 = m) as E.
    { rewrite IH. split; intros (i & H1 & H2 & H3); exists i; (split; [exact H1|split; [lia|exact H3]]). }
    destruct (Req_EM_T a m) as [->|Ne]; cbn [In]; rewrite E.
    + split.
      * intros [<-|(i & H1 & H2 & H3)]; [exists 0%nat; split; [cbn; lia|split; [lia|reflexivity]]|exists (S i); split; [cbn; lia|split; [exact H2|exact H3]]].
      * intros ([|i] & H1 & H2 & H3); [left; lia|right]. exists i. split; [cbn in H1; lia|split; [exact H2|exact H3]].
    + split.
      * intros (i & H1 & H2 & H3). exists (S i); split; [cbn; lia|split; [exact H2|exact H3]].
      * intros ([|i] & H1 & H2 & H3); [cbn in H3; congruence|]. exists i. split; [cbn in H1; lia|split; [exact H2|exact H3]].
Qed.
Definition valid_pick (pick : list nat -> nat) : Prop := forall l, l <> [] -> (pick l < length l)%nat.
Lemma max_and_arg_ok : forall pick v, valid_pick pick -> v <> [] -> exists a, max_and_arg pick v = Ret (lmax v, a) /\ (a < length v)%nat /\ nth a v 0 = lmax v.
Proof.
  intros pick v Vp Ne. unfold max_and_arg. rewrite tmax_ret by exact Ne. cbn [bind]. set (l := positions_of_max (lmax v) 0 v).
  assert (l <> []) as Nl.
  { destruct (lmax_is v Ne) as [Hin _]. apply (In_nth _ _ 0) in Hin. destruct Hin as (i & Hi & E). intros K.
    assert (In i l) as Ii by (apply positions_of_max_In; exists i; auto). rewrite K in Ii. exact Ii. }
  exists (nth (pick l) l 0%nat). split; [reflexivity|]. assert (In (nth (pick l) l 0%nat) l) as H by (apply nth_In, Vp, Nl).
  apply positions_of_max_In in H. destruct H as (i & Hi & E & Ev). cbn in E. rewrite E. split; assumption.
Qed.

Lemma view_pieces : forall n N x, (0 < N)%nat -> length x = (n * N)%nat -> view N x = Ret (pieces n N x).
Proof. intros n N x HN Lx. rewrite <- (concat_pieces n N x Lx) at 1. apply view_concat; [exact HN|apply pieces_uniform, Lx]. Qed.
Definition vec (N : nat) (a : nat) (m : R) : list R := [cos (INR a * (2 * PI / INR N)) * relu m; sin (INR a * (2 * PI / INR N)) * relu m].
Theorem vectorfield_value : forall pick N n x junk, valid_pick pick -> (2 < N)%nat -> length x = (n * N)%nat -> length junk = (2 * n)%nat ->
  exists y, vectorfield_forward pick (N, n) junk x = Ret y /\ length y = (2 * n)%nat /\
    forall i, (i < n)%nat -> exists a, (a < N)%nat /\ is_max (nth a (piece N i x) 0) (piece N i x) /\
      piece 2 i y = vec N a (nth a (piece N i x) 0).
Proof.
  intros pick N n x junk Vp HN Lx Lj. unfold vectorfield_forward. rewrite Lx, Nat.eqb_refl. cbn [assert_ bind].
  rewrite (view_pieces n N x) by (exact Lx || lia). cbn [bind].
  assert (forall v, In v (pieces n N x) -> length v = N) as Lv by (pose proof (pieces_uniform n N x Lx) as F; rewrite Forall_forall in F; exact F).
  set (g := fun v => match max_and_arg pick v with Ret p => p | Raise => (0, 0%nat) end).
  assert (forall v, In v (pieces n N x) -> max_and_arg pick v = Ret (g v) /\ (snd (g v) < N)%nat /\ nth (snd (g v)) v 0 = fst (g v) /\ fst (g v) = lmax v) as Hg.
  { intros v Hv. apply Lv in Hv. assert (v <> []) as Nv by (intros ->; cbn in Hv; lia). destruct (max_and_arg_ok pick v Vp Nv) as (a & E & Ha & Em).
    unfold g. rewrite E. cbn [fst snd]. rewrite <- Hv. auto. }
  rewrite (mapM_ret _ g) by (intros v Hv; apply Hg, Hv). cbn [bind]. rewrite !map_map.
  set (u := map (fun v => cos (INR (snd (g v)) * (2 * PI / INR N)) * relu (fst (g v))) (pieces n N x)).
  set (w := map (fun v => sin (INR (snd (g v)) * (2 * PI / INR N)) * relu (fst (g v))) (pieces n N x)).
  assert (length (pieces n N x) = n) as Lp by (unfold pieces; rewrite map_length, seq_length; reflexivity).
  destruct (write_pairs n u w junk) as (out & E & Lo & Ho); [unfold u; rewrite map_length; exact Lp|unfold w; rewrite map_length; exact Lp|exact Lj|].
  apply bind_Ret in E. destruct E as (o1 & E1 & E2). rewrite E1. cbn [bind]. rewrite E2. cbn [bind].
  unfold irrep1_size. destruct (Nat.eqb_spec N 2); [lia|]. rewrite Lo. replace (n * 2)%nat with (2 * n)%nat by lia. rewrite Nat.eqb_refl. cbn [assert_ bind].
  exists out. split; [reflexivity|split; [exact Lo|]]. intros i Hi.
  assert (nth_error (pieces n N x) i = Some (piece N i x)) as Ei.
  { unfold pieces. apply (map_nth_error (fun j => piece N j x)). rewrite (nth_error_nth' _ 0%nat) by (rewrite seq_length; exact Hi). rewrite seq_nth by exact Hi. reflexivity. }
  destruct (Hg _ (nth_error_In _ _ Ei)) as (_ & Ba & Em & El). exists (snd (g (piece N i x))). split; [exact Ba|]. rewrite Em. split.
  - rewrite El. apply lmax_is. apply nth_error_In, Lv in Ei. intros K. rewrite K in Ei. cbn in Ei. lia.
  - destruct (Ho i Hi) as [O1 O2]. unfold u in O1. unfold w in O2. rewrite (map_nth_error _ _ _ Ei) in O1. rewrite (map_nth_error _ _ _ Ei) in O2.
    apply (nth_ext _ _ 0 0); [rewrite (piece_length n) by (exact Hi || lia); reflexivity|]. intros j Hj. rewrite (piece_length n) in Hj by (exact Hi || lia).
    assert (forall j, (j < 2)%nat -> nth j (piece 2 i out) 0 = nth (2 * i + j) out 0) as Np.
    { intros k Hk. unfold piece. rewrite <- (firstn_skipn (i * 2) out) at 2. rewrite app_nth2 by (rewrite firstn_length; lia). rewrite firstn_length, Nat.min_l by lia.
      replace (2 * i + k - i * 2)%nat with k by lia. rewrite <- (firstn_skipn 2 (skipn (i * 2) out)) at 2. rewrite app_nth1; [reflexivity|]. rewrite firstn_length, skipn_length. lia. }
    rewrite Np by exact Hj. destruct j as [|[|j]]; [| |lia]; cbn [nth vec].
    + rewrite Nat.add_0_r. apply nth_error_nth, O1.
    + apply nth_error_nth, O2.
Qed.

Lemma shift_In : forall N k v w, (0 < N)%nat -> shifted N k v w -> forall a, In a v <-> In a w.
Proof.
  intros N k v w HN (Lv & Lw & H) a. split; intros Ha; apply (In_nth _ _ 0) in Ha; destruct Ha as (i & Hi & <-).
  - rewrite Lv in Hi. rewrite <- H by exact Hi. apply nth_In. rewrite Lw. apply Nat.mod_upper_bound. lia.
  - rewrite Lw in Hi. assert (exists j, (j < N)%nat /\ ((j + k) mod N = i)%nat) as (j & Hj & Ej).
    { exists ((i + (N - k mod N)) mod N)%nat. split; [apply Nat.mod_upper_bound; lia|]. rewrite Nat.add_mod_idemp_l by lia.
      rewrite <- (Nat.add_mod_idemp_r _ k) by lia. pose proof (Nat.mod_upper_bound k N ltac:(lia)).
      replace (i + (N - k mod N) + k mod N)%nat with (i + 1 * N)%nat by lia. rewrite Nat.mod_add, Nat.mod_small by lia. reflexivity. }
    rewrite <- Ej, H by exact Hj. apply nth_In. lia.
Qed.
Lemma cos_wrap : forall N a k, (0 < N)%nat -> cos (INR ((a + k) mod N) * (2 * PI / INR N)) = cos (INR a * (2 * PI / INR N) + INR k * (2 * PI / INR N)) /\
  sin (INR ((a + k) mod N) * (2 * PI / INR N)) = sin (INR a * (2 * PI / INR N) + INR k * (2 * PI / INR N)).
Proof.
  intros N a k HN. assert (0 < INR N) as P by (apply lt_0_INR; exact HN).
  assert (INR a * (2 * PI / INR N) + INR k * (2 * PI / INR N) = INR ((a + k) mod N) * (2 * PI / INR N) + 2 * INR ((a + k) / N) * PI) as ->.
  { pose proof (Nat.div_mod (a + k) N ltac:(lia)) as D. apply (f_equal INR) in D. rewrite !plus_INR, mult_INR in D.
    replace (INR a) with (INR N * INR ((a + k) / N) + INR ((a + k) mod N) - INR k) by lra. field. lra. }
  rewrite cos_period, sin_period. split; reflexivity.
Qed.
Theorem vectorfield_equivariant : forall pick pick' N n k x x' junk junk', valid_pick pick -> valid_pick pick' -> (2 < N)%nat ->
  length x = (n * N)%nat -> length x' = (n * N)%nat -> length junk = (2 * n)%nat -> length junk' = (2 * n)%nat ->
  (forall i, (i < n)%nat -> shifted N k (piece N i x) (piece N i x') /\ clear_max (piece N i x)) ->
  exists y y', vectorfield_forward pick (N, n) junk x = Ret y /\ vectorfield_forward pick' (N, n) junk' x' = Ret y' /\ length y' = (2 * n)%nat /\
    forall i, (i < n)%nat -> piece 2 i y' = mv 2 (rot2 (INR k * (2 * PI / INR N))) (piece 2 i y).
Proof.
  intros pick pick' N n k x x' junk junk' Vp Vp' HN Lx Lx' Lj Lj' H.
  destruct (vectorfield_value pick N n x junk Vp HN Lx Lj) as (y & E & Ly & Hy). destruct (vectorfield_value pick' N n x' junk' Vp' HN Lx' Lj') as (y' & E' & Ly' & Hy').
  exists y, y'. split; [exact E|split; [exact E'|split; [exact Ly'|]]]. intros i Hi. destruct (H i Hi) as [Sh Cm].
  destruct (Hy i Hi) as (a & Ba & Ma & ->). destruct (Hy' i Hi) as (a' & Ba' & Ma' & ->).
  set (v := piece N i x) in *. set (w := piece N i x') in *. pose proof (shift_In N k v w ltac:(lia) Sh) as Same. destruct Sh as (Lv & Lw & Sh).
  assert (nth a' w 0 = nth a v 0) as Eq.
  { apply (max_unique _ _ w Ma'). destruct Ma as [M1 M2]. split; [apply Same, M1|]. intros b Hb. apply M2, Same, Hb. }
  rewrite Eq. unfold mv, vec. cbn [seq map sumn nth]. destruct (Rle_dec (nth a v 0) 0) as [Np|Po].
  - assert (relu (nth a v 0) = 0) as -> by (unfold relu; apply Rmax_left; lra). f_equal; [lra|f_equal; lra].
  - assert (a' = ((a + k) mod N)%nat) as ->.
    { destruct Cm as [Cm|(i0 & Hi0 & Cm)].
      - exfalso. apply Po. apply Cm. apply nth_In. lia.
      - assert (forall j, (j < N)%nat -> nth j v 0 = nth a v 0 -> j = i0) as U.
        { intros j Hj Ej. destruct (Nat.eq_dec j i0) as [|Ne]; [assumption|]. exfalso. pose proof (Cm j ltac:(lia) Ne) as L1. pose proof (proj2 Ma (nth i0 v 0) ltac:(apply nth_In; exact Hi0)). lra. }
        pose proof (U a Ba eq_refl) as Ea.
        assert (exists j, (j < N)%nat /\ ((j + k) mod N = a')%nat) as (j & Hj & Ej).
        { exists ((a' + (N - k mod N)) mod N)%nat. split; [apply Nat.mod_upper_bound; lia|]. rewrite Nat.add_mod_idemp_l by lia.
          rewrite <- (Nat.add_mod_idemp_r _ k) by lia. pose proof (Nat.mod_upper_bound k N ltac:(lia)).
          replace (a' + (N - k mod N) + k mod N)%nat with (a' + 1 * N)%nat by lia. rewrite Nat.mod_add, Nat.mod_small by lia. reflexivity. }
        rewrite <- Ej in Eq. rewrite Sh in Eq by exact Hj. apply (U j Hj) in Eq. congruence. }
    destruct (cos_wrap N a k ltac:(lia)) as [-> ->]. rewrite cos_plus, sin_plus. unfold rot2. cbn [mat2]. f_equal; [|f_equal]; ring.
Qed.

(** N = 2 *)
Theorem vectorfield_2_raises : forall pick n x junk, (2 <= n)%nat -> length junk = n -> vectorfield_forward pick (2%nat, n) junk x = Raise.
Proof.
  intros pick n x junk Hn Lj. unfold vectorfield_forward. destruct (Nat.eqb_spec (length x) (n * 2)) as [Lx|]; [|reflexivity]. cbn [assert_ bind].
  rewrite (view_pieces n 2 x) by (exact Lx || lia). cbn [bind].
  destruct (mapM (max_and_arg pick) (pieces n 2 x)) as [|ma] eqn:Em; [reflexivity|]. cbn [bind]. apply mapM_length in Em. unfold pieces in Em. rewrite map_length, seq_length in Em.
  set (u := map (fun p => cos (INR (snd p) * (2 * PI / INR 2)) * relu (fst p)) ma). assert (length u = n) as Lu by (unfold u; rewrite map_length; exact Em).
  assert (write_step junk 0 u = Raise) as ->; [|reflexivity]. unfold write_step. destruct u as [|a [|b u]]; [cbn in Lu; lia|cbn in Lu; lia|].
  destruct (slice_positions (length junk) (Some 0%Z) None (Some 2%Z)) as [|p] eqn:Ep; [reflexivity|]. cbn [bind].
  assert (length p < n)%nat as Lp.
  { unfold slice_positions, slice_end in Ep. cbn [Z.eqb Z.ltb Z.compare] in Ep. apply Ret_inj in Ep. subst p. rewrite map_length, seq_length, Lj.
    rewrite Z.min_l by lia. assert ((Z.of_nat n - 0 + 2 - 1) / 2 < Z.of_nat n)%Z; [|lia]. apply Z.div_lt_upper_bound; lia. }
  revert Lp. rewrite <- Lu. generalize (a :: b :: u) as l, junk as o. clear. induction p as [|i p IH]; intros [|w l] o H; cbn [length set_all] in *; try lia; try reflexivity.
  destruct (Nat.ltb i (length o)); cbn [assert_ bind]; [|reflexivity]. apply IH. lia.
Qed.
Theorem vectorfield_2_one : forall pick x junk, valid_pick pick -> length x = 2%nat -> length junk = 1%nat ->
  exists a, (a < 2)%nat /\ is_max (nth a x 0) x /\ vectorfield_forward pick (2%nat, 1%nat) junk x = Ret [cos (INR a * PI) * relu (nth a x 0)].
Proof.
  intros pick x junk Vp Lx Lj. destruct x as [|x0 [|x1 [|? ?]]]; try discriminate. destruct junk as [|j0 [|? ?]]; try discriminate.
  destruct (max_and_arg_ok pick [x0; x1] Vp ltac:(discriminate)) as (a & E & Ba & Em). exists a. split; [exact Ba|]. rewrite Em. split; [apply lmax_is; discriminate|].
  unfold vectorfield_forward. change (Nat.eqb (length [x0; x1]) (1 * 2)) with true. cbn [assert_ bind]. change (view 2 [x0; x1]) with (Ret [[x0; x1]]). cbn [bind mapM]. rewrite E. cbn [bind map fst snd].
  unfold write_step at 1. change (slice_positions (length [j0]) (Some 0%Z) None (Some 2%Z)) with (Ret [0%nat]). cbn [bind length repeat set_all Nat.ltb Nat.leb assert_ firstn skipn app].
  unfold write_step. cbn [length]. change (slice_positions 1 (Some 1%Z) None (Some 2%Z)) with (Ret (@nil nat)). cbn [bind length repeat set_all]. cbn [irrep1_size Nat.eqb Nat.mul Nat.add assert_ bind].
  do 3 f_equal. f_equal. replace (INR 2) with 2 by reflexivity. lra.
Qed.
Lemma cos_INR_PI : forall k, cos (INR k * PI) = (if Nat.even k then 1 else -1) /\ sin (INR k * PI) = 0.
Proof.
  induction k as [|k [IH1 IH2]]; [cbn [INR Nat.even]; rewrite Rmult_0_l; split; [apply cos_0|apply sin_0]|].
  rewrite S_INR. replace ((INR k + 1) * PI) with (INR k * PI + PI) by lra. rewrite neg_cos, neg_sin, IH1, IH2, Nat.even_succ, <- Nat.negb_even.
  destruct (Nat.even k); cbn [negb]; split; lra.
Qed.
Theorem vectorfield_2_equivariant : forall pick pick' k x x' junk junk', valid_pick pick -> valid_pick pick' -> length junk = 1%nat -> length junk' = 1%nat ->
  shifted 2 k x x' -> clear_max x ->
  exists t, vectorfield_forward pick (2%nat, 1%nat) junk x = Ret [t] /\ vectorfield_forward pick' (2%nat, 1%nat) junk' x' = Ret [(if Nat.even k then 1 else -1) * t].
Proof.
  intros pick pick' k x x' junk junk' Vp Vp' Lj Lj' Hs Cm. pose proof (shift_In 2 k x x' ltac:(lia) Hs) as Same. destruct Hs as (Lv & Lw & Sh).
  destruct (vectorfield_2_one pick x junk Vp Lv Lj) as (a & Ba & Ma & E). destruct (vectorfield_2_one pick' x' junk' Vp' Lw Lj') as (a' & Ba' & Ma' & E').
  exists (cos (INR a * PI) * relu (nth a x 0)). split; [exact E|]. rewrite E'. do 2 f_equal.
  assert (nth a' x' 0 = nth a x 0) as Eq.
  { apply (max_unique _ _ x' Ma'). destruct Ma as [M1 M2]. split; [apply Same, M1|]. intros b Hb. apply M2, Same, Hb. }
  rewrite Eq. destruct (Rle_dec (nth a x 0) 0) as [Np|Po].
  - assert (relu (nth a x 0) = 0) as -> by (unfold relu; apply Rmax_left; lra). lra.
  - assert (a' = ((a + k) mod 2)%nat) as ->.
    { destruct Cm as [Cm|(i0 & Hi0 & Cm)]; [exfalso; apply Po, Cm, nth_In; lia|].
      assert (forall j, (j < 2)%nat -> nth j x 0 = nth a x 0 -> j = i0) as U.
      { intros j Hj Ej. destruct (Nat.eq_dec j i0) as [|Ne]; [assumption|]. exfalso. pose proof (Cm j ltac:(lia) Ne) as L1. pose proof (proj2 Ma (nth i0 x 0) ltac:(apply nth_In; exact Hi0)). lra. }
      pose proof (U a Ba eq_refl) as Ea.
      assert (exists j, (j < 2)%nat /\ ((j + k) mod 2 = a')%nat) as (j & Hj & Ej).
      { exists ((a' + (2 - k mod 2)) mod 2)%nat. split; [apply Nat.mod_upper_bound; lia|]. rewrite Nat.add_mod_idemp_l by lia.
        rewrite <- (Nat.add_mod_idemp_r _ k) by lia. pose proof (Nat.mod_upper_bound k 2 ltac:(lia)).
        replace (a' + (2 - k mod 2) + k mod 2)%nat with (a' + 1 * 2)%nat by lia. rewrite Nat.mod_add, Nat.mod_small by lia. reflexivity. }
      rewrite <- Ej in Eq. rewrite Sh in Eq by exact Hj. apply (U j Hj) in Eq. congruence. }
    destruct (cos_wrap 2 a k ltac:(lia)) as [C _]. replace (2 * PI / INR 2) with PI in C by (replace (INR 2) with 2 by reflexivity; lra). rewrite C, cos_plus.
    destruct (cos_INR_PI a) as [_ ->]. destruct (cos_INR_PI k) as [-> _]. lra.
Qed.
(** the argmax of a tie: torch may return either position *)
Lemma first_pick : valid_pick (fun _ => 0%nat).
Proof. intros [|a l] H; [congruence|cbn; lia]. Qed.
