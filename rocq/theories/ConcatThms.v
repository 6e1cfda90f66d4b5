(** ConcatenatedNonLinearity: the doubled matrices and equivariance. *)
From Coq Require Import Reals List ZArith Arith Bool Lia Lra Permutation.
From Verif Require Import LibRes LibPy LibMat FieldModel SpecField FieldProofs ParamModel GroupedModel GroupedProofs NonlinModel SpecNonlin NonlinProofs NormThms INormThms PoolModel SpecPool PoolThms.
Import ListNotations.
Open Scope R_scope.

(** *** closeness of the entries *)
Lemma Rleb_le : forall a b, Rleb a b = true <-> a <= b.
Proof. intros a b. unfold Rleb. destruct (Rle_dec a b); split; intros; congruence || lra || assumption. Qed.
Lemma close_refl : forall a, math_isclose a a = true.
Proof.
  intros a. unfold math_isclose. apply Rleb_le. replace (a - a) with 0 by lra. rewrite Rabs_R0. eapply Rle_trans; [|apply Rmax_r]. left. apply Rinv_0_lt_compat. apply pow_lt; lra.
Qed.
Lemma p9 : 0 < / 10 ^ 9 <= / 10.
Proof. split; [apply Rinv_0_lt_compat, pow_lt; lra|]. apply Rinv_le_contravar; [lra|]. cbn. lra. Qed.
Lemma close_far : forall a b, 1 <= Rabs (a - b) -> Rabs a <= 1 -> Rabs b <= 1 -> math_isclose a b = false.
Proof.
  intros a b H Ha Hb. unfold math_isclose. destruct (Rleb _ _) eqn:E; [|reflexivity]. apply Rleb_le in E. exfalso. pose proof p9 as [P1 P2].
  assert (Rmax (Rabs a) (Rabs b) <= 1) by (apply Rmax_lub; assumption).
  assert (/ 10 ^ 9 * Rmax (Rabs a) (Rabs b) <= / 10 ^ 9 * 1) by (apply Rmult_le_compat_l; lra).
  assert (Rmax (/ 10 ^ 9 * Rmax (Rabs a) (Rabs b)) (/ 10 ^ 9) <= / 10 ^ 9) by (apply Rmax_lub; lra). lra.
Qed.
Lemma close_1_0 : math_isclose 1 0 = false. Proof. apply close_far; unfold Rabs; repeat destruct (Rcase_abs _); lra. Qed.
Lemma close_m1_0 : math_isclose (-1) 0 = false. Proof. apply close_far; unfold Rabs; repeat destruct (Rcase_abs _); lra. Qed.
Lemma close_0_1 : math_isclose 0 1 = false. Proof. apply close_far; unfold Rabs; repeat destruct (Rcase_abs _); lra. Qed.
Lemma close_0_m1 : math_isclose 0 (-1) = false. Proof. apply close_far; unfold Rabs; repeat destruct (Rcase_abs _); lra. Qed.
Lemma close_m1_1 : math_isclose (-1) 1 = false. Proof. apply close_far; unfold Rabs; repeat destruct (Rcase_abs _); lra. Qed.

(** the 2x2 block of an entry: + for equal positions, - for different ones *)
Definition sg (a b : nat) : R := if Nat.eqb a b then 1 else -1.
Definition doubled (r : mat) : mat := fun x y => (Rabs (r (x / 2)%nat (y / 2)%nat) + sg (x mod 2) (y mod 2) * r (x / 2)%nat (y / 2)%nat) / 2.
Lemma entry_block_ok : forall v, v = 0 \/ v = 1 \/ v = -1 -> exists B, entry_block v = Ret B /\ forall a b, (a < 2)%nat -> (b < 2)%nat -> B a b = (Rabs v + sg a b * v) / 2.
Proof.
  intros v [->|[->| ->]]; unfold entry_block.
  - rewrite close_0_1, close_0_m1, close_refl. cbn [negb]. exists mzero. split; [reflexivity|]. intros a b _ _. rewrite Rabs_R0. unfold mzero. lra.
  - rewrite close_refl. exists mid. split; [reflexivity|]. intros a b _ _. rewrite Rabs_R1. unfold mid, sg. destruct (Nat.eqb a b); lra.
  - rewrite close_m1_1, close_refl. exists (fun a b => mid (1 - a)%nat b). split; [reflexivity|]. intros a b Ha Hb. rewrite Rabs_left by lra. unfold mid, sg.
    assert (Nat.eqb (1 - a) b = negb (Nat.eqb a b)) as ->. { destruct a as [|[|a]], b as [|[|b]]; try lia; reflexivity. }
    destruct (Nat.eqb a b); cbn [negb]; lra.
Qed.

(** *** the scan of a row *)
Lemma row_scan_none : forall r i cols e, (forall j, In j cols -> r i j = 0) -> row_scan r i cols e = Ret e.
Proof.
  intros r i cols; induction cols as [|j cols IH]; intros e H; [reflexivity|]. cbn [row_scan]. rewrite (H j) by (left; reflexivity). rewrite close_refl.
  apply IH. intros k Hk. apply H. right; exact Hk.
Qed.
Lemma row_scan_one : forall r i cols k, NoDup cols -> In k cols -> (r i k = 1 \/ r i k = -1) -> (forall j, In j cols -> j <> k -> r i j = 0) ->
  row_scan r i cols (-1) = Ret (Z.of_nat k).
Proof.
  intros r i cols k ND Hk Hv H0. induction cols as [|j cols IH]; [destruct Hk|]. apply NoDup_cons_iff in ND. destruct ND as [Nj ND]. cbn [row_scan].
  destruct (Nat.eq_dec j k) as [->|Ne].
  - assert (math_isclose (r i k) 0 = false) as -> by (destruct Hv as [->| ->]; [apply close_1_0|apply close_m1_0]). cbn [Z.ltb Z.compare].
    apply row_scan_none. intros j Hj. apply H0; [right; exact Hj|]. congruence.
  - rewrite (H0 j) by (exact Ne || (left; reflexivity)). rewrite close_refl. apply IH; [exact ND| |].
    + destruct Hk as [->|Hk]; [congruence|exact Hk].
    + intros l Hl. apply H0. right; exact Hl.
Qed.
Lemma permutes_signed_inv : forall n M, permutes_signed n M -> exists q e, (forall i, (i < n)%nat -> (q i < n)%nat) /\
  (forall j k, (j < n)%nat -> (k < n)%nat -> q j = q k -> j = k) /\ (forall j, (j < n)%nat -> e j = 1 \/ e j = -1) /\
  forall i j, (i < n)%nat -> (j < n)%nat -> M i j = if Nat.eqb j (q i) then e i else 0.
Proof.
  intros n M (p & e & H1 & H2 & H3 & H4).
  assert (forall i, exists j, (i < n)%nat -> (j < n)%nat /\ p j = i) as Hq.
  { intros i. destruct (Nat.lt_ge_cases i n) as [Hi|Hi]; [|exists 0%nat; lia]. destruct (inj_surj n p H1 H2 i Hi) as (j & Hj & E). exists j. auto. }
  assert (forall m, exists q, forall i, (i < m)%nat -> (i < n)%nat -> (q i < n)%nat /\ p (q i) = i) as Hm.
  { induction m as [|m (q & IH)]; [exists (fun _ => 0%nat); lia|]. destruct (Hq m) as (j & Hj). exists (fun i => if Nat.eqb i m then j else q i).
    intros i Hi Hn. destruct (Nat.eqb_spec i m) as [->|]; [apply Hj, Hn|]. apply IH; [lia|exact Hn]. }
  destruct (Hm n) as (q & Hq'). exists q, (fun i => e (q i)). split; [intros i Hi; apply (Hq' i Hi Hi)|]. split; [|split].
  - intros j k Hj Hk E. rewrite <- (proj2 (Hq' j Hj Hj)), <- (proj2 (Hq' k Hk Hk)), E. reflexivity.
  - intros j Hj. apply H3, (Hq' j Hj Hj).
  - intros i j Hi Hj. rewrite H4 by assumption. destruct (Hq' i Hi Hi) as [Q1 Q2]. destruct (Nat.eqb_spec j (q i)) as [->|Ne].
    + rewrite Q2, Nat.eqb_refl. reflexivity.
    + destruct (Nat.eqb_spec i (p j)) as [E|]; [|reflexivity]. exfalso. apply Ne. apply H2; [exact Hj|exact Q1|congruence].
Qed.
Lemma signed_entry : forall n M i j, permutes_signed n M -> (i < n)%nat -> (j < n)%nat -> M i j = 0 \/ M i j = 1 \/ M i j = -1.
Proof.
  intros n M i j (p & e & H1 & H2 & H3 & H4) Hi Hj. rewrite H4 by assumption. destruct (Nat.eqb i (p j)); [|left; reflexivity]. destruct (H3 j Hj) as [->| ->]; tauto.
Qed.

Lemma nodup_length : forall l : list Z, NoDup l -> length (nodup Z.eq_dec l) = length l.
Proof. intros l H. rewrite nodup_fixed_point by exact H. reflexivity. Qed.
Lemma nth_map_seq : forall {X} (f : nat -> X) n i d, (i < n)%nat -> nth i (map f (seq 0 n)) d = f i.
Proof. intros X f n i d H. rewrite (nth_indep _ d (f 0%nat)) by (rewrite map_length, seq_length; exact H). rewrite map_nth, seq_nth by exact H. reflexivity. Qed.

Theorem concat_matrix_ok : forall s r, permutes_signed s r -> exists M, concat_matrix s r = Ret M /\ forall x y, (x < 2 * s)%nat -> (y < 2 * s)%nat -> M x y = doubled r x y.
Proof.
  intros s r H. destruct (permutes_signed_inv s r H) as (q & e & H1 & H2 & H3 & H4). unfold concat_matrix.
  rewrite (mapM_ret _ (fun i => Z.of_nat (q i))).
  2:{ intros i Hi. apply in_seq in Hi. apply row_scan_one; [apply seq_NoDup|apply in_seq; pose proof (H1 i ltac:(lia)); lia| |].
      - rewrite H4 by (lia || apply H1; lia). rewrite Nat.eqb_refl. apply H3. lia.
      - intros j Hj Ne. apply in_seq in Hj. rewrite H4 by lia. destruct (Nat.eqb_spec j (q i)); [congruence|reflexivity]. }
  cbn [bind]. rewrite nodup_length.
  2:{ assert (NoDup (map q (seq 0 s))) as ND.
      { clear - H2. assert (forall l, NoDup l -> (forall i, In i l -> (i < s)%nat) -> NoDup (map q l)) as G.
        { induction l as [|a l IH]; intros N Hl; cbn; constructor; apply NoDup_cons_iff in N; destruct N as [Na N].
          - intros K. apply in_map_iff in K. destruct K as (b & Eb & Kb). apply H2 in Eb; [congruence|apply Hl; right; exact Kb|apply Hl; left; reflexivity].
          - apply IH; [exact N|]. intros i Hi. apply Hl. right; exact Hi. }
        apply G; [apply seq_NoDup|]. intros i Hi. apply in_seq in Hi. lia. }
      rewrite <- (map_map q Z.of_nat). apply FinFun.Injective_map_NoDup; [intros a b; lia|exact ND]. }
  rewrite Nat.eqb_refl. cbn [assert_ bind].
  assert (forall i j, exists B, (i < s)%nat -> (j < s)%nat -> entry_block (r i j) = Ret B /\ forall a b, (a < 2)%nat -> (b < 2)%nat -> B a b = (Rabs (r i j) + sg a b * r i j) / 2) as HB.
  { intros i j. destruct (Nat.lt_ge_cases i s) as [Hi|Hi]; [|exists mzero; lia]. destruct (Nat.lt_ge_cases j s) as [Hj|Hj]; [|exists mzero; lia].
    destruct (entry_block_ok (r i j)) as (B & EB & HB); [apply (signed_entry s); assumption|]. exists B. auto. }
  set (Bf := fun i j => match entry_block (r i j) with Ret B => B | Raise => mzero end).
  assert (mapM (fun i => mapM (fun j => entry_block (r i j)) (seq 0 s)) (seq 0 s) = Ret (map (fun i => map (Bf i) (seq 0 s)) (seq 0 s))) as ->.
  { apply mapM_ret. intros i Hi. apply mapM_ret. intros j Hj. apply in_seq in Hi. apply in_seq in Hj. destruct (HB i j) as (B & K). destruct K as [E _]; [lia|lia|].
    unfold Bf. rewrite E. reflexivity. }
  cbn [bind]. eexists. split; [reflexivity|]. intros x y Hx Hy. cbn beta.
  assert (x / 2 < s)%nat by (apply Nat.div_lt_upper_bound; lia). assert (y / 2 < s)%nat by (apply Nat.div_lt_upper_bound; lia).
  rewrite (nth_map_seq (fun i => map (Bf i) (seq 0 s))) by assumption. rewrite (nth_map_seq (Bf (x / 2)%nat)) by assumption.
  destruct (HB (x / 2)%nat (y / 2)%nat) as (B & K). destruct K as [E K]; [assumption|assumption|]. unfold Bf, doubled. rewrite E.
  apply K; apply Nat.mod_upper_bound; lia.
Qed.

(** *** sums over pairs *)
Lemma sumn_pairs : forall s f, sumn (2 * s) f = sumn s (fun k => f (2 * k)%nat + f (2 * k + 1)%nat).
Proof.
  induction s as [|s IH]; intros f; [reflexivity|]. replace (2 * S s)%nat with (S (S (2 * s))) by lia. cbn [sumn]. rewrite IH. replace (2 * s + 1)%nat with (S (2 * s)) by lia. lra.
Qed.
Lemma div2_even : forall k, (2 * k / 2 = k)%nat. Proof. intros. rewrite Nat.mul_comm. apply Nat.div_mul. lia. Qed.
Lemma div2_odd : forall k, ((2 * k + 1) / 2 = k)%nat. Proof. intros. rewrite Nat.mul_comm, Nat.div_add_l by lia. cbn. lia. Qed.
Lemma mod2_even : forall k, ((2 * k) mod 2 = 0)%nat. Proof. intros. rewrite Nat.mul_comm. apply Nat.mod_mul. lia. Qed.
Lemma mod2_odd : forall k, ((2 * k + 1) mod 2 = 1)%nat. Proof. intros. rewrite Nat.mul_comm, Nat.add_comm, Nat.mod_add by lia. reflexivity. Qed.
Lemma mod2_cases : forall x, (x mod 2 = 0 \/ x mod 2 = 1)%nat. Proof. intros x. pose proof (Nat.mod_upper_bound x 2 ltac:(lia)). lia. Qed.

Theorem doubled_mul : forall s r1 r2, permutes_signed s r1 -> permutes_signed s r2 ->
  forall x y, (x < 2 * s)%nat -> (y < 2 * s)%nat -> mmul (2 * s) (doubled r1) (doubled r2) x y = doubled (mmul s r1 r2) x y.
Proof.
  intros s r1 r2 H1 H2 x y Hx Hy. destruct (permutes_signed_inv s r1 H1) as (q & e & Q1 & Q2 & Q3 & Q4).
  assert (x / 2 < s)%nat as Bx by (apply Nat.div_lt_upper_bound; lia). assert (y / 2 < s)%nat as By by (apply Nat.div_lt_upper_bound; lia).
  unfold mmul at 1. rewrite sumn_pairs. unfold doubled. 
  rewrite (sumn_ext s _ (fun k => (Rabs (r1 (x / 2)%nat k) * Rabs (r2 k (y / 2)%nat) + sg (x mod 2) (y mod 2) * (r1 (x / 2)%nat k * r2 k (y / 2)%nat)) / 2)).
  2:{ intros k Hk. rewrite div2_even, div2_odd, mod2_even, mod2_odd. unfold sg.
      destruct (mod2_cases x) as [-> | ->], (mod2_cases y) as [-> | ->]; cbn [Nat.eqb]; lra. }
  assert (mmul s r1 r2 (x / 2)%nat (y / 2)%nat = e (x / 2)%nat * r2 (q (x / 2)%nat) (y / 2)%nat) as E.
  { unfold mmul. rewrite (sumn_single s (q (x / 2)%nat)); [|apply Q1, Bx|].
    - rewrite Q4, Nat.eqb_refl by (exact Bx || apply Q1, Bx). reflexivity.
    - intros k Hk Ne. rewrite Q4 by (exact Bx || exact Hk). destruct (Nat.eqb_spec k (q (x / 2)%nat)); [congruence|lra]. }
  rewrite E. rewrite (sumn_single s (q (x / 2)%nat)); [|apply Q1, Bx|].
  - rewrite Q4, Nat.eqb_refl by (exact Bx || apply Q1, Bx). rewrite Rabs_mult. reflexivity.
  - intros k Hk Ne. rewrite Q4 by (exact Bx || exact Hk). destruct (Nat.eqb_spec k (q (x / 2)%nat)); [congruence|]. rewrite Rabs_R0. lra.
Qed.
Theorem doubled_id : forall x y, doubled mid x y = mid x y.
Proof.
  intros x y. unfold doubled, mid. pose proof (Nat.div_mod x 2 ltac:(lia)) as Dx. pose proof (Nat.div_mod y 2 ltac:(lia)) as Dy.
  destruct (Nat.eqb_spec (x / 2) (y / 2)) as [E|N].
  - rewrite Rabs_R1. unfold sg. destruct (Nat.eqb_spec (x mod 2) (y mod 2)) as [E2|N2]; destruct (Nat.eqb_spec x y) as [E3|N3]; try lra.
    + exfalso. apply N3. rewrite Dx, Dy, E, E2. reflexivity.
    + exfalso. apply N2. rewrite E3. reflexivity.
  - rewrite Rabs_R0. destruct (Nat.eqb_spec x y) as [->|]; [congruence|lra].
Qed.
Theorem doubled_permutes : forall s r, permutes_signed s r -> permutes (2 * s) (doubled r).
Proof.
  intros s r (p & e & H1 & H2 & H3 & H4).
  exists (fun y => (2 * p (y / 2) + (if Rle_dec 0 (e (y / 2)%nat) then y mod 2 else 1 - y mod 2))%nat).
  assert (forall y, (y < 2 * s)%nat -> (y / 2 < s)%nat) as B by (intros y Hy; apply Nat.div_lt_upper_bound; lia).
  assert (forall y, (y mod 2 < 2)%nat) as Mo by (intros; apply Nat.mod_upper_bound; lia).
  assert (forall a b c, (b < 2)%nat -> (2 * a + b = c)%nat -> (c / 2 = a /\ c mod 2 = b)%nat) as DM.
  { intros a b c Hb E. split; symmetry; [apply (Nat.div_unique c 2 a b)|apply (Nat.mod_unique c 2 a b)]; lia. }
  assert (forall c d, (c / 2 = d / 2)%nat -> (c mod 2 = d mod 2)%nat -> c = d) as DE.
  { intros c d E1 E2. rewrite (Nat.div_mod c 2), (Nat.div_mod d 2) by lia. congruence. }
  split; [|split].
  - intros y Hy. pose proof (H1 _ (B y Hy)). pose proof (Mo y). destruct (Rle_dec 0 (e (y / 2)%nat)); lia.
  - intros y z Hy Hz E. set (u := if Rle_dec 0 (e (y / 2)%nat) then (y mod 2)%nat else (1 - y mod 2)%nat) in *. set (w := if Rle_dec 0 (e (z / 2)%nat) then (z mod 2)%nat else (1 - z mod 2)%nat) in *.
    assert (u < 2 /\ w < 2)%nat as [Bu Bw] by (pose proof (Mo y); pose proof (Mo z); unfold u, w; destruct (Rle_dec 0 (e (y / 2)%nat)), (Rle_dec 0 (e (z / 2)%nat)); lia).
    destruct (DM _ _ _ Bu E) as [E1 E2]. destruct (DM (p (z / 2)%nat) w _ Bw eq_refl) as [E3 E4]. rewrite E3 in E1. rewrite E4 in E2.
    apply H2 in E1; [|apply B, Hz|apply B, Hy]. apply DE; [congruence|]. unfold u, w in E2. rewrite E1 in E2.
    pose proof (Mo y). pose proof (Mo z). destruct (Rle_dec 0 (e (y / 2)%nat)); lia.
  - intros x y Hx Hy. unfold doubled. rewrite H4 by (apply B; assumption). set (u := if Rle_dec 0 (e (y / 2)%nat) then (y mod 2)%nat else (1 - y mod 2)%nat).
    assert (u < 2)%nat as Bu by (pose proof (Mo y); unfold u; destruct (Rle_dec 0 (e (y / 2)%nat)); lia).
    destruct (DM (p (y / 2)%nat) u _ Bu eq_refl) as [E1 E2].
    destruct (Nat.eqb_spec (x / 2)%nat (p (y / 2)%nat)) as [Ex|Nx].
    + assert (Nat.eqb x (2 * p (y / 2) + u)%nat = Nat.eqb (x mod 2) u) as ->.
      { destruct (Nat.eqb_spec (x mod 2) u) as [Eu|Nu]; destruct (Nat.eqb_spec x (2 * p (y / 2) + u)%nat) as [E3|N3]; try reflexivity; exfalso.
        - apply N3. apply DE; congruence.
        - apply Nu. rewrite E3. exact E2. }
      unfold sg, u. destruct (H3 (y / 2)%nat (B y Hy)) as [-> | ->].
      * rewrite Rabs_R1. destruct (Rle_dec 0 1); [|lra]. destruct (Nat.eqb (x mod 2) (y mod 2)); lra.
      * rewrite Rabs_left by lra. destruct (Rle_dec 0 (-1)); [lra|]. destruct (mod2_cases x) as [-> | ->], (mod2_cases y) as [-> | ->]; cbn [Nat.eqb Nat.sub]; lra.
    + destruct (Nat.eqb_spec x (2 * p (y / 2) + u)%nat) as [E3|]; [exfalso; apply Nx; rewrite E3; exact E1|]. rewrite Rabs_R0. lra.
Qed.

(** *** the vectors *)
Lemma both_length : forall f x, length (both f x) = (2 * length x)%nat.
Proof. intros f x. unfold both. induction x as [|a x IH]; [reflexivity|]. cbn [flat_map app length]. rewrite IH. lia. Qed.
Lemma both_even : forall f x i, (i < length x)%nat -> nth (2 * i) (both f x) 0 = f (nth i x 0).
Proof.
  intros f x; induction x as [|a x IH]; intros i Hi; [cbn in Hi; lia|]. destruct i as [|i]; [reflexivity|]. replace (2 * S i)%nat with (S (S (2 * i))) by lia.
  cbn [both flat_map app nth]. apply IH. cbn in Hi; lia.
Qed.
Lemma both_odd : forall f x i, (i < length x)%nat -> nth (2 * i + 1) (both f x) 0 = f (- nth i x 0).
Proof.
  intros f x; induction x as [|a x IH]; intros i Hi; [cbn in Hi; lia|]. destruct i as [|i]; [reflexivity|]. replace (2 * S i + 1)%nat with (S (S (2 * i + 1))) by lia.
  cbn [both flat_map app nth]. apply IH. cbn in Hi; lia.
Qed.
Theorem both_mv : forall s r f v, permutes_signed s r -> length v = s -> both f (mv s r v) = mv (2 * s) (doubled r) (both f v).
Proof.
  intros s r f v H Lv. destruct (permutes_signed_inv s r H) as (q & e & Q1 & Q2 & Q3 & Q4).
  assert (forall i, (i < s)%nat -> nth i (mv s r v) 0 = e i * nth (q i) v 0) as Hr.
  { intros i Hi. rewrite mv_nth by exact Hi. rewrite (sumn_single s (q i)); [|apply Q1, Hi|].
    - rewrite Q4, Nat.eqb_refl by (exact Hi || apply Q1, Hi). reflexivity.
    - intros k Hk Ne. rewrite Q4 by assumption. destruct (Nat.eqb_spec k (q i)); [congruence|lra]. }
  apply list_ext; [rewrite both_length, !mv_length; reflexivity|]. intros x Hx. rewrite both_length, mv_length in Hx.
  assert (x / 2 < s)%nat as Bx by (apply Nat.div_lt_upper_bound; lia).
  rewrite mv_nth by exact Hx. rewrite sumn_pairs. rewrite (sumn_single s (q (x / 2)%nat)); [|apply Q1, Bx|].
  - unfold doubled. rewrite div2_even, div2_odd, mod2_even, mod2_odd, both_even, both_odd by (rewrite Lv; apply Q1, Bx).
    rewrite Q4, Nat.eqb_refl by (exact Bx || apply Q1, Bx).
    assert (nth x (both f (mv s r v)) 0 = f (sg (x mod 2) 0 * (e (x / 2)%nat * nth (q (x / 2)%nat) v 0))) as ->.
    { rewrite (Nat.div_mod x 2) at 1 by lia. destruct (mod2_cases x) as [E|E]; rewrite E.
      - rewrite Nat.add_0_r, both_even by (rewrite mv_length; exact Bx). rewrite Hr by exact Bx. unfold sg. cbn [Nat.eqb]. f_equal. lra.
      - rewrite both_odd by (rewrite mv_length; exact Bx). rewrite Hr by exact Bx. unfold sg. cbn [Nat.eqb]. f_equal. lra. }
    set (w := nth (q (x / 2)%nat) v 0). unfold sg. destruct (Q3 _ Bx) as [-> | ->], (mod2_cases x) as [-> | ->]; cbn [Nat.eqb];
      rewrite ?Rabs_R1, ?(Rabs_left (-1)) by lra; (replace (1 * (1 * w)) with w by lra) || (replace (-1 * (1 * w)) with (- w) by lra) || (replace (1 * (-1 * w)) with (- w) by lra) || (replace (-1 * (-1 * w)) with w by lra); lra.
  - intros k Hk Ne. unfold doubled. rewrite div2_even, div2_odd. rewrite Q4 by (exact Bx || exact Hk). destruct (Nat.eqb_spec k (q (x / 2)%nat)); [congruence|]. rewrite Rabs_R0. lra.
Qed.

(** *** the forward pass *)
Lemma step2_positions : forall c a, (a = 0 \/ a = 1)%Z -> slice_positions (2 * c) (if (a =? 0)%Z then None else Some a) None (Some 2%Z) = Ret (map (fun i => (2 * i + Z.to_nat a)%nat) (seq 0 c)).
Proof.
  intros c a Ha. unfold slice_positions. cbn [Z.eqb Z.ltb Z.compare].
  destruct c as [|c]; [destruct Ha as [-> | ->]; reflexivity|].
  assert (slice_end (Z.of_nat (2 * S c)) 0 (Z.of_nat (2 * S c)) (if (a =? 0)%Z then None else Some a) 0 = a)%Z as ->.
  { destruct Ha as [-> | ->]; [reflexivity|]. unfold slice_end. cbn [Z.eqb Z.ltb Z.compare]. lia. }
  unfold slice_end. assert (Z.to_nat ((Z.of_nat (2 * S c) - a + 2 - 1) / 2) = S c) as ->.
  { assert ((Z.of_nat (2 * S c) - a + 2 - 1) / 2 = Z.of_nat (S c))%Z as ->; [|lia]. destruct Ha as [-> | ->].
    - symmetry. apply (Z.div_unique _ _ _ 1); lia.
    - symmetry. apply (Z.div_unique _ _ _ 0); lia. }
  f_equal. apply map_ext. intros i. lia.
Qed.
Lemma set_all_nth : forall {W} (d : W) (p : list nat) (v out : list W), length v = length p -> NoDup p -> Forall (fun i => (i < length out)%nat) p ->
  exists out', set_all out p v = Ret out' /\ length out' = length out /\
    (forall k i w, nth_error p k = Some i -> nth_error v k = Some w -> nth_error out' i = Some w) /\ (forall j, ~ In j p -> nth_error out' j = nth_error out j).
Proof.
  intros W d p; induction p as [|i p IH]; intros [|w v] out L ND F; try discriminate.
  - exists out. split; [reflexivity|split; [reflexivity|split; [|reflexivity]]]. intros [|k]; discriminate.
  - cbn [set_all]. apply NoDup_cons_iff in ND. destruct ND as [Ni ND]. inversion F as [|? ? Fi F']; subst. rewrite (proj2 (Nat.ltb_lt _ _) Fi). cbn [assert_ bind].
    set (o := (firstn i out ++ w :: skipn (S i) out)%list).
    assert (length o = length out) as Lo by (unfold o; rewrite app_length, firstn_length; cbn [length]; rewrite skipn_length; lia).
    assert (nth_error o i = Some w) as Ow by (unfold o; rewrite nth_error_app2 by (rewrite firstn_length; lia); rewrite firstn_length, Nat.min_l, Nat.sub_diag by lia; reflexivity).
    assert (forall j, j <> i -> nth_error o j = nth_error out j) as Oj.
    { intros j Nj. unfold o. destruct (Nat.lt_ge_cases j i) as [H|H].
      - rewrite nth_error_app1 by (rewrite firstn_length; lia). rewrite <- (firstn_skipn i out) at 2. rewrite nth_error_app1 by (rewrite firstn_length; lia). reflexivity.
      - rewrite nth_error_app2 by (rewrite firstn_length; lia). rewrite firstn_length, Nat.min_l by lia. destruct (j - i)%nat as [|k] eqn:Ek; [lia|]. cbn [nth_error].
        rewrite <- (firstn_skipn (S i) out) at 2. rewrite nth_error_app2 by (rewrite firstn_length; lia). rewrite firstn_length, Nat.min_l by lia. f_equal. lia. }
    destruct (IH v o) as (out' & E & Lo' & H1 & H2); [cbn in L; lia|exact ND|rewrite Lo; exact F'|].
    exists out'. split; [exact E|split; [congruence|split]].
    + intros [|k] a b Ea Eb; cbn [nth_error] in Ea, Eb.
      * injection Ea as <-. injection Eb as <-. rewrite H2 by exact Ni. exact Ow.
      * apply (H1 k); assumption.
    + intros j Hj. cbn [In] in Hj. rewrite H2 by tauto. apply Oj. intros ->. tauto.
Qed.
Lemma write_both : forall (f : R -> R) x junk, length junk = (2 * length x)%nat ->
  (p <- slice_positions (2 * length x) None None (Some 2%Z) ;; out <- set_all junk p (map f x) ;;
   q <- slice_positions (2 * length x) (Some 1%Z) None (Some 2%Z) ;; set_all out q (map (fun v => f (-1 * v)) x)) = Ret (both f x).
Proof.
  intros f x junk Lj. pose proof (step2_positions (length x) 0 (or_introl eq_refl)) as E0. pose proof (step2_positions (length x) 1 (or_intror eq_refl)) as E1.
  cbn [Z.eqb] in E0, E1. rewrite E0. cbn [bind].
  assert (forall t, (t < 2)%nat -> NoDup (map (fun i => (2 * i + t)%nat) (seq 0 (length x)))) as ND.
  { intros t Ht. apply FinFun.Injective_map_NoDup; [intros a b; lia|apply seq_NoDup]. }
  assert (forall t m, (t < 2)%nat -> (m = 2 * length x)%nat -> Forall (fun i => (i < m)%nat) (map (fun i => (2 * i + t)%nat) (seq 0 (length x)))) as Fa.
  { intros t m Ht ->. apply Forall_forall. intros i Hi. apply in_map_iff in Hi. destruct Hi as (k & <- & Hk). apply in_seq in Hk. lia. }
  assert (forall t k, (k < length x)%nat -> nth_error (map (fun i => (2 * i + t)%nat) (seq 0 (length x))) k = Some (2 * k + t)%nat) as Np.
  { intros t k Hk. apply (map_nth_error (fun i => (2 * i + t)%nat)). rewrite (nth_error_nth' _ 0%nat) by (rewrite seq_length; exact Hk). rewrite seq_nth by exact Hk. reflexivity. }
  change (Z.to_nat 0) with 0%nat in *. change (Z.to_nat 1) with 1%nat in *.
  destruct (set_all_nth 0 (map (fun i => (2 * i + 0)%nat) (seq 0 (length x))) (map f x) junk) as (o & Eo & Lo & H1 & H2);
    [rewrite !map_length, seq_length; reflexivity|apply ND; lia|apply Fa; [lia|exact Lj]|]. rewrite Eo. cbn [bind]. rewrite E1. cbn [bind].
  destruct (set_all_nth 0 (map (fun i => (2 * i + 1)%nat) (seq 0 (length x))) (map (fun v => f (-1 * v)) x) o) as (o' & Eo' & Lo' & H1' & H2');
    [rewrite !map_length, seq_length; reflexivity|apply ND; lia|apply Fa; [lia|congruence]|]. rewrite Eo'. f_equal.
  apply list_ext; [rewrite both_length; congruence|]. intros i Hi. rewrite Lo', Lo, Lj in Hi.
  assert (i / 2 < length x)%nat as Bi by (apply Nat.div_lt_upper_bound; lia).
  destruct (nth_error x (i / 2)) as [v|] eqn:Ev; [|apply nth_error_None in Ev; lia].
  rewrite (Nat.div_mod i 2) by lia. destruct (mod2_cases i) as [Em|Em]; rewrite Em.
  - rewrite Nat.add_0_r, both_even by exact Bi. rewrite (nth_error_nth x _ 0 Ev). apply nth_error_nth. rewrite H2'.
    + rewrite <- (Nat.add_0_r (2 * (i / 2))). apply (H1 (i / 2)%nat); [apply Np, Bi|apply map_nth_error, Ev].
    + intros K. apply in_map_iff in K. destruct K as (k & Ek & _). lia.
  - rewrite both_odd by exact Bi. rewrite (nth_error_nth x _ 0 Ev). apply nth_error_nth.
    apply (H1' (i / 2)%nat); [apply Np, Bi|]. replace (- v) with (-1 * v) by lra. apply (map_nth_error (fun v => f (-1 * v))), Ev.
Qed.

Section C.
Context {A : Type}.
Variable size : A -> nat.
Variable supported : A -> list nonlin.
Variable teqb : list A -> list A -> bool.
Theorem concat_forward_ok : forall ft name m, mk_concat supported ft name = Ret m ->
  fst m = ft /\ Forall (fun r => In NL_concatenated (supported r)) ft /\ concat_function name = Ret (snd m) /\
  forall x junk, g_type x = ft -> good size x -> teqb ft ft = true -> length junk = (2 * type_size size ft)%nat ->
    concat_forward size teqb m junk x = Ret {| g_type := ft; g_chans := both (snd m) (g_chans x) |}.
Proof.
  intros ft name m Em. unfold mk_concat in Em. destruct (forallb (supports supported NL_concatenated) ft) eqn:Es; cbn [assert_ bind] in Em; [|discriminate].
  apply bind_Ret in Em. destruct Em as (f & Ef & Em). apply Ret_inj in Em. subst m. cbn [fst snd].
  split; [reflexivity|split; [apply (supports_ok supported), Es|split; [exact Ef|]]]. intros x junk Et G Er Lj. unfold concat_forward. cbn [fst snd]. rewrite Et, Er. cbn [assert_ bind].
  red in G. rewrite Et in G. rewrite <- G in Lj. pose proof (write_both f (g_chans x) junk Lj) as W.
  apply bind_Ret in W. destruct W as (p & -> & W). apply bind_Ret in W. destruct W as (o & Eo & W). apply bind_Ret in W. destruct W as (q & -> & W).
  cbn [bind]. rewrite Eo. cbn [bind]. rewrite W. cbn [bind]. unfold mk_gtensor. rewrite both_length, G.
  assert (type_size (fun r => (2 * size r)%nat) ft = 2 * type_size size ft)%nat as ->; [|rewrite Nat.eqb_refl; reflexivity].
  unfold type_size. clear. induction ft as [|r ft IH]; [reflexivity|]. cbn [map]. change (list_sum (2 * size r :: map (fun r0 => 2 * size r0) ft))%nat with (2 * size r + list_sum (map (fun r0 => 2 * size r0) ft))%nat.
  change (list_sum (size r :: map size ft))%nat with (size r + list_sum (map size ft))%nat. rewrite IH. lia.
Qed.
Lemma both_field : forall ft f x i, field_chans (fun r => (2 * size r)%nat) ft (both f x) i = both f (field_chans size ft x i).
Proof.
  intros ft f x i. destruct (nth_error ft i) as [r|] eqn:Er; [|unfold field_chans; rewrite Er; reflexivity]. rewrite !(field_chans_at _ _ _ _ _ Er).
  assert (offset (fun r => (2 * size r)%nat) ft i = 2 * offset size ft i)%nat as ->.
  { unfold offset. generalize (firstn i ft) as t. clear. induction t as [|r t IH]; [reflexivity|]. cbn [map]. change (list_sum (2 * size r :: map (fun r0 => 2 * size r0) t))%nat with (2 * size r + list_sum (map (fun r0 => 2 * size r0) t))%nat.
    change (list_sum (size r :: map size t))%nat with (size r + list_sum (map size t))%nat. rewrite IH. lia. }
  generalize (offset size ft i) as a, (size r) as n. revert x. clear.
  assert (forall n x, firstn (2 * n) (both f x) = both f (firstn n x)) as Hf.
  { induction n as [|n IH]; intros x; [reflexivity|]. destruct x as [|v x]; [reflexivity|]. replace (2 * S n)%nat with (S (S (2 * n))) by lia. cbn [both flat_map app firstn].
    f_equal. f_equal. apply IH. }
  assert (forall n x, skipn (2 * n) (both f x) = both f (skipn n x)) as Hs.
  { induction n as [|n IH]; intros x; [reflexivity|]. destruct x as [|v x]; [reflexivity|]. replace (2 * S n)%nat with (S (S (2 * n))) by lia. cbn [both flat_map app skipn]. apply IH. }
  intros x a n. rewrite Hs, Hf. reflexivity.
Qed.
Theorem concat_equivariant : forall ft (rho rho2 : A -> mat) (f : R -> R) x y, length x = type_size size ft ->
  Forall (fun r => permutes_signed (size r) (rho r)) ft -> Forall (fun r => concat_matrix (size r) (rho r) = Ret (rho2 r)) ft ->
  acts size ft rho x y -> acts (fun r => (2 * size r)%nat) ft rho2 (both f x) (both f y).
Proof.
  intros ft rho rho2 f x y Lx Hr H2 [Ly H]. split.
  - rewrite both_length, Ly. clear. induction ft as [|r ft IH]; [reflexivity|]. cbn [map]. change (list_sum (2 * size r :: map (fun r0 => 2 * size r0) ft))%nat with (2 * size r + list_sum (map (fun r0 => 2 * size r0) ft))%nat.
    change (list_sum (size r :: map size ft))%nat with (size r + list_sum (map size ft))%nat. rewrite <- IH. lia.
  - intros i r Er. rewrite !both_field, (H i r Er). rewrite Forall_forall in Hr, H2. pose proof (nth_error_In _ _ Er) as Ir.
    rewrite both_mv; [|apply Hr, Ir|apply (field_chans_length size _ _ _ _ Lx Er)].
    destruct (concat_matrix_ok (size r) (rho r) (Hr r Ir)) as (M & EM & HM). rewrite (H2 r Ir) in EM. apply Ret_inj in EM. subst M.
    unfold mv. apply map_ext_in. intros a Ha. apply in_seq in Ha. apply sumn_ext. intros b Hb. rewrite HM by lia. reflexivity.
Qed.
End C.

(** the doubled matrices form a representation when the given ones do *)
Theorem concat_represents : forall s r1 r2 M1 M2 M12, permutes_signed s r1 -> permutes_signed s r2 -> permutes_signed s (mmul s r1 r2) ->
  concat_matrix s r1 = Ret M1 -> concat_matrix s r2 = Ret M2 -> concat_matrix s (mmul s r1 r2) = Ret M12 ->
  forall x y, (x < 2 * s)%nat -> (y < 2 * s)%nat -> M12 x y = mmul (2 * s) M1 M2 x y.
Proof.
  intros s r1 r2 M1 M2 M12 H1 H2 H12 E1 E2 E12 x y Hx Hy.
  destruct (concat_matrix_ok s r1 H1) as (A1 & F1 & G1). rewrite E1 in F1. apply Ret_inj in F1. subst A1.
  destruct (concat_matrix_ok s r2 H2) as (A1 & F1 & G2). rewrite E2 in F1. apply Ret_inj in F1. subst A1.
  destruct (concat_matrix_ok _ _ H12) as (A1 & F1 & G12). rewrite E12 in F1. apply Ret_inj in F1. subst A1.
  rewrite G12, <- doubled_mul by assumption. unfold mmul. apply sumn_ext. intros k Hk. rewrite G1, G2 by assumption. reflexivity.
Qed.
