(** Proofs about the transformation of grids. *)
From Coq Require Import Reals ZArith Bool List Lia Lra FinFun.
From Verif Require Import LibRes LibMat LibTrig LibList ParamModel ParamProofs RepModel RepProofs GridModel SpecGrid.
Import ListNotations.
Open Scope R_scope.

Lemma forallb_n_intro : forall n f, (forall i, (i < n)%nat -> f i = true) -> forallb_n n f = true.
Proof. intros n f; induction n; cbn; intros H; [reflexivity|rewrite IHn, H; auto]. Qed.

Lemma index_of_nth : forall l i, NoDup l -> (i < length l)%nat -> index_of (nth i l 0%nat) l = i.
Proof.
  intros l; induction l as [|a l IH]; intros i N H; cbn in H; [lia|].
  inversion N as [|x y Na Nl]; subst; destruct i as [|i]; cbn [nth index_of]; [rewrite Nat.eqb_refl; reflexivity|].
  destruct (Nat.eqb_spec (nth i l 0%nat) a) as [E|_]; [exfalso; apply Na; rewrite <- E; apply nth_In; lia|].
  rewrite IH; auto; lia.
Qed.

Lemma zsum_single : forall (f : nat -> Z) n k, (k < n)%nat -> (forall j, (j < n)%nat -> j <> k -> f j = 0%Z) ->
  fold_right Z.add 0%Z (map f (seq 0 n)) = f k.
Proof.
  intros f n k Hk H.
  assert (Z0 : forall a m, (forall j, (a <= j < a + m)%nat -> f j = 0%Z) -> fold_right Z.add 0%Z (map f (seq a m)) = 0%Z).
  { intros a m; revert a; induction m as [|m IH]; intros a Hz; cbn; [reflexivity|]. rewrite (Hz a), IH; auto; intros; try apply Hz; lia. }
  replace n with (k + S (n - k - 1))%nat by lia; rewrite seq_app, map_app; cbn [seq map].
  assert (A : forall l t, fold_right Z.add 0%Z (l ++ t) = (fold_right Z.add 0 l + fold_right Z.add 0 t)%Z).
  { intros l t; induction l; cbn; [reflexivity|rewrite IHl; lia]. }
  rewrite A; cbn [fold_right]; rewrite !Z0; [cbn; lia| |]; intros; apply H; lia.
Qed.

Lemma valid_nth : forall sh idx, valid sh idx <->
  length idx = length sh /\ forall i, (i < length sh)%nat -> (nth i idx 0 < nth i sh 0)%nat.
Proof.
  unfold valid; intros sh; induction sh as [|s sh IH]; intros [|i idx]; split.
  - intros _; split; [reflexivity|cbn; lia].
  - intros _; constructor.
  - intros H; inversion H.
  - intros (H & _); discriminate.
  - intros H; inversion H.
  - intros (H & _); discriminate.
  - intros H; inversion H as [|? ? ? ? H1 H2]; subst; apply IH in H2 as (L & N); split; [cbn; lia|].
    intros [|k] Hk; cbn in *; [exact H1|apply N; lia].
  - intros (L & N); constructor; [apply (N 0%nat); cbn; lia|]; apply IH; split; [cbn in L; lia|].
    intros k Hk; apply (N (S k)); cbn; lia.
Qed.

Section Exact.
(** [T i j] is [z i] at j = p i and 0 elsewhere *)
Variables (n d : nat) (p : nat -> nat) (z : nat -> Z) (T : mat).
Hypothesis Hp : forall i, (i < n)%nat -> (p i < n)%nat.
Hypothesis Hi : forall i j, (i < n)%nat -> (j < n)%nat -> p i = p j -> i = j.
Hypothesis Hz : forall i, (i < n)%nat -> z i = 1%Z \/ z i = (-1)%Z.
Hypothesis HT : forall i j, (i < n)%nat -> (j < n)%nat -> T i j = if Nat.eqb j (p i) then IZR (z i) else 0.

Lemma p_onto : forall j, (j < n)%nat -> exists i, (i < n)%nat /\ p i = j.
Proof.
  intros j Hj. assert (S : bSurjective n p) by (apply bInjective_bSurjective; [exact Hp|intros x y; apply Hi]).
  destruct (S j Hj) as (i & L & E); exists i; auto.
Qed.

Lemma abs_T : forall i j, (i < n)%nat -> (j < n)%nat -> Rabs (T i j) = if Nat.eqb j (p i) then 1 else 0.
Proof.
  intros i j Li Lj; rewrite HT by assumption; destruct (Nat.eqb j (p i)); [|apply Rabs_R0].
  destruct (Hz i Li) as [-> | ->]; [apply Rabs_R1|rewrite Rabs_left; lra].
Qed.

Lemma exact_ok : looks_exact n T = true.
Proof.
  unfold looks_exact; rewrite !andb_true_iff; repeat split; apply forallb_n_intro.
  - intros j Hj; destruct (p_onto j Hj) as (i & Li & Ei).
    rewrite (sumn_ext n _ (fun i' => if Nat.eqb i' i then 1 else 0)).
    + rewrite (sumn_single n i); [|assumption|intros k _ Hk; destruct (Nat.eqb_spec k i); congruence].
      rewrite Nat.eqb_refl; apply np_isclose_refl; apply Rinv_0_lt_compat, pow_lt; lra.
    + intros i' Li'; rewrite abs_T by assumption; destruct (Nat.eqb_spec j (p i')) as [E|E], (Nat.eqb_spec i' i) as [F|F]; try reflexivity.
      * exfalso; apply F, Hi; auto; congruence.
      * exfalso; apply E; congruence.
  - intros i Li; rewrite (sumn_ext n _ (fun j => if Nat.eqb j (p i) then 1 else 0)) by (intros; apply abs_T; assumption).
    rewrite (sumn_single n (p i)); [|auto|intros k _ Hk; destruct (Nat.eqb_spec k (p i)); congruence].
    rewrite Nat.eqb_refl; apply np_isclose_refl; apply Rinv_0_lt_compat, pow_lt; lra.
  - intros i Li; apply forallb_n_intro; intros j Lj; rewrite abs_T by assumption.
    assert (0 < / 10 ^ 8) by (apply Rinv_0_lt_compat, pow_lt; lra).
    apply orb_true_iff; destruct (Nat.eqb j (p i)); [left|right]; apply np_isclose_refl; assumption.
Qed.

Lemma axes_ok : signed_axes n T = map (fun i => (z i * Z.of_nat (p i + 1))%Z) (seq 0 n).
Proof.
  unfold signed_axes; apply map_ext_in; intros i Hin; apply in_seq in Hin.
  rewrite (zsum_single _ n (p i)).
  - rewrite HT by (try apply Hp; lia); rewrite Nat.eqb_refl, pyround_IZR; reflexivity.
  - apply Hp; lia.
  - intros j Hj N; rewrite HT by lia. destruct (Nat.eqb_spec j (p i)); [congruence|].
    replace 0 with (IZR 0) by reflexivity; rewrite pyround_IZR; reflexivity.
Qed.

Definition axs : list nat := seq 0 d ++ map (fun i => d + p i)%nat (seq 0 n).

Lemma axs_length : length axs = (d + n)%nat.
Proof. unfold axs; rewrite app_length, map_length, !seq_length; reflexivity. Qed.

Lemma axs_low : forall a, (a < d)%nat -> nth a axs 0%nat = a.
Proof. intros a H; unfold axs; rewrite app_nth1 by (rewrite seq_length; lia); rewrite seq_nth; lia. Qed.

Lemma axs_high : forall k, (k < n)%nat -> nth (d + k) axs 0%nat = (d + p k)%nat.
Proof.
  intros k H; unfold axs; rewrite app_nth2 by (rewrite seq_length; lia); rewrite seq_length.
  replace (d + k - d)%nat with k by lia.
  rewrite (nth_indep _ 0%nat (d + p 0)%nat) by (rewrite map_length, seq_length; lia).
  rewrite (map_nth (fun i => (d + p i)%nat)), seq_nth by lia; reflexivity.
Qed.

Lemma axs_nodup : NoDup axs.
Proof.
  unfold axs; apply NoDup_app_intro.
  - apply seq_NoDup.
  - apply NoDup_map_inj_in; [|apply seq_NoDup].
    intros x y Hx Hy E; apply in_seq in Hx, Hy; apply Hi; lia.
  - intros x H1 H2; apply in_seq in H1; apply in_map_iff in H2 as (k & E & H2); lia.
Qed.

Lemma axs_all : forall a, (a < d + n)%nat -> In a axs.
Proof.
  intros a H; unfold axs; apply in_or_app; destruct (Nat.lt_ge_cases a d) as [L|L]; [left; apply in_seq; lia|right].
  destruct (p_onto (a - d)%nat) as (k & Lk & E); [lia|]; apply in_map_iff; exists k; split; [lia|apply in_seq; lia].
Qed.

Context {A : Type}.
Variable x : array A.
Hypothesis Hx : length (shape x) = (d + n)%nat.

Definition y0 : array A := {| shape := map (fun a => nth a (shape x) 0%nat) axs;
  entry := fun idx => entry x (map (fun a => nth (index_of a axs) idx 0%nat) (seq 0 (d + n))) |}.

Lemma transpose_ok : transpose axs x = Ret y0.
Proof.
  unfold transpose; rewrite Hx, axs_length, Nat.eqb_refl; cbn [assert_ bind].
  replace (forallb _ _) with true; [reflexivity|].
  symmetry; apply forallb_forall; intros a Ha; apply in_seq in Ha; apply existsb_exists; exists a; split; [apply axs_all; lia|apply Nat.eqb_refl].
Qed.

Definition y : array A := restride d (map z (seq 0 n)) y0.

Lemma shape_y : shape y = map (fun a => nth a (shape x) 0%nat) axs.
Proof. reflexivity. Qed.
Lemma shape_y_length : length (shape y) = (d + n)%nat.
Proof. rewrite shape_y, map_length; apply axs_length. Qed.
Lemma shape_nth : forall i, (i < d + n)%nat -> nth i (shape y) 0%nat = nth (nth i axs 0%nat) (shape x) 0%nat.
Proof.
  intros i H; rewrite shape_y. rewrite (nth_indep _ 0%nat (nth 0%nat (shape x) 0%nat)) by (rewrite map_length, axs_length; lia).
  rewrite (map_nth (fun a => nth a (shape x) 0%nat)); reflexivity.
Qed.

(** one coordinate of the reading order *)
Definition turn (k s i : nat) : nat := if (z k <? 0)%Z then (s - 1 - i)%nat else i.

Definition back (idx : list nat) : list nat :=
  map (fun a => nth (index_of a axs) (firstn d idx ++
    map (fun k => turn k (nth (d + k) (shape y) 0%nat) (nth (d + k) idx 0%nat)) (seq 0 n)) 0%nat) (seq 0 (d + n)).

Lemma entry_y : forall idx, entry y idx = entry x (back idx).
Proof.
  intros idx; unfold y, restride, back; cbn [entry y0]; f_equal. apply map_ext; intros a; f_equal; f_equal.
  rewrite map_length, seq_length; apply map_ext_in; intros k Hk; apply in_seq in Hk; unfold turn.
  rewrite (nth_indep _ 0%Z (z 0%nat)) by (rewrite map_length, seq_length; lia).
  rewrite (map_nth z), seq_nth by lia; reflexivity.
Qed.

(** How an index of [x] and an index of [y] correspond *)
Definition related (idx idx' : list nat) : Prop :=
  length idx = (d + n)%nat /\ length idx' = (d + n)%nat /\
  (forall a, (a < d)%nat -> nth a idx 0%nat = nth a idx' 0%nat) /\
  (forall k, (k < n)%nat -> nth (d + p k) idx 0%nat = turn k (nth (d + k) (shape y) 0%nat) (nth (d + k) idx' 0%nat)).

Lemma back_length : forall idx, length (back idx) = (d + n)%nat.
Proof. intros; unfold back; rewrite map_length, seq_length; reflexivity. Qed.

Lemma back_nth : forall idx i, length idx = (d + n)%nat -> (i < d + n)%nat ->
  nth (nth i axs 0%nat) (back idx) 0%nat =
    nth i (firstn d idx ++ map (fun k => turn k (nth (d + k) (shape y) 0%nat) (nth (d + k) idx 0%nat)) (seq 0 n)) 0%nat.
Proof.
  intros idx i L Hn; set (a := nth i axs 0%nat).
  assert (La : (a < d + n)%nat).
  { unfold a; destruct (Nat.lt_ge_cases i d) as [H|H]; [rewrite axs_low; lia|].
    replace i with (d + (i - d))%nat by lia; rewrite axs_high by lia; specialize (Hp (i - d)%nat ltac:(lia)); lia. }
  unfold back; set (f := fun a0 => nth (index_of a0 axs) _ 0%nat).
  rewrite (nth_indep _ 0%nat (f 0%nat)) by (rewrite map_length, seq_length; lia).
  rewrite (map_nth f), seq_nth by lia; unfold f; cbn [Nat.add]; unfold a; rewrite index_of_nth; [reflexivity|apply axs_nodup|rewrite axs_length; lia].
Qed.

Lemma back_related : forall idx, length idx = (d + n)%nat -> related (back idx) idx.
Proof.
  intros idx L; split; [apply back_length|split; [exact L|split]].
  - intros a Ha; pose proof (back_nth idx a L ltac:(lia)) as E; rewrite axs_low in E by lia; rewrite E.
    rewrite app_nth1 by (rewrite firstn_length; lia). clear - Ha L.
    rewrite <- (firstn_skipn d idx) at 2; rewrite app_nth1; [reflexivity|rewrite firstn_length; lia].
  - intros k Hk; pose proof (back_nth idx (d + k)%nat L ltac:(lia)) as E; rewrite axs_high in E by lia; rewrite E.
    rewrite app_nth2 by (rewrite firstn_length; lia); rewrite firstn_length.
    replace (d + k - Nat.min d (length idx))%nat with k by lia.
    set (f := fun k0 => turn k0 _ _).
    rewrite (nth_indep _ 0%nat (f 0%nat)) by (rewrite map_length, seq_length; lia).
    rewrite (map_nth f), seq_nth by lia; reflexivity.
Qed.

Lemma related_unique : forall i j idx', related i idx' -> related j idx' -> i = j.
Proof.
  intros i j idx' (L1 & _ & A1 & B1) (L2 & _ & A2 & B2); apply (nth_ext _ _ 0%nat 0%nat); [congruence|].
  intros a Ha; destruct (Nat.lt_ge_cases a d) as [H|H]; [rewrite A1, A2; auto|].
  destruct (p_onto (a - d)%nat) as (k & Lk & E); [lia|].
  replace a with (d + p k)%nat by lia; rewrite B1, B2; auto.
Qed.

Definition forth (idx : list nat) : list nat :=
  firstn d idx ++ map (fun k => turn k (nth (d + p k) (shape x) 0%nat) (nth (d + p k) idx 0%nat)) (seq 0 n).

Lemma forth_length : forall idx, length idx = (d + n)%nat -> length (forth idx) = (d + n)%nat.
Proof. intros idx L; unfold forth; rewrite app_length, firstn_length, map_length, seq_length; lia. Qed.

Lemma forth_low : forall idx a, length idx = (d + n)%nat -> (a < d)%nat -> nth a (forth idx) 0%nat = nth a idx 0%nat.
Proof.
  intros idx a L H; unfold forth; rewrite app_nth1 by (rewrite firstn_length; lia).
  rewrite <- (firstn_skipn d idx) at 2; rewrite app_nth1; [reflexivity|rewrite firstn_length; lia].
Qed.

Lemma forth_high : forall idx k, length idx = (d + n)%nat -> (k < n)%nat ->
  nth (d + k) (forth idx) 0%nat = turn k (nth (d + p k) (shape x) 0%nat) (nth (d + p k) idx 0%nat).
Proof.
  intros idx k L H; unfold forth; rewrite app_nth2 by (rewrite firstn_length; lia); rewrite firstn_length.
  replace (d + k - Nat.min d (length idx))%nat with k by lia.
  set (f := fun k0 => turn k0 _ _).
  rewrite (nth_indep _ 0%nat (f 0%nat)) by (rewrite map_length, seq_length; lia).
  rewrite (map_nth f), seq_nth by lia; reflexivity.
Qed.

Lemma turn_lt : forall k s i, (i < s)%nat -> (turn k s i < s)%nat.
Proof. intros k s i H; unfold turn; destruct (z k <? 0)%Z; lia. Qed.
Lemma turn_turn : forall k s i, (i < s)%nat -> turn k s (turn k s i) = i.
Proof. intros k s i H; unfold turn; destruct (z k <? 0)%Z; lia. Qed.

Lemma shape_high : forall k, (k < n)%nat -> nth (d + k) (shape y) 0%nat = nth (d + p k) (shape x) 0%nat.
Proof. intros k H; rewrite shape_nth, axs_high by lia; reflexivity. Qed.
Lemma shape_low : forall k, (k < d)%nat -> nth k (shape y) 0%nat = nth k (shape x) 0%nat.
Proof. intros k H; rewrite shape_nth, axs_low by lia; reflexivity. Qed.

Lemma forth_related : forall idx, valid (shape x) idx -> valid (shape y) (forth idx) /\ related idx (forth idx).
Proof.
  intros idx V; apply valid_nth in V as (L & V); rewrite Hx in *; split.
  - apply valid_nth; rewrite shape_y_length; split; [apply forth_length; exact L|].
    intros i Hn; destruct (Nat.lt_ge_cases i d) as [H|H].
    + rewrite forth_low, shape_low by lia; apply V; lia.
    + replace i with (d + (i - d))%nat by lia; rewrite forth_high, shape_high by lia.
      apply turn_lt, V; specialize (Hp (i - d)%nat ltac:(lia)); lia.
  - split; [exact L|split; [apply forth_length; exact L|split]].
    + intros a Ha; rewrite forth_low; auto.
    + intros k Hk; rewrite shape_high, forth_high, turn_turn; auto; apply V; specialize (Hp k Hk); lia.
Qed.

Lemma back_valid : forall idx, valid (shape y) idx -> valid (shape x) (back idx) /\ related (back idx) idx.
Proof.
  intros idx V; apply valid_nth in V as (L & V); rewrite shape_y_length in *.
  pose proof (back_related idx L) as R; split; [|exact R].
  destruct R as (_ & _ & R1 & R2); apply valid_nth; rewrite Hx; split; [apply back_length|].
  intros a Ha; destruct (Nat.lt_ge_cases a d) as [H|H].
  - rewrite R1, <- shape_low by lia; apply V; lia.
  - destruct (p_onto (a - d)%nat) as (k & Lk & E); [lia|]; replace a with (d + p k)%nat by lia.
    rewrite R2, <- shape_high by lia; apply turn_lt, V; lia.
Qed.

(** centred index along an axis *)
Definition cen (sh idx : list nat) (a : nat) : R := INR (nth a idx 0%nat) - (INR (nth a sh 0%nat) - 1) / 2.

Lemma related_cen : forall idx idx', valid (shape x) idx -> valid (shape y) idx' -> related idx idx' -> forall k, (k < n)%nat ->
  cen (shape y) idx' (d + k) = IZR (z k) * cen (shape x) idx (d + p k).
Proof.
  intros idx idx' V V' (_ & _ & _ & R) k Hk; unfold cen; rewrite R, shape_high by assumption.
  apply valid_nth in V' as (L' & V'); rewrite shape_y_length in *; specialize (V' (d + k)%nat ltac:(lia)); rewrite shape_high in V' by assumption.
  unfold turn; destruct (Hz k Hk) as [E|E]; rewrite E; cbn -[INR IZR].
  - lra.
  - rewrite !minus_INR by lia; cbn [INR]; lra.
Qed.

Lemma related_firstn : forall idx idx', related idx idx' -> firstn d idx' = firstn d idx.
Proof.
  intros idx idx' (L & L' & R & _); apply (nth_ext _ _ 0%nat 0%nat); [rewrite !firstn_length; lia|].
  intros a Ha; rewrite firstn_length in Ha; specialize (R a ltac:(lia)).
  rewrite <- (firstn_skipn d idx), <- (firstn_skipn d idx') in R; rewrite !app_nth1 in R by (rewrite firstn_length; lia); auto.
Qed.
End Exact.
