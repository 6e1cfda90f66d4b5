(** The grids of so3_utils.py one by one. *)
From Coq Require Import Reals ZArith Bool List Lia Lra.
From Verif Require Import LibRes LibMat LibTrig ParamModel SpaceModel SphereModel SpecSpace SpecSphere SpaceProofs
  SphereGrid.
Import ListNotations.
Open Scope R_scope.

(** ** HEALPix *)

Definition height (N i : Z) : R :=
  if (i <? N)%Z then 1 - IZR i ^ 2 / (3 * IZR N ^ 2) else 4 / 3 - 2 * IZR i / (3 * IZR N).
Definition hring (N i : Z) : list vec :=
  circle (height N i) (4 * Z.min i N) (if (i <? N)%Z then / 2 else 1 - IZR ((i - N + 1) mod 2) / 2).

Lemma flat_map_ext_in : forall A B (f g : A -> list B) l, (forall a, In a l -> f a = g a) -> flat_map f l = flat_map g l.
Proof.
  intros A B f g l; induction l as [|a l IH]; intros H; [reflexivity|].
  cbn; rewrite (H a (or_introl eq_refl)), IH; [reflexivity|]; intros b Hb; apply H; right; exact Hb.
Qed.

Lemma range_split : forall a b c, (a <= b <= c)%Z -> range a c = range a b ++ range b c.
Proof.
  intros a b c H; unfold range; replace (Z.to_nat (c - a)) with (Z.to_nat (b - a) + Z.to_nat (c - b))%nat by lia.
  rewrite seq_app, map_app; f_equal.
  replace (0 + Z.to_nat (b - a))%nat with (Z.to_nat (b - a) + 0)%nat by lia.
  generalize (Z.to_nat (c - b)) as n, 0%nat as k; intros n.
  induction n as [|n IH]; intros k; [reflexivity|].
  cbn [seq map]; f_equal; [lia|]; replace (S (Z.to_nat (b - a) + k)) with (Z.to_nat (b - a) + S k)%nat by lia; apply IH.
Qed.

Lemma north_eq : forall N, (0 < N)%Z -> north_cap N ++ north_belt N = flat_map (hring N) (range 1 (2 * N + 1)).
Proof.
  intros N P; rewrite (range_split 1 N (2 * N + 1)) by lia; rewrite flat_map_app; f_equal.
  - apply flat_map_ext_in; intros i Hi; apply in_range in Hi.
    unfold hring, height, circle; replace (i <? N)%Z with true by (symmetry; apply Z.ltb_lt; lia).
    rewrite Z.min_l by lia; rewrite range_shift, map_map; apply map_ext; intros j; f_equal.
    rewrite plus_IZR, mult_IZR; field; apply not_0_IZR; lia.
  - apply flat_map_ext_in; intros i Hi; apply in_range in Hi.
    unfold hring, height, circle; replace (i <? N)%Z with false by (symmetry; apply Z.ltb_ge; lia).
    rewrite Z.min_r by lia; rewrite range_shift, map_map; apply map_ext; intros j; f_equal.
    rewrite plus_IZR, mult_IZR; field; apply not_0_IZR; lia.
Qed.

Lemma height_decreases : forall N i j, (0 < N)%Z -> (0 < i < j)%Z -> height N j < height N i.
Proof.
  intros N i j P H; unfold height.
  assert (NP : 0 < IZR N) by (apply IZR_lt; lia).
  assert (I : 0 < IZR i) by (apply IZR_lt; lia).
  assert (IJ : IZR i < IZR j) by (apply IZR_lt; lia).
  assert (V : 0 < / IZR N) by (apply Rinv_0_lt_compat, NP).
  assert (X : forall k, IZR k ^ 2 / (3 * IZR N ^ 2) = (IZR k * / IZR N) * (IZR k * / IZR N) / 3) by (intros; field; lra).
  assert (Y : forall k, 2 * IZR k / (3 * IZR N) = 2 / 3 * (IZR k * / IZR N)) by (intros; field; lra).
  rewrite !X, !Y.
  assert (XI : 0 < IZR i * / IZR N) by (apply Rmult_lt_0_compat; assumption).
  assert (XJ : IZR i * / IZR N < IZR j * / IZR N) by (apply Rmult_lt_compat_r; assumption).
  assert (L : forall k, (k < N)%Z -> IZR k * / IZR N < 1).
  { intros k Hk; replace 1 with (IZR N * / IZR N) by (field; lra); apply Rmult_lt_compat_r; [exact V|apply IZR_lt, Hk]. }
  assert (G : forall k, (N <= k)%Z -> 1 <= IZR k * / IZR N).
  { intros k Hk; replace 1 with (IZR N * / IZR N) by (field; lra); apply Rmult_le_compat_r; [lra|apply IZR_le, Hk]. }
  destruct (Z.ltb_spec i N) as [Li|Li], (Z.ltb_spec j N) as [Lj|Lj]; try lia;
    try specialize (L _ Li); try specialize (G _ Li); try specialize (G _ Lj); try specialize (L _ Lj).
  - assert (0 < (IZR j * / IZR N - IZR i * / IZR N) * (IZR j * / IZR N + IZR i * / IZR N)) by (apply Rmult_lt_0_compat; lra).
    lra.
  - assert (0 < (1 - IZR i * / IZR N) * (1 + IZR i * / IZR N)) by (apply Rmult_lt_0_compat; lra); lra.
  - lra.
Qed.

Lemma height_top : forall N, (0 < N)%Z -> height N 1 < 1.
Proof.
  intros N P; unfold height; assert (NP : 0 < IZR N) by (apply IZR_lt; lia).
  assert (V : 0 < / IZR N) by (apply Rinv_0_lt_compat, NP).
  destruct (Z.ltb_spec 1 N) as [L|L].
  - assert (0 < 1 ^ 2 / (3 * IZR N ^ 2)); [|lra].
    apply Rmult_lt_0_compat; [lra|apply Rinv_0_lt_compat, Rmult_lt_0_compat; [lra|apply pow_lt, NP]].
  - assert (N = 1)%Z by lia; subst N; lra.
Qed.

Lemma height_bottom : forall N, (0 < N)%Z -> height N (2 * N) = 0.
Proof.
  intros N P; unfold height; destruct (Z.ltb_spec (2 * N) N) as [L|L]; [lia|].
  rewrite mult_IZR; field; apply not_0_IZR; lia.
Qed.

Lemma height_range : forall N i, (0 < N)%Z -> (1 <= i <= 2 * N)%Z ->
  0 <= height N i < 1 /\ (i <> (2 * N)%Z -> 0 < height N i).
Proof.
  intros N i P H; pose proof (height_top N P) as T; pose proof (height_bottom N P) as B.
  assert (U : height N i < 1).
  { destruct (Z.eq_dec i 1) as [->|X]; [exact T|]; pose proof (height_decreases N 1 i P ltac:(lia)); lra. }
  destruct (Z.eq_dec i (2 * N)) as [->|X].
  - split; [lra|intros Y; exfalso; apply Y; reflexivity].
  - pose proof (height_decreases N i (2 * N) P ltac:(lia)); split; [lra|intros _; lra].
Qed.

Lemma height_inj : forall N i j, (0 < N)%Z -> (0 < i)%Z -> (0 < j)%Z -> height N i = height N j -> i = j.
Proof.
  intros N i j P I J E; destruct (Z.lt_trichotomy i j) as [L|[L|L]]; [|exact L|]; exfalso.
  - pose proof (height_decreases N i j P ltac:(lia)); lra.
  - pose proof (height_decreases N j i P ltac:(lia)); lra.
Qed.

Lemma mirrored_across : forall p, mirrored p = across p.
Proof. intros p; unfold mirrored, across; f_equal; ring. Qed.

(** The points of the grid. *)
Definition hpoints (N : Z) : list vec :=
  map across (flat_map (hring N) (range 1 (2 * N))) ++ flat_map (hring N) (range 1 (2 * N + 1)).

Lemma south_eq : forall N, (0 < N)%Z ->
  filter (fun p => if Rlt_dec 0 (vz p) then true else false) (flat_map (hring N) (range 1 (2 * N + 1)))
  = flat_map (hring N) (range 1 (2 * N)).
Proof.
  intros N P; rewrite filter_flat_map, (range_snoc 1 (2 * N)) by lia; rewrite flat_map_app.
  change (flat_map (fun a => filter (fun p => if Rlt_dec 0 (vz p) then true else false) (hring N a)) [(2 * N)%Z])
    with (filter (fun p => if Rlt_dec 0 (vz p) then true else false) (hring N (2 * N)) ++ []).
  rewrite (filter_false _ _ (hring N (2 * N))), app_nil_r.
  - apply flat_map_ext_in; intros i Hi; apply in_range in Hi; apply filter_true; intros p Hp.
    apply ring_height in Hp; rewrite Hp.
    destruct (height_range N i P ltac:(lia)) as [_ H]; specialize (H ltac:(lia)).
    destruct (Rlt_dec 0 (height N i)); [reflexivity|lra].
  - intros p Hp; apply ring_height in Hp; rewrite Hp, height_bottom by exact P.
    destruct (Rlt_dec 0 0); [lra|reflexivity].
Qed.

Lemma cap_count : forall n, Z.of_nat (list_sum (map (fun i => Z.to_nat (4 * i)) (range 1 (Z.of_nat n + 1))))
  = (2 * Z.of_nat n * (Z.of_nat n + 1))%Z.
Proof.
  intros n; induction n as [|n IH]; [reflexivity|].
  replace (Z.of_nat (S n) + 1)%Z with (Z.of_nat n + 1 + 1)%Z by lia.
  rewrite range_snoc by lia; rewrite map_app, list_sum_app, Nat2Z.inj_add, IH; cbn [map list_sum fold_right]; lia.
Qed.

Lemma rings_count : forall N k, (0 < N)%Z ->
  Z.of_nat (length (flat_map (hring N) (range 1 (N + Z.of_nat k)))) = (2 * N * (N - 1) + 4 * N * Z.of_nat k)%Z.
Proof.
  intros N k P; rewrite flat_map_length_sum; induction k as [|k IH].
  - replace (N + Z.of_nat 0)%Z with (Z.of_nat (Z.to_nat (N - 1)) + 1)%Z by lia.
    rewrite (map_ext_in _ (fun i => Z.to_nat (4 * i))).
    + rewrite cap_count, Z2Nat.id by lia; ring.
    + intros i Hi; apply in_range in Hi; unfold hring; rewrite ring_length, Z.min_l by lia; reflexivity.
  - replace (N + Z.of_nat (S k))%Z with (N + Z.of_nat k + 1)%Z by lia.
    rewrite range_snoc by lia; rewrite map_app, list_sum_app, Nat2Z.inj_add, IH; cbn [map list_sum fold_right].
    unfold hring at 1; rewrite ring_length, Z.min_r by lia; lia.
Qed.

Lemma hpoints_count : forall N, (0 < N)%Z -> Z.of_nat (length (hpoints N)) = (12 * N ^ 2)%Z.
Proof.
  intros N P; unfold hpoints; rewrite app_length, map_length, Nat2Z.inj_add.
  replace (2 * N)%Z with (N + Z.of_nat (Z.to_nat N))%Z at 1 by lia.
  replace (2 * N + 1)%Z with (N + Z.of_nat (Z.to_nat (N + 1)))%Z at 1 by lia.
  rewrite !rings_count by exact P; rewrite !Z2Nat.id by lia; ring.
Qed.

Lemma healpix_eq : forall N, healpix N = if (0 <? N)%Z then Ret (hpoints N) else Raise.
Proof.
  intros N; unfold healpix; destruct (Z.ltb_spec 0 N) as [P|P].
  - rewrite (north_eq N P), (south_eq N P), (map_ext _ _ mirrored_across); fold (hpoints N).
    rewrite (hpoints_count N P), Z.eqb_refl; cbn [assert_ bind].
    unfold stack; destruct (hpoints N) as [|p l] eqn:E; [|reflexivity].
    pose proof (hpoints_count N P) as C; rewrite E in C; change (Z.of_nat (length (@nil vec))) with 0%Z in C; nia.
  - unfold north_cap, north_belt, range.
    replace (Z.to_nat (N - 1)) with 0%nat by lia; replace (Z.to_nat (4 * N + 1 - 1)) with 0%nat by lia; cbn [seq map flat_map app].
    replace (flat_map _ _) with (@nil vec); [cbn [filter map app length stack]|].
    + destruct (_ =? _)%Z; reflexivity.
    + symmetry; generalize (map (fun k : nat => (N + Z.of_nat k)%Z) (seq 0 (Z.to_nat (2 * N + 1 - N)))); intros l.
      induction l as [|a l IH]; [reflexivity|exact IH].
Qed.

Lemma hring_pos : forall N i, (0 < N)%Z -> (1 <= i)%Z -> (0 < 4 * Z.min i N)%Z.
Proof. intros; lia. Qed.

Lemma hpoints_in : forall N p, (0 < N)%Z -> In p (hpoints N) <->
  exists i, (1 <= i <= 2 * N)%Z /\ (In p (hring N i) \/ In (across p) (hring N i)).
Proof.
  intros N p P; unfold hpoints; rewrite in_app_iff, in_map_iff; split.
  - intros [(q & <- & H)|H]; apply in_flat_map in H as (i & Hi & H); apply in_range in Hi; exists i; split; try lia.
    + right; replace (across (across q)) with q; [exact H|].
      destruct q as [x y z]; unfold across; cbn; f_equal; ring.
    + left; exact H.
  - intros (i & Hi & [H|H]).
    + right; apply in_flat_map; exists i; split; [apply in_range; lia|exact H].
    + assert (A : across (across p) = p) by (destruct p as [x y z]; unfold across; cbn; f_equal; ring).
      destruct (Z.eq_dec i (2 * N)) as [->|X].
      * right; apply in_flat_map; exists (2 * N)%Z; split; [apply in_range; lia|].
        replace p with (across p); [exact H|].
        pose proof (ring_height _ _ _ _ H) as Z; rewrite height_bottom in Z by exact P.
        destruct p as [x y z]; unfold across in *; cbn [vx vy vz] in *; f_equal; lra.
      * left; exists (across p); split; [exact A|].
        apply in_flat_map; exists i; split; [apply in_range; lia|exact H].
Qed.

Lemma healpix_ok : forall N, (0 < N)%Z -> exists l, healpix N = Ret l /\
  Z.of_nat (length l) = (12 * N ^ 2)%Z /\ NoDup l /\ Forall on_sphere l /\
  closed_under (turned (PI / 2)) l /\ closed_under across l /\ closed_under opposite l.
Proof.
  intros N P; exists (hpoints N); rewrite healpix_eq; replace (0 <? N)%Z with true by (symmetry; apply Z.ltb_lt, P).
  split; [reflexivity|split; [apply hpoints_count, P|split; [|split; [|split; [|split]]]]].
  - assert (D : forall b, (b <= 2 * N + 1)%Z -> NoDup (flat_map (hring N) (range 1 b))).
    { intros b Hb; apply (NoDup_keyed _ _ _ _ vz (height N)).
      - apply range_NoDup.
      - intros i Hi; apply in_range in Hi; apply ring_NoDup; destruct (height_range N i P ltac:(lia)) as [H _]; lra.
      - intros i p _ Hp; exact (ring_height _ _ _ _ Hp).
      - intros i j Hi Hj; apply in_range in Hi, Hj; apply height_inj; lia. }
    apply NoDup_app; [|apply D; lia|].
    + apply FinFun.Injective_map_NoDup; [|apply D; lia].
      intros [x y z] [x' y' z'] E; unfold across in E; cbn [vx vy vz] in E; injection E as -> -> E; f_equal; lra.
    + intros p Hp Hp'; apply in_map_iff in Hp as (q & <- & Hq).
      apply in_flat_map in Hq as (i & Hi & Hq); apply in_flat_map in Hp' as (j & Hj & Hp').
      apply in_range in Hi, Hj; apply ring_height in Hq, Hp'; cbn [across vz] in Hp'; rewrite Hq in Hp'.
      destruct (height_range N i P ltac:(lia)) as [_ H1]; specialize (H1 ltac:(lia)).
      destruct (height_range N j P ltac:(lia)) as [H2 _]; lra.
  - apply Forall_forall; intros p Hp; apply (hpoints_in N p P) in Hp as (i & Hi & H).
    destruct (height_range N i P ltac:(lia)) as [B _].
    assert (S : Forall on_sphere (hring N i)) by (apply ring_sphere; lra); rewrite Forall_forall in S.
    destruct H as [H|H]; [exact (S _ H)|].
    specialize (S _ H); unfold on_sphere, across in *; cbn [vx vy vz] in S; lra.
  - assert (T : forall i p, (1 <= i <= 2 * N)%Z -> In p (hring N i) -> In (turned (PI / 2) p) (hring N i)).
    { intros i p Hi H.
      replace (PI / 2) with (2 * PI / IZR (4 * Z.min i N) * IZR (Z.min i N)).
      - apply ring_turned; [lia|exact H].
      - rewrite mult_IZR; field; apply not_0_IZR; lia. }
    intros p Hp; apply (hpoints_in N p P) in Hp as (i & Hi & H); apply (hpoints_in N _ P); exists i; split; [exact Hi|].
    destruct H as [H|H]; [left; apply T; assumption|right].
    replace (across (turned (PI / 2) p)) with (turned (PI / 2) (across p)) by reflexivity; apply T; assumption.
  - intros p Hp; apply (hpoints_in N p P) in Hp as (i & Hi & H); apply (hpoints_in N _ P); exists i; split; [exact Hi|].
    destruct H as [H|H]; [right|left; exact H].
    replace (across (across p)) with p; [exact H|].
    destruct p as [x y z]; unfold across; cbn; f_equal; ring.
  - assert (T : forall i p, (1 <= i <= 2 * N)%Z -> In p (hring N i) -> In (across (opposite p)) (hring N i)).
    { intros i p Hi H; unfold hring in *.
      replace (4 * Z.min i N)%Z with (2 * (2 * Z.min i N))%Z in * by lia.
      apply ring_opposite in H; [|lia]; apply ring_across in H; rewrite Ropp_involutive in H; exact H. }
    intros p Hp; apply (hpoints_in N p P) in Hp as (i & Hi & H); apply (hpoints_in N _ P); exists i; split; [exact Hi|].
    destruct H as [H|H]; [right; apply T; assumption|left].
    replace (opposite p) with (across (opposite (across p))); [apply T; assumption|].
    destruct p as [x y z]; unfold across, opposite; cbn; f_equal; ring.
Qed.
