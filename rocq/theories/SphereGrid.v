(** The points of the grids: how many, on the sphere, different from each other,
    and which symmetries map them to each other. *)
From Coq Require Import Reals ZArith Bool List Lia Lra.
From Verif Require Import LibRes LibMat LibTrig SpaceModel SphereModel SpecSpace SpecSphere SpaceProofs.
Import ListNotations.
Open Scope R_scope.

(** ** Ranges and lists *)

Lemma in_range : forall a b x, In x (range a b) <-> (a <= x < b)%Z.
Proof.
  intros a b x; unfold range; rewrite in_map_iff; split.
  - intros (k & <- & H); apply in_seq in H; lia.
  - intros H; exists (Z.to_nat (x - a)); split; [lia|apply in_seq; lia].
Qed.

Lemma range_length : forall a b, length (range a b) = Z.to_nat (b - a).
Proof. intros; unfold range; rewrite map_length, seq_length; reflexivity. Qed.

Lemma range_NoDup : forall a b, NoDup (range a b).
Proof.
  intros a b; unfold range; apply FinFun.Injective_map_NoDup; [intros x y; lia|apply seq_NoDup].
Qed.

Lemma range_snoc : forall a b, (a <= b)%Z -> range a (b + 1) = range a b ++ [b].
Proof.
  intros a b H; unfold range; replace (Z.to_nat (b + 1 - a)) with (Z.to_nat (b - a) + 1)%nat by lia.
  rewrite seq_app, map_app; cbn; f_equal; f_equal; lia.
Qed.

Lemma range_shift : forall K, range 1 (K + 1) = map (fun j => (j + 1)%Z) (range 0 K).
Proof.
  intros K; unfold range; rewrite map_map; replace (K + 1 - 1)%Z with (K - 0)%Z by lia.
  apply map_ext; intros; lia.
Qed.

Lemma flat_map_length_sum : forall A B (f : A -> list B) l,
  length (flat_map f l) = list_sum (map (fun a => length (f a)) l).
Proof. intros A B f l; induction l as [|a l IH]; [reflexivity|cbn; rewrite app_length, IH; reflexivity]. Qed.

Lemma filter_flat_map : forall A B (f : A -> list B) p l,
  filter p (flat_map f l) = flat_map (fun a => filter p (f a)) l.
Proof. intros A B f p l; induction l as [|a l IH]; [reflexivity|cbn; rewrite filter_app, IH; reflexivity]. Qed.

Lemma filter_true : forall A (p : A -> bool) l, (forall a, In a l -> p a = true) -> filter p l = l.
Proof.
  intros A p l; induction l as [|a l IH]; intros H; [reflexivity|].
  cbn; rewrite (H a (or_introl eq_refl)), IH; [reflexivity|]; intros b Hb; apply H; right; exact Hb.
Qed.

Lemma filter_false : forall A (p : A -> bool) l, (forall a, In a l -> p a = false) -> filter p l = [].
Proof.
  intros A p l; induction l as [|a l IH]; intros H; [reflexivity|].
  cbn; rewrite (H a (or_introl eq_refl)); apply IH; intros b Hb; apply H; right; exact Hb.
Qed.

Lemma NoDup_app : forall A (l l' : list A), NoDup l -> NoDup l' -> (forall a, In a l -> ~ In a l') -> NoDup (l ++ l').
Proof.
  intros A l l' N N' D; induction N as [|a l H N IH]; [exact N'|].
  cbn; constructor.
  - rewrite in_app_iff; intros [X|X]; [exact (H X)|exact (D a (or_introl eq_refl) X)].
  - apply IH; intros b Hb; apply D; right; exact Hb.
Qed.

(** Lists told apart by a key. *)
Lemma NoDup_keyed : forall A B K (f : A -> list B) (key : B -> K) (k : A -> K) l,
  NoDup l -> (forall a, In a l -> NoDup (f a)) -> (forall a b, In a l -> In b (f a) -> key b = k a) ->
  (forall a a', In a l -> In a' l -> k a = k a' -> a = a') -> NoDup (flat_map f l).
Proof.
  intros A B K f key k l N; induction N as [|a l H N IH]; intros F Ky Inj; [constructor|].
  cbn; apply NoDup_app.
  - apply F; left; reflexivity.
  - apply IH.
    + intros b Hb; apply F; right; exact Hb.
    + intros b c Hb Hc; apply Ky; [right; exact Hb|exact Hc].
    + intros b c Hb Hc; apply Inj; right; assumption.
  - intros b Hb Hb'; apply in_flat_map in Hb' as (a' & Ha' & Hb').
    assert (a = a'); [|subst; exact (H Ha')].
    apply Inj; [left; reflexivity|right; exact Ha'|].
    rewrite <- (Ky a b (or_introl eq_refl) Hb); apply Ky; [right; exact Ha'|exact Hb'].
Qed.

(** ** Rings *)

Lemma at_sphere : forall c t, -1 <= c <= 1 -> on_sphere (at_angles c t).
Proof.
  intros c t H; unfold on_sphere, at_angles; cbn [vx vy vz].
  assert (S : sqrt (1 - c ^ 2) * sqrt (1 - c ^ 2) = 1 - c ^ 2).
  { apply sqrt_sqrt; assert (0 <= (1 - c) * (1 + c)) by (apply Rmult_le_pos; lra); lra. }
  pose proof (sin2cos2 t); set (r := sqrt (1 - c ^ 2)) in *.
  transitivity ((sin t * sin t + cos t * cos t) * (r * r) + c ^ 2); [ring|rewrite H0, S; ring].
Qed.

Lemma at_turned : forall c t s, turned s (at_angles c t) = at_angles c (t + s).
Proof.
  intros c t s; unfold turned, at_angles; cbn [vx vy vz]; rewrite cos_plus, sin_plus; f_equal; ring.
Qed.

Lemma at_across : forall c t, across (at_angles c t) = at_angles (- c) t.
Proof. intros c t; unfold across, at_angles; cbn [vx vy vz]; replace ((- c) ^ 2) with (c ^ 2) by ring; reflexivity. Qed.

Lemma at_opposite : forall c t, opposite (at_angles c t) = at_angles (- c) (t + PI).
Proof.
  intros c t; unfold opposite, at_angles; cbn [vx vy vz]; replace ((- c) ^ 2) with (c ^ 2) by ring.
  rewrite neg_cos, neg_sin; f_equal; ring.
Qed.

Lemma at_period : forall c t n, at_angles c (t + 2 * PI * IZR n) = at_angles c t.
Proof. intros c t n; unfold at_angles; rewrite cos_2PI_Z, sin_2PI_Z; reflexivity. Qed.

Lemma at_inj : forall c t s, -1 < c < 1 -> at_angles c t = at_angles c s -> exists n, t = s + 2 * PI * IZR n.
Proof.
  intros c t s H E; unfold at_angles in E; injection E as E1 E2.
  assert (P : 0 < sqrt (1 - c ^ 2)).
  { apply sqrt_lt_R0; assert (0 < (1 - c) * (1 + c)) by (apply Rmult_lt_0_compat; lra); lra. }
  apply angle_unique; apply (Rmult_eq_reg_r (sqrt (1 - c ^ 2))); try assumption; lra.
Qed.

(** K points at the height [c], at equal distances. *)
Definition circle (c : R) (K : Z) (off : R) : list vec :=
  map (fun j => at_angles c (2 * PI / IZR K * (IZR j + off))) (range 0 K).

Lemma ring_length : forall c K off, length (circle c K off) = Z.to_nat K.
Proof. intros; unfold circle; rewrite map_length, range_length; f_equal; lia. Qed.

Lemma ring_height : forall c K off p, In p (circle c K off) -> vz p = c.
Proof. intros c K off p H; apply in_map_iff in H as (j & <- & _); reflexivity. Qed.

Lemma ring_sphere : forall c K off, -1 <= c <= 1 -> Forall on_sphere (circle c K off).
Proof. intros c K off H; apply Forall_map, Forall_forall; intros j _; apply at_sphere, H. Qed.

Lemma ring_at : forall c K off j, (0 < K)%Z -> In (at_angles c (2 * PI / IZR K * (IZR j + off))) (circle c K off).
Proof.
  intros c K off j P; apply in_map_iff; exists (j mod K)%Z; split; [|apply in_range, Z.mod_pos_bound; lia].
  rewrite <- (at_period c _ (j / K)); f_equal.
  assert (E : IZR j = IZR K * IZR (j / K) + IZR (j mod K)).
  { rewrite <- mult_IZR, <- plus_IZR; f_equal; apply Z_div_mod_eq_full. }
  rewrite E; field; apply not_0_IZR; lia.
Qed.

Lemma ring_turned : forall c K off m p, (0 < K)%Z -> In p (circle c K off) ->
  In (turned (2 * PI / IZR K * IZR m) p) (circle c K off).
Proof.
  intros c K off m p P H; apply in_map_iff in H as (j & <- & _); rewrite at_turned.
  replace (2 * PI / IZR K * (IZR j + off) + 2 * PI / IZR K * IZR m)
    with (2 * PI / IZR K * (IZR (j + m) + off)) by (rewrite plus_IZR; field; apply not_0_IZR; lia).
  apply ring_at, P.
Qed.

Lemma ring_across : forall c K off p, In p (circle c K off) -> In (across p) (circle (- c) K off).
Proof.
  intros c K off p H; apply in_map_iff in H as (j & <- & Hj); rewrite at_across.
  apply in_map_iff; exists j; split; [reflexivity|exact Hj].
Qed.

Lemma ring_opposite : forall c k off p, (0 < k)%Z -> In p (circle c (2 * k) off) -> In (opposite p) (circle (- c) (2 * k) off).
Proof.
  intros c k off p P H; apply in_map_iff in H as (j & <- & Hj); rewrite at_opposite.
  replace (2 * PI / IZR (2 * k) * (IZR j + off) + PI)
    with (2 * PI / IZR (2 * k) * (IZR (j + k) + off)).
  - apply ring_at; lia.
  - rewrite plus_IZR, mult_IZR; field; apply not_0_IZR; lia.
Qed.

Lemma ring_NoDup : forall c K off, -1 < c < 1 -> NoDup (circle c K off).
Proof.
  intros c K off H; unfold circle.
  assert (G : forall l, NoDup l -> (forall j, In j l -> (0 <= j < K)%Z) ->
     NoDup (map (fun j => at_angles c (2 * PI / IZR K * (IZR j + off))) l)).
  { intros l N; induction N as [|j l Hj N IH]; intros B; [constructor|].
    cbn; constructor; [|apply IH; intros; apply B; right; assumption].
    intros X; apply in_map_iff in X as (i & E & Hi).
    pose proof (B i (or_intror Hi)) as Bi; pose proof (B j (or_introl eq_refl)) as Bj.
    apply at_inj in E as (n & E); [|exact H].
    assert (Q : i = (j + K * n)%Z).
    { apply eq_IZR; rewrite plus_IZR, mult_IZR.
      assert (K0 : IZR K <> 0) by (apply not_0_IZR; lia); pose proof PI_RGT_0 as P.
      apply (Rmult_eq_reg_l (2 * PI / IZR K)).
      - transitivity (2 * PI / IZR K * (IZR i + off) - 2 * PI / IZR K * off); [ring|rewrite E; field; exact K0].
      - apply Rmult_integral_contrapositive; split; [lra|apply Rinv_neq_0_compat, K0]. }
    assert (n = 0%Z) by (destruct (Z.lt_trichotomy n 0) as [L|[L|L]]; [|exact L|]; exfalso; nia).
    subst n; rewrite Z.mul_0_r, Z.add_0_r in Q; subst; exact (Hj Hi). }
  apply G; [apply range_NoDup|]; intros j Hj; apply in_range; exact Hj.
Qed.
