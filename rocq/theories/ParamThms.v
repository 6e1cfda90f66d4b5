(** The statements about parametrisations and equality in the vocabulary of
    [SpecParam] and [SpecPlanar]. *)
From Coq Require Import Reals ZArith Bool List Lia Lra.
From Verif Require Import LibRes LibTrig FinGroupModel ParamModel SpecParam ParamProofs
  PlanarModel SpecPlanar PlanarProofs.
Open Scope R_scope.

Lemma survives_round_cn : forall N p, survives_cn N p <->
  round_trips (cn_value N) (cn_change_param N) PInt p.
Proof.
  intros N p; split.
  - intros H v (r & -> & Hr); apply H; exact Hr.
  - intros H r Hr; apply H; exists r; auto.
Qed.

Lemma survives_round_dn : forall N p, survives_dn N p <->
  round_trips (dn_value N) (dn_change_param N) PInt p.
Proof.
  intros N p; split.
  - intros H v (f & r & -> & Hf & Hr); apply H; assumption.
  - intros H f r Hf Hr; apply H; exists f, r; auto.
Qed.

Lemma cn_round_trip : forall N p, (0 < N)%Z -> p = PInt \/ p = PRad ->
  round_trips (cn_value N) (cn_change_param N) PInt p.
Proof.
  intros N p HN [->| ->]; apply survives_round_cn; [apply cn_int_roundtrip|].
  intros r Hr; apply cn_radians_roundtrip; assumption.
Qed.

Lemma dn_round_trip : forall N p, (0 < N)%Z -> p = PInt \/ p = PRad ->
  round_trips (dn_value N) (dn_change_param N) PInt p.
Proof.
  intros N p HN [->| ->]; apply survives_round_dn; [apply dn_int_roundtrip|].
  intros f r Hf Hr; apply dn_radians_roundtrip; assumption.
Qed.

Lemma cn_matrix_iff : forall N, (0 < N)%Z ->
  (round_trips (cn_value N) (cn_change_param N) PInt PMat <-> (N <= 2)%Z).
Proof. intros N HN; rewrite <- survives_round_cn; apply cn_mat_iff; exact HN. Qed.

Lemma dn_matrix_iff : forall N, (0 < N)%Z ->
  (round_trips (dn_value N) (dn_change_param N) PInt PMat <-> (N <= 2)%Z).
Proof. intros N HN; rewrite <- survives_round_dn; apply dn_mat_iff; exact HN. Qed.

Lemma so2_round_trip : forall p, p = PRad \/ p = PMat ->
  round_trips so2_value so2_change_param PRad p.
Proof. intros p Hp v (t & -> & Ht); apply so2_roundtrip; assumption. Qed.

Lemma o2_round_trip : forall p, p = PRad \/ p = PMat ->
  round_trips o2_value o2_change_param PRad p.
Proof. intros p Hp v (f & t & -> & Hf & Ht); apply o2_roundtrip; assumption. Qed.

Lemma phash_fin_eq : forall G v w, pmember (Fin G) v -> pmember (Fin G) w ->
  pequal (Fin G) v w = Ret true ->
  exists k, phash_key (Fin G) v = Ret k /\ phash_key (Fin G) w = Ret k.
Proof.
  intros G v w Hv Hw E; destruct (pequal_fin G v w Hv Hw) as (b & E' & I).
  assert (b = true) by congruence; apply I in H; subst w.
  destruct (phash_fin G v Hv) as [k K]; eauto.
Qed.

Lemma equal_not_symmetric : forall G, G = SO2 \/ G = O2 ->
  exists a b, pmember G a /\ pmember G b /\
  pequal G a b = Ret true /\ pequal G b a = Ret false.
Proof. intros G [->| ->]; [apply so2_equal_not_symmetric|apply o2_equal_not_symmetric]. Qed.

Lemma hash_refuted : forall G, G = SO2 \/ G = O2 ->
  exists a b, pmember G a /\ pmember G b /\
  pequal G a b = Ret true /\ phash_key G a <> phash_key G b.
Proof. intros G [->| ->]; [apply so2_hash_refuted|apply o2_hash_refuted]. Qed.
