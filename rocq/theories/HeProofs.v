(** Proofs about the generalized He initialization. *)
From Coq Require Import Reals List ZArith Bool Lia Lra.
From Verif Require Import LibRes HeModel SpecHe.
Import ListNotations.
Open Scope R_scope.

Lemma key_eqb_eq : forall a b, key_eqb a b = true <-> a = b.
Proof. intros a b; unfold key_eqb; destruct (key_dec a b); split; congruence. Qed.

Definition sumr {A} (f : A -> R) (l : list A) : R := fold_right (fun x s => f x + s) 0 l.

Lemma sums_filter : forall A (P : A -> Prop) (p : A -> bool) f l, (forall x, p x = true <-> P x) ->
  sums_to P f l (sumr f (filter p l)).
Proof.
  intros A P p f l H; induction l as [|x l IH]; [constructor|]; cbn.
  destruct (p x) eqn:E; cbn.
  - apply sums_in; [apply H; exact E|exact IH].
  - apply sums_out; [rewrite <- H; congruence|exact IH].
Qed.

Lemma sumr_ext : forall A (f g : A -> R) l, (forall x, In x l -> f x = g x) -> sumr f l = sumr g l.
Proof.
  intros A f g l; induction l as [|x l IH]; intros H; [reflexivity|]; cbn.
  rewrite (H x) by (left; reflexivity); fold (sumr f l) (sumr g l); rewrite IH; [reflexivity|].
  intros y Hy; apply H; right; exact Hy.
Qed.
Lemma sumr_const : forall A c (l : list A), sumr (fun _ => c) l = INR (length l) * c.
Proof.
  intros A c l; induction l as [|x l IH]; [cbn; lra|].
  cbn [length]; rewrite S_INR; cbn; fold (sumr (fun _ => c) l); rewrite IH; lra.
Qed.
Lemma sumr_map : forall A B (h : A -> B) f l, sumr f (map h l) = sumr (fun x => f (h x)) l.
Proof. intros A B h f l; induction l as [|x l IH]; [reflexivity|]; cbn; fold (sumr f (map h l)); rewrite IH; reflexivity. Qed.

Lemma sumr_single : forall (K : list key) a c, NoDup K -> In a K ->
  sumr (fun k => if key_dec a k then c else 0) K = c.
Proof.
  intros K a c N; induction N as [|k K Hk N IH]; intros I; [destruct I|]; cbn.
  fold (sumr (fun k => if key_dec a k then c else 0) K).
  destruct (key_dec a k) as [->|D].
  - rewrite (sumr_ext _ _ (fun _ => 0)); [rewrite sumr_const; lra|].
    intros x Hx; destruct (key_dec k x); [subst; contradiction|reflexivity].
  - destruct I as [->|I]; [congruence|]; rewrite IH by exact I; lra.
Qed.
Lemma sumr_plus : forall A (f g : A -> R) l, sumr (fun x => f x + g x) l = sumr f l + sumr g l.
Proof. intros A f g l; induction l as [|x l IH]; cbn; [lra|]; fold (sumr (fun x => f x + g x) l) (sumr f l) (sumr g l); lra. Qed.

(** A sum over a list, grouped by the values that occur in it. *)
Lemma sumr_group : forall (K l : list key) f, NoDup K -> incl l K ->
  sumr f l = sumr (fun k => INR (count_occ key_dec l k) * f k) K.
Proof.
  intros K l f N; induction l as [|a l IH]; intros I.
  - cbn; rewrite (sumr_ext _ _ (fun _ => 0)); [rewrite sumr_const; lra|intros; lra].
  - cbn [sumr fold_right]; fold (sumr f l); rewrite IH by (intros x Hx; apply I; right; exact Hx).
    rewrite (sumr_ext _ (fun k => INR (count_occ key_dec (a :: l) k) * f k)
      (fun k => (if key_dec a k then f a else 0) + INR (count_occ key_dec l k) * f k)).
    + rewrite sumr_plus, (sumr_single K a (f a) N) by (apply I; left; reflexivity); reflexivity.
    + intros k _; cbn [count_occ]; destruct (key_dec a k) as [->|D]; [rewrite S_INR|]; lra.
Qed.

Lemma basis_count_occ : forall info i o,
  basis_count info i o = count_occ key_dec (map b_in (filter (fun a => key_eqb (b_out a) o) info)) i.
Proof.
  intros info i o; unfold basis_count; induction info as [|a info IH]; [reflexivity|]; cbn.
  destruct (key_eqb (b_out a) o) eqn:E; rewrite ?andb_true_r, ?andb_false_r; [|exact IH].
  cbn; unfold key_eqb at 1; destruct (key_dec (b_in a) i); cbn; rewrite IH; reflexivity.
Qed.

Lemma counts_pos : forall info a, In a info ->
  (0 < inputs_count info (b_out a))%nat /\ (0 < basis_count info (b_in a) (b_out a))%nat.
Proof.
  intros info a I.
  assert (F : In a (filter (fun x => key_eqb (b_out x) (b_out a)) info)).
  { apply filter_In; split; [exact I|apply key_eqb_eq; reflexivity]. }
  split.
  - unfold inputs_count; set (m := map b_in _).
    assert (X : In (b_in a) (nodup key_dec m)) by (apply nodup_In, in_map, F).
    destruct (nodup key_dec m); [destruct X|cbn; lia].
  - rewrite basis_count_occ; apply count_occ_In, in_map, F.
Qed.

Lemma he_var_sq : forall info a, In a info -> (he_var info a)^2 =
  / (INR (inputs_count info (b_out a)) * INR (basis_count info (b_in a) (b_out a))).
Proof.
  intros info a I; destruct (counts_pos info a I) as [P Q]; apply lt_0_INR in P, Q.
  unfold he_var; rewrite mult_INR; set (x := INR _ * INR _).
  assert (X : 0 < x) by (apply Rmult_lt_0_compat; assumption).
  pose proof (sqrt_lt_R0 x X) as S; pose proof (sqrt_sqrt x (Rlt_le _ _ X)) as SS.
  replace ((1 / sqrt x) ^ 2) with (/ (sqrt x * sqrt x)) by (field; lra); rewrite SS; reflexivity.
Qed.

Theorem he_range : forall info a, In a info -> 0 < he_var info a <= 1.
Proof.
  intros info a I; destruct (counts_pos info a I) as [P Q].
  unfold he_var; set (n := (_ * _)%nat).
  assert (N : (1 <= n)%nat) by (unfold n; nia).
  apply le_INR in N; change (INR 1) with 1 in N.
  assert (S : 1 <= sqrt (INR n)) by (rewrite <- sqrt_1; apply sqrt_le_1_alt; exact N).
  split; [apply Rdiv_lt_0_compat; lra|].
  apply (Rmult_le_reg_r (sqrt (INR n))); [lra|]; unfold Rdiv; rewrite Rmult_assoc, Rinv_l by lra; lra.
Qed.

(** The variances of the weights into an output position add up to one. *)
Theorem he_total : forall info a, In a info ->
  sums_to (fun x => b_out x = b_out a) (fun x => (he_var info x)^2) info 1.
Proof.
  intros info a I; set (o := b_out a).
  pose proof (counts_pos info a I) as [P _]; apply lt_0_INR in P; fold o in P.
  assert (E : sumr (fun x => he_var info x ^ 2) (filter (fun x => key_eqb (b_out x) o) info) = 1).
  { set (L := filter _ info).
    rewrite (sumr_ext _ _ (fun x => (fun k => / (INR (inputs_count info o) * INR (basis_count info k o))) (b_in x))).
    2:{ intros x Hx; apply filter_In in Hx as [Hx Ho]; apply key_eqb_eq in Ho.
        rewrite he_var_sq by exact Hx; rewrite Ho; reflexivity. }
    rewrite <- (sumr_map _ _ b_in (fun k => / (INR (inputs_count info o) * INR (basis_count info k o)))).
    rewrite (sumr_group (nodup key_dec (map b_in L)) (map b_in L)); [|apply NoDup_nodup|intros x Hx; apply nodup_In; exact Hx].
    rewrite (sumr_ext _ _ (fun _ => / INR (inputs_count info o))).
    - rewrite sumr_const; change (length (nodup key_dec (map b_in L))) with (inputs_count info o).
      apply Rinv_r; lra.
    - intros k Hk; rewrite basis_count_occ; fold L; apply nodup_In, (count_occ_In key_dec) in Hk.
      apply lt_0_INR in Hk; field; lra. }
  rewrite <- E; apply sums_filter; intros x; apply key_eqb_eq.
Qed.

(** Every input irrep has the same share. *)
Theorem he_share : forall info a, In a info ->
  sums_to (fun x => b_in x = b_in a /\ b_out x = b_out a) (fun x => (he_var info x)^2) info
    (/ INR (inputs_count info (b_out a))).
Proof.
  intros info a I; pose proof (counts_pos info a I) as [P Q]; apply lt_0_INR in P, Q.
  assert (E : sumr (fun x => he_var info x ^ 2) (filter (fun x => key_eqb (b_in x) (b_in a) && key_eqb (b_out x) (b_out a)) info)
              = / INR (inputs_count info (b_out a))).
  { rewrite (sumr_ext _ _ (fun _ => / (INR (inputs_count info (b_out a)) * INR (basis_count info (b_in a) (b_out a))))).
    - rewrite sumr_const; fold (basis_count info (b_in a) (b_out a)); field; lra.
    - intros x Hx; apply filter_In in Hx as [Hx E]; apply andb_true_iff in E as [E1 E2].
      apply key_eqb_eq in E1, E2; rewrite he_var_sq, E1, E2 by exact Hx; reflexivity. }
  rewrite <- E; apply sums_filter; intros x; rewrite andb_true_iff, !key_eqb_eq; reflexivity.
Qed.

Theorem he_share_spec : forall info a K, In a info -> NoDup K ->
  (forall k, In k K <-> exists x, In x info /\ b_in x = k /\ b_out x = b_out a) ->
  sums_to (fun x => b_in x = b_in a /\ b_out x = b_out a) (fun x => (he_var info x)^2) info (/ INR (length K)).
Proof.
  intros info a K I N HK.
  assert (E : length K = inputs_count info (b_out a)).
  { unfold inputs_count; set (m := nodup _ _).
    assert (X : forall k, In k K <-> In k m).
    { intros k; rewrite HK; unfold m; rewrite nodup_In, in_map_iff; split.
      - intros (x & Hx & Hi & Ho); exists x; rewrite filter_In, key_eqb_eq; auto.
      - intros (x & Hi & Hx); rewrite filter_In, key_eqb_eq in Hx; exists x; tauto. }
    apply Nat.le_antisymm; apply NoDup_incl_length; try (intros k; apply X); [exact N|apply NoDup_nodup]. }
  rewrite E; apply he_share; exact I.
Qed.

(** With or without the memory the weights are the same, and the memory stays right. *)
Theorem he_cached : forall infos mem bm tensor noise cache, cache_ok infos mem ->
  length tensor = fst (infos bm) -> length (snd (infos bm)) = fst (infos bm) ->
  exists mem', he_init cache mem bm (fst (infos bm)) (snd (infos bm)) tensor noise =
      Ret (map (fun p => fst p * snd p) (combine (map (he_var (snd (infos bm))) (snd (infos bm))) noise), mem') /\
    cache_ok infos mem'.
Proof.
  intros infos mem bm tensor noise cache C Lt Li; unfold he_init.
  assert (V : he_vars (fst (infos bm)) (snd (infos bm)) = Ret (map (he_var (snd (infos bm))) (snd (infos bm)))).
  { unfold he_vars; rewrite Li, Nat.leb_refl, Nat.sub_diag; cbn; rewrite app_nil_r; reflexivity. }
  rewrite Lt, Nat.eqb_refl; cbn [assert_]; destruct cache.
  - destruct (find _ mem) as [[b v]|] eqn:F.
    + apply find_some in F as [I E]; cbn in E; apply Z.eqb_eq in E; subst b.
      pose proof (C bm v I) as X; rewrite V in X; apply Ret_inj in X; subst v.
      eexists; split; [reflexivity|exact C].
    + rewrite V; cbn [bind]; eexists; split; [reflexivity|].
      intros b v [E|I]; [injection E as <- <-; exact V|apply C; exact I].
  - rewrite V; cbn [bind]; eexists; split; [reflexivity|exact C].
Qed.
