(** The mask of MaskModule. *)
From Coq Require Import Reals ZArith Bool List Lia Lra.
From Verif Require Import LibRes LibMat GridModel SpecGrid GridProofs GridThms ImageModel SpecImage ImageProofs.
Import ListNotations.
Open Scope R_scope.

Definition radius2 (s : nat) (margin : R) : R := ((INR s - 1) / 2 * (1 - margin / 100)) ^ 2.

Lemma mask_value_eq : forall s margin sigma k, mask_value s margin sigma k =
  if Rlt_dec (radius2 s margin) (dist2 s k) then if Req_EM_T (sigma ^ 2) 0 then Raise else Ret (exp ((radius2 s margin - dist2 s k) / sigma ^ 2)) else Ret 1.
Proof.
  intros s margin sigma k; unfold mask_value.
  replace (((INR s - 1) / 2 - margin / 100 * ((INR s - 1) / 2)) ^ 2) with (radius2 s margin) by (unfold radius2; f_equal; field).
  replace (rsum _) with (dist2 s k); [reflexivity|]. symmetry; apply rsum_nth.
Qed.

Lemma mask_loop_ok : forall s margin sigma ks m m', mask_loop s margin sigma ks m = Ret m' ->
  forall idx, (In (skipn 2 idx) ks -> mask_value s margin sigma (skipn 2 idx) = Ret (m' idx)) /\ (~ In (skipn 2 idx) ks -> m' idx = m idx).
Proof.
  intros s margin sigma ks; induction ks as [|k ks IH]; intros m m' H idx; cbn [mask_loop] in H.
  - apply Ret_inj in H; subst; split; [intros []|reflexivity].
  - apply bind_Ret in H as (v & Ev & H); destruct (IH _ _ H idx) as (H1 & H2); cbv beta in H2.
    destruct (in_dec (list_eq_dec Nat.eq_dec) (skipn 2 idx) ks) as [I|I]; [split; [auto|intros N; exfalso; apply N; right; exact I]|].
    rewrite (H2 I); destruct (shape_eqb (skipn 2 idx) k) eqn:E.
    + apply shape_eqb_spec in E; split; [intros _; rewrite E; exact Ev|intros N; exfalso; apply N; left; auto].
    + split; [|reflexivity]. intros [F|F]; [|contradiction]. rewrite <- F, shape_eqb_refl in E; discriminate.
Qed.

Lemma mask_loop_total : forall s margin sigma ks m, (forall k, In k ks -> mask_value s margin sigma k <> Raise) ->
  exists m', mask_loop s margin sigma ks m = Ret m'.
Proof.
  intros s margin sigma ks; induction ks as [|k ks IH]; intros m H; cbn [mask_loop]; [eauto|].
  destruct (mask_value s margin sigma k) eqn:E; [exfalso; apply (H k); [left; reflexivity|exact E]|]; cbn [bind].
  apply IH; intros; apply H; right; assumption.
Qed.

Lemma mask_loop_needs : forall s margin sigma ks m m' k, mask_loop s margin sigma ks m = Ret m' -> In k ks -> mask_value s margin sigma k <> Raise.
Proof.
  intros s margin sigma ks; induction ks as [|k0 ks IH]; intros m m' k H I; cbn [mask_loop] in H; [destruct I|].
  apply bind_Ret in H as (v & Ev & H); destruct I as [<-|I]; [rewrite Ev; discriminate|eapply IH; eauto].
Qed.

Lemma mask_built : forall s n margin sigma, (exists mask, build_mask s n margin sigma = Ret mask) <->
  sigma <> 0 \/ forall k, valid (repeat s n) k -> dist2 s k <= ((INR s - 1) / 2 * (1 - margin / 100)) ^ 2.
Proof.
  intros s n margin sigma; fold (radius2 s margin); split.
  - intros (mask & H); unfold build_mask in H; apply bind_Ret in H as (m & H & _).
    destruct (Req_dec sigma 0) as [->|]; [right|left; assumption].
    intros k V; apply all_indices_In in V; pose proof (mask_loop_needs _ _ _ _ _ _ _ H V) as N; rewrite mask_value_eq in N.
    destruct (Rlt_dec (radius2 s margin) (dist2 s k)) as [L|L]; [|lra].
    destruct (Req_EM_T (0 ^ 2) 0) as [E|E]; [congruence|exfalso; apply E; ring].
  - intros H; unfold build_mask.
    destruct (mask_loop_total s margin sigma (all_indices (repeat s n)) (fun _ => 0)) as (m & ->); [|cbn [bind]; eauto].
    intros k I; apply all_indices_In in I; rewrite mask_value_eq.
    destruct (Rlt_dec (radius2 s margin) (dist2 s k)) as [L|L]; [|discriminate].
    destruct H as [H|H]; [|specialize (H k I); lra].
    destruct (Req_EM_T (sigma ^ 2) 0) as [E|E]; [exfalso; apply H|discriminate].
    apply (pow_nonzero sigma 2) in H; congruence.
Qed.

Lemma mask_entry : forall s n margin sigma mask, build_mask s n margin sigma = Ret mask ->
  shape mask = 1%nat :: 1%nat :: repeat s n /\
  forall a b k, valid (repeat s n) k -> mask_value s margin sigma k = Ret (entry mask (a :: b :: k)).
Proof.
  intros s n margin sigma mask H; unfold build_mask in H; apply bind_Ret in H as (m & H & E); apply Ret_inj in E; subst mask; cbn [shape entry].
  split; [reflexivity|]; intros a b k V; destruct (mask_loop_ok _ _ _ _ _ _ H (a :: b :: k)) as (G & _); cbn [skipn] in G.
  apply G, all_indices_In, V.
Qed.

(** The values: 1 up to the radius, then decreasing to 0 with the distance. *)
Lemma mask_values : forall s n margin sigma mask, build_mask s n margin sigma = Ret mask ->
  (forall k, valid (repeat s n) k -> 0 < entry mask (0%nat :: 0%nat :: k) <= 1 /\
     (entry mask (0%nat :: 0%nat :: k) = 1 <-> dist2 s k <= ((INR s - 1) / 2 * (1 - margin / 100)) ^ 2)) /\
  (forall k k', valid (repeat s n) k -> valid (repeat s n) k' ->
     ((INR s - 1) / 2 * (1 - margin / 100)) ^ 2 <= dist2 s k ->
     entry mask (0%nat :: 0%nat :: k') = entry mask (0%nat :: 0%nat :: k) * exp ((dist2 s k - dist2 s k') / sigma ^ 2) \/ dist2 s k' < dist2 s k).
Proof.
  intros s n margin sigma mask H; fold (radius2 s margin). destruct (mask_entry _ _ _ _ _ H) as (_ & G).
  assert (V : forall k, valid (repeat s n) k -> (dist2 s k <= radius2 s margin /\ entry mask (0%nat :: 0%nat :: k) = 1) \/
    (radius2 s margin < dist2 s k /\ sigma ^ 2 <> 0 /\ entry mask (0%nat :: 0%nat :: k) = exp ((radius2 s margin - dist2 s k) / sigma ^ 2))).
  { intros k Vk; specialize (G 0%nat 0%nat k Vk); rewrite mask_value_eq in G; destruct (Rlt_dec _ _) as [L|L].
    - destruct (Req_EM_T (sigma ^ 2) 0) as [E|E]; [discriminate|]; apply Ret_inj in G; right; auto.
    - apply Ret_inj in G; left; split; [lra|auto]. }
  assert (P : sigma ^ 2 <> 0 -> 0 < sigma ^ 2) by (intros N; pose proof (pow2_ge_0 sigma); lra).
  split.
  - intros k Vk; destruct (V k Vk) as [(L & ->)|(L & N & ->)]; [repeat split; try lra; auto|].
    assert (E : exp ((radius2 s margin - dist2 s k) / sigma ^ 2) < 1).
    { rewrite <- exp_0; apply exp_increasing; apply P in N. unfold Rdiv; apply Rmult_lt_reg_r with (sigma ^ 2); [exact N|]. rewrite Rmult_assoc, Rinv_l; lra. }
    split; [split; [apply exp_pos|lra]|]; split; intros; lra.
  - intros k k' Vk Vk' Hr. destruct (Rlt_dec (dist2 s k') (dist2 s k)) as [|L]; [right; assumption|left].
    destruct (V k Vk) as [(L1 & ->)|(L1 & N1 & ->)], (V k' Vk') as [(L2 & ->)|(L2 & N2 & ->)]; try lra.
    + replace (dist2 s k - dist2 s k') with 0 by lra; unfold Rdiv; rewrite Rmult_0_l, exp_0; ring.
    + rewrite Rmult_1_l; f_equal; f_equal; lra.
    + rewrite <- exp_plus; f_equal; field; intros Z0; apply N1; rewrite Z0; ring.
Qed.

Lemma nth_repeat_lt : forall (s d n k : nat), (k < n)%nat -> nth k (repeat s n) d = s.
Proof. intros s d n; induction n as [|n IH]; intros [|k] H; try lia; cbn; [reflexivity|apply IH; lia]. Qed.

Lemma repeat_pshape : forall n p s, permutes n p -> pshape n p (repeat s n) = repeat s n.
Proof.
  intros n p s (Hp & _); apply (nth_ext _ _ 0%nat 0%nat); [rewrite pshape_length, repeat_length; reflexivity|].
  intros k Hk; rewrite pshape_length in Hk; rewrite pshape_nth by exact Hk.
  rewrite !nth_repeat_lt by (try apply Hp; exact Hk); reflexivity.
Qed.

Lemma dist2_act : forall n p b s k, permutes n p -> valid (repeat s n) k -> dist2 s (act n p b (repeat s n) k) = dist2 s k.
Proof.
  intros n p b s k P V; unfold dist2; rewrite act_length. apply valid_nth in V as (L & V); rewrite repeat_length in *; rewrite L.
  rewrite <- (sumn_bij n p (fun a => (INR (nth a k 0%nat) - (INR s - 1) / 2) ^ 2)) by apply P.
  apply sumn_ext; intros a Ha; rewrite act_nth by exact Ha. pose proof (proj1 P a Ha) as Hpa.
  specialize (V (p a) Hpa); rewrite nth_repeat_lt in V by exact Hpa.
  destruct (b a); [|reflexivity]. rewrite nth_repeat_lt by exact Hpa. rewrite !minus_INR by lia; cbn [INR]; field.
Qed.

Lemma mask_invariant : forall s n margin sigma mask M, build_mask s n margin sigma = Ret mask -> signed_perm n M -> moved 2 n M mask mask.
Proof.
  intros s n margin sigma mask M H HM; destruct (mask_entry _ _ _ _ _ H) as (Es & G).
  destruct (signed_perm_does n M HM) as (p & b & D). pose proof (proj1 D) as P.
  apply (moved_iff R mask mask 2 n M p b [1%nat; 1%nat] (repeat s n) D); [exact Es|reflexivity|apply repeat_length|].
  split; [rewrite repeat_pshape by exact P; exact Es|].
  intros l i Vl Vi. apply valid_nth in Vl as (Ll & _). destruct l as [|a [|c [|? ?]]]; try discriminate; cbn [app].
  assert (V' : valid (repeat s n) (act n p b (repeat s n) i)).
  { rewrite <- (repeat_pshape n p s P) at 1; apply act_valid; [exact P|apply repeat_length|exact Vi]. }
  pose proof (G a c i Vi) as E1; pose proof (G a c _ V') as E2; rewrite mask_value_eq in E1, E2; rewrite dist2_act in E2 by assumption.
  rewrite E1 in E2; apply Ret_inj in E2; auto.
Qed.

(** ** Transforming a tensor *)
Lemma transform_ok : forall half, half 0 = 0 -> half 1 = 1 -> half (-1) = -1 -> forall affine c rho n M x B sp, signed_perm n M -> shape x = B :: c :: sp -> length sp = n ->
  exists x1 y, transform_fibers c rho x = Ret x1 /\ transform half affine c rho n M x = Ret y /\ shape x1 = shape x /\
    (forall b o i, entry x1 (b :: o :: i) = sumn c (fun j => rho o j * entry x (b :: j :: i))) /\ moved 2 n M x1 y.
Proof.
  intros half H0 H1 Hm affine c rho n M x B sp HM Ex Ln.
  unfold transform, transform_fibers; rewrite Ex; cbn [length Nat.leb nth]; rewrite Nat.eqb_refl; cbn [assert_ bind].
  set (x1 := {| shape := B :: c :: sp; entry := _ |}).
  destruct (moves half H0 H1 Hm R affine x1 n M HM) as (y & Ey & My); [unfold x1; cbn [shape length]; lia|].
  exists x1, y; split; [reflexivity|split; [exact Ey|split; [reflexivity|split]]]; [intros; reflexivity|].
  unfold x1 in My at 1; cbn [shape length] in My; replace (S (S (length sp)) - n)%nat with 2%nat in My by lia; exact My.
Qed.

Lemma mask_commutes : forall half, half 0 = 0 -> half 1 = 1 -> half (-1) = -1 -> forall affine s n margin sigma mask c rho M x B,
  build_mask s n margin sigma = Ret mask -> signed_perm n M -> shape x = B :: c :: repeat s n ->
  exists y my mx z, transform half affine c rho n M x = Ret y /\ mask_forward mask y = Ret my /\
    mask_forward mask x = Ret mx /\ transform half affine c rho n M mx = Ret z /\ same_array my z.
Proof.
  intros half H0 H1 Hm affine s n margin sigma mask c rho M x B H HM Ex.
  destruct (mask_entry _ _ _ _ _ H) as (Es & _); pose proof (mask_invariant _ _ _ _ _ M H HM) as MI.
  destruct (signed_perm_does n M HM) as (p & b & D). pose proof (proj1 D) as P.
  destruct (transform_ok half H0 H1 Hm affine c rho n M x B (repeat s n) HM Ex (repeat_length _ _)) as (x1 & y & E1 & Ey & Ex1 & F1 & M1).
  rewrite Ex in Ex1.
  apply (moved_iff _ _ _ 2 n M p b [B; c] (repeat s n) D Ex1 eq_refl (repeat_length _ _)) in M1; destruct M1 as (Sy & G1).
  rewrite repeat_pshape in Sy by exact P.
  assert (FM : forall u, shape u = B :: c :: repeat s n -> mask_forward mask u = Ret {| shape := B :: c :: repeat s n; entry := fun idx => entry u idx * entry mask (0%nat :: 0%nat :: skipn 2 idx) |}).
  { intros u Eu; unfold mask_forward; rewrite Eu, Es; cbn [skipn]; rewrite shape_eqb_refl; reflexivity. }
  pose proof (FM y Sy) as Fy; pose proof (FM x Ex) as Fx. eexists _, _, _; revert Fy Fx.
  set (my := {| shape := _; entry := fun idx => entry y idx * _ |}); set (mx := {| shape := _; entry := fun idx => entry x idx * _ |}); intros Fy Fx.
  destruct (transform_ok half H0 H1 Hm affine c rho n M mx B (repeat s n) HM eq_refl (repeat_length _ _)) as (x2 & z & E2 & Ez & Ex2 & F2 & M2).
  exists z; split; [exact Ey|split; [exact Fy|split; [exact Fx|split; [exact Ez|]]]].
  apply (moved_unique R x2 my z 2 n M); [rewrite Ex2; cbn; rewrite repeat_length; reflexivity|exact HM| |exact M2].
  apply (moved_iff _ x2 my 2 n M p b [B; c] (repeat s n) D Ex2 eq_refl (repeat_length _ _)).
  split; [rewrite repeat_pshape by exact P; reflexivity|].
  intros l i Vl Vi. pose proof (G1 l i Vl Vi) as G. apply valid_nth in Vl as (Ll & _). destruct l as [|a [|o [|? ?]]]; try discriminate; cbn [app] in *.
  rewrite F2; cbn [entry mx my skipn]; rewrite G, F1.
  apply (moved_iff _ mask mask 2 n M p b [1%nat; 1%nat] (repeat s n) D Es eq_refl (repeat_length _ _)) in MI; apply proj2 in MI.
  specialize (MI [0%nat; 0%nat] i ltac:(repeat constructor) Vi); cbn [app] in MI; rewrite MI.
  rewrite <- sumn_scal_r; apply sumn_ext; intros; ring.
Qed.
