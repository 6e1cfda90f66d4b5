(** Indices of images under the symmetries of the grid. *)
From Coq Require Import Reals ZArith Bool List Lia Lra FinFun Permutation.
From Verif Require Import LibRes LibMat LibList GridModel SpecGrid GridProofs GridThms ImageModel.
Import ListNotations.
Open Scope R_scope.

Lemma shape_eqb_spec : forall l m, shape_eqb l m = true <-> l = m.
Proof.
  intros l; induction l as [|a l IH]; intros [|b m]; cbn; try (split; [discriminate|intros H; discriminate]); [tauto|].
  rewrite andb_true_iff, Nat.eqb_eq, IH; split; [intros (-> & ->); reflexivity|intros H; injection H; auto].
Qed.
Lemma shape_eqb_refl : forall l, shape_eqb l l = true.
Proof. intros; apply shape_eqb_spec; reflexivity. Qed.

Lemma all_indices_In : forall sh t, In t (all_indices sh) <-> valid sh t.
Proof.
  intros sh; induction sh as [|s sh IH]; intros t; cbn [all_indices].
  - unfold valid; split; [intros [<-|[]]; constructor|intros H; inversion H; left; reflexivity].
  - rewrite in_flat_map; split.
    + intros (i & Hi & H); apply in_map_iff in H as (u & <- & Hu); apply in_seq in Hi; constructor; [lia|apply IH; exact Hu].
    + intros H; inversion H as [|i s' u sh' Hi Hu]; subst; exists i; split; [apply in_seq; lia|apply in_map, IH; exact Hu].
Qed.

Lemma all_indices_NoDup : forall sh, NoDup (all_indices sh).
Proof.
  intros sh; induction sh as [|s sh IH]; cbn [all_indices]; [constructor; [intros []|constructor]|].
  assert (G : forall l, NoDup l -> NoDup (flat_map (fun i => map (cons i) (all_indices sh)) l)).
  { intros l; induction l as [|i l IHl]; intros N; cbn; [constructor|].
    inversion N as [|a b Ni Nl]; subst. apply NoDup_app_intro.
    - apply NoDup_map_inj_in; [|exact IH]; intros x y _ _ E; injection E; auto.
    - apply IHl; exact Nl.
    - intros t H1 H2; apply in_map_iff in H1 as (u & <- & _); apply in_flat_map in H2 as (j & Hj & H2).
      apply in_map_iff in H2 as (v & E & _); injection E as -> _; contradiction. }
  apply G, seq_NoDup.
Qed.

Lemma rsum_perm : forall l m, Permutation l m -> rsum l = rsum m.
Proof. intros l m H; induction H; unfold rsum in *; cbn; try lra; congruence. Qed.
Lemma rsum_ext : forall A (f g : A -> R) l, (forall a, In a l -> f a = g a) -> rsum (map f l) = rsum (map g l).
Proof. intros A f g l H; f_equal; apply map_ext_in; exact H. Qed.
Lemma rsum_scal : forall A (f : A -> R) c l, rsum (map (fun a => c * f a) l) = c * rsum (map f l).
Proof. intros A f c l; induction l as [|a l IH]; unfold rsum in *; cbn; [ring|rewrite IH; ring]. Qed.
Lemma rsum_sumn : forall A (f : A -> nat -> R) n l, rsum (map (fun a => sumn n (f a)) l) = sumn n (fun i => rsum (map (fun a => f a i) l)).
Proof.
  intros A f n l; induction l as [|a l IH]; unfold rsum in *; cbn.
  - symmetry; apply sumn_0; intros; reflexivity.
  - rewrite IH, <- sumn_plus; reflexivity.
Qed.
Lemma rsum_nth : forall (f : nat -> R) l, rsum (map f l) = sumn (length l) (fun a => f (nth a l 0%nat)).
Proof.
  intros f l; induction l as [|a l IH]; unfold rsum in *; cbn [map fold_right length]; [reflexivity|].
  rewrite IH, sumn_S_first; reflexivity.
Qed.

(** ** The action on indices *)
Definition pshape (n : nat) (p : nat -> nat) (sh : list nat) : list nat := map (fun k => nth (p k) sh 0%nat) (seq 0 n).
Definition act (n : nat) (p : nat -> nat) (b : nat -> bool) (sh idx : list nat) : list nat :=
  map (fun k => let i := nth (p k) idx 0%nat in if b k then (nth (p k) sh 0 - 1 - i)%nat else i) (seq 0 n).
Definition permutes (n : nat) (p : nat -> nat) : Prop :=
  (forall i, (i < n)%nat -> (p i < n)%nat) /\ (forall i j, (i < n)%nat -> (j < n)%nat -> p i = p j -> i = j).

Lemma map_seq_nat : forall (f : nat -> nat) n k, (k < n)%nat -> nth k (map f (seq 0 n)) 0%nat = f k.
Proof.
  intros f n k H; rewrite (nth_indep _ 0%nat (f 0%nat)) by (rewrite map_length, seq_length; lia).
  rewrite map_nth, seq_nth by lia; reflexivity.
Qed.
Lemma pshape_length : forall n p sh, length (pshape n p sh) = n.
Proof. intros; unfold pshape; rewrite map_length, seq_length; reflexivity. Qed.
Lemma act_length : forall n p b sh idx, length (act n p b sh idx) = n.
Proof. intros; unfold act; rewrite map_length, seq_length; reflexivity. Qed.
Lemma pshape_nth : forall n p sh k, (k < n)%nat -> nth k (pshape n p sh) 0%nat = nth (p k) sh 0%nat.
Proof. intros n p sh k H; unfold pshape; rewrite map_seq_nat by exact H; reflexivity. Qed.
Lemma act_nth : forall n p b sh idx k, (k < n)%nat ->
  nth k (act n p b sh idx) 0%nat = if b k then (nth (p k) sh 0 - 1 - nth (p k) idx 0)%nat else nth (p k) idx 0%nat.
Proof. intros n p b sh idx k H; unfold act; rewrite map_seq_nat by exact H; reflexivity. Qed.

Lemma permutes_onto : forall n p, permutes n p -> forall j, (j < n)%nat -> exists i, (i < n)%nat /\ p i = j.
Proof.
  intros n p (Hp & Hi) j Hj. assert (B : bSurjective n p) by (apply bInjective_bSurjective; [exact Hp|intros x y; apply Hi]).
  destruct (B j Hj) as (i & L & E); exists i; auto.
Qed.

Lemma act_valid : forall n p b sh idx, permutes n p -> length sh = n -> valid sh idx -> valid (pshape n p sh) (act n p b sh idx).
Proof.
  intros n p b sh idx (Hp & _) L V; apply valid_nth in V as (Li & V); apply valid_nth; rewrite act_length, pshape_length; split; [reflexivity|].
  intros k Hk; rewrite act_nth, pshape_nth by exact Hk. pose proof (V (p k) ltac:(rewrite L; auto)). destruct (b k); lia.
Qed.
Lemma act_inj : forall n p b sh i j, permutes n p -> length sh = n -> valid sh i -> valid sh j -> act n p b sh i = act n p b sh j -> i = j.
Proof.
  intros n p b sh i j P L Vi Vj E; apply valid_nth in Vi as (Li & Vi), Vj as (Lj & Vj).
  apply (nth_ext _ _ 0%nat 0%nat); [lia|]; intros a Ha. destruct (permutes_onto n p P a ltac:(lia)) as (k & Hk & <-).
  pose proof (f_equal (fun l => nth k l 0%nat) E) as F; cbn in F; rewrite !act_nth in F by exact Hk.
  destruct P as (Hp & _). pose proof (Vi (p k) ltac:(rewrite L; auto)); pose proof (Vj (p k) ltac:(rewrite L; auto)). destruct (b k); lia.
Qed.
Lemma act_onto : forall n p b sh idx', permutes n p -> length sh = n -> valid (pshape n p sh) idx' -> exists idx, valid sh idx /\ act n p b sh idx = idx'.
Proof.
  intros n p b sh idx' P L V; apply valid_nth in V as (Li & V); rewrite pshape_length in *.
  assert (Q : exists q, forall j, (j < n)%nat -> (q j < n)%nat /\ p (q j) = j).
  { clear - P. assert (G : forall m, (m <= n)%nat -> exists q, forall j, (j < m)%nat -> (q j < n)%nat /\ p (q j) = j).
    { intros m; induction m as [|m IH]; intros H; [exists (fun _ => 0%nat); intros; lia|].
      destruct IH as (q & Hq); [lia|]; destruct (permutes_onto n p P m ltac:(lia)) as (i & Hi & E).
      exists (fun j => if Nat.eqb j m then i else q j); intros j Hj; destruct (Nat.eqb_spec j m) as [->|N]; [auto|apply Hq; lia]. }
    apply G; lia. }
  destruct Q as (q & Hq); destruct P as (Hp & Hi).
  exists (map (fun j => if b (q j) then (nth j sh 0 - 1 - nth (q j) idx' 0)%nat else nth (q j) idx' 0%nat) (seq 0 n)); split.
  - apply valid_nth; rewrite map_length, seq_length; split; [lia|]; intros j Hj; rewrite map_seq_nat by lia.
    destruct (Hq j ltac:(lia)) as (H1 & H2); pose proof (V (q j) H1) as H3; rewrite pshape_nth, H2 in H3 by exact H1; destruct (b (q j)); lia.
  - apply (nth_ext _ _ 0%nat 0%nat); [rewrite act_length; lia|]; intros k Hk; rewrite act_length in Hk; rewrite act_nth by exact Hk.
    pose proof (Hp k Hk) as H1; rewrite map_seq_nat by exact H1; destruct (Hq (p k) H1) as (H2 & H3).
    assert (E : q (p k) = k) by (apply Hi; auto); rewrite E.
    pose proof (V k Hk) as H4; rewrite pshape_nth in H4 by exact Hk; destruct (b k); lia.
Qed.

Lemma act_perm : forall n p b sh, permutes n p -> length sh = n -> Permutation (map (act n p b sh) (all_indices sh)) (all_indices (pshape n p sh)).
Proof.
  intros n p b sh P L; apply NoDup_Permutation.
  - apply NoDup_map_inj_in; [|apply all_indices_NoDup]; intros x y Hx Hy; apply all_indices_In in Hx, Hy; apply act_inj; auto.
  - apply all_indices_NoDup.
  - intros t; rewrite all_indices_In, in_map_iff; split.
    + intros (u & <- & Hu); apply act_valid; auto; apply all_indices_In; exact Hu.
    + intros V; destruct (act_onto n p b sh t P L V) as (u & Hu & E); exists u; split; [exact E|apply all_indices_In; exact Hu].
Qed.

(** ** A signed permutation acts this way *)
Lemma nth_skip : forall d (l : list nat) k, nth k (skipn d l) 0%nat = nth (d + k) l 0%nat.
Proof. intros d; induction d as [|d IH]; intros l k; [reflexivity|]; destruct l as [|a l]; cbn [skipn Nat.add nth]; [destruct k; reflexivity|apply IH]. Qed.

Definition does (n : nat) (M : mat) (p : nat -> nat) (b : nat -> bool) : Prop := permutes n p /\
  forall d sh sh' idx idx', length sh = (d + n)%nat -> length sh' = (d + n)%nat ->
    ((forall k j, (k < n)%nat -> (j < n)%nat -> M k j <> 0 -> nth (axis d n k) sh' 0%nat = nth (axis d n j) sh 0%nat) <->
      skipn d sh' = pshape n p (skipn d sh)) /\
    (skipn d sh' = pshape n p (skipn d sh) -> valid sh idx -> valid sh' idx' ->
      (image d n M sh idx sh' idx' <-> firstn d idx' = firstn d idx /\ skipn d idx' = act n p b (skipn d sh) (skipn d idx))).

Lemma signed_perm_does : forall n M, signed_perm n M -> exists p b, does n M p b.
Proof.
  intros n M (p & s & Pp & Pi & Ps & PM).
  set (p' := fun i => (n - 1 - p (n - 1 - i))%nat).
  set (eps := fun k => if Nat.eqb k 0 then 1 else -1).
  set (b := fun a => if Rlt_dec (eps (n - 1 - a)%nat * s (n - 1 - a)%nat * eps (p (n - 1 - a)%nat)) 0 then true else false).
  assert (Hp : forall i, (i < n)%nat -> (p' i < n)%nat) by (intros; unfold p'; lia).
  assert (Hi : forall i j, (i < n)%nat -> (j < n)%nat -> p' i = p' j -> i = j).
  { intros i j Li Lj E; unfold p' in E.
    pose proof (Pp (n - 1 - i)%nat ltac:(lia)); pose proof (Pp (n - 1 - j)%nat ltac:(lia)).
    assert (n - 1 - i = n - 1 - j)%nat by (apply Pi; lia); lia. }
  exists p', b; split; [split; assumption|]; intros d sh sh' idx idx' L L'; split.
  - split.
    + intros H; apply (nth_ext _ _ 0%nat 0%nat); [rewrite skipn_length, pshape_length; lia|].
      intros a Ha; rewrite skipn_length in Ha; rewrite pshape_nth, !nth_skip by lia.
      pose proof (Pp (n - 1 - a)%nat ltac:(lia)) as Hpa.
      pose proof (H (n - 1 - a)%nat (p (n - 1 - a)%nat) ltac:(lia) ltac:(lia)) as E; unfold axis in E.
      replace (d + (n - 1 - (n - 1 - a)))%nat with (d + a)%nat in E by lia; apply E.
      rewrite PM, Nat.eqb_refl by lia; destruct (Ps (n - 1 - a)%nat ltac:(lia)) as [-> | ->]; lra.
    + intros E k j Hk Hj NM; rewrite PM in NM by lia; destruct (Nat.eqb_spec j (p k)) as [->|_]; [|lra].
      pose proof (f_equal (fun l => nth (n - 1 - k) l 0%nat) E) as F; cbv beta in F.
      rewrite pshape_nth, !nth_skip in F by lia; unfold axis; rewrite F; f_equal; unfold p'; replace (n - 1 - (n - 1 - k))%nat with k by lia; reflexivity.
  - intros Esh V V'.
    apply valid_nth in V as (Li & V); apply valid_nth in V' as (Li' & V').
    assert (Key : forall k, (k < n)%nat -> (coord d n sh' idx' k = sumn n (fun j => M k j * coord d n sh idx j) <->
      nth (d + (n - 1 - k)) idx' 0%nat = if b (n - 1 - k)%nat then (nth (d + p' (n - 1 - k)%nat) sh 0 - 1 - nth (d + p' (n - 1 - k)%nat) idx 0)%nat else nth (d + p' (n - 1 - k)%nat) idx 0%nat)).
    { intros k Hk. pose proof (Pp k Hk) as Hpk.
      rewrite (sumn_single n (p k)) by (first [exact Hpk|intros j Hj Nj; rewrite PM by lia; destruct (Nat.eqb_spec j (p k)); [congruence|ring]]).
      rewrite PM, Nat.eqb_refl by lia. unfold b, p'. replace (n - 1 - (n - 1 - k))%nat with k by lia.
      assert (Esz : nth (d + (n - 1 - k)) sh' 0%nat = nth (d + (n - 1 - p k)) sh 0%nat).
      { pose proof (f_equal (fun l => nth (n - 1 - k) l 0%nat) Esh) as F; cbv beta in F.
        rewrite pshape_nth, !nth_skip in F by lia; rewrite F; f_equal; unfold p'; replace (n - 1 - (n - 1 - k))%nat with k by lia; reflexivity. }
      unfold coord, axis; rewrite Esz.
      pose proof (V (d + (n - 1 - p k))%nat ltac:(lia)) as H1; pose proof (V' (d + (n - 1 - k))%nat ltac:(lia)) as H2; rewrite Esz in H2.
      set (w := nth (d + (n - 1 - p k)) sh 0%nat) in *; set (i := nth (d + (n - 1 - p k)) idx 0%nat) in *; set (i' := nth (d + (n - 1 - k)) idx' 0%nat) in *.
      unfold eps.
      assert (Q : forall e, e = 1 \/ e = -1 -> (INR i' - (INR w - 1) / 2 = e * (INR i - (INR w - 1) / 2) <-> i' = if Rlt_dec e 0 then (w - 1 - i)%nat else i)).
      { intros e He; destruct (Rlt_dec e 0) as [Hl|Hl].
        - assert (e = -1) as -> by (destruct He; lra). split; intros E.
          + apply INR_eq; rewrite !minus_INR by lia; cbn [INR]; lra.
          + rewrite E, !minus_INR by lia; cbn [INR]; lra.
        - assert (e = 1) as -> by (destruct He; lra). split; intros E; [apply INR_eq; lra|rewrite E; lra]. }
      assert (Es : s k = 1 \/ s k = -1) by auto.
      specialize (Q ((if Nat.eqb k 0 then 1 else -1) * s k * (if Nat.eqb (p k) 0 then 1 else -1))).
      assert (Eb : forall e, (if (if Rlt_dec e 0 then true else false) then (w - 1 - i)%nat else i) = if Rlt_dec e 0 then (w - 1 - i)%nat else i) by (intros e; destruct (Rlt_dec e 0); reflexivity).
      rewrite Eb; clear Eb.
      rewrite <- Q by (destruct (Nat.eqb k 0), (Nat.eqb (p k) 0), Es as [-> | ->]; (left; lra) || (right; lra)).
      destruct (Nat.eqb k 0), (Nat.eqb (p k) 0), Es as [-> | ->]; split; intros E; lra. }
    split.
    + intros (F & C); split; [exact F|]. apply (nth_ext _ _ 0%nat 0%nat); [rewrite skipn_length, act_length; lia|].
      intros a Ha; rewrite skipn_length in Ha; rewrite act_nth, !nth_skip by lia.
      specialize (proj1 (Key (n - 1 - a)%nat ltac:(lia)) (C (n - 1 - a)%nat ltac:(lia))); replace (n - 1 - (n - 1 - a))%nat with a by lia; auto.
    + intros (F & E); split; [exact F|]; intros k Hk; apply (Key k Hk).
      pose proof (f_equal (fun l => nth (n - 1 - k) l 0%nat) E) as G; cbv beta in G; rewrite act_nth, !nth_skip in G by lia; exact G.
Qed.

(** ** Moved arrays *)
Lemma valid_app : forall s1 s2 i1 i2, length i1 = length s1 -> (valid (s1 ++ s2) (i1 ++ i2) <-> valid s1 i1 /\ valid s2 i2).
Proof.
  unfold valid; intros s1; induction s1 as [|s s1 IH]; intros s2 [|i i1] i2 L; cbn in L; try discriminate; cbn [app].
  - split; [intros H; split; [constructor|exact H]|tauto].
  - split.
    + intros H; inversion H; subst; apply IH in H5 as (A & B); [|lia]; split; [constructor; assumption|exact B].
    + intros (A & B); inversion A; subst; constructor; [assumption|apply IH; [lia|split; assumption]].
Qed.

Lemma firstn_app_d : forall A d (l m : list A), length l = d -> firstn d (l ++ m) = l.
Proof. intros A d l m <-; rewrite firstn_app, Nat.sub_diag, firstn_all, firstn_O, app_nil_r; reflexivity. Qed.
Lemma skipn_app_d : forall A d (l m : list A), length l = d -> skipn d (l ++ m) = m.
Proof. intros A d l m <-; rewrite skipn_app, Nat.sub_diag, skipn_all; reflexivity. Qed.

Lemma moved_iff : forall A (x y : array A) d n M p b sl sp, does n M p b -> shape x = sl ++ sp -> length sl = d -> length sp = n ->
  (moved d n M x y <-> shape y = sl ++ pshape n p sp /\
     forall l i, valid sl l -> valid sp i -> entry y (l ++ act n p b sp i) = entry x (l ++ i)).
Proof.
  intros A x y d n M p b sl sp (P & D) Ex Ld Ln. unfold moved.
  assert (Lx : length (shape x) = (d + n)%nat) by (rewrite Ex, app_length; lia).
  assert (Sx : skipn d (shape x) = sp) by (rewrite Ex; apply skipn_app_d; exact Ld).
  assert (Fx : firstn d (shape x) = sl) by (rewrite Ex; apply firstn_app_d; exact Ld).
  split.
  - intros (Ly & Fy & Hs & Ha & _).
    assert (Ly' : length (shape y) = (d + n)%nat) by lia.
    assert (Es : skipn d (shape y) = pshape n p sp).
    { rewrite <- Sx. apply (D d (shape x) (shape y) (shape x) (shape x) Lx Ly'); exact Hs. }
    assert (Ey : shape y = sl ++ pshape n p sp) by (rewrite <- (firstn_skipn d (shape y)), Fy, Es, Fx; reflexivity).
    split; [exact Ey|]. intros l i Vl Vi.
    assert (Ll : length l = d) by (apply valid_nth in Vl as (E & _); lia).
    assert (V : valid (shape x) (l ++ i)) by (rewrite Ex; apply valid_app; [lia|split; assumption]).
    destruct (Ha _ V) as (idx' & V' & Im & <-).
    apply (D d (shape x) (shape y) (l ++ i) idx' Lx Ly') in Im; [|rewrite Sx; exact Es|exact V|exact V'].
    rewrite Sx, firstn_app_d, skipn_app_d in Im by exact Ll. destruct Im as (F & S').
    rewrite <- F, <- S', firstn_skipn; reflexivity.
  - intros (Ey & He).
    assert (Ly : length (shape y) = (d + n)%nat) by (rewrite Ey, app_length, pshape_length; lia).
    assert (Sy : skipn d (shape y) = pshape n p sp) by (rewrite Ey; apply skipn_app_d; exact Ld).
    assert (Fy : firstn d (shape y) = sl) by (rewrite Ey; apply firstn_app_d; exact Ld).
    split; [lia|]. split; [congruence|]. split; [apply (D d (shape x) (shape y) (shape x) (shape x) Lx Ly); rewrite Sx; exact Sy|].
    assert (Both : forall l i, valid sl l -> valid sp i -> valid (shape x) (l ++ i) /\ valid (shape y) (l ++ act n p b sp i) /\
      image d n M (shape x) (l ++ i) (shape y) (l ++ act n p b sp i)).
    { intros l i Vl Vi; assert (Ll : length l = d) by (apply valid_nth in Vl as (E & _); lia).
      assert (V : valid (shape x) (l ++ i)) by (rewrite Ex; apply valid_app; [lia|split; assumption]).
      assert (V' : valid (shape y) (l ++ act n p b sp i)) by (rewrite Ey; apply valid_app; [lia|split; [assumption|apply act_valid; assumption]]).
      split; [exact V|split; [exact V'|]]. apply (D d (shape x) (shape y) _ _ Lx Ly); [rewrite Sx; exact Sy|exact V|exact V'|].
      rewrite Sx, !firstn_app_d, !skipn_app_d by exact Ll; auto. }
    assert (Split : forall s1 s2 idx, length s1 = d -> valid (s1 ++ s2) idx -> exists l i, idx = l ++ i /\ valid s1 l /\ valid s2 i).
    { intros s1 s2 idx L1 V; exists (firstn d idx), (skipn d idx); rewrite firstn_skipn; split; [reflexivity|].
      apply valid_app; [|rewrite firstn_skipn; exact V]. apply valid_nth in V as (E & _); rewrite app_length in E; rewrite firstn_length; lia. }
    split.
    + intros idx V; rewrite Ex in V; destruct (Split sl sp idx Ld V) as (l & i & -> & Vl & Vi); exists (l ++ act n p b sp i).
      destruct (Both l i Vl Vi) as (_ & V' & Im); split; [exact V'|split; [exact Im|apply He; assumption]].
    + intros idx V; rewrite Ey in V; destruct (Split sl _ idx Ld V) as (l & i' & -> & Vl & Vi').
      destruct (act_onto n p b sp i' P Ln Vi') as (i & Vi & <-); exists (l ++ i).
      destruct (Both l i Vl Vi) as (V1 & V' & Im); split; [exact V1|split; [exact Im|apply He; assumption]].
Qed.
