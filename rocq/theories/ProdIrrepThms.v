(** The three tensor products of the code as maps of matrices, and how they
    restrict to the factors. *)
From Coq Require Import Reals ZArith List Lia Lra Bool Arith.
From Verif Require Import LibRes LibMat LibMatS SpecRep ProdModel SpecProd ParamModel PlanarModel
  ProdIrrepModel SpecProdIrrep ProdIrrepProofs.
Import ListNotations.
Open Scope R_scope.

(** A map of pairs of matrices that respects products, transposes and units. *)
Record tensor (s1 s2 n : nat) (Q1 Q2 : mat -> Prop) (F : mat -> mat -> mat) : Prop := {
  t_ext : forall A A' B B', meq s1 s1 A A' -> meq s2 s2 B B' -> meq n n (F A B) (F A' B');
  t_mul : forall A A' B B', Q1 A -> Q1 A' -> Q2 B -> Q2 B' ->
    meq n n (mmul n (F A B) (F A' B')) (F (mmul s1 A A') (mmul s2 B B'));
  t_tr : forall A B, Q1 A -> Q2 B -> meq n n (mtr (F A B)) (F (mtr A) (mtr B));
  t_one : meq n n (F mid mid) mid
}.

(** [phi] numbers the pairs (i, q) with i < s and q < m by the numbers below n. *)
Record indexes (n s m : nat) (phi : nat -> nat -> nat) : Prop := {
  ix_sum : forall f, sumn n f = sumn s (fun i => sumn m (fun q => f (phi i q)));
  ix_lt : forall i q, (i < s)%nat -> (q < m)%nat -> (phi i q < n)%nat;
  ix_onto : forall r, (r < n)%nat -> exists i q, (i < s)%nat /\ (q < m)%nat /\ r = phi i q
}.

(** R is a copy of [A] for every q < m. *)
Definition copies (s m : nat) (phi : nat -> nat -> nat) (R A : mat) : Prop :=
  forall i q j q', (i < s)%nat -> (q < m)%nat -> (j < s)%nat -> (q' < m)%nat ->
    R (phi i q) (phi j q') = A i j * mid q q'.

Lemma indexes_flip : forall n s m phi, indexes n s m phi -> indexes n m s (fun q i => phi i q).
Proof.
  intros n s m phi [S L O]; constructor.
  - intros f; rewrite S, sumn_swap; reflexivity.
  - auto.
  - intros r H; destruct (O r H) as (i & q & Hi & Hq & E); exists q, i; auto.
Qed.

Lemma indexes_pair : forall s m, indexes (s * m) s m (fun i q => (i * m + q)%nat).
Proof.
  intros s m; constructor.
  - intros f; apply sumn_mul.
  - intros; apply index_lt; assumption.
  - intros r H; apply split_index in H as (x & y & Hx & Hy & ->); eauto.
Qed.

Definition phi3 (s h i k : nat) : nat := (k / h * (s * h) + (i * h + k mod h))%nat.

Lemma phi3_at : forall s h i e q, (q < h)%nat -> phi3 s h i (e * h + q) = (e * (s * h) + (i * h + q))%nat.
Proof. intros s h i e q H; unfold phi3; rewrite div_index, mod_index by exact H; reflexivity. Qed.

Lemma indexes_phi3 : forall s h, indexes (2 * (s * h)) s (2 * h) (phi3 s h).
Proof.
  intros s h; constructor.
  - intros f; rewrite sumn_mul.
    rewrite (sumn_ext s (fun i => sumn (2 * h) _) (fun i => sumn 2 (fun e => sumn h (fun q => f (e * (s * h) + (i * h + q))%nat)))).
    + rewrite (sumn_swap s 2); apply sumn_ext; intros e _; apply sumn_mul.
    + intros i _; rewrite sumn_mul; apply sumn_ext; intros e _; apply sumn_ext; intros q Hq; rewrite phi3_at by exact Hq; reflexivity.
  - intros i k Hi Hk; apply split_index in Hk as (e & q & He & Hq & ->); rewrite phi3_at by exact Hq.
    apply index_lt; [exact He|apply index_lt; assumption].
  - intros r H; apply split_index in H as (e & x & He & Hx & ->); apply split_index in Hx as (i & q & Hi & Hq & ->).
    exists i, (e * h + q)%nat; split; [exact Hi|split; [apply index_lt; assumption|]]; rewrite phi3_at by exact Hq; reflexivity.
Qed.

(** ** np.kron *)
Definition any (A : mat) : Prop := True.

Lemma kron_tensor : forall s1 s2, (0 < s2)%nat -> tensor s1 s2 (s1 * s2) any any (kron s2 s2).
Proof.
  intros s1 s2 H2; constructor.
  - intros; apply kron_ext; assumption.
  - intros A A' B B' _ _ _ _ i j Hi Hj; apply kron_mmul; exact H2.
  - intros A B _ _ i j _ _; reflexivity.
  - intros i j Hi Hj; apply (kron_mid s1); assumption.
Qed.

Lemma kron_first : forall s1 s2 A, copies s1 s2 (fun i q => (i * s2 + q)%nat) (kron s2 s2 A mid) A.
Proof. intros s1 s2 A i q j q' Hi Hq Hj Hq'; rewrite kron_at by assumption; reflexivity. Qed.

Lemma kron_second : forall s1 s2 B, copies s2 s1 (fun q i => (i * s2 + q)%nat) (kron s2 s2 mid B) B.
Proof. intros s1 s2 B i q j q' Hi Hq Hj Hq'; rewrite kron_at by assumption; ring. Qed.

Lemma kron_trace : forall s1 s2 A B, trace (s1 * s2) (kron s2 s2 A B) = trace s1 A * trace s2 B.
Proof.
  intros s1 s2 A B; unfold trace; rewrite sumn_mul.
  rewrite (sumn_ext s1 _ (fun i => A i i * sumn s2 (fun q => B q q))); [apply sumn_scal_r|].
  intros i _; rewrite <- sumn_scal_l; apply sumn_ext; intros q Hq; apply kron_at; exact Hq.
Qed.

Lemma kron_realified : forall h s2 A B, (0 < s2)%nat -> realified h A -> realified (h * s2) (kron s2 s2 A B).
Proof.
  intros h s2 A B H2 HA i j Hi Hj; apply split_index in Hi as (x & y & Hx & Hy & ->); apply split_index in Hj as (x' & y' & Hx' & Hy' & ->).
  replace (h * s2 + (x * s2 + y))%nat with ((h + x) * s2 + y)%nat by lia.
  replace (h * s2 + (x' * s2 + y'))%nat with ((h + x') * s2 + y')%nat by lia.
  rewrite !kron_at by assumption; destruct (HA x x' Hx Hx') as [E1 E2]; rewrite E1, E2; split; ring.
Qed.

(** ** tensor_product of two realified matrices *)
Definition FC (i : Z) (h1 h2 : nat) (A B : mat) : mat :=
  fill (h1 * h2)
    (msub (kron h2 h2 A B) (kron h2 h2 (lower h1 A) (conj_imag i (lower h2 B))))
    (madd (kron h2 h2 A (conj_imag i (lower h2 B))) (kron h2 h2 (lower h1 A) B)).

(** tensor_product_left *)
Definition FL (s1 h2 : nat) (A B : mat) : mat :=
  fill (s1 * h2) (kron h2 h2 A B) (kron h2 h2 A (lower h2 B)).

Definition csgn (i : Z) : R := if (i =? 1)%Z then -1 else 1.

Lemma conj_at : forall i A x y, conj_imag i A x y = csgn i * A x y.
Proof. intros i A x y; unfold conj_imag, csgn; destruct (i =? 1)%Z; unfold mopp; ring. Qed.

Lemma csgn_sq : forall i, csgn i * csgn i = 1.
Proof. intros i; unfold csgn; destruct (i =? 1)%Z; ring. Qed.

Lemma FC_at : forall i h1 h2 A B e p q e' p' q', (e < 2)%nat -> (e' < 2)%nat ->
  (p < h1)%nat -> (p' < h1)%nat -> (q < h2)%nat -> (q' < h2)%nat ->
  FC i h1 h2 A B (e * (h1 * h2) + (p * h2 + q))%nat (e' * (h1 * h2) + (p' * h2 + q'))%nat =
  mid e e' * (A p p' * B q q' - lower h1 A p p' * (csgn i * lower h2 B q q')) +
  J2 e e' * (A p p' * (csgn i * lower h2 B q q') + lower h1 A p p' * B q q').
Proof.
  intros i h1 h2 A B e p q e' p' q' He He' Hp Hp' Hq Hq'; unfold FC.
  rewrite fill_at by (assumption || (apply index_lt; assumption)); unfold msub, madd.
  rewrite !kron_at by assumption; rewrite !conj_at; reflexivity.
Qed.

Lemma FL_at : forall s1 h2 A B e p q e' p' q', (e < 2)%nat -> (e' < 2)%nat ->
  (p < s1)%nat -> (p' < s1)%nat -> (q < h2)%nat -> (q' < h2)%nat ->
  FL s1 h2 A B (e * (s1 * h2) + (p * h2 + q))%nat (e' * (s1 * h2) + (p' * h2 + q'))%nat =
  A p p' * (mid e e' * B q q' + J2 e e' * lower h2 B q q').
Proof.
  intros s1 h2 A B e p q e' p' q' He He' Hp Hp' Hq Hq'; unfold FL.
  rewrite fill_at by (assumption || (apply index_lt; assumption)); rewrite !kron_at by assumption; ring.
Qed.

Lemma meq3 : forall s h (A B : mat), (forall e p q e' p' q', (e < 2)%nat -> (e' < 2)%nat ->
    (p < s)%nat -> (p' < s)%nat -> (q < h)%nat -> (q' < h)%nat ->
    A (e * (s * h) + (p * h + q))%nat (e' * (s * h) + (p' * h + q'))%nat =
    B (e * (s * h) + (p * h + q))%nat (e' * (s * h) + (p' * h + q'))%nat) ->
  meq (2 * (s * h)) (2 * (s * h)) A B.
Proof.
  intros s h A B H i j Hi Hj.
  apply split_index in Hi as (e & x & He & Hx & ->); apply split_index in Hx as (p & q & Hp & Hq & ->).
  apply split_index in Hj as (e' & x' & He' & Hx' & ->); apply split_index in Hx' as (p' & q' & Hp' & Hq' & ->).
  apply H; assumption.
Qed.

Lemma lower_ext : forall h A A' x y, meq (2 * h) (2 * h) A A' -> (x < h)%nat -> (y < h)%nat -> lower h A x y = lower h A' x y.
Proof. intros h A A' x y E Hx Hy; unfold lower; apply E; lia. Qed.

Lemma lower_mid : forall h x y, (x < h)%nat -> (y < h)%nat -> lower h mid x y = 0.
Proof. intros h x y Hx Hy; unfold lower, mid; destruct (Nat.eqb_spec (h + x) y); [lia|reflexivity]. Qed.

Lemma lower_tr : forall h A x y, realified h A -> (x < h)%nat -> (y < h)%nat -> lower h (mtr A) x y = - lower h A y x.
Proof. intros h A x y H Hx Hy; unfold lower, mtr; destruct (H y x Hy Hx) as [_ ->]; reflexivity. Qed.

Lemma FC_tensor : forall i h1 h2, (0 < h2)%nat ->
  tensor (2 * h1) (2 * h2) (2 * (h1 * h2)) (realified h1) (realified h2) (FC i h1 h2).
Proof.
  intros i h1 h2 H2; constructor.
  - intros A A' B B' EA EB; apply meq3; intros; rewrite !FC_at by assumption.
    rewrite !(lower_ext h1 A A'), !(lower_ext h2 B B'), !(EA p p'), !(EB q q') by (assumption || lia); reflexivity.
  - intros A A' B B' HA HA' HB HB'; unfold FC at 1 2; rewrite fill_mul; unfold FC; apply fill_ext; intros x y Hx Hy.
    + assert (D : forall X Y X' Y', mmul (h1 * h2) (msub X Y) (msub X' Y') x y =
        mmul (h1 * h2) X X' x y - mmul (h1 * h2) X Y' x y - mmul (h1 * h2) Y X' x y + mmul (h1 * h2) Y Y' x y).
      { intros; unfold mmul, msub; rewrite <- !sumn_minus, <- sumn_plus; apply sumn_ext; intros; ring. }
      assert (D' : forall X Y X' Y', mmul (h1 * h2) (madd X Y) (madd X' Y') x y =
        mmul (h1 * h2) X X' x y + mmul (h1 * h2) X Y' x y + mmul (h1 * h2) Y X' x y + mmul (h1 * h2) Y Y' x y).
      { intros; unfold mmul, madd; rewrite <- !sumn_plus; apply sumn_ext; intros; ring. }
      unfold msub at 1; rewrite D, D', !kron_mmul by exact H2.
      apply split_index in Hx as (p & q & Hp & Hq & ->); apply split_index in Hy as (p' & q' & Hp' & Hq' & ->).
      unfold msub; rewrite !kron_at by assumption; rewrite !conj_at.
      destruct (realified_mmul h1 A A' p p' HA HA' Hp Hp') as [-> ->].
      destruct (realified_mmul h2 B B' q q' HB HB' Hq Hq') as [-> ->].
      assert (C1 : forall M N, mmul h2 (conj_imag i M) N q q' = csgn i * mmul h2 M N q q')
        by (intros; unfold mmul; rewrite <- sumn_scal_l; apply sumn_ext; intros; rewrite conj_at; ring).
      assert (C2 : forall M N, mmul h2 M (conj_imag i N) q q' = csgn i * mmul h2 M N q q')
        by (intros; unfold mmul; rewrite <- sumn_scal_l; apply sumn_ext; intros; rewrite conj_at; ring).
      rewrite !C1, !C2.
      set (a := mmul h1 A A' p p'); set (b := mmul h1 (lower h1 A) (lower h1 A') p p');
      set (c := mmul h1 A (lower h1 A') p p'); set (d := mmul h1 (lower h1 A) A' p p').
      set (a' := mmul h2 B B' q q'); set (b' := mmul h2 (lower h2 B) (lower h2 B') q q');
      set (c' := mmul h2 B (lower h2 B') q q'); set (d' := mmul h2 (lower h2 B) B' q q').
      transitivity (a * a' - c * csgn i * c' - d * csgn i * d' + b * (csgn i * csgn i) * b' -
        (a * (csgn i * csgn i) * b' + c * csgn i * d' + d * csgn i * c' + b * a')); [ring|].
      rewrite csgn_sq; ring.
    + assert (D : forall X Y X' Y', mmul (h1 * h2) (msub X Y) (madd X' Y') x y =
        mmul (h1 * h2) X X' x y + mmul (h1 * h2) X Y' x y - mmul (h1 * h2) Y X' x y - mmul (h1 * h2) Y Y' x y).
      { intros; unfold mmul, msub, madd; rewrite <- !sumn_plus, <- !sumn_minus; apply sumn_ext; intros; ring. }
      assert (D' : forall X Y X' Y', mmul (h1 * h2) (madd X Y) (msub X' Y') x y =
        mmul (h1 * h2) X X' x y - mmul (h1 * h2) X Y' x y + mmul (h1 * h2) Y X' x y - mmul (h1 * h2) Y Y' x y).
      { intros; unfold mmul, madd, msub; rewrite <- !sumn_minus, <- sumn_plus, <- sumn_minus; apply sumn_ext; intros; ring. }
      unfold madd at 1; rewrite D, D', !kron_mmul by exact H2.
      apply split_index in Hx as (p & q & Hp & Hq & ->); apply split_index in Hy as (p' & q' & Hp' & Hq' & ->).
      unfold madd; rewrite !kron_at by assumption; rewrite !conj_at.
      destruct (realified_mmul h1 A A' p p' HA HA' Hp Hp') as [-> ->].
      destruct (realified_mmul h2 B B' q q' HB HB' Hq Hq') as [-> ->].
      assert (C1 : forall M N, mmul h2 (conj_imag i M) N q q' = csgn i * mmul h2 M N q q')
        by (intros; unfold mmul; rewrite <- sumn_scal_l; apply sumn_ext; intros; rewrite conj_at; ring).
      assert (C2 : forall M N, mmul h2 M (conj_imag i N) q q' = csgn i * mmul h2 M N q q')
        by (intros; unfold mmul; rewrite <- sumn_scal_l; apply sumn_ext; intros; rewrite conj_at; ring).
      rewrite !C1, !C2.
      set (a := mmul h1 A A' p p'); set (b := mmul h1 (lower h1 A) (lower h1 A') p p');
      set (c := mmul h1 A (lower h1 A') p p'); set (d := mmul h1 (lower h1 A) A' p p').
      set (a' := mmul h2 B B' q q'); set (b' := mmul h2 (lower h2 B) (lower h2 B') q q');
      set (c' := mmul h2 B (lower h2 B') q q'); set (d' := mmul h2 (lower h2 B) B' q q').
      transitivity (a * (csgn i * c' + csgn i * d') + c * (a' - (csgn i * csgn i) * b') + d * (a' - (csgn i * csgn i) * b')
        - b * (csgn i * c' + csgn i * d')); [ring|].
      rewrite csgn_sq; ring.
  - intros A B HA HB; apply meq3; intros; unfold mtr at 1; rewrite !FC_at by assumption.
    rewrite !lower_tr by assumption; unfold mtr.
    destruct e as [|[|e]], e' as [|[|e']]; try lia; unfold mid, mat2; cbn [Nat.eqb]; ring.
  - apply meq3; intros; rewrite FC_at by assumption; rewrite !lower_mid by assumption.
    rewrite !mid_at by (assumption || (apply index_lt; assumption)); ring.
Qed.

Lemma FL_tensor : forall s1 h2, (0 < h2)%nat ->
  tensor s1 (2 * h2) (2 * (s1 * h2)) any (realified h2) (FL s1 h2).
Proof.
  intros s1 h2 H2; constructor.
  - intros A A' B B' EA EB; apply meq3; intros; rewrite !FL_at by assumption.
    rewrite !(lower_ext h2 B B'), !(EA p p'), !(EB q q') by (assumption || lia); reflexivity.
  - intros A A' B B' _ _ HB HB'; unfold FL at 1 2; rewrite fill_mul; unfold FL; apply fill_ext; intros x y Hx Hy.
    + unfold msub; rewrite !kron_mmul by exact H2.
      apply split_index in Hx as (p & q & Hp & Hq & ->); apply split_index in Hy as (p' & q' & Hp' & Hq' & ->).
      rewrite !kron_at by assumption; destruct (realified_mmul h2 B B' q q' HB HB' Hq Hq') as [-> _]; ring.
    + unfold madd; rewrite !kron_mmul by exact H2.
      apply split_index in Hx as (p & q & Hp & Hq & ->); apply split_index in Hy as (p' & q' & Hp' & Hq' & ->).
      rewrite !kron_at by assumption; destruct (realified_mmul h2 B B' q q' HB HB' Hq Hq') as [_ ->]; ring.
  - intros A B _ HB; apply meq3; intros; unfold mtr at 1; rewrite !FL_at by assumption.
    rewrite !lower_tr by assumption; unfold mtr.
    destruct e as [|[|e]], e' as [|[|e']]; try lia; unfold mid, mat2; cbn [Nat.eqb]; ring.
  - apply meq3; intros; rewrite FL_at by assumption; rewrite !lower_mid by assumption.
    rewrite !mid_at by (assumption || (apply index_lt; assumption)); ring.
Qed.

(** ** restrictions to the factors *)
Definition csign (i : Z) (h r : nat) : R := if (r <? h)%nat then 1 else csgn i.
Definition conj (i : Z) (h : nat) (B : mat) : mat := fun r c => csign i h r * B r c * csign i h c.

Lemma csign_sq : forall i h r, csign i h r * csign i h r = 1.
Proof. intros i h r; unfold csign; destruct (r <? h)%nat; [ring|apply csgn_sq]. Qed.

Lemma FC_first : forall i h1 h2 A, realified h1 A ->
  copies (2 * h1) h2 (fun x q => (x * h2 + q)%nat) (FC i h1 h2 A mid) A.
Proof.
  intros i h1 h2 A HA x q x' q' Hx Hq Hx' Hq'.
  apply split_index in Hx as (e & p & He & Hp & ->); apply split_index in Hx' as (e' & p' & He' & Hp' & ->).
  replace ((e * h1 + p) * h2 + q)%nat with (e * (h1 * h2) + (p * h2 + q))%nat by lia.
  replace ((e' * h1 + p') * h2 + q')%nat with (e' * (h1 * h2) + (p' * h2 + q'))%nat by lia.
  rewrite FC_at, realified_at, lower_mid by assumption; ring.
Qed.

Lemma FC_second : forall i h1 h2 B, realified h2 B ->
  copies (2 * h2) h1 (fun k p => phi3 h1 h2 p k) (FC i h1 h2 mid B) (conj i h2 B).
Proof.
  intros i h1 h2 B HB x p x' p' Hx Hp Hx' Hp'.
  apply split_index in Hx as (e & q & He & Hq & ->); apply split_index in Hx' as (e' & q' & He' & Hq' & ->).
  rewrite !phi3_at, FC_at by assumption; unfold conj; rewrite realified_at by assumption.
  rewrite !lower_mid by assumption; unfold csign.
  assert (S : forall e q, (e < 2)%nat -> (q < h2)%nat -> (e * h2 + q <? h2)%nat = Nat.eqb e 0).
  { intros [|[|z]] y Hz Hy; try lia; cbn [Nat.eqb]; [apply Nat.ltb_lt|apply Nat.ltb_ge]; lia. }
  rewrite !S by assumption; pose proof (csgn_sq i) as C; unfold mat2.
  destruct e as [|[|e]], e' as [|[|e']]; try lia; unfold mid; cbn [Nat.eqb]; try ring.
  transitivity ((csgn i * csgn i) * B q q' * (if Nat.eqb p p' then 1 else 0)); [rewrite C|]; ring.
Qed.

Lemma FL_first : forall s1 h2 A, copies s1 (2 * h2) (phi3 s1 h2) (FL s1 h2 A mid) A.
Proof.
  intros s1 h2 A p x p' x' Hp Hx Hp' Hx'.
  apply split_index in Hx as (e & q & He & Hq & ->); apply split_index in Hx' as (e' & q' & He' & Hq' & ->).
  rewrite !phi3_at, FL_at by assumption; rewrite lower_mid, mid_at by assumption; ring.
Qed.

Lemma FL_second : forall s1 h2 B, realified h2 B ->
  copies (2 * h2) s1 (fun k p => phi3 s1 h2 p k) (FL s1 h2 mid B) B.
Proof.
  intros s1 h2 B HB x p x' p' Hx Hp Hx' Hp'.
  apply split_index in Hx as (e & q & He & Hq & ->); apply split_index in Hx' as (e' & q' & He' & Hq' & ->).
  rewrite !phi3_at, FL_at, realified_at by assumption; ring.
Qed.
