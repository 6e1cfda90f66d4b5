(** Bases of intertwiners. *)
From Coq Require Import Reals List ZArith Arith Bool Lia Lra.
From Verif Require Import LibRes LibMat LibMatS SpecRep RepModel SpecRepr SpecInd SpecSchur HomSpModel SpecHomSp.
Import ListNotations.
Open Scope R_scope.

(** *** bases put together *)
Definition in_cols (p m : nat) (E : mat) : mat := fun a b => if Nat.leb p b && Nat.ltb b (p + m) then E a (b - p)%nat else 0.
Definition in_rows (p n : nat) (E : mat) : mat := fun a b => if Nat.leb p a && Nat.ltb a (p + n) then E (a - p)%nat b else 0.

Lemma lincomb_app : forall c1 l1 c2 l2 (i j : nat), length c1 = length l1 -> lincomb (c1 ++ c2) (l1 ++ l2) i j = lincomb c1 l1 i j + lincomb c2 l2 i j.
Proof.
  induction c1 as [|c c1 IH]; intros [|E l1] c2 l2 i j L; try discriminate; cbn [app lincomb]; [unfold mzero; ring|]. unfold madd. rewrite IH by (cbn in L; lia). ring.
Qed.
Lemma lincomb_null : forall cs L (i j : nat), (forall F : mat, In F L -> F i j = 0) -> lincomb cs L i j = 0.
Proof.
  induction cs as [|c cs IH]; intros [|E L] i j H; cbn [lincomb]; try reflexivity. unfold madd, mscal. rewrite IH, (H E) by (intros; try apply H; cbn; auto). ring.
Qed.
Lemma lincomb_map : forall (f : mat -> mat) (a b a' b' : nat) (l : list mat), (forall E, f E a b = E a' b') -> forall cs, lincomb cs (map f l) a b = lincomb cs l a' b'.
Proof. intros f a b a' b' l H. induction l as [|E l IH]; intros [|c cs]; cbn [map lincomb]; try reflexivity. unfold madd, mscal. rewrite H, IH. reflexivity. Qed.
Lemma lincomb_ext : forall n m l l', Forall2 (meq n m) l l' -> forall cs, meq n m (lincomb cs l) (lincomb cs l').
Proof.
  intros n m l l' F. induction F as [|E E' l l' H F IH]; intros [|c cs] i j Hi Hj; cbn [lincomb]; try reflexivity. unfold madd, mscal. rewrite (H i j Hi Hj), (IH cs i j Hi Hj). reflexivity.
Qed.
Lemma F2_length : forall {X Y} (Q : X -> Y -> Prop) l l', Forall2 Q l l' -> length l = length l'.
Proof. intros X Y Q l l' F. induction F; cbn; auto. Qed.
Lemma basis_ext : forall n m P P' l l', (forall X, P X <-> P' X) -> Forall2 (meq n m) l l' -> basis_of n m P l -> basis_of n m P' l'.
Proof.
  intros n m P P' l l' HP F [S I]. pose proof (F2_length _ _ _ F) as L. split.
  - intros X. rewrite <- HP, S. split; intros (cs & Lc & E); exists cs; (split; [congruence|]); intros i j Hi Hj; rewrite (E i j Hi Hj); [|symmetry]; apply (lincomb_ext n m l l' F cs i j Hi Hj).
  - intros cs Lc Z. apply I; [congruence|]. intros i j Hi Hj. rewrite (lincomb_ext n m l l' F cs i j Hi Hj). apply Z; assumption.
Qed.
Lemma split_coeffs : forall (cs : list R) {X} (l l' : list X), length cs = length (l ++ l') -> exists c c', cs = (c ++ c')%list /\ length c = length l /\ length c' = length l'.
Proof.
  intros cs X l l' L. rewrite app_length in L. exists (firstn (length l) cs), (skipn (length l) cs). rewrite firstn_skipn, firstn_length, skipn_length. repeat split; lia.
Qed.
Lemma basis_cols : forall n m1 m2 P Q l l', basis_of n m1 P l -> basis_of n m2 Q l' ->
  basis_of n (m1 + m2) (fun X => P X /\ Q (fun a b => X a (m1 + b)%nat)) (map (in_cols 0 m1) l ++ map (in_cols m1 m2) l').
Proof.
  intros n m1 m2 P Q l l' [S I] [S' I'].
  assert (forall c c' a b, length c = length l -> (b < m1)%nat -> lincomb (c ++ c') (map (in_cols 0 m1) l ++ map (in_cols m1 m2) l') a b = lincomb c l a b) as E1.
  { intros c c' a b Lc Hb. rewrite lincomb_app by (rewrite map_length; exact Lc). rewrite (lincomb_map _ a b a b) by (intros E; unfold in_cols; rewrite (proj2 (Nat.ltb_lt _ _)) by lia; cbn [Nat.leb andb]; rewrite Nat.sub_0_r; reflexivity).
    rewrite (lincomb_null c'); [ring|]. intros F HF. apply in_map_iff in HF. destruct HF as (E & <- & _). unfold in_cols. rewrite (proj2 (Nat.leb_gt _ _)) by lia. reflexivity. }
  assert (forall c c' a b, length c = length l -> (b < m2)%nat -> lincomb (c ++ c') (map (in_cols 0 m1) l ++ map (in_cols m1 m2) l') a (m1 + b)%nat = lincomb c' l' a b) as E2.
  { intros c c' a b Lc Hb. rewrite lincomb_app by (rewrite map_length; exact Lc).
    rewrite (lincomb_map (in_cols m1 m2) a (m1 + b)%nat a b) by (intros E; unfold in_cols; rewrite (proj2 (Nat.ltb_lt _ _)), (proj2 (Nat.leb_le _ _)) by lia; cbn [andb]; f_equal; lia).
    rewrite (lincomb_null c); [ring|]. intros F HF. apply in_map_iff in HF. destruct HF as (E & <- & _). unfold in_cols. rewrite (proj2 (Nat.ltb_ge _ _)) by lia. rewrite andb_false_r. reflexivity. }
  split.
  - intros X. rewrite S, S'. split.
    + intros [(c & Lc & M) (c' & Lc' & M')]. exists (c ++ c')%list. split; [rewrite !app_length, !map_length; lia|]. intros a b Ha Hb.
      destruct (Nat.lt_ge_cases b m1) as [H|H]; [rewrite E1 by assumption; apply M; assumption|]. replace b with (m1 + (b - m1))%nat by lia. rewrite E2 by (try assumption; lia). apply (M' a (b - m1)%nat Ha). lia.
    + intros (cs & Lc & M). destruct (split_coeffs cs _ _ Lc) as (c & c' & -> & L1 & L2). rewrite map_length in L1, L2. split; [exists c|exists c']; (split; [assumption|]); intros a b Ha Hb.
      * rewrite M by (try assumption; lia). apply E1; assumption.
      * rewrite M by (try assumption; lia). apply E2; assumption.
  - intros cs Lc Z. destruct (split_coeffs cs _ _ Lc) as (c & c' & -> & L1 & L2). rewrite map_length in L1, L2. apply Forall_app. split; [apply I|apply I']; try assumption; intros a b Ha Hb.
    + rewrite <- (E1 c c' a b L1 Hb). rewrite Z by lia. reflexivity.
    + rewrite <- (E2 c c' a b L1 Hb). rewrite Z by lia. reflexivity.
Qed.
Lemma basis_rows : forall n1 n2 m P Q l l', basis_of n1 m P l -> basis_of n2 m Q l' ->
  basis_of (n1 + n2) m (fun X => P X /\ Q (fun a b => X (n1 + a)%nat b)) (map (in_rows 0 n1) l ++ map (in_rows n1 n2) l').
Proof.
  intros n1 n2 m P Q l l' [S I] [S' I'].
  assert (forall c c' a b, length c = length l -> (a < n1)%nat -> lincomb (c ++ c') (map (in_rows 0 n1) l ++ map (in_rows n1 n2) l') a b = lincomb c l a b) as E1.
  { intros c c' a b Lc Hb. rewrite lincomb_app by (rewrite map_length; exact Lc). rewrite (lincomb_map _ a b a b) by (intros E; unfold in_rows; rewrite (proj2 (Nat.ltb_lt _ _)) by lia; cbn [Nat.leb andb]; rewrite Nat.sub_0_r; reflexivity).
    rewrite (lincomb_null c'); [ring|]. intros F HF. apply in_map_iff in HF. destruct HF as (E & <- & _). unfold in_rows. rewrite (proj2 (Nat.leb_gt _ _)) by lia. reflexivity. }
  assert (forall c c' a b, length c = length l -> (a < n2)%nat -> lincomb (c ++ c') (map (in_rows 0 n1) l ++ map (in_rows n1 n2) l') (n1 + a)%nat b = lincomb c' l' a b) as E2.
  { intros c c' a b Lc Hb. rewrite lincomb_app by (rewrite map_length; exact Lc).
    rewrite (lincomb_map (in_rows n1 n2) (n1 + a)%nat b a b) by (intros E; unfold in_rows; rewrite (proj2 (Nat.ltb_lt _ _)), (proj2 (Nat.leb_le _ _)) by lia; cbn [andb]; f_equal; lia).
    rewrite (lincomb_null c); [ring|]. intros F HF. apply in_map_iff in HF. destruct HF as (E & <- & _). unfold in_rows. rewrite (proj2 (Nat.ltb_ge _ _)) by lia. rewrite andb_false_r. reflexivity. }
  split.
  - intros X. rewrite S, S'. split.
    + intros [(c & Lc & M) (c' & Lc' & M')]. exists (c ++ c')%list. split; [rewrite !app_length, !map_length; lia|]. intros a b Ha Hb.
      destruct (Nat.lt_ge_cases a n1) as [H|H]; [rewrite E1 by assumption; apply M; assumption|]. replace a with (n1 + (a - n1))%nat by lia. rewrite E2 by (try assumption; lia). apply (M' (a - n1)%nat b); [lia|exact Hb].
    + intros (cs & Lc & M). destruct (split_coeffs cs _ _ Lc) as (c & c' & -> & L1 & L2). rewrite map_length in L1, L2. split; [exists c|exists c']; (split; [assumption|]); intros a b Ha Hb.
      * rewrite M by (try assumption; lia). apply E1; assumption.
      * rewrite M by (try assumption; lia). apply E2; assumption.
  - intros cs Lc Z. destruct (split_coeffs cs _ _ Lc) as (c & c' & -> & L1 & L2). rewrite map_length in L1, L2. apply Forall_app. split; [apply I|apply I']; try assumption; intros a b Ha Hb.
    + rewrite <- (E1 c c' a b L1 Ha). rewrite Z by lia. reflexivity.
    + rewrite <- (E2 c c' a b L1 Ha). rewrite Z by lia. reflexivity.
Qed.
(** a change of basis on both sides *)
Lemma basis_conj : forall n m (P : mat -> Prop) l Q Qi S Si, inverse_of n Q Qi -> inverse_of m S Si -> (forall X Y, meq n m X Y -> P X -> P Y) -> basis_of n m P l ->
  basis_of n m (fun X => P (mmul m (mmul n Qi X) S)) (map (fun B => mmul m (mmul n Q B) Si) l).
Proof.
  intros n m P l Q Qi S Si [Q1 Q2] [S1 S2] Pe [Sp In].
  assert (forall cs, meq n m (lincomb cs (map (fun B => mmul m (mmul n Q B) Si) l)) (mmul m (mmul n Q (lincomb cs l)) Si)) as Lin.
  { intros cs. revert cs. induction l as [|E l IH] in |- *; intros [|c cs] i j Hi Hj; cbn [map lincomb].
    1-3: unfold mzero; symmetry; unfold mmul; apply sumn_0; intros; rewrite (sumn_0 n) by (intros; ring); ring.
    unfold madd at 1. rewrite IH by assumption. unfold mscal at 1.
    transitivity (mmul m (madd (mscal c (mmul n Q E)) (mmul n Q (lincomb cs l))) Si i j).
    - rewrite mmul_madd_l, mmul_mscal_l. reflexivity.
    - apply (mmul_ext n m m); [|apply meq_refl|exact Hi|exact Hj]. intros a b Ha Hb. rewrite mmul_madd_r. unfold madd. f_equal. unfold mscal at 1. rewrite mmul_mscal_r. reflexivity. }
  assert (forall X Y, meq n m (mmul m (mmul n Qi X) S) Y <-> meq n m X (mmul m (mmul n Q Y) Si)) as Sw.
  { intros X Y. split; intros H.
    - rewrite <- H. rewrite !mul_assoc, S1, mid_r, <- (mul_assoc n n n m), Q1, mid_l. reflexivity.
    - rewrite H. rewrite !mul_assoc, S2, mid_r, <- (mul_assoc n n n m), Q2, mid_l. reflexivity. }
  split.
  - intros X. rewrite Sp. split; intros (cs & Lc & E); exists cs; (split; [rewrite map_length in *; exact Lc|]).
    + rewrite (Lin cs). apply Sw, E.
    + apply Sw. rewrite <- (Lin cs). exact E.
  - intros cs Lc Z. rewrite map_length in Lc. apply In; [exact Lc|]. rewrite (Lin cs) in Z.
    assert (meq n m (mmul m (mmul n Qi mzero) S) (lincomb cs l)) as W by (apply Sw; symmetry; exact Z).
    rewrite <- W. intros i j _ _. unfold mmul, mzero. apply sumn_0. intros. rewrite (sumn_0 n) by (intros; ring). ring.
Qed.
