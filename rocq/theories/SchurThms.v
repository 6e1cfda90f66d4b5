(** The columns of the change of basis of an induced representation are
    exactly orthonormal. *)
From Coq Require Import Reals ZArith Bool List Lia Lra Setoid Morphisms Arith Permutation.
From Verif Require Import LibRes LibList LibMat LibMatS SpecGroup SpecRep IrrepModel
  RepModel SpecRepr RepProofs SpecReg RegProofs IndModel SpecInd IndProofs SpecDis SpecSchur SchurProofs.
Import ListNotations.
Open Scope R_scope.

Section Cosets.
Context {T S : Type}.
Variables (mem : T -> Prop) (op : T -> T -> res T) (inv : T -> res T) (e : T).
Variables (memH : S -> Prop) (opH : S -> S -> res S) (invH : S -> res S) (eH : S).
Variables (incl : S -> res T) (reps : list T).
Hypothesis HG : is_group mem op inv e.
Hypothesis HH : is_group memH opH invH eH.
Hypothesis HI : is_embedding mem op memH opH incl.
Hypothesis Htr : transversal mem op memH incl reps.

Notation inc := (inc op memH incl).

Lemma shift_inj : forall g r1 r2 r' z1 z2, mem g -> In r1 reps -> In r2 reps -> In r' reps ->
  op g r1 = Ret z1 -> op g r2 = Ret z2 -> inc r' z1 -> inc r' z2 -> r1 = r2.
Proof.
  intros g r1 r2 r' z1 z2 Hg I1 I2 I' E1 E2 C1 C2; destruct Htr as (_ & Hm & Hu).
  assert (M : forall r, In r reps -> mem r) by (apply Forall_forall; exact Hm).
  destruct (grp_op _ _ _ _ HG g r1 Hg (M r1 I1)) as (z & Ez & Mz1); rewrite E1 in Ez; apply Ret_inj in Ez; subst z.
  destruct (grp_op _ _ _ _ HG g r2 Hg (M r2 I2)) as (z & Ez & Mz2); rewrite E2 in Ez; apply Ret_inj in Ez; subst z.
  pose proof (inc_sym mem op inv e memH opH invH eH incl HG HH HI r' z1 (M r' I') C1) as D1.
  pose proof (inc_trans mem op inv e memH opH invH eH incl HG HH HI z1 r' z2 Mz1 (M r' I') D1 C2) as (h & k & Mh & Ek & E).
  destruct (emb_mem _ _ _ _ _ HI h Mh) as (k' & Ek' & Mk); rewrite Ek in Ek'; apply Ret_inj in Ek'; subst k'.
  destruct (grp_op _ _ _ _ HG r1 k (M r1 I1) Mk) as (x & Ex & Mx).
  pose proof (grp_assoc _ _ _ _ HG g r1 k z1 x Hg (M r1 I1) Mk E1 Ex) as A; rewrite E in A; symmetry in A.
  pose proof (op_cancel_l mem op inv e HG g x r2 z2 Hg Mx (M r2 I2) A E2); subst x.
  destruct (Hu r2 (M r2 I2)) as (r & Ir & _ & U).
  rewrite (U r1 I1) by (exists h, k; auto); symmetry; apply U; [exact I2|].
  exact (inc_refl mem op inv e memH opH invH eH incl HG HH HI r2 (M r2 I2)).
Qed.

(** multiplication by [g] permutes the cosets *)
Lemma coset_shift : forall g, mem g -> exists l,
  Forall2 (fun r r' => In r' reps /\ exists z, op g r = Ret z /\ inc r' z) reps l /\ Permutation l reps.
Proof.
  intros g Hg; pose proof Htr as (Nd & Hm & Hu).
  assert (M : forall r, In r reps -> mem r) by (apply Forall_forall; exact Hm).
  assert (X : forall m, NoDup m -> (forall r, In r m -> In r reps) -> exists l,
    Forall2 (fun r r' => In r' reps /\ exists z, op g r = Ret z /\ inc r' z) m l /\ NoDup l).
  { induction m as [|r m IH]; intros Nm Hr; [exists []; split; constructor|].
    inversion Nm as [|? ? Nr Nm']; subst; destruct (IH Nm' (fun x Hx => Hr x (or_intror Hx))) as (l & F & Nl).
    assert (Ir : In r reps) by (apply Hr; left; reflexivity).
    destruct (grp_op _ _ _ _ HG g r Hg (M r Ir)) as (z & Ez & Mz).
    destruct (Hu z Mz) as (r' & Ir' & C & _).
    exists (r' :: l); split; [constructor; [split; [exact Ir'|exists z; split; [exact Ez|exact C]]|exact F]|].
    constructor; [|exact Nl]; intros I.
    assert (Y : exists r2, In r2 m /\ exists z2, op g r2 = Ret z2 /\ inc r' z2).
    { clear - F I; induction F as [|a b m l (_ & Hab) _ IHF]; [destruct I|].
      destruct I as [->|I]; [exists a; split; [left; reflexivity|exact Hab]|].
      destruct (IHF I) as (r2 & I2 & H2); exists r2; split; [right; exact I2|exact H2]. }
    destruct Y as (r2 & I2 & z2 & E2 & C2); apply Nr.
    rewrite (shift_inj g r r2 r' z z2 Hg Ir (Hr r2 (or_intror I2)) Ir' Ez E2 C C2); exact I2. }
  destruct (X reps Nd (fun r H => H)) as (l & F & Nl); exists l; split; [exact F|].
  apply NoDup_Permutation_bis; [exact Nl| |].
  - clear - F; induction F; cbn; lia.
  - intros x Hx; clear - F Hx; assert (Y : forall m, Forall2 (fun r r' => In r' reps /\ exists z, op g r = Ret z /\ inc r' z) m l -> In x reps);
      [clear F; intros m F; induction F as [|a b m l (Ib & _) _ IHF]; [destruct Hx|destruct Hx as [<-|Hx]; [exact Ib|exact (IHF Hx)]]|exact (Y reps F)].
Qed.

Section Pair.
Variables (psi : girrep S) (rho rho' : girrep T) (B B' : mat).
Notation s := (gi_size psi).
Notation d := (gi_size rho).
Notation d' := (gi_size rho').
Hypothesis Opsi : orth_rep memH opH invH eH s (gi_rep psi).
Hypothesis O : orth_rep mem op inv e d (gi_rep rho).
Hypothesis O' : orth_rep mem op inv e d' (gi_rep rho').
Hypothesis HB : forall h k A P, memH h -> incl h = Ret k -> gi_rep rho k = Ret (d, A) -> gi_rep psi h = Ret (s, P) ->
  meq d s (mmul d A B) (mmul s B P).
Hypothesis HB' : forall h k A P, memH h -> incl h = Ret k -> gi_rep rho' k = Ret (d', A) -> gi_rep psi h = Ret (s, P) ->
  meq d' s (mmul d' A B') (mmul s B' P).

Lemma val_mul : forall (r : girrep T), orth_rep mem op inv e (gi_size r) (gi_rep r) -> forall x y z, mem x -> mem y ->
  op x y = Ret z -> meq (gi_size r) (gi_size r) (val r z) (mmul (gi_size r) (val r x) (val r y)).
Proof.
  intros r Or x y z Hx Hy E; destruct (or_mul _ _ _ _ _ _ Or x y Hx Hy) as (z' & A & A' & C & E1 & E2 & E3 & E4 & M).
  rewrite E in E1; apply Ret_inj in E1; subst z'; rewrite (val_eq r x A E2), (val_eq r y A' E3), (val_eq r z C E4); exact M.
Qed.

Lemma val_ret : forall (r : girrep T), orth_rep mem op inv e (gi_size r) (gi_rep r) -> forall x, mem x ->
  gi_rep r x = Ret (gi_size r, val r x) /\ orthogonal (gi_size r) (val r x).
Proof.
  intros r Or x Hx; destruct (or_total _ _ _ _ _ _ Or x Hx) as (A & E & Q); rewrite (val_eq r x A E); split; assumption.
Qed.

(** rho(x) B B'^T rho'(x)^T *)
Definition term (x : T) : mat := mmul s (mmul d (val rho x) B) (mtr (mmul d' (val rho' x) B')).

Lemma term_coset : forall r z, mem r -> inc r z -> meq d d' (term z) (term r).
Proof.
  intros r z Hr (h & k & Mh & Ek & E); destruct (emb_mem _ _ _ _ _ HI h Mh) as (k' & Ek' & Mk); rewrite Ek in Ek'; apply Ret_inj in Ek'; subst k'.
  destruct (or_total _ _ _ _ _ _ Opsi h Mh) as (P & EP & [P1 _]).
  destruct (val_ret rho O k Mk) as [V _], (val_ret rho' O' k Mk) as [V' _].
  pose proof (HB h k _ P Mh Ek V EP) as X; pose proof (HB' h k _ P Mh Ek V' EP) as X'.
  assert (Y : meq d s (mmul d (val rho z) B) (mmul s (mmul d (val rho r) B) P)).
  { rewrite (val_mul rho O r k z Hr Mk E), !mul_assoc, X; reflexivity. }
  assert (Y' : meq d' s (mmul d' (val rho' z) B') (mmul s (mmul d' (val rho' r) B') P)).
  { rewrite (val_mul rho' O' r k z Hr Mk E), !mul_assoc, X'; reflexivity. }
  unfold term; rewrite Y, Y', mul_tr, mul_assoc, <- (mul_assoc _ _ _ _ P), P1, mid_l; reflexivity.
Qed.

Lemma term_left : forall g r z, mem g -> mem r -> op g r = Ret z ->
  meq d d' (mmul d (val rho g) (term r)) (mmul d' (term z) (val rho' g)).
Proof.
  intros g r z Hg Hr E; unfold term.
  destruct (val_ret rho' O' g Hg) as [_ [_ Q]].
  rewrite (val_mul rho O g r z Hg Hr E), (val_mul rho' O' g r z Hg Hr E), !mul_tr.
  rewrite !mul_assoc, Q, mid_r; reflexivity.
Qed.

Definition total : mat := fun i j => fold_right Rplus 0 (map (fun r => term r i j) reps).

Lemma total_mul_l : forall n A l i j, mmul n A (fun i j => fold_right Rplus 0 (map (fun r : T => term r i j) l)) i j =
  fold_right Rplus 0 (map (fun r => mmul n A (term r) i j) l).
Proof.
  intros n A l i j; induction l as [|r l IH]; cbn [map fold_right].
  - unfold mmul; apply sumn_0; intros; ring.
  - rewrite <- IH; unfold mmul; rewrite <- sumn_plus; apply sumn_ext; intros; ring.
Qed.

Lemma total_mul_r : forall n A l i j, mmul n (fun i j => fold_right Rplus 0 (map (fun r : T => term r i j) l)) A i j =
  fold_right Rplus 0 (map (fun r => mmul n (term r) A i j) l).
Proof.
  intros n A l i j; induction l as [|r l IH]; cbn [map fold_right].
  - unfold mmul; apply sumn_0; intros; ring.
  - rewrite <- IH; unfold mmul; rewrite <- sumn_plus; apply sumn_ext; intros; ring.
Qed.

(** the sum over the cosets intertwines rho' and rho *)
Lemma total_intertwines : forall g, mem g -> meq d d' (mmul d (val rho g) total) (mmul d' total (val rho' g)).
Proof.
  intros g Hg i j Hi Hj; unfold total; rewrite total_mul_l, total_mul_r.
  destruct (coset_shift g Hg) as (l & F & Pm).
  assert (M : forall r, In r reps -> mem r) by (apply Forall_forall; exact (proj1 (proj2 Htr))).
  rewrite <- (fold_right_Rplus_perm _ _ (Permutation_map (fun r => mmul d' (term r) (val rho' g) i j) Pm)).
  assert (Y : forall m, Forall2 (fun r r' => In r' reps /\ exists z, op g r = Ret z /\ inc r' z) m l -> (forall r, In r m -> mem r) ->
    fold_right Rplus 0 (map (fun r => mmul d (val rho g) (term r) i j) m) =
    fold_right Rplus 0 (map (fun r => mmul d' (term r) (val rho' g) i j) l)).
  { clear F Pm; intros m F; induction F as [|r r' m l (Ir & z & Ez & C) _ IH]; intros Mm; [reflexivity|].
    cbn [map fold_right]; rewrite IH by (intros; apply Mm; right; assumption); f_equal.
    rewrite (term_left g r z Hg (Mm r (or_introl eq_refl)) Ez i j Hi Hj).
    assert (W : meq d d' (mmul d' (term z) (val rho' g)) (mmul d' (term r') (val rho' g))).
    { rewrite (term_coset r' z (M r' Ir) C); reflexivity. }
    exact (W i j Hi Hj). }
  apply Y; [exact F|exact M].
Qed.

(** products with a matrix that commutes with rho *)
Lemma term_dot : forall E r, rho' = rho -> mem r -> (forall A, gi_rep rho r = Ret (d, A) -> meq d d (mmul d A E) (mmul d E A)) ->
  dotm d d E (term r) = dotm d d E (mmul s B (mtr B')).
Proof.
  intros E r Er Hr HE; unfold term; rewrite Er; destruct (val_ret rho O r Hr) as [V [Q1 Q2]]; specialize (HE _ V).
  set (A := val rho r) in *.
  assert (X : meq d d (mmul s (mmul d A B) (mtr (mmul d A B'))) (mmul d (mmul d A (mmul s B (mtr B'))) (mtr A))).
  { rewrite mul_tr, !mul_assoc; reflexivity. }
  rewrite (dotm_ext d d E E _ _ (meq_refl d d E) X), dotm_comm, dotm_right, dotm_left, dotm_comm.
  apply dotm_ext; [|reflexivity].
  assert (Y : meq d d (mmul d E (mtr (mtr A))) (mmul d A E)) by (rewrite tr_tr; symmetry; exact HE).
  rewrite Y, <- mul_assoc, Q2, mid_l; reflexivity.
Qed.

Lemma total_dot : forall E, rho' = rho -> (forall r A, mem r -> gi_rep rho r = Ret (d, A) -> meq d d (mmul d A E) (mmul d E A)) ->
  dotm d d E total = INR (length reps) * dotm d d E (mmul s B (mtr B')).
Proof.
  intros E Er HE.
  assert (Y : forall l, (forall r, In r l -> mem r) ->
    dotm d d E (fun i j => fold_right Rplus 0 (map (fun r : T => term r i j) l)) = INR (length l) * dotm d d E (mmul s B (mtr B'))).
  { induction l as [|r l IH]; intros M.
    - cbn [map fold_right length INR]; rewrite dotm_comm, Rmult_0_l; apply dotm_zero.
    - cbn [length]; rewrite S_INR, Rmult_plus_distr_r, Rmult_1_l.
      rewrite <- IH by (intros; apply M; right; assumption).
      rewrite <- (term_dot E r Er (M r (or_introl eq_refl))) by (intros A; apply HE, M; left; reflexivity).
      unfold dotm; rewrite <- sumn_plus; apply sumn_ext; intros i _; rewrite <- sumn_plus; apply sumn_ext; intros j _.
      cbn [map fold_right]; ring. }
  apply Y; apply Forall_forall; exact (proj1 (proj2 Htr)).
Qed.
End Pair.
End Cosets.
