(** Frobenius products between the selected slices. *)
From Coq Require Import Reals ZArith Bool List Lia Lra Setoid Morphisms Arith Permutation.
From Verif Require Import LibRes LibList LibMat LibMatS LibTrig SpecGroup SpecRep ParamModel IrrepModel
  RepModel SpecRepr RepProofs SpecReg RegModel RegProofs IndModel SpecInd IndProofs SpecDis SpecSchur SchurProofs SchurThms SchurCor.
Import ListNotations.
Open Scope R_scope.

Lemma one_row : forall (Fs : list mat) j, ForallOrdPairs (fun F G : mat => F 0%nat j = 0 \/ G 0%nat j = 0) Fs ->
  fold_right Rplus 0 (map (fun E : mat => E 0%nat j ^ 2) Fs) <> 0 ->
  exists F, In F Fs /\ F 0%nat j <> 0 /\ forall a b, fold_right Rplus 0 (map (fun E : mat => E 0%nat j * E a b) Fs) = F 0%nat j * F a b.
Proof.
  intros Fs j H; induction H as [|F Fs HF _ IH]; cbn [map fold_right]; intros Nz; [contradiction|].
  destruct (Req_dec (F 0%nat j) 0) as [Z|N].
  - rewrite Z in Nz; destruct IH as (G & IG & NG & X); [intros Y; apply Nz; rewrite Y; ring|].
    exists G; split; [right; exact IG|split; [exact NG|]]; intros a b; rewrite Z, X; ring.
  - exists F; split; [left; reflexivity|split; [exact N|]]; intros a b.
    assert (Z : fold_right Rplus 0 (map (fun E : mat => E 0%nat j * E a b) Fs) = 0).
    { clear IH Nz; induction HF as [|G Fs [X|X] _ IH]; cbn [map fold_right]; [reflexivity|contradiction|]; rewrite X, IH; ring. }
    rewrite Z; ring.
Qed.

Section Dots.
Context {T S : Type}.
Variables (mem : T -> Prop) (op : T -> T -> res T) (inv : T -> res T) (e : T).
Variables (memH : S -> Prop) (opH : S -> S -> res S) (invH : S -> res S) (eH : S).
Variables (incl : S -> res T).
Variable irrH : list Z -> res (girrep S).
Variable psi : girrep S.
Notation s := (gi_size psi).
Hypothesis HI : is_embedding mem op memH opH incl.
Hypothesis Hpsi : orth_rep memH opH invH eH s (gi_rep psi).
Hypothesis Ppsi : (0 < s)%nat.
Hypothesis Upsi : unit_basis s (gi_endo psi).
Hypothesis Spsi : spans_commutant memH s (gi_rep psi) (gi_endo psi).
Hypothesis HH : is_group memH opH invH eH.

Lemma o_unit : forall j, In j (nonnull psi) -> (j < s)%nat /\ exists F (c : R), In F (gi_endo psi) /\ (c = 1 \/ c = -1) /\
  (forall k, (k < s)%nat -> F 0%nat k = if Nat.eqb k j then c else 0) /\ forall a b, o_col psi j a b = c * F a b.
Proof.
  intros j Hj; unfold nonnull in Hj; apply filter_In in Hj as [Ij Nj]; apply in_seq in Ij; split; [lia|].
  destruct (one_row (gi_endo psi) j (unit_rows_other s _ Ppsi Upsi j ltac:(lia))) as (F & IF & NF & X).
  { intros Z; rewrite Z in Nj; unfold Rleb in Nj; destruct (Rle_dec _ _) as [|N] in Nj; [discriminate|apply N].
    left; apply Rinv_0_lt_compat, pow_lt; lra. }
  destruct (unit_rows s _ F j Ppsi Upsi IF ltac:(lia) NF) as [R V].
  exists F, (F 0%nat j); split; [exact IF|split; [exact V|split; [|exact X]]].
  intros k Hk; destruct (Nat.eqb_spec k j) as [->|N]; [reflexivity|apply R; assumption].
Qed.

(** one member of the commutant against two units *)
Lemma unit_dot : forall W F F' c c' j j', (forall h P, memH h -> gi_rep psi h = Ret (s, P) -> meq s s (mmul s P W) (mmul s W P)) ->
  In F (gi_endo psi) -> In F' (gi_endo psi) -> (c = 1 \/ c = -1) -> (c' = 1 \/ c' = -1) -> (j < s)%nat -> (j' < s)%nat ->
  (forall k, (k < s)%nat -> F 0%nat k = if Nat.eqb k j then c else 0) ->
  (forall k, (k < s)%nat -> F' 0%nat k = if Nat.eqb k j' then c' else 0) ->
  forall u u', meq s s (mtr F) (mscal u F) -> meq s s (mtr F') (mscal u' F') -> (u' = 1 \/ u' = -1) ->
  dotm s s W (mmul s (mscal c F) (mtr (mscal c' F'))) = u * u' * INR s * W j j'.
Proof.
  intros W F F' c c' j j' HW IF IF' Hc Hc' Hj Hj' R R' u u' Hu Hu' Su.
  set (V := mmul s (mmul s F W) (mtr F')).
  assert (HV : forall h P, memH h -> gi_rep psi h = Ret (s, P) -> meq s s (mmul s P V) (mmul s V P)).
  { intros h P Hh EP; pose proof (units_commute _ memH s (gi_rep psi) _ F Spsi IF h P Hh EP) as C1.
    assert (C2 : meq s s (mmul s P (mtr F')) (mmul s (mtr F') P)).
    { pose proof (units_commute _ memH s (gi_rep psi) _ F' Spsi IF' h P Hh EP) as C2.
      rewrite Hu'; intros i k Hi Hk; pose proof (C2 i k Hi Hk) as X.
      transitivity (u' * mmul s P F' i k); [apply mmul_mscal_r|]; transitivity (u' * mmul s F' P i k); [rewrite X; reflexivity|].
      symmetry; apply mmul_mscal_l. }
    specialize (HW h P Hh EP); unfold V.
    rewrite <- !mul_assoc, C1, (mul_assoc _ _ _ _ F P W), HW, !mul_assoc, C2; reflexivity. }
  pose proof (commutant_diag _ memH s (gi_rep psi) _ V Spsi Upsi HV 0%nat Ppsi) as D.
  assert (V00 : V 0%nat 0%nat = c * c' * W j j').
  { unfold V, mmul, mtr; rewrite (sumn_single s j'); [|exact Hj'|].
    - rewrite R', Nat.eqb_refl by exact Hj'; rewrite (sumn_single s j); [|exact Hj|].
      + rewrite R, Nat.eqb_refl by exact Hj; ring.
      + intros k Hk N; rewrite R by exact Hk; apply Nat.eqb_neq in N; rewrite N; ring.
    - intros k Hk N; rewrite R' by exact Hk; apply Nat.eqb_neq in N; rewrite N; ring. }
  assert (X : dotm s s W (mmul s (mscal c F) (mtr (mscal c' F'))) = c * c' * dotm s s W (mmul s F (mtr F'))).
  { unfold dotm; rewrite <- sumn_scal_l; apply sumn_ext; intros i _; rewrite <- sumn_scal_l; apply sumn_ext; intros k _.
    assert (Y : mmul s (mscal c F) (mtr (mscal c' F')) i k = c * c' * mmul s F (mtr F') i k).
    { unfold mmul, mscal, mtr; rewrite <- sumn_scal_l; apply sumn_ext; intros; ring. }
    rewrite Y; ring. }
  assert (Tr : trace s V = u * u' * dotm s s W (mmul s F (mtr F'))).
  { assert (Y : dotm s s W (mmul s F (mtr F')) = trace s (mmul s (mmul s (mtr F) W) F')).
    { rewrite dotm_comm, dotm_left, dotm_trace.
      assert (Z : meq s s (mmul s (mtr F') (mtr (mmul s (mtr F) W))) (mtr (mmul s (mmul s (mtr F) W) F'))).
      { rewrite (mul_tr s s s (mmul s (mtr F) W) F'); reflexivity. }
      rewrite Z; reflexivity. }
    rewrite Y; unfold V.
    assert (Z : meq s s (mmul s (mmul s F W) (mtr F')) (mscal (u * u') (mmul s (mmul s (mtr F) W) F'))).
    { intros i k Hi Hk; unfold mscal.
      assert (Z1 : meq s s (mmul s (mmul s F W) (mtr F')) (mscal u' (mmul s (mmul s F W) F'))).
      { rewrite Hu'; intros a b _ _; apply mmul_mscal_r. }
      assert (Z2 : meq s s (mmul s (mmul s (mtr F) W) F') (mscal u (mmul s (mmul s F W) F'))).
      { rewrite Hu; intros a b _ _; unfold mscal at 2; rewrite <- mmul_mscal_l; unfold mmul at 1 3; apply sumn_ext; intros k0 _; f_equal.
        unfold mscal at 2; apply mmul_mscal_l. }
      assert (U2 : u * u = 1).
      { pose proof (proj1 (Forall_forall _ _) (ub_orth _ _ Upsi) F IF) as [Of _].
        pose proof (Hu 0%nat j) as X1; unfold mtr, mscal in X1.
        pose proof (Hu j 0%nat Hj Ppsi) as X2; unfold mtr, mscal in X2; rewrite (X1 Ppsi Hj), R, Nat.eqb_refl in X2 by exact Hj.
        destruct Hc; subst c; lra. }
      rewrite (Z1 i k Hi Hk), (Z2 i k Hi Hk); unfold mscal.
      transitivity (u * u * u' * mmul s (mmul s F W) F' i k); [rewrite U2; ring|ring]. }
    rewrite Z; unfold trace, mscal; rewrite sumn_scal_l; reflexivity. }
  assert (U2 : u' * u' = 1) by (destruct Su; subst; ring).
  assert (C2 : c * c = 1 /\ c' * c' = 1) by (destruct Hc, Hc'; subst; split; ring); destruct C2 as [C2 C2'].
  assert (Uu : u * u = 1).
  { pose proof (Hu 0%nat j Ppsi Hj) as X1; unfold mtr, mscal in X1.
    pose proof (Hu j 0%nat Hj Ppsi) as X2; unfold mtr, mscal in X2; rewrite X1, R, Nat.eqb_refl in X2 by exact Hj.
    destruct Hc; subst c; lra. }
  rewrite X; rewrite V00 in D; set (q := dotm s s W (mmul s F (mtr F'))) in *.
  transitivity (c * c' * ((u * u) * (u' * u') * q)); [rewrite Uu, U2; ring|].
  transitivity (c * c' * u * u' * (u * u' * q)); [ring|]; rewrite <- Tr, <- D.
  transitivity ((c * c) * (c' * c') * (u * u' * INR s * W j j')); [ring|rewrite C2, C2'; ring].
Qed.

Variables (rho : girrep T) (r : repr S).
Notation d := (gi_size rho).
Hypothesis O : orth_rep mem op inv e d (gi_rep rho).
Hypothesis Hres : restriction_of irrH memH incl rho r.
Hypothesis Ocob : orthogonal d (r_cob r).

Lemma occurs_bound : forall q, occurs memH irrH psi (r_irreps r) q -> (q + s <= d)%nat.
Proof.
  intros q Hq; destruct Hres as (Sr & [_ Rr] & _).
  destruct (Rr eH (grp_id _ _ _ _ HH)) as (bs & V & Ev & Eb & _).
  destruct (or_total _ _ _ _ _ _ Hpsi eH (grp_id _ _ _ _ HH)) as (P & EP & _).
  destruct (Hq eH bs P (grp_id _ _ _ _ HH) Ev EP) as [L _]; lia.
Qed.

Lemma inv_tr : meq d d (r_inv r) (mtr (r_cob r)).
Proof.
  destruct Hres as (Sr & [Ri _] & _); rewrite Sr in Ri.
  apply (inverse_unique d (r_cob r)); [exact Ri|apply orthogonal_inverse; exact Ocob].
Qed.

Lemma slice_dot : forall E, (forall g A, mem g -> gi_rep rho g = Ret (d, A) -> meq d d (mmul d A E) (mmul d E A)) ->
  forall x y, In (snd x) (nonnull psi) -> In (snd y) (nonnull psi) ->
  occurs memH irrH psi (r_irreps r) (fst x) -> occurs memH irrH psi (r_irreps r) (fst y) ->
  exists q : R, (x = y -> q = 1) /\
    dotm d d E (mmul s (mmul d (r_cob r) (snd (mk psi x))) (mtr (mmul d (r_cob r) (snd (mk psi y))))) =
    q * INR s * conj_entry rho r E (fst x + snd x) (fst y + snd y).
Proof.
  intros E HE x y Ix Iy Ox Oy.
  pose proof (occurs_bound (fst x) Ox) as Bx; pose proof (occurs_bound (fst y) Oy) as By.
  set (Y := mmul d (mmul d (r_inv r) E) (r_cob r)).
  set (W := (fun a b => Y (fst x + a)%nat (fst y + b)%nat) : mat).
  (* W commutes with psi *)
  assert (HW : forall h P, memH h -> gi_rep psi h = Ret (s, P) -> meq s s (mmul s P W) (mmul s W P)).
  { intros h P Hh EP; destruct Hres as (Sr & [Ri Rr] & Rv); rewrite Sr in Ri.
    destruct (Rr h Hh) as (bs & V & Ev & Eb & EV & MV); rewrite Sr in *.
    destruct (Rv h Hh) as (g & A & V' & Eg & EA & EV' & MA).
    rewrite EV in EV'; apply Ret_inj in EV'; injection EV' as <-.
    assert (Mg : mem g) by (destruct (emb_mem _ _ _ _ _ HI h Hh) as (g' & E' & M'); rewrite Eg in E'; apply Ret_inj in E'; subst; exact M').
    specialize (HE g A Mg EA); rewrite MA, MV in HE; destruct Ri as [Ri1 Ri2].
    assert (C : meq d d (mmul d (bdiag bs) Y) (mmul d Y (bdiag bs))).
    { unfold Y.
      transitivity (mmul d (mmul d (r_inv r) (mmul d (mmul d (mmul d (r_cob r) (bdiag bs)) (r_inv r)) E)) (r_cob r)).
      - rewrite <- !mul_assoc, Ri2, mid_l; reflexivity.
      - rewrite HE, !mul_assoc, Ri2, mid_r; reflexivity. }
    destruct (Ox h bs P Hh Ev EP) as [_ X1], (Oy h bs P Hh Ev EP) as [_ X2]; rewrite Eb in X1, X2.
    intros a b Ha Hb; specialize (C (fst x + a)%nat (fst y + b)%nat ltac:(lia) ltac:(lia)); unfold mmul in C at 1 2.
    rewrite (sumn_support d (fst x) s) in C; [|exact Bx|].
    2:{ intros k Hk Hout; rewrite (proj1 (X1 a k Ha Hk)).
        destruct (Nat.leb_spec (fst x) k), (Nat.ltb_spec k (fst x + s)); cbn [andb]; try lia; ring. }
    rewrite (sumn_support d (fst y) s) in C; [|exact By|].
    2:{ intros k Hk Hout; rewrite (proj2 (X2 b k Hb Hk)).
        destruct (Nat.leb_spec (fst y) k), (Nat.ltb_spec k (fst y + s)); cbn [andb]; try lia; ring. }
    unfold mmul; etransitivity; [|etransitivity; [exact C|]]; apply sumn_ext; intros k Hk.
    - rewrite (proj1 (X1 a (fst x + k)%nat Ha ltac:(lia))); unfold W.
      destruct (Nat.leb_spec (fst x) (fst x + k)), (Nat.ltb_spec (fst x + k) (fst x + s)); cbn [andb]; try lia.
      replace (fst x + k - fst x)%nat with k by lia; reflexivity.
    - rewrite (proj2 (X2 b (fst y + k)%nat Hb ltac:(lia))); unfold W.
      destruct (Nat.leb_spec (fst y) (fst y + k)), (Nat.ltb_spec (fst y + k) (fst y + s)); cbn [andb]; try lia.
      replace (fst y + k - fst y)%nat with k by lia; reflexivity. }
  (* move the change of basis over *)
  assert (M1 : dotm d d E (mmul s (mmul d (r_cob r) (snd (mk psi x))) (mtr (mmul d (r_cob r) (snd (mk psi y))))) =
               dotm s s W (mmul s (o_col psi (snd x)) (mtr (o_col psi (snd y))))).
  { set (Sx := snd (mk psi x)); set (Sy := snd (mk psi y)).
    assert (Z : meq d d (mmul s (mmul d (r_cob r) Sx) (mtr (mmul d (r_cob r) Sy)))
                        (mmul d (mmul d (r_cob r) (mmul s Sx (mtr Sy))) (mtr (r_cob r)))).
    { rewrite mul_tr, !mul_assoc; reflexivity. }
    rewrite Z, dotm_comm, dotm_right, dotm_left.
    assert (Z' : meq d d (mmul d (mtr (r_cob r)) (mmul d E (mtr (mtr (r_cob r))))) Y).
    { unfold Y; rewrite tr_tr, inv_tr, mul_assoc; reflexivity. }
    rewrite Z', dotm_comm; unfold dotm.
    rewrite (sumn_support d (fst x) s); [|exact Bx|].
    2:{ intros k Hk Hout; apply sumn_0; intros l Hl.
        assert (X : mmul s Sx (mtr Sy) k l = 0); [|rewrite X; ring]; unfold mmul; apply sumn_0; intros m _; unfold Sx, mk; cbn [snd].
        destruct (Nat.leb_spec (fst x) k), (Nat.ltb_spec k (fst x + s)); cbn [andb]; try lia; ring. }
    apply sumn_ext; intros a Ha; rewrite (sumn_support d (fst y) s); [|exact By|].
    2:{ intros k Hk Hout.
        assert (X : mmul s Sx (mtr Sy) (fst x + a)%nat k = 0); [|rewrite X; ring]; unfold mmul, mtr; apply sumn_0; intros m _; unfold Sy, mk; cbn [snd].
        destruct (Nat.leb_spec (fst y) k), (Nat.ltb_spec k (fst y + s)); cbn [andb]; try lia; ring. }
    apply sumn_ext; intros b Hb; unfold W; f_equal; unfold mmul, mtr; apply sumn_ext; intros m _; unfold Sx, Sy, mk; cbn [snd].
    destruct (Nat.leb_spec (fst x) (fst x + a)), (Nat.ltb_spec (fst x + a) (fst x + s)); cbn [andb]; try lia.
    destruct (Nat.leb_spec (fst y) (fst y + b)), (Nat.ltb_spec (fst y + b) (fst y + s)); cbn [andb]; try lia.
    replace (fst x + a - fst x)%nat with a by lia; replace (fst y + b - fst y)%nat with b by lia; reflexivity. }
  assert (Main : forall F F' c c', In F (gi_endo psi) -> In F' (gi_endo psi) -> (c = 1 \/ c = -1) -> (c' = 1 \/ c' = -1) ->
    (snd x < s)%nat -> (snd y < s)%nat ->
    (forall k, (k < s)%nat -> F 0%nat k = if Nat.eqb k (snd x) then c else 0) ->
    (forall k, (k < s)%nat -> F' 0%nat k = if Nat.eqb k (snd y) then c' else 0) ->
    (forall a b, o_col psi (snd x) a b = c * F a b) -> (forall a b, o_col psi (snd y) a b = c' * F' a b) ->
    forall u u', meq s s (mtr F) (mscal u F) -> meq s s (mtr F') (mscal u' F') -> (u' = 1 \/ u' = -1) ->
    dotm d d E (mmul s (mmul d (r_cob r) (snd (mk psi x))) (mtr (mmul d (r_cob r) (snd (mk psi y))))) =
    u * u' * INR s * conj_entry rho r E (fst x + snd x) (fst y + snd y)).
  { intros F F' c c' IF IF' Hc Hc' Lx Ly R R' Q Q' u u' Hu Hu' Su; rewrite M1.
    assert (Z : meq s s (mmul s (o_col psi (snd x)) (mtr (o_col psi (snd y)))) (mmul s (mscal c F) (mtr (mscal c' F')))).
    { intros i k _ _; unfold mmul, mtr, mscal; apply sumn_ext; intros m _; rewrite Q, Q'; reflexivity. }
    rewrite Z; exact (unit_dot W F F' c c' (snd x) (snd y) HW IF IF' Hc Hc' Lx Ly R R' u u' Hu Hu' Su). }
  destruct (o_unit (snd x) Ix) as (Lx & F & c & IF & Hc & R & Q).
  destruct (unit_sign s _ F Upsi IF) as (u & Su & Hu).
  destruct (Nat.eq_dec (snd x) (snd y)) as [Ej|Nj].
  - exists (u * u); split; [intros _; destruct Su; subst u; ring|].
    apply (Main F F c c); auto; rewrite <- Ej; assumption.
  - destruct (o_unit (snd y) Iy) as (Ly & F' & c' & IF' & Hc' & R' & Q').
    destruct (unit_sign s _ F' Upsi IF') as (u' & Su' & Hu').
    exists (u * u'); split; [intros ->; contradiction|]; apply (Main F F' c c'); assumption.
Qed.
End Dots.
