(** The slices that `_dirac_kernel_ft` keeps, moved by the commutant, are an orthonormal basis of the intertwiners. *)
From Coq Require Import Reals ZArith Bool List Lia Lra Setoid Morphisms Arith.
From Verif Require Import LibRes LibList LibMat LibMatS LibTrig SpecGroup SpecRep ParamModel ParamProofs IrrepModel
  RepModel SpecRepr RepProofs SpecReg RegModel RegProofs IndModel SpecInd IndProofs SpecDis SpecSchur SchurProofs SchurThms SchurCor SchurFin SchurInd SpecHom HomProofs.
Import ListNotations.
Open Scope R_scope.

Lemma fop_pair : forall A (Q : A -> A -> Prop) l x y, ForallOrdPairs Q l -> In x l -> In y l -> x = y \/ Q x y \/ Q y x.
Proof.
  intros A Q l x y F; induction F as [|a l Fa F IH]; intros Hx Hy; [destruct Hx|].
  destruct Hx as [<-|Hx], Hy as [<-|Hy]; [left; reflexivity| | |apply IH; assumption].
  - right; left; exact (proj1 (Forall_forall _ _) Fa y Hy).
  - right; right; exact (proj1 (Forall_forall _ _) Fa x Hx).
Qed.

Section Basis.
Context {T S : Type}.
Variables (mem : T -> Prop) (op : T -> T -> res T) (inv : T -> res T) (e : T).
Variables (memH : S -> Prop) (opH : S -> S -> res S) (invH : S -> res S) (eH : S).
Variables (incl : S -> res T).
Variable irrH : list Z -> res (girrep S).
Variable restrict : list Z -> res (repr S).
Variable components : nat -> (nat -> nat -> bool) -> nat * (nat -> nat).
Variable psi : girrep S.
Hypothesis HG : is_group mem op inv e.
Hypothesis HH : is_group memH opH invH eH.
Hypothesis HI : is_embedding mem op memH opH incl.
Hypothesis Hpsi : orth_rep memH opH invH eH (gi_size psi) (gi_rep psi).
Hypothesis Epsi : irrH (gi_id psi) = Ret psi.
Hypothesis Ppsi : (0 < gi_size psi)%nat.
Hypothesis Dpsi : described memH psi.
Hypothesis Hsz : forall id r h b, irrH id = Ret r -> memH h -> gi_rep r h = Ret b -> fst b = gi_size r.
Hypothesis Hcomp : correct_components components.
Variables (rho : girrep T) (r : repr S).
Hypothesis Prho : (0 < gi_size rho)%nat.
Hypothesis O : orth_rep mem op inv e (gi_size rho) (gi_rep rho).
Hypothesis Drho : described mem rho.
Hypothesis Er : restrict (gi_id rho) = Ret r.
Hypothesis Hres : restriction_of irrH memH incl rho r.
Hypothesis Hclear : clear_restriction rho r.

Notation s := (gi_size psi).
Notation d := (gi_size rho).
Notation slice x := (mmul d (r_cob r) (snd (mk psi x))).
Notation inter := (intertwines memH incl psi rho).

Lemma psi_commutes : endo_commutes memH psi.
Proof. intros h P E' Hh EP IE; exact (units_commute S memH s (gi_rep psi) (gi_endo psi) E' (proj1 Dpsi) IE h P Hh EP). Qed.

Lemma slice_intertwines : forall sl, psi_slices irrH psi (r_irreps r) 0 = Ret sl -> forall x, In x sl -> inter (mmul d (r_cob r) (snd x)).
Proof.
  intros sl Es [c M] HM h k A P Hh Ek EA EP; cbn [snd].
  destruct Hres as (Sr & [[_ Ri] Rr] & Rv).
  destruct (Rr h Hh) as (bs & V & Ev & Eb & EV & MV); rewrite Sr in *.
  destruct (Rv h Hh) as (g & A' & V' & Eg & EA' & EV' & MA).
  rewrite Ek in Eg; apply Ret_inj in Eg; subst g; rewrite EA in EA'; apply Ret_inj in EA'; injection EA' as <-.
  rewrite EV in EV'; apply Ret_inj in EV'; injection EV' as <-.
  destruct (slices_intertwine memH irrH psi Epsi psi_commutes Ppsi _ _ _ Es h bs P Hh Ev eq_refl EP) with (c := c) (M := M) as [_ Z]; [|exact HM|].
  { apply Forall_forall; intros id _ r' b E1 E2; exact (Hsz id r' h b E1 Hh E2). }
  assert (ZM : meq d s (mmul d (bdiag bs) M) (mmul s M P)).
  { intros a b Ha Hb; rewrite Eb in Z; exact (Z a b Ha Hb). }
  rewrite MA, MV, (mul_assoc _ _ _ _ _ (r_inv r)).
  rewrite <- (mul_assoc _ _ _ _ (r_inv r)), Ri, mid_l, mul_assoc, ZM, mul_assoc; reflexivity.
Qed.

Lemma endo_inter : forall E X, (forall g A, mem g -> gi_rep rho g = Ret (d, A) -> meq d d (mmul d A E) (mmul d E A)) ->
  inter X -> inter (mmul d E X).
Proof.
  intros E X HE HX h k A P Hh Ek EA EP; destruct (emb_mem _ _ _ _ _ HI h Hh) as (k' & Ek' & Mk); rewrite Ek in Ek'; apply Ret_inj in Ek'; subst k'.
  rewrite <- mul_assoc, (HE k A Mk EA), mul_assoc, (HX h k A P Hh Ek EA EP), mul_assoc; reflexivity.
Qed.

(** the product of corresponding columns does not depend on the column *)
Lemma column_dotm : forall X Y p, inter X -> inter Y -> (p < s)%nat -> INR s * column_product d p X Y = dotm d s X Y.
Proof.
  intros X Y p HX HY Hp; set (W := mmul d (mtr X) Y).
  assert (C : forall h P, memH h -> gi_rep psi h = Ret (s, P) -> meq s s (mmul s P W) (mmul s W P)).
  { intros h P Hh EP; destruct (emb_mem _ _ _ _ _ HI h Hh) as (k & Ek & Mk); destruct (or_total _ _ _ _ _ _ O k Mk) as (A & EA & [O1 O2]).
    destruct (or_total _ _ _ _ _ _ Hpsi h Hh) as (P' & EP' & [P1 P2]); rewrite EP in EP'; apply Ret_inj in EP'; injection EP' as <-.
    pose proof (HX h k A P Hh Ek EA EP) as X1; pose proof (HY h k A P Hh Ek EA EP) as Y1.
    (* P^T W P = (X P)^T (Y P) = (A X)^T (A Y) = W *)
    assert (K : meq s s (mmul s (mmul s (mtr P) W) P) W).
    { unfold W; transitivity (mmul d (mtr (mmul s X P)) (mmul s Y P)).
      - rewrite mul_tr, !mul_assoc; reflexivity.
      - rewrite <- X1, <- Y1, mul_tr, !mul_assoc, <- (mul_assoc _ _ _ _ (mtr A) A), O2, mid_l; reflexivity. }
    rewrite <- K at 1; rewrite <- !mul_assoc, P1, mid_l; reflexivity. }
  destruct Dpsi as (Sp & U & _); pose proof (commutant_diag S memH s (gi_rep psi) (gi_endo psi) W Sp U C p Hp) as X0.
  unfold column_product; transitivity (INR s * W p p); [unfold W, mmul, mtr; reflexivity|rewrite X0].
  unfold trace, W, mmul, mtr, dotm; rewrite sumn_swap; reflexivity.
Qed.

Lemma all_intertwiners : forall sl X, psi_slices irrH psi (r_irreps r) 0 = Ret sl -> told_apart memH irrH psi r -> inter X ->
  inspan d s (map (fun x => mmul d (r_cob r) (snd x)) sl) X.
Proof.
  intros sl X Es HT HX; destruct Hres as (Sr & [[Rl Ri] Rr] & Rv); rewrite Sr in Rl, Ri.
  destruct (slices_span memH opH invH eH irrH psi HH Epsi Ppsi Dpsi Hsz (r_irreps r) 0 sl d (mmul d (r_inv r) X) Es) as (cs & Lc & Ec).
  - intros id r' I E N; exact (HT id r' I E N).
  - intros h Hh; destruct (Rr h Hh) as (bs & V & Ev & Eb & _); exists bs; rewrite <- Sr; split; assumption.
  - intros h bs P Hh Ev EP a b Ha Hb.
    destruct (Rr h Hh) as (bs' & V & Ev' & Eb & EV & MV); rewrite Ev in Ev'; apply Ret_inj in Ev'; subst bs'; rewrite Sr in *.
    destruct (Rv h Hh) as (g & A & V' & Eg & EA & EV' & MA); rewrite EV in EV'; apply Ret_inj in EV'; injection EV' as <-.
    assert (K : meq d s (mmul d (bdiag bs) (mmul d (r_inv r) X)) (mmul s (mmul d (r_inv r) X) P)).
    { rewrite (mul_assoc _ _ _ _ (r_inv r) X P), <- (HX h g A P Hh Eg EA EP), MA, MV, !mul_assoc.
      rewrite <- (mul_assoc _ _ _ _ (r_inv r) (r_cob r)), Ri, mid_l; reflexivity. }
    exact (K a b Ha Hb).
  - exists cs; split; [rewrite map_length; exact Lc|].
    assert (K : meq d s (mmul d (r_inv r) X) (lincomb cs (map snd sl))) by (intros a b Ha Hb; apply (Ec a b Ha Hb)).
    transitivity (mmul d (r_cob r) (lincomb cs (map snd sl))).
    + rewrite <- K, <- mul_assoc, Rl, mid_l; reflexivity.
    + clear; revert cs; induction sl as [|x sl IH]; intros [|c cs]; intros a b Ha Hb; cbn [map lincomb]; try (unfold mmul, mzero; rewrite sumn_0; [reflexivity|intros; ring]).
      unfold madd, mscal; rewrite <- (IH cs a b Ha Hb); unfold mmul; rewrite <- sumn_scal_l, <- sumn_plus; apply sumn_ext; intros; ring.
Qed.

Lemma dirac_shape : forall B, dirac_kernel_ft irrH restrict components rho psi = Ret B -> exists l l',
  psi_slices irrH psi (r_irreps r) 0 = Ret (map (mk psi) l) /\ B = map (fun x => slice x) l' /\ (forall x, In x l' -> In x l) /\
  (forall x, In x l -> proper_slice memH irrH psi r x) /\ ForallOrdPairs (apart psi) l /\
  ForallOrdPairs (fun x y => apart psi x y /\
      ((1 < gi_sosc rho)%nat -> forall E, In E (gi_endo rho) -> conj_entry rho r E (fst x + snd x) (fst y + snd y) = 0)) l' /\
  length l = (length l' * gi_sosc rho)%nat.
Proof.
  intros B EB; unfold dirac_kernel_ft in EB; rewrite Er in EB; cbn [bind] in EB.
  apply bind_Ret in EB as (sl & Es & EB); apply bind_Ret in EB as (sl' & Es' & EB); apply Ret_inj in EB.
  destruct (slices_shape memH irrH psi Epsi Ppsi Hsz _ _ _ Es) as (l & -> & Fl & Al).
  assert (Pl : forall x, In x l -> proper_slice memH irrH psi r x).
  { intros x Ix; destruct (proj1 (Forall_forall _ _) Fl x Ix) as (I & _ & Oc); rewrite Nat.sub_0_r in Oc; split; assumption. }
  assert (Bl : forall x, In x l -> (fst x + snd x < gi_size rho)%nat).
  { intros x Ix; destruct (Pl x Ix) as [I Oc]; pose proof (nonnull_lt psi Ppsi _ I).
    pose proof (occurs_bound memH opH invH eH incl irrH psi Hpsi Ppsi HH rho r Hres _ Oc); lia. }
  destruct (select_shape components psi Ppsi Hcomp rho r l sl' Es' Al Hclear Bl) as (l' & -> & Sub & Ap).
  rewrite map_map in EB; subst B; exists l, l'.
  split; [exact Es|]; split; [reflexivity|]; split; [exact Sub|]; split; [exact Pl|]; split; [exact Al|]; split; [exact Ap|].
  assert (Ps : (0 < gi_sosc rho)%nat).
  { destruct Drho as (_ & U & <-); destruct (ub_first _ _ U) as (F & Fs & -> & _); cbn; lia. }
  unfold select in Es'; destruct (Nat.ltb_spec 1 (gi_sosc rho)) as [L|L].
  - apply assert_Ret in Es' as [_ Es']; apply assert_Ret in Es' as [Q Es']; apply bind_Ret in Es' as (f & _ & Es').
    apply assert_Ret in Es' as [Q' Es']; apply Ret_inj in Es'; apply Nat.eqb_eq in Q, Q'.
    apply (f_equal (@length _)) in Es'; rewrite !map_length in *; rewrite Q' in Es'; rewrite <- Es'; lia.
  - apply Ret_inj in Es'; apply (f_equal (@length _)) in Es'; rewrite !map_length in Es'; rewrite Es'; replace (gi_sosc rho) with 1%nat by lia; lia.
Qed.

Lemma in_inter : forall l, psi_slices irrH psi (r_irreps r) 0 = Ret (map (mk psi) l) -> forall x, In x l -> inter (slice x).
Proof. intros l Es x Ix; apply (slice_intertwines _ Es (mk psi x)); apply in_map; exact Ix. Qed.

Lemma commuting : forall E, In E (gi_endo rho) -> forall g A, mem g -> gi_rep rho g = Ret (d, A) -> meq d d (mmul d A E) (mmul d E A).
Proof. intros E IE; exact (units_commute T mem d (gi_rep rho) (gi_endo rho) E (proj1 Drho) IE). Qed.

Lemma moved_dot : forall E x y, In E (gi_endo rho) -> proper_slice memH irrH psi r x -> proper_slice memH irrH psi r y ->
  exists q : R, (x = y -> q = 1) /\ dotm d s (mmul d E (slice y)) (slice x) = q * INR s * conj_entry rho r E (fst x + snd x) (fst y + snd y).
Proof.
  intros E x y IE [Ix Ox] [Iy Oy]; destruct Dpsi as (Spsi & Upsi & _), Hclear as [Ocob _].
  destruct (slice_dot mem op memH opH invH eH incl irrH psi HI Hpsi Ppsi Upsi Spsi HH rho r Hres Ocob E (commuting E IE) x y Ix Iy Ox Oy) as (q & Q & D).
  exists q; split; [exact Q|]; rewrite dotm_right; exact D.
Qed.

Lemma first_entry : forall x y, proper_slice memH irrH psi r x -> proper_slice memH irrH psi r y ->
  exists F Fs, gi_endo rho = F :: Fs /\ meq d d F mid /\ conj_entry rho r F (fst x + snd x) (fst y + snd y) = mid (fst x + snd x)%nat (fst y + snd y)%nat.
Proof.
  intros x y [Ix Ox] [Iy Oy]; destruct Drho as (_ & U & _); destruct (ub_first _ _ U) as (F & Fs & EF & MF); exists F, Fs; split; [exact EF|]; split; [exact MF|].
  pose proof (occurs_bound memH opH invH eH incl irrH psi Hpsi Ppsi HH rho r Hres _ Ox) as Bx.
  pose proof (occurs_bound memH opH invH eH incl irrH psi Hpsi Ppsi HH rho r Hres _ Oy) as By.
  pose proof (nonnull_lt psi Ppsi _ Ix); pose proof (nonnull_lt psi Ppsi _ Iy).
  destruct Hres as (Sr & [[_ Ri] _] & _); rewrite Sr in Ri.
  assert (Z : meq d d (mmul d (mmul d (r_inv r) F) (r_cob r)) mid) by (rewrite MF, mid_r; exact Ri).
  unfold conj_entry; apply Z; lia.
Qed.

Lemma apart_positions : forall x y, proper_slice memH irrH psi r x -> proper_slice memH irrH psi r y -> apart psi x y -> (fst x + snd x <> fst y + snd y)%nat.
Proof. intros x y [Ix _] [Iy _] A; pose proof (nonnull_lt psi Ppsi _ Ix); destruct A as [[E1 E2]|L]; lia. Qed.

Lemma slices_dot : forall x y, proper_slice memH irrH psi r x -> proper_slice memH irrH psi r y -> (x = y \/ apart psi x y \/ apart psi y x) ->
  (x = y -> dotm d s (slice x) (slice y) = INR s) /\ (x <> y -> dotm d s (slice x) (slice y) = 0).
Proof.
  intros x y Px Py A; destruct (first_entry x y Px Py) as (F & Fs & EF & MF & C).
  destruct (moved_dot F x y) as (q & Q & D); [rewrite EF; left; reflexivity|exact Px|exact Py|].
  rewrite C in D.
  assert (D' : dotm d s (slice x) (slice y) = q * INR s * mid (fst x + snd x)%nat (fst y + snd y)%nat).
  { rewrite <- D, dotm_comm; apply dotm_ext; [|reflexivity]; rewrite MF, mid_l; reflexivity. }
  rewrite D'; split.
  - intros ->; rewrite (Q eq_refl); unfold mid; rewrite Nat.eqb_refl; ring.
  - intros N; assert (P : (fst x + snd x <> fst y + snd y)%nat).
    { destruct A as [E|[A|A]]; [contradiction|exact (apart_positions x y Px Py A)|exact (fun E => apart_positions y x Py Px A (eq_sym E))]. }
    unfold mid; apply Nat.eqb_neq in P; rewrite P; ring.
Qed.

(** slices kept for different components stay orthogonal when the commutant moves one *)
Lemma kept_dot : forall E x y, In E (gi_endo rho) -> proper_slice memH irrH psi r x -> proper_slice memH irrH psi r y ->
  (apart psi x y /\ ((1 < gi_sosc rho)%nat -> forall E, In E (gi_endo rho) -> conj_entry rho r E (fst x + snd x) (fst y + snd y) = 0)) ->
  dotm d s (mmul d E (slice y)) (slice x) = 0 /\ dotm d s (mmul d E (slice x)) (slice y) = 0.
Proof.
  intros E x y IE Px Py [A C].
  assert (X : dotm d s (mmul d E (slice y)) (slice x) = 0).
  { destruct (moved_dot E x y IE Px Py) as (q & _ & D); rewrite D; clear D.
    destruct (Nat.lt_ge_cases 1 (gi_sosc rho)) as [L|L]; [rewrite (C L E IE); ring|].
    destruct (first_entry x y Px Py) as (F & Fs & EF & MF & CF).
    assert (E = F) as ->.
    { destruct Drho as (_ & _ & Le); rewrite EF in Le, IE; destruct Fs; [destruct IE as [<-|[]]; reflexivity|cbn in Le; lia]. }
    rewrite CF; unfold mid; pose proof (apart_positions x y Px Py A) as P; apply Nat.eqb_neq in P; rewrite P; ring. }
  split; [exact X|].
  destruct Drho as (_ & U & _); destruct (unit_sign d _ E U IE) as (t & Ht & Tr).
  rewrite dotm_comm, <- (Rmult_0_r t), <- X.
  assert (Z : dotm d s (slice y) (mmul d E (slice x)) = dotm d s (mmul d (mtr E) (slice y)) (slice x)).
  { rewrite (dotm_left d d s (mtr E)); reflexivity. }
  rewrite Z, <- dotm_mscal; apply dotm_ext; [|reflexivity].
  rewrite Tr; intros a b Ha Hb; unfold mmul, mscal; rewrite <- sumn_scal_l; apply sumn_ext; intros; ring.
Qed.

(** [E] and [F] are different units of the commutant *)
Lemma units_anti : forall E F X, In E (gi_endo rho) -> In F (gi_endo rho) ->
  (meq d d (mmul d E (mtr F)) (mopp (mmul d F (mtr E))) \/ meq d d (mmul d F (mtr E)) (mopp (mmul d E (mtr F)))) ->
  dotm d s (mmul d E X) (mmul d F X) = 0.
Proof.
  intros E F X IE IF A; destruct Drho as (_ & U & _).
  destruct (proj1 (Forall_forall _ _) (ub_orth _ _ U) E IE) as [E1 E2], (proj1 (Forall_forall _ _) (ub_orth _ _ U) F IF) as [F1 F2].
  assert (A' : meq d d (mmul d E (mtr F)) (mopp (mmul d F (mtr E)))).
  { destruct A as [A|A]; [exact A|]; rewrite A; intros i j Hi Hj; unfold mopp; ring. }
  assert (Op : forall M N, meq d d (mmul d M (mopp N)) (mopp (mmul d M N)) /\ meq d d (mmul d (mopp M) N) (mopp (mmul d M N))).
  { intros M N; split; intros i j Hi Hj; unfold mmul, mopp; rewrite <- sumn_opp; apply sumn_ext; intros; ring. }
  (* F^T E = - E^T F *)
  assert (W : meq d d (mmul d (mtr F) E) (mopp (mmul d (mtr E) F))).
  { transitivity (mmul d (mmul d (mtr E) (mmul d E (mtr F))) E).
    - rewrite <- (mul_assoc _ _ _ _ (mtr E) E), E2, mid_l; reflexivity.
    - rewrite A'. rewrite (proj1 (Op _ _)), (proj2 (Op _ _)), !mul_assoc, E2, mid_r; reflexivity. }
  assert (D : dotm d s (mmul d E X) (mmul d F X) = - dotm d s (mmul d E X) (mmul d F X)); [|lra].
  transitivity (dotm d s X (mmul d (mmul d (mtr E) F) X)).
  { rewrite dotm_left; apply dotm_ext; [reflexivity|]; rewrite mul_assoc; reflexivity. }
  transitivity (- dotm d s (mmul d (mmul d (mtr F) E) X) X).
  - rewrite dotm_comm, <- (Rmult_1_l (dotm _ _ (mmul d (mmul d (mtr F) E) X) X)), <- Ropp_mult_distr_l_reverse, <- dotm_mscal.
    apply dotm_ext; [|reflexivity]; rewrite W; intros i j Hi Hj; unfold mmul at 1 3; unfold mscal, mopp; rewrite <- sumn_scal_l; apply sumn_ext; intros; ring.
  - f_equal; rewrite (dotm_comm d s (mmul d E X)).
    transitivity (dotm d s X (mmul d (mmul d (mtr F) E) X)); [apply dotm_comm|].
    rewrite dotm_left; apply dotm_ext; [reflexivity|]; rewrite mul_assoc; reflexivity.
Qed.

(** the kept slices, moved by the units, are orthogonal to each other *)
Lemma moved_orthonormal : forall B, dirac_kernel_ft irrH restrict components rho psi = Ret B ->
  forall m k m' k', (m < length B)%nat -> (k < length (gi_endo rho))%nat -> (m' < length B)%nat -> (k' < length (gi_endo rho))%nat ->
  dotm d s (mmul d (nth k (gi_endo rho) mzero) (nth m B mzero)) (mmul d (nth k' (gi_endo rho) mzero) (nth m' B mzero)) =
    if Nat.eqb m m' && Nat.eqb k k' then INR s else 0.
Proof.
  intros B EB; destruct (dirac_shape B EB) as (l & l' & Es & -> & Sub & Pl & Al & Ap & Ln).
  pose proof Drho as (Sp & U & Le).
  set (dl := (0%nat, 0%nat)).
  intros m k m' k'; rewrite map_length; intros Mi Ki Mj Kj.
  set (Em := fun k => nth k (gi_endo rho) mzero).
  assert (NB : forall m, (m < length l')%nat -> nth m (map (fun x => slice x) l') mzero = slice (nth m l' dl)).
  { intros q Hq; rewrite (nth_indep _ mzero (slice dl)) by (rewrite map_length; exact Hq); rewrite (map_nth (fun x => slice x)); reflexivity. }
  rewrite !NB by assumption.
  assert (IE : forall k, (k < length (gi_endo rho))%nat -> In (Em k) (gi_endo rho)) by (intros; apply nth_In; assumption).
  assert (IB : forall m, (m < length l')%nat -> In (nth m l' dl) l') by (intros; apply nth_In; assumption).
  pose proof (IE _ Ki) as Ii; pose proof (IE _ Kj) as Ij; fold (Em k) (Em k').
  destruct (Nat.eqb_spec m m') as [<-|Nm]; cbn [andb].
    - destruct (Nat.eqb_spec k k') as [<-|N].
      + assert (O2 : orthogonal d (Em k)) by (apply (proj1 (Forall_forall _ _) (ub_orth _ _ U)); exact Ii).
        transitivity (dotm d s (slice (nth m l' dl)) (slice (nth m l' dl))).
        * rewrite dotm_left; apply dotm_ext; [reflexivity|]; rewrite <- mul_assoc, (proj2 O2), mid_l; reflexivity.
        * pose proof (Pl _ (Sub _ (IB _ Mi))) as P; apply (slices_dot _ _ P P (or_introl eq_refl)); reflexivity.
      + apply units_anti; [exact Ii|exact Ij|].
        destruct (Nat.lt_ge_cases k k') as [L|L].
        * left; apply (fop_nth _ _ (gi_endo rho) mzero (ub_anti _ _ U) k k'); [exact L|lia].
        * right; apply (fop_nth _ _ (gi_endo rho) mzero (ub_anti _ _ U) k' k); lia.
    - set (x := nth m l' dl); set (y := nth m' l' dl).
      pose proof (Pl _ (Sub _ (IB _ Mi))) as Px; pose proof (Pl _ (Sub _ (IB _ Mj))) as Py; fold x in Px; fold y in Py.
      set (W := mmul d (mtr (Em k)) (Em k')).
      assert (CW : forall g A, mem g -> gi_rep rho g = Ret (d, A) -> meq d d (mmul d A W) (mmul d W A)).
      { intros g A Hg EA; unfold W.
        destruct (unit_sign d _ _ U Ii) as (q & _ & Tq).
        rewrite Tq.
        assert (R1 : forall M N, meq d d (mmul d (mscal q M) N) (mscal q (mmul d M N))) by (intros M N a b _ _; unfold mmul, mscal; rewrite <- sumn_scal_l; apply sumn_ext; intros; ring).
        assert (R2 : forall M N, meq d d (mmul d M (mscal q N)) (mscal q (mmul d M N))) by (intros M N a b _ _; unfold mmul, mscal; rewrite <- sumn_scal_l; apply sumn_ext; intros; ring).
        rewrite (R1 (Em k) (Em k')), R2, R1, <- mul_assoc, (commuting _ Ii g A Hg EA), mul_assoc, (commuting _ Ij g A Hg EA), <- mul_assoc; reflexivity. }
      assert (Dw : dotm d s (mmul d (Em k) (slice x)) (mmul d (Em k') (slice y)) = dotm d s (mmul d W (slice y)) (slice x)).
      { rewrite dotm_left, dotm_comm; apply dotm_ext; [|reflexivity]; unfold W; rewrite mul_assoc; reflexivity. }
      change (dotm d s (mmul d (Em k) (slice x)) (mmul d (Em k') (slice y)) = 0); rewrite Dw.
      destruct (proj1 (proj1 Sp W) CW) as (cs & Lc & Ec).
      assert (Zr : forall F, In F (gi_endo rho) -> dotm d s (mmul d F (slice y)) (slice x) = 0).
      { intros F IF; destruct (Nat.lt_ge_cases m m') as [L|L].
        - apply (kept_dot F x y IF Px Py); apply (fop_nth _ _ l' dl Ap); [exact L|exact Mj].
        - apply (kept_dot F y x IF Py Px); apply (fop_nth _ _ l' dl Ap); [lia|exact Mi]. }
      transitivity (dotm d s (mmul d (lincomb cs (gi_endo rho)) (slice y)) (slice x)); [apply dotm_ext; [rewrite Ec|]; reflexivity|].
      clear - Zr; revert cs; induction (gi_endo rho) as [|F Fs IH]; intros [|c cs]; cbn [lincomb].
      1-3: unfold dotm; apply sumn_0; intros a _; apply sumn_0; intros b _; unfold mmul, mzero; rewrite sumn_0; [ring|intros; ring].
      transitivity (c * dotm d s (mmul d F (slice y)) (slice x) + dotm d s (mmul d (lincomb cs Fs) (slice y)) (slice x)).
      + rewrite <- dotm_mscal; unfold dotm; rewrite <- sumn_plus; apply sumn_ext; intros a _; rewrite <- sumn_plus; apply sumn_ext; intros b _.
        assert (Eq : mmul d (madd (mscal c F) (lincomb cs Fs)) (slice y) a b = c * mmul d F (slice y) a b + mmul d (lincomb cs Fs) (slice y) a b).
        { rewrite <- mmul_mscal_l; unfold mmul; rewrite <- sumn_plus; apply sumn_ext; intros k _; unfold madd; ring. }
        rewrite Eq; unfold mscal; ring.
      + rewrite Zr by (left; reflexivity); rewrite IH by (intros; apply Zr; right; assumption); ring.
Qed.

Lemma sumn_pairs : forall n k (f : nat -> R), (0 < k)%nat ->
  sumn (n * k) f = sumn n (fun m => sumn k (fun j => f (m * k + j)%nat)).
Proof. intros n k f Hk; rewrite sumn_mul; reflexivity. Qed.

Theorem kept_span : forall B X, dirac_kernel_ft irrH restrict components rho psi = Ret B -> told_apart memH irrH psi r -> inter X ->
  exists c, meq d s X (combination d (gi_endo rho) B c).
Proof.
  intros B X EB HT HX; destruct (dirac_shape B EB) as (l & l' & Es & -> & Sub & Pl & Al & Ap & Ln).
  pose proof Drho as (Sp & U & Le).
  set (K := gi_sosc rho) in *; set (t := length l) in *; set (n := length l') in *.
  assert (PK : (0 < K)%nat) by (destruct (ub_first _ _ U) as (F & Fs & E & _); rewrite <- Le, E; cbn; lia).
  set (dl := (0%nat, 0%nat)).
  set (Sx := fun x => slice (nth x l dl)); set (Em := fun k => nth k (gi_endo rho) mzero); set (Bm := fun m => slice (nth m l' dl)).
  set (Z := fun i => mmul d (Em (i mod K)) (Bm (i / K))%nat).
  assert (Q : INR s <> 0) by (apply not_0_INR; lia).
  assert (IS : forall x, (x < t)%nat -> In (nth x l dl) l) by (intros; apply nth_In; assumption).
  assert (IE : forall k, (k < K)%nat -> In (Em k) (gi_endo rho)) by (intros k Hk; apply nth_In; lia).
  assert (IB : forall m, (m < n)%nat -> In (nth m l' dl) l') by (intros; apply nth_In; assumption).
  assert (NB : forall m, (m < n)%nat -> nth m (map (fun x => slice x) l') mzero = slice (nth m l' dl)).
  { intros q Hq; rewrite (nth_indep _ mzero (slice dl)) by (rewrite map_length; exact Hq); rewrite (map_nth (fun x => slice x)); reflexivity. }
  assert (Bnd : forall i, (i < t)%nat -> (i mod K < K)%nat /\ (i / K < n)%nat).
  { intros i Hi; split; [apply Nat.mod_upper_bound; lia|apply Nat.div_lt_upper_bound; lia]. }
  assert (HS : forall x y, (x < t)%nat -> (y < t)%nat -> dotm d s (Sx x) (Sx y) = if Nat.eqb x y then INR s else 0).
  { intros x y Hx Hy; destruct (Nat.eqb_spec x y) as [<-|N].
    - apply (slices_dot (nth x l dl) (nth x l dl) (Pl _ (IS x Hx)) (Pl _ (IS x Hx)) (or_introl eq_refl)); reflexivity.
    - assert (A : apart psi (nth x l dl) (nth y l dl) \/ apart psi (nth y l dl) (nth x l dl)).
      { destruct (Nat.lt_ge_cases x y); [left; apply (fop_nth _ _ l dl Al); assumption|right; apply (fop_nth _ _ l dl Al); [lia|assumption]]. }
      apply (slices_dot (nth x l dl) (nth y l dl) (Pl _ (IS x Hx)) (Pl _ (IS y Hy)) (or_intror A)).
      intros E; destruct A as [A|A]; [apply (apart_positions _ _ (Pl _ (IS x Hx)) (Pl _ (IS y Hy)) A)|apply (apart_positions _ _ (Pl _ (IS y Hy)) (Pl _ (IS x Hx)) A)]; rewrite E; reflexivity. }
  assert (HZ : forall i j, (i < t)%nat -> (j < t)%nat -> dotm d s (Z i) (Z j) = if Nat.eqb i j then INR s else 0).
  { intros i j Hi Hj; destruct (Bnd i Hi) as [Ki Mi], (Bnd j Hj) as [Kj Mj]; unfold Z.
    pose proof (moved_orthonormal _ EB (i / K) (i mod K) (j / K) (j mod K)) as Q1; rewrite map_length, Le in Q1; fold K n in Q1.
    rewrite !NB in Q1 by assumption; unfold Bm, Em; rewrite Q1 by assumption.
    destruct (Nat.eqb_spec i j) as [<-|N]; [rewrite !Nat.eqb_refl; reflexivity|].
    destruct (Nat.eqb_spec (i / K) (j / K)) as [E1|_]; [|reflexivity]; destruct (Nat.eqb_spec (i mod K) (j mod K)) as [E2|_]; [|reflexivity].
    exfalso; apply N; rewrite (Nat.div_mod i K), (Nat.div_mod j K) by lia; rewrite E1, E2; reflexivity. }
  assert (Slist : map (fun x => mmul d (r_cob r) (snd x)) (map (mk psi) l) = map (fun x => slice x) l) by (rewrite map_map; reflexivity).
  assert (Spn : forall Y, inter Y -> exists cs, meq d s Y (msum t (fun x => mscal (cs x) (Sx x)))).
  { intros Y HY; destruct (all_intertwiners _ Y Es HT HY) as (cs & Lc & Ec); rewrite Slist in *; rewrite map_length in Lc.
    exists (fun x => nth x cs 0); rewrite Ec; intros a b Ha Hb.
    rewrite (in_lincomb psi Ppsi) by (rewrite map_length; exact Lc); rewrite map_length; unfold msum, mscal; apply sumn_ext; intros x Hx; f_equal.
    unfold Sx; rewrite (nth_indep _ mzero (slice dl)) by (rewrite map_length; exact Hx); rewrite (map_nth (fun x => slice x)); reflexivity. }
  assert (HC : forall i, (i < t)%nat -> exists cs, meq d s (Z i) (msum t (fun x => mscal (cs x) (Sx x)))).
  { intros i Hi; destruct (Bnd i Hi) as [Ki Mi]; apply Spn; apply endo_inter; [exact (commuting _ (IE _ Ki))|].
    apply (in_inter l Es); apply Sub, IB; exact Mi. }
  pose proof (family_swap d s t Sx Z (INR s) Q HS HZ HC) as Sw.
  destruct (Spn X HX) as (cs & Ec).
  set (w := fun i => sumn t (fun x => cs x * (dotm d s (Z i) (Sx x) / INR s))).
  exists (fun m k => w (m * K + k)%nat); rewrite Ec; intros a b Ha Hb.
  transitivity (sumn t (fun i => w i * Z i a b)).
  - unfold msum, mscal; transitivity (sumn t (fun x => sumn t (fun i => cs x * (dotm d s (Z i) (Sx x) / INR s) * Z i a b))).
    + apply sumn_ext; intros x Hx; rewrite (Sw x Hx a b Ha Hb); unfold msum, mscal; rewrite <- sumn_scal_l; apply sumn_ext; intros; ring.
    + rewrite sumn_swap; apply sumn_ext; intros i Hi; unfold w; rewrite <- sumn_scal_r; reflexivity.
  - unfold combination; rewrite map_length; fold n; rewrite Le; fold K; replace t with (n * K)%nat by lia.
    rewrite sumn_pairs by exact PK; apply sumn_ext; intros m Hm; apply sumn_ext; intros k Hk; f_equal.
    unfold Z; rewrite Nat.div_add_l, (Nat.div_small k K), Nat.add_0_r by lia.
    replace ((m * K + k) mod K)%nat with k by (rewrite Nat.add_comm, Nat.mod_add, Nat.mod_small by lia; reflexivity).
    unfold mmul at 1; apply sumn_ext; intros q _; f_equal.
    rewrite (nth_indep _ mzero (slice dl)) by (rewrite map_length; exact Hm); rewrite (map_nth (fun x => slice x)); reflexivity.
Qed.
End Basis.
