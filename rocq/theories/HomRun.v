(** `_dirac_kernel_ft` raises no exception on the irreps of the planar groups. *)
From Coq Require Import Reals ZArith Bool List Lia Lra Setoid Morphisms Arith Relations.
From Verif Require Import LibRes LibList LibMat LibMatS LibTrig SpecGroup SpecRep ParamModel ParamProofs IrrepModel
  RepModel SpecRepr RepProofs SpecReg RegModel RegProofs IndModel SpecInd IndProofs SpecDis SpecSchur SchurProofs SchurThms SchurCor SchurFin SchurInd SpecHom HomProofs HomThms.
Import ListNotations.
Open Scope R_scope.

Lemma filter_all : forall {A} (f : A -> bool) l, (forall x, In x l -> f x = true) -> filter f l = l.
Proof. intros A f l; induction l as [|a l IH]; intros H; [reflexivity|]; cbn; rewrite H by (left; reflexivity); rewrite IH; [reflexivity|intros; apply H; right; assumption]. Qed.

Section Run.
Context {T S : Type}.
Variables (mem : T -> Prop) (op : T -> T -> res T) (inv : T -> res T) (e : T).
Variables (memH : S -> Prop) (opH : S -> S -> res S) (invH : S -> res S) (eH : S).
Variables (incl : S -> res T).
Variable irrH : list Z -> res (girrep S).
Variable restrict : list Z -> res (repr S).
Variable components : nat -> (nat -> nat -> bool) -> nat * (nat -> nat).
Variable psi : girrep S.
Hypothesis HG : is_group mem op inv e.
Hypothesis HH : is_group memH opH invH eH.
Hypothesis HI : is_embedding mem op memH opH incl.
Hypothesis Hpsi : orth_rep memH opH invH eH (gi_size psi) (gi_rep psi).
Hypothesis Epsi : irrH (gi_id psi) = Ret psi.
Hypothesis Ppsi : (0 < gi_size psi)%nat.
Hypothesis Dpsi : described memH psi.
Hypothesis Hsz : forall id r h b, irrH id = Ret r -> memH h -> gi_rep r h = Ret b -> fst b = gi_size r.
Hypothesis Hcomp : correct_components components.
Variables (rho : girrep T) (r : repr S).
Hypothesis Prho : (0 < gi_size rho)%nat.
Hypothesis O : orth_rep mem op inv e (gi_size rho) (gi_rep rho).
Hypothesis Drho : described mem rho.
Hypothesis Er : restrict (gi_id rho) = Ret r.
Hypothesis Hres : restriction_of irrH memH incl rho r.
Hypothesis Hclear : clear_restriction rho r.
Hypothesis HT : told_apart memH irrH psi r.
Hypothesis Hnn : length (nonnull psi) = gi_sosc psi.
Hypothesis Hids : Forall (fun id => exists s, irrH id = Ret s) (r_irreps r).
Hypothesis Hfull : (1 < gi_sosc rho)%nat -> gi_sosc rho = 2%nat /\ gi_size rho = 2%nat /\
  forall i j, (i < 2)%nat -> (j < 2)%nat -> / 10 ^ 9 < fold_right Rplus 0 (map (fun E => conj_entry rho r E i j ^ 2) (gi_endo rho)).

Notation s := (gi_size psi).
Notation d := (gi_size rho).
Notation slice x := (mmul d (r_cob r) (snd (mk psi x))).

Lemma slices_total : forall ids p, Forall (fun id => exists s, irrH id = Ret s) ids -> exists sl, psi_slices irrH psi ids p = Ret sl.
Proof.
  intros ids p F; revert p; induction F as [|id ids (t & Et) F IH]; intros p; cbn [psi_slices]; [eexists; reflexivity|].
  rewrite Et; cbn [bind]; destruct (IH (p + gi_size t)%nat) as (rest & ->); cbn [bind].
  destruct (list_eq_dec Z.eq_dec id (gi_id psi)); [|eexists; reflexivity].
  rewrite Hnn, Nat.eqb_refl; cbn [assert_ bind]; eexists; reflexivity.
Qed.

Lemma not_one : forall x, psi_slices irrH psi (r_irreps r) 0 = Ret (map (mk psi) [x]) -> proper_slice memH irrH psi r x -> (1 < gi_sosc rho)%nat -> False.
Proof.
  intros x Es Px L; pose proof Drho as (_ & U & Le).
  destruct (gi_endo rho) as [|F [|J Fs]] eqn:Ee; [cbn in Le; lia|cbn in Le; lia|].
  assert (IJ : In J (gi_endo rho)) by (rewrite Ee; right; left; reflexivity).
  assert (IF : In F (gi_endo rho)) by (rewrite Ee; left; reflexivity).
  pose proof (in_inter memH incl irrH psi Epsi Ppsi Dpsi Hsz rho r Hres [x] Es x (or_introl eq_refl)) as IX.
  pose proof (endo_inter mem op memH opH incl psi HI rho J _ (commuting mem rho Drho J IJ) IX) as IY.
  destruct (all_intertwiners memH opH invH eH incl irrH psi HH Epsi Ppsi Dpsi Hsz rho r Hres _ _ Es HT IY) as (cs & Lc & Ec).
  cbn [map length] in Lc, Ec; destruct cs as [|c [|? ?]]; try discriminate Lc; cbn [lincomb] in Ec.
  set (X := slice x) in *.
  assert (FM : meq d d F mid) by (destruct (ub_first _ _ U) as (F' & Fs' & E' & M); injection E' as <- _; exact M).
  assert (An : dotm d s (mmul d F X) (mmul d J X) = 0).
  { apply (units_anti mem psi rho Drho F J X IF IJ); left; pose proof (ub_anti _ _ U) as Q; inversion Q as [|? ? Q1 _]; subst; inversion Q1; subst; assumption. }
  assert (Oj : orthogonal d J) by (apply (proj1 (Forall_forall _ _) (ub_orth _ _ U)); right; left; reflexivity).
  assert (N1 : dotm d s (mmul d J X) (mmul d J X) = INR s).
  { transitivity (dotm d s X X).
    - rewrite dotm_left; apply dotm_ext; [reflexivity|]; rewrite <- mul_assoc, (proj2 Oj), mid_l; reflexivity.
    - apply (slices_dot mem op memH opH invH eH incl irrH psi HH HI Hpsi Ppsi Dpsi rho r Prho Drho Hres Hclear x x Px Px (or_introl eq_refl)); reflexivity. }
  assert (N2 : dotm d s (mmul d J X) (mmul d J X) = c * dotm d s (mmul d F X) (mmul d J X)).
  { rewrite <- dotm_mscal; apply dotm_ext; [|reflexivity]; rewrite Ec, FM, mid_l; intros i j _ _; unfold madd, mscal, mzero; ring. }
  rewrite N2, An, Rmult_0_r in N1; apply (not_0_INR s); [lia|symmetry; exact N1].
Qed.

Lemma select_total : forall l, psi_slices irrH psi (r_irreps r) 0 = Ret (map (mk psi) l) -> (forall x, In x l -> proper_slice memH irrH psi r x) -> ForallOrdPairs (apart psi) l ->
  exists sl, select components rho r (map (mk psi) l) = Ret sl.
Proof.
  intros l Es Pl Al; destruct (Nat.ltb_spec 1 (gi_sosc rho)) as [L|L]; [|unfold select; rewrite (proj2 (Nat.ltb_ge _ _) L); eexists; reflexivity].
  destruct (Hfull L) as (K2 & D2 & Hf).
  pose (col := fun a => fst (nth a (map (mk psi) l) (0%nat, mzero))).
  pose (ortho := fun a b => negb (Rleb (fold_right Rplus 0 (map (fun E => mmul d (mmul d (r_inv r) E) (r_cob r)
    (fst (nth a (map (mk psi) l) (0%nat, mzero))) (fst (nth b (map (mk psi) l) (0%nat, mzero))) ^ 2) (gi_endo rho))) (/ 10 ^ 9))).
  assert (Bl : forall x, In x l -> (fst x + snd x < 2)%nat).
  { intros x Ix; destruct (Pl x Ix) as [I Oc]; pose proof (nonnull_lt psi Ppsi _ I).
    pose proof (occurs_bound memH opH invH eH incl irrH psi Hpsi Ppsi HH rho r Hres _ Oc); lia. }
  assert (T2 : length l = 0%nat \/ length l = 2%nat).
  { destruct l as [|x [|y [|z l]]]; [left; reflexivity| |right; reflexivity|exfalso].
    - exfalso; exact (not_one x Es (Pl x (or_introl eq_refl)) L).
    - inversion Al as [|? ? A1 A2]; subst; inversion A2 as [|? ? A3 _]; subst.
      apply Forall_cons_iff in A1 as [Axy A1]; apply Forall_cons_iff in A1 as [Axz _]; apply Forall_cons_iff in A3 as [Ayz _].
      assert (Px : proper_slice memH irrH psi r x) by (apply Pl; left; reflexivity).
      assert (Py : proper_slice memH irrH psi r y) by (apply Pl; right; left; reflexivity).
      assert (Pz : proper_slice memH irrH psi r z) by (apply Pl; right; right; left; reflexivity).
      pose proof (apart_positions memH irrH psi Ppsi rho r Prho x y Px Py Axy); pose proof (apart_positions memH irrH psi Ppsi rho r Prho x z Px Pz Axz);
        pose proof (apart_positions memH irrH psi Ppsi rho r Prho y z Py Pz Ayz).
      pose proof (Bl x (or_introl eq_refl)); pose proof (Bl y (or_intror (or_introl eq_refl))); pose proof (Bl z (or_intror (or_intror (or_introl eq_refl)))); lia. }
  assert (Or : forall a b, (a < length l)%nat -> (b < length l)%nat -> ortho a b = true).
  { intros a b Ha Hb; unfold ortho; apply negb_true_iff; destruct (Rleb _ _) eqn:Q; [exfalso|reflexivity]; apply Rleb_true in Q.
    assert (Cl : forall a, (a < length l)%nat -> (col a < 2)%nat).
    { intros a0 H0; unfold col; rewrite (nth_indep _ _ (mk psi (0%nat, 0%nat))) by (rewrite map_length; exact H0); rewrite (map_nth (mk psi)); cbn [mk fst].
      apply Bl, nth_In; exact H0. }
    pose proof (Hf (col a) (col b) (Cl a Ha) (Cl b Hb)) as Q2; unfold conj_entry, col in Q2; lra. }
  assert (Sel : select components rho r (map (mk psi) l) =
    let t := length (map (mk psi) l) in
    assert (Nat.eqb (list_sum (map (fun a => length (filter (ortho a) (seq 0 t))) (seq 0 t))) (t * gi_sosc rho)) ;;
    assert (Nat.eqb (fst (components t ortho) * gi_sosc rho) t) ;;
    first <- mapM (fun i => let cols := filter (fun a => Nat.eqb (snd (components t ortho) a) i) (seq 0 t) in
                            assert (Nat.eqb (length cols) (gi_sosc rho)) ;;
                            match cols with [] => Raise | a :: _ => Ret a end) (seq 0 (fst (components t ortho))) ;;
    let kept := filter (fun a => existsb (Nat.eqb a) first) (seq 0 t) in
    assert (Nat.eqb (length kept) (fst (components t ortho))) ;;
    Ret (map (fun a => nth a (map (mk psi) l) (0%nat, mzero)) kept)).
  { unfold select; rewrite (proj2 (Nat.ltb_lt _ _) L); reflexivity. }
  rewrite Sel; cbn zeta; clear Sel; rewrite map_length, K2.
  assert (FA : forall a, (a < length l)%nat -> filter (ortho a) (seq 0 (length l)) = seq 0 (length l)).
  { intros a Ha; apply filter_all; intros b Hb; apply in_seq in Hb; apply Or; lia. }
  assert (A1 : Nat.eqb (list_sum (map (fun a => length (filter (ortho a) (seq 0 (length l)))) (seq 0 (length l)))) (length l * 2) = true).
  { apply Nat.eqb_eq; rewrite (map_ext_in _ (fun _ => length l)) by (intros a Ha; apply in_seq in Ha; rewrite FA by lia; apply seq_length).
    clear - T2; destruct T2 as [->| ->]; reflexivity. }
  rewrite A1; cbn [assert_ bind].
  destruct (Hcomp (length l) ortho) as (C1 & C2 & C3); set (c := components (length l) ortho) in *.
  assert (Cn : (fst c * 2 = length l)%nat /\ forall a, (a < length l)%nat -> snd c a = 0%nat).
  { destruct T2 as [E|E]; rewrite E in *.
    - destruct (fst c) as [|k] eqn:Ek; [split; [reflexivity|intros; lia]|]; exfalso; destruct (C2 0%nat ltac:(lia)) as (a & Ha & _); lia.
    - pose proof (C1 0%nat ltac:(lia)) as L0; pose proof (C1 1%nat ltac:(lia)) as L1.
      assert (S01 : snd c 0%nat = snd c 1%nat) by (apply C3; [lia|lia|]; apply rst_step; repeat split; try lia; apply Or; lia).
      assert (Al1 : forall b, (b < fst c)%nat -> b = snd c 0%nat).
      { intros b Hb; destruct (C2 b Hb) as (a & Ha & <-); destruct a as [|[|a]]; [reflexivity|symmetry; exact S01|lia]. }
      assert (F1 : fst c = 1%nat).
      { destruct (fst c) as [|[|k]]; [lia|reflexivity|]; pose proof (Al1 0%nat ltac:(lia)); pose proof (Al1 1%nat ltac:(lia)); lia. }
      rewrite F1; split; [reflexivity|]; intros a Ha; pose proof (C1 a Ha); lia. }
  destruct Cn as [Cn C0]; rewrite (proj2 (Nat.eqb_eq _ _) Cn); cbn [assert_ bind].
  destruct T2 as [E|E]; rewrite E in *.
  - assert (F0 : fst c = 0%nat) by lia; rewrite F0; cbn [seq mapM bind filter length Nat.eqb assert_]; eexists; reflexivity.
  - assert (F1 : fst c = 1%nat) by lia; rewrite F1; cbn [seq mapM filter]; rewrite (C0 0%nat), (C0 1%nat) by lia; cbn [Nat.eqb length assert_ bind existsb orb].
    eexists; reflexivity.
Qed.

Theorem dirac_total : exists B, dirac_kernel_ft irrH restrict components rho psi = Ret B.
Proof.
  unfold dirac_kernel_ft; rewrite Er; cbn [bind]; destruct (slices_total (r_irreps r) 0 Hids) as (sl & Es); rewrite Es; cbn [bind].
  destruct (slices_shape memH irrH psi Epsi Ppsi Hsz _ _ _ Es) as (l & -> & Fl & Al).
  assert (Pl : forall x, In x l -> proper_slice memH irrH psi r x).
  { intros x Ix; destruct (proj1 (Forall_forall _ _) Fl x Ix) as (I & _ & Oc); rewrite Nat.sub_0_r in Oc; split; assumption. }
  destruct (select_total l Es Pl Al) as (sl & ->); eexists; reflexivity.
Qed.
End Run.
