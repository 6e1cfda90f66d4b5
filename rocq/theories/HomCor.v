(** The bases of functions on a homogeneous space. *)
From Coq Require Import Reals ZArith Bool List Lia Lra Setoid Morphisms Arith.
From Verif Require Import LibRes LibList LibMat LibMatS LibTrig LibPy SpecGroup SpecRep ParamModel ParamProofs FieldModel NonlinModel SpecNonlin NonlinProofs IrrepModel
  RepModel SpecRepr RepProofs SpecReg RegModel RegProofs IndModel SpecInd IndProofs SpecDis SpecSchur SchurProofs SchurThms SchurCor SchurFin SchurInd
  FourierModel SpecFourier FourierThms FourierCor FourierFin HomModel SpecHom HomProofs HomThms.
Import ListNotations.
Open Scope R_scope.

Section Cor.
Context {T S : Type}.
Variables (mem : T -> Prop) (op : T -> T -> res T) (inv : T -> res T) (e : T).
Variables (memH : S -> Prop) (opH : S -> S -> res S) (invH : S -> res S) (eH : S).
Variables (incl : S -> res T).
Variable irrG : list Z -> res (girrep T).
Variable irrH : list Z -> res (girrep S).
Variable restrict : list Z -> res (repr S).
Variable components : nat -> (nat -> nat -> bool) -> nat * (nat -> nat).
Variable psi : girrep S.
Hypothesis HG : is_group mem op inv e.
Hypothesis HH : is_group memH opH invH eH.
Hypothesis HI : is_embedding mem op memH opH incl.
Hypothesis Hpsi : orth_rep memH opH invH eH (gi_size psi) (gi_rep psi).
Hypothesis Epsi : irrH (gi_id psi) = Ret psi.
Hypothesis Ppsi : (0 < gi_size psi)%nat.
Hypothesis Dpsi : described memH psi.
Hypothesis Hsz : forall id r h b, irrH id = Ret r -> memH h -> gi_rep r h = Ret b -> fst b = gi_size r.
Hypothesis Hcomp : correct_components components.

Let hbasis g id := basis irrG irrH restrict components g id (gi_id psi).

Lemma basis_inv : forall g id B rho, irrG id = Ret rho -> irrG (gi_id rho) = Ret rho -> hbasis g id = Ret B ->
  exists B0 M, dirac_kernel_ft irrH restrict components rho psi = Ret B0 /\ gi_rep rho g = Ret M /\ B = map (mmul (gi_size rho) (snd M)) B0.
Proof.
  intros g id B rho Er Er' E; unfold hbasis, basis in E; rewrite Er in E; cbn [bind] in E; rewrite Epsi in E; cbn [bind] in E.
  rewrite Er' in E; cbn [bind] in E; rewrite Epsi in E; cbn [bind] in E.
  apply bind_Ret in E as (B0 & E0 & E); apply bind_Ret in E as (M & EM & E); apply Ret_inj in E; exists B0, M; auto.
Qed.

Lemma basis_ret : forall g id B0 rho M, irrG id = Ret rho -> irrG (gi_id rho) = Ret rho -> dirac_kernel_ft irrH restrict components rho psi = Ret B0 ->
  gi_rep rho g = Ret M -> hbasis g id = Ret (map (mmul (gi_size rho) (snd M)) B0).
Proof.
  intros g id B0 rho M Er Er' E0 EM; unfold hbasis, basis; rewrite Er; cbn [bind]; rewrite Epsi; cbn [bind]; rewrite Er'; cbn [bind]; rewrite Epsi; cbn [bind].
  rewrite E0; cbn [bind]; rewrite EM; reflexivity.
Qed.

Lemma nth_moved : forall d A (B : list mat) m, nth m (map (mmul d A) B) mzero = (if Nat.ltb m (length B) then mmul d A (nth m B mzero) else mzero).
Proof.
  intros d A B m; destruct (Nat.ltb_spec m (length B)) as [L|L].
  - rewrite (nth_indep _ mzero (mmul d A mzero)) by (rewrite map_length; exact L); apply map_nth.
  - apply nth_overflow; rewrite map_length; exact L.
Qed.

Lemma orth_columns : forall d A X Y p, orthogonal d A -> column_product d p (mmul d A X) (mmul d A Y) = column_product d p X Y.
Proof.
  intros d A X Y p [_ O2].
  assert (C : forall U W : mat, column_product d p U W = dotm d 1 (fun a _ => U a p) (fun a _ => W a p)).
  { intros U W; unfold column_product, dotm; apply sumn_ext; intros; cbn [sumn]; ring. }
  rewrite !C; change (fun a _ : nat => mmul d A X a p) with (mmul d A (fun a _ : nat => X a p)); change (fun a _ : nat => mmul d A Y a p) with (mmul d A (fun a _ : nat => Y a p)).
  rewrite dotm_left; apply dotm_ext; [reflexivity|]; rewrite <- mul_assoc, O2, mid_l; reflexivity.
Qed.

Lemma column_ext : forall d s p X Y X' Y', (p < s)%nat -> meq d s X X' -> meq d s Y Y' -> column_product d p X Y = column_product d p X' Y'.
Proof. intros d s p X Y X' Y' Hp HX HY; unfold column_product; apply sumn_ext; intros o Ho; rewrite (HX o p Ho Hp), (HY o p Ho Hp); reflexivity. Qed.

Section One.
Variables (id : list Z) (rho : girrep T).
Hypothesis Hind : inducible mem op inv e memH incl irrG irrH restrict id.
Hypothesis Er : irrG id = Ret rho.
Variables (B0 : list mat).
Hypothesis E0 : dirac_kernel_ft irrH restrict components rho psi = Ret B0.
Notation d := (gi_size rho).
Notation s := (gi_size psi).

Lemma ind_id : gi_id rho = id.
Proof. destruct Hind as (r & E & I & _); rewrite Er in E; apply Ret_inj in E; subst r; exact I. Qed.
Lemma ind_pos : (0 < d)%nat.
Proof. destruct Hind as (r & E & I & Snd & _); rewrite Er in E; apply Ret_inj in E; subst r; destruct Snd as (r' & E & _ & P & _); rewrite Er in E; apply Ret_inj in E; subst r'; exact P. Qed.
Lemma ind_orth : orth_rep mem op inv e d (gi_rep rho).
Proof. destruct Hind as (r & E & _ & _ & O & _); rewrite Er in E; apply Ret_inj in E; subst r; exact O. Qed.
Lemma ind_desc : described mem rho.
Proof. destruct Hind as (r & E & _ & _ & _ & O & _); rewrite Er in E; apply Ret_inj in E; subst r; exact O. Qed.
Lemma ind_restr : forall r, restrict id = Ret r -> restriction_of irrH memH incl rho r /\ clear_restriction rho r.
Proof. destruct Hind as (r & E & _ & _ & _ & _ & O); rewrite Er in E; apply Ret_inj in E; subst r; exact O. Qed.

Definition field_at (g : T) : list mat := map (mmul d (rval rho g)) B0.

Lemma field_basis : forall g, mem g -> hbasis g id = Ret (field_at g).
Proof.
  intros g Hg; destruct (rval_eq mem op inv e rho g ind_orth Hg) as [EV _].
  refine (basis_ret g id B0 rho (d, rval rho g) Er _ E0 EV); rewrite ind_id; exact Er.
Qed.

Lemma the_restriction : exists r, restrict id = Ret r.
Proof. pose proof E0 as E; unfold dirac_kernel_ft in E; rewrite ind_id in E; apply bind_Ret in E as (r & Q & _); exists r; exact Q. Qed.

Lemma basis_inter : forall B, In B B0 -> intertwines memH incl psi rho B.
Proof.
  intros B HB h k A P Hh Ek EA EP; destruct the_restriction as (r & Rr).
  refine (dirac_intertwines memH incl irrH restrict components psi Epsi (psi_commutes memH psi Dpsi) Ppsi rho B0 E0 _ Hsz B HB h k A P Hh Ek EA EP).
  intros r' Er'; rewrite ind_id in Er'; exact (proj1 (ind_restr r' Er')).
Qed.

Lemma rval_mul : forall a g ag, mem a -> mem g -> op a g = Ret ag -> meq d d (rval rho ag) (mmul d (rval rho a) (rval rho g)).
Proof.
  intros a g ag Ha Hg E; destruct (or_mul _ _ _ _ _ _ ind_orth a g Ha Hg) as (z & A & B & C & E1 & E2 & E3 & E4 & M).
  rewrite E in E1; apply Ret_inj in E1; subst z; unfold rval; rewrite E2, E3, E4; exact M.
Qed.

Theorem field_mackey : forall m, (m < length B0)%nat -> mackey_field mem op memH incl rho psi (fun g => nth m (field_at g) mzero).
Proof.
  intros m Hm; unfold field_at; split.
  - intros a g ag A Ha Hg E EA; rewrite !nth_moved; apply Nat.ltb_lt in Hm; rewrite Hm.
    rewrite (rval_mul a g ag Ha Hg E), mul_assoc; unfold rval at 1; rewrite EA; reflexivity.
  - intros h k g gk P Hh Ek Hg E EP; rewrite !nth_moved; pose proof Hm as Hm'; apply Nat.ltb_lt in Hm'; rewrite Hm'.
    destruct (emb_mem _ _ _ _ _ HI h Hh) as (k' & Ek' & Mk); rewrite Ek in Ek'; apply Ret_inj in Ek'; subst k'.
    destruct (rval_eq mem op inv e rho k ind_orth Mk) as [EV _].
    rewrite (rval_mul g k gk Hg Mk E), mul_assoc, (basis_inter _ (nth_In _ _ Hm) h k _ P Hh Ek EV EP), mul_assoc; reflexivity.
Qed.

Theorem field_orthonormal : forall g, mem g -> orthonormal_columns d s (gi_endo rho) (field_at g).
Proof.
  intros g Hg m k m' k' p Hm Hk Hm' Hk' Hp; unfold field_at in *; rewrite map_length in Hm, Hm'.
  destruct (rval_eq mem op inv e rho g ind_orth Hg) as [EV OV].
  destruct the_restriction as (r & Rr); destruct (ind_restr r Rr) as [R1 R2].
  assert (Rr' : restrict (gi_id rho) = Ret r) by (rewrite ind_id; exact Rr).
  pose proof (commuting mem rho ind_desc) as Cm.
  assert (K : forall m k, (m < length B0)%nat -> (k < length (gi_endo rho))%nat ->
    meq d s (fun a b => sumn d (fun i => nth k (gi_endo rho) mzero a i * nth m (map (mmul d (rval rho g)) B0) mzero i b))
            (mmul d (rval rho g) (mmul d (nth k (gi_endo rho) mzero) (nth m B0 mzero)))).
  { intros m0 k0 Hm0 Hk0; change (meq d s (mmul d (nth k0 (gi_endo rho) mzero) (nth m0 (map (mmul d (rval rho g)) B0) mzero))
      (mmul d (rval rho g) (mmul d (nth k0 (gi_endo rho) mzero) (nth m0 B0 mzero)))).
    rewrite nth_moved; apply Nat.ltb_lt in Hm0; rewrite Hm0.
    rewrite <- !mul_assoc, (Cm _ (nth_In _ _ Hk0) g _ Hg EV); reflexivity. }
  rewrite (column_ext d s p _ _ _ _ Hp (K m k Hm Hk) (K m' k' Hm' Hk')), (orth_columns d _ _ _ p OV).
  assert (IN : forall m k, (m < length B0)%nat -> (k < length (gi_endo rho))%nat -> intertwines memH incl psi rho (mmul d (nth k (gi_endo rho) mzero) (nth m B0 mzero))).
  { intros m0 k0 Hm0 Hk0; apply (endo_inter mem op memH opH incl psi HI rho); [exact (Cm _ (nth_In _ _ Hk0))|exact (basis_inter _ (nth_In _ _ Hm0))]. }
  assert (Q : INR s <> 0) by (apply not_0_INR; lia).
  apply (Rmult_eq_reg_l (INR s)); [|exact Q].
  assert (CD : forall X Y, intertwines memH incl psi rho X -> intertwines memH incl psi rho Y -> INR s * column_product d p X Y = dotm d s X Y).
  { intros X Y HX HY; eapply (column_dotm mem op inv e memH opH invH eH incl psi); eauto using ind_orth. }
  rewrite (CD _ _ (IN m k Hm Hk) (IN m' k' Hm' Hk')).
  assert (MO : dotm d s (mmul d (nth k (gi_endo rho) mzero) (nth m B0 mzero)) (mmul d (nth k' (gi_endo rho) mzero) (nth m' B0 mzero)) =
    if Nat.eqb m m' && Nat.eqb k k' then INR s else 0).
  { eapply (moved_orthonormal mem op); eauto using ind_pos, ind_desc. }
  rewrite MO; destruct (Nat.eqb m m'), (Nat.eqb k k'); cbn [andb]; ring.
Qed.

Lemma unit_one : exists A, gi_rep rho e = Ret (d, A) /\ meq d d A mid.
Proof. exact (or_unit _ _ _ _ _ _ ind_orth). Qed.

Theorem field_spans : (forall r, restrict id = Ret r -> told_apart memH irrH psi r) ->
  forall f, mackey_field mem op memH incl rho psi f -> exists c, forall g, mem g ->
    meq d s (f g) (combination d (gi_endo rho) (field_at g) c).
Proof.
  intros HT f [F1 F2]; destruct the_restriction as (r & Rr); destruct (ind_restr r Rr) as [R1 R2].
  assert (Rr' : restrict (gi_id rho) = Ret r) by (rewrite ind_id; exact Rr).
  assert (IF : intertwines memH incl psi rho (f e)).
  { intros h k A P Hh Ek EA EP; destruct (emb_mem _ _ _ _ _ HI h Hh) as (k' & Ek' & Mk); rewrite Ek in Ek'; apply Ret_inj in Ek'; subst k'.
    rewrite <- (F1 k e k A Mk (grp_id _ _ _ _ HG) (grp_id_r _ _ _ _ HG k Mk) EA).
    exact (F2 h k e k P Hh Ek (grp_id _ _ _ _ HG) (grp_id_l _ _ _ _ HG k Mk) EP). }
  assert (KS : exists c, meq d s (f e) (combination d (gi_endo rho) B0 c)).
  { eapply (kept_span mem op); eauto using ind_pos, ind_desc. }
  destruct KS as (c & Ec); exists c; intros g Hg; destruct (rval_eq mem op inv e rho g ind_orth Hg) as [EV _].
  rewrite (F1 g e g _ Hg (grp_id _ _ _ _ HG) (grp_id_r _ _ _ _ HG g Hg) EV), Ec.
  intros a b Ha Hb; unfold combination, field_at; rewrite map_length; unfold mmul at 1.
  transitivity (sumn (length B0) (fun m => sumn d (fun j => rval rho g a j * sumn (length (gi_endo rho)) (fun k => c m k * mmul d (nth k (gi_endo rho) mzero) (nth m B0 mzero) j b)))).
  { rewrite <- sumn_swap; apply sumn_ext; intros j _; rewrite <- sumn_scal_l; reflexivity. }
  apply sumn_ext; intros m Hm.
  transitivity (sumn (length (gi_endo rho)) (fun k => c m k * mmul d (rval rho g) (mmul d (nth k (gi_endo rho) mzero) (nth m B0 mzero)) a b)).
  { transitivity (sumn (length (gi_endo rho)) (fun k => sumn d (fun j => c m k * (rval rho g a j * mmul d (nth k (gi_endo rho) mzero) (nth m B0 mzero) j b)))).
    - rewrite sumn_swap; apply sumn_ext; intros j _; rewrite <- sumn_scal_l; apply sumn_ext; intros; ring.
    - apply sumn_ext; intros k _; rewrite sumn_scal_l; reflexivity. }
  apply sumn_ext; intros k Hk; f_equal; rewrite nth_moved; apply Nat.ltb_lt in Hm; rewrite Hm.
  change (mmul d (rval rho g) (mmul d (nth k (gi_endo rho) mzero) (nth m B0 mzero)) a b = mmul d (nth k (gi_endo rho) mzero) (mmul d (rval rho g) (nth m B0 mzero)) a b).
  assert (Q : meq d s (mmul d (rval rho g) (mmul d (nth k (gi_endo rho) mzero) (nth m B0 mzero))) (mmul d (nth k (gi_endo rho) mzero) (mmul d (rval rho g) (nth m B0 mzero)))).
  { rewrite <- !mul_assoc, (commuting mem rho ind_desc _ (nth_In _ _ Hk) g _ Hg EV); reflexivity. }
  exact (Q a b Ha Hb).
Qed.
End One.

Theorem hom_basis : forall id rho, inducible mem op inv e memH incl irrG irrH restrict id -> irrG id = Ret rho ->
  (forall r, restrict id = Ret r -> told_apart memH irrH psi r) ->
  forall g0 B, basis irrG irrH restrict components g0 id (gi_id psi) = Ret B ->
  exists F, (forall g, mem g -> basis irrG irrH restrict components g id (gi_id psi) = Ret (F g)) /\
    basis_of_fields mem op memH incl rho psi (length B) F /\
    basis_shape irrG irrH restrict id (gi_id psi) = Ret (gi_size rho, length B, gi_size psi).
Proof.
  intros id rho Hind Er HT g0 B EB.
  assert (Er' : irrG (gi_id rho) = Ret rho) by (rewrite (ind_id id rho Hind Er); exact Er).
  destruct (basis_inv g0 id B rho Er Er' EB) as (B0 & M & E0 & EM & ->); rewrite map_length.
  exists (field_at rho B0); split; [|split].
  - intros g Hg; exact (field_basis id rho Hind Er B0 E0 g Hg).
  - split; [intros g _; unfold field_at; apply map_length|split; [|split]].
    + intros m Hm; exact (field_mackey id rho Hind Er B0 E0 m Hm).
    + intros g Hg; exact (field_orthonormal id rho Hind Er B0 E0 g Hg).
    + exact (field_spans id rho Hind Er B0 E0 HT).
  - unfold basis_shape; rewrite Er; cbn [bind]; rewrite Epsi; cbn [bind].
    destruct (the_restriction id rho Hind Er B0 E0) as (r & Rr).
    assert (DB : dimension_basis restrict psi rho = Ret (length B0)); [|rewrite DB; reflexivity].
    unfold dimension_basis; rewrite (ind_id id rho Hind Er), Rr; cbn [bind].
    pose proof E0 as E1; unfold dirac_kernel_ft in E1; rewrite (ind_id id rho Hind Er), Rr in E1; cbn [bind] in E1.
    apply bind_Ret in E1 as (sl & Es & E1); apply bind_Ret in E1 as (sl' & Es' & E1); apply Ret_inj in E1; subst B0; rewrite map_length.
    apply psi_slices_length in Es; fold (r_multiplicity r (gi_id psi)) in Es.
    assert (PK : (0 < gi_sosc rho)%nat).
    { destruct (ind_desc id rho Hind Er) as (_ & U & Le); destruct (ub_first _ _ U) as (F & Fs & E & _); rewrite <- Le, E; cbn; lia. }
    assert (L : (length sl = length sl' * gi_sosc rho)%nat).
    { unfold select in Es'; destruct (Nat.ltb_spec 1 (gi_sosc rho)) as [H|H].
      - apply assert_Ret in Es' as [_ Es']; apply assert_Ret in Es' as [Q Es']; apply Nat.eqb_eq in Q; apply bind_Ret in Es' as (f & _ & Es').
        apply assert_Ret in Es' as [Q' Es']; apply Nat.eqb_eq in Q'; apply Ret_inj in Es'; subst sl'; rewrite map_length, Q'; lia.
      - apply Ret_inj in Es'; subst sl'; assert (gi_sosc rho = 1)%nat as -> by lia; lia. }
    cbn zeta; rewrite (round_div _ (length sl') (gi_sosc rho) PK (eq_trans (eq_sym Es) L)), Nat2Z.id.
    assert (V : INR (r_multiplicity r (gi_id psi) * gi_sosc psi) / INR (gi_sosc rho) = IZR (Z.of_nat (length sl'))).
    { rewrite <- Es, L, mult_INR, <- INR_IZR_INZ; field; apply not_0_INR; lia. }
    rewrite V.
    assert (IC : np_isclose (/ 10 ^ 8) (IZR (Z.of_nat (length sl'))) (IZR (Z.of_nat (length sl'))) = true).
    { unfold np_isclose; apply Rleb_true; rewrite Rminus_diag_eq by reflexivity; rewrite Rabs_R0; pose proof (Rabs_pos (IZR (Z.of_nat (length sl')))); lra. }
    rewrite IC; reflexivity.
Qed.

(** complete_basis *)
Variable linv : nat -> mat -> res mat.
Hypothesis Hinv : correct_inverse linv.

Definition column0 (n : nat) (B : mat) : list R := map (fun i => B i 0%nat) (seq 0 n).

Lemma column0_moved : forall n A B, mv n A (column0 n B) = column0 n (mmul n A B).
Proof.
  intros n A B; unfold mv, column0; apply map_ext_in; intros i _; unfold mmul; apply sumn_ext; intros j Hj; f_equal.
  rewrite (nth_indep _ 0 (B 0%nat 0%nat)) by (rewrite map_length, seq_length; exact Hj); rewrite (map_nth (fun i => B i 0%nat)), seq_nth by exact Hj; reflexivity.
Qed.

Lemma column0_ext : forall n B B', meq n 1 B B' -> column0 n B = column0 n B'.
Proof. intros n B B' H; unfold column0; apply map_ext_in; intros i Hi; apply in_seq in Hi; apply H; lia. Qed.

Lemma concat_flat : forall {X Y} (f : X -> list (list Y)) l, concat (map (fun x => concat (f x)) l) = concat (flat_map f l).
Proof. intros X Y f l; induction l as [|x l IH]; [reflexivity|]; cbn [map concat flat_map]; rewrite concat_app, IH; reflexivity. Qed.

Lemma first_columns_concat : forall n B, first_columns n B = concat (map (column0 n) B).
Proof. intros n B; unfold first_columns; induction B as [|b B IH]; [reflexivity|]; cbn [flat_map map concat]; rewrite IH; reflexivity. Qed.

Definition chosen (rho : girrep T) : list mat := match dirac_kernel_ft irrH restrict components rho psi with Ret B => B | Raise => [] end.

Lemma complete_eq : forall ids rs ms ind g, mem g -> parts irrG restrict psi ids rs ms -> spectral irrG restrict linv psi ids = Ret (Some ind) ->
  Forall (fun r => irrG (gi_id r) = Ret r /\ orth mem op inv e r /\ (0 < gi_size r)%nat /\ (0 < gi_sosc r)%nat) rs -> r_size ind = tsize (copies rs ms) ->
  Forall (fun r => exists B, dirac_kernel_ft irrH restrict components r psi = Ret B) rs ->
  complete_basis irrG irrH restrict components linv g (gi_id psi) ids =
    Ret (concat (flat_map (fun r => map (fun B => column0 (gi_size r) (mmul (gi_size r) (rval r g) B)) (chosen r)) rs)) /\
  Forall2 (fun r b => length b = gi_size r) (copies rs ms) (flat_map (fun r => map (fun B => column0 (gi_size r) (mmul (gi_size r) (rval r g) B)) (chosen r)) rs).
Proof.
  intros ids rs ms ind g Hg [Er Dm] Es Hrs Sz Hd.
  assert (FL : Forall2 (fun r b => length b = gi_size r) (copies rs ms) (flat_map (fun r => map (fun B => column0 (gi_size r) (mmul (gi_size r) (rval r g) B)) (chosen r)) rs)).
  { rewrite flat_map_concat_map; apply copies_Forall2; clear - Dm Hrs Hd; revert Hrs Hd; induction Dm as [|r m rs ms D Dm IH]; intros Hrs Hd; [constructor|].
    apply Forall_cons_iff in Hrs as [(_ & _ & _ & Ps) Hrs]; apply Forall_cons_iff in Hd as [(B & EB) Hd]; cbn [combine map]; constructor; [|apply IH; assumption].
    cbn [fst snd]; unfold chosen; rewrite EB, map_length; split; [exact (dirac_length irrH restrict components psi r B m Ps EB D)|].
    apply Forall_map, Forall_forall; intros b _; unfold column0; rewrite map_length, seq_length; reflexivity. }
  split; [|exact FL].
  unfold complete_basis; rewrite Epsi; cbn [bind]; rewrite Es; cbn [bind]; rewrite Er; cbn [bind].
  assert (MM : mapM (fun id => rho <- irrG id ;; B <- basis irrG irrH restrict components g id (gi_id psi) ;; Ret (first_columns (gi_size rho) B)) (map gi_id rs)
    = Ret (map (fun r => concat (map (fun B => column0 (gi_size r) (mmul (gi_size r) (rval r g) B)) (chosen r))) rs)).
  { clear - Epsi Hrs Hd Hg hbasis; induction rs as [|r rs IH]; [reflexivity|].
    apply Forall_cons_iff in Hrs as [(Q1 & Q2 & _) Hrs]; apply Forall_cons_iff in Hd as [(B & EB) Hd]; cbn [map mapM]; rewrite Q1; cbn [bind].
    destruct (rval_eq mem op inv e r g Q2 Hg) as [EV _].
    pose proof (basis_ret g (gi_id r) B r _ Q1 Q1 EB EV) as EQ; unfold hbasis in EQ; rewrite EQ; cbn [bind]; rewrite (IH Hrs Hd); cbn [bind].
    assert (Ch : chosen r = B) by (unfold chosen; rewrite EB; reflexivity); rewrite first_columns_concat, map_map, Ch; reflexivity. }
  rewrite MM; cbn [bind]; rewrite concat_flat.
  assert (L : length (concat (flat_map (fun r => map (fun B => column0 (gi_size r) (mmul (gi_size r) (rval r g) B)) (chosen r)) rs)) = r_size ind).
  { rewrite Sz; clear - FL; induction FL as [|r b fl bs H FL IH]; [reflexivity|]; cbn [concat]; rewrite app_length, H, IH; reflexivity. }
  rewrite L, Nat.eqb_refl; reflexivity.
Qed.

(** moving the point moves the values of all functions by the induced representation *)
Theorem complete_moves : forall ids ind, Forall (usable_irrep irrG mem op inv e) ids -> spectral irrG restrict linv psi ids = Ret (Some ind) ->
  forall g0 v0, complete_basis irrG irrH restrict components linv g0 (gi_id psi) ids = Ret v0 ->
  forall a g ag, mem a -> mem g -> op a g = Ret ag ->
  exists A v, r_fun ind a = Ret (r_size ind, A) /\ complete_basis irrG irrH restrict components linv g (gi_id psi) ids = Ret v /\
    length v = r_size ind /\ complete_basis irrG irrH restrict components linv ag (gi_id psi) ids = Ret (mv (r_size ind) A v).
Proof.
  intros ids ind Hu Es g0 v0 E0 a g ag Ha Hg Eag.
  destruct (spectral_inv mem op inv e irrG restrict linv psi Hinv ids ind Hu Es) as (rs & ms & Pt & FO & Sz & Pz & RF).
  assert (Hrs : Forall (fun r => irrG (gi_id r) = Ret r /\ orth mem op inv e r /\ (0 < gi_size r)%nat /\ (0 < gi_sosc r)%nat) rs).
  { destruct (usable_list mem op inv e irrG ids Hu) as (rs' & E' & F'); destruct Pt as [E1 _]; rewrite E1 in E'; apply Ret_inj in E'; subst rs'; exact F'. }
  assert (Mag : mem ag) by (destruct (grp_op _ _ _ _ HG a g Ha Hg) as (x & Ex & Mx); rewrite Eag in Ex; apply Ret_inj in Ex; subst x; exact Mx).
  assert (Hd : Forall (fun r => exists B, dirac_kernel_ft irrH restrict components r psi = Ret B) rs).
  { unfold complete_basis in E0; rewrite Epsi in E0; cbn [bind] in E0; rewrite Es in E0; cbn [bind] in E0; destruct Pt as [E1 _]; rewrite E1 in E0; cbn [bind] in E0.
    apply bind_Ret in E0 as (bs & Eb & _); clear - Eb Hrs Epsi hbasis; revert bs Eb; induction Hrs as [|r rs (Q1 & _) Hrs IH]; intros bs Eb; [constructor|].
    cbn [map mapM] in Eb; rewrite Q1 in Eb; cbn [bind] in Eb; apply bind_Ret in Eb as (x & Ex & Eb); apply bind_Ret in Eb as (y & Ey & Eb).
    apply bind_Ret in Ex as (B & EB & _); destruct (basis_inv g0 (gi_id r) B r Q1 Q1 EB) as (B0 & _ & E0 & _).
    constructor; [exists B0; exact E0|exact (IH _ Ey)]. }
  exists (V (copies rs ms) a); destruct (complete_eq ids rs ms ind g Hg Pt Es Hrs Sz Hd) as [C1 F1], (complete_eq ids rs ms ind ag Mag Pt Es Hrs Sz Hd) as [C2 F2].
  eexists; split; [exact (RF a Ha)|split; [exact C1|split]].
  { rewrite Sz; clear - F1; induction F1 as [|r b fl bs H FL IH]; [reflexivity|]; cbn [concat]; rewrite app_length, H, IH; reflexivity. }
  rewrite C2; f_equal; rewrite Sz, (V_blocks _ a _ F1).
  f_equal; destruct Pt as [_ Dm]; clear - Dm Hrs Hd Ha Hg Eag Ppsi; revert Hrs Hd.
  induction Dm as [|r m rs ms D Dm IH]; intros Hrs Hd; [reflexivity|].
  apply Forall_cons_iff in Hrs as [(_ & Or & _ & Ps) Hrs]; apply Forall_cons_iff in Hd as [(B & EB) Hd]; cbn [flat_map].
  change (copies (r :: rs) (m :: ms)) with (repeat r m ++ copies rs ms).
  assert (Lb : length (chosen r) = m) by (unfold chosen; rewrite EB; exact (dirac_length irrH restrict components psi r B m Ps EB D)).
  rewrite (IH Hrs Hd); clear IH D.
  assert (CA : forall X Y (l1 l2 : list X) (m1 m2 : list Y), length l1 = length m1 -> List.combine (l1 ++ l2) (m1 ++ m2) = List.combine l1 m1 ++ List.combine l2 m2).
  { intros X Y l1; induction l1 as [|x l1 IH]; intros l2 [|y m1] m2 H; try discriminate; [reflexivity|]; cbn; rewrite IH by (cbn in H; lia); reflexivity. }
  rewrite CA by (rewrite repeat_length, map_length; lia); rewrite map_app; f_equal; clear CA.
  rewrite <- Lb; clear Lb m EB; induction (chosen r) as [|b l IH]; [reflexivity|]; cbn [length repeat map List.combine fst snd]; rewrite IH; f_equal.
  rewrite column0_moved; apply column0_ext.
  destruct (or_mul _ _ _ _ _ _ Or a g Ha Hg) as (z & A' & B' & C' & H1 & H2 & H3 & H4 & M).
  rewrite Eag in H1; apply Ret_inj in H1; subst z; unfold rval; rewrite H2, H3, H4; cbn [snd]; rewrite M, mul_assoc; reflexivity.
Qed.
End Cor.
