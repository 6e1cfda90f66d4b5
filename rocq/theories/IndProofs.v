(** Induced representations. *)
From Coq Require Import Reals ZArith Bool List Lia Lra Setoid Morphisms Arith.
From Verif Require Import LibRes LibList LibMat LibMatS LibTrig SpecGroup ParamModel IrrepModel SpecRep IrrepProofs
  RepModel SpecRepr RepProofs RepThms RegModel SpecReg RegProofs IndModel SpecInd.
Import ListNotations.
Open Scope R_scope.

(** u^T A v *)
Definition bil (n : nat) (A : mat) (u v : list R) : R :=
  sumn n (fun i => sumn n (fun j => nth i u 0 * A i j * nth j v 0)).

Lemma bil_app : forall b1 b2 u1 u2 v1 v2, length u1 = bsize b1 -> length v1 = bsize b1 ->
  bil (bsize (b1 ++ b2)) (bdiag (b1 ++ b2)) (u1 ++ u2) (v1 ++ v2) =
  bil (bsize b1) (bdiag b1) u1 v1 + bil (bsize b2) (bdiag b2) u2 v2.
Proof.
  intros b1 b2 u1 u2 v1 v2 L L'; unfold bil; rewrite bsize_app, sumn_app; f_equal.
  - apply sumn_ext; intros i Hi; rewrite sumn_app.
    rewrite (sumn_0 (bsize b2)).
    + rewrite Rplus_0_r; apply sumn_ext; intros j Hj; rewrite !app_nth1, bdiag_app by lia.
      rewrite !(proj2 (Nat.ltb_lt _ _)) by lia; reflexivity.
    + intros j Hj; rewrite bdiag_app, (proj2 (Nat.ltb_lt i _)), (proj2 (Nat.ltb_ge (bsize b1 + j) _)) by lia; ring.
  - apply sumn_ext; intros i Hi; rewrite sumn_app.
    rewrite (sumn_0 (bsize b1)).
    + rewrite Rplus_0_l; apply sumn_ext; intros j Hj; rewrite !app_nth2, bdiag_app by lia.
      rewrite !(proj2 (Nat.ltb_ge (bsize b1 + _) _)) by lia; rewrite L, L'.
      replace (bsize b1 + i - bsize b1)%nat with i by lia; replace (bsize b1 + j - bsize b1)%nat with j by lia; reflexivity.
    + intros j Hj; rewrite bdiag_app, (proj2 (Nat.ltb_lt j _)), (proj2 (Nat.ltb_ge (bsize b1 + i) _)) by lia; ring.
Qed.

Lemma nth_map_seq : forall (f : nat -> R) s i, (i < s)%nat -> nth i (map f (seq 0 s)) 0 = f i.
Proof.
  intros f s i H; rewrite (nth_indep _ 0 (f 0%nat)) by (rewrite map_length, seq_length; exact H).
  rewrite (map_nth f), seq_nth by exact H; reflexivity.
Qed.

Lemma bil_one : forall s A (f g : nat -> R),
  bil (bsize [(s, A)]) (bdiag [(s, A)]) (map f (seq 0 s)) (map g (seq 0 s)) =
  sumn s (fun i => sumn s (fun j => f i * A i j * g j)).
Proof.
  intros s A f g; unfold bil; cbn [bsize]; rewrite Nat.add_0_r; apply sumn_ext; intros i Hi; apply sumn_ext; intros j Hj.
  rewrite !nth_map_seq by assumption; cbn [bdiag]; rewrite !(proj2 (Nat.ltb_lt _ _)) by assumption; reflexivity.
Qed.

Lemma orth_cons : forall n A bs, orthogonal n A -> orthogonal (bsize bs) (bdiag bs) ->
  orthogonal (bsize ((n, A) :: bs)) (bdiag ((n, A) :: bs)).
Proof.
  intros n A bs HA HB; apply orthogonal_inverse in HA, HB.
  pose proof (bdiag_inverse [true; false] (fun b : bool => if b then n else bsize bs) (fun b => if b then A else bdiag bs)
    (fun b => if b then mtr A else mtr (bdiag bs))) as X.
  cbn [map list_sum fold_right] in X; rewrite Nat.add_0_r in X.
  assert (Y := X ltac:(intros [|] _; assumption)); apply orthogonal_inverse; cbn [bsize].
  eapply inverse_of_ext; [| |exact Y].
  - intros i j Hi Hj; cbn [bdiag]; destruct (Nat.ltb_spec i n), (Nat.ltb_spec j n); try reflexivity.
    rewrite !(proj2 (Nat.ltb_lt _ _)) by lia; reflexivity.
  - intros i j Hi Hj; unfold mtr; cbn [bdiag]; destruct (Nat.ltb_spec i n), (Nat.ltb_spec j n); try reflexivity.
    rewrite !(proj2 (Nat.ltb_lt _ _)) by lia; reflexivity.
Qed.

Lemma orth_conj : forall n Q B, orthogonal n Q -> orthogonal n B -> orthogonal n (mmul n (mmul n Q B) (mtr Q)).
Proof.
  intros n Q B [Q1 Q2] [B1 B2]; split; rewrite !mul_tr, tr_tr, !mul_assoc.
  - rewrite <- (mul_assoc _ _ _ _ (mtr Q) Q), Q2, mid_l, <- (mul_assoc _ _ _ _ B (mtr B)), B1, mid_l; exact Q1.
  - rewrite <- (mul_assoc _ _ _ _ (mtr Q) Q), Q2, mid_l, <- (mul_assoc _ _ _ _ (mtr B) B), B2, mid_l; exact Q1.
Qed.

Section Induced.
Context {T S : Type}.
Variables (mem : T -> Prop) (op : T -> T -> res T) (inv : T -> res T) (e : T).
Variables (memH : S -> Prop) (opH : S -> S -> res S) (invH : S -> res S) (eH : S).
Variables (incl : S -> res T).
Variables (irrG : list Z -> res (girrep T)) (irrH : list Z -> res (girrep S)).
Variable restrict : list Z -> res (repr S).
Variable components : nat -> (nat -> nat -> bool) -> nat * (nat -> nat).
Variable linv : nat -> mat -> res mat.
Variable psi : girrep S.
Hypothesis HG : is_group mem op inv e.
Hypothesis HI : is_embedding mem op memH opH incl.
Hypothesis Hpsi : orth_rep memH opH invH eH (gi_size psi) (gi_rep psi).
Hypothesis Epsi : irrH (gi_id psi) = Ret psi.
Hypothesis Hend : endo_commutes memH psi.
Hypothesis Ppsi : (0 < gi_size psi)%nat.

Notation s := (gi_size psi).

Lemma o_col_commutes : forall h P j, memH h -> gi_rep psi h = Ret (s, P) ->
  meq s s (mmul s P (o_col psi j)) (mmul s (o_col psi j) P).
Proof.
  intros h P j Hh EP a b Ha Hb; unfold o_col.
  assert (X : forall l, (forall E, In E l -> In E (gi_endo psi)) ->
    mmul s P (fun a b => fold_right Rplus 0 (map (fun E : mat => E 0%nat j * E a b) l)) a b =
    mmul s (fun a b => fold_right Rplus 0 (map (fun E : mat => E 0%nat j * E a b) l)) P a b).
  { induction l as [|E l IH]; intros Hl; cbn [map fold_right].
    - unfold mmul; rewrite !sumn_0; [reflexivity|intros; ring|intros; ring].
    - assert (IHl := IH (fun E' H' => Hl E' (or_intror H'))).
      pose proof (Hend h P E Hh EP (Hl E (or_introl eq_refl)) a b Ha Hb) as C.
      assert (L : mmul s P (fun a b => E 0%nat j * E a b + fold_right Rplus 0 (map (fun E : mat => E 0%nat j * E a b) l)) a b =
        E 0%nat j * mmul s P E a b + mmul s P (fun a b => fold_right Rplus 0 (map (fun E : mat => E 0%nat j * E a b) l)) a b).
      { unfold mmul; rewrite <- sumn_scal_l, <- sumn_plus; apply sumn_ext; intros; ring. }
      assert (R : mmul s (fun a b => E 0%nat j * E a b + fold_right Rplus 0 (map (fun E : mat => E 0%nat j * E a b) l)) P a b =
        E 0%nat j * mmul s E P a b + mmul s (fun a b => fold_right Rplus 0 (map (fun E : mat => E 0%nat j * E a b) l)) P a b).
      { unfold mmul; rewrite <- sumn_scal_l, <- sumn_plus; apply sumn_ext; intros; ring. }
      rewrite L, R, C, IHl; reflexivity. }
  apply X; auto.
Qed.

(** a slice with support in [p, p + n) intertwines *)
Lemma slices_intertwine : forall ids p sl, psi_slices irrH psi ids p = Ret sl ->
  forall h bs P, memH h -> values irrH ids h = Ret bs -> map fst bs = map fst bs -> gi_rep psi h = Ret (s, P) ->
  Forall (fun id => forall r b, irrH id = Ret r -> gi_rep r h = Ret b -> fst b = gi_size r) ids ->
  forall c M, In (c, M) sl ->
    (forall a b, ((a < p)%nat \/ (p + bsize bs <= a)%nat) -> M a b = 0) /\
    (forall a b, (a < bsize bs)%nat -> (b < s)%nat ->
      sumn (bsize bs) (fun k => bdiag bs a k * M (p + k)%nat b) = sumn s (fun q => M (p + a)%nat q * P q b)).
Proof.
  induction ids as [|id ids IH]; intros p sl Es h bs P Hh Ev _ EP Hsz c M HM.
  - apply Ret_inj in Es; subst sl; destruct HM.
  - cbn [psi_slices] in Es; apply bind_Ret in Es as (r & Er & Es); apply bind_Ret in Es as (rest & Et & Es).
    unfold values in Ev; cbn [mapM] in Ev; rewrite Er in Ev; cbn [bind] in Ev.
    apply bind_Ret in Ev as ([n A] & EA & Ev); apply bind_Ret in Ev as (bs' & Eb & Ev); apply Ret_inj in Ev; subst bs.
    inversion Hsz as [|? ? Hs1 Hs2]; subst; pose proof (Hs1 r _ Er EA) as En; cbn [fst] in En; subst n.
    assert (Crest : In (c, M) rest ->
      (forall a b, ((a < p)%nat \/ (p + bsize ((gi_size r, A) :: bs') <= a)%nat) -> M a b = 0) /\
      (forall a b, (a < bsize ((gi_size r, A) :: bs'))%nat -> (b < s)%nat ->
        sumn (bsize ((gi_size r, A) :: bs')) (fun k => bdiag ((gi_size r, A) :: bs') a k * M (p + k)%nat b) =
        sumn s (fun q => M (p + a)%nat q * P q b))).
    { intros HM'; destruct (IH (p + gi_size r)%nat rest Et h bs' P Hh Eb eq_refl EP Hs2 c M HM') as [Z1 Z2].
      cbn [bsize]; split; [intros a b Hab; apply Z1; lia|].
      intros a b Ha Hb; rewrite sumn_app; cbn [bdiag].
      destruct (Nat.ltb_spec a (gi_size r)) as [L|L].
      - rewrite sumn_0 by (intros k Hk; rewrite Z1 by lia; ring).
        rewrite sumn_0 by (intros k Hk; rewrite (proj2 (Nat.ltb_ge (gi_size r + k) _)) by lia; ring).
        rewrite sumn_0 by (intros k Hk; rewrite Z1 by lia; ring); ring.
      - rewrite sumn_0 by (intros k Hk; rewrite Z1 by lia; ring).
        rewrite Rplus_0_l; specialize (Z2 (a - gi_size r)%nat b ltac:(lia) Hb).
        replace (p + a)%nat with (p + gi_size r + (a - gi_size r))%nat by lia; rewrite <- Z2.
        apply sumn_ext; intros k Hk; rewrite (proj2 (Nat.ltb_ge (gi_size r + k) _)) by lia.
        replace (gi_size r + k - gi_size r)%nat with k by lia.
        replace (p + (gi_size r + k))%nat with (p + gi_size r + k)%nat by lia; reflexivity. }
    destruct (list_eq_dec Z.eq_dec id (gi_id psi)) as [->|_]; [|apply Ret_inj in Es; subst sl; exact (Crest HM)].
    apply assert_Ret in Es as [_ Es]; apply Ret_inj in Es; subst sl.
    apply in_app_iff in HM as [HM|HM]; [|exact (Crest HM)].
    rewrite Epsi in Er; apply Ret_inj in Er; subst r; rewrite EP in EA; apply Ret_inj in EA; injection EA as <-.
    apply in_map_iff in HM as (j & E & _); injection E as <- <-; cbn [bsize]; split.
    + intros a b Hab; destruct (Nat.leb_spec p a), (Nat.ltb_spec a (p + s)); cbn; try reflexivity; lia.
    + intros a b Ha Hb; rewrite sumn_app; cbn [bdiag].
      rewrite (sumn_0 (bsize bs')).
      2:{ intros k Hk; destruct (Nat.leb_spec p (p + (s + k))), (Nat.ltb_spec (p + (s + k)) (p + s)); cbn; try lia; ring. }
      rewrite Rplus_0_r; destruct (Nat.ltb_spec a s) as [L|L].
      * pose proof (o_col_commutes h P j Hh EP a b L Hb) as C; unfold mmul in C.
        etransitivity; [|etransitivity; [exact C|]]; apply sumn_ext; intros k Hk.
        -- rewrite (proj2 (Nat.ltb_lt k s) Hk).
           destruct (Nat.leb_spec p (p + k)), (Nat.ltb_spec (p + k) (p + s)); cbn; try lia.
           replace (p + k - p)%nat with k by lia; reflexivity.
        -- destruct (Nat.leb_spec p (p + a)), (Nat.ltb_spec (p + a) (p + s)); cbn; try lia.
           replace (p + a - p)%nat with a by lia; reflexivity.
      * rewrite sumn_0 by (intros k Hk; rewrite (proj2 (Nat.ltb_lt k s) Hk); ring).
        rewrite sumn_0; [reflexivity|]; intros k Hk.
        destruct (Nat.leb_spec p (p + a)), (Nat.ltb_spec (p + a) (p + s)); cbn; try lia; ring.
Qed.

Lemma select_incl : forall (rho : girrep T) (rho_H : repr S) sl sl', select components rho rho_H sl = Ret sl' -> forall x, In x sl' -> In x sl.
Proof.
  intros rho rho_H sl sl' E x Hx; unfold select in E; destruct (Nat.ltb 1 (gi_sosc rho)); [|apply Ret_inj in E; subst; exact Hx].
  apply assert_Ret in E as [_ E]; apply assert_Ret in E as [_ E]; apply bind_Ret in E as (f & _ & E).
  apply assert_Ret in E as [_ E]; apply Ret_inj in E; subst sl'.
  apply in_map_iff in Hx as (a & <- & Ha); apply filter_In in Ha as [Ha _]; apply in_seq in Ha; apply nth_In; lia.
Qed.

(** the slices intertwine rho on H with psi *)
Lemma dirac_intertwines : forall rho B, dirac_kernel_ft irrH restrict components rho psi = Ret B ->
  (forall r, restrict (gi_id rho) = Ret r -> restriction_of irrH memH incl rho r) ->
  (forall id r h b, irrH id = Ret r -> memH h -> gi_rep r h = Ret b -> fst b = gi_size r) ->
  forall Bm, In Bm B -> forall h k A P, memH h -> incl h = Ret k -> gi_rep rho k = Ret (gi_size rho, A) ->
    gi_rep psi h = Ret (s, P) ->
    meq (gi_size rho) s (mmul (gi_size rho) A Bm) (mmul s Bm P).
Proof.
  intros rho B EB HR Hsz Bm HB h k A P Hh Ek EA EP; unfold dirac_kernel_ft in EB.
  apply bind_Ret in EB as (r & Er & EB); apply bind_Ret in EB as (sl & Es & EB); apply bind_Ret in EB as (sl' & Es' & EB).
  apply Ret_inj in EB; subst B; apply in_map_iff in HB as ([c M] & <- & HM); apply (select_incl _ _ _ _ Es') in HM.
  destruct (HR r Er) as (Sr & [[_ Ri] Rr] & Rv); cbn [snd].
  destruct (Rr h Hh) as (bs & V & Ev & Eb & EV & MV); rewrite Sr in *.
  destruct (Rv h Hh) as (g & A' & V' & Eg & EA' & EV' & MA).
  rewrite Ek in Eg; apply Ret_inj in Eg; subst g; rewrite EA in EA'; apply Ret_inj in EA'; injection EA' as <-.
  rewrite EV in EV'; apply Ret_inj in EV'; injection EV' as <-.
  destruct (slices_intertwine _ _ _ Es h bs P Hh Ev eq_refl EP) with (c := c) (M := M) as [_ Z]; [|exact HM|].
  { apply Forall_forall; intros id _ r' b E1 E2; exact (Hsz id r' h b E1 Hh E2). }
  assert (ZM : meq (gi_size rho) s (mmul (gi_size rho) (bdiag bs) M) (mmul s M P)).
  { intros a b Ha Hb; rewrite Eb in Z; exact (Z a b Ha Hb). }
  rewrite MA, MV, (mul_assoc _ _ _ _ _ (r_inv r)).
  rewrite <- (mul_assoc _ _ _ _ (r_inv r)), Ri, mid_l, mul_assoc, ZM, mul_assoc; reflexivity.
Qed.

(** ** assembling the columns *)

Variables (reps : list T).
Hypothesis Hreps : Forall mem reps.

(** one copy of an irrep, with its slice and its values at the representatives *)
Record pack := { pk_rho : girrep T; pk_B : mat; pk_vals : list mat }.

Definition pk_ok (k : pack) : Prop :=
  (0 < gi_size (pk_rho k))%nat /\
  orth_rep mem op inv e (gi_size (pk_rho k)) (gi_rep (pk_rho k)) /\
  Forall2 (fun r A => gi_rep (pk_rho k) r = Ret (gi_size (pk_rho k), A)) reps (pk_vals k) /\
  forall h k0 A P, memH h -> incl h = Ret k0 -> gi_rep (pk_rho k) k0 = Ret (gi_size (pk_rho k), A) ->
    gi_rep psi h = Ret (s, P) ->
    meq (gi_size (pk_rho k)) s (mmul (gi_size (pk_rho k)) A (pk_B k)) (mmul s (pk_B k) P).

Definition pk_c (k : pack) : R := / sqrt (INR (length (pk_vals k))) * / sqrt (INR s) * sqrt (INR (gi_size (pk_rho k))).
Definition pk_entry (k : pack) (row o : nat) : R :=
  pk_c k * mmul (gi_size (pk_rho k)) (nth (row / s) (pk_vals k) mzero) (pk_B k) o (row mod s).
Definition pk_row (k : pack) (row : nat) : list R := map (pk_entry k row) (seq 0 (gi_size (pk_rho k))).

Lemma mapM_vals : forall rho l vals, orth_rep mem op inv e (gi_size rho) (gi_rep rho) -> Forall mem l ->
  mapM (fun r => A <- gi_rep rho r ;; Ret (snd A)) l = Ret vals ->
  Forall2 (fun r A => gi_rep rho r = Ret (gi_size rho, A)) l vals.
Proof.
  intros rho l vals O Hl E; apply mapM_Ret_inv in E; revert Hl; induction E as [|r A l l' Er _ IH]; intros Hl; constructor.
  - inversion Hl; subst; destruct (or_total _ _ _ _ _ _ O r) as (A' & EA & _); [assumption|].
    rewrite EA in Er; cbn in Er; apply Ret_inj in Er; subst A; exact EA.
  - apply IH; inversion Hl; assumption.
Qed.

Lemma step_packs : forall rho out size, induced_step irrH restrict components psi reps size rho = Ret out ->
  (0 < gi_size rho)%nat -> orth_rep mem op inv e (gi_size rho) (gi_rep rho) ->
  (forall r, restrict (gi_id rho) = Ret r -> restriction_of irrH memH incl rho r) ->
  (forall id r h b, irrH id = Ret r -> memH h -> gi_rep r h = Ret b -> fst b = gi_size r) ->
  exists ks, Forall pk_ok ks /\ fst out = map pk_rho ks /\ Forall (fun k => pk_rho k = rho) ks /\
    forall row, map (fun c => c row) (snd out) = flat_map (fun k => pk_row k row) ks.
Proof.
  intros rho out size E Ps O HR Hsz; unfold induced_step in E; apply bind_Ret in E as (B & EB & E).
  pose proof (dirac_intertwines rho B EB HR Hsz) as HB.
  destruct B as [|B0 B]; [apply Ret_inj in E; subst out; exists []; repeat split; constructor|].
  apply bind_Ret in E as (vals & Ev & E); apply assert_Ret in E as [_ E]; apply Ret_inj in E; subst out; cbn [fst snd].
  exists (map (fun Bm => {| pk_rho := rho; pk_B := Bm; pk_vals := vals |}) (B0 :: B)); split; [|split; [|split]].
  - apply Forall_map, Forall_forall; intros Bm I; split; [exact Ps|split; [exact O|split]]; cbn [pk_rho pk_vals pk_B].
    + apply mapM_vals; assumption.
    + apply HB; exact I.
  - rewrite map_map; cbn [pk_rho]; generalize (B0 :: B); induction l as [|b l IH]; cbn; [reflexivity|rewrite IH; reflexivity].
  - apply Forall_map, Forall_forall; reflexivity.
  - intros row; unfold ift_columns; rewrite !flat_map_concat_map, concat_map, !map_map; f_equal; apply map_ext; intros Bm.
    rewrite map_map; unfold pk_row, pk_entry, pk_c; cbn [pk_rho pk_B pk_vals]; apply map_ext; intros o; unfold Rdiv; ring.
Qed.

(** x^-1 g y *)
Lemma mid_elem : forall x g y z xi, mem x -> mem g -> mem y -> op g y = Ret z -> inv x = Ret xi ->
  exists w, op xi z = Ret w /\ mem w /\ mem z /\ mem xi.
Proof.
  intros x g y z xi Hx Hg Hy Ez Ei.
  destruct (grp_op _ _ _ _ HG g y Hg Hy) as (z' & Ez' & Mz); rewrite Ez in Ez'; apply Ret_inj in Ez'; subst z'.
  destruct (grp_inv _ _ _ _ HG x Hx) as (xi' & Ei' & Mi); rewrite Ei in Ei'; apply Ret_inj in Ei'; subst xi'.
  destruct (grp_op _ _ _ _ HG xi z Mi Mz) as (w & Ew & Mw); exists w; auto.
Qed.

Definition val (rho : girrep T) (w : T) : mat := match gi_rep rho w with Ret A => snd A | Raise => mzero end.

Lemma val_eq : forall rho w A, gi_rep rho w = Ret (gi_size rho, A) -> val rho w = A.
Proof. intros rho w A E; unfold val; rewrite E; reflexivity. Qed.

Definition pk_block (k : pack) (w : T) : mat :=
  mmul (gi_size (pk_rho k)) (mtr (pk_B k)) (mmul (gi_size (pk_rho k)) (val (pk_rho k) w) (pk_B k)).

Definition F (ks : list pack) (w : T) : mat := fun p q =>
  fold_right Rplus 0 (map (fun k => pk_c k * pk_c k * pk_block k w p q) ks).

Lemma nth_vals : forall k i x, pk_ok k -> nth_error reps i = Some x ->
  gi_rep (pk_rho k) x = Ret (gi_size (pk_rho k), nth i (pk_vals k) mzero).
Proof.
  intros k i x (_ & _ & H & _); revert i; induction H as [|r A l l' E _ IH]; intros [|i] Hx; cbn in *; try discriminate.
  - injection Hx as <-; exact E.
  - apply IH; [inversion Hreps; assumption|exact Hx].
Qed.

Lemma row_div : forall i p, (p < s)%nat -> ((i * s + p) / s = i)%nat /\ ((i * s + p) mod s = p)%nat.
Proof.
  intros i p Hp; split.
  - rewrite Nat.div_add_l by lia; rewrite Nat.div_small by exact Hp; lia.
  - rewrite Nat.add_comm, Nat.mod_add by lia; apply Nat.mod_small; exact Hp.
Qed.

(** one copy contributes B^T rho(x^-1 g y) B *)
Lemma pack_bil : forall k i j x y g z xi w, pk_ok k -> mem g ->
  nth_error reps i = Some x -> nth_error reps j = Some y -> op g y = Ret z -> inv x = Ret xi -> op xi z = Ret w ->
  forall p q, (p < s)%nat -> (q < s)%nat ->
  let n := gi_size (pk_rho k) in
  sumn n (fun o => sumn n (fun o' => pk_entry k (i * s + p) o * val (pk_rho k) g o o' * pk_entry k (j * s + q) o')) =
  pk_c k * pk_c k * pk_block k w p q.
Proof.
  intros k i j x y g z xi w Hk Hg Ex Ey Ez Ei Ew p q Hp Hq n.
  assert (Hx : mem x) by (apply (proj1 (Forall_forall _ _) Hreps), (nth_error_In _ _ Ex)).
  assert (Hy : mem y) by (apply (proj1 (Forall_forall _ _) Hreps), (nth_error_In _ _ Ey)).
  destruct (mid_elem x g y z xi Hx Hg Hy Ez Ei) as (w' & Ew' & Mw & Mz & Mi); rewrite Ew in Ew'; apply Ret_inj in Ew'; subst w'.
  pose proof (nth_vals k i x Hk Ex) as Vx; pose proof (nth_vals k j y Hk Ey) as Vy.
  destruct Hk as (_ & O & _ & _); fold n in Vx, Vy.
  set (X := nth i (pk_vals k) mzero) in *; set (Y := nth j (pk_vals k) mzero) in *.
  destruct (row_div i p Hp) as [D1 M1], (row_div j q Hq) as [D2 M2].
  unfold pk_entry; rewrite D1, M1, D2, M2; fold n X Y.
  destruct (or_mul _ _ _ _ _ _ O g y Hg Hy) as (z' & Ag & Ay & Az & E1 & E2 & E3 & E4 & M3).
  rewrite Ez in E1; apply Ret_inj in E1; subst z'; rewrite Vy in E3; apply Ret_inj in E3; injection E3 as <-.
  destruct (or_mul _ _ _ _ _ _ O xi z Mi Mz) as (w' & Ai & Az' & Aw & F1 & F2 & F3 & F4 & M4).
  rewrite Ew in F1; apply Ret_inj in F1; subst w'; rewrite E4 in F3; apply Ret_inj in F3; injection F3 as <-.
  destruct (or_inv _ _ _ _ _ _ O x Hx) as (xi' & Ax & Ai' & G1 & G2 & G3 & M5).
  rewrite Ei in G1; apply Ret_inj in G1; subst xi'; rewrite Vx in G2; apply Ret_inj in G2; injection G2 as <-.
  rewrite F2 in G3; apply Ret_inj in G3; injection G3 as <-.
  unfold pk_block; rewrite (val_eq _ _ _ E2), (val_eq _ _ _ F4); fold n.
  assert (M : meq s s (mmul n (mtr (pk_B k)) (mmul n Aw (pk_B k)))
                     (mmul n (mmul n (mtr (mmul n X (pk_B k))) Ag) (mmul n Y (pk_B k)))).
  { fold n in M3, M4, M5; rewrite M4, M3, M5, mul_tr, !mul_assoc; reflexivity. }
  rewrite (M p q Hp Hq).
  change (mmul n (mmul n (mtr (mmul n X (pk_B k))) Ag) (mmul n Y (pk_B k)) p q) with
    (sumn n (fun o' => mmul n (mtr (mmul n X (pk_B k))) Ag p o' * mmul n Y (pk_B k) o' q)).
  rewrite sumn_swap, <- sumn_scal_l; apply sumn_ext; intros o' _.
  change (mmul n (mtr (mmul n X (pk_B k))) Ag p o') with (sumn n (fun o => mmul n X (pk_B k) o p * Ag o o')).
  rewrite <- sumn_scal_r, <- sumn_scal_l; apply sumn_ext; intros o _; ring.
Qed.

Lemma packs_bil : forall ks i j x y g z xi w, Forall pk_ok ks -> mem g ->
  nth_error reps i = Some x -> nth_error reps j = Some y -> op g y = Ret z -> inv x = Ret xi -> op xi z = Ret w ->
  forall p q, (p < s)%nat -> (q < s)%nat -> exists vs,
    mapM (fun k => gi_rep (pk_rho k) g) ks = Ret vs /\ length (flat_map (fun k => pk_row k 0) ks) = bsize vs /\
    bil (bsize vs) (bdiag vs) (flat_map (fun k => pk_row k (i * s + p)) ks) (flat_map (fun k => pk_row k (j * s + q)) ks) =
    F ks w p q.
Proof.
  intros ks i j x y g z xi w Hks Hg Ex Ey Ez Ei Ew p q Hp Hq; induction Hks as [|k ks Hk _ (vs & Ev & L & IH)].
  - exists []; repeat split; unfold bil; cbn; reflexivity.
  - pose proof (pack_bil k i j x y g z xi w Hk Hg Ex Ey Ez Ei Ew p q Hp Hq) as Q; cbn zeta in Q.
    destruct Hk as (_ & O & _ & _); destruct (or_total _ _ _ _ _ _ O g Hg) as (A & EA & _).
    exists ((gi_size (pk_rho k), A) :: vs); cbn [mapM]; rewrite EA; cbn [bind]; rewrite Ev; cbn [bind].
    assert (Lk : forall row, length (pk_row k row) = gi_size (pk_rho k)) by (intros; unfold pk_row; rewrite map_length, seq_length; reflexivity).
    split; [reflexivity|split; [cbn [flat_map bsize]; rewrite app_length, L, Lk; reflexivity|]].
    change ((gi_size (pk_rho k), A) :: vs) with ([(gi_size (pk_rho k), A)] ++ vs); cbn [flat_map].
    rewrite bil_app by (rewrite Lk; cbn; lia); rewrite IH; unfold pk_row at 1 2.
    rewrite bil_one, <- (val_eq _ _ _ EA), Q; reflexivity.
Qed.

(** F(w incl(h)) = F(w) psi(h) *)
Lemma F_right : forall ks w h k0 wk P, Forall pk_ok ks -> mem w -> memH h -> incl h = Ret k0 -> op w k0 = Ret wk ->
  gi_rep psi h = Ret (s, P) -> forall p q, (p < s)%nat -> (q < s)%nat -> F ks wk p q = mmul s (F ks w) P p q.
Proof.
  intros ks w h k0 wk P Hks Hw Hh Ek Ew EP p q Hp Hq.
  assert (Mk : mem k0) by (destruct (emb_mem _ _ _ _ _ HI h Hh) as (k' & E' & M'); rewrite Ek in E'; apply Ret_inj in E'; subst; exact M').
  induction Hks as [|k ks Hk _ IH].
  - unfold F, mmul; cbn; rewrite sumn_0; [reflexivity|intros; ring].
  - assert (Y : mmul s (F (k :: ks) w) P p q = pk_c k * pk_c k * mmul s (pk_block k w) P p q + mmul s (F ks w) P p q).
    { unfold mmul; rewrite <- sumn_scal_l, <- sumn_plus; apply sumn_ext; intros l _; unfold F; cbn [map fold_right]; ring. }
    rewrite Y, <- IH; unfold F; cbn [map fold_right]; f_equal; f_equal.
    destruct Hk as (_ & O & _ & HB); unfold pk_block.
    destruct (or_mul _ _ _ _ _ _ O w k0 Hw Mk) as (wk' & A & A0 & C & E1 & E2 & E3 & E4 & M).
    rewrite Ew in E1; apply Ret_inj in E1; subst wk'; rewrite (val_eq _ _ _ E2), (val_eq _ _ _ E4).
    specialize (HB h k0 A0 P Hh Ek E3 EP).
    set (n := gi_size (pk_rho k)) in *.
    assert (X : meq s s (mmul n (mtr (pk_B k)) (mmul n C (pk_B k))) (mmul s (mmul n (mtr (pk_B k)) (mmul n A (pk_B k))) P)).
    { rewrite M, !mul_assoc, HB; reflexivity. }
    apply X; assumption.
Qed.

Lemma rest_zero : forall n f k, (forall i, (i < n)%nat -> 0 <= f i) -> (k < n)%nat -> sumn n f = f k ->
  forall i, (i < n)%nat -> i <> k -> f i = 0.
Proof.
  intros n f k Hf Hk E i Hi N.
  assert (X : forall i, (i < n)%nat -> (fun i => if Nat.eqb i k then 0 else f i) i = 0).
  { apply sumn_zero_inv; [intros j Hj; destruct (Nat.eqb j k); [lra|apply Hf; exact Hj]|].
    assert (Y : sumn n (fun i => if Nat.eqb i k then f k else 0) = f k).
    { rewrite (sumn_single n k _ Hk); [rewrite Nat.eqb_refl; reflexivity|].
      intros j Hj Hjk; destruct (Nat.eqb_spec j k); [congruence|reflexivity]. }
    transitivity (sumn n f - sumn n (fun i => if Nat.eqb i k then f k else 0)); [|lra].
    rewrite <- sumn_minus; apply sumn_ext; intros j _; destruct (Nat.eqb_spec j k); [subst; ring|ring]. }
  specialize (X i Hi); cbn beta in X; destruct (Nat.eqb_spec i k); [congruence|exact X].
Qed.

Lemma same_nth : forall (l : list T) i j x, NoDup l -> nth_error l i = Some x -> nth_error l j = Some x -> i = j.
Proof.
  intros l i j x N Ei Ej; apply (proj1 (NoDup_nth_error l) N); [apply nth_error_Some; congruence|congruence].
Qed.

Hypothesis Hinv : correct_inverse linv.
Hypothesis Htr : transversal mem op memH incl reps.

Definition good_irrep (id : list Z) : Prop := exists rho, irrG id = Ret rho /\ gi_id rho = id /\ sound_irrep irrG mem op e id /\
  orth_rep mem op inv e (gi_size rho) (gi_rep rho) /\
  forall r, restrict id = Ret r -> restriction_of irrH memH incl rho r.

Theorem induced_ok : forall same index ids ids' cob cobi,
  Forall good_irrep ids ->
  (forall id r h b, irrH id = Ret r -> memH h -> gi_rep r h = Ret b -> fst b = gi_size r) ->
  build_induced irrG irrH restrict components same index ids psi reps = Ret (ids', cob, cobi) ->
  let n := (s * length reps)%nat in
  orthogonal n cob -> sharp n cob ->
  exists r, induced_representation irrG irrH restrict components linv same index ids psi reps = Ret r /\
    r_size r = n /\ proper irrG mem op e r /\ r_irreps r = ids' /\
    forall g, mem g -> exists A, r_fun r g = Ret (n, A) /\ orthogonal n A /\ induced_value op memH incl psi reps g A.
Proof.
  intros same index ids ids' cob cobi Hids Hsz EB n Ho Hsh.
  unfold induced_representation; rewrite EB; cbn [bind fst snd]; fold n.
  unfold build_induced in EB; fold n in EB.
  apply bind_Ret in EB as (_u & _ & EB); apply bind_Ret in EB as (_v & _ & EB); apply bind_Ret in EB as (rhos & Er & EB).
  apply bind_Ret in EB as (parts & Ep & EB); apply assert_Ret in EB as [El EB]; apply Nat.eqb_eq in El.
  apply assert_Ret in EB as [_ EB]; apply assert_Ret in EB as [_ EB]; apply Ret_inj in EB; injection EB as <- Ec <-.
  (* the copies *)
  assert (X : exists ks, Forall pk_ok ks /\ flat_map fst parts = map pk_rho ks /\
    Forall (fun k => sound_irrep irrG mem op e (gi_id (pk_rho k)) /\ irrG (gi_id (pk_rho k)) = Ret (pk_rho k)) ks /\
    forall row, map (fun c => c row) (flat_map snd parts) = flat_map (fun k => pk_row k row) ks).
  { clear El Ec Ho Hsh cob; revert rhos parts Er Ep; induction Hids as [|id ids (rho & Ei & Ii & Si & Oi & Ri) _ IH]; intros rhos parts Er Ep.
    - apply Ret_inj in Er; subst rhos; apply Ret_inj in Ep; subst parts; exists []; repeat split; constructor.
    - cbn [mapM] in Er; rewrite Ei in Er; cbn [bind] in Er; apply bind_Ret in Er as (rhos' & Er & X); apply Ret_inj in X; subst rhos.
      cbn [mapM] in Ep; apply bind_Ret in Ep as (pt & Et & Ep); apply bind_Ret in Ep as (parts' & Ep & X); apply Ret_inj in X; subst parts.
      destruct (IH rhos' parts' Er Ep) as (ks & K1 & K2 & K3 & K4).
      assert (Pr : (0 < gi_size rho)%nat) by (destruct Si as (rho' & E' & _ & P' & _); rewrite Ei in E'; apply Ret_inj in E'; subst; exact P').
      destruct (step_packs rho pt n Et Pr Oi) as (ks0 & L1 & L2 & L3 & L4); [rewrite Ii; exact Ri|exact Hsz|].
      exists (ks0 ++ ks); split; [apply Forall_app; split; assumption|split; [|split]].
      + cbn [flat_map]; rewrite K2, L2, map_app; reflexivity.
      + apply Forall_app; split; [|exact K3]; eapply Forall_impl; [|exact L3]; cbn; intros k ->; rewrite Ii; split; assumption.
      + intros row; cbn [flat_map]; rewrite map_app, flat_map_app, K4, L4; reflexivity. }
  destruct X as (ks & K1 & K2 & K3 & K4); clear Er Ep.
  assert (Ck : forall row k, cob row k = nth k (flat_map (fun p => pk_row p row) ks) 0).
  { intros row k; rewrite <- Ec, <- K4; unfold columns_mat.
    change 0 with ((fun c : nat -> R => c row) (fun _ => 0)) at 2; rewrite map_nth; reflexivity. }
  assert (Lk : length (flat_map (fun k => pk_row k 0) ks) = n) by (rewrite <- K4, map_length; exact El).
  assert (Hids' : Forall (sound_irrep irrG mem op e) (map gi_id (map pk_rho ks))).
  { apply Forall_map, Forall_map; eapply Forall_impl; [|exact K3]; cbn; intros k [Hk _]; exact Hk. }
  assert (Emap : mapM irrG (map gi_id (map pk_rho ks)) = Ret (map pk_rho ks)).
  { clear - K3; induction K3 as [|k ks [_ Hk] _ IH]; [reflexivity|]; cbn [map mapM]; rewrite Hk; cbn [bind]; rewrite IH; reflexivity. }
  destruct (proj2 (proj2 Htr) e (grp_id _ _ _ _ HG)) as (r0 & Ir0 & _).
  destruct (In_nth_error _ _ Ir0) as (i0 & Ei0).
  assert (Hn : (0 < n)%nat) by (destruct reps; [destruct Ir0|unfold n; cbn; nia]).
  (* the values *)
  assert (Vals : forall g, mem g -> exists vs, values irrG (map gi_id (map pk_rho ks)) g = Ret vs /\ bsize vs = n /\
    forall i j x y z xi w, nth_error reps i = Some x -> nth_error reps j = Some y -> op g y = Ret z -> inv x = Ret xi ->
      op xi z = Ret w -> forall p q, (p < s)%nat -> (q < s)%nat ->
      mmul n (mmul n cob (bdiag vs)) (mtr cob) (i * s + p)%nat (j * s + q)%nat = F ks w p q).
  { intros g Hg.
    assert (Y : exists vs, mapM (fun k => gi_rep (pk_rho k) g) ks = Ret vs /\ bsize vs = n).
    { assert (H0 : mem r0) by (apply (proj1 (Forall_forall _ _) Hreps); exact Ir0).
      destruct (grp_op _ _ _ _ HG g r0 Hg H0) as (z & Ez & Mz), (grp_inv _ _ _ _ HG r0 H0) as (xi & Exi & Mxi).
      destruct (grp_op _ _ _ _ HG xi z Mxi Mz) as (w & Ew & _).
      destruct (packs_bil ks i0 i0 r0 r0 g z xi w K1 Hg Ei0 Ei0 Ez Exi Ew 0 0 Ppsi Ppsi) as (vs & Ev & L & _).
      exists vs; split; [exact Ev|]; rewrite <- L; exact Lk. }
    destruct Y as (vs & Ev & Bv); exists vs; split; [|split; [exact Bv|]].
    - unfold values; rewrite (mapM_irr irrG (fun r => gi_rep r g) _ _ Emap), mapM_map; exact Ev.
    - intros i j x y z xi w Ex Ey Ez Exi Ew p q Hp Hq.
      destruct (packs_bil ks i j x y g z xi w K1 Hg Ex Ey Ez Exi Ew p q Hp Hq) as (vs' & Ev' & _ & Q).
      rewrite Ev in Ev'; apply Ret_inj in Ev'; subst vs'; rewrite <- Q, Bv; unfold bil, mmul, mtr.
      rewrite sumn_swap; apply sumn_ext; intros l _; rewrite <- sumn_scal_r; apply sumn_ext; intros k _; rewrite !Ck; ring. }
  assert (Ht : total_size irrG (map gi_id (map pk_rho ks)) n).
  { destruct (Vals e (grp_id _ _ _ _ HG)) as (vs & Ev & Bv & _).
    destruct (sound_list irrG mem op e _ Hids') as (l & El' & _ & Hl); rewrite Emap in El'; apply Ret_inj in El'; subst l.
    destruct (vals_total mem op e (map pk_rho ks) e (grp_id _ _ _ _ HG) Hl) as (vs' & Ev' & Fv & _).
    unfold values in Ev; rewrite (mapM_irr irrG (fun r => gi_rep r e) _ _ Emap), Ev' in Ev; apply Ret_inj in Ev; subst vs'.
    exists (map pk_rho ks); split; [exact Emap|]; rewrite <- Bv, bsize_map, Fv; reflexivity. }
  assert (Hne : map gi_id (map pk_rho ks) <> []).
  { intros X; destruct Ht as (l & El' & Sl); rewrite X in El'; apply Ret_inj in El'; subst l; cbn in Sl; lia. }
  rewrite K2; destruct (mk_repr_reproduces irrG mem op e linv Hinv (map gi_id (map pk_rho ks)) n cob (Some (mtr cob)) Hids' Hne Ht)
    as (r & Er & Sr & Ir & Cr & Iv & Rr); [apply orthogonal_inverse, Ho|exact Hsh|].
  rewrite Ec, Er; exists r; split; [reflexivity|split; [exact Sr|split; [|split; [exact Ir|]]]].
  { split; [rewrite Ir; exact Hne|split; [rewrite Ir; exact Hids'|split; [rewrite Ir, Sr; exact Ht|exact Rr]]]. }
  (* F(e) = 1 *)
  assert (Fe : forall p q, (p < s)%nat -> (q < s)%nat -> F ks e p q = mid p q).
  { intros p q Hp Hq; destruct (Vals e (grp_id _ _ _ _ HG)) as (vs & Ev & Bv & V).
    assert (H0 : mem r0) by (apply (proj1 (Forall_forall _ _) Hreps); exact Ir0).
    destruct (grp_inv _ _ _ _ HG r0 H0) as (xi & Exi & Mxi).
    rewrite <- (V i0 i0 r0 r0 r0 xi e Ei0 Ei0 (grp_id_l _ _ _ _ HG r0 H0) Exi (grp_inv_l _ _ _ _ HG r0 xi H0 Exi) p q Hp Hq).
    assert (L0 : (i0 < length reps)%nat) by (apply nth_error_Some; congruence).
    assert (M : meq n n (mmul n (mmul n cob (bdiag vs)) (mtr cob)) mid).
    { destruct (sound_list irrG mem op e _ Hids') as (l & El' & _ & Hl); rewrite Emap in El'; apply Ret_inj in El'; subst l.
      destruct (vals_unit mem op e (map pk_rho ks) Hl) as (vs' & Ev' & _ & M).
      unfold values in Ev; rewrite (mapM_irr irrG (fun r => gi_rep r e) _ _ Emap), Ev' in Ev; apply Ret_inj in Ev; subst vs'.
      rewrite Bv in M; rewrite M, mid_r; apply Ho. }
    rewrite M by (unfold n; nia); unfold mid; destruct (Nat.eqb_spec (i0 * s + p) (i0 * s + q)), (Nat.eqb_spec p q); try lia; reflexivity. }
  intros g Hg; destruct Rr as [_ Rr]; destruct (Rr g Hg) as (bs & A & Ev & Bv & EA & M).
  rewrite Sr, Cr, (Iv _ eq_refl) in *; rewrite Ir in Ev.
  destruct (Vals g Hg) as (vs & Ev' & _ & V); rewrite Ev in Ev'; apply Ret_inj in Ev'; subst vs.
  assert (OA : orthogonal n A).
  { assert (Ob : orthogonal n (bdiag bs)).
    { destruct (sound_list irrG mem op e _ Hids') as (l & El' & _ & Hl); rewrite Emap in El'; apply Ret_inj in El'; subst l.
      unfold values in Ev; rewrite (mapM_irr irrG (fun r => gi_rep r g) _ _ Emap), mapM_map in Ev.
      rewrite <- Bv; clear - Ev K1 Hg; revert bs Ev; induction K1 as [|k ks (_ & O & _) _ IH]; intros bs Ev.
      - apply Ret_inj in Ev; subst bs; split; intros i j Hi; cbn in Hi; lia.
      - cbn [mapM] in Ev; apply bind_Ret in Ev as (b & Eb & Ev); apply bind_Ret in Ev as (bs' & Ebs & Ev); apply Ret_inj in Ev; subst bs.
        destruct (or_total _ _ _ _ _ _ O g Hg) as (A & EA & OA); rewrite EA in Eb; apply Ret_inj in Eb; subst b.
        apply orth_cons; [exact OA|exact (IH bs' Ebs)]. }
    apply (orthogonal_ext _ _ _ M); apply orth_conj; assumption. }
  exists A; split; [exact EA|split; [exact OA|]].
  assert (Blk : forall i j x y z, nth_error reps i = Some x -> nth_error reps j = Some y -> op g y = Ret z ->
    forall h k P, memH h -> incl h = Ret k -> op x k = Ret z -> gi_rep psi h = Ret (s, P) ->
    forall p q, (p < s)%nat -> (q < s)%nat -> A (i * s + p)%nat (j * s + q)%nat = P p q).
  { intros i j x y z Ex Ey Ez h k P Hh Ek Exk EP p q Hp Hq.
    assert (Li : (i < length reps)%nat) by (apply nth_error_Some; congruence).
    assert (Lj : (j < length reps)%nat) by (apply nth_error_Some; congruence).
    rewrite M by (unfold n; nia).
    assert (Hx : mem x) by (apply (proj1 (Forall_forall _ _) Hreps), (nth_error_In _ _ Ex)).
    destruct (grp_inv _ _ _ _ HG x Hx) as (xi & Exi & Mxi).
    assert (Mk : mem k) by (destruct (emb_mem _ _ _ _ _ HI h Hh) as (k' & E' & M'); rewrite Ek in E'; apply Ret_inj in E'; subst; exact M').
    assert (Ew : op xi z = Ret k).
    { rewrite <- (grp_assoc _ _ _ _ HG xi x k e z Mxi Hx Mk (grp_inv_l _ _ _ _ HG x xi Hx Exi) Exk).
      apply (grp_id_l _ _ _ _ HG); exact Mk. }
    rewrite (V i j x y z xi k Ex Ey Ez Exi Ew p q Hp Hq).
    rewrite (F_right ks e h k k P K1 (grp_id _ _ _ _ HG) Hh Ek (grp_id_l _ _ _ _ HG k Mk) EP p q Hp Hq).
    unfold mmul; rewrite (sumn_ext s _ (fun l => mid p l * P l q)) by (intros l Hl; rewrite (Fe p l Hp Hl); reflexivity).
    apply (mid_l s s P p q Hp Hq). }
  intros i j x y z Ex Ey Ez; split; [exact (Blk i j x y z Ex Ey Ez)|].
  intros Hno p q Hp Hq.
  assert (Li : (i < length reps)%nat) by (apply nth_error_Some; congruence).
  assert (Lj : (j < length reps)%nat) by (apply nth_error_Some; congruence).
  assert (Hy : mem y) by (apply (proj1 (Forall_forall _ _) Hreps), (nth_error_In _ _ Ey)).
  assert (Mz : mem z) by (destruct (grp_op _ _ _ _ HG g y Hg Hy) as (z' & E' & M'); rewrite Ez in E'; apply Ret_inj in E'; subst; exact M').
  destruct (proj2 (proj2 Htr) z Mz) as (x' & Ix' & (h & k & Hh & Ek & Exk) & _).
  destruct (In_nth_error _ _ Ix') as (i' & Ex').
  assert (Li' : (i' < length reps)%nat) by (apply nth_error_Some; congruence).
  assert (Nii : i <> i').
  { intros ->; rewrite Ex in Ex'; injection Ex' as <-; apply Hno; exists h, k; auto. }
  destruct (or_total _ _ _ _ _ _ Hpsi h Hh) as (P & EP & OP).
  set (f := fun a => sumn s (fun b => A (a * s + b)%nat (j * s + q)%nat * A (a * s + b)%nat (j * s + q)%nat)).
  assert (Sf : sumn (length reps) f = f i').
  { transitivity 1.
    - destruct OA as [_ OA]; specialize (OA (j * s + q)%nat (j * s + q)%nat ltac:(unfold n; nia) ltac:(unfold n; nia)).
      unfold mid in OA; rewrite Nat.eqb_refl in OA; rewrite <- OA; unfold mmul, mtr, n, f.
      rewrite (Nat.mul_comm s (length reps)), sumn_mul; reflexivity.
    - unfold f; rewrite (sumn_ext s _ (fun b => P b q * P b q)).
      + destruct OP as [_ OP]; specialize (OP q q Hq Hq); unfold mid in OP; rewrite Nat.eqb_refl in OP; symmetry; exact OP.
      + intros b Hb; rewrite (Blk i' j x' y z Ex' Ey Ez h k P Hh Ek Exk EP b q Hb Hq); reflexivity. }
  assert (Fz : f i = 0).
  { apply (rest_zero (length reps) f i'); auto; intros a _; apply sumn_nonneg; intros b _.
    apply Rle_0_sqr. }
  assert (Z := sumn_zero_inv s _ (fun b _ => Rle_0_sqr _) Fz p Hp); apply Rsqr_0_uniq; exact Z.
Qed.
End Induced.
