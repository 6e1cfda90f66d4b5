(** The slices that homspace.py selects, and the Frobenius products between
    them. *)
From Coq Require Import Reals ZArith Bool List Lia Lra Setoid Morphisms Arith Permutation.
From Verif Require Import LibRes LibList LibMat LibMatS LibTrig SpecGroup SpecRep ParamModel IrrepModel
  RepModel SpecRepr RepProofs SpecReg RegModel RegProofs IndModel SpecInd IndProofs SpecDis SpecSchur SchurProofs SchurThms.
Import ListNotations.
Open Scope R_scope.

Lemma sumn_support : forall n p m f, (p + m <= n)%nat -> (forall i, (i < n)%nat -> (i < p)%nat \/ (p + m <= i)%nat -> f i = 0) ->
  sumn n f = sumn m (fun i => f (p + i)%nat).
Proof.
  intros n p m f L Z; replace n with (p + (m + (n - p - m)))%nat by lia.
  rewrite sumn_app, sumn_app, (sumn_0 p), (sumn_0 (n - p - m)); [ring| |]; intros i Hi; apply Z; lia.
Qed.

Section Slices.
Context {T S : Type}.
Variables (memH : S -> Prop) (irrH : list Z -> res (girrep S)).
Variable components : nat -> (nat -> nat -> bool) -> nat * (nat -> nat).
Variable psi : girrep S.
Notation s := (gi_size psi).
Hypothesis Epsi : irrH (gi_id psi) = Ret psi.
Hypothesis Ppsi : (0 < s)%nat.
Hypothesis Upsi : unit_basis s (gi_endo psi).
Hypothesis Spsi : spans_commutant memH s (gi_rep psi) (gi_endo psi).
Hypothesis Hsz : forall id r h b, irrH id = Ret r -> memH h -> gi_rep r h = Ret b -> fst b = gi_size r.
Hypothesis Hcomp : correct_components components.

Definition mk (x : nat * nat) : nat * mat :=
  ((fst x + snd x)%nat, fun a b => if Nat.leb (fst x) a && Nat.ltb a (fst x + s) then o_col psi (snd x) (a - fst x)%nat b else 0).

(** [psi] sits at position [q] *)
Definition occurs (ids : list (list Z)) (q : nat) : Prop := forall h bs P, memH h -> values irrH ids h = Ret bs ->
  gi_rep psi h = Ret (s, P) -> (q + s <= bsize bs)%nat /\ forall a k, (a < s)%nat -> (k < bsize bs)%nat ->
    bdiag bs (q + a)%nat k = (if Nat.leb q k && Nat.ltb k (q + s) then P a (k - q)%nat else 0) /\
    bdiag bs k (q + a)%nat = (if Nat.leb q k && Nat.ltb k (q + s) then P (k - q)%nat a else 0).

Lemma values_cons : forall id ids h bs, values irrH (id :: ids) h = Ret bs -> exists r A bs',
  irrH id = Ret r /\ gi_rep r h = Ret A /\ values irrH ids h = Ret bs' /\ bs = A :: bs'.
Proof.
  intros id ids h bs E; unfold values in E; cbn [mapM] in E; apply bind_Ret in E as (A & EA & E).
  apply bind_Ret in EA as (r & Er & EA); apply bind_Ret in E as (bs' & Eb & E); apply Ret_inj in E; subst bs.
  exists r, A, bs'; repeat split; assumption.
Qed.

Lemma occurs_head : forall ids, occurs (gi_id psi :: ids) 0.
Proof.
  intros ids h bs P Hh Ev EP; destruct (values_cons _ _ _ _ Ev) as (r & A & bs' & Er & EA & _ & ->).
  rewrite Epsi in Er; apply Ret_inj in Er; subst r; rewrite EP in EA; apply Ret_inj in EA; subst A; cbn [bsize fst]; split; [lia|].
  intros a k Ha Hk; cbn [bdiag]; rewrite !Nat.add_0_l, !Nat.sub_0_r; apply Nat.ltb_lt in Ha as La; rewrite La.
  split; destruct (Nat.ltb_spec k s); cbn; reflexivity.
Qed.

Lemma occurs_tail : forall id r ids q, irrH id = Ret r -> occurs ids q -> occurs (id :: ids) (gi_size r + q).
Proof.
  intros id r ids q Er O h bs P Hh Ev EP; destruct (values_cons _ _ _ _ Ev) as (r' & [m A] & bs' & Er' & EA & Ev' & ->).
  rewrite Er in Er'; apply Ret_inj in Er'; subst r'; pose proof (Hsz id r h _ Er Hh EA) as Em; cbn [fst] in Em; subst m.
  destruct (O h bs' P Hh Ev' EP) as [L X]; cbn [bsize fst]; split; [lia|].
  intros a k Ha Hk; cbn [bdiag].
  destruct (Nat.ltb_spec (gi_size r + q + a) (gi_size r)) as [L1|L1]; [lia|].
  destruct (Nat.ltb_spec k (gi_size r)) as [L2|L2].
  - destruct (Nat.leb_spec (gi_size r + q) k); [lia|]; cbn; split; reflexivity.
  - destruct (X a (k - gi_size r)%nat Ha ltac:(lia)) as [X1 X2].
    replace (gi_size r + q + a - gi_size r)%nat with (q + a)%nat by lia; rewrite X1, X2.
    replace (k - gi_size r - q)%nat with (k - (gi_size r + q))%nat by lia.
    destruct (Nat.leb_spec q (k - gi_size r)), (Nat.leb_spec (gi_size r + q) k); try lia; cbn [andb]; [|split; reflexivity].
    destruct (Nat.ltb_spec (k - gi_size r) (q + s)), (Nat.ltb_spec k (gi_size r + q + s)); try lia; split; reflexivity.
Qed.

Definition apart (x y : nat * nat) : Prop := (fst x = fst y /\ snd x <> snd y) \/ (fst x + s <= fst y)%nat.

Lemma slices_shape : forall ids p sl, psi_slices irrH psi ids p = Ret sl -> exists l, sl = map mk l /\
  Forall (fun x => In (snd x) (nonnull psi) /\ (p <= fst x)%nat /\ occurs ids (fst x - p)) l /\ ForallOrdPairs apart l.
Proof.
  induction ids as [|id ids IH]; intros p sl E; cbn [psi_slices] in E.
  - apply Ret_inj in E; subst sl; exists []; repeat split; constructor.
  - apply bind_Ret in E as (r & Er & E); apply bind_Ret in E as (rest & Et & E).
    destruct (IH _ _ Et) as (l & -> & F & A).
    assert (F' : Forall (fun x => In (snd x) (nonnull psi) /\ (p <= fst x)%nat /\ occurs (id :: ids) (fst x - p)) l).
    { eapply Forall_impl; [|exact F]; cbn beta; intros x (I & L & O); split; [exact I|split; [lia|]].
      replace (fst x - p)%nat with (gi_size r + (fst x - (p + gi_size r)))%nat by lia; apply (occurs_tail id r); assumption. }
    destruct (list_eq_dec Z.eq_dec id (gi_id psi)) as [->|_]; [|apply Ret_inj in E; subst sl; exists l; repeat split; assumption].
    apply assert_Ret in E as [_ E]; apply Ret_inj in E; subst sl.
    rewrite Epsi in Er; apply Ret_inj in Er; subst r.
    exists (map (fun j => (p, j)) (nonnull psi) ++ l); split; [rewrite map_app, map_map; reflexivity|split].
    + apply Forall_app; split; [|exact F']; apply Forall_map, Forall_forall; intros j Hj; cbn [fst snd].
      split; [exact Hj|split; [lia|]]; rewrite Nat.sub_diag; apply occurs_head.
    + apply fop_app; [|exact A|].
      * apply fop_map; unfold nonnull; apply fop_filter; eapply fop_impl; [apply fop_seq|].
        cbn beta; intros x y _ _ L; left; cbn [fst snd]; split; [reflexivity|lia].
      * intros x y Hx Hy; apply in_map_iff in Hx as (j & <- & _); right; cbn [fst].
        pose proof (proj1 (Forall_forall _ _) F y Hy) as (_ & L & _); exact L.
Qed.

(** ** selection *)

Definition conj_entry (rho : girrep T) (r : repr S) (E : mat) (a b : nat) : R :=
  mmul (gi_size rho) (mmul (gi_size rho) (r_inv r) E) (r_cob r) a b.

Lemma fold_sq_zero : forall (l : list R) eps, (forall x, In x l -> 0 <= x) -> fold_right Rplus 0 l <= eps -> forall x, In x l -> x <= eps.
Proof.
  intros l eps Hp L x Hx; assert (Y : forall m, (forall x, In x m -> 0 <= x) -> 0 <= fold_right Rplus 0 m).
  { clear; induction m as [|a m IH]; intros H; cbn; [lra|]; pose proof (H a (or_introl eq_refl));
    pose proof (IH (fun y Hy => H y (or_intror Hy))); lra. }
  revert eps L; induction l as [|a l IH]; intros eps L; [destruct Hx|]; cbn [fold_right] in L.
  pose proof (Hp a (or_introl eq_refl)); pose proof (Y l (fun y Hy => Hp y (or_intror Hy))).
  destruct Hx as [->|Hx]; [lra|]; apply IH; [intros; apply Hp; right; assumption|exact Hx|lra].
Qed.

Lemma select_shape : forall (rho : girrep T) r l sl, select components rho r (map mk l) = Ret sl -> ForallOrdPairs apart l ->
  clear_restriction rho r -> (forall x, In x l -> (fst x + snd x < gi_size rho)%nat) ->
  exists l', sl = map mk l' /\ (forall x, In x l' -> In x l) /\
    ForallOrdPairs (fun x y => apart x y /\
      ((1 < gi_sosc rho)%nat -> forall E, In E (gi_endo rho) -> conj_entry rho r E (fst x + snd x) (fst y + snd y) = 0)) l'.
Proof.
  intros rho r l sl E A [_ Cl] Hb; unfold select in E; destruct (Nat.ltb_spec 1 (gi_sosc rho)) as [L|L].
  2:{ apply Ret_inj in E; subst sl; exists l; split; [reflexivity|split; [auto|]].
      eapply fop_impl; [exact A|]; cbn beta; intros x y _ _ H; split; [exact H|lia]. }
  apply assert_Ret in E as [_ E]; set (t := length (map mk l)) in *.
  assert (Lt : t = length l) by apply map_length.
  set (ortho := fun a b : nat => negb (Rleb (fold_right Rplus 0 (map (fun E0 : mat => mmul (gi_size rho) (mmul (gi_size rho) (r_inv r) E0) (r_cob r)
      (fst (nth a (map mk l) (0%nat, mzero))) (fst (nth b (map mk l) (0%nat, mzero))) ^ 2) (gi_endo rho))) (/ 10 ^ 9))) in *.
  set (c := components t ortho) in *.
  apply assert_Ret in E as [_ E]; apply bind_Ret in E as (first & Ef & E); apply assert_Ret in E as [_ E]; apply Ret_inj in E.
  set (kept := filter (fun a => existsb (Nat.eqb a) first) (seq 0 t)) in *.
  assert (Fst : forall a, In a first -> exists i, (i < fst c)%nat /\ snd c a = i /\
      exists rest, filter (fun a => Nat.eqb (snd c a) i) (seq 0 t) = a :: rest).
  { intros a Ha; apply mapM_Ret_inv in Ef; clear - Ef Ha.
    assert (Y : forall m, Forall2 (fun i a => (assert (Nat.eqb (length (filter (fun a => Nat.eqb (snd c a) i) (seq 0 t))) (gi_sosc rho)) ;;
       match filter (fun a => Nat.eqb (snd c a) i) (seq 0 t) with [] => Raise | a :: _ => Ret a end) = Ret a) m first ->
       (forall i, In i m -> (i < fst c)%nat) -> exists i, (i < fst c)%nat /\ snd c a = i /\
      exists rest, filter (fun a => Nat.eqb (snd c a) i) (seq 0 t) = a :: rest).
    { clear Ef; intros m F; induction F as [|i b m first Eb _ IH]; intros Hm; [destruct Ha|].
      destruct Ha as [->|Ha]; [|apply IH; [exact Ha|intros; apply Hm; right; assumption]].
      apply assert_Ret in Eb as [_ Eb]; exists i; split; [apply Hm; left; reflexivity|].
      destruct (filter (fun a => Nat.eqb (snd c a) i) (seq 0 t)) as [|a' rest] eqn:Ef'; [discriminate|].
      apply Ret_inj in Eb; subst a'; split; [|exists rest; reflexivity].
      assert (I : In a (filter (fun a => Nat.eqb (snd c a) i) (seq 0 t))) by (rewrite Ef'; left; reflexivity).
      apply filter_In in I as [_ I]; apply Nat.eqb_eq in I; exact I. }
    apply (Y (seq 0 (fst c))); [exact Ef|intros i Hi; apply in_seq in Hi; lia]. }
  exists (map (fun a => nth a l (0%nat, 0%nat)) kept); split; [|split].
  - rewrite <- E, map_map; apply map_ext_in; intros a Ha; apply filter_In in Ha as [Ha _]; apply in_seq in Ha.
    rewrite (nth_indep _ _ (mk (0%nat, 0%nat))) by (fold t; lia); apply map_nth.
  - intros x Hx; apply in_map_iff in Hx as (a & <- & Ha); apply filter_In in Ha as [Ha _]; apply in_seq in Ha; apply nth_In; lia.
  - apply fop_map; eapply fop_impl; [apply fop_filter, fop_seq|]; cbn beta; intros a b Ha Hb' Lab.
    apply filter_In in Ha as [Ha Fa]; apply filter_In in Hb' as [Hb' Fb]; apply in_seq in Ha; apply in_seq in Hb'.
    split; [apply fop_nth; [exact A|exact Lab|lia]|]; intros _ E0 HE.
    apply existsb_exists in Fa as (a' & Ia & Ea); apply Nat.eqb_eq in Ea; subst a'.
    apply existsb_exists in Fb as (b' & Ib & Eb); apply Nat.eqb_eq in Eb; subst b'.
    destruct (Fst a Ia) as (i & _ & Si & ra & Ra), (Fst b Ib) as (i' & _ & Si' & rb & Rb).
    assert (Ni : snd c a <> snd c b).
    { intros X; rewrite Si, Si' in X; subst i'; rewrite X, Rb in Ra; injection Ra as <- _; lia. }
    assert (Og : ortho a b = false).
    { destruct (ortho a b) eqn:Eo; [|reflexivity]; exfalso; apply Ni, (proj2 (proj2 (Hcomp t ortho)) a b); [lia|lia|].
      apply Relation_Operators.rst_step; repeat split; [lia|lia|exact Eo]. }
    unfold ortho in Og; apply negb_false_iff in Og.
    assert (Le : fold_right Rplus 0 (map (fun E1 : mat => mmul (gi_size rho) (mmul (gi_size rho) (r_inv r) E1) (r_cob r)
      (fst (nth a (map mk l) (0%nat, mzero))) (fst (nth b (map mk l) (0%nat, mzero))) ^ 2) (gi_endo rho)) <= / 10 ^ 9).
    { unfold Rleb in Og; destruct (Rle_dec _ _) in Og; [assumption|discriminate]. }
    assert (Nth : forall k, (k < t)%nat -> fst (nth k (map mk l) (0%nat, mzero)) = (fst (nth k l (0%nat, 0%nat)) + snd (nth k l (0%nat, 0%nat)))%nat).
    { intros k Hk; rewrite (nth_indep _ _ (mk (0%nat, 0%nat))) by (fold t; lia); rewrite map_nth; reflexivity. }
    rewrite !Nth in Le by lia.
    pose proof (Hb (nth a l (0%nat, 0%nat)) ltac:(apply nth_In; lia)) as B1.
    pose proof (Hb (nth b l (0%nat, 0%nat)) ltac:(apply nth_In; lia)) as B2.
    destruct (Cl E0 _ _ HE B1 B2) as [Z|Z]; [exact Z|exfalso].
    apply fold_sq_zero with (x := conj_entry rho r E0 (fst (nth a l (0%nat, 0%nat)) + snd (nth a l (0%nat, 0%nat))) (fst (nth b l (0%nat, 0%nat)) + snd (nth b l (0%nat, 0%nat))) ^ 2) in Le.
    + unfold conj_entry in Le; lra.
    + intros x Hx; apply in_map_iff in Hx as (E1 & <- & _); apply pow2_ge_0.
    + apply in_map_iff; exists E0; split; [reflexivity|exact HE].
Qed.
End Slices.
