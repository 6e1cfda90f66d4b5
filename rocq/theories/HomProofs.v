(** Lemmas about intertwiners: the slices of `_dirac_kernel_ft` span them. *)
From Coq Require Import Reals ZArith Bool List Lia Lra Setoid Morphisms Arith.
From Verif Require Import LibRes LibList LibMat LibMatS LibTrig SpecGroup SpecRep ParamModel ParamProofs IrrepModel
  RepModel SpecRepr RepProofs SpecReg RegModel RegProofs IndModel SpecInd IndProofs SpecDis SpecSchur SchurProofs SchurThms SchurCor SchurFin SchurInd SpecHom.
Import ListNotations.
Open Scope R_scope.

(** ** changing between two orthogonal families *)
Definition msum (n : nat) (f : nat -> mat) : mat := fun a b => sumn n (fun i => f i a b).

Lemma dotm_msum : forall r c n f B, dotm r c (msum n f) B = sumn n (fun i => dotm r c (f i) B).
Proof.
  intros r c n f B; unfold dotm, msum.
  transitivity (sumn r (fun i => sumn c (fun j => sumn n (fun k => f k i j * B i j)))).
  - apply sumn_ext; intros i _; apply sumn_ext; intros j _; rewrite <- sumn_scal_r; reflexivity.
  - transitivity (sumn r (fun i => sumn n (fun k => sumn c (fun j => f k i j * B i j)))).
    + apply sumn_ext; intros i _; apply sumn_swap.
    + apply sumn_swap.
Qed.

Lemma dotm_mscal : forall r c a A B, dotm r c (mscal a A) B = a * dotm r c A B.
Proof.
  intros; unfold dotm, mscal; rewrite <- sumn_scal_l; apply sumn_ext; intros i _; rewrite <- sumn_scal_l; apply sumn_ext; intros; ring.
Qed.

Lemma msum_coeff : forall r c n S Z cs q, q <> 0 ->
  (forall x y, (x < n)%nat -> (y < n)%nat -> dotm r c (S x) (S y) = if Nat.eqb x y then q else 0) ->
  meq r c Z (msum n (fun x => mscal (cs x) (S x))) -> forall x, (x < n)%nat -> cs x = dotm r c Z (S x) / q.
Proof.
  intros r c n S Z cs q Q HS E x Hx.
  rewrite (dotm_ext r c Z _ (S x) (S x) E (meq_refl _ _ _)), dotm_msum.
  rewrite (sumn_single n x); [|exact Hx|].
  - rewrite dotm_mscal, HS by assumption; rewrite Nat.eqb_refl; field; exact Q.
  - intros y Hy N; rewrite dotm_mscal, HS by assumption; destruct (Nat.eqb_spec y x); [congruence|ring].
Qed.

Lemma family_swap : forall r c n (S Z : nat -> mat) q, q <> 0 ->
  (forall x y, (x < n)%nat -> (y < n)%nat -> dotm r c (S x) (S y) = if Nat.eqb x y then q else 0) ->
  (forall x y, (x < n)%nat -> (y < n)%nat -> dotm r c (Z x) (Z y) = if Nat.eqb x y then q else 0) ->
  (forall i, (i < n)%nat -> exists cs, meq r c (Z i) (msum n (fun x => mscal (cs x) (S x)))) ->
  forall x, (x < n)%nat -> meq r c (S x) (msum n (fun i => mscal (dotm r c (Z i) (S x) / q) (Z i))).
Proof.
  intros r c n S Z q Q HS HZ HC x Hx.
  set (C := fun i x => dotm r c (Z i) (S x) / q).
  assert (EZ : forall i, (i < n)%nat -> meq r c (Z i) (msum n (fun x => mscal (C i x) (S x)))).
  { intros i Hi; destruct (HC i Hi) as (cs & E); intros a b Ha Hb; rewrite (E a b Ha Hb); unfold msum; apply sumn_ext; intros y Hy.
    unfold mscal; f_equal; exact (msum_coeff r c n S (Z i) cs q Q HS E y Hy). }
  assert (O : meq n n (mmul n C (mtr C)) mid).
  { intros i j Hi Hj; unfold mmul, mtr.
    assert (X : dotm r c (Z i) (Z j) = q * sumn n (fun y => C i y * C j y)).
    { rewrite (dotm_ext r c (Z i) _ (Z j) (Z j) (EZ i Hi) (meq_refl _ _ _)), dotm_msum.
      rewrite <- sumn_scal_l; apply sumn_ext; intros y Hy; rewrite dotm_mscal, dotm_comm.
      unfold C at 3; field; exact Q. }
    rewrite HZ in X by assumption; unfold mid; destruct (Nat.eqb i j).
    - apply Rmult_eq_reg_l with q; [lra|exact Q].
    - apply Rmult_eq_reg_l with q; [lra|exact Q]. }
  assert (O' : meq n n (mmul n (mtr C) C) mid) by (apply rows_orthogonal; exact O).
  intros a b Ha Hb; unfold msum.
  transitivity (sumn n (fun i => mscal (C i x) (msum n (fun y => mscal (C i y) (S y))) a b)).
  2:{ apply sumn_ext; intros i Hi; change (C i x * msum n (fun y => mscal (C i y) (S y)) a b = C i x * Z i a b); f_equal; symmetry; exact (EZ i Hi a b Ha Hb). }
  unfold mscal, msum.
  transitivity (sumn n (fun i => sumn n (fun y => C i x * C i y * S y a b))).
  2:{ apply sumn_ext; intros i _; rewrite <- sumn_scal_l; apply sumn_ext; intros; ring. }
  rewrite sumn_swap.
  transitivity (sumn n (fun y => mmul n (mtr C) C x y * S y a b)).
  2:{ apply sumn_ext; intros y _; unfold mmul, mtr; rewrite <- sumn_scal_r; reflexivity. }
  rewrite (sumn_ext n _ (fun y => mid x y * S y a b)) by (intros y Hy; rewrite (O' x y Hx Hy); reflexivity).
  rewrite (sumn_single n x); [unfold mid; rewrite Nat.eqb_refl; ring|exact Hx|].
  intros y Hy N; unfold mid; destruct (Nat.eqb_spec x y); [congruence|ring].
Qed.

(** ** intertwiners *)
Section Span.
Context {S : Type}.
Variables (memH : S -> Prop) (opH : S -> S -> res S) (invH : S -> res S) (eH : S).
Variable irrH : list Z -> res (girrep S).
Variable psi : girrep S.
Notation s := (gi_size psi).
Hypothesis HH : is_group memH opH invH eH.
Hypothesis Hpsi : orth_rep memH opH invH eH s (gi_rep psi).
Hypothesis Epsi : irrH (gi_id psi) = Ret psi.
Hypothesis Ppsi : (0 < s)%nat.
Hypothesis Dpsi : described memH psi.
Hypothesis Hsz : forall id r h b, irrH id = Ret r -> memH h -> gi_rep r h = Ret b -> fst b = gi_size r.

Lemma in_lincomb : forall cs Fs (i j : nat), length cs = length Fs ->
  lincomb cs Fs i j = sumn (length Fs) (fun k => nth k cs 0 * nth k Fs mzero i j).
Proof.
  intros cs Fs i j; revert cs; induction Fs as [|F Fs IH]; intros [|c cs] L; try discriminate; [reflexivity|].
  cbn [lincomb length]; rewrite sumn_S_first; cbn [nth]; unfold madd, mscal; rewrite IH by (cbn in L; lia); reflexivity.
Qed.

Lemma classic_row : forall n (f : nat -> R), (exists j, (j < n)%nat /\ f j <> 0) \/ forall j, (j < n)%nat -> f j = 0.
Proof.
  intros n f; induction n as [|n [(j & Hj & N)|Z]]; [right; intros; lia|left; exists j; split; [lia|exact N]|].
  destruct (Req_dec (f n) 0) as [E|E]; [right|left; exists n; split; [lia|exact E]].
  intros j Hj; destruct (Nat.eq_dec j n) as [->|]; [exact E|apply Z; lia].
Qed.

(** every unit is one of the matrices put into the slices, up to sign *)
Lemma unit_is_col : forall F, In F (gi_endo psi) -> exists j c, In j (nonnull psi) /\ forall a b, F a b = c * o_col psi j a b.
Proof.
  destruct Dpsi as (_ & U & _); intros F IF.
  assert (X : exists j, (j < s)%nat /\ F 0%nat j <> 0).
  { assert (O : orthogonal s F) by (apply (proj1 (Forall_forall _ _) (ub_orth _ _ U)); exact IF).
    destruct O as [O _]; specialize (O 0%nat 0%nat Ppsi Ppsi); unfold mmul, mtr, mid in O; cbn [Nat.eqb] in O.
    destruct (classic_row s (F 0%nat)) as [(j & Hj & N)|Z]; [exists j; split; assumption|].
    rewrite sumn_0 in O by (intros i Hi; rewrite Z by exact Hi; ring); lra. }
  destruct X as (j & Hj & N).
  destruct (unit_rows s (gi_endo psi) F j Ppsi U IF Hj N) as (Zr & Pm).
  assert (Sq : F 0%nat j * F 0%nat j = 1) by (destruct Pm as [-> | ->]; ring).
  assert (In j (nonnull psi)) as Ij.
  { unfold nonnull; apply filter_In; split; [apply in_seq; lia|]; apply negb_true_iff.
    destruct (Rleb _ _) eqn:E; [|reflexivity]; apply Rleb_true in E; exfalso.
    assert (Y : F 0%nat j ^ 2 <= / 10 ^ 9).
    { apply (fold_sq_zero (map (fun E : mat => E 0%nat j ^ 2) (gi_endo psi)) (/ 10 ^ 9)); [|exact E|apply in_map_iff; exists F; auto].
      intros x Ix; apply in_map_iff in Ix as (E' & <- & _); apply pow2_ge_0. }
    assert (Sm : / 10 ^ 9 < 1) by (apply Rmult_lt_reg_l with (10 ^ 9); [lra|rewrite Rinv_r; lra]).
    replace (F 0%nat j ^ 2) with (F 0%nat j * F 0%nat j) in Y by ring; lra. }
  exists j, (F 0%nat j); split; [exact Ij|].
  destruct (one_row (gi_endo psi) j (unit_rows_other s _ Ppsi U j Hj)) as (F' & IF' & NF & X).
  { intros Z; assert (Y : F 0%nat j ^ 2 <= 0).
    { apply (fold_sq_zero (map (fun E : mat => E 0%nat j ^ 2) (gi_endo psi)) 0); [|lra|apply in_map_iff; exists F; auto].
      intros x Ix; apply in_map_iff in Ix as (E' & <- & _); apply pow2_ge_0. }
    replace (F 0%nat j ^ 2) with (F 0%nat j * F 0%nat j) in Y by ring; lra. }
  assert (F' = F) as ->.
  { pose proof (unit_rows_other s _ Ppsi U j Hj) as FO.
    destruct (In_nth _ _ mzero IF') as (k' & Lk' & Ek'), (In_nth _ _ mzero IF) as (k & Lk & Ek).
    destruct (Nat.lt_trichotomy k k') as [L|[->|L]]; [|congruence|].
    - pose proof (fop_nth _ _ _ mzero FO k k' L Lk') as Q; cbn beta in Q; rewrite Ek, Ek' in Q; tauto.
    - pose proof (fop_nth _ _ _ mzero FO k' k L Lk) as Q; cbn beta in Q; rewrite Ek, Ek' in Q; tauto. }
  intros a b; unfold o_col; rewrite X; transitivity (F 0%nat j * F 0%nat j * F a b); [rewrite Sq; ring|ring].
Qed.

Lemma lincomb_app : forall c1 l1 c2 l2 (i j : nat), length c1 = length l1 ->
  lincomb (c1 ++ c2) (l1 ++ l2) i j = lincomb c1 l1 i j + lincomb c2 l2 i j.
Proof.
  induction c1 as [|c c1 IH]; intros [|F l1] c2 l2 i j L; try discriminate; cbn [app lincomb]; unfold madd, mscal, mzero; [ring|].
  rewrite IH by (cbn in L; lia); ring.
Qed.

Lemma lincomb_null : forall cs L (i j : nat), (forall F : mat, In F L -> F i j = 0) -> lincomb cs L i j = 0.
Proof.
  intros cs L; revert cs; induction L as [|F L IH]; intros [|c cs] i j H; cbn [lincomb]; try reflexivity.
  unfold madd, mscal; rewrite (H F) by (left; reflexivity); rewrite IH by (intros; apply H; right; assumption); ring.
Qed.

Definition inspan (r c : nat) (L : list mat) (W : mat) : Prop := exists cs, length cs = length L /\ meq r c W (lincomb cs L).

Lemma inspan_add : forall r c L W V, inspan r c L W -> inspan r c L V -> inspan r c L (madd W V).
Proof.
  intros r c L W V (cs & Lc & E) (ds & Ld & E'); exists (map (fun p => fst p + snd p) (combine cs ds)); split.
  - rewrite map_length, combine_length; lia.
  - rewrite E, E'; clear E E'; revert cs ds Lc Ld; induction L as [|F L IH]; intros [|x cs] [|y ds] Lc Ld; try discriminate; intros i j Hi Hj.
    + cbn [combine map lincomb]; unfold madd, mzero; ring.
    + cbn [combine map lincomb fst snd]; unfold madd at 1 2 3 4, mscal.
      rewrite <- (IH cs ds) by (cbn in *; (assumption || lia)); unfold madd; ring.
Qed.
Lemma inspan_scal : forall r c L W a, inspan r c L W -> inspan r c L (mscal a W).
Proof.
  intros r c L W a (cs & Lc & E); exists (map (Rmult a) cs); split; [rewrite map_length; exact Lc|]; rewrite E; clear E.
  revert cs Lc; induction L as [|F L IH]; intros [|x cs] Lc; try discriminate; intros i j Hi Hj; cbn [map lincomb].
  - unfold mscal, mzero; ring.
  - unfold mscal at 1, madd; unfold mscal at 2; rewrite <- (IH cs) by (cbn in *; (assumption || lia)); unfold mscal; ring.
Qed.
Lemma inspan_zero : forall r c L, inspan r c L mzero.
Proof.
  intros r c L; exists (repeat 0 (length L)); split; [apply repeat_length|].
  induction L as [|F L IH]; intros i j Hi Hj; cbn [length repeat lincomb]; [reflexivity|]; unfold madd; rewrite <- (IH i j Hi Hj); unfold mscal, mzero; ring.
Qed.
Lemma inspan_in : forall r c L W, In W L -> inspan r c L W.
Proof. intros r c L W H; destruct (unit_member L W H) as (cs & Lc & E); exists cs; split; [exact Lc|]; intros i j _ _; symmetry; apply E. Qed.
Lemma inspan_ext : forall r c L W V, meq r c W V -> inspan r c L V -> inspan r c L W.
Proof. intros r c L W V M (cs & Lc & E); exists cs; split; [exact Lc|]; rewrite M; exact E. Qed.
Lemma inspan_comb : forall r c L cs Fs, (forall F, In F Fs -> inspan r c L F) -> inspan r c L (lincomb cs Fs).
Proof.
  intros r c L cs Fs; revert cs; induction Fs as [|F Fs IH]; intros [|x cs] H; cbn [lincomb]; try apply inspan_zero.
  apply inspan_add; [apply inspan_scal, H; left; reflexivity|apply IH; intros; apply H; right; assumption].
Qed.

Lemma block_span : forall W, (forall h P, memH h -> gi_rep psi h = Ret (s, P) -> meq s s (mmul s P W) (mmul s W P)) ->
  inspan s s (map (o_col psi) (nonnull psi)) W.
Proof.
  intros W HW; destruct (proj1 (proj1 (proj1 Dpsi) W) HW) as (cs & L & E); eapply inspan_ext; [exact E|].
  apply inspan_comb; intros F IF; destruct (unit_is_col F IF) as (j & c & Ij & X).
  eapply inspan_ext; [intros a b _ _; apply (X a b)|]; change (inspan s s (map (o_col psi) (nonnull psi)) (mscal c (o_col psi j))).
  apply inspan_scal, inspan_in, in_map; exact Ij.
Qed.

Lemma slices_rows : forall ids p sl, psi_slices irrH psi ids p = Ret sl -> forall x, In x sl -> forall a b, (a < p)%nat -> snd x a b = 0.
Proof.
  intros ids p sl E x Ix a b Ha; destruct (slices_shape memH irrH psi Epsi Ppsi Hsz _ _ _ E) as (l & -> & F & _).
  apply in_map_iff in Ix as (y & <- & Iy); destruct (proj1 (Forall_forall _ _) F y Iy) as (_ & L & _); cbn [mk snd].
  destruct (Nat.leb_spec (fst y) a); [lia|reflexivity].
Qed.

Lemma slices_span : forall ids p sl N Y, psi_slices irrH psi ids p = Ret sl ->
  (forall id r, In id ids -> irrH id = Ret r -> id <> gi_id psi -> disjoint_irreps memH r psi) ->
  (forall h, memH h -> exists bs, values irrH ids h = Ret bs /\ bsize bs = N) ->
  (forall h bs P, memH h -> values irrH ids h = Ret bs -> gi_rep psi h = Ret (s, P) -> forall a b, (a < N)%nat -> (b < s)%nat ->
      sumn N (fun k => bdiag bs a k * Y (p + k)%nat b) = sumn s (fun q => Y (p + a)%nat q * P q b)) ->
  exists cs, length cs = length sl /\ forall a b, (a < N)%nat -> (b < s)%nat -> Y (p + a)%nat b = lincomb cs (map snd sl) (p + a)%nat b.
Proof.
  induction ids as [|id ids IH]; intros p sl N Y Es HD HV HY.
  - apply Ret_inj in Es; subst sl; exists []; split; [reflexivity|]; intros a b Ha.
    destruct (HV eH (grp_id _ _ _ _ HH)) as (bs & Eb & <-); apply Ret_inj in Eb; subst bs; cbn in Ha; lia.
  - cbn [psi_slices] in Es; apply bind_Ret in Es as (r & Er & Es); apply bind_Ret in Es as (rest & Et & Es).
    set (n := gi_size r) in *.
    assert (HV' : forall h, memH h -> exists A bs', gi_rep r h = Ret (n, A) /\ values irrH ids h = Ret bs' /\
      values irrH (id :: ids) h = Ret ((n, A) :: bs') /\ N = (n + bsize bs')%nat).
    { intros h Hh; destruct (HV h Hh) as (bs & Ev & EN); pose proof Ev as Ev0.
      destruct (values_cons irrH id ids h bs Ev) as (r' & [m A] & bs' & Er' & EA & Eb' & ->); rewrite Er in Er'; apply Ret_inj in Er'; subst r'.
      pose proof (Hsz id r h _ Er Hh EA) as Em; cbn [fst] in Em; subst m; exists A, bs'; cbn [bsize fst] in EN; auto. }
    assert (N' : exists N', N = (n + N')%nat).
    { destruct (HV' eH (grp_id _ _ _ _ HH)) as (A & bs' & _ & _ & _ & E); exists (bsize bs'); exact E. }
    destruct N' as (N' & ->).
    assert (Tail : exists cs, length cs = length rest /\ forall a b, (a < N')%nat -> (b < s)%nat ->
      Y (p + n + a)%nat b = lincomb cs (map snd rest) (p + n + a)%nat b).
    { apply (IH (p + n)%nat rest N' Y Et).
      - intros id' r' I; apply HD; right; exact I.
      - intros h Hh; destruct (HV' h Hh) as (A & bs' & _ & Eb & _ & E); exists bs'; split; [exact Eb|lia].
      - intros h bs' P Hh Eb EP a b Ha Hb; destruct (HV' h Hh) as (A & bs2 & EA & Eb2 & Ev & E); rewrite Eb in Eb2; apply Ret_inj in Eb2; subst bs2.
        pose proof (HY h _ P Hh Ev EP (n + a)%nat b ltac:(lia) Hb) as X; rewrite sumn_app in X; cbn [bdiag] in X.
        rewrite sumn_0 in X by (intros k Hk; rewrite (proj2 (Nat.ltb_ge (n + a) n)) by lia; rewrite (proj2 (Nat.ltb_lt k n)) by lia; ring).
        rewrite Rplus_0_l in X.
        replace (p + n + a)%nat with (p + (n + a))%nat by lia; rewrite <- X; apply sumn_ext; intros k Hk.
        rewrite (proj2 (Nat.ltb_ge (n + a) n)), (proj2 (Nat.ltb_ge (n + k) n)) by lia.
        replace (n + a - n)%nat with a by lia; replace (n + k - n)%nat with k by lia; replace (p + (n + k))%nat with (p + n + k)%nat by lia; reflexivity. }
    destruct Tail as (cs & Lc & Ec).
    set (W := fun a b => Y (p + a)%nat b).
    assert (HW : forall h A P, memH h -> gi_rep r h = Ret (n, A) -> gi_rep psi h = Ret (s, P) -> meq n s (mmul n A W) (mmul s W P)).
    { intros h A P Hh EA EP a b Ha Hb; destruct (HV' h Hh) as (A' & bs' & EA' & Eb & Ev & E); rewrite EA in EA'; apply Ret_inj in EA'; injection EA' as <-.
      pose proof (HY h _ P Hh Ev EP a b ltac:(lia) Hb) as X; rewrite sumn_app in X; cbn [bdiag] in X.
      rewrite (sumn_0 N') in X by (intros k Hk; rewrite (proj2 (Nat.ltb_lt a n)) by lia; rewrite (proj2 (Nat.ltb_ge (n + k) n)) by lia; ring).
      rewrite Rplus_0_r in X; unfold mmul, W; rewrite <- X; apply sumn_ext; intros k Hk.
      rewrite (proj2 (Nat.ltb_lt a n)), (proj2 (Nat.ltb_lt k n)) by lia; reflexivity. }
    assert (Low : forall a b ds, (a < n)%nat -> lincomb ds (map snd rest) (p + a)%nat b = 0).
    { intros a b ds Ha; apply lincomb_null; intros F IF; apply in_map_iff in IF as (x & <- & Ix).
      apply (slices_rows ids (p + n)%nat rest Et x Ix); lia. }
    destruct (list_eq_dec Z.eq_dec id (gi_id psi)) as [->|Nid].
    + apply assert_Ret in Es as [_ Es]; apply Ret_inj in Es; rewrite Epsi in Er; apply Ret_inj in Er; subst r; subst n sl.
      destruct (block_span W) as (ds & Ld & Ed); [intros h P Hh EP; exact (HW h P P Hh EP EP)|].
      rewrite map_length in Ld.
      exists (ds ++ cs); split; [rewrite !app_length, map_length, Ld, Lc; reflexivity|].
      intros a b Ha Hb; rewrite map_app, lincomb_app by (rewrite !map_length; exact Ld); rewrite map_map; cbn [snd].
      destruct (Nat.lt_ge_cases a s) as [L|L].
      * rewrite Low, Rplus_0_r by exact L; change (Y (p + a)%nat b) with (W a b); rewrite (Ed a b L Hb).
        clear - L; revert ds; generalize (nonnull psi); intros l; induction l as [|j l IHl]; intros [|d ds]; cbn [map lincomb]; try reflexivity.
        unfold madd, mscal; rewrite (IHl ds); f_equal; f_equal.
        destruct (Nat.leb_spec p (p + a)), (Nat.ltb_spec (p + a) (p + s)); cbn; try lia; f_equal; lia.
      * replace (p + a)%nat with (p + s + (a - s))%nat by lia; rewrite Ec by lia.
        rewrite (lincomb_null ds); [symmetry; apply Rplus_0_l|]; intros F IF; apply in_map_iff in IF as (j & <- & _).
        destruct (Nat.ltb_spec (p + s + (a - s)) (p + s)); [lia|rewrite andb_false_r; reflexivity].
    + apply Ret_inj in Es; subst sl; exists cs; split; [exact Lc|]; intros a b Ha Hb.
      destruct (Nat.lt_ge_cases a n) as [L|L].
      * rewrite Low by exact L; change (Y (p + a)%nat b) with (W a b).
        apply (HD id r (or_introl eq_refl) Er Nid W); [exact HW|exact L|exact Hb].
      * replace (p + a)%nat with (p + n + (a - n))%nat by lia; apply Ec; [lia|exact Hb].
Qed.
End Span.
