(** The kernels of the modules in the Fourier domain and the final statements. *)
From Coq Require Import Reals String List ZArith Arith Bool Lia Lra Permutation.
From Verif Require Import LibRes LibPy LibMat LibMatS LibTrig ParamModel ParamProofs FieldModel GroupedModel NonlinModel PoolModel SpecRep IrrepModel RepModel RepProofs SpecRepr SpecInd IndModel IndProofs
  FieldProofs GroupedProofs NonlinProofs BatchThms SpecField SpecNonlin FourierModel SpecFourier FourierProofs FourierThms FourierCor FourierEqv.
Import ListNotations.
Open Scope R_scope.

Section Blocks.
Context {T : Type}.

Lemma V_cons : forall (r : girrep T) fl g a b, length a = gi_size r -> length b = tsize fl ->
  mv (tsize (r :: fl)) (V (r :: fl) g) (a ++ b) = mv (gi_size r) (rval r g) a ++ mv (tsize fl) (V fl g) b.
Proof.
  intros r fl g a b La Lb. assert (E : tsize (r :: fl) = (gi_size r + tsize fl)%nat) by reflexivity. rewrite E.
  apply list_ext; [rewrite app_length, !mv_length; reflexivity|]. rewrite mv_length. intros i Hi. rewrite mv_nth by exact Hi. rewrite sumn_app.
  unfold V; cbn [map bdiag]. fold (V fl g).
  destruct (Nat.ltb_spec i (gi_size r)) as [L|L].
  - rewrite app_nth1 by (rewrite mv_length; exact L). rewrite mv_nth by exact L.
    rewrite (sumn_0 (tsize fl)).
    + rewrite Rplus_0_r. apply sumn_ext; intros j Hj. rewrite (proj2 (Nat.ltb_lt _ _) Hj). rewrite app_nth1 by lia. reflexivity.
    + intros j Hj. rewrite (proj2 (Nat.ltb_ge _ _)) by lia. ring.
  - rewrite app_nth2 by (rewrite mv_length; exact L). rewrite mv_length, mv_nth by lia. rewrite (sumn_0 (gi_size r)).
    + rewrite Rplus_0_l. apply sumn_ext; intros j Hj. rewrite (proj2 (Nat.ltb_ge _ _)) by lia. rewrite app_nth2 by lia.
      replace (gi_size r + j - gi_size r)%nat with j by lia. replace (gi_size r + j - length a)%nat with j by lia. reflexivity.
    + intros j Hj. rewrite (proj2 (Nat.ltb_lt _ _) Hj). ring.
Qed.

(** A vector that is a list of blocks, one for each irrep of the sum. *)
Lemma V_blocks : forall (fl : list (girrep T)) g (bs : list (list R)), Forall2 (fun r b => length b = gi_size r) fl bs ->
  mv (tsize fl) (V fl g) (concat bs) = concat (map (fun p => mv (gi_size (fst p)) (rval (fst p) g) (snd p)) (combine fl bs)).
Proof.
  intros fl g bs F; induction F as [|r b fl bs L F IH]; [reflexivity|]. cbn [combine map concat fst snd]. rewrite V_cons, IH; [reflexivity|exact L|].
  clear - F. induction F as [|r b fl bs L F IH]; [reflexivity|]. cbn [concat]. rewrite app_length, L, IH. reflexivity.
Qed.

Lemma repeat_Forall2 : forall {A B} (P : A -> B -> Prop) a (bs : list B), Forall (P a) bs -> Forall2 P (repeat a (length bs)) bs.
Proof. intros A B P a bs F; induction F; cbn; constructor; assumption. Qed.

Lemma copies_Forall2 : forall {B} (P : girrep T -> B -> Prop) rs ms (bss : list (list B)),
  Forall2 (fun rm bs => length bs = snd rm /\ Forall (P (fst rm)) bs) (combine rs ms) bss -> Forall2 P (copies rs ms) (concat bss).
Proof.
  intros B P rs ms. unfold copies. generalize (combine rs ms). intros l bss F. induction F as [|[r m] bs l bss [L F1] F IH]; [constructor|].
  cbn [flat_map concat fst snd] in *. subst m. apply Forall2_app; [apply repeat_Forall2; exact F1|exact IH].
Qed.
End Blocks.

Lemma round_div : forall a b c, (0 < c)%nat -> a = (b * c)%nat -> pyround (INR a / INR c) = Z.of_nat b.
Proof.
  intros a b c Hc ->. rewrite mult_INR. replace (INR b * INR c / INR c) with (IZR (Z.of_nat b)).
  - apply pyround_IZR.
  - rewrite <- INR_IZR_INZ. field. apply not_0_INR; lia.
Qed.

Section Quotient.
Context {T S : Type}.
Variables (mem : T -> Prop) (op : T -> T -> res T) (inv : T -> res T) (e : T).
Variables (memH : S -> Prop) (incl : S -> res T).
Variables (irrG : list Z -> res (girrep T)) (irrH : list Z -> res (girrep S)).
Variable restrict : list Z -> res (repr S).
Variable components : nat -> (nat -> nat -> bool) -> nat * (nat -> nat).
Variable psi : girrep S.
Let orth := orth mem op inv e.
Hypothesis Hincl : forall c k, memH c -> incl c = Ret k -> mem k.
Hypothesis Epsi : irrH (gi_id psi) = Ret psi.
Hypothesis Tpsi : trivial_irrep memH psi.
Hypothesis Hsz : forall id r h b, irrH id = Ret r -> memH h -> gi_rep r h = Ret b -> fst b = gi_size r.
Hypothesis Hres : forall id r d, irrG id = Ret r -> restrict (gi_id r) = Ret d -> restriction_of irrH memH incl r d.

Lemma psi_slices_length : forall ids p sl, psi_slices irrH psi ids p = Ret sl ->
  length sl = (length (filter (fun x => if list_eq_dec Z.eq_dec x (gi_id psi) then true else false) ids) * gi_sosc psi)%nat.
Proof.
  induction ids as [|id ids IH]; intros p sl E; cbn [psi_slices] in E; [apply Ret_inj in E; subst; reflexivity|].
  apply bind_Ret in E as (r & Er & E). apply bind_Ret in E as (rest & Es & E). apply IH in Es. cbn [filter].
  destruct (list_eq_dec Z.eq_dec id (gi_id psi)) as [->|N].
  - apply assert_Ret in E as [L E]. apply Nat.eqb_eq in L. apply Ret_inj in E. subst sl. rewrite app_length, map_length, L. eapply eq_trans; [apply f_equal; exact Es|]. cbn [length]. lia.
  - apply Ret_inj in E. subst sl. exact Es.
Qed.

Lemma dirac_length : forall (r : girrep T) B m, (0 < gi_sosc r)%nat -> dirac_kernel_ft irrH restrict components r psi = Ret B ->
  dimension_basis restrict psi r = Ret m -> length B = m.
Proof.
  intros r B m Ps EB EM. unfold dirac_kernel_ft in EB. unfold dimension_basis in EM.
  apply bind_Ret in EB as (d & Ed & EB). apply bind_Ret in EB as (sl & Es & EB). apply bind_Ret in EB as (sl' & Es' & EB). apply Ret_inj in EB. subst B.
  rewrite map_length. rewrite Ed in EM; cbn [bind] in EM. apply assert_Ret in EM as [_ EM]. apply Ret_inj in EM. subst m.
  apply psi_slices_length in Es. fold (r_multiplicity d (gi_id psi)) in Es.
  assert (L : (length sl = length sl' * gi_sosc r)%nat).
  { unfold select in Es'. destruct (Nat.ltb_spec 1 (gi_sosc r)) as [H|H].
    - apply assert_Ret in Es' as [_ Es']. apply assert_Ret in Es' as [Q Es']. apply Nat.eqb_eq in Q. apply bind_Ret in Es' as (f & _ & Es').
      apply assert_Ret in Es' as [Q' Es']. apply Nat.eqb_eq in Q'. apply Ret_inj in Es'. subst sl'. rewrite map_length, Q'. lia.
    - apply Ret_inj in Es'. subst sl'. assert (gi_sosc r = 1)%nat as -> by lia. lia. }
  rewrite (round_div _ (length sl') (gi_sosc r) Ps (eq_trans (eq_sym Es) L)). lia.
Qed.

Lemma psi_endo : endo_commutes memH psi.
Proof.
  intros h P E Hh EP _ i j Hi Hj. destruct Tpsi as [S1 _]. rewrite S1 in *. unfold mmul; cbn [sumn].
  assert (i = 0)%nat as -> by lia. assert (j = 0)%nat as -> by lia. ring.
Qed.

(** the columns of the Dirac kernel are fixed by the subgroup *)
Lemma dirac_fixed : forall id r B Bm c k, irrG id = Ret r -> orth r -> dirac_kernel_ft irrH restrict components r psi = Ret B -> In Bm B ->
  memH c -> incl c = Ret k ->
  mv (gi_size r) (rval r k) (map (fun i => Bm i 0%nat) (seq 0 (gi_size r))) = map (fun i => Bm i 0%nat) (seq 0 (gi_size r)).
Proof.
  intros id r B Bm c k Er O EB HB Hc Ek. destruct Tpsi as [S1 T1]. destruct (T1 c Hc) as (P & EP & P1).
  destruct (rval_eq mem op inv e r k O (Hincl c k Hc Ek)) as [EV _].
  pose proof (dirac_intertwines memH incl irrH restrict components psi Epsi psi_endo ltac:(lia) r B EB (fun d Ed => Hres id r d Er Ed) Hsz Bm HB c k (rval r k) P Hc Ek EV) as D.
  rewrite S1 in D. specialize (D EP).
  apply list_ext; [rewrite mv_length, map_length, seq_length; reflexivity|]. rewrite mv_length. intros i Hi. rewrite mv_nth by exact Hi.
  assert (N : forall j, (j < gi_size r)%nat -> nth j (map (fun i => Bm i 0%nat) (seq 0 (gi_size r))) 0 = Bm j 0%nat).
  { intros j Hj. rewrite (nth_indep _ 0 (Bm 0%nat 0%nat)) by (rewrite map_length, seq_length; exact Hj).
    rewrite (map_nth (fun i => Bm i 0%nat)), seq_nth by exact Hj. reflexivity. }
  rewrite N by exact Hi. specialize (D i 0%nat Hi ltac:(lia)). unfold mmul in D. cbn [sumn] in D. rewrite P1 in D. rewrite Rplus_0_l, Rmult_1_r in D.
  rewrite <- D. apply sumn_ext; intros j Hj. rewrite N by exact Hj. reflexivity.
Qed.

Lemma flat_map_all : forall {X Y} (f g : X -> list Y) l, (forall x, In x l -> f x = g x) -> flat_map f l = flat_map g l.
Proof. intros X Y f g l H. rewrite !flat_map_concat_map. f_equal. apply map_ext_in. exact H. Qed.

Lemma quotient_fixed : forall ids rs ms kern c k, parts irrG restrict psi ids rs ms -> Forall orth rs -> Forall (fun r => (0 < gi_sosc r)%nat) rs ->
  quotient_kernel irrG irrH restrict components psi ids = Ret kern -> memH c -> incl c = Ret k ->
  row (copies rs ms) kern k = kern.
Proof.
  intros ids rs ms kern c k [Ers Fm] FO FS E Hc Ek. unfold quotient_kernel in E. apply bind_Ret in E as (ks & Eks & E). apply assert_Ret in E as [_ E]. apply Ret_inj in E. subst kern.
  assert (K : exists bss : list (list (list R)), ks = map (@concat R) bss /\
    Forall2 (fun rm bs => length bs = snd rm /\ Forall (fun b => length b = gi_size (fst rm) /\ mv (gi_size (fst rm)) (rval (fst rm) k) b = b) bs) (combine rs ms) bss).
  { apply mapM_Ret_inv in Eks. apply mapM_Ret_inv in Ers. clear - Eks Ers Fm FO FS Hc Ek Epsi Tpsi Hincl Hres Hsz. revert ms Fm ks Eks FO FS.
    induction Ers as [|id r ids rs Er Ers IH]; intros ms Fm ks Eks FO FS.
    - inversion Eks; subst. exists []. split; [reflexivity|constructor].
    - inversion Fm as [|? m ? ms0 Em Fm0]; subst. inversion Eks as [|? kk ? ks0 Ekk Eks0]; subst. inversion FO; inversion FS; subst.
      destruct (IH ms0 Fm0 ks0 Eks0) as (bss & -> & F2); try assumption.
      rewrite Er in Ekk; cbn [bind] in Ekk. apply bind_Ret in Ekk as (B & EB & Ekk). apply Ret_inj in Ekk. subst kk.
      exists (map (fun Bm : mat => map (fun i => Bm i 0%nat) (seq 0 (gi_size r))) B :: bss). split.
      + cbn [map]. f_equal. rewrite (proj1 Tpsi). cbn [seq flat_map]. rewrite app_nil_r, flat_map_concat_map. reflexivity.
      + cbn [combine]. constructor; [|exact F2]. cbn [fst snd]. split.
        * rewrite map_length. eapply dirac_length; eassumption.
        * apply Forall_map, Forall_forall. intros Bm I. split; [rewrite map_length, seq_length; reflexivity|].
          eapply dirac_fixed; eassumption. }
  destruct K as (bss & -> & F2).
  assert (Ec : concat (map (@concat R) bss) = concat (concat bss)) by (clear; induction bss as [|b bss IH]; [reflexivity|]; cbn [map concat]; rewrite concat_app, IH; reflexivity).
  rewrite Ec. apply (copies_Forall2 (fun r b => length b = gi_size r /\ mv (gi_size r) (rval r k) b = b)) in F2. unfold row. rewrite V_blocks.
  - f_equal. clear - F2. induction F2 as [|r b fl bs [_ Q] F IH]; [reflexivity|]. cbn [combine map fst snd]. rewrite Q, IH. reflexivity.
  - clear - F2. induction F2 as [|r b fl bs [Q _] F IH]; constructor; assumption.
Qed.
End Quotient.

(** ** the regular kernel *)
Section Regular.
Context {T S : Type}.
Variables (mem : T -> Prop) (op : T -> T -> res T) (inv : T -> res T) (e : T).
Variable irrG : list Z -> res (girrep T).
Variable restrict : list Z -> res (repr S).
Variable psi : girrep S.
Let orth := orth mem op inv e.

Lemma full_dimension : forall (r : girrep T) m, gi_sosc psi = 1%nat -> splits_fully restrict psi r -> (0 < gi_sosc r)%nat -> Nat.divide (gi_sosc r) (gi_size r) ->
  dimension_basis restrict psi r = Ret m -> m = (gi_size r / gi_sosc r)%nat.
Proof.
  intros r m S1 (d & Ed & Di) Ps [q Eq] E. unfold dimension_basis in E. rewrite Ed in E; cbn [bind] in E. apply assert_Ret in E as [_ E]. apply Ret_inj in E. subst m.
  assert (M : r_multiplicity d (gi_id psi) = gi_size r).
  { unfold r_multiplicity. rewrite Di. generalize (gi_size r). intros n; induction n as [|n IH]; [reflexivity|]. cbn [repeat filter].
    destruct (list_eq_dec Z.eq_dec (gi_id psi) (gi_id psi)); [|congruence]. cbn [length]. rewrite IH; reflexivity. }
  rewrite M, S1, Nat.mul_1_r. rewrite (round_div _ q (gi_sosc r) Ps Eq). rewrite Eq, Nat.div_mul by lia. lia.
Qed.

Definition block (r : girrep T) (g : T) (m : nat) : list R := map (fun i => sqrt (INR (gi_size r)) * rval r g i m) (seq 0 (gi_size r)).

Lemma map_seq_nth : forall (f : nat -> R) n i, (i < n)%nat -> nth i (map f (seq 0 n)) 0 = f i.
Proof. intros f n i H. rewrite (nth_indep _ 0 (f 0%nat)) by (rewrite map_length, seq_length; exact H). rewrite map_nth, seq_nth by exact H. reflexivity. Qed.

Lemma block_moves : forall r g m, orth r -> (m < gi_size r)%nat -> mv (gi_size r) (rval r g) (block r e m) = block r g m.
Proof.
  intros r g m O Hm. apply list_ext; [unfold block; rewrite mv_length, map_length, seq_length; reflexivity|]. rewrite mv_length. intros i Hi.
  rewrite mv_nth by exact Hi. unfold block. rewrite (map_seq_nth _ _ _ Hi).
  destruct (or_unit _ _ _ _ _ _ O) as (A & EA & MA).
  assert (U : forall j, (j < gi_size r)%nat -> rval r e j m = mid j m) by (intros j Hj; unfold rval; rewrite EA; cbn [snd]; apply MA; assumption).
  transitivity (sumn (gi_size r) (fun j => rval r g i j * (sqrt (INR (gi_size r)) * mid j m))).
  - apply sumn_ext; intros j Hj. rewrite (map_seq_nth _ _ _ Hj), (U j Hj). reflexivity.
  - rewrite (sumn_single (gi_size r) m) by (try exact Hm; intros j Hj Ne; unfold mid; rewrite (proj2 (Nat.eqb_neq j m)) by exact Ne; ring).
    unfold mid; rewrite Nat.eqb_refl; ring.
Qed.

Lemma block_norm : forall r m, orth r -> (m < gi_size r)%nat -> lsum (map (fun a => a * a) (block r e m)) = INR (gi_size r).
Proof.
  intros r m O Hm. unfold block. rewrite map_map. destruct (or_unit _ _ _ _ _ _ O) as (A & EA & MA).
  transitivity (sumn (gi_size r) (fun i => INR (gi_size r) * mid i m)).
  - rewrite sumn_list. unfold lsum. f_equal. apply map_ext_in. intros i I. apply in_seq in I. unfold rval. rewrite EA; cbn [snd]. rewrite (MA i m) by lia.
    assert (SS : sqrt (INR (gi_size r)) * sqrt (INR (gi_size r)) = INR (gi_size r)) by (apply sqrt_sqrt, pos_INR).
    unfold mid. destruct (Nat.eqb i m); [|ring]. rewrite !Rmult_1_r. exact SS.
  - rewrite (sumn_single (gi_size r) m) by (try exact Hm; intros j Hj Ne; unfold mid; rewrite (proj2 (Nat.eqb_neq j m)) by exact Ne; ring).
    unfold mid; rewrite Nat.eqb_refl; ring.
Qed.

Definition blocks (g : T) (r : girrep T) : list (list R) := map (block r g) (seq 0 (gi_size r / gi_sosc r)).

Lemma concat_concat' : forall {X} (l : list (list (list X))), concat (map (@concat X) l) = concat (concat l).
Proof. intros X l; induction l as [|b l IH]; [reflexivity|]; cbn [map concat]; rewrite concat_app, IH; reflexivity. Qed.

Lemma coefficients_blocks : forall rs g, coefficients rs g = concat (flat_map (blocks g) rs).
Proof.
  intros rs g. unfold coefficients. rewrite !flat_map_concat_map, <- concat_concat', map_map. f_equal. apply map_ext; intros r.
  unfold blocks. rewrite flat_map_concat_map. reflexivity.
Qed.

Lemma kernel_blocks : forall ids rs k, mapM irrG ids = Ret rs -> Forall orth rs -> regular_kernel irrG e ids = Ret k -> k = coefficients rs e.
Proof.
  intros ids rs k Ers FO E. unfold regular_kernel in E. apply bind_Ret in E as (ks & Eks & E). apply assert_Ret in E as [_ E]. apply Ret_inj in E. subst k.
  apply mapM_Ret_inv in Eks. apply mapM_Ret_inv in Ers. revert ks Eks FO. unfold coefficients.
  induction Ers as [|id r ids rs Er Ers IH]; intros ks Eks FO; inversion Eks as [|? kk ? ks0 Ekk Eks0]; subst; [reflexivity|]. inversion FO as [|? ? O FO0]; subst.
  cbn [concat flat_map]. rewrite (IH ks0 Eks0 FO0). f_equal. rewrite Er in Ekk; cbn [bind] in Ekk. apply bind_Ret in Ekk as (M & EM & Ekk). apply Ret_inj in Ekk. subst kk.
  apply flat_map_all; intros m _. apply map_ext; intros i. unfold irrep_at. rewrite EM. ring.
Qed.

Definition regular_like (r : girrep T) (m : nat) : Prop := orth r /\ (0 < gi_sosc r)%nat /\ m = (gi_size r / gi_sosc r)%nat.

Lemma div_small : forall a b m, (0 < b)%nat -> (m < a / b)%nat -> (m < a)%nat.
Proof. intros a b m Hb H. pose proof (Nat.div_le_upper_bound a b a ltac:(lia) ltac:(nia)). lia. Qed.

Lemma blocks_fit : forall rs ms g, Forall2 regular_like rs ms ->
  Forall2 (fun r b => exists m, (m < gi_size r)%nat /\ orth r /\ b = block r g m) (copies rs ms) (flat_map (blocks g) rs).
Proof.
  intros rs ms g F. rewrite flat_map_concat_map. apply copies_Forall2.
  induction F as [|r m rs ms (O & P & ->) F IH]; [constructor|]. cbn [combine map]. constructor; [|exact IH]. cbn [fst snd]. unfold blocks. split.
  - rewrite map_length, seq_length; reflexivity.
  - apply Forall_map, Forall_forall. intros m I. apply in_seq in I. exists m. split; [apply (div_small _ (gi_sosc r)); lia|]. split; [exact O|reflexivity].
Qed.

Lemma copies_e : forall rs ms g, Forall2 regular_like rs ms ->
  Forall2 (fun r p => exists m, (m < gi_size r)%nat /\ orth r /\ p = (block r e m, block r g m)) (copies rs ms)
    (flat_map (fun r => map (fun m => (block r e m, block r g m)) (seq 0 (gi_size r / gi_sosc r))) rs).
Proof.
  intros rs ms g F. rewrite flat_map_concat_map. apply copies_Forall2.
  induction F as [|r m rs ms (O & P & ->) F IH]; [constructor|]. cbn [combine map]. constructor; [|exact IH]. cbn [fst snd]. split.
  - rewrite map_length, seq_length; reflexivity.
  - apply Forall_map, Forall_forall. intros m I. apply in_seq in I. exists m. split; [apply (div_small _ (gi_sosc r)); lia|]. split; [exact O|reflexivity].
Qed.

Lemma rows_coefficients : forall rs ms g, Forall2 regular_like rs ms -> row (copies rs ms) (coefficients rs e) g = coefficients rs g.
Proof.
  intros rs ms g F. pose proof (copies_e rs ms g F) as C. set (l := flat_map _ rs) in C.
  assert (E1 : flat_map (blocks e) rs = map fst l) by (unfold l; rewrite !flat_map_concat_map, concat_map, map_map; f_equal; apply map_ext; intros r; rewrite map_map; reflexivity).
  assert (E2 : flat_map (blocks g) rs = map snd l) by (unfold l; rewrite !flat_map_concat_map, concat_map, map_map; f_equal; apply map_ext; intros r; rewrite map_map; reflexivity).
  rewrite !coefficients_blocks, E1, E2. unfold row. clearbody l. clear E1 E2 F. rewrite V_blocks.
  - f_equal. induction C as [|r p fl l (m & Hm & O & ->) C IH]; [reflexivity|]. cbn [map combine fst snd]. rewrite block_moves by assumption. rewrite IH; reflexivity.
  - induction C as [|r p fl l (m & Hm & O & ->) C IH]; cbn [map]; constructor; [|exact IH]. unfold block; cbn [fst]. rewrite map_length, seq_length; reflexivity.
Qed.

Lemma lsum_app : forall a b, lsum (a ++ b) = lsum a + lsum b.
Proof. intros a b; unfold lsum; induction a as [|x a IH]; cbn [app fold_right]; [ring|rewrite IH; ring]. Qed.

Lemma coefficients_norm : forall rs ms, Forall2 regular_like rs ms -> vnorm (coefficients rs e) = sqrt (INR (total_size rs)).
Proof.
  intros rs ms F. unfold vnorm. f_equal. unfold total_size, coefficients. induction F as [|r m rs ms (O & P & ->) F IH]; [reflexivity|].
  cbn [flat_map map list_sum fold_right]. rewrite map_app, lsum_app, plus_INR. unfold list_sum in IH. rewrite IH. f_equal. clear IH.
  assert (G : forall n, (n <= gi_size r / gi_sosc r)%nat -> lsum (map (fun a => a * a) (flat_map (fun m => map (fun i => sqrt (INR (gi_size r)) * irrep_at e r i m) (seq 0 (gi_size r))) (seq 0 n))) = INR (n * gi_size r)).
  { induction n as [|n IH]; intros L; [reflexivity|]. rewrite seq_S, flat_map_app, map_app, lsum_app, IH by lia. cbn [Nat.add flat_map]. rewrite app_nil_r.
    change (map (fun i => sqrt (INR (gi_size r)) * irrep_at e r i n) (seq 0 (gi_size r))) with (block r e n).
    rewrite block_norm; [|exact O|apply (div_small _ (gi_sosc r)); lia]. rewrite <- plus_INR. f_equal. lia. }
  apply G. lia.
Qed.

Lemma row_scaled : forall (fl : list (girrep T)) k g c, row fl (map (fun a => a / c) k) g = map (fun a => a / c) (row fl k g).
Proof.
  intros fl k g c. unfold row. apply list_ext; [rewrite mv_length, map_length, mv_length; reflexivity|]. rewrite mv_length; intros i Hi.
  rewrite mv_nth by exact Hi. rewrite (nth_indep _ 0 (0 / c)) by (rewrite map_length, mv_length; exact Hi). rewrite (map_nth (fun a => a / c)), mv_nth by exact Hi.
  unfold Rdiv. rewrite <- sumn_scal_r. apply sumn_ext; intros j _. transitivity (V fl g i j * nth j (map (fun a => a * / c) k) (0 * / c)).
  - rewrite Rmult_0_l. reflexivity.
  - rewrite (map_nth (fun a => a * / c)). ring.
Qed.

Lemma rows_by : forall normalize rs ms g, Forall2 regular_like rs ms ->
  row (copies rs ms) (normalised normalize (coefficients rs e)) g = coefficients_by normalize rs g.
Proof.
  intros [|] rs ms g F; unfold normalised, coefficients_by; [|apply rows_coefficients; exact F].
  rewrite row_scaled, (rows_coefficients rs ms g F), (coefficients_norm rs ms F). reflexivity.
Qed.
End Regular.
