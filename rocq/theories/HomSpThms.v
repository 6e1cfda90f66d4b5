(** homomorphism_space gives a basis of the intertwiners. *)
From Coq Require Import Reals List ZArith Arith Bool Lia Lra FunctionalExtensionality.
From Verif Require Import LibRes LibMat LibMatS SpecRep RepModel SpecRepr SpecInd SpecSchur HomSpModel SpecHomSp HomSpProofs.
Import ListNotations.
Open Scope R_scope.

Definition in_rect (j i n m : nat) (E : mat) : mat :=
  fun a b => if Nat.leb j a && Nat.ltb a (j + n) && (Nat.leb i b && Nat.ltb b (i + m)) then E (a - j)%nat (b - i)%nat else 0.

Ltac cmp := repeat match goal with
  | |- context [Nat.leb ?a ?b] => destruct (Nat.leb_spec a b)
  | |- context [Nat.ltb ?a ?b] => destruct (Nat.ltb_spec a b) end; cbn [andb]; try reflexivity; try lia.

Lemma rect_first : forall j i n n' m E, in_rect j i n m E = in_rect j i (n + n') m (in_rows 0 n E).
Proof. intros. apply functional_extensionality; intros a; apply functional_extensionality; intros b. unfold in_rect, in_rows. cmp. rewrite Nat.sub_0_r. reflexivity. Qed.
Lemma rect_next : forall j i n n' m E, in_rect (j + n) i n' m E = in_rect j i (n + n') m (in_rows n n' E).
Proof. intros. apply functional_extensionality; intros a; apply functional_extensionality; intros b. unfold in_rect, in_rows. cmp. f_equal; lia. Qed.
Lemma rect_left : forall j i n m m' E, in_rect j i n m E = in_rect j i n (m + m') (in_cols 0 m E).
Proof. intros. apply functional_extensionality; intros a; apply functional_extensionality; intros b. unfold in_rect, in_cols. cmp. rewrite Nat.sub_0_r. reflexivity. Qed.
Lemma rect_right : forall j i n m m' E, in_rect j (i + m) n m' E = in_rect j i n (m + m') (in_cols m m' E).
Proof. intros. apply functional_extensionality; intros a; apply functional_extensionality; intros b. unfold in_rect, in_cols. cmp. f_equal; lia. Qed.
Lemma rect_whole : forall n m E, meq n m (in_rect 0 0 n m E) E.
Proof. intros n m E a b Ha Hb. unfold in_rect. cmp. rewrite !Nat.sub_0_r. reflexivity. Qed.

Section Spaces.
Context {T : Type}.
Variable irr : list Z -> res (girrep T).
Variable mem : T -> Prop.
Variable ok : list Z -> Prop.
Hypothesis Hid : forall id x, ok id -> irr id = Ret x -> gi_id x = id.
Hypothesis Hdesc : forall id x, ok id -> irr id = Ret x -> described mem x.
Hypothesis Hdis : forall id id' x y, ok id -> ok id' -> id <> id' -> irr id = Ret x -> irr id' = Ret y -> disjoint_irreps mem x y.

Notation known := (fun x => ok (gi_id x) /\ irr (gi_id x) = Ret x).
Notation tot l := (list_sum (map gi_size l)).

Definition single (x y : girrep T) (X : mat) : Prop := intertwines mem (gi_size x) (gi_size y) (gi_rep x) (gi_rep y) X.
Fixpoint column (x : girrep T) (outs : list (girrep T)) (X : mat) : Prop :=
  match outs with [] => True | y :: outs' => single x y X /\ column x outs' (fun a b => X (gi_size y + a)%nat b) end.
Fixpoint table (ins outs : list (girrep T)) (X : mat) : Prop :=
  match ins with [] => True | x :: ins' => column x outs X /\ table ins' outs (fun a b => X a (gi_size x + b)%nat) end.

Lemma same_basis : forall x, known x -> basis_of (gi_size x) (gi_size x) (single x x) (gi_endo x).
Proof.
  intros x [Ox Ix]. destruct (Hdesc _ x Ox Ix) as ((S & I) & _). split; [|exact I]. intros X. rewrite <- S. split.
  - intros H g A M E. apply (H g A A M E E).
  - intros H g A B M E E'. rewrite E in E'. apply Ret_inj in E'. injection E' as <-. apply (H g A M E).
Qed.
Lemma other_basis : forall x y, known x -> known y -> gi_id y <> gi_id x -> basis_of (gi_size y) (gi_size x) (single x y) [].
Proof.
  intros x y [Ox Ix] [Oy Iy] N. split; [|intros [|c cs] L _; [constructor|discriminate]]. intros X. split.
  - intros H. exists []. split; [reflexivity|]. apply (Hdis _ _ y x Oy Ox N Iy Ix). intros g A B M E E'. apply (H g B A M E' E).
  - intros ([|c cs] & L & Z); [|discriminate]. intros g A B M E E'. change (lincomb [] []) with mzero in Z. intros i j Hi Hj. unfold mmul.
    rewrite (sumn_0 (gi_size y)), (sumn_0 (gi_size x)); [reflexivity| |]; intros k Hk; rewrite Z by assumption; unfold mzero; ring.
Qed.
Lemma no_rows : forall m, basis_of 0 m (fun _ => True) [].
Proof. intros m. split; [|intros [|c cs] L _; [constructor|discriminate]]. intros X. split; [|auto]. intros _. exists []. split; [reflexivity|]. intros i j Hi; lia. Qed.
Lemma no_cols : forall n, basis_of n 0 (fun _ => True) [].
Proof. intros n. split; [|intros [|c cs] L _; [constructor|discriminate]]. intros X. split; [|auto]. intros _. exists []. split; [reflexivity|]. intros i j _ Hj; lia. Qed.

Lemma out_basis : forall x i outs, known x -> Forall known outs -> forall j,
  exists l, hom_out x i outs j = Ret (map (in_rect j i (tot outs) (gi_size x)) l) /\ basis_of (tot outs) (gi_size x) (column x outs) l.
Proof.
  intros x i outs Kx F. induction F as [|y outs Ky F IH]; intros j; [exists []; split; [reflexivity|apply no_rows]|].
  destruct (IH (j + gi_size y)%nat) as (l' & E' & B'). cbn [hom_out map list_sum fold_right column].
  change (fold_right Nat.add 0%nat (map gi_size outs)) with (tot outs).
  destruct (list_eq_dec Z.eq_dec (gi_id y) (gi_id x)) as [Q|Q].
  - assert (y = x) as -> by (destruct Kx as [_ Ix], Ky as [_ Iy]; rewrite Q, Ix in Iy; apply Ret_inj in Iy; congruence).
    destruct (Hdesc _ x (proj1 Kx) (proj2 Kx)) as (_ & _ & L). rewrite L, Nat.eqb_refl. cbn [assert_ bind]. rewrite E'. cbn [bind].
    exists (map (in_rows 0 (gi_size x)) (gi_endo x) ++ map (in_rows (gi_size x) (tot outs)) l')%list. split.
    + f_equal. rewrite map_app, !map_map. f_equal; apply map_ext; intros E; [|apply rect_next]. change (placed j i (gi_size x) E) with (in_rect j i (gi_size x) (gi_size x) E). apply rect_first.
    + apply basis_rows; [apply same_basis, Kx|exact B'].
  - cbn [bind]. rewrite E'. cbn [bind app]. exists (map (in_rows 0 (gi_size y)) [] ++ map (in_rows (gi_size y) (tot outs)) l')%list. split.
    + f_equal. cbn [map app]. rewrite map_map. apply map_ext; intros E. apply rect_next.
    + apply basis_rows; [apply other_basis; assumption|exact B'].
Qed.
Lemma in_basis : forall ins outs, Forall known ins -> Forall known outs -> forall i,
  exists l, hom_in ins i outs = Ret (map (in_rect 0 i (tot outs) (tot ins)) l) /\ basis_of (tot outs) (tot ins) (table ins outs) l.
Proof.
  intros ins outs F Fo. induction F as [|x ins Kx F IH]; intros i; [exists []; split; [reflexivity|apply no_cols]|].
  destruct (IH (i + gi_size x)%nat) as (l' & E' & B'). destruct (out_basis x i outs Kx Fo 0) as (l & E & B). cbn [hom_in map list_sum fold_right table].
  change (fold_right Nat.add 0%nat (map gi_size ins)) with (tot ins). rewrite E, E'. cbn [bind].
  exists (map (in_cols 0 (gi_size x)) l ++ map (in_cols (gi_size x) (tot ins)) l')%list. split.
  - f_equal. rewrite map_app, !map_map. f_equal; apply map_ext; intros D; [apply rect_left|apply rect_right].
  - apply basis_cols; assumption.
Qed.

(** *** blocks and the whole *)
Definition valued (x : girrep T) : Prop := forall g, mem g -> exists A, gi_rep x g = Ret (gi_size x, A).
Notation vals g l bs := (Forall2 (fun x b => gi_rep x g = Ret b /\ fst b = gi_size x) l bs).

Lemma vals_exist : forall g l, mem g -> Forall valued l -> exists bs, vals g l bs.
Proof. intros g l M F. induction F as [|x l V F (bs & IH)]; [exists []; constructor|]. destruct (V g M) as (A & E). exists ((gi_size x, A) :: bs). constructor; [split; [exact E|reflexivity]|exact IH]. Qed.
Lemma bdiag_rows : forall n B bs N X a b, mmul (n + N) (bdiag ((n, B) :: bs)) X a b = if Nat.ltb a n then mmul n B X a b else mmul N (bdiag bs) (fun c d => X (n + c)%nat d) (a - n)%nat b.
Proof.
  intros n B bs N X a b. unfold mmul. rewrite sumn_app. cbn [bdiag]. destruct (Nat.ltb_spec a n) as [H|H].
  - rewrite (sumn_0 N); [rewrite Rplus_0_r; apply sumn_ext; intros k Hk; rewrite (proj2 (Nat.ltb_lt _ _)) by exact Hk; reflexivity|].
    intros k Hk. rewrite (proj2 (Nat.ltb_ge _ _)) by lia. ring.
  - rewrite (sumn_0 n); [rewrite Rplus_0_l; apply sumn_ext; intros k Hk; rewrite (proj2 (Nat.ltb_ge _ _)) by lia; replace (n + k - n)%nat with k by lia; reflexivity|].
    intros k Hk. rewrite (proj2 (Nat.ltb_lt _ _)) by exact Hk. ring.
Qed.
Lemma bdiag_cols : forall n A bs N X a b, mmul (n + N) X (bdiag ((n, A) :: bs)) a b = if Nat.ltb b n then mmul n X A a b else mmul N (fun c d => X c (n + d)%nat) (bdiag bs) a (b - n)%nat.
Proof.
  intros n A bs N X a b. unfold mmul. rewrite sumn_app. cbn [bdiag]. destruct (Nat.ltb_spec b n) as [H|H].
  - rewrite (sumn_0 N); [rewrite Rplus_0_r; apply sumn_ext; intros k Hk; rewrite (proj2 (Nat.ltb_lt _ _)) by exact Hk; reflexivity|].
    intros k Hk. rewrite (proj2 (Nat.ltb_ge _ _)) by lia. ring.
  - rewrite (sumn_0 n); [rewrite Rplus_0_l; apply sumn_ext; intros k Hk; rewrite (proj2 (Nat.ltb_ge _ _)) by lia; replace (n + k - n)%nat with k by lia; reflexivity|].
    intros k Hk. rewrite (proj2 (Nat.ltb_lt _ _)) by exact Hk. ring.
Qed.

Lemma column_whole : forall x outs, Forall valued outs -> forall X, column x outs X <->
  (forall g A Bs, mem g -> gi_rep x g = Ret (gi_size x, A) -> vals g outs Bs -> meq (tot outs) (gi_size x) (mmul (tot outs) (bdiag Bs) X) (mmul (gi_size x) X A)).
Proof.
  intros x outs F. induction F as [|y outs V F IH]; intros X; [split; [intros _ g A Bs _ _ _ i j Hi; cbn in Hi; lia|intros _; exact I]|].
  cbn [column map list_sum fold_right]. change (fold_right Nat.add 0%nat (map gi_size outs)) with (tot outs). rewrite IH. split.
  - intros [H H'] g A Bs M E Vs. inversion Vs as [|? [n B] ? Bs' [EB Sn] Vs']; subst. cbn [fst] in Sn. subst n. intros a b Ha Hb. rewrite bdiag_rows. destruct (Nat.ltb_spec a (gi_size y)) as [L|L].
    + apply (H g A B M E EB); assumption.
    + rewrite (H' g A Bs' M E Vs') by lia. unfold mmul. apply sumn_ext; intros k Hk. replace (gi_size y + (a - gi_size y))%nat with a by lia. reflexivity.
  - intros H. split.
    + intros g A B M E EB a b Ha Hb. destruct (vals_exist g outs M F) as (Bs & Vs). assert (vals g (y :: outs) ((gi_size y, B) :: Bs)) as W by (constructor; [split; [exact EB|reflexivity]|exact Vs]).
      specialize (H g A _ M E W a b ltac:(lia) Hb). rewrite bdiag_rows, (proj2 (Nat.ltb_lt _ _)) in H by exact Ha. exact H.
    + intros g A Bs M E Vs a b Ha Hb. destruct (V g M) as (B & EB). assert (vals g (y :: outs) ((gi_size y, B) :: Bs)) as W by (constructor; [split; [exact EB|reflexivity]|exact Vs]).
      specialize (H g A _ M E W (gi_size y + a)%nat b ltac:(lia) Hb). rewrite bdiag_rows, (proj2 (Nat.ltb_ge _ _)) in H by lia. replace (gi_size y + a - gi_size y)%nat with a in H by lia. exact H.
Qed.
Lemma table_whole : forall ins outs, Forall valued ins -> Forall valued outs -> forall X, table ins outs X <->
  (forall g As Bs, mem g -> vals g ins As -> vals g outs Bs -> meq (tot outs) (tot ins) (mmul (tot outs) (bdiag Bs) X) (mmul (tot ins) X (bdiag As))).
Proof.
  intros ins outs F Fo. induction F as [|x ins V F IH]; intros X; [split; [intros _ g A Bs _ _ _ i j _ Hj; cbn in Hj; lia|intros _; exact I]|].
  cbn [table map list_sum fold_right]. change (fold_right Nat.add 0%nat (map gi_size ins)) with (tot ins). rewrite IH, column_whole by assumption. split.
  - intros [H H'] g As Bs M Va Vs. inversion Va as [|? [n A] ? As' [EA Sn] Va']; subst. cbn [fst] in Sn. subst n. intros a b Ha Hb. rewrite bdiag_cols. destruct (Nat.ltb_spec b (gi_size x)) as [L|L].
    + apply (H g A Bs M EA Vs); assumption.
    + rewrite <- (H' g As' Bs M Va' Vs) by lia. unfold mmul. apply sumn_ext; intros k Hk. replace (gi_size x + (b - gi_size x))%nat with b by lia. reflexivity.
  - intros H. split.
    + intros g A Bs M EA Vs a b Ha Hb. destruct (vals_exist g ins M F) as (As & Va). assert (vals g (x :: ins) ((gi_size x, A) :: As)) as W by (constructor; [split; [exact EA|reflexivity]|exact Va]).
      specialize (H g _ Bs M W Vs a b Ha ltac:(lia)). rewrite bdiag_cols, (proj2 (Nat.ltb_lt _ _)) in H by exact Hb. exact H.
    + intros g As Bs M Va Vs a b Ha Hb. destruct (V g M) as (A & EA). assert (vals g (x :: ins) ((gi_size x, A) :: As)) as W by (constructor; [split; [exact EA|reflexivity]|exact Va]).
      specialize (H g _ Bs M W Vs a (gi_size x + b)%nat Ha ltac:(lia)). rewrite bdiag_cols, (proj2 (Nat.ltb_ge _ _)) in H by lia. replace (gi_size x + b - gi_size x)%nat with b in H by lia. exact H.
Qed.

(** *** representations *)
Definition fine (r : repr T) : Prop := Forall ok (r_irreps r) /\ total_size irr (r_irreps r) (r_size r) /\ reproduces irr mem r.

Lemma values_vals : forall ids l g bs, mapM irr ids = Ret l -> Forall valued l -> mem g -> values irr ids g = Ret bs -> vals g l bs.
Proof.
  unfold values. induction ids as [|id ids IH]; intros l g bs E F M H; cbn [mapM] in E, H; [apply Ret_inj in E, H; subst; constructor|].
  destruct (irr id) as [|x] eqn:Ex; [discriminate|]. cbn [bind] in E, H. destruct (mapM irr ids) as [|l'] eqn:El; [discriminate|]. cbn [bind] in E. apply Ret_inj in E. subst l.
  inversion F as [|? ? V F']; subst. destruct (V g M) as (A & EA). rewrite EA in H. cbn [bind] in H.
  destruct (mapM _ ids) as [|bs'] eqn:Eb in H; [discriminate|]. cbn [bind] in H. apply Ret_inj in H. subst bs. constructor; [split; [exact EA|reflexivity]|]. apply (IH l' g bs' eq_refl F' M Eb).
Qed.
Lemma known_all : forall ids l, Forall ok ids -> mapM irr ids = Ret l -> Forall known l.
Proof.
  induction ids as [|id ids IH]; intros l F E; cbn [mapM] in E; [apply Ret_inj in E; subst; constructor|]. inversion F as [|? ? O F']; subst.
  destruct (irr id) as [|x] eqn:Ex; [discriminate|]. cbn [bind] in E. destruct (mapM irr ids) as [|l'] eqn:El; [discriminate|]. cbn [bind] in E. apply Ret_inj in E. subst l.
  constructor; [|apply IH; auto]. rewrite (Hid id x O Ex). split; assumption.
Qed.

Hypothesis Hval : forall id x, ok id -> irr id = Ret x -> valued x.

Theorem hom_basis : forall r1 r2, fine r1 -> fine r2 ->
  exists l, homomorphism_space irr r1 r2 = Ret l /\ basis_of (r_size r2) (r_size r1) (intertwines mem (r_size r1) (r_size r2) (r_fun r1) (r_fun r2)) l.
Proof.
  intros r1 r2 (O1 & (l1 & E1 & S1) & I1 & V1) (O2 & (l2 & E2 & S2) & I2 & V2). pose proof (known_all _ _ O1 E1) as K1. pose proof (known_all _ _ O2 E2) as K2.
  assert (forall l, Forall known l -> Forall valued l) as KV by (intros l K; eapply Forall_impl; [|exact K]; intros x [Ox Ix]; exact (Hval _ x Ox Ix)).
  destruct (in_basis l1 l2 K1 K2 0) as (l & E & B). rewrite S1, S2 in E, B.
  unfold homomorphism_space. rewrite E1, E2. cbn [bind]. rewrite E. cbn [bind]. eexists. split; [reflexivity|]. rewrite map_map.
  apply (basis_ext _ _ (fun X => table l1 l2 (mmul (r_size r1) (mmul (r_size r2) (r_inv r2) X) (r_cob r1))) _ (map (fun D => mmul (r_size r1) (mmul (r_size r2) (r_cob r2) D) (r_inv r1)) l)).
  - intros X. rewrite (table_whole l1 l2 (KV _ K1) (KV _ K2)). rewrite S1, S2. set (n := r_size r2) in *. set (m := r_size r1) in *. destruct I1 as [P1 Q1], I2 as [P2 Q2]. split.
    + intros H g A B' M EA EB. destruct (V1 g M) as (As & A0 & W1 & Z1 & R1 & M1). destruct (V2 g M) as (Bs & B0 & W2 & Z2 & R2 & M2).
      rewrite EA in R1. rewrite EB in R2. apply Ret_inj in R1, R2. injection R1 as <-. injection R2 as <-.
      specialize (H g As Bs M (values_vals _ _ _ _ E1 (KV _ K1) M W1) (values_vals _ _ _ _ E2 (KV _ K2) M W2)). fold m in M1. fold n in M2. rewrite M1, M2.
      transitivity (mmul n (r_cob r2) (mmul m (mmul n (bdiag Bs) (mmul m (mmul n (r_inv r2) X) (r_cob r1))) (r_inv r1))).
      * rewrite !mul_assoc, P1, mid_r. reflexivity.
      * rewrite H. rewrite !mul_assoc. rewrite <- (mul_assoc n n n m (r_cob r2)), P2, mid_l. reflexivity.
    + intros H g As Bs M Va Vb. destruct (V1 g M) as (As' & A0 & W1 & Z1 & R1 & M1). destruct (V2 g M) as (Bs' & B0 & W2 & Z2 & R2 & M2).
      assert (As' = As) as -> by (pose proof (values_vals _ _ _ _ E1 (KV _ K1) M W1) as Va'; clear -Va Va'; revert As Va; induction Va' as [|x b l bs [H _] _ IH]; intros As Va; inversion Va as [|? ? ? ? [H' _]]; subst; [reflexivity|]; rewrite H in H'; apply Ret_inj in H'; subst; f_equal; auto).
      assert (Bs' = Bs) as -> by (pose proof (values_vals _ _ _ _ E2 (KV _ K2) M W2) as Va'; clear -Vb Va'; revert Bs Vb; induction Va' as [|x b l bs [H _] _ IH]; intros Bs Vb; inversion Vb as [|? ? ? ? [H' _]]; subst; [reflexivity|]; rewrite H in H'; apply Ret_inj in H'; subst; f_equal; auto).
      specialize (H g A0 B0 M R1 R2). fold m in M1. fold n in M2. rewrite M1, M2 in H.
      transitivity (mmul n (r_inv r2) (mmul m (mmul n (mmul n (mmul n (r_cob r2) (bdiag Bs)) (r_inv r2)) X) (r_cob r1))).
      * rewrite !mul_assoc. rewrite <- (mul_assoc n n n m (r_inv r2) (r_cob r2)), Q2, mid_l. reflexivity.
      * rewrite H. rewrite !mul_assoc. rewrite Q1, mid_r. reflexivity.
  - induction l as [|D l IH] in |- *; cbn [map]; constructor; [|apply IH]. rewrite rect_whole. reflexivity.
  - apply basis_conj; [exact I2|exact I1| |exact B]. intros X Y EX. rewrite !(table_whole l1 l2 (KV _ K1) (KV _ K2)). rewrite S1, S2. intros H g As Bs M Va Vb. rewrite <- EX. apply (H g As Bs); assumption.
Qed.
Lemma endo_hom : forall r, repr_endomorphisms irr r = homomorphism_space irr r r.
Proof. intros r. unfold repr_endomorphisms, homomorphism_space. destruct (mapM irr (r_irreps r)); reflexivity. Qed.
End Spaces.
