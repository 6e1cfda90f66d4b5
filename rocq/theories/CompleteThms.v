(** The kernels on a point are a basis of the equivariant linear maps, when they
    are for every pair of irreps. *)
From Coq Require Import Reals List ZArith Arith Bool Lia Lra FunctionalExtensionality.
From Verif Require Import LibRes LibMat LibMatS SpecComplete IrrepModel SpecRep RepModel SpecRepr
  KernelModel SpecKernel KernelProofs KernelThms KernelRThms KernelSThms.
From Verif Require NonlinProofs.
Import ListNotations.
Open Scope R_scope.

Lemma combination_ext : forall d w w' S S' a b, (forall i, (i < d)%nat -> w i * S i a b = w' i * S' i a b) ->
  combination d w S a b = combination d w' S' a b.
Proof. intros; unfold combination; apply sumn_ext; assumption. Qed.

Lemma combination_split : forall d e w (S S1 S2 : nat -> mat) a b,
  (forall i, (i < d)%nat -> S i a b = S1 i a b) -> (forall i, (i < e)%nat -> S (d + i)%nat a b = S2 i a b) ->
  combination (d + e) w S a b = combination d w S1 a b + combination e (fun i => w (d + i)%nat) S2 a b.
Proof.
  intros d e w S S1 S2 a b H1 H2. unfold combination. rewrite sumn_app. f_equal; apply sumn_ext; intros i Hi.
  - rewrite H1 by exact Hi; reflexivity.
  - rewrite H2 by exact Hi; reflexivity.
Qed.

Definition splice (d : nat) (w1 w2 : nat -> R) : nat -> R := fun i => if Nat.ltb i d then w1 i else w2 (i - d)%nat.
Lemma splice_l : forall d w1 w2 i, (i < d)%nat -> splice d w1 w2 i = w1 i.
Proof. intros d w1 w2 i H; unfold splice. rewrite (proj2 (Nat.ltb_lt i d) H). reflexivity. Qed.
Lemma splice_r : forall d w1 w2 i, splice d w1 w2 (d + i)%nat = w2 i.
Proof. intros d w1 w2 i; unfold splice. rewrite (proj2 (Nat.ltb_ge (d + i) d)) by lia. f_equal; lia. Qed.

Lemma combination_splice : forall d e w1 w2 (S S1 S2 : nat -> mat) a b,
  (forall i, (i < d)%nat -> S i a b = S1 i a b) -> (forall i, (i < e)%nat -> S (d + i)%nat a b = S2 i a b) ->
  combination (d + e) (splice d w1 w2) S a b = combination d w1 S1 a b + combination e w2 S2 a b.
Proof.
  intros d e w1 w2 S S1 S2 a b H1 H2. rewrite (combination_split d e _ S S1 S2) by assumption.
  f_equal; apply combination_ext; intros i Hi; [rewrite splice_l by exact Hi|rewrite splice_r]; reflexivity.
Qed.

Section Point.
Context {T A : Type}.
Variable mem : T -> Prop.
Variable irr : list Z -> res (girrep T).
Variable gen : list Z -> list Z -> res (option (ibasis T A)).
Variable triv : list Z.
Variable ok : list Z -> Prop.

Definition hom (i o : list Z) (X : mat) : Prop := forall ri ro, irr i = Ret ri -> irr o = Ret ro ->
  intertwiner mem (gi_size ro) (gi_rep ro) (gi_size ri) (gi_rep ri) X.

Definition sample (b : ibasis T A) (t : nat) : mat :=
  match b_harm b triv t (fun _ _ => 1) with Ret M => M | Raise => mzero end.

(** What is assumed of the pairs of irreps. *)
Definition pair_full (i o : list Z) : Prop := exists ri ro ob, irr i = Ret ri /\ irr o = Ret ro /\ gen i o = Ret ob /\
  match ob with
  | None => forall X, hom i o X -> meq (gi_size ro) (gi_size ri) X mzero
  | Some b => b_in b = ri /\ b_out b = ro /\ (0 < b_dim b)%nat /\ b_js b = [triv] /\ b_dimh b triv = b_dim b /\
      (forall t, (t < b_dim b)%nat -> b_harm b triv t (fun _ _ => 1) <> Raise) /\
      (forall t, (t < b_dim b)%nat -> square_sum (gi_size ro) (gi_size ri) (sample b t) = 1) /\
      basis_of (hom i o) (gi_size ro) (gi_size ri) (b_dim b) (sample b)
  end.
Hypothesis Hirr : forall j, ok j -> exists r, irr j = Ret r /\
  forall g, mem g -> exists D, gi_rep r g = Ret (gi_size r, D).
Hypothesis Full : forall i o, ok i -> ok o -> pair_full i o.

Definition qdim (q : spair T A) : nat := b_dim (sp_b q).
Definition total (l : list (spair T A)) : nat := list_sum (map qdim l).
Definition el (l : list (spair T A)) (t : nat) : mat :=
  match locate qdim l t with Some (q, i) => embed q (sample (sp_b q) i) | None => mzero end.

Lemma el_head : forall q l t, (t < qdim q)%nat -> el (q :: l) t = embed q (sample (sp_b q) t).
Proof. intros q l t H; unfold el; cbn [locate]. rewrite (proj2 (Nat.ltb_lt _ _) H). reflexivity. Qed.
Lemma el_tail : forall q l t, el (q :: l) (qdim q + t)%nat = el l t.
Proof.
  intros q l t; unfold el; cbn [locate]. rewrite (proj2 (Nat.ltb_ge _ _)) by lia.
  replace (qdim q + t - qdim q)%nat with t by lia. reflexivity.
Qed.
Lemma el_app : forall l m t, ((t < total l)%nat -> el (l ++ m) t = el l t) /\ el (l ++ m) (total l + t)%nat = el m t.
Proof.
  induction l as [|q l IH]; intros m t; cbn [app].
  - unfold total; cbn [map list_sum fold_right]. split; [lia|reflexivity].
  - unfold total in *; cbn [map]; rewrite list_sum_cons. split; intros.
    + destruct (lt_dec t (qdim q)) as [L|L]; [rewrite !el_head by exact L; reflexivity|].
      replace t with (qdim q + (t - qdim q))%nat by lia. rewrite !el_tail. apply IH; lia.
    + rewrite <- Nat.add_assoc, el_tail. apply IH.
Qed.
Lemma total_app : forall l m, total (l ++ m) = (total l + total m)%nat.
Proof. intros; unfold total; rewrite map_app, list_sum_app'; reflexivity. Qed.

Definition sz (id : list Z) : nat := match irr id with Ret r => gi_size r | Raise => 0%nat end.
Definition offs (ids : list (list Z)) (k : nat) : nat := list_sum (map sz (firstn k ids)).
Definition sub (X : mat) (p q : nat) : mat := fun a b => X (p + a)%nat (q + b)%nat.

Lemma embed_emb : forall (q : spair T A) M, embed q M = emb (sp_op q) (gi_size (b_out (sp_b q))) (sp_ip q) (gi_size (b_in (sp_b q))) M.
Proof. reflexivity. Qed.

Lemma square_sum_ext : forall n m X Y, meq n m X Y -> square_sum n m X = square_sum n m Y.
Proof. intros n m X Y E. unfold square_sum. apply sumn_ext; intros a La. apply sumn_ext; intros b Lb. rewrite (E a b La Lb). reflexivity. Qed.
Lemma square_sum_zero : forall n m X, (forall a b, (a < n)%nat -> (b < m)%nat -> X a b = 0) -> square_sum n m X = 0.
Proof. intros n m X Z. unfold square_sum. apply sumn_0; intros a La. apply sumn_0; intros b Lb. rewrite (Z a b La Lb). ring. Qed.
Lemma square_sum_rows : forall n n' m X, square_sum (n + n') m X = square_sum n m X + square_sum n' m (sub X n 0).
Proof. intros n n' m X. unfold square_sum. rewrite sumn_app. reflexivity. Qed.
Lemma square_sum_cols : forall n m m' X, square_sum n (m + m') X = square_sum n m X + square_sum n m' (sub X 0 m).
Proof.
  intros n m m' X. unfold square_sum. rewrite <- sumn_plus. apply sumn_ext; intros a _. rewrite sumn_app. reflexivity.
Qed.

(** The elements for one input. *)
Record column (i : list Z) (ip op : nat) (os : list (list Z)) (l : list (spair T A)) : Prop := {
  co_full : Forall (fun q => b_js (sp_b q) = [triv] /\ b_dimh (sp_b q) triv = b_dim (sp_b q) /\ (0 < b_dim (sp_b q))%nat /\
      forall t, (t < b_dim (sp_b q))%nat -> b_harm (sp_b q) triv t (fun _ _ => 1) <> Raise) l;
  co_out : forall t a b, ~ ((op <= a < op + list_sum (map sz os)) /\ (ip <= b < ip + sz i))%nat -> el l t a b = 0;
  co_in : forall t k o, (t < total l)%nat -> nth_error os k = Some o -> hom i o (sub (el l t) (op + offs os k) ip);
  co_span : forall X, (forall k o, nth_error os k = Some o -> hom i o (sub X (op + offs os k) ip)) ->
    exists w, forall a b, (a < list_sum (map sz os))%nat -> (b < sz i)%nat ->
      X (op + a)%nat (ip + b)%nat = combination (total l) w (el l) (op + a)%nat (ip + b)%nat;
  co_free : forall w, (forall a b, (a < list_sum (map sz os))%nat -> (b < sz i)%nat ->
      combination (total l) w (el l) (op + a)%nat (ip + b)%nat = 0) -> forall t, (t < total l)%nat -> w t = 0;
  co_unit : forall t, (t < total l)%nat -> square_sum (list_sum (map sz os)) (sz i) (sub (el l t) op ip) = 1
}.

Lemma hom_ext : forall i o X Y, meq (sz o) (sz i) X Y -> hom i o X -> hom i o Y.
Proof.
  intros i o X Y E H ri ro Ei Eo g B C Hg EB EC. unfold sz in E. rewrite Ei, Eo in E.
  rewrite <- E. exact (H ri ro Ei Eo g B C Hg EB EC).
Qed.
Lemma hom_zero : forall i o X, (forall a b, (a < sz o)%nat -> (b < sz i)%nat -> X a b = 0) -> hom i o X.
Proof.
  intros i o X Z. apply (hom_ext i o mzero); [intros a b Ha Hb; symmetry; apply Z; assumption|].
  intros ri ro Ei Eo g B C Hg EB EC a b Ha Hb. unfold mmul, mzero.
  rewrite !sumn_0; [reflexivity| |]; intros; ring.
Qed.

Lemma column_ok : forall i ii ip os oo op, ok i -> Forall ok os ->
  exists l, out_pairs irr gen ii ip i oo op os = Ret l /\ column i ip op os l.
Proof.
  intros i ii ip; induction os as [|o os IH]; intros oo op Hi Ho; cbn [out_pairs].
  - exists []; split; [reflexivity|]. constructor; [constructor|reflexivity|..].
    + intros t k o Lt; cbn in Lt; lia.
    + intros X _. exists (fun _ => 0). intros a b La; cbn in La; lia.
    + intros w _ t Lt; cbn in Lt; lia.
    + intros t Lt; cbn in Lt; lia.
  - inversion Ho as [|? ? H1 H2]; subst.
    destruct (Full i o Hi H1) as (ri & ro & ob & Ei & Eo & Eg & Hb). rewrite Eg, Eo; cbn [bind].
    destruct (IH (S oo) (op + gi_size ro)%nat Hi H2) as (l & El & [Cf Co Ci Cs Cr Cu]). rewrite El; cbn [bind].
    assert (sz o = gi_size ro) as So by (unfold sz; rewrite Eo; reflexivity).
    assert (sz i = gi_size ri) as Si by (unfold sz; rewrite Ei; reflexivity).
    assert (forall k, offs (o :: os) (S k) = (gi_size ro + offs os k)%nat) as Os.
    { intros k. unfold offs; cbn [firstn map]. rewrite list_sum_cons, So. reflexivity. }
    assert (list_sum (map sz (o :: os)) = (gi_size ro + list_sum (map sz os))%nat) as Ls
      by (cbn [map]; rewrite list_sum_cons, So; reflexivity).
    assert (forall k o', nth_error os k = Some o' -> (offs os k + sz o' <= list_sum (map sz os))%nat) as Lo.
    { clear. induction os as [|x os IH]; intros k o' E; [destruct k; discriminate|].
      destruct k as [|k]; cbn [nth_error] in E.
      - injection E as ->. unfold offs; cbn [firstn map]. rewrite list_sum_cons; cbn; lia.
      - specialize (IH k o' E). unfold offs in *; cbn [firstn map]. rewrite !list_sum_cons; lia. }
    destruct ob as [b|].
    2:{ (* no equivariant map *)
      exists l; split; [reflexivity|]. constructor.
      - exact Cf.
      - intros t a b Hab. apply Co. rewrite Ls in Hab. lia.
      - intros t k o' Lt E. destruct k as [|k]; cbn [nth_error] in E.
        + injection E as <-. apply hom_zero. intros a b La Lb. unfold sub. apply Co.
          unfold offs; cbn [firstn map list_sum fold_right]. lia.
        + rewrite Os. specialize (Ci t k o' Lt E). apply (hom_ext _ _ _ _) with (2 := Ci).
          intros a b _ _. unfold sub. f_equal; lia.
      - intros X HX. destruct (Cs X) as (w & Hw).
        { intros k o' E. specialize (HX (S k) o' E). rewrite Os in HX. apply (hom_ext _ _ _ _) with (2 := HX).
          intros a b _ _. unfold sub. f_equal; lia. }
        exists w. intros a b La Lb. rewrite Ls in La. destruct (lt_dec a (gi_size ro)) as [L|L].
        + pose proof (Hb _ (HX 0%nat o eq_refl) a b L ltac:(lia)) as Z. unfold sub, offs in Z.
          cbn [firstn map list_sum fold_right] in Z. rewrite Nat.add_0_r in Z. rewrite Z. unfold mzero, combination.
          symmetry; apply sumn_0; intros t Lt. rewrite Co by lia. ring.
        + replace (op + a)%nat with (op + gi_size ro + (a - gi_size ro))%nat by lia. apply Hw; lia.
      - intros w Hw t Lt. apply (Cr w); [|exact Lt]. intros a b La Lb.
        replace (op + gi_size ro + a)%nat with (op + (gi_size ro + a))%nat by lia. apply Hw; lia.
      - intros t Lt. rewrite Ls, square_sum_rows, square_sum_zero by (intros a b La Lb; unfold sub; apply Co; lia).
        rewrite Rplus_0_l, <- (Cu t Lt). apply square_sum_ext. intros a b _ _. unfold sub. f_equal; lia. }
    destruct Hb as (Bi & Bo & Bp & Bj & Bd & Bh & Bu & Bin & Bs & Bf).
    eexists; split; [reflexivity|].
    set (q := {| sp_ii := ii; sp_oo := oo; sp_in := i; sp_out := o; sp_ip := ip; sp_op := op; sp_b := b |}).
    assert (total (q :: l) = (b_dim b + total l)%nat) as Tq by (unfold total; cbn [map]; rewrite list_sum_cons; reflexivity).
    assert (forall t, (t < b_dim b)%nat -> el (q :: l) t = emb op (gi_size ro) ip (gi_size ri) (sample b t)) as Eh.
    { intros t Lt. rewrite el_head by exact Lt. rewrite embed_emb. cbn [q sp_op sp_ip sp_b]. rewrite Bi, Bo. reflexivity. }
    assert (forall t, el (q :: l) (b_dim b + t)%nat = el l t) as Et by (intros; apply (el_tail q)).
    assert (forall w a b', combination (b_dim b + total l) w (el (q :: l)) a b' =
      combination (b_dim b) w (fun t => emb op (gi_size ro) ip (gi_size ri) (sample b t)) a b' +
      combination (total l) (fun t => w (b_dim b + t)%nat) (el l) a b') as Sp.
    { intros w a b'. apply combination_split; intros t Lt; [rewrite Eh by exact Lt|rewrite Et]; reflexivity. }
    assert (forall w a b', (a < gi_size ro)%nat -> combination (total l) w (el l) (op + a)%nat b' = 0) as Z1.
    { intros w a b' La. unfold combination. apply sumn_0; intros t Lt. rewrite Co by lia. ring. }
    assert (forall w a b', combination (b_dim b) w (fun t => emb op (gi_size ro) ip (gi_size ri) (sample b t)) (op + gi_size ro + a)%nat b' = 0) as Z2.
    { intros w a b'. unfold combination. apply sumn_0; intros t Lt. rewrite emb_row_out by lia. ring. }
    assert (forall w a b', (a < gi_size ro)%nat -> (b' < gi_size ri)%nat ->
      combination (b_dim b) w (fun t => emb op (gi_size ro) ip (gi_size ri) (sample b t)) (op + a)%nat (ip + b')%nat =
      combination (b_dim b) w (sample b) a b') as In1.
    { intros w a b' La Lb. unfold combination. apply sumn_ext; intros t Lt. rewrite emb_in by assumption. reflexivity. }
    constructor.
    + constructor; [|exact Cf]. cbn [q sp_b]. auto.
    + intros t a b' Hab. rewrite Ls, Si in Hab. destruct (lt_dec t (b_dim b)) as [L|L].
      * rewrite Eh by exact L. destruct (le_lt_dec op a), (le_lt_dec (op + gi_size ro) a);
          try (apply emb_row_out; lia). apply emb_col_out; lia.
      * replace t with (b_dim b + (t - b_dim b))%nat by lia. rewrite Et. apply Co. lia.
    + intros t k o' Lt E. rewrite Tq in Lt. destruct (lt_dec t (b_dim b)) as [L|L].
      * destruct k as [|k]; cbn [nth_error] in E.
        -- injection E as <-. apply (hom_ext i o (sample b t)).
           ++ intros a b' La Lb. unfold sub, offs; cbn [firstn map list_sum fold_right]. rewrite Nat.add_0_r, Eh by exact L.
              rewrite emb_in by lia. reflexivity.
           ++ apply Bin; exact L.
        -- apply hom_zero. intros a b' La Lb. unfold sub. rewrite Os, Eh by exact L. apply emb_row_out; lia.
      * replace t with (b_dim b + (t - b_dim b))%nat by lia. rewrite Et. destruct k as [|k]; cbn [nth_error] in E.
        -- injection E as <-. apply hom_zero. intros a b' La Lb. unfold sub, offs; cbn [firstn map list_sum fold_right]. apply Co; lia.
        -- rewrite Os. specialize (Ci (t - b_dim b)%nat k o' ltac:(lia) E). apply (hom_ext _ _ _ _) with (2 := Ci).
           intros a b' _ _. unfold sub. f_equal; lia.
    + intros X HX. destruct (Cs X) as (w2 & Hw2).
      { intros k o' E. specialize (HX (S k) o' E). rewrite Os in HX. apply (hom_ext _ _ _ _) with (2 := HX).
        intros a b' _ _. unfold sub. f_equal; lia. }
      destruct (Bs _ (HX 0%nat o eq_refl)) as (w1 & Hw1).
      exists (splice (b_dim b) w1 w2). intros a b' La Lb. rewrite Tq, Ls in *. rewrite Sp.
      rewrite (combination_ext (b_dim b) _ w1 _ (fun t => emb op (gi_size ro) ip (gi_size ri) (sample b t)))
        by (intros t Lt; rewrite splice_l by exact Lt; reflexivity).
      rewrite (combination_ext (total l) _ w2 _ (el l)) by (intros t Lt; rewrite splice_r; reflexivity).
      destruct (lt_dec a (gi_size ro)) as [L|L].
      * rewrite Z1, In1 by lia. rewrite Rplus_0_r, <- (Hw1 a b' L ltac:(lia)).
        unfold sub, offs; cbn [firstn map list_sum fold_right]. f_equal; lia.
      * replace (op + a)%nat with (op + gi_size ro + (a - gi_size ro))%nat by lia.
        rewrite Z2, Rplus_0_l. apply Hw2; lia.
    + intros w Hw t Lt. rewrite Tq in *. rewrite Ls in Hw. destruct (lt_dec t (b_dim b)) as [L|L].
      * apply (Bf w); [|exact L]. intros a b' La Lb. specialize (Hw a b' ltac:(lia) ltac:(lia)).
        rewrite Sp, Z1, In1 in Hw by lia. unfold mzero. lra.
      * pose proof (Cr (fun t => w (b_dim b + t)%nat)) as Q.
        replace t with (b_dim b + (t - b_dim b))%nat by lia. apply Q; [|lia].
        intros a b' La Lb. specialize (Hw (gi_size ro + a)%nat b' ltac:(lia) Lb).
        rewrite Nat.add_assoc in Hw. rewrite Sp, Z2 in Hw. lra.
    + intros t Lt. rewrite Tq in Lt. rewrite Ls, square_sum_rows. destruct (lt_dec t (b_dim b)) as [L|L].
      * rewrite (square_sum_zero (list_sum (map sz os))) by (intros a b' La Lb; unfold sub; rewrite Eh by exact L; apply emb_row_out; lia).
        rewrite Rplus_0_r, <- (Bu t L), Si. apply square_sum_ext. intros a b' La Lb. unfold sub. rewrite Eh, emb_in by assumption. reflexivity.
      * replace t with (b_dim b + (t - b_dim b))%nat by lia. rewrite Et.
        rewrite square_sum_zero by (intros a b' La Lb; unfold sub; apply Co; lia).
        rewrite Rplus_0_l, <- (Cu (t - b_dim b)%nat) by lia. apply square_sum_ext. intros a b' _ _. unfold sub. f_equal; lia.
Qed.

Definition usable (q : spair T A) : Prop := b_js (sp_b q) = [triv] /\ b_dimh (sp_b q) triv = b_dim (sp_b q) /\ (0 < b_dim (sp_b q))%nat /\
  forall t, (t < b_dim (sp_b q))%nat -> b_harm (sp_b q) triv t (fun _ _ => 1) <> Raise.

(** The elements for all inputs. *)
Record table (ip : nat) (is os : list (list Z)) (l : list (spair T A)) : Prop := {
  ta_full : Forall usable l;
  ta_out : forall t a b, ~ ((a < list_sum (map sz os)) /\ (ip <= b < ip + list_sum (map sz is)))%nat -> el l t a b = 0;
  ta_in : forall t k i k' o, (t < total l)%nat -> nth_error is k = Some i -> nth_error os k' = Some o ->
    hom i o (sub (el l t) (offs os k') (ip + offs is k));
  ta_span : forall X, (forall k i k' o, nth_error is k = Some i -> nth_error os k' = Some o ->
      hom i o (sub X (offs os k') (ip + offs is k))) ->
    exists w, forall a b, (a < list_sum (map sz os))%nat -> (b < list_sum (map sz is))%nat ->
      X a (ip + b)%nat = combination (total l) w (el l) a (ip + b)%nat;
  ta_free : forall w, (forall a b, (a < list_sum (map sz os))%nat -> (b < list_sum (map sz is))%nat ->
      combination (total l) w (el l) a (ip + b)%nat = 0) -> forall t, (t < total l)%nat -> w t = 0;
  ta_unit : forall t, (t < total l)%nat -> square_sum (list_sum (map sz os)) (list_sum (map sz is)) (sub (el l t) 0 ip) = 1
}.

Lemma offs_le : forall os k o, nth_error os k = Some o -> (offs os k + sz o <= list_sum (map sz os))%nat.
Proof.
  clear. induction os as [|x os IH]; intros k o' E; [destruct k; discriminate|].
  destruct k as [|k]; cbn [nth_error] in E.
  - injection E as ->. unfold offs; cbn [firstn map]. rewrite list_sum_cons; cbn; lia.
  - specialize (IH k o' E). unfold offs in *; cbn [firstn map]. rewrite !list_sum_cons; lia.
Qed.

Lemma table_ok : forall os is ii ip, Forall ok is -> Forall ok os ->
  exists l, in_pairs irr gen ii ip is os = Ret l /\ table ip is os l.
Proof.
  intros os; induction is as [|i is IH]; intros ii ip Hi Ho; cbn [in_pairs].
  - exists []; split; [reflexivity|]. constructor; [constructor|reflexivity|..].
    + intros t k i k' o Lt; cbn in Lt; lia.
    + intros X _. exists (fun _ => 0). intros a b La Lb; cbn in Lb; lia.
    + intros w _ t Lt; cbn in Lt; lia.
    + intros t Lt; cbn in Lt; lia.
  - inversion Hi as [|? ? H1 H2]; subst.
    destruct (column_ok i ii ip os 0 0 H1 Ho) as (l & El & [Cf Co Ci Cs Cr Cu]). rewrite El; cbn [bind].
    destruct (Hirr i H1) as (ri & Ei & Ri). rewrite Ei; cbn [bind].
    destruct (IH (S ii) (ip + gi_size ri)%nat H2 Ho) as (l' & El' & [Tf To Ti Ts Tr Tu]). rewrite El'; cbn [bind].
    eexists; split; [reflexivity|].
    assert (sz i = gi_size ri) as Si by (unfold sz; rewrite Ei; reflexivity).
    assert (forall k, offs (i :: is) (S k) = (gi_size ri + offs is k)%nat) as Os.
    { intros k. unfold offs; cbn [firstn map]. rewrite list_sum_cons, Si. reflexivity. }
    assert (list_sum (map sz (i :: is)) = (gi_size ri + list_sum (map sz is))%nat) as Ls
      by (cbn [map]; rewrite list_sum_cons, Si; reflexivity).
    assert (forall w a b, combination (total (l ++ l')) w (el (l ++ l')) a b =
      combination (total l) w (el l) a b + combination (total l') (fun t => w (total l + t)%nat) (el l') a b) as Sp.
    { intros w a b. rewrite total_app. apply combination_split; intros t Lt.
      - rewrite (proj1 (el_app l l' t) Lt); reflexivity.
      - rewrite (proj2 (el_app l l' t)); reflexivity. }
    assert (forall w a b, (b < gi_size ri)%nat -> combination (total l') w (el l') a (ip + b)%nat = 0) as Z1.
    { intros w a b Lb. unfold combination. apply sumn_0; intros t Lt. rewrite To by lia. ring. }
    assert (forall w a b, combination (total l) w (el l) a (ip + gi_size ri + b)%nat = 0) as Z2.
    { intros w a b. unfold combination. apply sumn_0; intros t Lt. rewrite Co by lia. ring. }
    constructor.
    + apply Forall_app; split; [exact Cf|exact Tf].
    + intros t a b Hab. rewrite Ls in Hab. destruct (lt_dec t (total l)) as [L|L].
      * rewrite (proj1 (el_app l l' t) L). apply Co. lia.
      * replace t with (total l + (t - total l))%nat by lia. rewrite (proj2 (el_app l l' _)). apply To. lia.
    + intros t k i' k' o Lt Ek Ek'. rewrite total_app in Lt. pose proof (offs_le os k' o Ek') as Lo.
      destruct (lt_dec t (total l)) as [L|L].
      * rewrite (proj1 (el_app l l' t) L). destruct k as [|k]; cbn [nth_error] in Ek.
        -- injection Ek as <-. specialize (Ci t k' o L Ek'). apply (hom_ext _ _ _ _) with (2 := Ci).
           intros a b _ _. unfold sub, offs; cbn [firstn map list_sum fold_right]. f_equal; lia.
        -- apply hom_zero. intros a b La Lb. unfold sub. rewrite Os. apply Co; lia.
      * replace t with (total l + (t - total l))%nat by lia. rewrite (proj2 (el_app l l' _)).
        destruct k as [|k]; cbn [nth_error] in Ek.
        -- injection Ek as <-. apply hom_zero. intros a b La Lb. unfold sub.
           unfold offs at 2; cbn [firstn map list_sum fold_right]. apply To; lia.
        -- rewrite Os. specialize (Ti (t - total l)%nat k i' k' o ltac:(lia) Ek Ek').
           apply (hom_ext _ _ _ _) with (2 := Ti). intros a b _ _. unfold sub. f_equal; lia.
    + intros X HX. destruct (Ts X) as (w2 & Hw2).
      { intros k i' k' o Ek Ek'. specialize (HX (S k) i' k' o Ek Ek'). rewrite Os in HX. apply (hom_ext _ _ _ _) with (2 := HX).
        intros a b _ _. unfold sub. f_equal; lia. }
      destruct (Cs X) as (w1 & Hw1).
      { intros k' o Ek'. specialize (HX 0%nat i k' o eq_refl Ek'). apply (hom_ext _ _ _ _) with (2 := HX).
        intros a b _ _. unfold sub. f_equal; cbn; lia. }
      exists (splice (total l) w1 w2). intros a b La Lb. rewrite Ls in Lb. rewrite Sp.
      rewrite (combination_ext (total l) _ w1 _ (el l)) by (intros t Lt; rewrite splice_l by exact Lt; reflexivity).
      rewrite (combination_ext (total l') _ w2 _ (el l')) by (intros t Lt; rewrite splice_r; reflexivity).
      destruct (lt_dec b (gi_size ri)) as [L|L].
      * rewrite Z1, Rplus_0_r by exact L. apply (Hw1 a b La). lia.
      * replace (ip + b)%nat with (ip + gi_size ri + (b - gi_size ri))%nat by lia.
        rewrite Z2, Rplus_0_l. apply Hw2; lia.
    + intros w Hw t Lt. rewrite total_app in Lt. rewrite Ls in Hw. destruct (lt_dec t (total l)) as [L|L].
      * apply (Cr w); [|exact L]. intros a b La Lb. rewrite Si in Lb. specialize (Hw a b La ltac:(lia)).
        rewrite Sp, Z1 in Hw by exact Lb. cbn [Nat.add]. lra.
      * replace t with (total l + (t - total l))%nat by lia.
        apply (Tr (fun t => w (total l + t)%nat)); [|lia].
        intros a b La Lb. specialize (Hw a (gi_size ri + b)%nat La ltac:(lia)).
        rewrite Nat.add_assoc in Hw. rewrite Sp, Z2 in Hw. lra.
    + intros t Lt. rewrite total_app in Lt. rewrite Ls, square_sum_cols. destruct (lt_dec t (total l)) as [L|L].
      * rewrite (proj1 (el_app l l' t) L).
        rewrite (square_sum_zero _ (list_sum (map sz is))) by (intros a b La Lb; unfold sub; apply Co; lia).
        rewrite Rplus_0_r, <- (Cu t L), Si. reflexivity.
      * replace t with (total l + (t - total l))%nat by lia. rewrite (proj2 (el_app l l' _)).
        rewrite square_sum_zero by (intros a b La Lb; unfold sub; apply To; lia).
        rewrite Rplus_0_l, <- (Tu (t - total l)%nat) by lia. apply square_sum_ext. intros a b _ _. unfold sub. f_equal; lia.
Qed.

(** From blocks to the block diagonal representations. *)
Lemma values_sizes : forall ids h bs, Forall ok ids -> mem h -> values irr ids h = Ret bs ->
  map fst bs = map sz ids.
Proof.
  induction ids as [|i ids IH]; intros h bs Ho Mh Ev.
  - injection Ev as <-; reflexivity.
  - inversion Ho as [|? ? H1 H2]; subst. unfold values in Ev; cbn [mapM] in Ev. destruct (Hirr i H1) as (r & Er & Rr).
    rewrite Er in Ev; cbn [bind] in Ev. destruct (Rr h Mh) as (D & ED). rewrite ED in Ev; cbn [bind] in Ev.
    fold (values irr ids h) in Ev. destruct (values irr ids h) as [|bs'] eqn:E; [discriminate|].
    cbn [bind] in Ev. injection Ev as <-. cbn [map fst]. rewrite (IH h bs' H2 Mh E). unfold sz at 2. rewrite Er. reflexivity.
Qed.
Lemma values_off : forall ids h bs k, Forall ok ids -> mem h -> values irr ids h = Ret bs -> off bs k = offs ids k.
Proof. intros ids h bs k Ho Mh Ev. unfold off, offs. rewrite (values_sizes ids h bs Ho Mh Ev), firstn_map. reflexivity. Qed.

Lemma values_bsize : forall ids h bs, Forall ok ids -> mem h -> values irr ids h = Ret bs -> bsize bs = list_sum (map sz ids).
Proof.
  intros ids h bs Ho Mh Ev. rewrite <- (values_sizes ids h bs Ho Mh Ev). clear.
  induction bs as [|[n B] bs IH]; [reflexivity|]. cbn [bsize map fst]. rewrite list_sum_cons, IH. reflexivity.
Qed.
Lemma in_block : forall ids a, (a < list_sum (map sz ids))%nat ->
  exists k i x, nth_error ids k = Some i /\ (x < sz i)%nat /\ a = (offs ids k + x)%nat.
Proof.
  clear. induction ids as [|i ids IH]; intros a La; cbn [map] in La; [cbn in La; lia|]. rewrite list_sum_cons in La.
  destruct (lt_dec a (sz i)) as [L|L].
  - exists 0%nat, i, a. split; [reflexivity|]. split; [exact L|]. unfold offs; cbn; reflexivity.
  - destruct (IH (a - sz i)%nat ltac:(lia)) as (k & j & x & E & Lx & Ea). exists (S k), j, x.
    split; [exact E|]. split; [exact Lx|]. unfold offs in *; cbn [firstn map]. rewrite list_sum_cons. lia.
Qed.

Lemma blocks_iff : forall is os X, Forall ok is -> Forall ok os ->
  (forall k i k' o, nth_error is k = Some i -> nth_error os k' = Some o -> hom i o (sub X (offs os k') (offs is k))) <->
  (forall g bi bo, mem g -> values irr is g = Ret bi -> values irr os g = Ret bo ->
     meq (bsize bo) (bsize bi) (mmul (bsize bo) (bdiag bo) X) (mmul (bsize bi) X (bdiag bi))).
Proof.
  intros is os X Ois Oos.
  assert (forall g k i k' o bi bo, mem g -> values irr is g = Ret bi -> values irr os g = Ret bo ->
    nth_error is k = Some i -> nth_error os k' = Some o -> exists ri ro B C, irr i = Ret ri /\ irr o = Ret ro /\
      gi_rep ri g = Ret (gi_size ri, B) /\ gi_rep ro g = Ret (gi_size ro, C) /\ sz i = gi_size ri /\ sz o = gi_size ro /\
      forall a b, (a < gi_size ro)%nat -> (b < gi_size ri)%nat ->
        mmul (bsize bo) (bdiag bo) X (offs os k' + a)%nat (offs is k + b)%nat =
          mmul (gi_size ro) C (sub X (offs os k') (offs is k)) a b /\
        mmul (bsize bi) X (bdiag bi) (offs os k' + a)%nat (offs is k + b)%nat =
          mmul (gi_size ri) (sub X (offs os k') (offs is k)) B a b) as Key.
  { intros g k i k' o bi bo Mg Ei Eo Ni No.
    destruct (values_nth irr is g bi k i Ei Ni) as (ri & [n B] & Eri & EB & NB).
    destruct (values_nth irr os g bo k' o Eo No) as (ro & [n' C] & Ero & EC & NC).
    rewrite Forall_forall in Ois, Oos.
    destruct (Hirr i (Ois i (nth_error_In _ _ Ni))) as (r & Er & Rr). rewrite Eri in Er; apply Ret_inj in Er; subst r.
    destruct (Rr g Mg) as (D & ED). rewrite EB in ED; injection ED as -> ->.
    destruct (Hirr o (Oos o (nth_error_In _ _ No))) as (r & Er & Rr'). rewrite Ero in Er; apply Ret_inj in Er; subst r.
    destruct (Rr' g Mg) as (D' & ED). rewrite EC in ED; injection ED as -> ->.
    exists ri, ro, D, D'. do 4 (split; [assumption|]).
    split; [unfold sz; rewrite Eri; reflexivity|]. split; [unfold sz; rewrite Ero; reflexivity|].
    intros a b La Lb. rewrite <- Forall_forall in Ois, Oos.
    rewrite <- (values_off is g bi k Ois Mg Ei), <- (values_off os g bo k' Oos Mg Eo). unfold mmul at 1 3. split.
    - rewrite (bdiag_row bo k' _ D' a (fun c => X c (off bi k + b)%nat) NC La). reflexivity.
    - rewrite (bdiag_col bi k _ D b (fun c => X (off bo k' + a)%nat c) NB Lb). reflexivity. }
  split.
  - intros H g bi bo Mg Ei Eo a b La Lb.
    rewrite (values_bsize os g bo Oos Mg Eo) in La. rewrite (values_bsize is g bi Ois Mg Ei) in Lb.
    destruct (in_block os a La) as (k' & o & x & No & Lx & ->). destruct (in_block is b Lb) as (k & i & y & Ni & Ly & ->).
    destruct (Key g k i k' o bi bo Mg Ei Eo Ni No) as (ri & ro & B & C & Eri & Ero & EB & EC & Si & So & K).
    rewrite So in Lx; rewrite Si in Ly. destruct (K x y Lx Ly) as [-> ->].
    apply (H k i k' o Ni No ri ro Eri Ero g C B Mg EC EB x y Lx Ly).
  - intros H k i k' o Ni No ri ro Eri Ero g C B Mg EC EB x y Lx Ly.
    assert (forall ids, Forall ok ids -> exists bs, values irr ids g = Ret bs) as Val.
    { clear - Hirr Mg. induction ids as [|j ids IH]; intros Ho; [exists []; reflexivity|].
      inversion Ho as [|? ? H1 H2]; subst. destruct (Hirr j H1) as (r & Er & Rr), (Rr g Mg) as (D & ED).
      destruct (IH H2) as (bs & Eb). exists ((gi_size r, D) :: bs). unfold values in *; cbn [mapM].
      rewrite Er; cbn [bind]; rewrite ED; cbn [bind]; rewrite Eb; reflexivity. }
    destruct (Val is Ois) as (bi & Ei), (Val os Oos) as (bo & Eo).
    destruct (Key g k i k' o bi bo Mg Ei Eo Ni No) as (ri' & ro' & B' & C' & Eri' & Ero' & EB' & EC' & Si & So & K).
    rewrite Eri in Eri'; apply Ret_inj in Eri'; subst ri'. rewrite Ero in Ero'; apply Ret_inj in Ero'; subst ro'.
    rewrite EB in EB'; injection EB' as <-. rewrite EC in EC'; injection EC' as <-.
    destruct (K x y Lx Ly) as [<- <-]. apply (H g bi bo Mg Ei Eo).
    + rewrite (values_bsize os g bo Oos Mg Eo). pose proof (offs_le os k' o No). lia.
    + rewrite (values_bsize is g bi Ois Mg Ei). pose proof (offs_le is k i Ni). lia.
Qed.

(** The kernels on a point. *)
Variable P : Type.
Variable F : filters P A.
Hypothesis Fjs : f_js F = [(triv, 1%nat)].
Hypothesis Fone : forall x i, f_sample F x i = 1.
Hypothesis Htriv : exists r, irr triv = Ret r.
Variable rin rout : repr T.
Hypothesis Me : exists e, mem e.
Hypothesis Rin : reproduces irr mem rin.
Hypothesis Rout : reproduces irr mem rout.
Hypothesis Oin : Forall ok (r_irreps rin).
Hypothesis Oout : Forall ok (r_irreps rout).
Hypothesis Shin : sharp (r_size rin) (r_inv rin).
Hypothesis Shout : sharp (r_size rout) (r_cob rout).

Lemma combination_mul : forall n m B C d w (S : nat -> mat) a b,
  mmul m (mmul n B (combination d w S)) C a b = combination d w (fun t => mmul m (mmul n B (S t)) C) a b.
Proof.
  intros n m B C d w S a b. unfold combination, mmul.
  rewrite (sumn_ext m _ (fun k => sumn d (fun i => w i * (sumn n (fun k0 => B a k0 * S i k0 k) * C k b)))).
  - rewrite sumn_swap. apply sumn_ext; intros i _. rewrite sumn_scal_l. reflexivity.
  - intros k _. rewrite (sumn_ext n _ (fun k0 => sumn d (fun i => w i * (B a k0 * S i k0 k)))).
    + rewrite sumn_swap, <- sumn_scal_r. apply sumn_ext; intros i _. rewrite sumn_scal_l. ring.
    + intros k0 _. rewrite <- sumn_scal_l. apply sumn_ext; intros; ring.
Qed.

Local Notation sumn_sq_orth := NonlinProofs.sumn_sq_orth.
Lemma square_sum_orth_l : forall n m Q X, orthogonal n Q -> square_sum n m (mmul n Q X) = square_sum n m X.
Proof.
  intros n m Q X O. unfold square_sum. rewrite sumn_swap, (sumn_swap n m (fun a b => X a b * X a b)). apply sumn_ext; intros b _.
  exact (sumn_sq_orth n Q (fun j => X j b) O).
Qed.
Lemma square_sum_orth_r : forall n m Q X, orthogonal m Q -> square_sum n m (mmul m X Q) = square_sum n m X.
Proof.
  intros n m Q X O. unfold square_sum. apply sumn_ext; intros a _. rewrite <- (sumn_sq_orth m (mtr Q) (fun j => X a j)).
  - apply sumn_ext; intros b _. unfold mmul, mtr. rewrite (sumn_ext m (fun j => Q j b * X a j) (fun j => X a j * Q j b)) by (intros; ring). reflexivity.
  - destruct O as [O1 O2]. split; assumption.
Qed.

Theorem point_basis : exists o, mk_skb irr gen triv F rin rout = Ret o /\
  let hom := intertwiner mem (r_size rout) (r_fun rout) (r_size rin) (r_fun rin) in
  match o with
  | None => forall X, hom X -> meq (r_size rout) (r_size rin) X mzero
  | Some k => forall x, exists S, (forall t, (t < sk_dim k)%nat -> sk_sample irr F k x t = Ret (S t)) /\
      basis_of hom (r_size rout) (r_size rin) (sk_dim k) S /\
      exists E, forall t, (t < sk_dim k)%nat -> square_sum (r_size rout) (r_size rin) (E t) = 1 /\
        meq (r_size rout) (r_size rin) (S t) (mmul (r_size rin) (mmul (r_size rout) (r_cob rout) (E t)) (r_inv rin))
  end.
Proof.
  destruct (table_ok (r_irreps rout) (r_irreps rin) 0 0 Oin Oout) as (l & El & [Tf To Ti Ts Tr Tu]).
  set (no := r_size rout) in *; set (ni := r_size rin) in *.
  destruct Rin as [[Ii1 Ii2] Vin], Rout as [[Io1 Io2] Vout]. fold ni in Ii1, Ii2, Vin; fold no in Io1, Io2, Vout.
  assert (list_sum (map sz (r_irreps rin)) = ni) as Lni.
  { destruct Me as [e He]. destruct (Vin e He) as (bs & B & Ev & Sb & _). rewrite <- Sb.
    symmetry; apply (values_bsize _ e bs Oin He Ev). }
  assert (list_sum (map sz (r_irreps rout)) = no) as Lno.
  { destruct Me as [e He]. destruct (Vout e He) as (bs & B & Ev & Sb & _). rewrite <- Sb.
    symmetry; apply (values_bsize _ e bs Oout He Ev). }
  rewrite Lni, Lno in *.
  set (S := fun t => mmul ni (mmul no (r_cob rout) (el l t)) (r_inv rin)).
  set (V := intertwiner mem no (r_fun rout) ni (r_fun rin)).
  (* an intertwiner and its blocks *)
  assert (forall Y, (forall k i k' o, nth_error (r_irreps rin) k = Some i -> nth_error (r_irreps rout) k' = Some o ->
      hom i o (sub Y (offs (r_irreps rout) k') (offs (r_irreps rin) k))) ->
      V (mmul ni (mmul no (r_cob rout) Y) (r_inv rin))) as Up.
  { intros Y HY g B C Mg EB EC. destruct (Vin g Mg) as (bi & C' & Evi & Sbi & EC' & MC), (Vout g Mg) as (bo & B' & Evo & Sbo & EB' & MB).
    rewrite EC in EC'; injection EC' as <-. rewrite EB in EB'; injection EB' as <-.
    pose proof (proj1 (blocks_iff _ _ Y Oin Oout) HY g bi bo Mg Evi Evo) as H. rewrite Sbi, Sbo in H.
    rewrite MB, MC.
    transitivity (mmul ni (mmul no (r_cob rout) (mmul no (bdiag bo) Y)) (r_inv rin)).
    - rewrite <- (mul_assoc no no ni ni), <- (mul_assoc no no no ni).
      rewrite (mul_assoc no no no no _ (r_inv rout) (r_cob rout)), Io2, mid_r.
      rewrite (mul_assoc no no no ni). reflexivity.
    - rewrite H. rewrite (mul_assoc no ni ni ni (mmul no (r_cob rout) Y) (r_inv rin)).
      rewrite <- (mul_assoc ni ni ni ni (r_inv rin)), <- (mul_assoc ni ni ni ni (r_inv rin) (r_cob rin)), Ii2, mid_l.
      rewrite <- (mul_assoc no ni ni ni). rewrite <- (mul_assoc no no ni ni). reflexivity. }
  assert (forall X, V X -> forall k i k' o, nth_error (r_irreps rin) k = Some i -> nth_error (r_irreps rout) k' = Some o ->
      hom i o (sub (mmul ni (mmul no (r_inv rout) X) (r_cob rin)) (offs (r_irreps rout) k') (offs (r_irreps rin) k))) as Down.
  { intros X HX. apply (proj2 (blocks_iff _ _ _ Oin Oout)). intros g bi bo Mg Evi Evo.
    destruct (Vin g Mg) as (bi' & C & Evi' & Sbi & EC & MC), (Vout g Mg) as (bo' & B & Evo' & Sbo & EB & MB).
    rewrite Evi in Evi'; injection Evi' as <-. rewrite Evo in Evo'; injection Evo' as <-.
    pose proof (HX g B C Mg EB EC) as H. rewrite Sbi, Sbo.
    transitivity (mmul ni (mmul no (r_inv rout) (mmul no B X)) (r_cob rin)).
    - rewrite MB. rewrite (mul_assoc no no no no (r_cob rout)), (mul_assoc no no no ni (r_cob rout)).
      rewrite <- (mul_assoc no no no ni (r_inv rout)), Io2, mid_l.
      rewrite (mul_assoc no no no ni), <- (mul_assoc no no ni ni). reflexivity.
    - rewrite H, MC. rewrite <- (mul_assoc no no ni ni), <- (mul_assoc no ni ni ni _ (mmul ni (r_cob rin) (bdiag bi))).
      rewrite (mul_assoc no ni ni ni _ (r_inv rin)), Ii2, mid_r.
      rewrite <- (mul_assoc no ni ni ni). reflexivity. }
  assert (forall X, meq no ni X (mmul ni (mmul no (r_cob rout) (mmul ni (mmul no (r_inv rout) X) (r_cob rin))) (r_inv rin))) as Back.
  { intros X. rewrite <- (mul_assoc no no ni ni), <- (mul_assoc no no no ni), Io1, mid_l.
    rewrite (mul_assoc no ni ni ni), Ii1, mid_r. reflexivity. }
  assert (basis_of V no ni (total l) S) as Ba.
  { split; [|split].
    - intros t Lt. apply Up. intros k i k' o Nk Nk'. apply (Ti t k i k' o Lt Nk Nk').
    - intros X HX. destruct (Ts _ (Down X HX)) as (w & Hw). exists w. rewrite (Back X). intros a b La Lb.
      unfold S. rewrite <- (combination_mul no ni (r_cob rout) (r_inv rin) (total l) w (el l)).
      apply (mmul_ext no ni ni); [|reflexivity|exact La|exact Lb]. apply (mmul_ext no no ni); [reflexivity|].
      intros a' b' La' Lb'. apply (Hw a' b' La' Lb').
    - intros w Hw. apply Tr. intros a b La Lb.
      assert (meq no ni (combination (total l) w (el l)) mzero) as Z; [|apply Z; assumption].
      set (Y := combination (total l) w (el l)) in *.
      assert (meq no ni (mmul ni (mmul no (r_cob rout) Y) (r_inv rin)) mzero) as H.
      { intros a' b' La' Lb'. unfold Y. rewrite combination_mul. apply Hw; assumption. }
      transitivity (mmul ni (mmul no (r_inv rout) (mmul ni (mmul no (r_cob rout) Y) (r_inv rin))) (r_cob rin)).
      + rewrite <- (mul_assoc no no ni ni), <- (mul_assoc no no no ni), Io2, mid_l.
        rewrite (mul_assoc no ni ni ni), Ii2, mid_r. reflexivity.
      + rewrite H. intros a' b' _ _. unfold mmul, mzero. apply sumn_0; intros. rewrite sumn_0; [ring|intros; ring]. }
  unfold mk_skb. rewrite El; cbn [bind].
  change (list_sum (map (fun q => b_dim (sp_b q)) l)) with (total l).
  destruct (Nat.eqb_spec (total l) 0) as [Z|NZ].
  { eexists; split; [reflexivity|]. cbv zeta. intros X HX. destruct Ba as (_ & Sp & _). destruct (Sp X HX) as (w & Hw).
    rewrite Hw, Z. intros a b _ _. reflexivity. }
  eexists; split; [reflexivity|]. cbv zeta. intros x. cbn [sk_dim].
  match goal with |- context [sk_sample irr F ?K x _] => set (k := K) end.
  assert (sk_js k = [triv]) as Ej.
  { unfold k; cbn [sk_js]. unfold order_js. rewrite Fjs. cbn [map fst filter].
    assert (id_mem triv (flat_map (fun q => b_js (sp_b q)) l) = true) as ->.
    { apply id_mem_true. destruct l as [|q l']; [cbn in NZ; lia|]. inversion Tf as [|? ? (U & _) _]; subst.
      cbn [flat_map]. rewrite U. left; reflexivity. }
    assert (id_mem triv [triv] = true) as -> by (apply id_mem_true; left; reflexivity).
    cbn [remove_first]. rewrite id_eqb_refl. reflexivity. }
  assert (forall q, In q l -> pair_dimh triv q = qdim q) as Ed.
  { intros q Iq. rewrite Forall_forall in Tf. destruct (Tf q Iq) as (U1 & U2 & _). unfold pair_dimh, qdim. rewrite U1, U2.
    unfold id_mem; cbn [existsb]. rewrite id_eqb_refl. reflexivity. }
  assert (sk_dimh k triv = total l) as Edk.
  { unfold sk_dimh, total; cbn [k sk_pairs]. f_equal. apply map_ext_in; exact Ed. }
  exists (fun t => sk_cob k (el l t)). split.
  - intros t Lt. unfold sk_sample. rewrite Ej. cbn [locate]. rewrite Edk, (proj2 (Nat.ltb_lt _ _) Lt).
    cbn [k sk_pairs]. rewrite (locate_ext _ qdim l t Ed).
    destruct (locate_some qdim l t Lt) as (q & i & Eq & Iq & Lq). rewrite Eq.
    destruct Htriv as (r & Er).
    assert (exists Y, harmonics irr F x triv = Ret Y /\ Y = fun _ _ => 1) as (Y & EY & ->).
    { unfold harmonics. rewrite Fjs. cbn [split_blocks]. rewrite Er; cbn [bind]. unfold lookup; cbn [last_of].
      rewrite id_eqb_refl. eexists; split; [reflexivity|].
      apply FunctionalExtensionality.functional_extensionality; intros a.
      apply FunctionalExtensionality.functional_extensionality; intros b. apply Fone. }
    rewrite EY; cbn [bind]. rewrite Forall_forall in Tf. destruct (Tf q Iq) as (_ & _ & _ & U). specialize (U i Lq).
    unfold el. rewrite Eq. unfold sample. destruct (b_harm (sp_b q) triv i (fun _ _ => 1)) as [|M]; [contradiction U; reflexivity|].
    reflexivity.
  - assert (forall t, meq no ni (sk_cob k (el l t)) (S t)) as ES.
    { intros t. apply (sk_cob_meq rin rout Shin Shout k (el l t)); reflexivity. }
    split; [|exists (el l); intros t Lt; split; [exact (Tu t Lt)|exact (ES t)]].
    destruct Ba as (B1 & B2 & B3). split; [|split].
    + intros t Lt g B C Mg EB EC. rewrite (ES t). apply (B1 t Lt g B C Mg EB EC).
    + intros X HX. destruct (B2 X HX) as (w & Hw). exists w. rewrite Hw. intros a b La Lb. apply combination_ext; intros t _.
      rewrite (ES t a b La Lb). reflexivity.
    + intros w Hw. apply B3. intros a b La Lb. rewrite <- (Hw a b La Lb). apply combination_ext; intros t _.
      rewrite (ES t a b La Lb). reflexivity.
Qed.
End Point.
