(** Structure of the modules in the Fourier domain. *)
From Coq Require Import Reals String List ZArith Arith Bool Lia Lra Permutation.
From Verif Require Import LibRes LibPy LibMat LibMatS ParamModel FieldModel GroupedModel NonlinModel PoolModel SpecRep IrrepModel RepModel RepProofs SpecRepr
  FieldProofs GroupedProofs NonlinProofs BatchThms SpecField SpecNonlin FourierModel SpecFourier FourierProofs.
Import ListNotations.
Open Scope R_scope.

(** ** fields of one size *)
Lemma uniform_fields : forall {A V} (size : A -> nat) r c (x : list V), length x = (c * size r)%nat ->
  chunks c (size r) x = map (field_chans size (repeat r c) x) (seq 0 c).
Proof.
  intros A V size r c x L.
  assert (Lt : type_size size (repeat r c) = (c * size r)%nat).
  { unfold type_size. clear. induction c as [|c IH]; [reflexivity|]. cbn [repeat map]. cbn [list_sum fold_right]. unfold list_sum in IH; rewrite IH. lia. }
  rewrite (chans_by_field size (repeat r c) x) at 1 by (rewrite Lt; exact L). rewrite repeat_length.
  replace c with (length (map (field_chans size (repeat r c) x) (seq 0 c))) at 1 by (rewrite map_length, seq_length; reflexivity).
  apply chunks_concat. apply Forall_map, Forall_forall. intros i Hi. apply in_seq in Hi.
  apply (field_chans_length size (repeat r c) x i r); [rewrite Lt; exact L|].
  rewrite nth_error_repeat; [reflexivity|lia].
Qed.

Lemma uniform_size : forall {A} (size : A -> nat) r c, type_size size (repeat r c) = (c * size r)%nat.
Proof.
  intros A size r c; unfold type_size. induction c as [|c IH]; [reflexivity|]. cbn [repeat map]. cbn [list_sum fold_right]. unfold list_sum in IH; rewrite IH. lia.
Qed.

Lemma field_of_concat : forall {A V} (size : A -> nat) r c (bs : list (list V)), length bs = c -> Forall (fun b => length b = size r) bs ->
  forall i, (i < c)%nat -> field_chans size (repeat r c) (concat bs) i = nth i bs [].
Proof.
  intros A V size r c bs Lb F i Hi.
  assert (L : length (concat bs) = (c * size r)%nat) by (rewrite (concat_uniform _ _ F), Lb; reflexivity).
  pose proof (uniform_fields size r c (concat bs) L) as E. rewrite <- Lb in E at 1. rewrite chunks_concat in E by exact F.
  rewrite E at 2.
  rewrite (nth_indep _ [] (field_chans size (repeat r c) (concat bs) 0)) by (rewrite map_length, seq_length; exact Hi).
  rewrite (map_nth (field_chans size (repeat r c) (concat bs))), seq_nth by exact Hi. reflexivity.
Qed.

(** ** direct sums of irreps *)
Section Sums.
Context {T : Type}.
Variables (mem : T -> Prop) (op : T -> T -> res T) (inv : T -> res T) (e : T).
Variable irrG : list Z -> res (girrep T).
Definition rval (r : girrep T) (g : T) : mat := match gi_rep r g with Ret A => snd A | Raise => mzero end.
Definition tsize (fl : list (girrep T)) : nat := list_sum (map gi_size fl).
Definition V (fl : list (girrep T)) (g : T) : mat := bdiag (map (fun r => (gi_size r, rval r g)) fl).
Definition orth (r : girrep T) : Prop := orth_rep mem op inv e (gi_size r) (gi_rep r).

Lemma V_size : forall fl g, bsize (map (fun r => (gi_size r, rval r g)) fl) = tsize fl.
Proof. intros fl g. rewrite bsize_map, map_map. reflexivity. Qed.

Lemma rval_eq : forall r g, orth r -> mem g -> gi_rep r g = Ret (gi_size r, rval r g) /\ orthogonal (gi_size r) (rval r g).
Proof.
  intros r g O Hg. destruct (or_total _ _ _ _ _ _ O g Hg) as (A & EA & HA). unfold rval. rewrite EA. cbn [snd]. auto.
Qed.

Lemma V_orth : forall fl g, Forall orth fl -> mem g -> orthogonal (tsize fl) (V fl g).
Proof.
  intros fl g F Hg. apply orthogonal_inverse.
  apply (inverse_of_ext _ (V fl g) _ (bdiag (map (fun r => (gi_size r, mtr (rval r g))) fl))).
  - apply meq_refl.
  - intros i j _ _. unfold V. rewrite bdiag_mtr, map_map. reflexivity.
  - apply (bdiag_inverse fl gi_size (fun r => rval r g) (fun r => mtr (rval r g))).
    intros r Hr. rewrite Forall_forall in F. apply orthogonal_inverse, rval_eq; [apply F; exact Hr|exact Hg].
Qed.

Lemma V_mul : forall fl h g hg, Forall orth fl -> mem h -> mem g -> op h g = Ret hg ->
  meq (tsize fl) (tsize fl) (V fl hg) (mmul (tsize fl) (V fl h) (V fl g)).
Proof.
  intros fl h g hg F Hh Hg E.
  pose proof (bdiag_mul2 fl gi_size (fun r => rval r h) (fun r => rval r g)) as B. cbv beta zeta in B.
  rewrite (V_size fl h) in B. apply meq_sym. apply (meq_trans _ _ _ _ _ B). clear B. unfold V.
  destruct (bdiag_ext (map (fun r => (gi_size r, mmul (gi_size r) (rval r h) (rval r g))) fl) (map (fun r => (gi_size r, rval r hg)) fl)) as [B Bs].
  - induction F as [|r fl O F IH]; [constructor|]. cbn [map]. constructor; [|exact IH]. cbn [fst snd]. split; [reflexivity|].
    destruct (or_mul _ _ _ _ _ _ O h g Hh Hg) as (hg' & A & B & C & E' & EA & EB & EC & M).
    rewrite E in E'. apply Ret_inj in E'. subst hg'. unfold rval. rewrite EA, EB, EC. cbn [snd]. apply meq_sym; exact M.
  - rewrite Bs, V_size in B. exact B.
Qed.

Lemma mv_mul : forall n A B C x, meq n n C (mmul n A B) -> mv n C x = mv n A (mv n B x).
Proof.
  intros n A B C x M. apply list_ext; [rewrite !mv_length; reflexivity|]. rewrite mv_length. intros i Hi. rewrite !mv_nth by exact Hi.
  transitivity (sumn n (fun j => sumn n (fun k => A i k * B k j * nth j x 0))).
  - apply sumn_ext; intros j Hj. rewrite (M i j Hi Hj). unfold mmul. rewrite sumn_scal_r. reflexivity.
  - rewrite sumn_swap. apply sumn_ext; intros k Hk. rewrite mv_nth by exact Hk. rewrite <- sumn_scal_l. apply sumn_ext; intros; ring.
Qed.

Definition row (fl : list (girrep T)) (k : list R) (g : T) : list R := mv (tsize fl) (V fl g) k.
Lemma row_moves : forall fl k h g hg, Forall orth fl -> mem h -> mem g -> op h g = Ret hg ->
  row fl k hg = mv (tsize fl) (V fl h) (row fl k g).
Proof. intros. apply mv_mul. apply (V_mul fl h g hg); assumption. Qed.
Lemma row_length : forall fl k g, length (row fl k g) = tsize fl.
Proof. intros. apply mv_length. Qed.

(** The matrix of a part. *)
Lemma V_part : forall fl fl' g f z, (f < tsize fl)%nat ->
  sumn (tsize (fl ++ fl')) (fun i => V (fl ++ fl') g f i * z i) = sumn (tsize fl) (fun i => V fl g f i * z i).
Proof.
  intros fl fl' g f z Hf. unfold tsize at 1. rewrite map_app, list_sum_app. fold (tsize fl). fold (tsize fl'). rewrite sumn_app.
  assert (E : forall i, V (fl ++ fl') g f i = if Nat.ltb i (tsize fl) then V fl g f i else 0).
  { intros i. unfold V. rewrite map_app, bdiag_app, V_size. rewrite (proj2 (Nat.ltb_lt _ _) Hf). reflexivity. }
  rewrite (sumn_0 (tsize fl')).
  - rewrite Rplus_0_r. apply sumn_ext; intros i Hi. rewrite E, (proj2 (Nat.ltb_lt _ _) Hi). reflexivity.
  - intros i _. rewrite E. destruct (Nat.ltb_spec (tsize fl + i) (tsize fl)); [lia|ring].
Qed.
End Sums.
