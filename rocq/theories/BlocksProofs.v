(** Proofs about BlocksModel: one block, dictionaries, the loops over pairs. *)
From Coq Require Import String.
From Coq Require Import List ZArith Arith Bool Reals Lia Lra Permutation.
From Verif Require Import LibRes LibPy LibMat FieldModel SpecField FieldProofs BranchProofs GroupedModel GroupedProofs BlocksModel SpecBlocks.
Import ListNotations.
Local Open Scope nat_scope.

Section Single.
Context {X : Type}.
Variable S : nat.

Lemma squares_nonneg : forall o i s, (0 <= squares S o i s)%R.
Proof.
  intros. unfold squares. apply sumn_nonneg; intros. apply sumn_nonneg; intros. apply sumn_nonneg; intros. apply Rle_0_sqr.
Qed.
Lemma normalize_scale : forall o i dim s, normalize S o i dim s = fun a b p => (s a b p / unit_scale S o i dim s)%R.
Proof.
  intros. unfold normalize, unit_scale. change (energy S o i s) with (squares S o i s).
  set (n := (squares S o i s / INR dim)%R).
  assert (0 <= n)%R as P.
  { unfold n, Rdiv. apply Rmult_le_pos; [apply squares_nonneg|]. destruct dim as [|d].
    - cbn [INR]. rewrite Rinv_0. lra.
    - left. apply Rinv_0_lt_compat. apply lt_0_INR. lia. }
  cbv zeta. set (t := (1 / 10 ^ 6)%R). assert (0 < t)%R as Pt by (unfold t; lra).
  assert (1 / 10 ^ 12 = t * t)%R as Et by (unfold t; lra).
  destruct (Rlt_dec n (1 / 10 ^ 15)) as [H|H].
  - rewrite sqrt_0. destruct (Rlt_dec 0 t) as [_|K]; [|contradiction].
    destruct (Rlt_dec n (1 / 10 ^ 12)) as [_|K]; [reflexivity|]. exfalso. apply K. eapply Rlt_trans; [exact H|]. lra.
  - destruct (Rlt_dec n (1 / 10 ^ 12)) as [K|K]; destruct (Rlt_dec (sqrt n) t) as [L|L]; try reflexivity; exfalso.
    + apply L. rewrite <- (sqrt_square t) by lra. apply sqrt_lt_1; [exact P|apply Rle_0_sqr|]. rewrite <- Et. exact K.
    + apply K. rewrite Et. rewrite <- (sqrt_sqrt n P). apply Rmult_le_0_lt_compat; try apply sqrt_pos; exact L.
Qed.

Definition filter_bits (bf : option (attr X -> bool)) (els : list (element X nat)) : list bool :=
  match bf with Some f => map (fun e => f (el_attr e)) els | None => repeat true (List.length els) end.
Lemma combine_mask : forall bf (kb : kbasis X nat) els,
  map (fun mn => fst mn && snd mn) (combine (filter_bits bf els)
    (map (fun s => if Rlt_dec (1 / 100) (squares S (kb_out kb) (kb_in kb) s) then true else false)
       (map (fun e => normalize S (kb_out kb) (kb_in kb) (el_dim e) (el_sample e)) els))) = map (accepted S bf kb) els.
Proof.
  intros bf kb els; induction els as [|e els IH]; [destruct bf; reflexivity|]. unfold filter_bits in *.
  destruct bf as [f|]; cbn [map repeat List.length combine fst snd] in *; rewrite IH; unfold accepted, unit_sample; rewrite normalize_scale;
    reflexivity.
Qed.
Lemma keep_map : forall {B C} (p : B -> bool) (g : B -> C) l, keep (map p l) (map g l) = map g (filter p l).
Proof.
  intros B C p g l; induction l as [|b l IH]; [reflexivity|]. unfold keep in *. cbn [map combine filter fst].
  destruct (p b); cbn [map snd]; rewrite IH; reflexivity.
Qed.
Lemma existsb_map : forall {B} (p : B -> bool) l, existsb (fun m => m) (map p l) = negb (match filter p l with [] => true | _ => false end).
Proof. intros B p l; induction l as [|b l IH]; [reflexivity|]. cbn [map existsb filter]. destruct (p b); cbn; [reflexivity|exact IH]. Qed.
Lemma none_kept : forall bf kb els, existsb (fun m => m) (filter_bits bf els) = false -> filter (accepted S bf kb) els = [].
Proof.
  intros bf kb els H. induction els as [|e els IH]; [reflexivity|]. unfold filter_bits in *. destruct bf as [f|].
  - cbn [map existsb] in H. apply orb_false_iff in H. destruct H as [H1 H2]. cbn [filter]. unfold accepted at 1. rewrite H1. cbn [andb]. auto.
  - discriminate H.
Qed.
(** the single block of a kernel basis *)
Definition the_single (bf : option (attr X -> bool)) (kb : kbasis X nat) : single X nat :=
  {| sg_out := kb_out kb; sg_in := kb_in kb; sg_basis := map el_attr (kb_elements kb); sg_mask := map (accepted S bf kb) (kb_elements kb);
     sg_sampled := map snd (kept S bf kb) |}.
Theorem block_ok : forall kb bf, block_basisexpansion S kb bf = Ret (match kept S bf kb with [] => None | _ => Some (the_single bf kb) end).
Proof.
  intros kb bf. unfold block_basisexpansion. change (mk_single S kb (filter_bits bf (kb_elements kb)) = Ret (match kept S bf kb with [] => None | _ => Some (the_single bf kb) end)).
  unfold mk_single. destruct (existsb (fun m => m) (filter_bits bf (kb_elements kb))) eqn:E; cbn [negb].
  2:{ unfold kept. rewrite (none_kept bf kb _ E). reflexivity. }
  cbv zeta. rewrite combine_mask. rewrite !map_length.
  assert (List.length (filter_bits bf (kb_elements kb)) = List.length (kb_elements kb)) as -> by (destruct bf; cbn; rewrite ?map_length, ?repeat_length; reflexivity).
  rewrite Nat.eqb_refl. cbn [assert_ bind]. rewrite existsb_map, keep_map, negb_involutive. unfold kept.
  assert (map (fun e => normalize S (kb_out kb) (kb_in kb) (el_dim e) (el_sample e)) (filter (accepted S bf kb) (kb_elements kb)) = map snd (kept S bf kb)) as ->.
  { unfold kept. rewrite map_map. apply map_ext. intros e. cbn [snd]. rewrite normalize_scale. reflexivity. }
  destruct (filter (accepted S bf kb) (kb_elements kb)) eqn:F; reflexivity.
Qed.
Lemma search_ok : forall (p : element X nat -> bool) (g : element X nat -> nat -> nat -> nat -> R) els idx id, idx <= id ->
  single_search idx id (map el_attr els) (map p els) =
  Ret (option_map (fun e => with_id id (fst e)) (nth_error (map (fun e => (el_attr e, g e)) (filter p els)) (id - idx))).
Proof.
  intros p g els; induction els as [|e els IH]; intros idx id H; cbn [map single_search filter].
  - destruct (id - idx); reflexivity.
  - destruct (p e); [|apply IH, H]. cbn [map]. destruct (Nat.eqb_spec idx id) as [->|N].
    + rewrite Nat.sub_diag. reflexivity.
    + rewrite IH by lia. replace (id - idx) with (Datatypes.S (id - (idx + 1))) by lia. reflexivity.
Qed.
Lemma all_ok : forall (p : element X nat -> bool) (g : element X nat -> nat -> nat -> nat -> R) els idx,
  single_all idx (map el_attr els) (map p els) = Ret (imap (fun k e => with_id k (fst e)) idx (map (fun e => (el_attr e, g e)) (filter p els))).
Proof.
  intros p g els; induction els as [|e els IH]; intros idx; cbn [map single_all filter]; [reflexivity|].
  destruct (p e); [|apply IH]. rewrite IH. cbn [bind map imap fst]. rewrite Nat.add_1_r. reflexivity.
Qed.
Lemma single_info_ok : forall bf kb id, single_info (the_single bf kb) id = Ret (option_map (fun e => with_id id (fst e)) (nth_error (kept S bf kb) id)).
Proof.
  intros. unfold single_info, the_single. cbn [sg_basis sg_mask]. rewrite (search_ok (accepted S bf kb) (unit_sample S kb)) by lia. rewrite Nat.sub_0_r. reflexivity.
Qed.
Lemma single_infos_ok : forall bf kb, single_infos (the_single bf kb) = Ret (imap (fun k e => with_id k (fst e)) 0 (kept S bf kb)).
Proof. intros. unfold single_infos, the_single. cbn [sg_basis sg_mask]. rewrite (all_ok (accepted S bf kb) (unit_sample S kb)). reflexivity. Qed.
Lemma dimension_ok : forall bf kb, dimension (the_single bf kb) = List.length (kept S bf kb).
Proof. intros. unfold dimension, the_single. cbn [sg_sampled]. apply map_length. Qed.
(** the elements of a block, with their attributes *)
Definition holds {P} (s : single X P) (l : list (attr X * (nat -> nat -> P -> R))) : Prop :=
  dimension s = List.length l /\ (forall id, single_info s id = Ret (option_map (fun e => with_id id (fst e)) (nth_error l id))) /\
  single_infos s = Ret (imap (fun k e => with_id k (fst e)) 0 l) /\
  forall j, nth j (sg_sampled s) (fun _ _ _ => 0%R) = match nth_error l j with Some (_, s) => s | None => fun _ _ _ => 0%R end.
Lemma sampled_nth : forall bf kb j, nth j (sg_sampled (the_single bf kb)) (fun _ _ _ => 0%R) =
  match nth_error (kept S bf kb) j with Some (_, s) => s | None => fun _ _ _ => 0%R end.
Proof.
  intros. unfold the_single. cbn [sg_sampled]. destruct (nth_error (kept S bf kb) j) as [[a s]|] eqn:E.
  - apply nth_error_nth. rewrite nth_error_map, E. reflexivity.
  - apply nth_overflow. rewrite map_length. apply nth_error_None, E.
Qed.
Lemma single_holds : forall bf kb, holds (the_single bf kb) (kept S bf kb).
Proof. intros. split; [apply dimension_ok|]. split; [apply single_info_ok|]. split; [apply single_infos_ok|apply sampled_nth]. Qed.
End Single.

(** *** dictionaries *)
Section Dict.
Context {K V : Type}.
Variable eqb : K -> K -> bool.
Hypothesis eqb_ok : forall a b, eqb a b = true <-> a = b.
Lemma dset_fresh : forall (d : list (K * V)) k v, ~ In k (map fst d) -> dset eqb d k v = d ++ [(k, v)].
Proof.
  intros d k v; induction d as [|[a b] d IH]; intros H; [reflexivity|]. cbn [dset]. destruct (eqb a k) eqn:E.
  - apply eqb_ok in E. subst a. exfalso. apply H. left. reflexivity.
  - rewrite IH; [reflexivity|]. intros H'. apply H. right. exact H'.
Qed.
Lemma dget_fresh : forall (d : list (K * V)) k, ~ In k (map fst d) -> dget eqb d k = None.
Proof.
  intros d k; induction d as [|[a b] d IH]; intros H; [reflexivity|]. cbn [dget]. destruct (eqb a k) eqn:E.
  - apply eqb_ok in E. subst a. exfalso. apply H. left. reflexivity.
  - apply IH. intros H'. apply H. right. exact H'.
Qed.
Lemma dget_found : forall (d : list (K * V)) k v, NoDup (map fst d) -> In (k, v) d -> dget eqb d k = Some v.
Proof.
  intros d k v; induction d as [|[a b] d IH]; intros ND H; [destruct H|]. cbn [map fst] in ND. inversion ND as [|? ? N1 N2]; subst. cbn [dget].
  destruct H as [H|H].
  - injection H as -> ->. rewrite (proj2 (eqb_ok k k) eq_refl). reflexivity.
  - destruct (eqb a k) eqn:E; [|auto]. apply eqb_ok in E; subst a. exfalso. apply N1. apply in_map_iff. exists (k, v). auto.
Qed.
End Dict.

Lemma pair_eqb_ok : forall a b, pair_eqb a b = true <-> a = b.
Proof.
  intros [a1 a2] [b1 b2]. unfold pair_eqb. cbn [fst snd]. rewrite andb_true_iff, !String.eqb_eq. split; [intros [-> ->]; reflexivity|intros H; injection H; auto].
Qed.
Lemma string_eqb_ok : forall a b, String.eqb a b = true <-> a = b.
Proof. exact String.eqb_eq. Qed.
