(** Proofs about SamplerModel: one block, both orders for one pair. *)
From Coq Require Import String Ascii.
From Coq Require Import List ZArith Arith Bool Reals Lia Lra Permutation Sorted.
From Verif Require Import LibRes LibPy LibMat FieldModel SpecField FieldProofs BranchProofs LabelThms MergeThms GroupedModel GroupedProofs PoolProofs BlocksModel SpecBlocks BlocksProofs BlocksThms BlocksInfo BlocksPlan BlocksFwd BlocksValue BlocksCor SamplerModel SpecSampler.
Import ListNotations.
Local Open Scope nat_scope.

(** *** one block *)
Section Single.
Context {X P : Type}.
Definition passes (bf : option (attr X -> bool)) (e : element X P) : bool := match bf with Some f => f (el_attr e) | None => true end.
Definition times_dim (e : element X P) : nat -> nat -> P -> R := fun a c p => (el_sample e a c p * INR (el_dim e))%R.
Definition skept (bf : option (attr X -> bool)) (kb : kbasis X P) : list (attr X * (nat -> nat -> P -> R)) :=
  map (fun e => (el_attr e, times_dim e)) (filter (passes bf) (kb_elements kb)).
Definition the_sampler (bf : option (attr X -> bool)) (kb : kbasis X P) : single X P :=
  {| sg_out := kb_out kb; sg_in := kb_in kb; sg_basis := map el_attr (kb_elements kb); sg_mask := map (passes bf) (kb_elements kb); sg_sampled := map snd (skept bf kb) |}.
Lemma sampler_block_ok : forall bf kb, block_basissampler kb bf = Ret (match skept bf kb with [] => None | _ => Some (the_sampler bf kb) end).
Proof.
  intros bf kb. unfold block_basissampler.
  assert (match bf with Some f => map (fun e => f (el_attr e)) (kb_elements kb) | None => repeat true (List.length (kb_elements kb)) end = map (passes bf) (kb_elements kb)) as ->.
  { destruct bf as [f|]; [reflexivity|]. unfold passes. induction (kb_elements kb) as [|e l IH]; [reflexivity|]. cbn. rewrite IH. reflexivity. }
  unfold mk_sampler_single. rewrite map_length, Nat.eqb_refl. cbn [assert_ bind]. rewrite existsb_map, negb_involutive, keep_map. unfold the_sampler, skept. rewrite map_map. cbn [snd].
  destruct (filter (passes bf) (kb_elements kb)); reflexivity.
Qed.
Lemma sampler_search_ok : forall (p : element X P -> bool) (g : element X P -> nat -> nat -> P -> R) els idx id, idx <= id ->
  single_search idx id (map el_attr els) (map p els) =
  Ret (option_map (fun e => with_id id (fst e)) (nth_error (map (fun e => (el_attr e, g e)) (filter p els)) (id - idx))).
Proof.
  intros p g els; induction els as [|e els IH]; intros idx id H; cbn [map single_search filter].
  - destruct (id - idx); reflexivity.
  - destruct (p e); [|apply IH, H]. cbn [map]. destruct (Nat.eqb_spec idx id) as [->|N].
    + rewrite Nat.sub_diag. reflexivity.
    + rewrite IH by lia. replace (id - idx) with (Datatypes.S (id - (idx + 1))) by lia. reflexivity.
Qed.
Lemma sampler_all_ok : forall (p : element X P -> bool) (g : element X P -> nat -> nat -> P -> R) els idx,
  single_all idx (map el_attr els) (map p els) = Ret (imap (fun k e => with_id k (fst e)) idx (map (fun e => (el_attr e, g e)) (filter p els))).
Proof.
  intros p g els; induction els as [|e els IH]; intros idx; cbn [map single_all filter]; [reflexivity|].
  destruct (p e); [|apply IH]. rewrite IH. cbn [bind map imap fst]. rewrite Nat.add_1_r. reflexivity.
Qed.
Lemma sampler_holds : forall bf kb, holds (the_sampler bf kb) (skept bf kb).
Proof.
  intros bf kb. split; [|split; [|split]].
  - unfold dimension, the_sampler. cbn [sg_sampled]. apply map_length.
  - intros id. unfold single_info, the_sampler. cbn [sg_basis sg_mask]. rewrite (sampler_search_ok (passes bf) times_dim) by lia. rewrite Nat.sub_0_r. reflexivity.
  - unfold single_infos, the_sampler. cbn [sg_basis sg_mask]. rewrite (sampler_all_ok (passes bf) times_dim). reflexivity.
  - intros j. unfold the_sampler. cbn [sg_sampled]. destruct (nth_error (skept bf kb) j) as [[a s]|] eqn:E.
    + apply nth_error_nth. rewrite nth_error_map, E. reflexivity.
    + apply nth_overflow. rewrite map_length. apply nth_error_None, E.
Qed.
End Single.
Lemma dotless_ok : forall s, dotless s -> has_dot s = false.
Proof. induction s as [|c s IH]; [reflexivity|]. intros [H1 H2]. cbn [has_dot]. destruct (Ascii.eqb_spec c "."%char); [contradiction|]. exact (IH H2). Qed.
Lemma plain_ok : forall p, dotless (fst p) -> dotless (snd p) -> plain p = Ret p.
Proof. intros p H1 H2. unfold plain. rewrite !dotless_ok by assumption. reflexivity. Qed.

(** *** sums *)
Definition tsum {B} (f : B -> R) (l : list B) : R := fold_right (fun b s => f b + s)%R 0%R l.
Lemma tsum_ext : forall {B} (f g : B -> R) l, (forall b, In b l -> f b = g b) -> tsum f l = tsum g l.
Proof. intros B f g l; induction l as [|b l IH]; intros H; [reflexivity|]. cbn [tsum fold_right]. fold (tsum f l). fold (tsum g l). rewrite (H b (or_introl eq_refl)), IH; [reflexivity|]. intros c Hc. apply H. right. exact Hc. Qed.
Lemma tsum_sumn : forall {B} n (f : B -> nat -> R) l, tsum (fun b => sumn n (f b)) l = sumn n (fun c => tsum (fun b => f b c) l).
Proof.
  intros B n f l; induction l as [|b l IH]; cbn [tsum fold_right].
  - symmetry. apply sumn_0. reflexivity.
  - fold (tsum (fun b => sumn n (f b)) l). rewrite IH, <- sumn_plus. reflexivity.
Qed.
Lemma tsum_scal : forall {B} (f : B -> R) z l, tsum (fun b => f b * z)%R l = (tsum f l * z)%R.
Proof. intros B f z l; induction l as [|b l IH]; cbn [tsum fold_right]; [ring|]. fold (tsum (fun b => (f b * z)%R) l). fold (tsum f l). rewrite IH. ring. Qed.
Lemma tsum_one : forall (l : list (string * string)) q (v : R), NoDup l -> tsum (fun p => if q_eq_dec p q then v else 0%R) l = if in_dec q_eq_dec q l then v else 0%R.
Proof.
  intros l q v ND; induction ND as [|p l N ND IH]; [reflexivity|]. cbn [tsum fold_right]. fold (tsum (fun p => if q_eq_dec p q then v else 0%R) l). rewrite IH.
  destruct (q_eq_dec p q) as [->|Ne].
  - destruct (in_dec q_eq_dec q l); [contradiction|]. destruct (in_dec q_eq_dec q (q :: l)) as [_|K]; [ring|]. exfalso. apply K. left. reflexivity.
  - destruct (in_dec q_eq_dec q l) as [I|I]; destruct (in_dec q_eq_dec q (p :: l)) as [J|J]; try ring.
    + exfalso. apply J. right. exact I.
    + destruct J as [J|J]; contradiction.
Qed.
Lemma position_Some : forall l c t, position l c = Some t -> nth_error l t = Some c.
Proof.
  induction l as [|a l IH]; intros c t H; [discriminate|]. cbn [position] in H. destruct (Nat.eqb_spec a c) as [->|N].
  - injection H as <-. reflexivity.
  - destruct (position l c) as [t'|] eqn:E; [|discriminate]. injection H as <-. cbn. apply IH, E.
Qed.
(** a sum over the places of a list *)
Lemma sumn_position : forall n l (f : nat -> nat -> R), NoDup l -> (forall c, In c l -> c < n) ->
  sumn n (fun c => match position l c with Some t => f t c | None => 0%R end) = sumn (List.length l) (fun t => f t (nth t l 0)).
Proof.
  intros n l f ND Lt.
  transitivity (sumn n (fun c => sumn (List.length l) (fun t => if Nat.eqb (nth t l 0) c then f t c else 0%R))).
  - apply sumn_ext. intros c Hc. destruct (position l c) as [t|] eqn:E.
    + apply position_Some in E. assert (t < List.length l) as Ht by (apply nth_error_Some; congruence). symmetry. etransitivity; [apply (sumn_single _ t); [exact Ht|]|].
      * intros t' Ht' Ne. destruct (Nat.eqb_spec (nth t' l 0) c) as [E'|]; [|reflexivity]. exfalso. apply Ne. apply (proj1 (NoDup_nth_error l) ND); [assumption|].
        rewrite E. rewrite nth_error_nth' with (d := 0) by assumption. congruence.
      * cbn beta. rewrite (nth_error_nth _ _ 0 E), Nat.eqb_refl. reflexivity.
    + symmetry. apply sumn_0. intros t Ht. destruct (Nat.eqb_spec (nth t l 0) c) as [E'|]; [|reflexivity]. exfalso.
      rewrite (position_nth l t c ND) in E; [discriminate|]. rewrite nth_error_nth' with (d := 0) by assumption. congruence.
  - rewrite sumn_swap. apply sumn_ext. intros t Ht. etransitivity; [apply (sumn_single _ (nth t l 0))|].
    + apply Lt. apply nth_In, Ht.
    + intros c _ Ne. destruct (Nat.eqb_spec (nth t l 0) c); [congruence|reflexivity].
    + cbn beta. rewrite Nat.eqb_refl. reflexivity.
Qed.
