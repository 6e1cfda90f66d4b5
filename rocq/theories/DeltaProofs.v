(** Proofs about the delta-orthogonal initialization. *)
From Coq Require Import Reals List ZArith Arith Bool Lia Lra.
From Verif Require Import LibRes LibMat HeModel SpecHe HeProofs DeltaModel SpecDelta.
Import ListNotations.
Open Scope R_scope.

Lemma isclose0_eq : forall r, isclose0 r = true <-> r = 0.
Proof.
  intros r; unfold isclose0; rewrite Rminus_0_r, Rabs_R0.
  pose proof (Rabs_pos r) as P; rewrite (Rmax_left (Rabs r) 0) by lra; rewrite Rmax_left by lra.
  destruct (Rle_dec _ _) as [H|H]; split; intros E; try discriminate; try reflexivity.
  - destruct (Req_dec r 0) as [Z|Z]; [exact Z|]; apply Rabs_pos_lt in Z; lra.
  - subst r; rewrite Rabs_R0 in H; lra.
Qed.

Lemma central_iff : forall a k, central a && key_eqb (d_in a) k = true <-> at_centre k a.
Proof.
  intros a k; unfold central, at_centre; rewrite !andb_true_iff, !key_eqb_eq, isclose0_eq.
  destruct (d_radius a) as [r|]; split.
  - intros [[E ->] <-]; auto.
  - intros (<- & E & [X|X]); [discriminate|injection X as ->; auto].
  - intros [[E _] <-]; auto.
  - intros (<- & E & _); auto.
Qed.

Lemma uniq_In : forall A dec (l : list A) x, In x (uniq dec l) <-> In x l.
Proof. intros A dec l x; unfold uniq; rewrite <- in_rev, nodup_In, <- in_rev; reflexivity. Qed.
Lemma uniq_NoDup : forall A dec (l : list A), NoDup (uniq dec l).
Proof. intros A dec l; apply NoDup_rev, NoDup_nodup. Qed.

Lemma indexed_from : forall (l : list dattr) s p a,
  In (p, a) (combine (seq s (length l)) l) <-> (s <= p)%nat /\ nth_error l (p - s) = Some a.
Proof.
  induction l as [|b l IH]; intros s p a; cbn.
  - split; [intros []|]; intros [_ H]; destruct (p - s)%nat; discriminate.
  - rewrite IH; split.
    + intros [E|[H E]]; [injection E as -> ->; rewrite Nat.sub_diag; auto|].
      split; [lia|]; replace (p - s)%nat with (S (p - S s)) by lia; exact E.
    + intros [H E]; destruct (Nat.eq_dec s p) as [->|D]; [rewrite Nat.sub_diag in E; injection E as ->; auto|].
      right; split; [lia|]; replace (p - s)%nat with (S (p - S s)) in E by lia; exact E.
Qed.
Lemma indexed_In : forall info p a, In (p, a) (indexed info) <-> nth_error info p = Some a.
Proof. intros; unfold indexed; rewrite indexed_from, Nat.sub_0_r; split; [tauto|intros; split; [lia|assumption]]. Qed.
Lemma combine_fst : forall A B (l : list A) (m : list B), length l = length m -> map fst (combine l m) = l.
Proof.
  intros A B; induction l as [|a l IH]; intros [|b m] H; cbn in *; try congruence; f_equal; apply IH; lia.
Qed.
Lemma NoDup_fst_filter : forall A B (f : A * B -> bool) l, NoDup (map fst l) -> NoDup (map fst (filter f l)).
Proof.
  intros A B f l; induction l as [|x l IH]; intros N; cbn in *; [constructor|].
  inversion N as [|? ? H N']; subst; destruct (f x); cbn; [constructor|]; auto.
  intros I; apply H; apply in_map_iff in I as (y & E & I); apply filter_In in I as [I _].
  rewrite <- E; apply in_map; exact I.
Qed.
Lemma indexed_NoDup : forall info, NoDup (map fst (indexed info)).
Proof. intros; unfold indexed; rewrite combine_fst by apply seq_length; apply seq_NoDup. Qed.

Section Irrep.
  Variables (info : list dattr) (k : key).

  Lemma counted_In : forall p a, In (p, a) (counted info k) <-> nth_error info p = Some a /\ at_centre k a.
  Proof.
    intros p a; unfold counted; rewrite filter_In, indexed_In; cbn [snd]; rewrite central_iff; reflexivity.
  Qed.
  Lemma count_In : forall ip op p, In p (count info k ip op) <->
    exists a, nth_error info p = Some a /\ at_centre k a /\ d_ip a = ip /\ d_op a = op.
  Proof.
    intros ip op p; unfold count; rewrite in_map_iff; split.
    - intros ([q a] & E & I); cbn in E; subst q; apply filter_In in I as [I F]; cbn [snd] in F.
      apply counted_In in I as [I C]; apply andb_true_iff in F as [F1 F2]; apply key_eqb_eq in F1, F2; eauto.
    - intros (a & I & C & <- & <-); exists (p, a); split; [reflexivity|]; apply filter_In; split.
      + apply counted_In; auto.
      + cbn [snd]; apply andb_true_iff; rewrite !key_eqb_eq; auto.
  Qed.
  Lemma count_NoDup : forall ip op, NoDup (count info k ip op).
  Proof. intros; apply NoDup_fst_filter, NoDup_fst_filter, indexed_NoDup. Qed.
  Lemma pairs_In : forall ip op, In (ip, op) (pairs info k) <-> exists p, In p (count info k ip op).
  Proof.
    intros ip op; unfold pairs; rewrite uniq_In, in_map_iff; split.
    - intros ([p a] & E & I); cbn in E; injection E as <- <-; apply counted_In in I as [I C].
      exists p; apply count_In; eauto.
    - intros (p & I); apply count_In in I as (a & I & C & <- & <-); exists (p, a); split; [reflexivity|].
      apply counted_In; auto.
  Qed.
  Lemma ins_In : forall ip, In ip (ins info k) <-> exists op, In (ip, op) (pairs info k).
  Proof.
    intros ip; unfold ins; rewrite uniq_In, in_map_iff; split.
    - intros ([i o] & E & I); cbn in E; subst i; eauto.
    - intros (op & I); exists (ip, op); auto.
  Qed.
  Lemma outs_In : forall op, In op (outs info k) <-> exists ip, In (ip, op) (pairs info k).
  Proof.
    intros op; unfold outs; rewrite uniq_In, in_map_iff; split.
    - intros ([i o] & E & I); cbn in E; subst o; eauto.
    - intros (ip & I); exists (ip, op); auto.
  Qed.

  Lemma ins_lists : lists_inputs info k (ins info k).
  Proof.
    split; [apply uniq_NoDup|]; intros q; rewrite ins_In; split.
    - intros (op & I); apply pairs_In in I as (p & I); apply count_In in I as (a & I & C & E & _).
      exists a; split; [eapply nth_error_In; exact I|auto].
    - intros (a & I & C & <-); apply In_nth_error in I as (p & I); exists (d_op a); apply pairs_In.
      exists p; apply count_In; eauto.
  Qed.
  Lemma outs_lists : lists_outputs info k (outs info k).
  Proof.
    split; [apply uniq_NoDup|]; intros q; rewrite outs_In; split.
    - intros (ip & I); apply pairs_In in I as (p & I); apply count_In in I as (a & I & C & _ & E).
      exists a; split; [eapply nth_error_In; exact I|auto].
    - intros (a & I & C & <-); apply In_nth_error in I as (p & I); exists (d_ip a); apply pairs_In.
      exists p; apply count_In; eauto.
  Qed.

  Lemma same_first : forall l x, same_content l = true -> In x l -> x = first l.
  Proof.
    intros [|y l] x H I; [destruct I|]; unfold same_content in H; rewrite forallb_forall in H.
    specialize (H x I); apply Nat.eqb_eq in H; exact H.
  Qed.

  (** What the asserts establish: every pair occurs, with the same number of weights. *)
  Lemma grid : forall ortho noise ws, irrep_writes info k ortho noise = Ret ws ->
    forall ip op, In ip (ins info k) -> In op (outs info k) -> length (count info k ip op) = sz info k.
  Proof.
    intros ortho noise ws E ip op Hi Ho; unfold irrep_writes in E; rewrite !assert_Ret in E.
    destruct E as (S & Si & _ & Ei & _ & _); apply Nat.eqb_eq in Ei.
    assert (L : in_c info k ip = length (outs info k)).
    { rewrite <- Ei; apply same_first; [exact Si|apply in_map; exact Hi]. }
    assert (I : In (ip, op) (pairs info k)).
    { unfold in_c in L; set (F := filter _ _) in L.
      assert (X : forall p, In p F <-> In p (pairs info k) /\ fst p = ip).
      { intros p; unfold F; rewrite filter_In, key_eqb_eq; reflexivity. }
      assert (N : NoDup (map snd F)).
      { assert (NF : NoDup F) by (apply NoDup_filter, uniq_NoDup).
        clearbody F; clear - NF X; induction NF as [|[a b] F H NF IH]; cbn; [constructor|].
        constructor.
        - intros I; apply in_map_iff in I as ([c d] & Ed & I); cbn in Ed; subst d.
          assert (a = ip) by (apply (X (a, b)); left; reflexivity).
          assert (c = ip) by (apply (X (c, b)); right; exact I); subst; contradiction.
        - (* the property of F is only used for members *)
          assert (Y : forall p, In p F -> fst p = ip) by (intros p Hp; apply X; right; exact Hp).
          clear - NF Y; induction NF as [|[a b] F H NF IH]; cbn; [constructor|].
          constructor; [|apply IH; intros p Hp; apply Y; right; exact Hp].
          intros I; apply in_map_iff in I as ([c d] & Ed & I); cbn in Ed; subst d.
          assert (a = ip) by (apply (Y (a, b)); left; reflexivity).
          assert (c = ip) by (apply (Y (c, b)); right; exact I); subst; contradiction. }
      assert (C : incl (map snd F) (outs info k)).
      { intros o I; apply in_map_iff in I as ([a b] & Eb & I); cbn in Eb; subst b; apply X in I as [I _].
        apply outs_In; eauto. }
      assert (G : incl (outs info k) (map snd F)).
      { apply NoDup_length_incl; [exact N|rewrite map_length; lia|exact C]. }
      specialize (G op Ho); apply in_map_iff in G as ([a b] & Eb & I); cbn in Eb; subst b.
      apply X in I as [I E]; cbn in E; subst a; exact I. }
    apply same_first; [exact S|].
    apply (in_map (fun p => length (count info k (fst p) (snd p)))) in I; exact I.
  Qed.
End Irrep.
