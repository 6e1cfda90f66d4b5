(** The weights set by the delta-orthogonal initialization. *)
From Coq Require Import Reals List ZArith Arith Bool Lia Lra.
From Verif Require Import LibRes LibMat HeModel SpecHe HeProofs DeltaModel SpecDelta DeltaProofs.
Import ListNotations.
Open Scope R_scope.

Lemma written_In : forall ws pp v, In (pp, v) ws -> (forall v', In (pp, v') ws -> v' = v) -> written ws pp = v.
Proof.
  intros ws pp v I U; unfold written; destruct (find _ (rev ws)) as [[q u]|] eqn:F.
  - apply find_some in F as [F E]; cbn in E; apply Nat.eqb_eq in E; subst q; apply U; apply in_rev; exact F.
  - exfalso; apply in_rev in I; apply (find_none _ _ F (pp, v)) in I; cbn in I.
    rewrite Nat.eqb_refl in I; discriminate.
Qed.
Lemma written_out : forall ws pp, (forall v, ~ In (pp, v) ws) -> written ws pp = 0.
Proof.
  intros ws pp U; unfold written; destruct (find _ (rev ws)) as [[q u]|] eqn:F; [|reflexivity].
  apply find_some in F as [F E]; cbn in E; apply Nat.eqb_eq in E; subst q; destruct (U u); apply in_rev; exact F.
Qed.

Section Writes.
  Variables (info : list dattr) (ortho : key -> nat -> mat) (noise : key -> mat).
  Let val k o i p := wvec info k (noise k) o p * Wmat info k (ortho k) o i.

  Lemma writes_In : forall k ws pp v, irrep_writes info k (ortho k) (noise k) = Ret ws ->
    (In (pp, v) ws <-> exists i o p, (i < length (ins info k))%nat /\ (o < length (outs info k))%nat /\
       let c := count info k (nth i (ins info k) []) (nth o (outs info k) []) in
       (p < length c)%nat /\ pp = nth p c 0%nat /\ v = val k o i p).
  Proof.
    intros k ws pp v E; unfold irrep_writes in E; rewrite !assert_Ret in E.
    destruct E as (_ & _ & _ & _ & _ & E); apply Ret_inj in E; subst ws; split.
    - intros H; apply in_flat_map in H as (i & Hi & H); apply in_flat_map in H as (o & Ho & H).
      apply in_map_iff in H as (p & H & Hp); apply in_seq in Hi, Ho, Hp; injection H as <- <-.
      exists i, o, p; cbn zeta; repeat split; lia.
    - intros (i & o & p & Hi & Ho & Hp & -> & ->).
      apply in_flat_map; exists i; split; [apply in_seq; lia|].
      apply in_flat_map; exists o; split; [apply in_seq; lia|].
      apply in_map_iff; exists p; split; [reflexivity|apply in_seq; lia].
  Qed.

  Lemma writes_attr : forall k ws pp v, irrep_writes info k (ortho k) (noise k) = Ret ws -> In (pp, v) ws ->
    exists a, nth_error info pp = Some a /\ at_centre k a.
  Proof.
    intros k ws pp v E I; apply (writes_In k ws pp v E) in I as (i & o & p & _ & _ & Hp & -> & _).
    apply (nth_In _ 0%nat) in Hp; apply count_In in Hp as (a & I & C & _); eauto.
  Qed.

  Lemma writes_det : forall k ws k' ws' pp v v', irrep_writes info k (ortho k) (noise k) = Ret ws ->
    irrep_writes info k' (ortho k') (noise k') = Ret ws' -> In (pp, v) ws -> In (pp, v') ws' -> k = k' /\ v = v'.
  Proof.
    intros k ws k' ws' pp v v' E E' I I'.
    assert (K : k = k').
    { destruct (writes_attr k ws pp v E I) as (a & A & C & _), (writes_attr k' ws' pp v' E' I') as (b & B & D & _); congruence. }
    subst k'; split; [reflexivity|].
    apply (writes_In k ws pp v E) in I as (i & o & p & Hi & Ho & Hp & Ep & ->).
    apply (writes_In k ws' pp v' E') in I' as (i' & o' & p' & Hi' & Ho' & Hp' & Ep' & ->).
    pose proof (nth_In _ 0%nat Hp) as X; pose proof (nth_In _ 0%nat Hp') as X'.
    rewrite <- Ep in X; rewrite <- Ep' in X'.
    apply count_In in X as (a & A & _ & A1 & A2), X' as (b & B & _ & B1 & B2).
    assert (a = b) by congruence; subst b.
    assert (i = i') by (apply (proj1 (NoDup_nth (ins info k) []) (uniq_NoDup _ _ _)); congruence || assumption).
    assert (o = o') by (apply (proj1 (NoDup_nth (outs info k) []) (uniq_NoDup _ _ _)); congruence || assumption).
    subst i' o'.
    assert (p = p') by (eapply (proj1 (NoDup_nth (count info k (nth i (ins info k) []) (nth o (outs info k) [])) 0%nat)
      (count_NoDup _ _ _ _)); [assumption|assumption|congruence]).
    subst p'; reflexivity.
  Qed.
End Writes.

Section Delta.
  Variables (dim : nat) (info : list dattr) (tensor t : list R) (ortho : key -> nat -> mat) (noise : key -> mat).
  Hypothesis HT : delta_init dim info tensor ortho noise = Ret t.

  Lemma delta_inv : exists wss,
    mapM (fun k => irrep_writes info k (ortho k) (noise k)) (uniq key_dec (map (fun a => d_in a) (filter central info))) = Ret wss /\
    (forall w, In w (concat wss) -> (fst w < dim)%nat) /\ t = map (written (concat wss)) (seq 0 dim).
  Proof.
    unfold delta_init in HT; apply assert_Ret in HT as [_ H]; apply bind_Ret in H as (wss & Ew & H).
    apply assert_Ret in H as [F H]; apply Ret_inj in H; exists wss; split; [exact Ew|split; [|auto]].
    intros w Hw; rewrite forallb_forall in F; specialize (F w Hw); apply Nat.ltb_lt; exact F.
  Qed.

  Lemma all_writes : forall wss pp v,
    mapM (fun k => irrep_writes info k (ortho k) (noise k)) (uniq key_dec (map (fun a => d_in a) (filter central info))) = Ret wss ->
    In (pp, v) (concat wss) -> exists k ws, irrep_writes info k (ortho k) (noise k) = Ret ws /\ In (pp, v) ws.
  Proof.
    intros wss pp v E I; apply mapM_Ret_inv in E; apply in_concat in I as (ws & Iw & I).
    induction E as [|k w l l' Ek _ IH]; [destruct Iw|]; destruct Iw as [->|Iw]; eauto.
  Qed.

  (** Away from the centre and between different irreps the weights vanish. *)
  Theorem delta_zero : forall pp a, nth_error info pp = Some a -> (forall k, ~ at_centre k a) -> nth pp t 0 = 0.
  Proof.
    intros pp a A C; destruct delta_inv as (wss & Ew & _ & ->).
    destruct (Nat.lt_ge_cases pp dim) as [L|L].
    2:{ apply nth_overflow; rewrite map_length, seq_length; exact L. }
    rewrite (nth_indep _ 0 (written (concat wss) 0)) by (rewrite map_length, seq_length; exact L).
    rewrite map_nth, seq_nth by exact L; cbn; apply written_out; intros v I.
    destruct (all_writes wss pp v Ew I) as (k & ws & E & I').
    destruct (writes_attr info ortho noise k ws pp v E I') as (b & B & D).
    apply (C k); congruence.
  Qed.

  Variable k : key.
  Hypothesis HK : exists a, In a info /\ at_centre k a.

  Lemma k_writes : exists ws, irrep_writes info k (ortho k) (noise k) = Ret ws /\
    forall pp v, In (pp, v) ws -> nth pp t 0 = v.
  Proof.
    destruct delta_inv as (wss & Ew & B & ->).
    assert (X : In k (uniq key_dec (map (fun a => d_in a) (filter central info)))).
    { destruct HK as (a & I & C); pose proof C as (E & _); apply uniq_In, in_map_iff; exists a; split; [exact E|].
      apply filter_In; split; [exact I|]; apply central_iff in C; apply andb_true_iff in C; tauto. }
    pose proof (mapM_Ret_inv _ _ _ _ _ Ew) as F.
    assert (Y : exists ws, irrep_writes info k (ortho k) (noise k) = Ret ws /\ In ws wss).
    { clear - F X; induction F as [|q w l l' E _ IH]; [destruct X|]; destruct X as [->|X].
      - exists w; split; [exact E|left; reflexivity].
      - destruct (IH X) as (ws & E' & I); exists ws; split; [exact E'|right; exact I]. }
    destruct Y as (ws & E & Iw); exists ws; split; [exact E|]; intros pp v I.
    assert (IC : In (pp, v) (concat wss)) by (apply in_concat; eauto).
    pose proof (B _ IC) as L; cbn in L.
    rewrite (nth_indep _ 0 (written (concat wss) 0)) by (rewrite map_length, seq_length; exact L).
    rewrite map_nth, seq_nth by exact L; cbn; apply written_In; [exact IC|].
    intros v' I'; destruct (all_writes wss pp v' Ew I') as (k' & ws' & E' & I'').
    destruct (writes_det info ortho noise k ws k' ws' pp v v' E E' I I''); congruence.
  Qed.

  Hypothesis Ho : orthogonal_draw (ortho k).
  Hypothesis Hn : proper_noise (sz info k) (noise k).

  Lemma wvec_unit : forall o, sumn (sz info k) (fun p => wvec info k (noise k) o p * wvec info k (noise k) o p) = 1.
  Proof.
    intros o; specialize (Hn o); unfold wvec.
    set (S := sumn _ (fun q => 5 * noise k o q * (5 * noise k o q))).
    assert (P : 0 < S).
    { unfold S; rewrite (sumn_ext _ _ (fun q => 25 * (noise k o q * noise k o q))) by (intros; ring).
      rewrite sumn_scal_l; lra. }
    pose proof (sqrt_lt_R0 S P) as Q; pose proof (sqrt_sqrt S (Rlt_le _ _ P)) as SS.
    rewrite (sumn_ext _ _ (fun q => / S * (5 * noise k o q * (5 * noise k o q)))).
    - rewrite sumn_scal_l; fold S; apply Rinv_l; lra.
    - intros q _; unfold Rdiv; set (r := sqrt S) in *; assert (Z : / S = / r * / r) by (rewrite <- SS; field; lra).
      rewrite Z; ring.
  Qed.

  Lemma sumr_seq : forall n s f, sumr f (seq s n) = sumn n (fun i => f (s + i)%nat).
  Proof.
    induction n as [|n IH]; intros s f; [reflexivity|].
    rewrite sumn_S_first; cbn [seq sumr fold_right]; fold (sumr f (seq (S s) n)); rewrite IH, Nat.add_0_r.
    f_equal; apply sumn_ext; intros i _; f_equal; lia.
  Qed.
  Lemma list_nths : forall A (l : list A) d, l = map (fun i => nth i l d) (seq 0 (length l)).
  Proof.
    intros A l d; induction l as [|x l IH]; [reflexivity|]; cbn; f_equal.
    rewrite <- seq_shift, map_map; exact IH.
  Qed.
  Lemma sumr_nth : forall A (l : list A) d f, sumr f l = sumn (length l) (fun i => f (nth i l d)).
  Proof. intros A l d f; rewrite (list_nths A l d) at 1; rewrite sumr_map, sumr_seq; reflexivity. Qed.

  (** The weights between two positions have the norm of an entry of the matrix. *)
  Lemma block : forall i o, (i < length (ins info k))%nat -> (o < length (outs info k))%nat ->
    sumr (fun pp => (nth pp t 0)^2) (count info k (nth i (ins info k) []) (nth o (outs info k) []))
      = Wmat info k (ortho k) o i * Wmat info k (ortho k) o i.
  Proof.
    intros i o Hi Hou; destruct k_writes as (ws & E & V).
    pose proof (grid info k _ _ ws E _ _ (nth_In _ [] Hi) (nth_In _ [] Hou)) as L.
    change (list Z) with key in L.
    rewrite (sumr_nth _ _ 0%nat), L.
    rewrite (sumn_ext _ _ (fun p => (Wmat info k (ortho k) o i * Wmat info k (ortho k) o i) *
      (wvec info k (noise k) o p * wvec info k (noise k) o p))).
    - rewrite sumn_scal_l, wvec_unit; ring.
    - intros p Hp.
      erewrite V; [|apply (writes_In info ortho noise k ws _ _ E); exists i, o, p; cbn zeta; rewrite L;
        repeat split; eassumption || reflexivity]; ring.
  Qed.

  Lemma sumr_groups : forall A (h : A -> key) f (K : list key) (L : list A), NoDup K -> (forall x, In x L -> In (h x) K) ->
    sumr f L = sumr (fun q => sumr f (filter (fun x => key_eqb (h x) q) L)) K.
  Proof.
    intros A h f K L N; induction L as [|a L IH]; intros I.
    - cbn; rewrite sumr_const; lra.
    - cbn [sumr fold_right]; fold (sumr f L); rewrite IH by (intros x Hx; apply I; right; exact Hx).
      rewrite (sumr_ext _ (fun q => sumr f (filter (fun x => key_eqb (h x) q) (a :: L)))
        (fun q => (if key_dec (h a) q then f a else 0) + sumr f (filter (fun x => key_eqb (h x) q) L))).
      + rewrite sumr_plus, (sumr_single K (h a) (f a) N) by (apply I; left; reflexivity); reflexivity.
      + intros q _; cbn [filter]; unfold key_eqb at 1; destruct (key_dec (h a) q); [reflexivity|rewrite Rplus_0_l; reflexivity].
  Qed.
  Lemma filter_filter : forall A (p q : A -> bool) l, filter p (filter q l) = filter (fun x => q x && p x) l.
  Proof.
    intros A p q l; induction l as [|x l IH]; [reflexivity|]; cbn.
    destruct (q x); cbn; [destruct (p x)|]; rewrite ?IH; reflexivity.
  Qed.
  Lemma filter_same : forall A (p q : A -> bool) l, (forall x, p x = q x) -> filter p l = filter q l.
  Proof. intros A p q l H; induction l as [|x l IH]; [reflexivity|]; cbn; rewrite H, IH; reflexivity. Qed.

  (** Rows: the weights into one output position have norm one. *)
  Theorem delta_rows : forall op, (length (outs info k) <= length (ins info k))%nat -> In op (outs info k) ->
    sums_to (fun x => at_centre k (snd x) /\ d_op (snd x) = op) (fun x => (nth (fst x) t 0)^2) (indexed info) 1.
  Proof.
    intros op Le Hop; apply (In_nth _ _ []) in Hop as (o & Lo & <-); set (op := nth o (outs info k) []).
    assert (E : sumr (fun x => nth (fst x) t 0 ^ 2) (filter (fun x => key_eqb (d_op (snd x)) op) (counted info k)) = 1).
    { rewrite (sumr_groups _ (fun x => d_ip (snd x)) _ (ins info k)).
      2: apply uniq_NoDup.
      2:{ intros [p a] I; apply filter_In in I as [I F]; apply counted_In in I as [I C]; apply key_eqb_eq in F; cbn in *.
          apply ins_In; exists op; apply pairs_In; exists p; apply count_In; exists a; auto. }
      rewrite (sumr_nth key _ []). change (list Z) with key.
      rewrite (sumn_ext _ _ (fun i => Wmat info k (ortho k) o i * Wmat info k (ortho k) o i)).
      - unfold Wmat; destruct (Nat.ltb 1 _) eqn:N1.
        + rewrite Nat.max_l by exact Le.
          change (list Z) with key in *; destruct (Ho (length (ins info k)) o o) as [R _]; [lia|lia|]; rewrite Nat.eqb_refl in R; exact R.
        + change (list Z) with key in *; apply Nat.ltb_ge in N1; rewrite Nat.max_l in N1 by exact Le.
          replace (length (ins info k)) with 1%nat by lia; cbn; lra.
      - intros i Hi; rewrite <- (block i o Hi Lo); fold op; unfold count.
        rewrite sumr_map, filter_filter; f_equal; apply filter_same; intros x; apply andb_comm. }
    rewrite <- E; unfold counted; rewrite filter_filter; apply sums_filter; intros x.
    rewrite andb_true_iff, central_iff, key_eqb_eq; reflexivity.
  Qed.
  (** Columns: the weights out of one input position have norm one. *)
  Theorem delta_columns : forall ip, (length (ins info k) <= length (outs info k))%nat -> In ip (ins info k) ->
    sums_to (fun x => at_centre k (snd x) /\ d_ip (snd x) = ip) (fun x => (nth (fst x) t 0)^2) (indexed info) 1.
  Proof.
    intros ip Le Hip; apply (In_nth _ _ []) in Hip as (i & Li & <-); set (ip := nth i (ins info k) []).
    assert (E : sumr (fun x => nth (fst x) t 0 ^ 2) (filter (fun x => key_eqb (d_ip (snd x)) ip) (counted info k)) = 1).
    { rewrite (sumr_groups _ (fun x => d_op (snd x)) _ (outs info k)).
      2: apply uniq_NoDup.
      2:{ intros [p a] I; apply filter_In in I as [I F]; apply counted_In in I as [I C]; apply key_eqb_eq in F; cbn in *.
          apply outs_In; exists ip; apply pairs_In; exists p; apply count_In; exists a; auto. }
      rewrite (sumr_nth key _ []). change (list Z) with key.
      rewrite (sumn_ext _ _ (fun o => Wmat info k (ortho k) o i * Wmat info k (ortho k) o i)).
      - unfold Wmat; destruct (Nat.ltb 1 _) eqn:N1.
        + rewrite Nat.max_r by exact Le.
          change (list Z) with key in *; destruct (Ho (length (outs info k)) i i) as [_ R]; [lia|lia|]; rewrite Nat.eqb_refl in R; exact R.
        + change (list Z) with key in *; apply Nat.ltb_ge in N1; rewrite Nat.max_r in N1 by exact Le.
          replace (length (outs info k)) with 1%nat by lia; cbn; lra.
      - intros o Hoo; rewrite <- (block i o Li Hoo); fold ip; unfold count.
        rewrite sumr_map, filter_filter; f_equal. }
    rewrite <- E; unfold counted; rewrite filter_filter; apply sums_filter; intros x.
    rewrite andb_true_iff, central_iff, key_eqb_eq; reflexivity.
  Qed.
End Delta.

Lemma same_length : forall A (l m : list A), NoDup l -> NoDup m -> (forall x, In x l <-> In x m) -> length l = length m.
Proof. intros A l m N M H; apply Permutation.Permutation_length, Permutation.NoDup_Permutation; assumption. Qed.

Lemma sz_pos : forall info k a ortho noise ws, In a info -> at_centre k a ->
  irrep_writes info k ortho noise = Ret ws -> (0 < sz info k)%nat.
Proof.
  intros info k a ortho noise ws I C E; apply In_nth_error in I as (p & I).
  assert (P : In p (count info k (d_ip a) (d_op a))) by (apply count_In; eauto).
  assert (Q : In (d_ip a, d_op a) (pairs info k)) by (apply pairs_In; eauto).
  rewrite <- (grid info k ortho noise ws E (d_ip a) (d_op a)); [|apply ins_In; eauto|apply outs_In; eauto].
  destruct (count info k (d_ip a) (d_op a)); [destruct P|cbn; lia].
Qed.

Lemma rows_spec : forall dim info tensor ortho noise t k I O op, delta_init dim info tensor ortho noise = Ret t ->
  orthogonal_draw (ortho k) -> (forall s, (0 < s)%nat -> proper_noise s (noise k)) ->
  lists_inputs info k I -> lists_outputs info k O -> (length O <= length I)%nat -> In op O ->
  sums_to (fun x => at_centre k (snd x) /\ d_op (snd x) = op) (fun x => (nth (fst x) t 0)^2) (indexed info) 1.
Proof.
  intros dim info tensor ortho noise t k I O op HT Ho Hn [NI HI] [NO HO] Le Hop.
  destruct (ins_lists info k) as [NI' HI'], (outs_lists info k) as [NO' HO'].
  rewrite (same_length _ I (ins info k)), (same_length _ O (outs info k)) in Le
    by (assumption || (intros x; rewrite HI, HI'; reflexivity) || (intros x; rewrite HO, HO'; reflexivity)).
  pose proof Hop as X; apply HO in X as (a & Ia & C & _).
  assert (HK : exists a, In a info /\ at_centre k a) by eauto.
  destruct (k_writes dim info tensor t ortho noise HT k HK) as (ws & E & _).
  apply (delta_rows dim info tensor t ortho noise HT k HK Ho); [apply Hn; eapply sz_pos; eauto|exact Le|].
  apply HO', HO; exact Hop.
Qed.

Lemma columns_spec : forall dim info tensor ortho noise t k I O ip, delta_init dim info tensor ortho noise = Ret t ->
  orthogonal_draw (ortho k) -> (forall s, (0 < s)%nat -> proper_noise s (noise k)) ->
  lists_inputs info k I -> lists_outputs info k O -> (length I <= length O)%nat -> In ip I ->
  sums_to (fun x => at_centre k (snd x) /\ d_ip (snd x) = ip) (fun x => (nth (fst x) t 0)^2) (indexed info) 1.
Proof.
  intros dim info tensor ortho noise t k I O ip HT Ho Hn [NI HI] [NO HO] Le Hip.
  destruct (ins_lists info k) as [NI' HI'], (outs_lists info k) as [NO' HO'].
  rewrite (same_length _ I (ins info k)), (same_length _ O (outs info k)) in Le
    by (assumption || (intros x; rewrite HI, HI'; reflexivity) || (intros x; rewrite HO, HO'; reflexivity)).
  pose proof Hip as X; apply HI in X as (a & Ia & C & _).
  assert (HK : exists a, In a info /\ at_centre k a) by eauto.
  destruct (k_writes dim info tensor t ortho noise HT k HK) as (ws & E & _).
  apply (delta_columns dim info tensor t ortho noise HT k HK Ho); [apply Hn; eapply sz_pos; eauto|exact Le|].
  apply HI', HI; exact Hip.
Qed.
