From Coq Require Import List ZArith Arith Bool Lia Permutation Sorted.
From Verif Require Import LibRes LibPy FieldModel SpecField FieldProofs FieldThms BranchProofs.
Import ListNotations.

Section LT.
Context {A V L : Type}.
Variable size : A -> nat.
Variables leqb lleb : L -> L -> bool.
Hypothesis leqb_ok : forall a b, leqb a b = true <-> a = b.
Notation good := (good size).

Definition buf_of (idx : list (L * list nat)) (lc : L * bool) : res (L * channels) :=
  i <- lookup leqb idx (fst lc) ;;
  if (snd lc : bool) then a <- list_min i ;; b <- list_max i ;; Ret (fst lc, Run a (b + 1)) else Ret (fst lc, Listed i).
Lemma buf_key : forall idx lc kb, buf_of idx lc = Ret kb -> fst kb = fst lc.
Proof.
  intros idx [a b] kb E. unfold buf_of in E. cbn [fst snd] in E. apply bind_Ret in E. destruct E as (i & _ & E). destruct b.
  - apply bind_Ret in E. destruct E as (u & _ & E). apply bind_Ret in E. destruct E as (v & _ & E). apply Ret_inj in E; subst kb. reflexivity.
  - apply Ret_inj in E; subst kb. reflexivity.
Qed.
Lemma chan_list_nonempty : forall (ft : list A) sel, Forall (fun i => i < length ft) sel -> sel <> [] -> Forall (fun r => 0 < size r) ft -> chan_list size ft sel <> [].
Proof.
  intros ft [|i sel] F Ne P; [congruence|]. apply Forall_inv in F. destruct (nth_error ft i) as [r|] eqn:E; [|apply nth_error_None in E; lia].
  unfold chan_list. cbn [flat_map]. rewrite (offset_S size _ _ _ E). intros K. apply app_eq_nil in K. destruct K as [K _].
  apply (f_equal (@length _)) in K. rewrite seq_length in K. cbn in K. rewrite Forall_forall in P. specialize (P r (nth_error_In _ _ E)). lia.
Qed.
Lemma list_min_some : forall l, l <> [] -> exists a b, list_min l = Ret a /\ list_max l = Ret b.
Proof. intros [|x l] H; [congruence|]. cbn. eauto. Qed.

Lemma retrieve_core : forall (ft : list A) labels, length labels = length ft -> Forall (fun r => 0 < size r) ft ->
  exists out buf, group_by_labels leqb ft labels = Ret out /\
    mapM (buf_of (indices_by_label size leqb [] 0 labels ft)) (contiguous_labels leqb [] None labels) = Ret buf /\
    forall b (x : gtensor A V) l, br_out b = out -> br_contiguous b = contiguous_labels leqb [] None labels -> br_indices b = buf ->
      good x -> g_type x = ft -> In l labels ->
      exists y, retrieve size leqb b x l = Ret y /\ good y /\ picks size ft (g_chans x) (labelled leqb labels l) (g_type y) (g_chans y).
Proof.
  intros ft labels Len P. destruct (group_ok leqb leqb_ok ft labels Len) as (out & Eo & Ho). exists out.
  assert (forall l, In l labels -> Forall (fun i => i < length ft) (labelled leqb labels l)) as Lt by (intros; rewrite <- Len; apply labelled_lt).
  assert (forall a b, In (a, b) (contiguous_labels leqb [] None labels) -> In a labels) as Kc.
  { intros a b H. apply (dget_In leqb leqb_ok) in H. destruct (contiguous_inv leqb leqb_ok labels [] None []) as (last' & _ & Inv).
    { split; [reflexivity|]. intros l'. cbn. auto. }
    specialize (Inv a). destruct (dget leqb (contiguous_labels leqb [] None labels) a); [tauto|congruence]. }
  assert (exists buf, mapM (buf_of (indices_by_label size leqb [] 0 labels ft)) (contiguous_labels leqb [] None labels) = Ret buf) as (buf & Eb).
  { induction (contiguous_labels leqb [] None labels) as [|[a b] c IH]; [exists []; reflexivity|].
    cbn [mapM]. destruct IH as (buf & Eb); [intros a' b' H; apply (Kc a' b'); right; exact H|].
    assert (In a labels) as Ha by (apply (Kc a b); left; reflexivity).
    unfold buf_of at 1. cbn [fst snd]. rewrite (indices_lookup size leqb leqb_ok labels ft a Len Ha); cbn [bind].
    destruct b.
    - destruct (list_min_some (chan_list size ft (labelled leqb labels a))) as (u & v & -> & ->).
      { apply chan_list_nonempty; [apply Lt, Ha|apply labelled_nonempty; assumption|exact P]. }
      cbn [bind]. rewrite Eb. eexists; reflexivity.
    - cbn [bind]. rewrite Eb. eexists; reflexivity. }
  exists buf. split; [exact Eo|split; [exact Eb|]]. intros b x l Eout Econt Eidx G Ty Hl.
  destruct (contiguous_ok leqb leqb_ok labels l Hl) as (c & Ec & Hc).
  destruct (dget_mapM leqb leqb_ok _ _ _ Eb (buf_key _) l c Ec) as (ix & Ei & Eix).
  unfold buf_of in Ei. cbn [fst snd] in Ei. rewrite (indices_lookup size leqb leqb_ok labels ft l Len Hl) in Ei; cbn [bind] in Ei.
  assert (map (nth_error ft) (labelled leqb labels l) = map Some (chosen ft (labelled leqb labels l))) as Eft by (apply chosen_ok, Lt, Hl).
  exists {| g_type := chosen ft (labelled leqb labels l); g_chans := flat_map (field_chans size ft (g_chans x)) (labelled leqb labels l) |}.
  assert (length (g_chans x) = type_size size ft) as Gx by (rewrite <- Ty; exact G).
  assert (good {| g_type := chosen ft (labelled leqb labels l); g_chans := flat_map (field_chans size ft (g_chans x)) (labelled leqb labels l) |}) as Gy
    by (unfold FieldProofs.good; cbn [g_type g_chans]; apply (picked_length size _ _ _ _ Gx Eft)).
  split; [|split; [exact Gy|split; [exact Eft|reflexivity]]].
  unfold retrieve. rewrite Eidx, Econt, Eout. unfold lookup at 1 2. rewrite Eix, Ec; cbn [bind]. rewrite (Ho l Hl).
  assert (mapM (get_nth (g_chans x)) (chan_list size ft (labelled leqb labels l)) = Ret (flat_map (field_chans size ft (g_chans x)) (labelled leqb labels l))) as Lc
    by (apply (listed_chans size _ _ _ _ Gx Eft)).
  assert (match c, ix with
          | true, Run a e => py_slice (g_chans x) (Some (Z.of_nat a)) (Some (Z.of_nat e)) None
          | _, Listed i => mapM (get_nth (g_chans x)) i
          | false, Run a e => mapM (get_nth (g_chans x)) [a; e] end
     = Ret (flat_map (field_chans size ft (g_chans x)) (labelled leqb labels l))) as ->.
  { destruct c.
    - destruct (Hc eq_refl) as (a & k & Er). 
      assert (a + k <= length ft) as Bd.
      { pose proof (Lt l Hl) as F. rewrite Er in F. destruct k as [|k]; [exfalso; apply (labelled_nonempty leqb leqb_ok labels l Hl); exact Er|].
        rewrite Forall_forall in F. assert (a + k < length ft) by (apply F, in_seq; lia). lia. }
      assert (chan_list size ft (labelled leqb labels l) <> []) as Ne
        by (apply chan_list_nonempty; [apply Lt, Hl|apply labelled_nonempty; assumption|exact P]).
      rewrite Er, chan_list_run in Ei, Ne by exact Bd.
      assert (0 < offset size ft (a + k) - offset size ft a) as Pos.
      { destruct (offset size ft (a + k) - offset size ft a); [exfalso; apply Ne; reflexivity|lia]. }
      destruct (min_max_seq (offset size ft a) _ Pos) as [Em EM]. rewrite Em, EM in Ei; cbn [bind] in Ei. injection Ei as <-.
      rewrite Er. pose proof (offset_le size ft (a + k)). rewrite py_slice_chans by lia.
      rewrite <- (chans_range size ft (g_chans x) k a Bd). do 2 f_equal. lia.
    - injection Ei as <-. exact Lc. }
  cbn [bind]. unfold mk_gtensor. unfold FieldProofs.good in Gy. cbn [g_type g_chans] in Gy. rewrite Gy, Nat.eqb_refl. reflexivity.
Qed.

(** *** sorting the fields by their labels *)
Hypothesis lleb_refl : forall a, lleb a a = true.
Hypothesis lleb_total : forall a b, lleb a b = true \/ lleb b a = true.
Hypothesis lleb_trans : forall a b c, lleb a b = true -> lleb b c = true -> lleb a c = true.
Hypothesis lleb_antisym : forall a b, lleb a b = true -> lleb b a = true -> a = b.

Lemma leqb_refl : forall a, leqb a a = true.
Proof. intros a. apply leqb_ok. reflexivity. Qed.
Lemma leqb_neq : forall a b, leqb a b = false -> a <> b.
Proof. intros a b E ->. rewrite leqb_refl in E. discriminate. Qed.
Lemma key2_total : forall a b, key_leb leqb lleb 2 a b = true \/ key_leb leqb lleb 2 b a = true.
Proof.
  intros [[a s] i] [[b t] j]. cbn [key_leb fst snd]. destruct (leqb a b) eqn:E.
  - apply leqb_ok in E; subst b. rewrite leqb_refl. rewrite !Nat.leb_le. lia.
  - destruct (leqb b a) eqn:E'; [apply leqb_ok in E'; subst b; rewrite leqb_refl in E; discriminate|]. apply lleb_total.
Qed.
Lemma key2_trans : forall a b c, key_leb leqb lleb 2 a b = true -> key_leb leqb lleb 2 b c = true -> key_leb leqb lleb 2 a c = true.
Proof.
  intros [[a s] i] [[b t] j] [[c u] k]. cbn [key_leb fst snd]. intros H1 H2.
  destruct (leqb a b) eqn:E1; [apply leqb_ok in E1; subst b|]; (destruct (leqb a c) eqn:E3; [apply leqb_ok in E3; subst c|]).
  - rewrite Nat.leb_le in *. lia.
  - exact H2.
  - exfalso. destruct (leqb b a) eqn:E2; [apply leqb_ok in E2; subst b; rewrite leqb_refl in E1; discriminate|].
    exact (leqb_neq _ _ E1 (lleb_antisym _ _ H1 H2)).
  - destruct (leqb b c) eqn:E2; [apply leqb_ok in E2; subst c; exact H1|]. eapply lleb_trans; eassumption.
Qed.

Definition has (labels : list L) (l : L) (i : nat) : bool := match nth_error labels i with Some l' => leqb l' l | None => false end.
Definition size_at (ft : list A) (i : nat) : nat := match nth_error ft i with Some r => size r | None => 0 end.
Definition keys_of (ft : list A) (labels : list L) := combine (combine labels (map size ft)) (seq 0 (length ft)).
Lemma keys_snd : forall ft labels, length labels = length ft -> map snd (keys_of ft labels) = seq 0 (length ft).
Proof.
  intros ft labels Len. unfold keys_of. generalize (seq_length (length ft) 0). generalize (seq 0 (length ft)) as s.
  assert (length (combine labels (map size ft)) = length ft) as Lc by (rewrite combine_length, map_length; lia).
  revert Lc. generalize (combine labels (map size ft)) as c. generalize (length ft) as n. clear.
  intros n c; revert n; induction c as [|a c IH]; intros [|n] Lc [|b s] Ls; try discriminate; [reflexivity|]. cbn [combine map snd].
  f_equal. apply (IH n); cbn in *; lia.
Qed.
Lemma keys_entry : forall ft labels k, length labels = length ft -> In k (keys_of ft labels) ->
  nth_error labels (snd k) = Some (fst (fst k)) /\ size_at ft (snd k) = snd (fst k).
Proof.
  intros ft labels k Len. unfold keys_of.
  assert (forall p (ft : list A) (labels : list L) k, length labels = length ft -> In k (combine (combine labels (map size ft)) (seq p (length ft))) ->
     p <= snd k /\ nth_error labels (snd k - p) = Some (fst (fst k)) /\ size_at ft (snd k - p) = snd (fst k)) as H.
  { clear. intros p ft; revert p; induction ft as [|r ft IH]; intros p [|a labels] k Len H; try discriminate; [destruct H|].
    cbn [length seq map combine] in *. destruct H as [<-|H]; cbn [fst snd].
    - rewrite Nat.sub_diag. cbn. auto.
    - destruct (IH (S p) labels k ltac:(lia) H) as (H1 & H2 & H3). split; [lia|].
      replace (snd k - p) with (S (snd k - S p)) by lia. split; assumption. }
  intros Hk. destruct (H 0 ft labels k Len Hk) as (_ & H1 & H2). rewrite Nat.sub_0_r in *. auto.
Qed.
Lemma filter_map_snd : forall (P : nat -> bool) (Q : L * nat * nat -> bool) S, (forall k, In k S -> P (snd k) = Q k) ->
  filter P (map snd S) = map snd (filter Q S).
Proof.
  intros P Q S; induction S as [|k S IH]; intros H; [reflexivity|]. cbn [map filter]. rewrite (H k) by (left; reflexivity).
  rewrite IH by (intros; apply H; right; assumption). destruct (Q k); reflexivity.
Qed.
Lemma sorted_labelled : forall r ft labels l, length labels = length ft -> r = 1 \/ r = 2 ->
  let sel := filter (has labels l) (map snd (sort_by (key_leb leqb lleb r) (keys_of ft labels))) in
  Permutation sel (labelled leqb labels l) /\ (r = 1 -> sel = labelled leqb labels l) /\
  (r = 2 -> StronglySorted (fun i j => size_at ft i <= size_at ft j) sel).
Proof.
  intros r ft labels l Len Hr sel.
  assert (labelled leqb labels l = filter (has labels l) (map snd (keys_of ft labels))) as El
    by (unfold labelled; rewrite keys_snd by exact Len; rewrite Len; reflexivity).
  assert (forall k, In k (keys_of ft labels) -> has labels l (snd k) = leqb (fst (fst k)) l) as Hk
    by (intros k K; unfold has; rewrite (proj1 (keys_entry ft labels k Len K)); reflexivity).
  assert (forall k, In k (sort_by (key_leb leqb lleb r) (keys_of ft labels)) -> In k (keys_of ft labels)) as Hs
    by (intros k K; exact (Permutation_in _ (sort_perm _ _) K)).
  assert (sel = map snd (filter (fun k => leqb (fst (fst k)) l) (sort_by (key_leb leqb lleb r) (keys_of ft labels)))) as E
    by (apply filter_map_snd; auto).
  split; [|split].
  - rewrite El. apply filter_perm, Permutation_map, sort_perm.
  - intros ->. rewrite E, El. rewrite sort_stable.
    + symmetry. apply filter_map_snd, Hk.
    + intros x y Hx Hy. apply leqb_ok in Hx, Hy. cbn [key_leb]. rewrite Hx, Hy. apply lleb_refl.
  - intros ->. rewrite E. clear E sel.
    pose proof (sort_sorted (key_leb leqb lleb 2) key2_total key2_trans (keys_of ft labels)) as So.
    apply (filter_sorted _ (fun k => leqb (fst (fst k)) l)) in So. 
    assert (forall k, In k (filter (fun k => leqb (fst (fst k)) l) (sort_by (key_leb leqb lleb 2) (keys_of ft labels))) ->
      fst (fst k) = l /\ size_at ft (snd k) = snd (fst k)) as Hf.
    { intros k K. apply filter_In in K. destruct K as [K1 K2]. apply leqb_ok in K2. split; [exact K2|].
      apply (keys_entry ft labels k Len), Hs, K1. }
    induction So as [|k s So IH F]; [constructor|]. cbn [map]. constructor; [apply IH; intros; apply Hf; right; assumption|].
    apply Forall_forall. intros i Hi. apply in_map_iff in Hi. destruct Hi as (k' & <- & Hi).
    rewrite Forall_forall in F. specialize (F k' Hi). destruct (Hf k (or_introl eq_refl)) as [E1 S1].
    destruct (Hf k' (or_intror Hi)) as [E2 S2]. cbn [key_leb] in F. rewrite E1, E2, leqb_refl in F. apply Nat.leb_le in F. lia.
Qed.
Lemma labelled_moved : forall labels perm labels' l, map (nth_error labels) perm = map Some labels' ->
  map (nth_error perm) (labelled leqb labels' l) = map Some (filter (has labels l) perm).
Proof.
  intros labels perm labels' l E. rewrite labelled_pos.
  assert (forall perm labels' pre, map (nth_error labels) perm = map Some labels' ->
    map (nth_error (pre ++ perm)) (pos leqb (length pre) labels' l) = map Some (filter (has labels l) perm)) as H.
  { clear. induction perm as [|i perm IH]; intros [|a labels'] pre E; try discriminate; [reflexivity|].
    cbn [map] in E. injection E as E1 E2. cbn [pos filter]. unfold has at 1. rewrite E1.
    specialize (IH labels' (pre ++ [i]) E2). rewrite app_length in IH. cbn [length] in IH. rewrite Nat.add_1_r, <- app_assoc in IH. cbn [app] in IH.
    rewrite map_app, IH. destruct (leqb a l); [|reflexivity]. cbn [map app]. rewrite nth_error_app2, Nat.sub_diag by lia. reflexivity. }
  apply (H perm labels' [] E).
Qed.

(** *** BranchingModule *)
Lemma branch_picks_at : forall (teqb : list A -> list A -> bool) r ft labels, (forall t, teqb t t = true) -> r < 3 ->
  ft <> [] -> length labels = length ft -> Forall (fun a => 0 < size a) ft ->
  exists b (sel : L -> list nat), mk_branching size leqb lleb ft labels r = Ret b /\
  forall (x : gtensor A V) l, good x -> g_type x = ft -> In l labels ->
  exists y, branch size leqb teqb b x l = Ret y /\ good y /\ picks size ft (g_chans x) (sel l) (g_type y) (g_chans y) /\
    Permutation (sel l) (labelled leqb labels l) /\ (r <= 1 -> sel l = labelled leqb labels l) /\
    (r = 2 -> StronglySorted (fun i j => size_at ft i <= size_at ft j) (sel l)).
Proof.
  intros teqb r ft labels Te Hr Ne Len P. unfold mk_branching.
  rewrite (proj2 (Nat.ltb_lt _ _) Hr); cbn [assert_ bind]. rewrite Len, Nat.eqb_refl; cbn [assert_ bind].
  fold (keys_of ft labels). set (perm := map snd (sort_by (key_leb leqb lleb r) (keys_of ft labels))).
  assert (Permutation perm (seq 0 (length ft))) as Pp
    by (unfold perm; rewrite <- (keys_snd ft labels Len); apply Permutation_map, sort_perm).
  assert (Forall (fun i => i < length ft) perm) as Fp.
  { apply Forall_forall. intros i Hi. apply (Permutation_in _ Pp) in Hi. apply in_seq in Hi. lia. }
  set (keep := Nat.eqb r 0 || if list_eq_dec Nat.eq_dec perm (seq 0 (length ft)) then true else false).
  destruct keep eqn:Ek; unfold keep in Ek.
  - (* the fields stay in their places *)
    match goal with |- exists b sel, bind ?e _ = _ /\ _ => replace e with (Ret (@None (reshuffle (A := A)), ft, labels)) end.
    2:{ destruct (Nat.eqb r 0); [reflexivity|]. cbn [orb] in Ek. destruct (list_eq_dec Nat.eq_dec perm (seq 0 (length ft))); [reflexivity|discriminate]. }
    cbn [bind]. destruct (retrieve_core ft labels Len P) as (out & buf & -> & Eb & H). cbn [bind]. 
    change (mapM _ (contiguous_labels leqb [] None labels)) with (mapM (buf_of (indices_by_label size leqb [] 0 labels ft)) (contiguous_labels leqb [] None labels)).
    rewrite Eb; cbn [bind]. eexists; exists (labelled leqb labels); split; [reflexivity|]. intros x l G Ty Hl.
    match goal with |- exists y, branch _ _ _ ?b _ _ = _ /\ _ => destruct (H b x l eq_refl eq_refl eq_refl G Ty Hl) as (y & Ey & Gy & Py) end.
    exists y. split; [|split; [exact Gy|split; [exact Py|split; [reflexivity|split; [reflexivity|]]]]].
    + unfold branch. cbn [br_in br_labels br_shuffle]. rewrite Ty, Te, (existsb_leqb leqb leqb_ok) by exact Hl. cbn [assert_ bind]. exact Ey.
    + intros Er2. destruct (sorted_labelled r ft labels l Len (or_intror Er2)) as (_ & _ & So). specialize (So Er2).
      fold perm in So. rewrite Er2 in Ek. cbn [Nat.eqb orb] in Ek. destruct (list_eq_dec Nat.eq_dec perm (seq 0 (length ft))) as [Ep|]; [|discriminate].
      rewrite Ep in So. unfold labelled. rewrite Len. exact So.
  - (* the fields are reordered *)
    destruct (Nat.eqb_spec r 0) as [|R0]; [discriminate|]. cbn [orb] in Ek.
    destruct (list_eq_dec Nat.eq_dec perm (seq 0 (length ft))) as [|Np]; [discriminate|].
    assert (perm <> []) as Nep.
    { intros K. rewrite K in Pp. apply Permutation_length in Pp. rewrite seq_length in Pp. cbn in Pp. destruct ft; [congruence|discriminate]. }
    assert (forall i, i < length ft -> In i perm) as Cp by (intros i Hi; apply (Permutation_in _ (Permutation_sym Pp)), in_seq; lia).
    destruct (map_nth_some labels perm ltac:(rewrite Len; exact Fp)) as (labels' & El').
    assert (length labels' = length ft) as Len' by (rewrite (map_some_length _ _ _ El'), (Permutation_length Pp), seq_length; reflexivity).
    destruct (mk_reshuffle_ok size ft perm Fp Cp Nep) as (ft' & Ef & Em).
    set (m := {| rs_in := ft; rs_out := ft'; rs_indices := _ |}) in Em.
    assert (length (rs_out m) = length ft) as Lm by (cbn [rs_out m]; rewrite (map_some_length _ _ _ Ef), (Permutation_length Pp), seq_length; reflexivity).
    assert (Forall (fun a => 0 < size a) (rs_out m)) as Pm.
    { cbn [rs_out m].
      apply Forall_forall. intros a Ha. rewrite Forall_forall in P. apply P. clear - Ef Ha. revert ft' Ef Ha.
      induction perm as [|i s IH]; intros [|b ft'] Ef Ha; try discriminate; [destruct Ha|]. cbn [map] in Ef. injection Ef as E1 E2.
      destruct Ha as [<-|Ha]; [eapply nth_error_In; eassumption|eauto]. }
    rewrite Em; cbn [bind]. rewrite (proj2 (mapM_get_ok labels perm labels') El'); cbn [bind].
    destruct (retrieve_core (rs_out m) labels' ltac:(lia) Pm) as (out & buf & -> & Eb & H). cbn [bind]. 
    change (mapM _ (contiguous_labels leqb [] None labels')) with (mapM (buf_of (indices_by_label size leqb [] 0 labels' (rs_out m))) (contiguous_labels leqb [] None labels')).
    rewrite Eb; cbn [bind]. eexists; exists (fun l => filter (has labels l) perm); split; [reflexivity|]. intros x l G Ty Hl.
    destruct (reshuffle_forward_ok size teqb x m perm G (Te _)) as (x' & Eo & Fx & Gx' & Px); try (rewrite Ty; assumption); [exact Nep|]. rewrite Ty in Px.
    assert (In l labels') as Hl'.
    { apply In_nth_error in Hl. destruct Hl as (i & Hi). assert (In i perm) as Hp by (apply Cp; rewrite <- Len; apply nth_error_Some; congruence).
      apply In_nth_error in Hp. destruct Hp as (k & Hk). pose proof (map_some_nth _ _ _ _ _ El' Hk) as E. rewrite Hi in E. eapply nth_error_In; eassumption. }
    match goal with |- exists y, branch _ _ _ ?b _ _ = _ /\ _ => destruct (H b x' l eq_refl eq_refl eq_refl Gx' (eq_sym Eo) Hl') as (y & Ey & Gy & Py) end.
    exists y. split; [|split; [exact Gy|split]].
    + unfold branch. cbn [br_in br_labels br_shuffle]. rewrite Ty, Te, (existsb_leqb leqb leqb_ok) by exact Hl. cbn [assert_ bind]. rewrite Fx; cbn [bind]. exact Ey.
    + rewrite Eo in Py. eapply picks_compose; [|exact Px|exact Py|apply labelled_moved, El']. rewrite <- Ty. exact G.
    + destruct (sorted_labelled r ft labels l Len ltac:(lia)) as (S1 & S2 & S3). fold perm in S1, S2, S3.
      split; [exact S1|split; [|exact S3]]. intros Hr1. apply S2. lia.
Qed.
Theorem branch_picks : forall (teqb : list A -> list A -> bool) r ft labels, (forall t, teqb t t = true) -> r < 3 ->
  ft <> [] -> length labels = length ft -> Forall (fun a => 0 < size a) ft ->
  exists b, mk_branching size leqb lleb ft labels r = Ret b /\
  forall (x : gtensor A V) l, good x -> g_type x = ft -> In l labels ->
  exists y sel, branch size leqb teqb b x l = Ret y /\ good y /\ picks size ft (g_chans x) sel (g_type y) (g_chans y) /\
    Permutation sel (labelled leqb labels l) /\ (r <= 1 -> sel = labelled leqb labels l) /\
    (r = 2 -> StronglySorted (fun i j => size_at ft i <= size_at ft j) sel).
Proof.
  intros teqb r ft labels Te Hr Ne Len P. destruct (branch_picks_at teqb r ft labels Te Hr Ne Len P) as (b & sel & Eb & H).
  exists b. split; [exact Eb|]. intros x l G Ty Hl. destruct (H x l G Ty Hl) as (y & Hy). exists y, (sel l). exact Hy.
Qed.
End LT.
