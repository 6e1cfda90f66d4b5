(** The constructor of InducedGatedNonLinearity1. *)
From Coq Require Import Reals String List ZArith Arith Bool Lia Lra Permutation.
From Verif Require Import LibRes LibPy LibMat ParamModel ParamProofs FieldModel SpecField FieldProofs BranchProofs LabelThms MergeThms GroupedModel GroupedProofs
  NonlinModel SpecNonlin NonlinProofs NormThms INormThms GatedThms Gated1Thms IGatedModel SpecIGated.
Import ListNotations.
Open Scope R_scope.
Notation length := List.length.

Lemma ikey_eqb_ok : forall a b, ikey_eqb a b = true <-> a = b.
Proof.
  intros [a|] [b|]; cbn [ikey_eqb]; try (split; [discriminate|discriminate]); [|split; reflexivity].
  rewrite pair_eqb_ok. split; congruence.
Qed.
Lemma somes_perm' : forall {X} (keys : list (option X)), NoDup keys -> In None keys ->
  Permutation (None :: map Some (flat_map (fun l => match l with Some s => [s] | None => [] end) keys)) keys.
Proof.
  intros X keys ND Hn. apply NoDup_Permutation; [|exact ND|].
  - constructor; [intros H; apply in_map_iff in H; destruct H as (s & E & _); discriminate|]. clear Hn.
    induction ND as [|k keys Nk ND IH]; [constructor|]. cbn [flat_map]. destruct k as [s|]; cbn [app map]; [|exact IH]. constructor; [|exact IH].
    intros H. apply in_map_iff in H. destruct H as (t & E & H). injection E as ->. apply in_flat_map in H. destruct H as ([u|] & Hu & H); [|destruct H]. destruct H as [->|[]]. contradiction.
  - intros [s|].
    + cbn [In]. split.
      * intros [H|H]; [discriminate|]. apply in_map_iff in H. destruct H as (t & E & H). injection E as ->. apply in_flat_map in H. destruct H as ([u|] & Hu & H); [|destruct H]. destruct H as [->|[]]. exact Hu.
      * intros H. right. apply in_map. apply in_flat_map. exists (Some s). split; [exact H|left; reflexivity].
    + cbn [In]. split; auto.
Qed.

Section IGated.
Context {A : Type}.
Variable size : A -> nat.
Variable supported : A -> list nonlin.
Notation pos_sizes ft := (Forall (fun r => (0 < size r)%nat) ft).

Lemma isub_some : forall n q l f0 s, isub_loop n q l (Some f0) = Ret (Some s) -> s = f0 /\ forall t, ~ In (NL_induced_gated t) l.
Proof.
  intros n q l; induction l as [|a l IH]; intros f0 s E; cbn [isub_loop] in E.
  - apply Ret_inj in E. injection E as ->. split; [reflexivity|intros t []].
  - destruct a; try discriminate; destruct (IH _ _ E) as [E1 E2]; (split; [exact E1|]); intros t [K|K]; try discriminate; exact (E2 t K).
Qed.
(** the constructor finds the only entry "induced_gated_s" *)
Lemma isub_ok : forall n q l s, isub_loop n q l None = Ret (Some s) ->
  (0 < s)%nat /\ (exists k, q = Some k /\ n = (k * s)%nat) /\ forall t, In (NL_induced_gated t) l <-> t = s.
Proof.
  intros n q l s. induction l as [|x l IH]; intros Eo; cbn [isub_loop] in Eo; [discriminate|].
  destruct x; try (destruct (IH Eo) as (P1 & P2 & P3); split; [exact P1|split; [exact P2|]]; intros t; rewrite <- P3; cbn [In]; split; [intros [K|K]; [discriminate|exact K]|auto]).
  apply assert_Ret in Eo as (Q1 & Eo). apply assert_Ret in Eo as (Q2 & Eo). apply assert_Ret in Eo as (Q3 & Eo).
  destruct (isub_some _ _ _ _ _ Eo) as [<- N]. apply negb_true_iff, Nat.eqb_neq in Q1. apply Nat.eqb_eq in Q2.
  destruct q as [k|]; [|discriminate]. apply Nat.eqb_eq in Q3.
  split; [lia|]. split; [exists k; split; [reflexivity|]; pose proof (Nat.div_mod n s Q1); nia|].
  intros t. split; [intros [K|K]; [congruence|exfalso; exact (N t K)]|intros ->; left; reflexivity].
Qed.
Lemma quotient_some : forall l q0 o, quotient_loop size l (Some q0) = Ret o -> o = Some q0 /\ forall g r, In (g, r) l -> is_gate g = true -> size r = q0.
Proof.
  induction l as [|[g r] l IH]; intros q0 o E; cbn [quotient_loop] in E.
  - apply Ret_inj in E. split; [auto|intros g r []].
  - destruct g.
    + apply assert_Ret in E as (Q & E). apply Nat.eqb_eq in Q. destruct (IH _ _ E) as [E1 E2]. split; [exact E1|].
      intros g' r' [K|K] G; [injection K as <- <-; exact Q|exact (E2 g' r' K G)].
    + destruct (IH _ _ E) as [E1 E2]. split; [exact E1|]. intros g' r' [K|K] G; [injection K as <- <-; discriminate|exact (E2 g' r' K G)].
    + destruct (IH _ _ E) as [E1 E2]. split; [exact E1|]. intros g' r' [K|K] G; [injection K as <- <-; discriminate|exact (E2 g' r' K G)].
Qed.
Lemma quotient_ok : forall l o, quotient_loop size l None = Ret o -> forall g r, In (g, r) l -> is_gate g = true -> o = Some (size r).
Proof.
  induction l as [|[g r] l IH]; intros o E g' r' H G; cbn [quotient_loop] in E; [destruct H|].
  destruct g.
  - destruct (quotient_some _ _ _ E) as [E1 E2]. destruct H as [K|K]; [injection K as <- <-; exact E1|]. rewrite (E2 g' r' K G). exact E1.
  - destruct H as [K|K]; [injection K as <- <-; discriminate|exact (IH o E g' r' K G)].
  - destruct H as [K|K]; [injection K as <- <-; discriminate|exact (IH o E g' r' K G)].
Qed.

(** what the constructor checks of a field *)
Definition field_ok (q : nat) (g : gate) (r : A) (l : option (nat * nat)) : Prop :=
  match g with
  | GateField => l = None /\ In NL_induced_gate (supported r) /\ size r = q
  | GatedField => exists s, l = Some (size r, s) /\ (0 < s)%nat /\ size r = (q * s)%nat /\ forall t, In (NL_induced_gated t) (supported r) <-> t = s
  | OtherName => False
  end.

Lemma mk_igated_inv : forall ft gates drop m, pos_sizes ft -> mk_igated size supported ft gates drop = Ret m ->
  let gs := gates_of gates (length ft) in
  let labels := ig_labels m in
  let q := ig_quotient m in
  length gs = length ft /\ length labels = length ft /\ (0 < q)%nat /\
  (forall i g r, nth_error gs i = Some g -> nth_error ft i = Some r -> exists l, nth_error labels i = Some l /\ field_ok q g r l) /\
  length (positions_of is_gate gs) = length (positions_of is_gated gs) /\
  ig_in m = ft /\ ig_drop m = drop /\ ig_ngates m = length (positions_of is_gate gs) /\
  labelled ikey_eqb labels None = positions_of is_gate gs /\
  let kept := if drop then positions_of is_gated gs else seq 0 (length ft) in
  map (nth_error ft) kept = map Some (ig_out m) /\
  (exists sizes, ig_order m = map Some sizes /\ NoDup sizes /\
    Permutation (flat_map (labelled ikey_eqb labels) (map Some sizes)) (positions_of is_gated gs) /\
    (forall s, In s sizes -> In (Some s) labels)) /\
  (forall l, In l labels -> exists c, lookup ikey_eqb (ig_inb m) l = Ret c /\ positions (type_size size ft) c = Ret (chan_list size ft (labelled ikey_eqb labels l))) /\
  In None labels /\
  length (filter (ikeep drop) labels) = length (ig_out m) /\ kept = kept_from (ikeep drop) 0 labels /\
  (forall l, In l labels -> ikeep drop l = true -> exists c, lookup ikey_eqb (ig_outb m) l = Ret c /\
     positions (type_size size (ig_out m)) c = Ret (chan_list size (ig_out m) (labelled ikey_eqb (filter (ikeep drop) labels) l))).
Proof.
  intros ft gates drop m P Em gs. unfold mk_igated in Em. apply bind_Ret in Em. destruct Em as (gs' & Eg & Em).
  assert (gs' = gs) as ->.
  { unfold gs, gates_of. destruct gates; [apply Ret_inj in Eg; auto|]. apply bind_Ret in Eg. destruct Eg as (u & _ & Eg). apply Ret_inj in Eg; auto. }
  apply assert_Ret in Em as (Lg & Em). apply Nat.eqb_eq in Lg.
  apply assert_Ret in Em as (Ek & Em). rewrite forallb_forall in Ek.
  cbn zeta in Em. apply assert_Ret in Em as (E1 & Em). apply Nat.eqb_eq in E1.
  apply bind_Ret in Em. destruct Em as (oq & Eq & Em). apply bind_Ret in Em. destruct Em as (labels & Elab & Em).
  apply bind_Ret in Em. destruct Em as (out & Eo & Em).
  assert (length labels = length ft) as Ll by (rewrite (mapM_length _ _ _ Elab), combine_length; lia).
  destruct (buffers_ok size ikey_eqb ikey_eqb_ok ft labels Ll P) as (inb & Ei & Hi).
  destruct (kept_buffers size ikey_eqb ikey_eqb_ok (ikeep drop) labels ft Ll P) as (outb & Eb & Hb).
  destruct (kept_combine (ikeep drop) labels ft Ll) as [Ef Es].
  unfold buffers in Ei. rewrite Ei in Em. cbn [bind] in Em. rewrite Eb in Em. cbn [bind] in Em.
  apply bind_Ret in Em. destruct Em as (c0 & Ec0 & Em). destruct oq as [q|]; [|discriminate].
  apply Ret_inj in Em; subst m. cbn [ig_in ig_out ig_labels ig_inb ig_outb ig_order ig_drop ig_ngates ig_quotient].
  assert (forall i g r, nth_error gs i = Some g -> nth_error ft i = Some r -> exists l, nth_error labels i = Some l /\ field_ok q g r l) as Hl.
  { intros i g r E2 E3. pose proof (nth_error_combine _ _ _ _ _ E2 E3) as E4. destruct (mapM_nth _ _ _ _ _ Elab E4) as (l & El & E5). exists l. split; [exact E5|].
    specialize (Ek (g, r) (nth_error_In _ _ E4)). cbn [fst snd] in Ek. unfold ikey in El. cbn [fst snd] in El. destruct g; cbn [is_gate] in El; [| |discriminate].
    - apply Ret_inj in El. cbn [field_ok]. split; [auto|]. split.
      + unfold supports in Ek. apply existsb_exists in Ek. destruct Ek as (nl & Hn & E). destruct nl; cbn in E; try discriminate. exact Hn.
      + pose proof (quotient_ok _ _ Eq GateField r (nth_error_In _ _ E4) eq_refl). congruence.
    - apply bind_Ret in El. destruct El as (os & Eos & El). destruct os as [s|]; [|discriminate]. apply Ret_inj in El. cbn [field_ok].
      destruct (isub_ok _ _ _ _ Eos) as (P1 & (k & Ek' & P2) & P3). injection Ek' as <-. exists s. split; [auto|]. split; [exact P1|]. split; [exact P2|exact P3]. }
  assert (forall {X} (p : X -> bool) l, length (filter p l) = length (positions_of p l)) as Lpos.
  { clear. intros X p l. rewrite <- kept_positions. generalize 0%nat. induction l as [|a l IH]; intros k; [reflexivity|]. cbn [filter kept_from]. destruct (p a); cbn [length]; rewrite (IH (S k)); reflexivity. }
  assert (labelled ikey_eqb labels None = positions_of is_gate gs) as Lnone.
  { apply (positions_ext (fun l => ikey_eqb l None) is_gate); [lia|]. intros i l g E2 E3.
    destruct (nth_error ft i) as [r|] eqn:E4; [|apply nth_error_None in E4; assert (i < length gs)%nat by (apply nth_error_Some; congruence); lia].
    destruct (Hl i g r E3 E4) as (l' & E5 & F). rewrite E5 in E2. injection E2 as <-. destruct g; cbn [field_ok] in F; [destruct F as [-> _]; reflexivity|destruct F as (s & -> & _); reflexivity|contradiction]. }
  pose proof (buffers_keys size ikey_eqb ikey_eqb_ok ft labels inb Ei) as [NDk Ik].
  assert (In None (map fst inb)) as Hnone.
  { unfold lookup in Ec0. destruct (dget ikey_eqb inb None) as [c|] eqn:E; [|discriminate]. apply (dget_in ikey_eqb ikey_eqb_ok) in E. apply in_map_iff. exists (None, c). auto. }
  assert (kept_from (ikeep drop) 0 labels = if drop then positions_of is_gated gs else seq 0 (length ft)) as Ekept.
  { rewrite kept_positions. destruct drop.
    - apply positions_ext; [lia|]. intros i l g E2 E3.
      destruct (nth_error ft i) as [r|] eqn:E4; [|apply nth_error_None in E4; assert (i < length gs)%nat by (apply nth_error_Some; congruence); lia].
      destruct (Hl i g r E3 E4) as (l' & E5 & F). rewrite E5 in E2. injection E2 as <-. destruct g; cbn [field_ok] in F; [destruct F as [-> _]; reflexivity|destruct F as (s & -> & _); reflexivity|contradiction].
    - rewrite <- Ll. apply positions_all. intros [|] _; reflexivity. }
  rewrite Ekept in Es.
  assert (out = map snd (filter (fun lr => ikeep drop (fst lr)) (List.combine labels ft))) as Eout.
  { destruct drop.
    - rewrite <- (map_map snd Z.of_nat), filter_index in Eo.
      assert (positions_of is_gated gs <> []) as Ne by (intros Z; rewrite Z in Eo; discriminate).
      rewrite (index_select_ok _ _ _ Ne Es) in Eo. apply Ret_inj in Eo. auto.
    - apply Ret_inj in Eo. subst out. rewrite (filter_ext_in _ (fun _ => true)) by (intros [[|] r] _; reflexivity).
      assert (forall {X} (l : list X), filter (fun _ => true) l = l) as -> by (intros X l; induction l as [|a l IH]; [reflexivity|]; cbn; rewrite IH; reflexivity).
      clear - Ll. revert Ll. generalize labels. intros ls. revert ls. induction ft as [|r ft IH]; intros [|l ls] E; try discriminate; [reflexivity|]. cbn [List.combine map snd]. f_equal. apply IH. cbn in E. lia. }
  split; [exact Lg|]. split; [exact Ll|]. split.
  { assert (In None labels) as H by (apply Ik, Hnone). apply (In_nth_error) in H. destruct H as [i E2]. assert (i < length labels)%nat by (apply nth_error_Some; congruence).
    destruct (nth_error ft i) as [r|] eqn:E4; [|apply nth_error_None in E4; lia]. destruct (nth_error gs i) as [g|] eqn:E3; [|apply nth_error_None in E3; lia].
    destruct (Hl i g r E3 E4) as (l' & E5 & F). rewrite Forall_forall in P. specialize (P r (nth_error_In _ _ E4)). destruct g; cbn [field_ok] in F; [lia| |contradiction].
    destruct F as (s & -> & _). congruence. }
  split; [exact Hl|]. split; [rewrite <- !Lpos; exact E1|]. split; [reflexivity|]. split; [reflexivity|].
  split; [rewrite Lpos; reflexivity|]. split; [exact Lnone|]. split; [rewrite Eout; exact Es|]. split.
  { set (sizes0 := flat_map (fun lc => match fst lc with Some s => [s] | None => [] end) inb).
    assert (sizes0 = flat_map (fun l => match l with Some s => [s] | None => [] end) (map fst inb)) as Es0.
    { unfold sizes0. clear. induction inb as [|[l c] inb IH]; [reflexivity|]. cbn [flat_map map fst]. rewrite IH. reflexivity. }
    pose proof (somes_perm' (map fst inb) NDk Hnone) as Pk. rewrite <- Es0 in Pk.
    assert (Permutation (None :: map Some (sort_by size_leb sizes0)) (map fst inb)) as Pk'.
    { eapply Permutation_trans; [|exact Pk]. constructor. apply Permutation_map. apply sort_perm. }
    exists (sort_by size_leb sizes0). split; [reflexivity|].
    assert (NoDup (None :: map Some (sort_by size_leb sizes0))) as NDs by (apply (Permutation_NoDup (Permutation_sym Pk') NDk)).
    split; [apply NoDup_cons_iff in NDs; destruct NDs as [_ NDs]; apply NoDup_map_inv in NDs; exact NDs|]. split.
    - assert (Permutation (flat_map (labelled ikey_eqb labels) (None :: map Some (sort_by size_leb sizes0))) (seq 0 (length labels))) as Cov.
      { apply labelled_cover; [exact ikey_eqb_ok|exact NDs|]. intros l Hl'. apply Ik in Hl'. apply (Permutation_in _ (Permutation_sym Pk') Hl'). }
      cbn [flat_map] in Cov. rewrite Lnone in Cov.
      assert (Permutation (positions_of is_gate gs ++ positions_of is_gated gs) (seq 0 (length labels))) as Part.
      { rewrite Ll, <- Lg. unfold positions_of.
        rewrite (filter_ext_in (fun i => match nth_error gs i with Some x => is_gated x | None => false end) (fun i => negb match nth_error gs i with Some x => is_gate x | None => false end)).
        - apply partition_perm.
        - intros i Hi'. apply in_seq in Hi'. destruct (nth_error gs i) as [g|] eqn:E3; [|apply nth_error_None in E3; lia].
          destruct (nth_error ft i) as [r|] eqn:E4; [|apply nth_error_None in E4; lia]. destruct (Hl i g r E3 E4) as (l' & E5 & F). destruct g; [reflexivity|reflexivity|destruct F]. }
      apply (Permutation_app_inv_l (positions_of is_gate gs)). eapply Permutation_trans; [exact Cov|apply Permutation_sym, Part].
    - intros s Hs. apply Ik. apply (Permutation_in _ Pk'). right. apply in_map, Hs. }
  split; [intros l Hl'; apply (Hi l (type_size size ft) Hl' (le_n _))|]. split; [apply Ik, Hnone|]. split; [rewrite Eout, <- Ef, !map_length; reflexivity|].
  split; [symmetry; exact Ekept|]. intros l Hl' Kl. rewrite Eout. apply (Hb l Hl' Kl).
Qed.

(** *** one group of fields *)
Definition gate_pieces (q s : nat) (g v : list R) : list R := concat (map (fun j => scaled (nth j g 0) (piece s j v)) (seq 0 q)).
Lemma gate_pieces_length : forall q s g v, length v = (q * s)%nat -> length (gate_pieces q s g v) = (q * s)%nat.
Proof.
  intros q s g v L. unfold gate_pieces. rewrite (concat_uniform s); [rewrite map_length, seq_length; reflexivity|].
  apply Forall_forall. intros w Hw. apply in_map_iff in Hw. destruct Hw as (j & <- & Hj). apply in_seq in Hj. unfold scaled. rewrite map_length. apply (piece_length q); [exact L|lia].
Qed.
Lemma gate_pieces_piece : forall q s g v j, length v = (q * s)%nat -> (j < q)%nat -> piece s j (gate_pieces q s g v) = scaled (nth j g 0) (piece s j v).
Proof.
  intros q s g v j L Hj. unfold gate_pieces. rewrite piece_concat.
  - rewrite (nth_indep _ [] ((fun j => scaled (nth j g 0) (piece s j v)) 0%nat)) by (rewrite map_length, seq_length; exact Hj).
    rewrite (map_nth (fun j => scaled (nth j g 0) (piece s j v))), seq_nth by exact Hj. reflexivity.
  - apply Forall_forall. intros w Hw. apply in_map_iff in Hw. destruct Hw as (i & <- & Hi). apply in_seq in Hi. unfold scaled. rewrite map_length. apply (piece_length q); [exact L|lia].
  - rewrite map_length, seq_length. exact Hj.
Qed.
Lemma igroup_ok : forall (gates : list (list R)) q s n next (bs : list (list R)), (0 < s)%nat -> Forall (fun b => length b = (q * s)%nat) bs -> n = length bs ->
  Forall (fun g => length g = q) gates -> (next + length bs <= length gates)%nat ->
  (subfields <- view s (concat bs) ;; out <- zip_with (fun v g => map (fun a => a * g) v) subfields (concat (slice_at next n gates)) ;; Ret (concat out)) =
  Ret (concat (imap (fun k v => gate_pieces q s (nth k gates []) v) next bs)).
Proof.
  intros gates q s n next bs Ps F En Fg H. subst n.
  assert (concat bs = concat (flat_map (pieces q s) bs)) as ->.
  { clear - F. induction F as [|b bs L F IH]; [reflexivity|]. cbn [concat flat_map]. rewrite concat_app, (concat_pieces q s b L), IH. reflexivity. }
  rewrite view_concat; [|exact Ps|].
  2:{ clear - F. induction F as [|b bs L F IH]; [constructor|]. cbn [flat_map]. apply Forall_app. split; [apply pieces_uniform, L|exact IH]. }
  cbn [bind]. rewrite (slice_imap gates [] bs next H).
  assert (zip_with (fun v g => map (fun a => a * g) v) (flat_map (pieces q s) bs) (concat (imap (fun k _ => nth k gates []) next bs)) =
    Ret (concat (imap (fun k v => map (fun j => scaled (nth j (nth k gates []) 0) (piece s j v)) (seq 0 q)) next bs))) as ->.
  { assert (forall bs next, (next + length bs <= length gates)%nat -> length (flat_map (pieces q s) bs) = length (concat (imap (fun k (_ : list R) => nth k gates []) next bs)) /\
      map (fun p => map (fun a => a * snd p) (fst p)) (List.combine (flat_map (pieces q s) bs) (concat (imap (fun k _ => nth k gates []) next bs))) =
      concat (imap (fun k v => map (fun j => scaled (nth j (nth k gates []) 0) (piece s j v)) (seq 0 q)) next bs)) as K.
    { clear - Fg. induction bs as [|b bs IH]; intros next H; [split; reflexivity|]. cbn [length] in H. destruct (IH (S next) ltac:(lia)) as [L E].
      assert (length (nth next gates []) = q) as Lq by (rewrite Forall_forall in Fg; apply Fg, nth_In; lia).
      cbn [flat_map imap concat]. split; [rewrite !app_length, L; unfold pieces; rewrite map_length, seq_length, Lq; reflexivity|].
      rewrite combine_app2 by (unfold pieces; rewrite map_length, seq_length, Lq; reflexivity). rewrite map_app, E. f_equal.
      unfold pieces. generalize (nth next gates []) Lq. clear. intros g L.
      assert (forall m k (h : list R), length h = m -> (forall j, nth j h 0 = nth (k + j) g 0) ->
        map (fun p => map (fun a => a * snd p) (fst p)) (List.combine (map (fun j => piece s j b) (seq k m)) h) = map (fun j => scaled (nth j g 0) (piece s j b)) (seq k m)) as G.
      { induction m as [|m IH]; intros k h Lh Hh; [reflexivity|]. destruct h as [|a h]; [discriminate|]. cbn [seq map List.combine fst snd]. f_equal.
        - rewrite map_scale. f_equal. specialize (Hh 0%nat). rewrite Nat.add_0_r in Hh. exact Hh.
        - apply IH; [cbn in Lh; lia|]. intros j. specialize (Hh (S j)). cbn [nth] in Hh. rewrite Hh. f_equal. lia. }
      apply (G q 0%nat g L). intros j. reflexivity. }
    destruct (K bs next H) as [L E]. rewrite zip_with_ok by exact L. rewrite E. reflexivity. }
  cbn [bind]. f_equal. clear. revert next. induction bs as [|b bs IH]; intros next; [reflexivity|]. cbn [imap concat]. rewrite concat_app, IH. reflexivity.
Qed.
End IGated.
