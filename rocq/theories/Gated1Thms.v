(** GatedNonLinearity1. *)
From Coq Require Import Reals String List ZArith Arith Bool Lia Lra Permutation.
From Verif Require Import LibRes LibPy LibMat ParamModel ParamProofs FieldModel SpecField FieldProofs BranchProofs LabelThms MergeThms GroupedModel GroupedProofs
  NonlinModel SpecNonlin NonlinProofs NormThms GatedThms.
Import ListNotations.
Open Scope R_scope.
Notation length := List.length.
Lemma nth_error_seq : forall {X} (l : list X), map (nth_error l) (seq 0 (length l)) = map Some l.
Proof.
  intros X l. induction l as [|a l IH]; [reflexivity|]. cbn [length seq map nth_error]. f_equal. rewrite <- IH, <- seq_shift, map_map. reflexivity.
Qed.
Lemma Forall2_len : forall {X Y} (P : X -> Y -> Prop) l m, Forall2 P l m -> length l = length m.
Proof. intros X Y P l m F. induction F; cbn; auto. Qed.
Section Gated1.
Context {A : Type}.
Variable size : A -> nat.
Variable supported : A -> list nonlin.
Variable trivial : A -> bool.
Variable teqb : list A -> list A -> bool.
Notation pos_sizes ft := (Forall (fun r => (0 < size r)%nat) ft).
Notation triv_1 ft := (Forall (fun r => trivial r = true -> size r = 1%nat) ft).
Notation key_labels gs ft := (map (fun gr => if is_gate (fst gr) then None else Some (size (snd gr))) (List.combine gs ft)).

(** what the constructor establishes *)
Lemma mk_gated1_inv : forall ft gates drop m, pos_sizes ft -> mk_gated1 size supported trivial ft gates drop = Ret m ->
  let gs := gates_of gates (length ft) in
  let labels := key_labels gs ft in
  length gs = length ft /\
  (forall i g r, nth_error gs i = Some g -> nth_error ft i = Some r -> match g with GateField => trivial r = true | GatedField => In NL_gated (supported r) | OtherName => False end) /\
  length (positions_of is_gate gs) = length (positions_of is_gated gs) /\
  gm_in m = ft /\ gm_labels m = labels /\ gm_drop m = drop /\ gm_ngates m = length (positions_of is_gate gs) /\
  labelled key_eqb labels None = positions_of is_gate gs /\
  let kept := if drop then positions_of is_gated gs else seq 0 (length ft) in
  map (nth_error ft) kept = map Some (gm_out m) /\
  (exists sizes, gm_order m = map Some sizes /\ NoDup sizes /\
    Permutation (flat_map (labelled key_eqb labels) (map Some sizes)) (positions_of is_gated gs) /\
    (forall s, In s sizes -> In (Some s) labels)) /\
  (forall l, In l labels -> exists c, lookup key_eqb (gm_inb m) l = Ret c /\ positions (type_size size ft) c = Ret (chan_list size ft (labelled key_eqb labels l))) /\
  In None labels /\
  length (filter (keep_field drop) labels) = length (gm_out m) /\ kept = kept_from (keep_field drop) 0 labels /\
  (forall l, In l labels -> keep_field drop l = true -> exists c, lookup key_eqb (gm_outb m) l = Ret c /\
     positions (type_size size (gm_out m)) c = Ret (chan_list size (gm_out m) (labelled key_eqb (filter (keep_field drop) labels) l))).
Proof.
  intros ft gates drop m P Em gs labels. unfold mk_gated1 in Em. apply bind_Ret in Em. destruct Em as (gs' & Eg & Em).
  assert (gs' = gs) as ->.
  { unfold gs, gates_of. destruct gates; [apply Ret_inj in Eg; auto|]. apply bind_Ret in Eg. destruct Eg as (u & _ & Eg). apply Ret_inj in Eg; auto. }
  apply bind_Ret in Em. destruct Em as (u1 & El & Em). destruct (Nat.eqb_spec (length gs) (length ft)) as [Lg|]; [|discriminate]. clear El u1.
  apply bind_Ret in Em. destruct Em as (u1 & Ec & Em).
  match type of Ec with assert_ ?b = _ => destruct b eqn:Ek; [|discriminate] end. clear Ec u1. rewrite forallb_forall in Ek.
  apply bind_Ret in Em. destruct Em as (u1 & En & Em).
  match type of En with assert_ ?b = _ => destruct b eqn:E1; [|discriminate] end. clear En u1. apply Nat.eqb_eq in E1.
  apply bind_Ret in Em. destruct Em as (out & Eo & Em).
  assert (length labels = length ft) as Ll by (unfold labels; rewrite map_length, combine_length; lia).
  assert (forall i g r, nth_error gs i = Some g -> nth_error ft i = Some r -> nth_error labels i = Some (if is_gate g then None else Some (size r))) as Hl.
  { intros i g r E2 E3. unfold labels. rewrite nth_error_map, (nth_error_combine _ _ _ _ _ E2 E3). reflexivity. }
  assert (forall i g r, nth_error gs i = Some g -> nth_error ft i = Some r -> match g with GateField => trivial r = true | GatedField => In NL_gated (supported r) | OtherName => False end) as Hg.
  { intros i g r E2 E3. specialize (Ek (g, r) (nth_error_In _ _ (nth_error_combine _ _ _ _ _ E2 E3))). cbn [fst snd] in Ek. destruct g; try assumption; try discriminate.
    unfold supports in Ek. apply existsb_exists in Ek. destruct Ek as (nl & Hn & E). destruct nl; cbn in E; try discriminate. exact Hn. }
  assert (forall {X} (p : X -> bool) l, length (filter p l) = length (positions_of p l)) as Lpos.
  { clear. intros X p l. rewrite <- kept_positions. generalize 0%nat. induction l as [|a l IH]; intros k; [reflexivity|]. cbn [filter kept_from]. destruct (p a); cbn [length]; rewrite (IH (S k)); reflexivity. }
  destruct (buffers_ok size key_eqb key_eqb_ok ft labels Ll P) as (inb & Ei & Hi).
  destruct (kept_buffers size key_eqb key_eqb_ok (keep_field drop) labels ft Ll P) as (outb & Eb & Hb).
  destruct (kept_combine (keep_field drop) labels ft Ll) as [Ef Es].
  cbn zeta in Em. fold labels in Em. unfold buffers in Ei. rewrite Ei in Em. cbn [bind] in Em. rewrite Eb in Em. cbn [bind] in Em.
  apply bind_Ret in Em. destruct Em as (c0 & Ec0 & Em). apply Ret_inj in Em; subst m. cbn [gm_in gm_out gm_labels gm_inb gm_outb gm_order gm_drop gm_ngates].
  assert (labelled key_eqb labels None = positions_of is_gate gs) as Lnone.
  { apply (positions_ext (fun l => key_eqb l None) is_gate); [lia|]. intros i l g E2 E3.
    destruct (nth_error ft i) as [r|] eqn:E4; [|apply nth_error_None in E4; assert (i < length gs)%nat by (apply nth_error_Some; congruence); lia].
    rewrite (Hl i g r E3 E4) in E2. injection E2 as <-. destruct (is_gate g); reflexivity. }
  pose proof (buffers_keys size key_eqb key_eqb_ok ft labels inb Ei) as [NDk Ik].
  assert (In None (map fst inb)) as Hnone.
  { unfold lookup in Ec0. destruct (dget key_eqb inb None) as [c|] eqn:E; [|discriminate]. apply (dget_in key_eqb key_eqb_ok) in E. apply in_map_iff. exists (None, c). auto. }
  assert (kept_from (keep_field drop) 0 labels = if drop then positions_of is_gated gs else seq 0 (length ft)) as Ekept.
  { rewrite kept_positions. destruct drop.
    - apply positions_ext; [lia|]. intros i l g E2 E3.
      destruct (nth_error ft i) as [r|] eqn:E4; [|apply nth_error_None in E4; assert (i < length gs)%nat by (apply nth_error_Some; congruence); lia].
      rewrite (Hl i g r E3 E4) in E2. injection E2 as <-. specialize (Hg i g r E3 E4). destruct g; [reflexivity|reflexivity|contradiction].
    - rewrite <- Ll. apply positions_all. intros [|] _; reflexivity. }
  rewrite Ekept in Es.
  assert (out = map snd (filter (fun lr => keep_field drop (fst lr)) (List.combine labels ft))) as Eout.
  { destruct drop.
    - rewrite <- (map_map snd Z.of_nat), filter_index in Eo.
      assert (positions_of is_gated gs <> []) as Ne by (intros Z; rewrite Z in Eo; discriminate).
      rewrite (index_select_ok _ _ _ Ne Es) in Eo. apply Ret_inj in Eo. auto.
    - apply Ret_inj in Eo. subst out. rewrite (filter_ext_in _ (fun _ => true)) by (intros [[|] r] _; reflexivity).
      assert (forall {X} (l : list X), filter (fun _ => true) l = l) as -> by (intros X l; induction l as [|a l IH]; [reflexivity|]; cbn; rewrite IH; reflexivity).
      clear - Ll. revert Ll. generalize labels. intros ls. revert ls. induction ft as [|r ft IH]; intros [|l ls] E; try discriminate; [reflexivity|]. cbn [List.combine map snd]. f_equal. apply IH. cbn in E. lia. }
  split; [exact Lg|]. split; [exact Hg|]. split; [rewrite <- !Lpos; exact E1|]. split; [reflexivity|]. split; [reflexivity|]. split; [reflexivity|].
  split; [rewrite Lpos; reflexivity|]. split; [exact Lnone|]. split; [rewrite Eout; exact Es|]. split.
  { set (sizes0 := flat_map (fun lc => match fst lc with Some s => [s] | None => [] end) inb).
    assert (sizes0 = flat_map (fun l => match l with Some s => [s] | None => [] end) (map fst inb)) as Es0.
    { unfold sizes0. clear. induction inb as [|[l c] inb IH]; [reflexivity|]. cbn [flat_map map fst]. rewrite IH. reflexivity. }
    pose proof (somes_perm (map fst inb) NDk Hnone) as Pk. rewrite <- Es0 in Pk.
    assert (Permutation (None :: map Some (sort_by Nat.leb sizes0)) (map fst inb)) as Pk'.
    { eapply Permutation_trans; [|exact Pk]. constructor. apply Permutation_map. apply sort_perm. }
    exists (sort_by Nat.leb sizes0). split; [reflexivity|].
    assert (NoDup (None :: map Some (sort_by Nat.leb sizes0))) as NDs by (apply (Permutation_NoDup (Permutation_sym Pk') NDk)).
    split; [apply NoDup_cons_iff in NDs; destruct NDs as [_ NDs]; apply NoDup_map_inv in NDs; exact NDs|]. split.
    - assert (Permutation (flat_map (labelled key_eqb labels) (None :: map Some (sort_by Nat.leb sizes0))) (seq 0 (length labels))) as Cov.
      { apply labelled_cover; [exact key_eqb_ok|exact NDs|]. intros l Hl'. apply Ik in Hl'. apply (Permutation_in _ (Permutation_sym Pk') Hl'). }
      cbn [flat_map] in Cov. rewrite Lnone in Cov.
      assert (Permutation (positions_of is_gate gs ++ positions_of is_gated gs) (seq 0 (length labels))) as Part.
      { rewrite Ll, <- Lg. unfold positions_of.
        rewrite (filter_ext_in (fun i => match nth_error gs i with Some x => is_gated x | None => false end) (fun i => negb match nth_error gs i with Some x => is_gate x | None => false end)).
        - apply partition_perm.
        - intros i Hi'. apply in_seq in Hi'. destruct (nth_error gs i) as [g|] eqn:E3; [|apply nth_error_None in E3; lia].
          destruct (nth_error ft i) as [r|] eqn:E4; [|apply nth_error_None in E4; lia]. specialize (Hg i g r E3 E4). destruct g; [reflexivity|reflexivity|contradiction]. }
      apply (Permutation_app_inv_l (positions_of is_gate gs)). eapply Permutation_trans; [exact Cov|apply Permutation_sym, Part].
    - intros s Hs. apply Ik. apply (Permutation_in _ Pk'). right. apply in_map, Hs. }
  split; [intros l Hl'; apply (Hi l (type_size size ft) Hl' (le_n _))|]. split; [apply Ik, Hnone|]. split; [rewrite Eout, <- Ef, !map_length; reflexivity|].
  split; [symmetry; exact Ekept|]. intros l Hl' Kl. rewrite Eout. apply (Hb l Hl' Kl).
Qed.

Theorem gated1_value : forall ft gates drop m, pos_sizes ft -> triv_1 ft -> mk_gated1 size supported trivial ft gates drop = Ret m ->
  let gs := gates_of gates (length ft) in
  let kept := if drop then positions_of is_gated gs else seq 0 (length ft) in
  length gs = length ft /\ map (nth_error ft) kept = map Some (gm_out m) /\
  exists sel, Permutation sel (positions_of is_gated gs) /\ length sel = length (positions_of is_gate gs) /\ gm_ngates m = length sel /\
  forall x bias junk, g_type x = ft -> good size x -> teqb ft ft = true -> length bias = length sel -> length junk = type_size size (gm_out m) ->
  exists y, gated1_forward size teqb m bias junk x = Ret y /\ g_type y = gm_out m /\ good size y /\
    (forall k g i o, nth_error (positions_of is_gate gs) k = Some g -> nth_error sel k = Some i -> nth_error kept o = Some i ->
      field_chans size (gm_out m) (g_chans y) o =
      scaled (logistic (nth 0 (field_chans size ft (g_chans x) g) 0 - nth k bias 0)) (field_chans size ft (g_chans x) i)) /\
    (drop = false -> forall k g, nth_error (positions_of is_gate gs) k = Some g ->
      field_chans size (gm_out m) (g_chans y) g = [logistic (nth 0 (field_chans size ft (g_chans x) g) 0 - nth k bias 0)]).
Proof.
  intros ft gates drop m P T1 Em gs kept.
  destruct (mk_gated1_inv ft gates drop m P Em) as (Lg & Hg & Lpos & Ein & Elab & Edrop & Eng & Lnone & Eout & (sizes & Eord & NDs & Psel & Hsz) & Hinb & Hnone & Lol & Ekept & Houtb).
  fold gs in Lg, Hg, Lpos, Elab, Eng, Lnone, Eout, Psel, Hsz, Hinb, Hnone, Lol, Ekept, Houtb. fold kept in Eout, Ekept.
  set (labels := key_labels gs ft) in *.
  assert (length labels = length ft) as Ll by (unfold labels; rewrite map_length, combine_length; lia).
  split; [exact Lg|]. split; [exact Eout|]. exists (flat_map (labelled key_eqb labels) (map Some sizes)).
  set (sel := flat_map (labelled key_eqb labels) (map Some sizes)) in *.
  split; [exact Psel|]. split; [rewrite (Permutation_length Psel); symmetry; exact Lpos|]. split; [rewrite Eng, (Permutation_length Psel); exact Lpos|].
  intros x bias junk Ex Gx Et Lb Lj. red in Gx. rewrite Ex in Gx.
  unfold gated1_forward. rewrite Ein, Ex, Et. cbn [assert_ bind].
  destruct (Hinb None Hnone) as (gi & Egi & Pgi). rewrite Egi. cbn [bind].
  assert (Forall (fun i => (i < length ft)%nat) (labelled key_eqb labels None)) as Blt by (rewrite <- Ll; apply labelled_lt).
  rewrite (read_ok size ft (g_chans x) _ gi Gx Blt) by (rewrite Gx; exact Pgi). cbn [bind].
  (* gate fields have one channel *)
  assert (forall g, In g (positions_of is_gate gs) -> exists r, nth_error ft g = Some r /\ size r = 1%nat) as G1.
  { intros g Hgi. unfold positions_of in Hgi. apply filter_In in Hgi. destruct Hgi as [Hs Hgi]. apply in_seq in Hs. destruct (nth_error gs g) as [[]|] eqn:E1; try discriminate.
    destruct (nth_error ft g) as [r|] eqn:E2; [|apply nth_error_None in E2; lia]. exists r. split; [reflexivity|]. rewrite Forall_forall in T1. apply T1; [apply nth_error_In in E2; exact E2|exact (Hg _ _ _ E1 E2)]. }
  assert (concat (map (field_chans size ft (g_chans x)) (labelled key_eqb labels None)) = map (fun g => nth 0 (field_chans size ft (g_chans x) g) 0) (positions_of is_gate gs)) as Egates.
  { rewrite Lnone. clear - G1 Gx. induction (positions_of is_gate gs) as [|g l IH]; [reflexivity|]. cbn [map concat]. rewrite IH by (intros; apply G1; right; assumption).
    destruct (G1 g ltac:(left; reflexivity)) as (r & E1 & E2). pose proof (field_chans_length size ft (g_chans x) g r Gx E1) as L. rewrite E2 in L.
    destruct (field_chans size ft (g_chans x) g) as [|a [|b t]]; try discriminate. reflexivity. }
  rewrite Egates. set (gv := map (fun g => nth 0 (field_chans size ft (g_chans x) g) 0) (positions_of is_gate gs)) in *.
  assert (length gv = length sel) as Lgv by (unfold gv; rewrite map_length, (Permutation_length Psel); exact Lpos).
  destruct (zip_with (fun v b => sigmoid (v - b)) gv bias) as [|ga] eqn:Ez; [rewrite zip_with_ok in Ez by lia; discriminate|]. cbn [bind].
  assert (length ga = length sel) as Lga by (rewrite zip_with_ok in Ez by lia; apply Ret_inj in Ez; subst ga; rewrite map_length, combine_length; lia).
  assert (forall k g, nth_error (positions_of is_gate gs) k = Some g -> nth k ga 0 = logistic (nth 0 (field_chans size ft (g_chans x) g) 0 - nth k bias 0)) as Hga.
  { intros k g Ek. assert (k < length gv)%nat as Hk by (unfold gv; rewrite map_length; apply nth_error_Some; congruence).
    destruct (gates_nth gv bias ga k ltac:(lia) Ez Hk) as [_ ->]. f_equal. f_equal. apply nth_error_nth. unfold gv. rewrite nth_error_map, Ek. reflexivity. }
  (* the gates themselves *)
  assert (exists out0, (if gm_drop m then Ret junk else write junk gi ga) = Ret out0 /\ length out0 = type_size size (gm_out m) /\
    (drop = false -> forall k g, nth_error (positions_of is_gate gs) k = Some g -> field_chans size (gm_out m) out0 g = [nth k ga 0])) as (out0 & Eo0 & Lo0 & Ho0).
  { rewrite Edrop. destruct drop; [exists junk; split; [reflexivity|split; [exact Lj|discriminate]]|].
    assert (gm_out m = ft) as Eo.
    { unfold kept in Eout. clear - Eout. assert (map Some (gm_out m) = map Some ft) as E.
      { rewrite <- Eout. apply nth_error_seq. }
      clear Eout. revert E. generalize (gm_out m) as l. induction ft as [|r ft IH]; intros [|a l] E; try discriminate; [reflexivity|]. cbn [map] in E. injection E as -> E. f_equal. apply IH, E. }
    rewrite Eo in *. destruct (write_ok size ft (labelled key_eqb labels None) (map (fun a => [a]) ga) junk gi Lj (labelled_NoDup key_eqb labels None)) as (out0 & Ew & L0 & H0 & _).
    - rewrite Lnone. assert (length (positions_of is_gate gs) = length ga) as L by (rewrite Lga, (Permutation_length Psel); exact Lpos). clear - G1 L.
      revert ga L. induction (positions_of is_gate gs) as [|g l IH]; intros [|a ga] L; try discriminate; constructor.
      + destruct (G1 g ltac:(left; reflexivity)) as (r & E1 & E2). exists r. split; [exact E1|rewrite E2; reflexivity].
      + apply IH; [intros; apply G1; right; assumption|cbn in L; lia].
    - rewrite Lj. exact Pgi.
    - exists out0. split; [|split; [exact L0|]].
      + rewrite <- Ew. f_equal. clear. induction ga as [|a ga IH]; [reflexivity|]. cbn. rewrite <- IH. reflexivity.
      + intros _ k g Ek. rewrite (H0 k g [nth k ga 0]); [reflexivity|rewrite Lnone; exact Ek|]. rewrite nth_error_map.
        assert (k < length ga)%nat as Hk by (rewrite Lga, (Permutation_length Psel), <- Lpos; apply nth_error_Some; congruence).
        rewrite (nth_error_nth' ga 0 Hk). reflexivity. }
  rewrite Eo0. cbn [bind]. rewrite Elab, Eord.
  assert (forall s, In s sizes -> Forall2 (fun o i => nth_error kept o = Some i) (labelled key_eqb (filter (keep_field drop) labels) (Some s)) (labelled key_eqb labels (Some s))) as Rank.
  { intros s Hs. rewrite Ekept. apply labelled_kept; [exact key_eqb_ok|destruct drop; reflexivity]. }
  assert (forall s i, In i (labelled key_eqb labels (Some s)) -> exists r, nth_error ft i = Some r /\ size r = s) as Sz.
  { intros s i Hi. apply (labelled_In key_eqb key_eqb_ok) in Hi. assert (i < length ft)%nat by (rewrite <- Ll; apply nth_error_Some; congruence).
    destruct (nth_error ft i) as [r|] eqn:E2; [|apply nth_error_None in E2; lia]. destruct (nth_error gs i) as [g|] eqn:E3; [|apply nth_error_None in E3; lia].
    unfold labels in Hi. rewrite nth_error_map, (nth_error_combine _ _ _ _ _ E3 E2) in Hi. cbn [option_map fst snd] in Hi. exists r. split; [reflexivity|].
    destruct (is_gate g); [discriminate|]. injection Hi as <-. reflexivity. }
  destruct (loop_bounded size size key_eqb key_eqb_ok ft labels (gm_out m) (filter (keep_field drop) labels) (gm_inb m) (gm_outb m)
    (gated_group ga (nfields key_eqb labels)) (fun l k v => scaled (nth k ga 0) v) (g_chans x) (map Some sizes) out0 (length ga)) as (y & Ey & Ly & Hy & Hy').
  - exact Gx.
  - exact Ll.
  - exact Lol.
  - apply FinFun.Injective_map_NoDup; [intros a b E; congruence|exact NDs].
  - exact Lo0.
  - fold sel. lia.
  - intros l Hl. apply in_map_iff in Hl. destruct Hl as (s & <- & Hs). specialize (Hsz s Hs). split; [apply Hinb, Hsz|]. split; [apply Houtb; [exact Hsz|destruct drop; reflexivity]|].
    specialize (Rank s Hs). split; [|split; [clear - Rank; induction Rank; cbn; auto|]].
    + intros next Hn. unfold gated_group. apply gates_group_ok.
      * apply In_nth_error in Hsz. destruct Hsz as [i Ei]. destruct (Sz s i) as (r & E1 & E2); [apply (labelled_In key_eqb key_eqb_ok), Ei|]. rewrite <- E2. rewrite Forall_forall in P. apply P. apply nth_error_In in E1. exact E1.
      * apply Forall_forall. intros b Hb. apply in_map_iff in Hb. destruct Hb as (i & <- & Hi). destruct (Sz s i Hi) as (r & E1 & E2). rewrite <- E2. apply field_chans_length; assumption.
      * rewrite map_length. apply nfields_labelled.
      * rewrite map_length. exact Hn.
    + intros k o i r Hi Ho Er. unfold scaled. rewrite map_length. destruct (Sz s i Hi) as (q & E1 & E2). rewrite (field_chans_length size ft (g_chans x) i q Gx E1), E2.
      (* the size of the output field [o] *)
      assert (exists i', In i' (labelled key_eqb labels (Some s)) /\ nth_error kept o = Some i') as (i' & Hi' & Eo').
      { clear - Rank Ho. induction Rank as [|o' i' os is E F IH]; [destruct Ho|]. destruct Ho as [<-|Ho]; [exists i'; split; [left; reflexivity|exact E]|].
        destruct (IH Ho) as (j & H1 & H2). exists j. split; [right; exact H1|exact H2]. }
      destruct (Sz s i' Hi') as (q' & E1' & E2').
      assert (nth_error (map (nth_error ft) kept) o = Some (Some q')) as K by (rewrite nth_error_map, Eo'; cbn [option_map]; rewrite E1'; reflexivity).
      rewrite Eout, nth_error_map, Er in K. cbn [option_map] in K. injection K as ->. symmetry; exact E2'.
  - rewrite Ey. cbn [bind]. unfold mk_gtensor. rewrite Ly, Nat.eqb_refl. cbn [assert_ bind]. eexists. split; [reflexivity|]. split; [reflexivity|]. split; [exact Ly|]. cbn [g_chans].
    assert (Forall2 (fun o i => nth_error kept o = Some i) (flat_map (labelled key_eqb (filter (keep_field drop) labels)) (map Some sizes)) sel) as RankAll.
    { unfold sel. clear - Rank. induction sizes as [|s sizes IH]; [constructor|]. cbn [map flat_map]. apply Forall2_app; [apply Rank; left; reflexivity|]. apply IH. intros; apply Rank; right; assumption. }
    assert (NoDup kept) as NDk.
    { unfold kept. destruct drop; [unfold positions_of; apply NoDup_filter, seq_NoDup|apply seq_NoDup]. }
    split.
    + intros k g i o Eg Ei Eo. rewrite <- (Hga k g Eg).
      assert (nth_error (flat_map (labelled key_eqb (filter (keep_field drop) labels)) (map Some sizes)) k = Some o) as Ko.
      { destruct (nth_error (flat_map (labelled key_eqb (filter (keep_field drop) labels)) (map Some sizes)) k) as [o'|] eqn:E'.
        - f_equal. assert (nth_error kept o' = Some i) as E2.
          { clear - RankAll E' Ei. revert k E' Ei. induction RankAll as [|a b os is E F IH]; intros [|k] E' Ei; cbn [nth_error] in *; try discriminate; [congruence|eapply IH; eassumption]. }
          apply (proj1 (NoDup_nth_error kept) NDk); [apply nth_error_Some; congruence|congruence].
        - exfalso. apply nth_error_None in E'. assert (k < length sel)%nat by (apply nth_error_Some; congruence). apply Forall2_len in RankAll. lia. }
      assert (i < length ft)%nat as Hi.
      { assert (In i (positions_of is_gated gs)) as H by (apply (Permutation_in _ Psel), (nth_error_In _ _ Ei)). unfold positions_of in H. apply filter_In in H. destruct H as [H _]. apply in_seq in H. lia. }
      destruct (nth_error labels i) as [l|] eqn:E3; [|apply nth_error_None in E3; lia].
      exact (Hy k i o l Ei Ko E3).
    + intros Ed k g Ek. rewrite <- (Hga k g Ek). rewrite Hy'; [apply (Ho0 Ed k g Ek)|]. intros H. rewrite Ed in H. apply in_flat_map in H. destruct H as (l & Hl & H).
      apply in_map_iff in Hl. destruct Hl as (s & <- & Hs). apply (labelled_In key_eqb key_eqb_ok) in H.
      assert (forall l, filter (keep_field false) l = l) as Ef. { clear. intros l. induction l as [|[a|] l IH]; [reflexivity| |]; cbn [filter keep_field negb]; rewrite IH; reflexivity. }
      rewrite Ef in H. assert (In g (labelled key_eqb labels None)) as K by (rewrite Lnone; apply nth_error_In in Ek; exact Ek). apply (labelled_In key_eqb key_eqb_ok) in K. congruence.
Qed.
Theorem gated1_equivariant : forall ft gates drop m, pos_sizes ft -> triv_1 ft -> mk_gated1 size supported trivial ft gates drop = Ret m ->
  forall (rho : A -> mat) x x' bias junk junk', g_type x = ft -> g_type x' = ft -> good size x -> teqb ft ft = true ->
  length bias = gm_ngates m -> length junk = type_size size (gm_out m) -> length junk' = type_size size (gm_out m) ->
  (forall r, trivial r = true -> rho r 0%nat 0%nat = 1) -> acts size ft rho (g_chans x) (g_chans x') ->
  exists y y', gated1_forward size teqb m bias junk x = Ret y /\ gated1_forward size teqb m bias junk' x' = Ret y' /\
    g_type y = gm_out m /\ g_type y' = gm_out m /\ acts size (gm_out m) rho (g_chans y) (g_chans y').
Proof.
  intros ft gates drop m P T1 Em rho x x' bias junk junk' Ex Ex' Gx Et Lb Lj Lj' Hr Ha.
  destruct (gated1_value ft gates drop m P T1 Em) as (Lg & Eout & sel & Ps & Ls & En & H).
  destruct (mk_gated1_inv ft gates drop m P Em) as (_ & Hg & _).
  set (gs := gates_of gates (length ft)) in *. set (kept := if drop then positions_of is_gated gs else seq 0 (length ft)) in *.
  assert (good size x') as Gx' by (red; rewrite Ex'; apply (proj1 Ha)).
  destruct (H x bias junk Ex Gx Et ltac:(lia) Lj) as (y & Ey & Ty & Gy & Hy & Hyg). destruct (H x' bias junk' Ex' Gx' Et ltac:(lia) Lj') as (y' & Ey' & Ty' & Gy' & Hy' & Hyg').
  exists y, y'. split; [exact Ey|]. split; [exact Ey'|]. split; [exact Ty|]. split; [exact Ty'|].
  red in Gx, Gy, Gy'. rewrite Ex in Gx. rewrite Ty in Gy. rewrite Ty' in Gy'. split; [exact Gy'|]. intros o r Er.
  assert (nth_error (map (nth_error ft) kept) o = Some (Some r)) as K by (rewrite Eout, nth_error_map, Er; reflexivity).
  rewrite nth_error_map in K. destruct (nth_error kept o) as [i|] eqn:Ei; [|discriminate]. cbn [option_map] in K. injection K as Er'.
  assert (forall g, In g (positions_of is_gate gs) -> field_chans size ft (g_chans x') g = field_chans size ft (g_chans x) g) as Inv.
  { intros g Hgi. unfold positions_of in Hgi. apply filter_In in Hgi. destruct Hgi as [Hs Hgi]. apply in_seq in Hs. destruct (nth_error gs g) as [[]|] eqn:E1; try discriminate.
    destruct (nth_error ft g) as [q|] eqn:E2; [|apply nth_error_None in E2; lia]. pose proof (Hg _ _ _ E1 E2) as Tq. cbn in Tq.
    rewrite (proj2 Ha g q E2). rewrite Forall_forall in T1. pose proof (T1 q (nth_error_In _ _ E2) Tq) as S1. pose proof (field_chans_length size ft (g_chans x) g q Gx E2) as L1. rewrite S1 in *.
    destruct (field_chans size ft (g_chans x) g) as [|a [|b l]]; try discriminate. unfold mv. cbn [seq map sumn nth]. rewrite (Hr q Tq). f_equal. ring. }
  assert (i < length ft)%nat as Hi by (apply nth_error_Some; congruence).
  destruct (nth_error gs i) as [gt|] eqn:Eg; [|apply nth_error_None in Eg; lia]. specialize (Hg i gt r Eg Er'). destruct gt; [| |contradiction].
  - (* a gate that is kept *)
    assert (drop = false) as Ed.
    { destruct drop; [|reflexivity]. exfalso. unfold kept in Ei. apply nth_error_In in Ei. unfold positions_of in Ei. apply filter_In in Ei. destruct Ei as [_ Ei]. rewrite Eg in Ei. discriminate. }
    assert (o = i) as ->.
    { unfold kept in Ei. rewrite Ed in Ei. assert (o < length ft)%nat as Ho by (rewrite <- (seq_length (length ft) 0); apply nth_error_Some; congruence).
      rewrite (nth_error_nth' _ 0%nat) in Ei by (rewrite seq_length; exact Ho). rewrite seq_nth in Ei by exact Ho. injection Ei as <-. reflexivity. }
    assert (In i (positions_of is_gate gs)) as Hp by (unfold positions_of; apply filter_In; split; [apply in_seq; lia|rewrite Eg; reflexivity]).
    destruct (In_nth_error _ _ Hp) as [k Ek]. rewrite (Hyg' Ed k i Ek), (Hyg Ed k i Ek), (Inv i Hp). rewrite Forall_forall in T1. rewrite (T1 r (nth_error_In _ _ Er') Hg).
    unfold mv. cbn [seq map sumn nth]. rewrite (Hr r Hg). f_equal. ring.
  - assert (In i (positions_of is_gated gs)) as Hp by (unfold positions_of; apply filter_In; split; [apply in_seq; lia|rewrite Eg; reflexivity]).
    apply (Permutation_in _ (Permutation_sym Ps)) in Hp. destruct (In_nth_error _ _ Hp) as [k Ek].
    destruct (nth_error (positions_of is_gate gs) k) as [g|] eqn:Egk; [|apply nth_error_None in Egk; assert (k < length sel)%nat by (apply nth_error_Some; congruence); lia].
    rewrite (Hy' k g i o Egk Ek Ei), (Hy k g i o Egk Ek Ei), (Inv g (nth_error_In _ _ Egk)), (proj2 Ha i r Er'). symmetry. apply scaled_mv. apply field_chans_length; assumption.
Qed.
End Gated1.
