(** The forward pass of InducedGatedNonLinearity1. *)
From Coq Require Import Reals String List ZArith Arith Bool Lia Lra Permutation.
From Verif Require Import LibRes LibPy LibMat ParamModel ParamProofs FieldModel SpecField FieldProofs BranchProofs LabelThms MergeThms GroupedModel GroupedProofs
  NonlinModel SpecNonlin NonlinProofs NormThms INormThms GatedThms Gated1Thms IGatedModel SpecIGated IGatedProofs.
Import ListNotations.
Open Scope R_scope.
Notation length := List.length.

Section IGated.
Context {A : Type}.
Variable size : A -> nat.
Variable supported : A -> list nonlin.
Variable teqb : list A -> list A -> bool.
Notation pos_sizes ft := (Forall (fun r => (0 < size r)%nat) ft).

(** the gates read from the input *)
Lemma igates_read : forall ft gates drop m, pos_sizes ft -> mk_igated size supported ft gates drop = Ret m ->
  let pg := positions_of is_gate (gates_of gates (length ft)) in
  forall (x : gtensor A R) bias, g_type x = ft -> good size x -> length bias = length pg ->
  exists gi ga, lookup ikey_eqb (ig_inb m) None = Ret gi /\ positions (type_size size ft) gi = Ret (chan_list size ft pg) /\
    (g <- read (g_chans x) gi ;; rows <- view (ig_quotient m) g ;; zip_with (fun row c => map (fun v => sigmoid (v - c)) row) rows bias) = Ret ga /\
    length ga = length pg /\ Forall (fun g => length g = ig_quotient m) ga /\
    (forall k g, nth_error pg k = Some g -> nth k ga [] = map (fun v => logistic (v - nth k bias 0)) (field_chans size ft (g_chans x) g)) /\
    (forall g, In g pg -> exists r, nth_error ft g = Some r /\ size r = ig_quotient m /\ In NL_induced_gate (supported r)).
Proof.
  intros ft gates drop m P Em pg x bias Ex Gx Lb.
  destruct (mk_igated_inv size supported ft gates drop m P Em) as (Lg & Ll & Pq & Hg & Lpos & Ein & Edrop & Eng & Lnone & Eout & _ & Hinb & Hnone & _).
  set (gs := gates_of gates (length ft)) in *. fold pg in Lpos, Eng, Lnone.
  red in Gx. rewrite Ex in Gx.
  destruct (Hinb None Hnone) as (gi & Egi & Pgi). rewrite Lnone in Pgi.
  assert (forall g, In g pg -> exists r, nth_error ft g = Some r /\ size r = ig_quotient m /\ In NL_induced_gate (supported r)) as G1.
  { intros g Hgi. unfold pg, positions_of in Hgi. apply filter_In in Hgi. destruct Hgi as [Hs Hgi]. apply in_seq in Hs. destruct (nth_error gs g) as [[]|] eqn:E1; try discriminate.
    destruct (nth_error ft g) as [r|] eqn:E2; [|apply nth_error_None in E2; lia]. exists r. split; [reflexivity|]. destruct (Hg g _ r E1 E2) as (l & _ & F). cbn [field_ok] in F. tauto. }
  assert (Forall (fun i => (i < length ft)%nat) pg) as Blt.
  { apply Forall_forall. intros g H. destruct (G1 g H) as (r & E & _). apply nth_error_Some. congruence. }
  assert (Forall (fun b => length b = ig_quotient m) (map (field_chans size ft (g_chans x)) pg)) as Fq.
  { apply Forall_forall. intros b Hb. apply in_map_iff in Hb. destruct Hb as (g & <- & Hb). destruct (G1 g Hb) as (r & E1 & E2 & _). rewrite <- E2. apply field_chans_length; assumption. }
  exists gi, (imap (fun k v => map (fun a => sigmoid (a - nth k bias 0)) v) 0 (map (field_chans size ft (g_chans x)) pg)).
  split; [exact Egi|]. split; [exact Pgi|].
  split; [|split; [rewrite imap_length, map_length; reflexivity|split; [|split; [|exact G1]]]].
  - rewrite (read_ok size ft (g_chans x) _ gi Gx Blt) by (rewrite Gx; exact Pgi). cbn [bind]. rewrite (view_concat _ _ Pq Fq). cbn [bind].
    pose proof (zip_slice (fun row c => map (fun v => sigmoid (v - c)) row) (map (field_chans size ft (g_chans x)) pg) bias 0 0) as Z.
    unfold slice_at in Z. cbn [skipn] in Z. rewrite map_length, <- Lb, firstn_all in Z. apply Z. lia.
  - apply Forall_forall. intros b Hb. apply In_nth_error in Hb. destruct Hb as [k Hb]. rewrite imap_nth in Hb.
    destruct (nth_error (map (field_chans size ft (g_chans x)) pg) k) as [v|] eqn:E; [|discriminate]. cbn [option_map] in Hb. injection Hb as <-. rewrite map_length.
    rewrite Forall_forall in Fq. apply Fq. apply nth_error_In in E. exact E.
  - intros k g Ek. apply nth_error_nth. rewrite imap_nth, nth_error_map, Ek. cbn [option_map Nat.add]. f_equal. apply map_ext. intros v. apply sigmoid_logistic.
Qed.

Theorem igated_value : forall ft gates drop m, pos_sizes ft -> mk_igated size supported ft gates drop = Ret m ->
  let gs := gates_of gates (length ft) in
  let kept := if drop then positions_of is_gated gs else seq 0 (length ft) in
  let q := ig_quotient m in
  length gs = length ft /\ map (nth_error ft) kept = map Some (ig_out m) /\
  (forall i g r, nth_error gs i = Some g -> nth_error ft i = Some r ->
     match g with
     | GateField => In NL_induced_gate (supported r) /\ size r = q
     | GatedField => exists s, (0 < s)%nat /\ size r = (q * s)%nat /\ forall t, In (NL_induced_gated t) (supported r) <-> t = s
     | OtherName => False
     end) /\
  exists sel, Permutation sel (positions_of is_gated gs) /\ length sel = length (positions_of is_gate gs) /\ ig_ngates m = length sel /\
  forall b x bias junk, g_type x = ft -> good size x -> teqb ft ft = true -> length bias = length sel -> length junk = type_size size (ig_out m) ->
  drop = true \/ (b = 1%nat /\ ig_ngates m = 1%nat) ->
  exists y, igated_forward size teqb b m bias junk x = Ret y /\ g_type y = ig_out m /\ good size y /\
    (forall k g i o r s j, nth_error (positions_of is_gate gs) k = Some g -> nth_error sel k = Some i -> nth_error kept o = Some i ->
      nth_error ft i = Some r -> In (NL_induced_gated s) (supported r) -> (j < q)%nat ->
      piece s j (field_chans size (ig_out m) (g_chans y) o) =
      scaled (logistic (nth j (field_chans size ft (g_chans x) g) 0 - nth k bias 0)) (piece s j (field_chans size ft (g_chans x) i))) /\
    (drop = false -> forall k g, nth_error (positions_of is_gate gs) k = Some g ->
      field_chans size (ig_out m) (g_chans y) g = map (fun v => logistic (v - nth k bias 0)) (field_chans size ft (g_chans x) g)).
Proof.
  intros ft gates drop m P Em gs kept q.
  pose proof (igates_read ft gates drop m P Em) as Rd.
  destruct (mk_igated_inv size supported ft gates drop m P Em) as (Lg & Ll & Pq & Hg & Lpos & Ein & Edrop & Eng & Lnone & Eout & (sizes & Eord & NDs & Psel & Hsz) & Hinb & Hnone & Lol & Ekept & Houtb).
  cbn zeta in Rd. fold gs in Rd, Lg, Hg, Lpos, Eng, Lnone, Eout, Psel, Ekept. fold kept in Eout, Ekept. fold q in Rd, Pq, Hg.
  set (labels := ig_labels m) in *.
  split; [exact Lg|]. split; [exact Eout|]. split.
  { intros i g r E1 E2. destruct (Hg i g r E1 E2) as (l & E3 & F). destruct g; cbn [field_ok] in F; [tauto| |exact F]. destruct F as (s & _ & F). exists s. exact F. }
  exists (flat_map (labelled ikey_eqb labels) (map Some sizes)).
  set (sel := flat_map (labelled ikey_eqb labels) (map Some sizes)) in *.
  split; [exact Psel|]. split; [rewrite (Permutation_length Psel); symmetry; exact Lpos|]. split; [rewrite Eng, (Permutation_length Psel); exact Lpos|].
  intros b x bias junk Ex Gx Et Lb Lj Hd.
  destruct (Rd x bias Ex Gx) as (gi & ga & Egi & Pgi & Ega & Lga & Fga & Hga & G1); [rewrite Lb, (Permutation_length Psel); symmetry; exact Lpos|].
  red in Gx. rewrite Ex in Gx.
  unfold igated_forward. rewrite Ein, Ex, Et. cbn [assert_ bind]. rewrite Egi. cbn [bind].
  apply bind_Ret in Ega. destruct Ega as (g0 & Eg0 & Ega). rewrite Eg0. cbn [bind]. apply bind_Ret in Ega. destruct Ega as (rows & Erows & Ega).
  fold q. rewrite Erows. cbn [bind]. rewrite Ega. cbn [bind].
  assert (length ga = length sel) as Lgs by (rewrite Lga, (Permutation_length Psel); exact Lpos).
  (* the gates themselves *)
  assert (exists out0, (if ig_drop m then Ret junk else assign_gates b m junk gi ga) = Ret out0 /\ length out0 = type_size size (ig_out m) /\
    (drop = false -> forall k g, nth_error (positions_of is_gate gs) k = Some g -> field_chans size (ig_out m) out0 g = nth k ga [])) as (out0 & Eo0 & Lo0 & Ho0).
  { rewrite Edrop. destruct drop; [exists junk; split; [reflexivity|split; [exact Lj|discriminate]]|].
    destruct Hd as [Hd|[-> Hn]]; [discriminate|]. unfold assign_gates. rewrite Lga, <- Eng, Hn. cbn [Nat.eqb andb assert_ bind].
    assert (ig_out m = ft) as Eo.
    { unfold kept in Eout. clear - Eout. assert (map Some (ig_out m) = map Some ft) as E.
      { rewrite <- Eout. apply nth_error_seq. }
      clear Eout. revert E. generalize (ig_out m) as l. induction ft as [|r ft IH]; intros [|a l] E; try discriminate; [reflexivity|]. cbn [map] in E. injection E as -> E. f_equal. apply IH, E. }
    rewrite Eo in *. destruct (write_ok size ft (positions_of is_gate gs) ga junk gi Lj ltac:(rewrite <- Lnone; apply labelled_NoDup)) as (out0 & Ew & L0 & H0 & _).
    - clear - G1 Lga Fga. revert Lga G1. generalize (positions_of is_gate gs) as l. induction Fga as [|a ga La Fga IH]; intros [|g l] L G1; try discriminate; constructor.
      + destruct (G1 g ltac:(left; reflexivity)) as (r & E1 & E2 & _). exists r. split; [exact E1|congruence].
      + apply IH; [cbn in L; lia|intros; apply G1; right; assumption].
    - rewrite Lj. exact Pgi.
    - exists out0. split; [exact Ew|]. split; [exact L0|]. intros _ k g Ek. apply (H0 k g); [exact Ek|].
      assert (k < length ga)%nat as Hk by (rewrite Lga; apply nth_error_Some; congruence). apply nth_error_nth', Hk. }
  rewrite Eo0. cbn [bind]. fold labels. rewrite Eord.
  assert (forall s, In s sizes -> Forall2 (fun o i => nth_error kept o = Some i) (labelled ikey_eqb (filter (ikeep drop) labels) (Some s)) (labelled ikey_eqb labels (Some s))) as Rank.
  { intros s Hs. rewrite Ekept. apply labelled_kept; [exact ikey_eqb_ok|destruct drop; reflexivity]. }
  assert (forall s i, In i (labelled ikey_eqb labels (Some s)) -> exists r, nth_error ft i = Some r /\ size r = fst s /\ (0 < snd s)%nat /\ fst s = (q * snd s)%nat /\
     forall t, In (NL_induced_gated t) (supported r) <-> t = snd s) as Sz.
  { intros s i Hi. apply (labelled_In ikey_eqb ikey_eqb_ok) in Hi. assert (i < length ft)%nat by (rewrite <- Ll; apply nth_error_Some; congruence).
    destruct (nth_error ft i) as [r|] eqn:E2; [|apply nth_error_None in E2; lia]. destruct (nth_error gs i) as [g|] eqn:E3; [|apply nth_error_None in E3; lia].
    destruct (Hg i g r E3 E2) as (l & E4 & F). rewrite E4 in Hi. injection Hi as ->. exists r. split; [reflexivity|].
    destruct g; cbn [field_ok] in F; [destruct F; discriminate| |contradiction]. destruct F as (t & E & F1 & F2 & F3). injection E as ->. cbn [fst snd]. repeat split; try assumption; apply F3. }
  destruct (loop_bounded size size ikey_eqb ikey_eqb_ok ft labels (ig_out m) (filter (ikeep drop) labels) (ig_inb m) (ig_outb m)
    (igated_group ga (nfields ikey_eqb labels)) (fun l k v => match l with Some s => gate_pieces q (snd s) (nth k ga []) v | None => [] end) (g_chans x) (map Some sizes) out0 (length ga)) as (y & Ey & Ly & Hy & Hy').
  - exact Gx.
  - exact Ll.
  - exact Lol.
  - apply FinFun.Injective_map_NoDup; [intros a c E; congruence|exact NDs].
  - exact Lo0.
  - fold sel. lia.
  - intros l Hl. apply in_map_iff in Hl. destruct Hl as (s & <- & Hs). specialize (Hsz s Hs). split; [apply Hinb, Hsz|]. split; [apply Houtb; [exact Hsz|destruct drop; reflexivity]|].
    specialize (Rank s Hs). split; [|split; [clear - Rank; induction Rank; cbn; auto|]].
    + intros next Hn. unfold igated_group. destruct s as [n0 s0]. cbn [snd]. apply igroup_ok.
      * apply In_nth_error in Hsz. destruct Hsz as [i Ei]. destruct (Sz (n0, s0) i) as (r & E1 & E2 & E3 & _); [apply (labelled_In ikey_eqb ikey_eqb_ok), Ei|]. exact E3.
      * apply Forall_forall. intros v Hv. apply in_map_iff in Hv. destruct Hv as (i & <- & Hi). destruct (Sz _ i Hi) as (r & E1 & E2 & E3 & E4 & _). cbn [fst snd] in *. rewrite <- E4, <- E2. apply field_chans_length; assumption.
      * rewrite map_length. apply nfields_labelled.
      * exact Fga.
      * rewrite map_length. exact Hn.
    + intros k o i r Hi Ho Er. destruct (Sz s i Hi) as (q1 & E1 & E2 & _ & E3 & _). rewrite gate_pieces_length by (rewrite (field_chans_length size ft (g_chans x) i q1 Gx E1), E2; exact E3). rewrite <- E3.
      (* the size of the output field [o] *)
      assert (exists i', In i' (labelled ikey_eqb labels (Some s)) /\ nth_error kept o = Some i') as (i' & Hi' & Eo').
      { clear - Rank Ho. induction Rank as [|o' i' os is E F IH]; [destruct Ho|]. destruct Ho as [<-|Ho]; [exists i'; split; [left; reflexivity|exact E]|].
        destruct (IH Ho) as (j & H1 & H2). exists j. split; [right; exact H1|exact H2]. }
      destruct (Sz s i' Hi') as (q' & E1' & E2' & _).
      assert (nth_error (map (nth_error ft) kept) o = Some (Some q')) as K by (rewrite nth_error_map, Eo'; cbn [option_map]; rewrite E1'; reflexivity).
      rewrite Eout, nth_error_map, Er in K. cbn [option_map] in K. injection K as ->. symmetry; exact E2'.
  - rewrite Ey. cbn [bind]. unfold mk_gtensor. rewrite Ly, Nat.eqb_refl. cbn [assert_ bind]. eexists. split; [reflexivity|]. split; [reflexivity|]. split; [exact Ly|]. cbn [g_chans].
    assert (Forall2 (fun o i => nth_error kept o = Some i) (flat_map (labelled ikey_eqb (filter (ikeep drop) labels)) (map Some sizes)) sel) as RankAll.
    { unfold sel. clear - Rank. induction sizes as [|s sizes IH]; [constructor|]. cbn [map flat_map]. apply Forall2_app; [apply Rank; left; reflexivity|]. apply IH. intros; apply Rank; right; assumption. }
    assert (NoDup kept) as NDk.
    { unfold kept. destruct drop; [unfold positions_of; apply NoDup_filter, seq_NoDup|apply seq_NoDup]. }
    split.
    + intros k g i o r s j Eg Ei Eo Er Hs Hj.
      assert (nth_error (flat_map (labelled ikey_eqb (filter (ikeep drop) labels)) (map Some sizes)) k = Some o) as Ko.
      { destruct (nth_error (flat_map (labelled ikey_eqb (filter (ikeep drop) labels)) (map Some sizes)) k) as [o'|] eqn:E'.
        - f_equal. assert (nth_error kept o' = Some i) as E2.
          { clear - RankAll E' Ei. revert k E' Ei. induction RankAll as [|a c os is E F IH]; intros [|k] E' Ei; cbn [nth_error] in *; try discriminate; [congruence|eapply IH; eassumption]. }
          apply (proj1 (NoDup_nth_error kept) NDk); [apply nth_error_Some; congruence|congruence].
        - exfalso. apply nth_error_None in E'. assert (k < length sel)%nat by (apply nth_error_Some; congruence). apply Forall2_len in RankAll. lia. }
      assert (exists l, In (Some l) (map Some sizes) /\ In i (labelled ikey_eqb labels (Some l))) as (l & _ & Hil).
      { apply nth_error_In in Ei. unfold sel in Ei. apply in_flat_map in Ei. destruct Ei as (l & Hl & Hi). pose proof Hl as Hl'. apply in_map_iff in Hl'. destruct Hl' as (s1 & <- & _). exists s1. split; assumption. }
      pose proof (proj1 (labelled_In ikey_eqb ikey_eqb_ok labels (Some l) i) Hil) as E3.
      destruct (Sz l i Hil) as (r' & E1 & E2 & E4 & E5 & E6). rewrite Er in E1. injection E1 as <-. apply E6 in Hs. subst s.
      rewrite (Hy k i o (Some l) Ei Ko E3). rewrite gate_pieces_piece by (try exact Hj; rewrite (field_chans_length size ft (g_chans x) i r Gx Er), E2; exact E5).
      f_equal. rewrite (Hga k g Eg). destruct (G1 g (nth_error_In _ _ Eg)) as (rg & Erg & Sg & _).
      rewrite (nth_indep _ 0 ((fun v => logistic (v - nth k bias 0)) 0)) by (rewrite map_length, (field_chans_length size ft (g_chans x) g rg Gx Erg), Sg; exact Hj).
      rewrite (map_nth (fun v => logistic (v - nth k bias 0))). reflexivity.
    + intros Ed k g Ek. rewrite <- (Hga k g Ek). rewrite Hy'; [apply (Ho0 Ed k g Ek)|]. intros H. rewrite Ed in H. apply in_flat_map in H. destruct H as (l & Hl & H).
      apply in_map_iff in Hl. destruct Hl as (s & <- & Hs). apply (labelled_In ikey_eqb ikey_eqb_ok) in H.
      assert (forall l, filter (ikeep false) l = l) as Ef. { clear. intros l. induction l as [|[a|] l IH]; [reflexivity| |]; cbn [filter ikeep negb]; rewrite IH; reflexivity. }
      rewrite Ef in H. assert (In g (labelled ikey_eqb labels None)) as K by (rewrite Lnone; apply nth_error_In in Ek; exact Ek). apply (labelled_In ikey_eqb ikey_eqb_ok) in K. congruence.
Qed.

(** a tensor of another type is refused *)
Theorem igated_type_checked : forall ft gates drop m, pos_sizes ft -> mk_igated size supported ft gates drop = Ret m ->
  forall b x bias junk y, igated_forward size teqb b m bias junk x = Ret y -> teqb (g_type x) ft = true /\ g_type y = ig_out m /\ good size y.
Proof.
  intros ft gates drop m P Em b x bias junk y E.
  destruct (mk_igated_inv size supported ft gates drop m P Em) as (_ & _ & _ & _ & _ & Ein & _).
  unfold igated_forward in E. rewrite Ein in E. apply assert_Ret in E as (Q & E). split; [exact Q|].
  do 6 (apply bind_Ret in E; destruct E as (? & _ & E)). unfold mk_gtensor in E. apply assert_Ret in E as (L & E). apply Ret_inj in E. subst y.
  split; [reflexivity|]. red. cbn [g_type g_chans]. apply Nat.eqb_eq, L.
Qed.

(** keeping the gates fails unless there is one gate and one batch entry *)
Theorem igated_keep_fails : forall ft gates m, pos_sizes ft -> mk_igated size supported ft gates false = Ret m ->
  forall b x bias junk, g_type x = ft -> good size x -> length bias = ig_ngates m -> b <> 1%nat \/ ig_ngates m <> 1%nat ->
  igated_forward size teqb b m bias junk x = Raise.
Proof.
  intros ft gates m P Em b x bias junk Ex Gx Lb Hb.
  destruct (mk_igated_inv size supported ft gates false m P Em) as (_ & _ & _ & _ & _ & Ein & Edrop & Eng & _).
  destruct (igates_read ft gates false m P Em x bias Ex Gx) as (gi & ga & Egi & Pgi & Ega & Lga & _); [rewrite Lb; exact Eng|].
  unfold igated_forward. destruct (teqb (g_type x) (ig_in m)); [|reflexivity]. cbn [assert_ bind]. rewrite Egi. cbn [bind].
  apply bind_Ret in Ega. destruct Ega as (g0 & Eg0 & Ega). rewrite Eg0. cbn [bind]. apply bind_Ret in Ega. destruct Ega as (rows & Erows & Ega).
  rewrite Erows. cbn [bind]. rewrite Ega. cbn [bind]. rewrite Edrop. unfold assign_gates.
  assert (Nat.eqb b 1 && Nat.eqb (length ga) 1 = false) as ->; [|reflexivity].
  apply andb_false_iff. destruct Hb as [Hb|Hb]; [left; apply Nat.eqb_neq, Hb|right; apply Nat.eqb_neq; rewrite Lga, <- Eng; exact Hb].
Qed.

Theorem igated_equivariant : forall ft gates drop m, pos_sizes ft -> mk_igated size supported ft gates drop = Ret m ->
  forall (rho : A -> mat) (p : nat -> nat) b x x' bias junk junk', g_type x = ft -> g_type x' = ft -> good size x -> teqb ft ft = true ->
  length bias = ig_ngates m -> length junk = type_size size (ig_out m) -> length junk' = type_size size (ig_out m) ->
  drop = true \/ (b = 1%nat /\ ig_ngates m = 1%nat) ->
  shuffles (ig_quotient m) p ->
  (forall r, In r ft -> In NL_induced_gate (supported r) -> permutation_matrix (ig_quotient m) p (rho r)) ->
  (forall r s, In r ft -> In (NL_induced_gated s) (supported r) -> carries (ig_quotient m) s p (rho r)) ->
  acts size ft rho (g_chans x) (g_chans x') ->
  exists y y', igated_forward size teqb b m bias junk x = Ret y /\ igated_forward size teqb b m bias junk' x' = Ret y' /\
    g_type y = ig_out m /\ g_type y' = ig_out m /\ acts size (ig_out m) rho (g_chans y) (g_chans y').
Proof.
  intros ft gates drop m P Em rho p b x x' bias junk junk' Ex Ex' Gx Et Lb Lj Lj' Hd [Rp Ip] Hgate Hgated Ha.
  destruct (igated_value ft gates drop m P Em) as (Lg & Eout & Hg & sel & Ps & Ls & En & H).
  set (gs := gates_of gates (length ft)) in *. set (kept := if drop then positions_of is_gated gs else seq 0 (length ft)) in *. set (q := ig_quotient m) in *.
  assert (good size x') as Gx' by (red; rewrite Ex'; apply (proj1 Ha)).
  destruct (H b x bias junk Ex Gx Et ltac:(lia) Lj Hd) as (y & Ey & Ty & Gy & Hy & Hyg). destruct (H b x' bias junk' Ex' Gx' Et ltac:(lia) Lj' Hd) as (y' & Ey' & Ty' & Gy' & Hy' & Hyg').
  exists y, y'. split; [exact Ey|]. split; [exact Ey'|]. split; [exact Ty|]. split; [exact Ty'|].
  red in Gx, Gy, Gy'. rewrite Ex in Gx. rewrite Ty in Gy. rewrite Ty' in Gy'. split; [exact Gy'|]. intros o r Er.
  assert (nth_error (map (nth_error ft) kept) o = Some (Some r)) as K by (rewrite Eout, nth_error_map, Er; reflexivity).
  rewrite nth_error_map in K. destruct (nth_error kept o) as [i|] eqn:Ei; [|discriminate]. cbn [option_map] in K. injection K as Er'.
  (* the gates move with [p] *)
  assert (forall g rg, nth_error gs g = Some GateField -> nth_error ft g = Some rg ->
    size rg = q /\ permutation_matrix q p (rho rg) /\ forall j, (j < q)%nat -> nth (p j) (field_chans size ft (g_chans x') g) 0 = nth j (field_chans size ft (g_chans x) g) 0) as Inv.
  { intros g rg E1 E2. pose proof (Hg g _ rg E1 E2) as [S1 S2]. split; [exact S2|]. pose proof (Hgate rg (nth_error_In _ _ E2) S1) as PM. split; [exact PM|].
    intros j Hj. rewrite (proj2 Ha g rg E2), S2. rewrite mv_nth by (apply Rp, Hj). rewrite (sumn_single q j); [|exact Hj|].
    - rewrite PM by (try assumption; apply Rp, Hj). rewrite Nat.eqb_refl. ring.
    - intros k Hk Ne. rewrite PM by (try assumption; apply Rp, Hj). destruct (Nat.eqb_spec (p j) (p k)) as [E|_]; [exfalso; apply Ne; symmetry; apply Ip; assumption|ring]. }
  assert (forall k g, nth_error (positions_of is_gate gs) k = Some g -> nth_error gs g = Some GateField /\ exists rg, nth_error ft g = Some rg) as Pg.
  { intros k g Ek. apply nth_error_In in Ek. unfold positions_of in Ek. apply filter_In in Ek. destruct Ek as [Hs Hgi]. apply in_seq in Hs. destruct (nth_error gs g) as [[]|] eqn:E1; try discriminate.
    split; [reflexivity|]. destruct (nth_error ft g) as [rg|] eqn:E2; [eauto|apply nth_error_None in E2; lia]. }
  assert (i < length ft)%nat as Hi by (apply nth_error_Some; congruence).
  destruct (nth_error gs i) as [gt|] eqn:Eg; [|apply nth_error_None in Eg; lia]. pose proof (Hg i gt r Eg Er') as Kind. destruct gt; [| |contradiction].
  - (* a gate that is kept *)
    assert (drop = false) as Ed.
    { destruct drop; [|reflexivity]. exfalso. unfold kept in Ei. apply nth_error_In in Ei. unfold positions_of in Ei. apply filter_In in Ei. destruct Ei as [_ Ei]. rewrite Eg in Ei. discriminate. }
    assert (o = i) as ->.
    { unfold kept in Ei. rewrite Ed in Ei. assert (o < length ft)%nat as Ho by (rewrite <- (seq_length (length ft) 0); apply nth_error_Some; congruence).
      rewrite (nth_error_nth' _ 0%nat) in Ei by (rewrite seq_length; exact Ho). rewrite seq_nth in Ei by exact Ho. injection Ei as <-. reflexivity. }
    assert (In i (positions_of is_gate gs)) as Hp by (unfold positions_of; apply filter_In; split; [apply in_seq; lia|rewrite Eg; reflexivity]).
    destruct (In_nth_error _ _ Hp) as [k Ek]. rewrite (Hyg' Ed k i Ek), (Hyg Ed k i Ek).
    destruct (Inv i r Eg Er') as (Sq & PM & Mv).
    pose proof (field_chans_length size ft (g_chans x) i r Gx Er') as L1. red in Gx'. rewrite Ex' in Gx'. pose proof (field_chans_length size ft (g_chans x') i r Gx' Er') as L2. rewrite Sq in *.
    apply list_ext; [rewrite map_length, mv_length; exact L2|]. intros a Ha'. rewrite map_length, L2 in Ha'.
    destruct (inj_surj q p Rp Ip a Ha') as (j & Hj & <-). rewrite mv_nth by exact Ha'. rewrite (sumn_single q j); [|exact Hj|].
    + rewrite PM by assumption. rewrite Nat.eqb_refl.
      rewrite (nth_indep _ 0 ((fun v => logistic (v - nth k bias 0)) 0)) by (rewrite map_length, L2; exact Ha'). rewrite (map_nth (fun v => logistic (v - nth k bias 0))), (Mv j Hj).
      rewrite (nth_indep (map _ (field_chans size ft (g_chans x) i)) 0 ((fun v => logistic (v - nth k bias 0)) 0)) by (rewrite map_length, L1; exact Hj). rewrite (map_nth (fun v => logistic (v - nth k bias 0))). ring.
    + intros c Hc Ne. rewrite PM by assumption. destruct (Nat.eqb_spec (p j) (p c)) as [E|_]; [exfalso; apply Ne; symmetry; apply Ip; assumption|ring].
  - destruct Kind as (s & Ps0 & Ss & Us). pose proof (proj2 (Us s) eq_refl) as Is. destruct (Hgated r s (nth_error_In _ _ Er') Is) as (O & HO).
    assert (In i (positions_of is_gated gs)) as Hp by (unfold positions_of; apply filter_In; split; [apply in_seq; lia|rewrite Eg; reflexivity]).
    apply (Permutation_in _ (Permutation_sym Ps)) in Hp. destruct (In_nth_error _ _ Hp) as [k Ek].
    destruct (nth_error (positions_of is_gate gs) k) as [g|] eqn:Egk; [|apply nth_error_None in Egk; assert (k < length sel)%nat by (apply nth_error_Some; congruence); lia].
    destruct (Pg k g Egk) as (Eg1 & rg & Erg). destruct (Inv g rg Eg1 Erg) as (_ & _ & Mv).
    pose proof (field_chans_length size ft (g_chans x) i r Gx Er') as Lx. pose proof (field_chans_length size (ig_out m) (g_chans y) o r Gy Er) as Ly. pose proof (field_chans_length size (ig_out m) (g_chans y') o r Gy' Er) as Ly'.
    rewrite Ss in *. apply (pieces_ext q s); [exact Ly'|apply mv_length|]. intros a Ha'. destruct (inj_surj q p Rp Ip a Ha') as (j & Hj & <-).
    rewrite (Hy' k g i o r s (p j) Egk Ek Ei Er' Is Ha'), (Mv j Hj), (proj2 Ha i r Er'), Ss.
    rewrite !(piece_mv q s (rho r) p O) by assumption. rewrite (Hy k g i o r s j Egk Ek Ei Er' Is Hj). symmetry. apply scaled_mv. apply (piece_length q); assumption.
Qed.
End IGated.
