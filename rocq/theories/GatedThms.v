(** Gated nonlinearities 1 and 2. *)
From Coq Require Import Reals String List ZArith Arith Bool Lia Lra Permutation.
From Verif Require Import LibRes LibPy LibMat ParamModel ParamProofs FieldModel SpecField FieldProofs BranchProofs LabelThms MergeThms GroupedModel GroupedProofs
  NonlinModel SpecNonlin NonlinProofs NormThms.
Import ListNotations.
Open Scope R_scope.
Notation length := List.length.

Lemma sigmoid_logistic : forall t, sigmoid t = logistic t.
Proof. intros t. unfold sigmoid, logistic, Rdiv. ring. Qed.
Lemma key_eqb_ok : forall a b, key_eqb a b = true <-> a = b.
Proof. intros [a|] [b|]; cbn; split; try discriminate; try reflexivity; [intros H; apply Nat.eqb_eq in H; congruence|intros H; injection H as ->; apply Nat.eqb_refl]. Qed.
Lemma map_scale : forall (v : list R) c, map (fun a => a * c) v = scaled c v.
Proof. intros v c. unfold scaled. apply map_ext. intros a. ring. Qed.

(** *** the loop when the counter is known to stay below a bound *)
Section Bounded.
Context {A B L V W : Type}.
Variable size : A -> nat.
Variable osize : B -> nat.
Variable leqb : L -> L -> bool.
Hypothesis leqb_ok : forall a b, leqb a b = true <-> a = b.
Lemma loop_bounded : forall (ft : list A) labels (oft : list B) olabels inb outb proc (f : L -> nat -> list V -> list W) x order (out : list W) N,
  length x = type_size size ft -> length labels = length ft -> length olabels = length oft -> NoDup order -> length out = type_size osize oft ->
  (length (flat_map (labelled leqb labels) order) <= N)%nat ->
  (forall s, In s order ->
     (exists c, lookup leqb inb s = Ret c /\ positions (type_size size ft) c = Ret (chan_list size ft (labelled leqb labels s))) /\
     (exists c, lookup leqb outb s = Ret c /\ positions (type_size osize oft) c = Ret (chan_list osize oft (labelled leqb olabels s))) /\
     (forall next, (next + length (labelled leqb labels s) <= N)%nat -> proc s next (concat (map (field_chans size ft x) (labelled leqb labels s))) =
       Ret (concat (imap (f s) next (map (field_chans size ft x) (labelled leqb labels s))))) /\
     length (labelled leqb olabels s) = length (labelled leqb labels s) /\
     (forall k o i r, In i (labelled leqb labels s) -> In o (labelled leqb olabels s) -> nth_error oft o = Some r ->
       length (f s k (field_chans size ft x i)) = osize r)) ->
  exists out', grouped_loop leqb (nfields leqb labels) inb outb proc x order 0 out = Ret out' /\ length out' = type_size osize oft /\
    (forall k i o s, nth_error (flat_map (labelled leqb labels) order) k = Some i ->
       nth_error (flat_map (labelled leqb olabels) order) k = Some o -> nth_error labels i = Some s ->
       field_chans osize oft out' o = f s k (field_chans size ft x i)) /\
    (forall o, ~ In o (flat_map (labelled leqb olabels) order) -> field_chans osize oft out' o = field_chans osize oft out o).
Proof.
  intros ft labels oft olabels inb outb proc f x order out N Lx Len Oen ND Lo HN T.
  set (proc' := fun s next fm => if Nat.leb (next + nfields leqb labels s) N then proc s next fm
     else Ret (concat (imap (f s) next (map (field_chans size ft x) (labelled leqb labels s))))).
  assert (forall order next out, (next + length (flat_map (labelled leqb labels) order) <= N)%nat ->
     grouped_loop leqb (nfields leqb labels) inb outb proc' x order next out = grouped_loop leqb (nfields leqb labels) inb outb proc x order next out) as Same.
  { clear - leqb_ok. induction order as [|s order IH]; intros next out H; [reflexivity|]. cbn [grouped_loop flat_map] in *. rewrite app_length in H.
    pose proof (nfields_labelled leqb labels s) as Nf.
    destruct (lookup leqb inb s) as [|c]; cbn [bind]; [reflexivity|]. destruct (lookup leqb outb s) as [|co]; cbn [bind]; [reflexivity|].
    destruct (read x c) as [|fm]; cbn [bind]; [reflexivity|].
    assert (proc' s next fm = proc s next fm) as -> by (unfold proc'; rewrite (proj2 (Nat.leb_le _ _)) by lia; reflexivity).
    destruct (proc s next fm) as [|w]; cbn [bind]; [reflexivity|]. destruct (write out co w); cbn [bind]; [reflexivity|]. apply IH. lia. }
  rewrite <- (Same order 0%nat out) by (cbn [Nat.add]; exact HN).
  apply (loop_ok size osize leqb leqb_ok ft labels oft olabels inb outb (nfields leqb labels) proc' f x Lx Len Oen order 0 out ND); [|exact Lo].
  apply Forall_forall. intros s Hs. destruct (T s Hs) as (T1 & T2 & T3 & T4 & T5). split; [apply nfields_labelled|]. split; [exact T1|]. split; [exact T2|].
  split; [|split; [exact T4|exact T5]]. intros next. unfold proc'. rewrite nfields_labelled.
  destruct (Nat.leb_spec (next + length (labelled leqb labels s)) N) as [H|]; [apply T3, H|reflexivity].
Qed.

(** *** labels that are kept *)
Variable p : L -> bool.
Fixpoint kept_from (a : nat) (ls : list L) : list nat :=
  match ls with [] => [] | l :: ls' => if p l then a :: kept_from (S a) ls' else kept_from (S a) ls' end.
Lemma kept_lt : forall ls a i, In i (kept_from a ls) -> (a <= i)%nat.
Proof. induction ls as [|l ls IH]; intros a i H; [destruct H|]. cbn [kept_from] in H. destruct (p l); [destruct H as [<-|H]; [lia|]|]; specialize (IH _ _ H); lia. Qed.
Lemma kept_ranks : forall t ls a b, p t = true ->
  Forall2 (fun o i => (b <= o)%nat /\ nth_error (kept_from a ls) (o - b) = Some i) (pos leqb b (filter p ls) t) (pos leqb a ls t).
Proof.
  intros t ls; induction ls as [|l ls IH]; intros a b Pt; [constructor|]. cbn [filter kept_from pos]. destruct (p l) eqn:Pl.
  - assert (Forall2 (fun o i => (b <= o)%nat /\ nth_error (a :: kept_from (S a) ls) (o - b) = Some i) (pos leqb (S b) (filter p ls) t) (pos leqb (S a) ls t)) as H.
    { specialize (IH (S a) (S b) Pt). clear - IH. induction IH as [|o i os is [H1 H2] F IH']; constructor; [|exact IH']. split; [lia|].
      replace (o - b)%nat with (S (o - S b)) by lia. exact H2. }
    cbn [pos]. destruct (leqb l t); cbn [app]; [|exact H]. constructor; [|exact H]. split; [lia|]. rewrite Nat.sub_diag. reflexivity.
  - destruct (leqb l t) eqn:E; [apply leqb_ok in E; congruence|]. cbn [app]. apply IH, Pt.
Qed.
Lemma labelled_kept : forall t ls, p t = true -> Forall2 (fun o i => nth_error (kept_from 0 ls) o = Some i) (labelled leqb (filter p ls) t) (labelled leqb ls t).
Proof.
  intros t ls Pt. rewrite !labelled_pos. pose proof (kept_ranks t ls 0 0 Pt) as H. induction H as [|o i os is [H1 H2] F IH]; constructor; [|exact IH].
  rewrite Nat.sub_0_r in H2. exact H2.
Qed.
Lemma pos_ge : forall ls a t i, In i (pos leqb a ls t) -> (a <= i)%nat.
Proof.
  induction ls as [|l ls IH]; intros a t i H; [destruct H|]. cbn [pos] in H. apply in_app_or in H. destruct H as [H|H]; [|specialize (IH _ _ _ H); lia].
  destruct (leqb l t); [destruct H as [<-|[]]; lia|destruct H].
Qed.
Lemma pos_nil : forall ls a t b, pos leqb a ls t = [] -> pos leqb b (filter p ls) t = [].
Proof.
  induction ls as [|l ls IH]; intros a t b H; [reflexivity|]. cbn [pos] in H. apply app_eq_nil in H. destruct H as [H1 H2].
  destruct (leqb l t) eqn:E; [discriminate|]. cbn [filter]. destruct (p l); cbn [pos]; [rewrite E; cbn [app]|]; eapply IH; exact H2.
Qed.
Lemma run_prefix : forall t ls b b' k, p t = true -> pos leqb b ls t = seq b k -> pos leqb b' (filter p ls) t = seq b' k.
Proof.
  intros t ls; induction ls as [|l ls IH]; intros b b' k Pt E.
  - cbn [pos] in E. destruct k; [reflexivity|discriminate].
  - cbn [pos] in E. destruct (leqb l t) eqn:El.
    + apply leqb_ok in El; subst l. cbn [filter]. rewrite Pt. cbn [pos]. rewrite (proj2 (leqb_ok t t) eq_refl). cbn [app] in *.
      destruct k as [|k]; [discriminate|]. cbn [seq] in *. injection E as E. f_equal. apply (IH (S b) (S b') k Pt E).
    + cbn [app] in E. destruct k as [|k].
      * cbn [seq] in *. apply (pos_nil (l :: ls) b). cbn [pos]. rewrite El. exact E.
      * exfalso. assert (In b (pos leqb (S b) ls t)) as H by (rewrite E; cbn; auto). apply pos_ge in H. lia.
Qed.
Lemma run_filter : forall t ls b b' a k, p t = true -> pos leqb b ls t = seq a k -> exists a', pos leqb b' (filter p ls) t = seq a' k.
Proof.
  intros t ls; induction ls as [|l ls IH]; intros b b' a k Pt E.
  - cbn [pos] in E. destruct k; [exists 0%nat; reflexivity|discriminate].
  - cbn [pos] in E. destruct (leqb l t) eqn:El.
    + destruct k as [|k]; [discriminate|]. cbn [app seq] in E. injection E as Ea E. subst a. exists b'.
      apply (run_prefix t (l :: ls) b b' (S k) Pt). cbn [pos seq]. rewrite El. cbn [app]. rewrite E. reflexivity.
    + cbn [app] in E. cbn [filter]. destruct (p l); [|apply (IH (S b) b' a k Pt E)]. cbn [pos]. rewrite El. cbn [app]. apply (IH (S b) (S b') a k Pt E).
Qed.

(** the output buffers: computed from the kept fields, with the runs of all the fields *)
Lemma kept_combine : forall (labels : list L) (ft : list A), length labels = length ft ->
  map fst (filter (fun lr => p (fst lr)) (List.combine labels ft)) = filter p labels /\
  map (nth_error ft) (kept_from 0 labels) = map Some (map snd (filter (fun lr => p (fst lr)) (List.combine labels ft))).
Proof.
  intros labels ft E. split.
  - revert ft E. induction labels as [|l labels IH]; intros [|r ft] E; try discriminate; [reflexivity|]. cbn [List.combine filter fst]. destruct (p l); cbn [map fst]; rewrite IH by (cbn in E; lia); reflexivity.
  - assert (forall labels (ft pre : list A), length labels = length ft -> map (nth_error (pre ++ ft)) (kept_from (length pre) labels) = map Some (map snd (filter (fun lr => p (fst lr)) (List.combine labels ft)))) as H.
    { clear. induction labels as [|l labels IH]; intros [|r ft] pre E; try discriminate; [reflexivity|]. cbn [kept_from List.combine filter fst].
      assert (map (nth_error (pre ++ r :: ft)) (kept_from (S (length pre)) labels) = map Some (map snd (filter (fun lr => p (fst lr)) (List.combine labels ft)))) as K.
      { specialize (IH ft (pre ++ [r])%list ltac:(cbn in E; lia)). rewrite app_length, <- app_assoc, Nat.add_comm in IH. exact IH. }
      destruct (p l); [|exact K]. cbn [map snd]. rewrite K. f_equal. rewrite nth_error_app2, Nat.sub_diag by lia. reflexivity. }
    apply (H labels ft [] E).
Qed.
Lemma kept_buffers : forall (labels : list L) (ft : list A), length labels = length ft -> Forall (fun r => (0 < size r)%nat) ft ->
  let kept := filter (fun lr => p (fst lr)) (List.combine labels ft) in
  exists outb, mapM (buffer leqb (indices_by_label size leqb [] 0 (map fst kept) (map snd kept))) (filter (fun lc => p (fst lc)) (contiguous_labels leqb [] None labels)) = Ret outb /\
  forall l, In l labels -> p l = true -> exists c, lookup leqb outb l = Ret c /\
    positions (type_size size (map snd kept)) c = Ret (chan_list size (map snd kept) (labelled leqb (filter p labels) l)).
Proof.
  intros labels ft Len P kept. destruct (kept_combine labels ft Len) as [Ef Es]. fold kept in Ef, Es.
  assert (length (map fst kept) = length (map snd kept)) as Lk by (rewrite !map_length; reflexivity).
  assert (Forall (fun r => (0 < size r)%nat) (map snd kept)) as Pk.
  { apply Forall_forall. intros r Hr. apply in_map_iff in Hr. destruct Hr as ([l r'] & <- & Hr). apply filter_In in Hr. destruct Hr as [Hr _].
    apply in_combine_r in Hr. rewrite Forall_forall in P. apply P, Hr. }
  assert (forall l b, In (l, b) (filter (fun lc => p (fst lc)) (contiguous_labels leqb [] None labels)) -> In l labels /\ p l = true /\ In l (filter p labels)) as Hin.
  { intros l b H. apply filter_In in H. cbn [fst] in H. destruct H as [H Pl]. apply (contiguous_keys leqb leqb_ok) in H. repeat split; try assumption. apply filter_In. auto. }
  destruct (buffer_ok leqb leqb_ok (indices_by_label size leqb [] 0 (map fst kept) (map snd kept)) (filter (fun lc => p (fst lc)) (contiguous_labels leqb [] None labels))
    (fun l => chan_list size (map snd kept) (labelled leqb (map fst kept) l))) as (outb & Eo & Ho).
  - intros l b H. destruct (Hin l b H) as (H1 & H2 & H3). rewrite <- Ef in H3. split.
    + apply (indices_lookup size leqb leqb_ok); assumption.
    + apply chan_list_nonempty; [rewrite <- Lk; apply labelled_lt|apply (labelled_nonempty leqb leqb_ok), H3|exact Pk].
  - intros l b H Eb. destruct (Hin l b H) as (H1 & H2 & H3). rewrite <- Ef in H3. subst b. apply filter_In in H. destruct H as [H _].
    destruct (contiguous_ok leqb leqb_ok labels l H1) as (b & Ed & Hb).
    assert (b = true) as ->.
    { apply (dget_in leqb leqb_ok) in Ed. pose proof (contiguous_NoDup leqb leqb_ok labels) as ND. clear - ND Ed H. revert ND Ed H.
      generalize (contiguous_labels leqb [] None labels) as d. induction d as [|[k v] d IH]; intros ND Ed H; [destruct H|]. cbn [map fst] in ND. inversion ND as [|? ? N1 N2]; subst.
      destruct Ed as [E1|E1], H as [E2|E2]; [congruence| | |apply IH; assumption].
      - injection E1 as -> ->. exfalso. apply N1. apply in_map_iff. exists (l, true). auto.
      - injection E2 as -> ->. exfalso. apply N1. apply in_map_iff. exists (l, b). auto. }
    destruct (Hb eq_refl) as (a & k & Er). rewrite labelled_pos in Er. destruct (run_filter l labels 0 0 a k H2 Er) as [a' Er'].
    rewrite <- labelled_pos, <- Ef in Er'. apply (labelled_run_chans size leqb leqb_ok _ _ _ a' k Lk H3 Er').
  - exists outb. split; [exact Eo|]. intros l Hl Pl. destruct (Ho l (type_size size (map snd kept))) as (c & E1 & E2).
    + apply (contiguous_all leqb leqb_ok) in Hl. apply in_map_iff in Hl. destruct Hl as ([k b] & E & Hl). cbn [fst] in E; subst k.
      apply (dget_In leqb leqb_ok) with b. apply filter_In. split; [exact Hl|exact Pl].
    + apply chan_list_lt.
    + exists c. rewrite Ef in E2. auto.
Qed.
End Bounded.

Section Gated.
Context {A : Type}.
Variable size : A -> nat.
Variable supported : A -> list nonlin.
Variable trivial : A -> bool.
Variable teqb : list A -> list A -> bool.
Notation pos_sizes ft := (Forall (fun r => (0 < size r)%nat) ft).
Notation triv_1 ft := (Forall (fun r => trivial r = true -> size r = 1%nat) ft).
Lemma nat_eqb_ok' : forall a b, Nat.eqb a b = true <-> a = b.
Proof. exact Nat.eqb_eq. Qed.

(** multiplication of the fields of a group by consecutive gates *)
Lemma gates_group_ok : forall (gates : list R) s n next (bs : list (list R)), (0 < s)%nat -> Forall (fun b => length b = s) bs -> n = length bs ->
  (next + length bs <= length gates)%nat ->
  (fields <- view s (concat bs) ;; out <- zip_with (fun v g => map (fun a => a * g) v) fields (slice_at next n gates) ;; Ret (concat out)) =
  Ret (concat (imap (fun k v => scaled (nth k gates 0) v) next bs)).
Proof.
  intros gates s n next bs Ps F En H. subst n. rewrite (view_concat s bs Ps F). cbn [bind]. rewrite (zip_slice _ _ _ 0 _ H). cbn [bind].
  f_equal. f_equal. apply imap_ext. intros j v _. apply map_scale.
Qed.
Lemma type_size_ones : forall (ft : list A), Forall (fun r => size r = 1%nat) ft -> type_size size ft = length ft.
Proof. intros ft F. induction F as [|r ft E F IH]; [reflexivity|]. change (size r + type_size size ft = S (length ft))%nat. rewrite E, IH. reflexivity. Qed.
Lemma gates_nth : forall (g bias : list R) gs k, length g = length bias -> zip_with (fun v b => sigmoid (v - b)) g bias = Ret gs -> (k < length g)%nat ->
  length gs = length g /\ nth k gs 0 = logistic (nth k g 0 - nth k bias 0).
Proof.
  intros g bias gs k L E Hk. rewrite zip_with_ok in E by exact L. apply Ret_inj in E. subst gs. rewrite map_length, combine_length. split; [lia|].
  rewrite (nth_indep _ 0 ((fun p => sigmoid (fst p - snd p)) (0, 0))) by (rewrite map_length, combine_length; lia).
  rewrite (map_nth (fun p => sigmoid (fst p - snd p))). rewrite combine_nth by exact L. cbn [fst snd]. apply sigmoid_logistic.
Qed.

Theorem gated2_value : forall gts ft m, pos_sizes ft -> triv_1 gts -> mk_gated2 size supported trivial gts ft = Ret m ->
  exists sel, Permutation sel (seq 0 (length ft)) /\ length gts = length ft /\
  forall g x bias junk, g_type g = gts -> good size g -> g_type x = ft -> good size x -> teqb gts gts = true -> teqb ft ft = true ->
  length bias = length gts -> length junk = type_size size ft ->
  exists y, gated2_forward size teqb m bias junk g x = Ret y /\ g_type y = ft /\ good size y /\
    forall k i, nth_error sel k = Some i -> field_chans size ft (g_chans y) i =
      scaled (logistic (nth k (g_chans g) 0 - nth k bias 0)) (field_chans size ft (g_chans x) i).
Proof.
  intros gts ft m P T1 Em. unfold mk_gated2 in Em. apply bind_Ret in Em. destruct Em as (u0 & Ea & Em). apply bind_Ret in Em. destruct Em as (u1 & _ & Em).
  apply bind_Ret in Em. destruct Em as (u2 & El & Em). apply bind_Ret in Em. destruct Em as (bufs & Eb & Em). apply Ret_inj in Em; subst m.
  destruct (forallb trivial gts) eqn:Et; [|discriminate]. clear Ea u0 u1. destruct (Nat.eqb_spec (length gts) (length ft)) as [El'|]; [|discriminate]. clear El u2.
  assert (type_size size gts = length gts) as Sg.
  { apply type_size_ones. rewrite Forall_forall in T1 |- *. intros r Hr. rewrite forallb_forall in Et. apply T1; auto. }
  exists (flat_map (labelled Nat.eqb (map size ft)) (sort_by Nat.leb (map fst bufs))).
  assert (Permutation (sort_by Nat.leb (map fst bufs)) (map fst bufs)) as Po by apply sort_perm.
  pose (core := fun (gates : list R) (Hg : length gates = length ft) (x junk : list R) (Lx : length x = type_size size ft)
     (Lj : length junk = type_size size ft) =>
    in_place size Nat.eqb nat_eqb_ok' (fun s => s) ft (map size ft) bufs (sort_by Nat.leb (map fst bufs))
      (gated2_group gates (nfields Nat.eqb (map size ft))) (fun s k v => scaled (nth k gates 0) v) x junk
      (map_length size ft) P
      ltac:(intros i r s E1 E2; rewrite nth_error_map, E2 in E1; injection E1 as <-; reflexivity) Eb Po Lx Lj
      ltac:(intros s next B _ L1 L2 F Ps _; apply gates_group_ok; [exact Ps|exact F|symmetry; exact L1|lia])
      ltac:(intros s k b _ Lb; unfold scaled; rewrite map_length; exact Lb)).
  split; [apply (core (repeat 0 (length ft)) (repeat_length _ _) (repeat 0 (type_size size ft)) (repeat 0 (type_size size ft)) (repeat_length _ _) (repeat_length _ _))|].
  split; [exact El'|]. intros g x bias junk Eg Gg Ex Gx Tg Tx Lb Lj.
  unfold gated2_forward. cbn [g2_gates g2_in g2_buffers g2_order]. rewrite Eg, Tg, Ex, Tx. cbn [assert_ bind].
  red in Gg, Gx. rewrite Eg, Sg in Gg. rewrite Ex in Gx.
  destruct (zip_with (fun v b => sigmoid (v - b)) (g_chans g) bias) as [|gates] eqn:Ez; [rewrite zip_with_ok in Ez by lia; discriminate|]. cbn [bind].
  assert (length gates = length ft) as Lg by (rewrite zip_with_ok in Ez by lia; apply Ret_inj in Ez; subst gates; rewrite map_length, combine_length; lia).
  destruct (core gates Lg (g_chans x) junk Gx Lj) as (Ps & out & Eo & Lo & Ho). rewrite Eo. cbn [bind]. unfold mk_gtensor. rewrite Lo, Nat.eqb_refl. cbn [assert_ bind].
  eexists. split; [reflexivity|]. split; [reflexivity|]. split; [exact Lo|]. intros k i Ek. cbn [g_chans].
  assert (i < length ft)%nat as Hi.
  { assert (In i (seq 0 (length ft))) as H by (apply (Permutation_in _ Ps), (nth_error_In _ _ Ek)). apply in_seq in H. lia. }
  assert (k < length ft)%nat as Hk by (rewrite <- (seq_length (length ft) 0), <- (Permutation_length Ps); apply nth_error_Some; congruence).
  destruct (nth_error ft i) as [r|] eqn:Er; [|apply nth_error_None in Er; lia].
  rewrite (Ho k i (size r) Ek) by (rewrite nth_error_map, Er; reflexivity).
  destruct (gates_nth (g_chans g) bias gates k ltac:(lia) Ez ltac:(lia)) as [_ ->]. reflexivity.
Qed.

(** an action that is the identity on the trivial fields *)
Lemma acts_trivial : forall (rho : A -> mat) gts x x', Forall (fun r => size r = 1%nat /\ rho r 0%nat 0%nat = 1) gts -> length x = type_size size gts ->
  acts size gts rho x x' -> x' = x.
Proof.
  intros rho gts x x' T Lx [Lx' H]. apply (fields_ext size gts); [exact Lx'|exact Lx|]. intros i Hi. destruct (nth_error gts i) as [r|] eqn:Er; [|apply nth_error_None in Er; lia].
  rewrite (H i r Er). rewrite Forall_forall in T. destruct (T r (nth_error_In _ _ Er)) as [E1 E2].
  pose proof (field_chans_length size gts x i r Lx Er) as Lf. rewrite E1 in *. destruct (field_chans size gts x i) as [|a [|b l]]; try discriminate.
  unfold mv. cbn [seq map sumn nth]. rewrite E2. f_equal. ring.
Qed.
Theorem gated2_equivariant : forall gts ft m, pos_sizes ft -> triv_1 gts -> mk_gated2 size supported trivial gts ft = Ret m ->
  forall (rho : A -> mat) g g' x x' bias junk junk', g_type g = gts -> g_type g' = gts -> g_type x = ft -> g_type x' = ft -> good size g -> good size x ->
  teqb gts gts = true -> teqb ft ft = true -> length bias = length gts -> length junk = type_size size ft -> length junk' = type_size size ft ->
  (forall r, trivial r = true -> rho r 0%nat 0%nat = 1) -> acts size gts rho (g_chans g) (g_chans g') -> acts size ft rho (g_chans x) (g_chans x') ->
  exists y y', gated2_forward size teqb m bias junk g x = Ret y /\ gated2_forward size teqb m bias junk' g' x' = Ret y' /\
    g_type y = ft /\ g_type y' = ft /\ acts size ft rho (g_chans y) (g_chans y').
Proof.
  intros gts ft m P T1 Em rho g g' x x' bias junk junk' Eg Eg' Ex Ex' Gg Gx Tg Tx Lb Lj Lj' Hr Ag Ax.
  destruct (gated2_value gts ft m P T1 Em) as (sel & Ps & El & H).
  assert (good size x') as Gx' by (red; rewrite Ex'; apply (proj1 Ax)). assert (good size g') as Gg' by (red; rewrite Eg'; apply (proj1 Ag)).
  destruct (H g x bias junk Eg Gg Ex Gx Tg Tx Lb Lj) as (y & Ey & Ty & Gy & Hy). destruct (H g' x' bias junk' Eg' Gg' Ex' Gx' Tg Tx Lb Lj') as (y' & Ey' & Ty' & Gy' & Hy').
  exists y, y'. split; [exact Ey|]. split; [exact Ey'|]. split; [exact Ty|]. split; [exact Ty'|].
  assert (g_chans g' = g_chans g) as Same.
  { apply (acts_trivial rho gts); [|red in Gg; rewrite Eg in Gg; exact Gg|exact Ag]. unfold mk_gated2 in Em. destruct (forallb trivial gts) eqn:Et; [|discriminate].
    rewrite forallb_forall in Et. rewrite Forall_forall in T1 |- *. intros r Hr'. split; [apply T1; auto|apply Hr; auto]. }
  rewrite Same in Hy'. red in Gx, Gy, Gy'. rewrite Ex in Gx. rewrite Ty in Gy. rewrite Ty' in Gy'.
  apply (scaling_commutes size ft rho (g_chans x) (g_chans x') _ _ sel (fun k _ => logistic (nth k (g_chans g) 0 - nth k bias 0)) Ps Gx Gy Gy' Hy Hy'); [reflexivity|exact Ax].
Qed.

(** *** GatedNonLinearity1 *)
Definition gates_of (gates : option (list gate)) (n : nat) : list gate :=
  match gates with Some g => g | None => (repeat GateField (n / 2) ++ repeat GatedField (n / 2))%list end.
Notation key_labels gs ft := (map (fun gr => if is_gate (fst gr) then None else Some (size (snd gr))) (List.combine gs ft)).

Lemma kept_positions : forall {X} (p : X -> bool) l, kept_from p 0 l = positions_of p l.
Proof.
  intros X p l. unfold positions_of.
  assert (forall l pre, kept_from p (length pre) l = filter (fun i => match nth_error (pre ++ l) i with Some x => p x | None => false end) (seq (length pre) (length l))) as H.
  { clear. induction l as [|a l IH]; intros pre; [reflexivity|]. cbn [kept_from length seq filter].
    rewrite nth_error_app2, Nat.sub_diag by lia. cbn [nth_error].
    specialize (IH (pre ++ [a])%list). rewrite app_length, <- app_assoc, Nat.add_comm in IH. cbn [Nat.add length app] in IH. rewrite IH. reflexivity. }
  apply (H l []).
Qed.
Lemma positions_all : forall {X} (p : X -> bool) l, (forall x, In x l -> p x = true) -> positions_of p l = seq 0 (length l).
Proof.
  intros X p l H. unfold positions_of. rewrite <- (filter_ext_in (fun _ => true)).
  - clear. induction (seq 0 (length l)) as [|a s IH]; [reflexivity|]. cbn. rewrite IH. reflexivity.
  - intros i Hi. apply in_seq in Hi. destruct (nth_error l i) as [x|] eqn:E; [|apply nth_error_None in E; lia]. symmetry. apply H. apply nth_error_In in E. exact E.
Qed.
Lemma positions_ext : forall {X Y} (p : X -> bool) (q : Y -> bool) l m, length l = length m ->
  (forall i x y, nth_error l i = Some x -> nth_error m i = Some y -> p x = q y) -> positions_of p l = positions_of q m.
Proof.
  intros X Y p q l m E H. unfold positions_of. rewrite <- E. apply filter_ext_in. intros i Hi. apply in_seq in Hi.
  destruct (nth_error l i) as [x|] eqn:E1; [|apply nth_error_None in E1; lia]. destruct (nth_error m i) as [y|] eqn:E2; [|apply nth_error_None in E2; lia]. eapply H; eassumption.
Qed.
Lemma nth_error_combine : forall {X Y} (l : list X) (m : list Y) i x y, nth_error l i = Some x -> nth_error m i = Some y -> nth_error (List.combine l m) i = Some (x, y).
Proof. intros X Y l; induction l as [|a l IH]; intros [|b m] [|i] x y E1 E2; cbn in *; try discriminate; [congruence|]. apply IH; assumption. Qed.
Lemma partition_perm : forall {X} (p : X -> bool) l, Permutation (filter p l ++ filter (fun x => negb (p x)) l) l.
Proof.
  intros X p l. induction l as [|a l IH]; [constructor|]. cbn [filter]. destruct (p a); cbn [negb app]; [constructor; exact IH|].
  apply Permutation_sym, Permutation_cons_app, Permutation_sym, IH.
Qed.

Lemma filter_index : forall gs, map snd (filter (fun gi => is_gated (fst gi)) (List.combine gs (seq 0 (length gs)))) = positions_of is_gated gs.
Proof.
  intros gs. rewrite <- kept_positions. generalize 0%nat. induction gs as [|g gs IH]; intros a; [reflexivity|]. cbn [length seq List.combine filter fst kept_from].
  destruct (is_gated g); cbn [map snd]; rewrite IH; reflexivity.
Qed.

Lemma somes_perm : forall (keys : list (option nat)), NoDup keys -> In None keys ->
  Permutation (None :: map Some (flat_map (fun l => match l with Some s => [s] | None => [] end) keys)) keys.
Proof.
  intros keys ND Hn. apply NoDup_Permutation; [|exact ND|].
  - constructor; [intros H; apply in_map_iff in H; destruct H as (s & E & _); discriminate|]. clear Hn.
    induction ND as [|k keys Nk ND IH]; [constructor|]. cbn [flat_map]. destruct k as [s|]; cbn [app map]; [|exact IH]. constructor; [|exact IH].
    intros H. apply in_map_iff in H. destruct H as (t & E & H). injection E as ->. apply in_flat_map in H. destruct H as ([u|] & Hu & H); [|destruct H]. destruct H as [->|[]]. contradiction.
  - intros [s|].
    + cbn [In]. split.
      * intros [H|H]; [discriminate|]. apply in_map_iff in H. destruct H as (t & E & H). injection E as ->. apply in_flat_map in H. destruct H as ([u|] & Hu & H); [|destruct H]. destruct H as [->|[]]. exact Hu.
      * intros H. right. apply in_map. apply in_flat_map. exists (Some s). split; [exact H|left; reflexivity].
    + cbn [In]. split; auto.
Qed.
End Gated.
