(** The loop over the groups of fields treats every field once. *)
From Coq Require Import List ZArith Arith Bool Lia Permutation.
From Verif Require Import LibRes LibPy FieldModel SpecField FieldProofs BranchProofs LabelThms MergeThms GroupedModel.
Import ListNotations.

(** *** chunks *)
Lemma chunks_concat : forall {V} s (bs : list (list V)), Forall (fun b => length b = s) bs -> chunks (length bs) s (concat bs) = bs.
Proof.
  intros V s bs F; induction F as [|b bs Hb F IH]; [reflexivity|]. cbn [length chunks concat].
  rewrite firstn_app, skipn_app, <- Hb, Nat.sub_diag, firstn_O, firstn_all, skipn_all, app_nil_r. cbn [app skipn].
  rewrite Hb, IH. reflexivity.
Qed.
Lemma concat_uniform : forall {V} s (bs : list (list V)), Forall (fun b => length b = s) bs -> length (concat bs) = length bs * s.
Proof. intros V s bs F; induction F as [|b bs Hb F IH]; [reflexivity|]. cbn [concat length]. rewrite app_length, IH. lia. Qed.
Lemma view_concat : forall {V} s (bs : list (list V)), 0 < s -> Forall (fun b => length b = s) bs -> view s (concat bs) = Ret bs.
Proof.
  intros V s bs P F. unfold view. rewrite (concat_uniform s bs F). destruct (Nat.eqb_spec s 0); [lia|]. cbn [negb assert_ bind].
  rewrite Nat.mod_mul, Nat.eqb_refl by lia. cbn [assert_ bind]. rewrite Nat.div_mul by lia. rewrite chunks_concat by exact F. reflexivity.
Qed.

(** *** writing *)
Definition splice {W} (a : nat) (w out : list W) : list W := firstn a out ++ w ++ skipn (a + length w) out.
Lemma splice_length : forall {W} a (w out : list W), a + length w <= length out -> length (splice a w out) = length out.
Proof. intros W a w out H. unfold splice. rewrite !app_length, firstn_length, skipn_length. lia. Qed.
Lemma splice_before : forall {W} a (w out : list W) m n, a + length w <= length out -> m + n <= a ->
  firstn n (skipn m (splice a w out)) = firstn n (skipn m out).
Proof.
  intros W a w out m n H Hm. unfold splice. rewrite skipn_app, firstn_app, skipn_length, firstn_length.
  replace (n - (Nat.min a (length out) - m)) with 0 by lia. rewrite firstn_O, app_nil_r.
  rewrite skipn_firstn_comm, firstn_firstn. f_equal. lia.
Qed.
Lemma splice_after : forall {W} a (w out : list W) m n, a + length w <= length out -> a + length w <= m ->
  firstn n (skipn m (splice a w out)) = firstn n (skipn m out).
Proof.
  intros W a w out m n H Hm. unfold splice. rewrite !skipn_app, firstn_length.
  rewrite skipn_all2 by (rewrite firstn_length; lia). rewrite skipn_all2 by lia. cbn [app].
  rewrite skipn_skipn'. do 2 f_equal. lia.
Qed.
Lemma splice_at : forall {W} a (w out : list W), a + length w <= length out -> firstn (length w) (skipn a (splice a w out)) = w.
Proof.
  intros W a w out H. unfold splice. rewrite skipn_app, firstn_length, skipn_all2 by (rewrite firstn_length; lia).
  replace (a - Nat.min a (length out)) with 0 by lia. cbn [app skipn]. rewrite firstn_app, Nat.sub_diag, firstn_O, app_nil_r, firstn_all. reflexivity.
Qed.
Lemma set_all_app : forall {W} p (v : list W) q u out, length v = length p ->
  set_all out (p ++ q) (v ++ u) = (o <- set_all out p v ;; set_all o q u).
Proof.
  intros W p; induction p as [|i p IH]; intros [|w v] q u out E; try discriminate; [reflexivity|].
  cbn [app set_all]. destruct (Nat.ltb i (length out)); cbn [assert_ bind]; [|reflexivity]. apply IH. cbn in E; lia.
Qed.
Lemma set_all_seq : forall {W} (w : list W) a out, a + length w <= length out -> set_all out (seq a (length w)) w = Ret (splice a w out).
Proof.
  intros W w; induction w as [|x w IH]; intros a out H; cbn [length seq set_all].
  - unfold splice. cbn [app length]. rewrite Nat.add_0_r, firstn_skipn. reflexivity.
  - cbn [length] in H. rewrite (proj2 (Nat.ltb_lt _ _)) by lia. cbn [assert_ bind].
    rewrite IH by (rewrite app_length, firstn_length; cbn [length]; rewrite skipn_length; lia).
    f_equal. unfold splice. rewrite firstn_app, firstn_length.
    rewrite firstn_firstn, Nat.min_r by lia. replace (S a - Nat.min a (length out)) with 1 by lia. cbn [firstn].
    rewrite <- app_assoc. cbn [app length]. do 2 f_equal. f_equal.
    rewrite skipn_app, skipn_all2 by (rewrite firstn_length; lia). rewrite firstn_length.
    replace (S a + length w - Nat.min a (length out)) with (S (length w)) by lia. cbn [app].
    change (skipn (S (length w)) (x :: skipn (S a) out)) with (skipn (length w) (skipn (S a) out)). rewrite skipn_skipn'. f_equal. lia.
Qed.

Section Blocks.
Context {A W : Type}.
Variable size : A -> nat.
Lemma field_splice_same : forall (ft : list A) (out w : list W) i r, length out = type_size size ft -> nth_error ft i = Some r ->
  length w = size r -> field_chans size ft (splice (offset size ft i) w out) i = w.
Proof.
  intros ft out w i r L E Lw. rewrite (field_chans_at size _ _ _ _ E), <- Lw. apply splice_at.
  pose proof (offset_le size ft (S i)). rewrite (offset_S size _ _ _ E) in H. lia.
Qed.
Lemma field_splice_other : forall (ft : list A) (out w : list W) i r j, length out = type_size size ft -> nth_error ft i = Some r ->
  length w = size r -> j <> i -> field_chans size ft (splice (offset size ft i) w out) j = field_chans size ft out j.
Proof.
  intros ft out w i r j L E Lw Ne. destruct (nth_error ft j) as [q|] eqn:Ej; [|unfold field_chans; rewrite Ej; reflexivity].
  rewrite !(field_chans_at size _ _ _ _ Ej). pose proof (offset_le size ft (S i)). rewrite (offset_S size _ _ _ E) in H.
  destruct (Nat.lt_ge_cases j i) as [H1|H1].
  - apply splice_before; [lia|]. pose proof (offset_mono size ft (S j) i ltac:(lia)). rewrite (offset_S size _ _ _ Ej) in H0. lia.
  - apply splice_after; [lia|]. pose proof (offset_mono size ft (S i) j ltac:(lia)). rewrite (offset_S size _ _ _ E) in H0. lia.
Qed.
Lemma set_blocks : forall (ft : list A) sel (ws : list (list W)) out, length out = type_size size ft -> NoDup sel ->
  Forall2 (fun i w => exists r, nth_error ft i = Some r /\ length w = size r) sel ws ->
  exists out', set_all out (chan_list size ft sel) (concat ws) = Ret out' /\ length out' = type_size size ft /\
    (forall k i w, nth_error sel k = Some i -> nth_error ws k = Some w -> field_chans size ft out' i = w) /\
    (forall j, ~ In j sel -> field_chans size ft out' j = field_chans size ft out j).
Proof.
  intros ft sel; induction sel as [|i sel IH]; intros ws out L ND F2.
  - inversion F2; subst. exists out. cbn. split; [reflexivity|split; [exact L|split; [intros [|k]; discriminate|reflexivity]]].
  - inversion F2 as [|? w ? ws' (r & Er & Lw) F2']; subst. inversion ND as [|? ? Ni ND']; subst.
    unfold chan_list. cbn [flat_map concat]. fold (chan_list size ft sel).
    rewrite (offset_S size _ _ _ Er). replace (offset size ft i + size r - offset size ft i) with (length w) by lia.
    pose proof (offset_le size ft (S i)) as Le. rewrite (offset_S size _ _ _ Er) in Le.
    rewrite set_all_app by (rewrite seq_length; reflexivity). rewrite set_all_seq by lia. cbn [bind].
    destruct (IH ws' (splice (offset size ft i) w out)) as (out' & E & L' & Hin & Hout); [rewrite splice_length; lia|exact ND'|exact F2'|].
    exists out'. split; [exact E|split; [exact L'|split]].
    + intros [|k] j u Ej Eu; cbn [nth_error] in *; [|eauto]. injection Ej as <-. injection Eu as <-.
      rewrite (Hout i Ni). apply field_splice_same with r; assumption.
    + intros j Hj. rewrite Hout by (intros K; apply Hj; right; exact K).
      apply field_splice_other with r; try assumption. intros ->. apply Hj. left; reflexivity.
Qed.
End Blocks.

Section Buffers.
Context {A L : Type}.
Variable size : A -> nat.
Variable leqb : L -> L -> bool.
Hypothesis leqb_ok : forall a b, leqb a b = true <-> a = b.

Lemma contiguous_keys : forall labels a b, In (a, b) (contiguous_labels leqb [] None labels) -> In a labels.
Proof.
  intros labels a b H. apply (dget_In leqb leqb_ok) in H. destruct (contiguous_inv leqb leqb_ok labels [] None []) as (last' & _ & Inv).
  { split; [reflexivity|]. intros l'. cbn. auto. }
  specialize (Inv a). destruct (dget leqb (contiguous_labels leqb [] None labels) a); [tauto|congruence].
Qed.
Lemma dset_bool_keys : forall (d : list (L * bool)) l b, NoDup (map fst d) -> NoDup (map fst (dset leqb d l b)).
Proof.
  intros d l b H. rewrite dset_keys. destruct (existsb (fun p => leqb (fst p) l) d) eqn:E; [exact H|].
  apply NoDup_rev in H. rewrite <- (rev_involutive (map fst d ++ [l])). apply NoDup_rev. rewrite rev_app_distr. cbn. constructor; [|exact H].
  rewrite <- in_rev. intros K. apply in_map_iff in K. destruct K as ([a c] & Ea & K). cbn in Ea; subst a.
  assert (existsb (fun p => leqb (fst p) l) d = true) by (apply existsb_exists; exists (l, c); split; [exact K|apply leqb_ok; reflexivity]). congruence.
Qed.
Lemma contiguous_NoDup : forall labels, NoDup (map fst (contiguous_labels leqb [] None labels)).
Proof.
  intros labels. assert (forall last d, NoDup (map fst d) -> NoDup (map fst (contiguous_labels leqb d last labels))) as H.
  { induction labels as [|l labels IH]; intros last d H; cbn [contiguous_labels]; [exact H|]. apply IH.
    destruct (match last with Some l' => leqb l l' | None => false end); [exact H|].
    destruct (dget leqb d l); apply dset_bool_keys; exact H. }
  apply H. constructor.
Qed.
Lemma dget_in : forall {X} (d : list (L * X)) l x, dget leqb d l = Some x -> In (l, x) d.
Proof.
  intros X d l x; induction d as [|[a b] d IH]; cbn [dget]; [discriminate|]. destruct (leqb a l) eqn:E.
  - apply leqb_ok in E; subst a. intros H; injection H as ->. left; reflexivity.
  - intros H; right; auto.
Qed.
Lemma contiguous_all : forall labels l, In l (map fst (contiguous_labels leqb [] None labels)) <-> In l labels.
Proof.
  intros labels l. split.
  - intros H. apply in_map_iff in H. destruct H as ([a b] & <- & H). apply contiguous_keys in H. exact H.
  - intros H. destruct (contiguous_ok leqb leqb_ok labels l H) as (b & E & _). apply dget_in in E. apply in_map_iff. exists (l, b). auto.
Qed.

(** what a buffer built from a dictionary of channels and one of runs means *)
Lemma buffer_ok : forall (idx : list (L * list nat)) (cont : list (L * bool)) (chans : L -> list nat),
  (forall l b, In (l, b) cont -> lookup leqb idx l = Ret (chans l) /\ chans l <> []) ->
  (forall l b, In (l, b) cont -> b = true -> exists a k, chans l = seq a k) ->
  exists buf, mapM (buffer leqb idx) cont = Ret buf /\
    forall l n, dget leqb cont l <> None -> Forall (fun c => c < n) (chans l) ->
      exists c, lookup leqb buf l = Ret c /\ positions n c = Ret (chans l).
Proof.
  intros idx cont chans H1 H2.
  assert (exists buf, mapM (buffer leqb idx) cont = Ret buf) as (buf & Eb).
  { clear H2. induction cont as [|[a b] c IH]; [exists []; reflexivity|]. cbn [mapM].
    destruct IH as (buf & Eb); [intros a' b' H; apply (H1 a' b'); right; exact H|].
    destruct (H1 a b (or_introl eq_refl)) as [El Ne]. unfold buffer at 1. cbn [fst snd]. rewrite El. cbn [bind]. destruct b.
    - destruct (list_min_some (chans a) Ne) as (u & v & -> & ->). cbn [bind]. rewrite Eb. eexists; reflexivity.
    - cbn [bind]. rewrite Eb. eexists; reflexivity. }
  exists buf. split; [exact Eb|]. intros l n Hl Lt. destruct (dget leqb cont l) as [b|] eqn:Ed; [|congruence].
  destruct (dget_mapM leqb leqb_ok (buffer leqb idx) _ _ Eb (buf_key leqb idx) l b Ed) as (c & Ei & Eix).
  exists c. split; [unfold lookup; rewrite Eix; reflexivity|]. apply dget_in in Ed. destruct (H1 l b Ed) as [El Ne].
  unfold buffer in Ei. cbn [fst snd] in Ei. rewrite El in Ei. cbn [bind] in Ei. destruct b.
  - destruct (H2 l true Ed eq_refl) as (a & k & Es). rewrite Es in Ei, Ne, Lt.
    assert (0 < k) as Pk by (destruct k; [exfalso; apply Ne; reflexivity|lia]).
    destruct (min_max_seq a k Pk) as [Em EM]. rewrite Em, EM in Ei. cbn [bind] in Ei. injection Ei as <-. cbn [positions].
    rewrite slice_positions_1, Es. rewrite Forall_forall in Lt. assert (a + k <= n).
    { assert (a + (k - 1) < n) by (apply Lt, in_seq; lia). lia. }
    unfold slice_end. destruct (Z.ltb_spec (Z.of_nat a) 0); [lia|]. destruct (Z.ltb_spec (Z.of_nat (a + k - 1 + 1)) 0); [lia|].
    do 2 f_equal; lia.
  - injection Ei as <-. reflexivity.
Qed.

Lemma labelled_run_chans : forall (ft : list A) labels l a k, length labels = length ft -> In l labels -> labelled leqb labels l = seq a k ->
  exists p q, chan_list size ft (labelled leqb labels l) = seq p q.
Proof.
  intros ft labels l a k Len Hl Er. rewrite Er.
  assert (a + k <= length ft) as Bd.
  { pose proof (labelled_lt leqb labels l) as F. rewrite Er in F. destruct k as [|k]; [exfalso; apply (labelled_nonempty leqb leqb_ok labels l Hl); exact Er|].
    rewrite Forall_forall in F. assert (a + k < length labels) by (apply F, in_seq; lia). lia. }
  rewrite chan_list_run by exact Bd. eauto.
Qed.
Lemma chan_list_lt : forall (ft : list A) sel, Forall (fun c => c < type_size size ft) (chan_list size ft sel).
Proof.
  intros ft sel. apply Forall_forall. intros c Hc. apply chan_list_In in Hc. destruct Hc as (i & _ & Hc).
  pose proof (offset_le size ft (S i)). lia.
Qed.
Theorem buffers_ok : forall (ft : list A) labels, length labels = length ft -> Forall (fun r => 0 < size r) ft ->
  exists buf, buffers size leqb ft labels = Ret buf /\
    forall l n, In l labels -> type_size size ft <= n -> exists c, lookup leqb buf l = Ret c /\
      positions n c = Ret (chan_list size ft (labelled leqb labels l)).
Proof.
  intros ft labels Len P. unfold buffers.
  destruct (buffer_ok (indices_by_label size leqb [] 0 labels ft) (contiguous_labels leqb [] None labels)
    (fun l => chan_list size ft (labelled leqb labels l))) as (buf & Eb & H).
  - intros l b Hlb. pose proof (contiguous_keys labels l b Hlb) as Hl. split; [apply indices_lookup; assumption|].
    apply chan_list_nonempty; [rewrite <- Len; apply labelled_lt|apply labelled_nonempty; assumption|exact P].
  - intros l b Hlb ->. pose proof (contiguous_keys labels l true Hlb) as Hl.
    destruct (contiguous_ok leqb leqb_ok labels l Hl) as (b' & Eb' & Hb').
    assert (b' = true) as Tb.
    { pose proof (contiguous_NoDup labels) as ND. apply dget_in in Eb'. clear - ND Hlb Eb'.
      induction (contiguous_labels leqb [] None labels) as [|[a c] d IH]; [destruct Hlb|]. cbn [map fst] in ND. inversion ND as [|? ? Na ND']; subst.
      destruct Hlb as [E|H], Eb' as [E'|H']; try congruence.
      - injection E as -> ->. exfalso. apply Na, in_map_iff. exists (l, b'). auto.
      - injection E' as -> ->. exfalso. apply Na, in_map_iff. exists (l, true). auto.
      - apply IH; assumption. }
    destruct (Hb' Tb) as (a & k & Er). apply labelled_run_chans with a k; assumption.
  - exists buf. split; [exact Eb|]. intros l n Hl Hn. apply H.
    + destruct (contiguous_ok leqb leqb_ok labels l Hl) as (b' & Eb' & _). congruence.
    + eapply Forall_impl; [|apply chan_list_lt]. cbn. intros; lia.
Qed.
Lemma nfields_labelled : forall labels l, nfields leqb labels l = length (labelled leqb labels l).
Proof.
  intros labels l. unfold nfields. rewrite labelled_pos. generalize 0. induction labels as [|a labels IH]; intros k; [reflexivity|].
  cbn [filter pos]. destruct (leqb a l); cbn [app length]; rewrite <- (IH (S k)); reflexivity.
Qed.
End Buffers.

(** *** the loop *)
Fixpoint imap {X Y} (f : nat -> X -> Y) (k : nat) (l : list X) : list Y :=
  match l with [] => [] | x :: l' => f k x :: imap f (S k) l' end.
Lemma imap_nth : forall {X Y} (f : nat -> X -> Y) l k j, nth_error (imap f k l) j = option_map (f (k + j)) (nth_error l j).
Proof.
  intros X Y f l; induction l as [|x l IH]; intros k [|j]; cbn [imap nth_error option_map]; try reflexivity.
  - rewrite Nat.add_0_r. reflexivity.
  - rewrite IH. replace (S k + j) with (k + S j) by lia. reflexivity.
Qed.
Lemma imap_length : forall {X Y} (f : nat -> X -> Y) l k, length (imap f k l) = length l.
Proof. intros X Y f l; induction l as [|x l IH]; intros k; cbn; [|rewrite IH]; reflexivity. Qed.

Lemma write_ok : forall {A W} (size : A -> nat) (ft : list A) sel (ws : list (list W)) out c, length out = type_size size ft -> NoDup sel ->
  Forall2 (fun i w => exists r, nth_error ft i = Some r /\ length w = size r) sel ws ->
  positions (length out) c = Ret (chan_list size ft sel) ->
  exists out', write out c (concat ws) = Ret out' /\ length out' = type_size size ft /\
    (forall k i w, nth_error sel k = Some i -> nth_error ws k = Some w -> field_chans size ft out' i = w) /\
    (forall j, ~ In j sel -> field_chans size ft out' j = field_chans size ft out j).
Proof.
  intros A W size ft sel ws out c L ND F2 Ep. destruct (set_blocks size ft sel ws out L ND F2) as (out' & E & H).
  exists out'. split; [|exact H]. unfold write. rewrite Ep. cbn [bind].
  assert (length (concat ws) = length (chan_list size ft sel)) as Lc.
  { clear - F2. induction F2 as [|i w sel ws (r & Er & Lw) F2 IH]; [reflexivity|]. unfold chan_list. cbn [concat flat_map].
    fold (chan_list size ft sel). rewrite !app_length, IH, seq_length, (offset_S size _ _ _ Er). lia. }
  destruct (concat ws) as [|w [|w' l]] eqn:Ec; try exact E. rewrite <- Lc. exact E.
Qed.
Lemma read_ok : forall {A V} (size : A -> nat) (ft : list A) (x : list V) sel c, length x = type_size size ft ->
  Forall (fun i => i < length ft) sel -> positions (length x) c = Ret (chan_list size ft sel) ->
  read x c = Ret (concat (map (field_chans size ft x) sel)).
Proof.
  intros A V size ft x sel c L F Ep. unfold read. rewrite Ep. cbn [bind]. rewrite <- flat_map_concat_map.
  apply (listed_chans size _ _ _ _ L (chosen_ok ft sel F)).
Qed.

Section Loop.
Context {A B L V W : Type}.
Variable size : A -> nat.
Variable osize : B -> nat.
Variable leqb : L -> L -> bool.
Hypothesis leqb_ok : forall a b, leqb a b = true <-> a = b.
Variable ft : list A.
Variable labels : list L.
Variable oft : list B.
Variable olabels : list L.
Variable inb outb : list (L * channels).
Variable nf : L -> nat.
Variable proc : L -> nat -> list V -> res (list W).
Variable f : L -> nat -> list V -> list W.
Variable x : list V.
Hypothesis Lx : length x = type_size size ft.
Hypothesis Len : length labels = length ft.
Hypothesis Oen : length olabels = length oft.

(** what is needed of a label that the loop treats *)
Definition treated (s : L) : Prop :=
  nf s = length (labelled leqb labels s) /\
  (exists c, lookup leqb inb s = Ret c /\ positions (type_size size ft) c = Ret (chan_list size ft (labelled leqb labels s))) /\
  (exists c, lookup leqb outb s = Ret c /\ positions (type_size osize oft) c = Ret (chan_list osize oft (labelled leqb olabels s))) /\
  (forall next, proc s next (concat (map (field_chans size ft x) (labelled leqb labels s))) =
     Ret (concat (imap (f s) next (map (field_chans size ft x) (labelled leqb labels s))))) /\
  length (labelled leqb olabels s) = length (labelled leqb labels s) /\
  (forall k o i r, In i (labelled leqb labels s) -> In o (labelled leqb olabels s) -> nth_error oft o = Some r ->
     length (f s k (field_chans size ft x i)) = osize r).

Lemma labelled_disjoint : forall ls s t i, In i (labelled leqb ls s) -> In i (labelled leqb ls t) -> s = t.
Proof. intros ls s t i H1 H2. apply (labelled_In leqb leqb_ok) in H1. apply (labelled_In leqb leqb_ok) in H2. congruence. Qed.

Theorem loop_ok : forall order next out, NoDup order -> Forall treated order -> length out = type_size osize oft ->
  exists out', grouped_loop leqb nf inb outb proc x order next out = Ret out' /\ length out' = type_size osize oft /\
    (forall k i o s, nth_error (flat_map (labelled leqb labels) order) k = Some i ->
       nth_error (flat_map (labelled leqb olabels) order) k = Some o -> nth_error labels i = Some s ->
       field_chans osize oft out' o = f s (next + k) (field_chans size ft x i)) /\
    (forall o, ~ In o (flat_map (labelled leqb olabels) order) -> field_chans osize oft out' o = field_chans osize oft out o).
Proof.
  induction order as [|s order IH]; intros next out ND F Lo; cbn [grouped_loop flat_map].
  - exists out. split; [reflexivity|split; [exact Lo|split; [intros [|k]; discriminate|reflexivity]]].
  - inversion ND as [|? ? Ns ND']; subst. inversion F as [|? ? T F']; subst.
    destruct T as (Enf & (ci & Eci & Pci) & (co & Eco & Pco) & Ep & El & Ef).
    rewrite Eci, Eco. cbn [bind].
    assert (Forall (fun i => i < length ft) (labelled leqb labels s)) as Lt by (rewrite <- Len; apply labelled_lt).
    assert (Forall (fun i => i < length oft) (labelled leqb olabels s)) as Ot by (rewrite <- Oen; apply labelled_lt).
    rewrite (read_ok size ft x _ ci Lx Lt) by (rewrite Lx; exact Pci). cbn [bind]. rewrite Ep. cbn [bind].
    set (ws := imap (f s) next (map (field_chans size ft x) (labelled leqb labels s))).
    destruct (write_ok osize oft (labelled leqb olabels s) ws out co Lo (labelled_NoDup leqb olabels s)) as (out1 & Ew & L1 & In1 & Out1).
    { unfold ws. clear - Ef El Ot. generalize (labelled leqb labels s) as li, (labelled leqb olabels s) as lo, Ef, El, Ot. clear.
      intros li lo. revert next li. induction lo as [|o lo IH]; intros next [|i li] Ef El Ot; try discriminate; [constructor|].
      cbn [map imap]. inversion Ot as [|? ? Ho Ot']; subst. constructor.
      - destruct (nth_error oft o) as [r|] eqn:Eo; [|apply nth_error_None in Eo; lia]. exists r. split; [reflexivity|].
        eapply Ef; [left; reflexivity|left; reflexivity|exact Eo].
      - apply IH; [|cbn in El; lia|exact Ot']. intros k o' i' r Hi Ho'. apply Ef; right; assumption. }
    { rewrite Lo. exact Pco. }
    rewrite Ew. cbn [bind]. destruct (IH (next + nf s) out1 ND' F' L1) as (out' & El' & L' & In' & Out').
    exists out'. split; [exact El'|split; [exact L'|split]].
    + intros k i o t Ei Eo Et.
      destruct (Nat.lt_ge_cases k (length (labelled leqb labels s))) as [Hk|Hk].
      * rewrite nth_error_app1 in Ei by exact Hk. rewrite nth_error_app1 in Eo by lia.
        assert (t = s) as -> by (apply nth_error_In, (labelled_In leqb leqb_ok) in Ei; congruence).
        rewrite Out'.
        -- apply (In1 k o); [exact Eo|]. unfold ws. rewrite imap_nth. rewrite nth_error_map, Ei. reflexivity.
        -- intros K. apply in_flat_map in K. destruct K as (t & Ht & K). apply nth_error_In in Eo.
           pose proof (labelled_disjoint olabels s t o Eo K). subst t. contradiction.
      * rewrite nth_error_app2 in Ei by exact Hk. rewrite nth_error_app2 in Eo by lia. rewrite El in Eo.
        rewrite (In' _ _ _ t Ei Eo Et). f_equal. lia.
    + intros o Ho. rewrite Out' by (intros K; apply Ho, in_or_app; right; exact K).
      apply Out1. intros K; apply Ho, in_or_app; left; exact K.
Qed.
End Loop.
