(** Moving fields around: reshuffling, grouping by labels, branching and merging. *)
From Coq Require Import List ZArith Arith Bool Lia Permutation Sorted.
From Verif Require Import LibRes LibPy FieldModel SpecField FieldProofs FieldThms.
Import ListNotations.

(** *** sorting *)
Section Sort.
Context {B : Type}.
Variable leb : B -> B -> bool.
Lemma insert_perm : forall x l, Permutation (insert_by leb x l) (x :: l).
Proof.
  intros x l; induction l as [|y l IH]; cbn; [reflexivity|]. destruct (leb x y); [reflexivity|].
  rewrite IH. apply perm_swap.
Qed.
Lemma sort_perm : forall l, Permutation (sort_by leb l) l.
Proof. induction l as [|x l IH]; cbn; [reflexivity|]. rewrite insert_perm. constructor. exact IH. Qed.
Lemma insert_filter : forall p x l, (forall y, p x = true -> p y = true -> leb x y = true) ->
  filter p (insert_by leb x l) = if p x then x :: filter p l else filter p l.
Proof.
  intros p x l H; induction l as [|y l IH]; cbn [insert_by filter]; [reflexivity|].
  destruct (leb x y) eqn:E; cbn [filter]; [reflexivity|]. rewrite IH.
  destruct (p x) eqn:Px, (p y) eqn:Py; try reflexivity. pose proof (H y eq_refl Py). congruence.
Qed.
(** sorting keeps the order of elements that compare equal *)
Lemma sort_stable : forall p l, (forall x y, p x = true -> p y = true -> leb x y = true) -> filter p (sort_by leb l) = filter p l.
Proof.
  intros p l H; induction l as [|x l IH]; [reflexivity|]. cbn [sort_by fold_right filter]. fold (sort_by leb l).
  rewrite insert_filter by (intros; apply H; assumption). rewrite IH. reflexivity.
Qed.
Hypothesis total : forall a b, leb a b = true \/ leb b a = true.
Hypothesis trans : forall a b c, leb a b = true -> leb b c = true -> leb a c = true.
Lemma insert_sorted : forall x l, StronglySorted (fun a b => leb a b = true) l -> StronglySorted (fun a b => leb a b = true) (insert_by leb x l).
Proof.
  intros x l H; induction H as [|y l H IH F]; cbn; [repeat constructor|].
  destruct (leb x y) eqn:E.
  - constructor; [constructor; assumption|]. constructor; [exact E|].
    apply Forall_forall; intros z Hz. rewrite Forall_forall in F. apply (trans x y z); auto.
  - constructor; [exact IH|]. apply Forall_forall; intros z Hz.
    apply (Permutation_in _ (insert_perm x l)) in Hz. destruct Hz as [<-|Hz].
    + destruct (total x y); [congruence|assumption].
    + rewrite Forall_forall in F. auto.
Qed.
Lemma sort_sorted : forall l, StronglySorted (fun a b => leb a b = true) (sort_by leb l).
Proof. induction l as [|x l IH]; cbn; [constructor|]. apply insert_sorted, IH. Qed.
End Sort.
Lemma filter_sorted : forall {B} (R : B -> B -> Prop) p l, StronglySorted R l -> StronglySorted R (filter p l).
Proof.
  intros B R p l H; induction H as [|x l H IH F]; cbn; [constructor|]. destruct (p x); [|exact IH].
  constructor; [exact IH|]. apply Forall_forall; intros y Hy. apply filter_In in Hy. rewrite Forall_forall in F. apply F; tauto.
Qed.
Lemma filter_perm : forall {B} (p : B -> bool) l m, Permutation l m -> Permutation (filter p l) (filter p m).
Proof.
  intros B p l m H; induction H as [|x l m H IH|x y l|l m k H IH H' IH']; cbn; [reflexivity| | |etransitivity; eassumption].
  - destruct (p x); [constructor|]; exact IH.
  - destruct (p x), (p y); try reflexivity. apply perm_swap.
Qed.

(** *** selections *)
Section Sel.
Context {A V : Type}.
Variable size : A -> nat.
Notation good := (good size).

Lemma map_nth_some : forall {X} (l : list X) sel, Forall (fun i => i < length l) sel -> exists r, map (nth_error l) sel = map Some r.
Proof.
  intros X l sel F. induction F as [|i sel Hi F (r & IH)]; [exists []; reflexivity|].
  destruct (nth_error l i) as [a|] eqn:E; [|apply nth_error_None in E; lia]. exists (a :: r). cbn [map]. congruence.
Qed.
Lemma map_some_nth : forall {X} (l : list X) sel r k i, map (nth_error l) sel = map Some r -> nth_error sel k = Some i ->
  nth_error r k = nth_error l i.
Proof.
  intros X l sel; induction sel as [|j sel IH]; intros [|a r] [|k] i E Ek; cbn in *; try discriminate.
  - injection Ek as ->. congruence.
  - injection E as E1 E2. eauto.
Qed.
Lemma map_some_length : forall {X} (l : list X) sel r, map (nth_error l) sel = map Some r -> length r = length sel.
Proof. intros X l sel r E. apply (f_equal (@length _)) in E. rewrite !map_length in E. auto. Qed.

Lemma field_chans_0 : forall r ft (a chans : list V), length a = size r -> field_chans size (r :: ft) (a ++ chans) 0 = a.
Proof.
  intros r ft a chans La. unfold field_chans. cbn [nth_error firstn map list_sum fold_right skipn]. rewrite <- La.
  rewrite firstn_app, Nat.sub_diag, firstn_O, app_nil_r, firstn_all. reflexivity.
Qed.
Lemma field_chans_S : forall r ft (a chans : list V) k, length a = size r ->
  field_chans size (r :: ft) (a ++ chans) (S k) = field_chans size ft chans k.
Proof.
  intros r ft a chans k La. unfold field_chans. cbn [nth_error firstn map]. destruct (nth_error ft k); [|reflexivity].
  change (list_sum (size r :: ?l)) with (size r + list_sum l). rewrite skipn_app, skipn_all2 by lia. cbn [app]. do 2 f_equal. lia.
Qed.
(** the channels of a field of a selection *)
Lemma picks_field : forall ft (chans : list V) sel ft' chans' k i, length chans = type_size size ft ->
  picks size ft chans sel ft' chans' -> nth_error sel k = Some i ->
  field_chans size ft' chans' k = field_chans size ft chans i.
Proof.
  intros ft chans sel; induction sel as [|j sel IH]; intros [|r ft'] chans' k i L [E1 E2] Ek.
  - destruct k; discriminate.
  - discriminate.
  - discriminate.
  - cbn [map] in E1. injection E1 as Er E1. cbn [flat_map] in E2. subst chans'.
    pose proof (field_chans_length size ft chans j r L Er) as Lj.
    destruct k as [|k]; cbn [nth_error] in Ek.
    + injection Ek as <-. apply field_chans_0, Lj.
    + rewrite field_chans_S by exact Lj. apply (IH ft' _ k i L (conj E1 eq_refl) Ek).
Qed.
Lemma picks_compose : forall ft (chans : list V) sel ft' chans' sel' sel'' ft'' chans'', length chans = type_size size ft ->
  picks size ft chans sel ft' chans' -> picks size ft' chans' sel' ft'' chans'' ->
  map (nth_error sel) sel' = map Some sel'' -> picks size ft chans sel'' ft'' chans''.
Proof.
  intros ft chans sel ft' chans' sel' sel'' ft'' chans'' L P P' E. destruct P' as [P1 P2]. split.
  - rewrite <- P1. clear P1 P2. revert sel'' E. induction sel' as [|k sel' IH]; intros [|i sel''] E; cbn [map] in *; try discriminate; [reflexivity|].
    injection E as E1 E2. rewrite (map_some_nth _ _ _ _ _ (proj1 P) E1). f_equal. apply IH; assumption.
  - rewrite P2. clear P1 P2. revert sel'' E. induction sel' as [|k sel' IH]; intros [|i sel''] E; cbn [map flat_map] in *; try discriminate; [reflexivity|].
    injection E as E1 E2. rewrite (picks_field _ _ _ _ _ _ _ L P E1). f_equal. apply IH; assumption.
Qed.

(** index_select on positions *)
Lemma index_select_ok : forall (ft : list A) sel r, sel <> [] -> map (nth_error ft) sel = map Some r ->
  index_select ft (map Z.of_nat sel) = Ret r.
Proof.
  intros ft sel r Ne E. unfold index_select. rewrite map_length.
  destruct (Nat.eqb_spec (length sel) 0) as [L|L]; [destruct sel; [congruence|discriminate]|]. cbn [negb assert_ bind].
  assert (Forall (fun i => i < length ft) sel) as F.
  { clear - E. revert r E. induction sel as [|i sel IH]; intros [|a r] E; try discriminate; constructor; cbn [map] in E; injection E as E1 E2.
    - apply nth_error_Some; congruence.
    - eauto. }
  rewrite (proj2 (forallb_forall _ _)).
  2:{ intros z Hz. apply in_map_iff in Hz. destruct Hz as (i & <- & Hi). rewrite Forall_forall in F. apply Z.ltb_lt. specialize (F i Hi). lia. }
  cbn [assert_ bind]. rewrite (proj2 (forallb_forall _ _)).
  2:{ intros z Hz. apply in_map_iff in Hz. destruct Hz as (i & <- & Hi). apply Z.leb_le; lia. }
  cbn [assert_ bind].
  assert (mapM (py_get ft) (map Z.of_nat sel) = Ret r) as ->.
  { clear - E. revert r E. induction sel as [|i sel IH]; intros [|a r] E; try discriminate; [reflexivity|]. cbn [map] in E; injection E as E1 E2.
    cbn [map mapM]. rewrite (py_get_nat _ _ _ _ E1). cbn [bind]. rewrite (IH r E2). reflexivity. }
  cbn [bind]. unfold mk_type. rewrite (map_some_length _ _ _ E). destruct (Nat.eqb_spec (length sel) 0); [lia|]. reflexivity.
Qed.

(** *** ReshuffleModule *)
Lemma mk_reshuffle_ok : forall (ft : list A) sel, Forall (fun i => i < length ft) sel -> (forall i, i < length ft -> In i sel) -> sel <> [] ->
  exists r, map (nth_error ft) sel = map Some r /\ mk_reshuffle size ft (map Z.of_nat sel) =
    Ret {| rs_in := ft; rs_out := r; rs_indices := flat_map (fun i => seq (offset size ft i) (offset size ft (S i) - offset size ft i)) sel |}.
Proof.
  intros ft sel F C Ne. destruct (map_nth_some ft sel F) as (r & Er).
  assert (exists idx, mapM (fun c => q <- py_get ft c ;; p <- py_get (fields_start size ft) c ;; Ret (seq p (size q))) (map Z.of_nat sel) = Ret idx
    /\ concat idx = flat_map (fun i => seq (offset size ft i) (offset size ft (S i) - offset size ft i)) sel) as (idx & Ei & Ec).
  { clear - Er. revert r Er. induction sel as [|i sel IH]; intros [|a r] Er; try discriminate; [exists []; split; reflexivity|].
    cbn [map] in Er. injection Er as E1 E2. destruct (IH r E2) as (idx & Ei & Ec). cbn [map mapM].
    assert (py_index (length ft) (Z.of_nat i) = Ret i) as Ix by (apply py_index_nat, nth_error_Some; congruence).
    destruct (py_get_fields size _ _ _ _ Ix E1) as (-> & -> & _). cbn [bind]. rewrite Ei; cbn [bind].
    eexists; split; [reflexivity|]. cbn [concat flat_map]. rewrite Ec, (offset_S size _ _ _ E1). do 2 f_equal. lia. }
  exists r. split; [exact Er|]. unfold mk_reshuffle. rewrite (proj2 (forallb_forall _ _)).
  2:{ intros z Hz. apply in_map_iff in Hz. destruct Hz as (i & <- & Hi). rewrite Forall_forall in F. specialize (F i Hi).
      apply andb_true_intro; split; [apply Z.leb_le|apply Z.ltb_lt]; lia. }
  rewrite (proj2 (forallb_forall _ _)).
  2:{ intros i Hi. apply in_seq in Hi. apply existsb_exists. exists (Z.of_nat i). split; [apply in_map, C; lia|apply Z.eqb_refl]. }
  cbn [andb assert_ bind]. rewrite (index_select_ok _ _ _ Ne Er); cbn [bind]. rewrite Ei; cbn [bind]. rewrite Ec. reflexivity.
Qed.
Lemma reshuffle_forward_ok : forall teqb (x : gtensor A V) m sel, good x -> teqb (g_type x) (g_type x) = true ->
  mk_reshuffle size (g_type x) (map Z.of_nat sel) = Ret m ->
  Forall (fun i => i < length (g_type x)) sel -> (forall i, i < length (g_type x) -> In i sel) -> sel <> [] ->
  exists y, rs_out m = g_type y /\ reshuffle_forward size teqb m x = Ret y /\ good y /\
    picks size (g_type x) (g_chans x) sel (g_type y) (g_chans y).
Proof.
  intros teqb x m sel G Te Em F C Ne. destruct (mk_reshuffle_ok (g_type x) sel F C Ne) as (r & Er & Em').
  rewrite Em in Em'. apply Ret_inj in Em'; subst m.
  exists {| g_type := r; g_chans := flat_map (field_chans size (g_type x) (g_chans x)) sel |}.
  split; [reflexivity|split; [|split]].
  - unfold reshuffle_forward. cbn [rs_in rs_indices rs_out]. rewrite Te; cbn [assert_ bind].
    rewrite (listed_chans size _ _ _ _ G Er); cbn [bind]. unfold mk_gtensor.
    rewrite (picked_length size _ _ _ _ G Er), Nat.eqb_refl. reflexivity.
  - unfold FieldProofs.good; cbn [g_type g_chans]. apply (picked_length size _ _ _ _ G Er).
  - split; [exact Er|reflexivity].
Qed.
(** the module accepts exactly the lists of positions that mention every field *)
Theorem reshuffle_moves : forall teqb (x : gtensor A V) perm, good x -> teqb (g_type x) (g_type x) = true -> g_type x <> [] ->
  (forall y, (exists m, mk_reshuffle size (g_type x) perm = Ret m /\ reshuffle_forward size teqb m x = Ret y) <->
   exists sel, perm = map Z.of_nat sel /\ (forall i, In i sel <-> i < length (g_type x)) /\
     picks size (g_type x) (g_chans x) sel (g_type y) (g_chans y)).
Proof.
  intros teqb x perm G Te Ne y.
  assert (forall sel, (forall i, In i sel <-> i < length (g_type x)) -> sel <> []) as Nes.
  { intros sel H ->. destruct (g_type x) as [|a t]; [congruence|]. apply (H 0). cbn; lia. }
  split.
  - intros (m & Em & Ey). pose proof Em as Em0. unfold mk_reshuffle in Em.
    match type of Em with context [assert_ ?c] => destruct c eqn:Ec; [|discriminate] end. clear Em.
    apply andb_prop in Ec. destruct Ec as [E1 E2]. rewrite forallb_forall in E1, E2.
    exists (map Z.to_nat perm).
    assert (perm = map Z.of_nat (map Z.to_nat perm)) as Ep.
    { rewrite map_map. rewrite <- (map_id perm) at 1. apply map_ext_in. intros z Hz. specialize (E1 z Hz). apply andb_prop in E1.
      destruct E1 as [E1 _]. apply Z.leb_le in E1. lia. }
    assert (forall i, In i (map Z.to_nat perm) <-> i < length (g_type x)) as Hs.
    { intros i; split; intros Hi.
      - apply in_map_iff in Hi. destruct Hi as (z & <- & Hz). specialize (E1 z Hz). apply andb_prop in E1.
        destruct E1 as [E1 E3]. apply Z.leb_le in E1. apply Z.ltb_lt in E3. lia.
      - specialize (E2 i ltac:(apply in_seq; lia)). apply existsb_exists in E2. destruct E2 as (z & Hz & Ez). apply Z.eqb_eq in Ez. subst z.
        apply in_map_iff. exists (Z.of_nat i). split; [apply Nat2Z.id|exact Hz]. }
    split; [exact Ep|split; [exact Hs|]]. rewrite Ep in Em0.
    destruct (reshuffle_forward_ok teqb x m (map Z.to_nat perm) G Te Em0) as (y' & _ & Ey' & _ & Py); try (intros; apply Hs; assumption).
    { apply Forall_forall. intros i Hi; apply Hs, Hi. }
    { apply Nes, Hs. }
    rewrite Ey in Ey'. apply Ret_inj in Ey'; subst y'. exact Py.
  - intros (sel & -> & Hs & Py). assert (Forall (fun i => i < length (g_type x)) sel) as F by (apply Forall_forall; intros i Hi; apply Hs, Hi).
    destruct (mk_reshuffle_ok (g_type x) sel F (fun i => proj2 (Hs i)) (Nes sel Hs)) as (r & Er & Em).
    eexists. split; [exact Em|]. destruct (reshuffle_forward_ok teqb x _ sel G Te Em F (fun i => proj2 (Hs i)) (Nes sel Hs)) as (y' & _ & -> & _ & Py').
    f_equal. destruct y as [t c], y' as [t' c']. cbn [g_type g_chans] in *. destruct Py as [Q1 Q2], Py' as [Q1' Q2']. subst c c'. f_equal.
    rewrite Q1 in Q1'. clear - Q1'. revert t' Q1'. induction t as [|a t IH]; intros [|b t'] E; try discriminate; [reflexivity|].
    cbn [map] in E. injection E as -> E. f_equal. auto.
Qed.
End Sel.

(** *** labels *)
Section Labels.
Context {A V L : Type}.
Variable size : A -> nat.
Variable leqb : L -> L -> bool.
Hypothesis leqb_ok : forall a b, leqb a b = true <-> a = b.

Fixpoint pos (k : nat) (ls : list L) (l : L) : list nat :=
  match ls with [] => [] | l' :: ls' => (if leqb l' l then [k] else []) ++ pos (S k) ls' l end.
Lemma pos_shift : forall ls k l, pos (S k) ls l = map S (pos k ls l).
Proof. induction ls as [|l' ls IH]; intros k l; [reflexivity|]. cbn [pos]. rewrite map_app, IH. destruct (leqb l' l); reflexivity. Qed.
Lemma labelled_pos : forall ls l, labelled leqb ls l = pos 0 ls l.
Proof.
  intros ls l; unfold labelled. induction ls as [|l' ls IH]; [reflexivity|]. cbn [length seq filter nth_error pos].
  rewrite pos_shift, <- IH, <- seq_shift.
  assert (forall s, filter (fun i => match nth_error (l' :: ls) i with Some x => leqb x l | None => false end) (map S s) =
     map S (filter (fun i => match nth_error ls i with Some x => leqb x l | None => false end) s)) as H.
  { induction s as [|a s IHs]; [reflexivity|]. cbn [map filter nth_error]. destruct (match nth_error ls a with Some x => leqb x l | None => false end); cbn [map]; rewrite IHs; reflexivity. }
  rewrite H. destruct (leqb l' l); reflexivity.
Qed.
Lemma pos_app : forall ls ms k l, pos k (ls ++ ms) l = pos k ls l ++ pos (k + length ls) ms l.
Proof.
  induction ls as [|l' ls IH]; intros ms k l; cbn [app pos length]; [rewrite Nat.add_0_r; reflexivity|].
  rewrite IH, app_assoc. do 2 f_equal. lia.
Qed.
Lemma labelled_snoc : forall ls x l, labelled leqb (ls ++ [x]) l = labelled leqb ls l ++ (if leqb x l then [length ls] else []).
Proof. intros ls x l. rewrite !labelled_pos, pos_app. cbn [pos Nat.add]. rewrite app_nil_r. reflexivity. Qed.
Lemma labelled_In : forall ls l i, In i (labelled leqb ls l) <-> nth_error ls i = Some l.
Proof.
  intros ls l i. unfold labelled. rewrite filter_In, in_seq. destruct (nth_error ls i) as [x|] eqn:E.
  - rewrite leqb_ok. split; [intros [_ ->]; reflexivity|]. intros H. injection H as ->. split; [|reflexivity].
    split; [lia|]. apply nth_error_Some. congruence.
  - split; [intros [_ H]; discriminate|discriminate].
Qed.
Lemma labelled_lt : forall ls l, Forall (fun i => i < length ls) (labelled leqb ls l).
Proof. intros ls l. apply Forall_forall. intros i Hi. unfold labelled in Hi. apply filter_In in Hi. destruct Hi as [Hi _]. apply in_seq in Hi. lia. Qed.
Lemma labelled_nonempty : forall ls l, In l ls -> labelled leqb ls l <> [].
Proof.
  intros ls l H. apply In_nth_error in H. destruct H as (i & E). apply labelled_In in E. intros K. rewrite K in E. exact E.
Qed.
Lemma labelled_NoDup : forall ls l, NoDup (labelled leqb ls l).
Proof. intros ls l. unfold labelled. apply NoDup_filter, seq_NoDup. Qed.

Definition ga {X} (d : list (L * list X)) (l : L) : list X := match dget leqb d l with Some y => y | None => [] end.
Lemma ga_dappend : forall {X} (d : list (L * list X)) l x l', ga (dappend leqb d l x) l' = ga d l' ++ (if leqb l l' then x else []).
Proof.
  intros X d l x l'. unfold ga at 1, dappend. rewrite (dget_dset leqb leqb_ok). destruct (leqb l l') eqn:E.
  - apply leqb_ok in E; subst l'. reflexivity.
  - rewrite app_nil_r. reflexivity.
Qed.
Lemma dget_dappend : forall {X} (d : list (L * list X)) l x l', dget leqb (dappend leqb d l x) l' = None -> l <> l' /\ dget leqb d l' = None.
Proof.
  intros X d l x l' H. unfold dappend in H. rewrite (dget_dset leqb leqb_ok) in H. destruct (leqb l l') eqn:E; [discriminate|].
  split; [|exact H]. intros ->. rewrite (proj2 (leqb_ok _ _) eq_refl) in E. discriminate.
Qed.
Lemma fields_fold : forall ls k d l, let d' := fold_left (fun d cl => dappend leqb d (snd cl) [fst cl]) (combine (seq k (length ls)) ls) d in
  ga d' l = ga d l ++ pos k ls l /\ (dget leqb d' l = None -> ~ In l ls).
Proof.
  induction ls as [|a ls IH]; intros k d l; cbv zeta; cbn [length seq combine fold_left pos fst snd].
  - rewrite app_nil_r. split; [reflexivity|intros _ []].
  - destruct (IH (S k) (dappend leqb d a [k]) l) as [H1 H2]. rewrite H1, ga_dappend, <- app_assoc. split; [destruct (leqb a l); reflexivity|].
    intros H. assert (forall ls k d, dget leqb (fold_left (fun d cl => dappend leqb d (snd cl) [fst cl]) (combine (seq k (length ls)) ls) d) l = None -> dget leqb d l = None) as K.
    { clear - leqb_ok. induction ls as [|b ls IHl]; intros k d H; cbn [length seq combine fold_left fst snd] in H; [exact H|].
      apply IHl in H. apply dget_dappend in H. tauto. }
    intros [->|Hl]; [|exact (H2 H Hl)]. apply K in H. apply dget_dappend in H. tauto.
Qed.
Lemma fields_lookup : forall labels l, In l labels -> lookup leqb (fields_by_label leqb labels) l = Ret (labelled leqb labels l).
Proof.
  intros labels l Hl. destruct (fields_fold labels 0 [] l) as [H1 H2]. unfold lookup, fields_by_label.
  destruct (dget leqb (fold_left _ _ []) l) as [f|] eqn:E; [|exfalso; exact (H2 eq_refl Hl)].
  rewrite labelled_pos. change (pos 0 labels l) with (ga (X := nat) [] l ++ pos 0 labels l). rewrite <- H1. unfold ga. rewrite E. reflexivity.
Qed.

(** dictionaries filled by a loop over the labels *)
Lemma fill_dict : forall {X} (f : L -> res X) (F : L -> X) ls d, (forall l, In l ls -> f l = Ret (F l)) ->
  exists d', fold_left (fun r l => d <- r ;; t <- f l ;; Ret (dset leqb d l t)) ls (Ret d) = Ret d' /\
    forall l, dget leqb d' l = if existsb (leqb l) ls then Some (F l) else dget leqb d l.
Proof.
  intros X f F ls; induction ls as [|a ls IH]; intros d H; cbn [fold_left].
  - exists d. split; [reflexivity|]. intros l. reflexivity.
  - cbn [bind]. rewrite (H a) by (left; reflexivity). cbn [bind].
    destruct (IH (dset leqb d a (F a))) as (d' & E & Hd); [intros l Hl; apply H; right; exact Hl|].
    exists d'. split; [exact E|]. intros l. rewrite Hd, (dget_dset leqb leqb_ok). cbn [existsb].
    destruct (existsb (leqb l) ls); [rewrite orb_true_r; reflexivity|]. rewrite orb_false_r.
    destruct (leqb a l) eqn:E1.
    + apply leqb_ok in E1; subst a. rewrite (proj2 (leqb_ok l l) eq_refl). reflexivity.
    + destruct (leqb l a) eqn:E2; [|reflexivity]. apply leqb_ok in E2; subst a. rewrite (proj2 (leqb_ok l l) eq_refl) in E1. discriminate.
Qed.
Lemma existsb_leqb : forall l ls, In l ls -> existsb (leqb l) ls = true.
Proof. intros l ls H. apply existsb_exists. exists l. split; [exact H|apply leqb_ok; reflexivity]. Qed.

Definition chosen (ft : list A) (sel : list nat) : list A := flat_map (fun i => match nth_error ft i with Some r => [r] | None => [] end) sel.
Lemma chosen_ok : forall ft sel, Forall (fun i => i < length ft) sel -> map (nth_error ft) sel = map Some (chosen ft sel).
Proof.
  intros ft sel F. induction F as [|i sel Hi F IH]; [reflexivity|]. cbn [map chosen flat_map]. fold (chosen ft sel).
  destruct (nth_error ft i) eqn:E; [|apply nth_error_None in E; lia]. cbn [app map]. congruence.
Qed.

Lemma group_ok : forall ft labels, length labels = length ft ->
  exists d, group_by_labels leqb ft labels = Ret d /\ forall l, In l labels -> lookup leqb d l = Ret (chosen ft (labelled leqb labels l)).
Proof.
  intros ft labels Len. unfold group_by_labels. rewrite Len, Nat.eqb_refl; cbn [assert_ bind].
  destruct (fill_dict (fun l => f <- lookup leqb (fields_by_label leqb labels) l ;; index_select ft (map Z.of_nat f))
    (fun l => chosen ft (labelled leqb labels l)) labels []) as (d & E & Hd).
  - intros l Hl. rewrite (fields_lookup labels l Hl); cbn [bind]. apply index_select_ok; [apply labelled_nonempty, Hl|].
    apply chosen_ok. rewrite <- Len. apply labelled_lt.
  - exists d. split.
    + rewrite <- E. clear. generalize (Ret (@nil (L * list A))). generalize labels at 2 4 as ls.
      induction ls as [|a ls IH]; intros r; [reflexivity|]. cbn [fold_left]. rewrite <- IH. f_equal.
      destruct r as [|d]; [reflexivity|]. cbn [bind]. destruct (lookup leqb (fields_by_label leqb labels) a); reflexivity.
    + intros l Hl. unfold lookup. rewrite Hd, existsb_leqb by exact Hl. reflexivity.
Qed.

Definition chan_list (ft : list A) (sel : list nat) : list nat :=
  flat_map (fun i => seq (offset size ft i) (offset size ft (S i) - offset size ft i)) sel.
Lemma indices_fold : forall labels ft d p l, length labels = length ft ->
  ga (indices_by_label size leqb d p labels ft) l =
    ga d l ++ flat_map (fun i => seq (p + offset size ft i) (offset size ft (S i) - offset size ft i)) (labelled leqb labels l) /\
  (dget leqb (indices_by_label size leqb d p labels ft) l = None -> ~ In l labels /\ dget leqb d l = None).
Proof.
  induction labels as [|a labels IH]; intros [|r ft] d p l Len; try discriminate; cbn [indices_by_label].
  - rewrite app_nil_r. split; [reflexivity|]. intros H; split; [intros []|exact H].
  - cbn [length] in Len. destruct (IH ft (dappend leqb d a (seq p (size r))) (p + size r) l ltac:(lia)) as [H1 H2]. split.
    + rewrite H1, ga_dappend, <- app_assoc. f_equal. rewrite !labelled_pos. cbn [pos]. rewrite flat_map_app, pos_shift. f_equal.
      * destruct (leqb a l); [|reflexivity]. cbn [flat_map]. rewrite app_nil_r. unfold offset. cbn [firstn map list_sum fold_right].
        f_equal; lia.
      * induction (pos 0 labels l) as [|i s IHs]; [reflexivity|]. cbn [map flat_map]. rewrite IHs. f_equal.
        unfold offset. cbn [firstn map]. change (list_sum (size r :: ?l)) with (size r + list_sum l).
        change (firstn (S i) ft) with (match ft with [] => [] | a :: t => a :: firstn i t end). f_equal; lia.
    + intros H. apply H2 in H. destruct H as [Hn Hd]. apply dget_dappend in Hd. destruct Hd as [Na Hd]. split; [|exact Hd].
      intros [K|K]; [congruence|auto].
Qed.
Lemma indices_lookup : forall labels ft l, length labels = length ft -> In l labels ->
  lookup leqb (indices_by_label size leqb [] 0 labels ft) l = Ret (chan_list ft (labelled leqb labels l)).
Proof.
  intros labels ft l Len Hl. destruct (indices_fold labels ft [] 0 l Len) as [H1 H2]. unfold lookup.
  destruct (dget leqb (indices_by_label size leqb [] 0 labels ft) l) as [f|] eqn:E; [|exfalso; exact (proj1 (H2 eq_refl) Hl)].
  unfold ga in H1. rewrite E in H1. cbn [dget app] in H1. rewrite H1. reflexivity.
Qed.

(** labels that form one run *)
Definition run_inv (pre : list L) (last : option L) (d : list (L * bool)) : Prop :=
  last = nth_error (rev pre) 0 /\
  forall l, match dget leqb d l with
            | None => ~ In l pre
            | Some b => In l pre /\ (b = true -> exists a k, labelled leqb pre l = seq a k /\ (last = Some l -> a + k = length pre))
            end.
Lemma not_labelled : forall ls l, ~ In l ls -> labelled leqb ls l = [].
Proof.
  intros ls l H. destruct (labelled leqb ls l) as [|i s] eqn:E; [reflexivity|]. exfalso. apply H.
  assert (In i (labelled leqb ls l)) as K by (rewrite E; left; reflexivity). apply labelled_In in K. apply nth_error_In in K. exact K.
Qed.
Lemma contiguous_inv : forall labels pre last d, run_inv pre last d ->
  exists last', run_inv (pre ++ labels) last' (contiguous_labels leqb d last labels).
Proof.
  induction labels as [|x labels IH]; intros pre last d [Hl Hd]; cbn [contiguous_labels].
  - exists last. rewrite app_nil_r. split; assumption.
  - replace (pre ++ x :: labels) with ((pre ++ [x]) ++ labels) by (rewrite <- app_assoc; reflexivity). apply IH.
    split; [rewrite rev_app_distr; reflexivity|]. intros l.
    set (same := match last with Some l' => leqb x l' | None => false end).
    assert (same = true -> last = Some x) as Hs.
    { unfold same. destruct last as [y|]; [|discriminate]. intros E. apply leqb_ok in E. congruence. }
    assert (forall b, x <> l -> dget leqb d l = Some b -> In l (pre ++ [x]) /\ (b = true -> exists a k,
       labelled leqb (pre ++ [x]) l = seq a k /\ (Some x = Some l -> a + k = length (pre ++ [x])))) as Other.
    { intros b Nx Eb. specialize (Hd l). rewrite Eb in Hd. destruct Hd as [Hi Hb]. split; [apply in_or_app; left; exact Hi|].
      intros Tb. destruct (Hb Tb) as (a & k & E & _). exists a, k. split; [|intros K; congruence].
      rewrite labelled_snoc. destruct (leqb x l) eqn:E1; [apply leqb_ok in E1; congruence|]. rewrite app_nil_r. exact E. }
    assert (x <> l -> dget leqb d l = None -> ~ In l (pre ++ [x])) as Absent.
    { intros Nx En K. specialize (Hd l). rewrite En in Hd. apply in_app_or in K. destruct K as [K|[K|[]]]; auto. }
    destruct same eqn:Es.
    + pose proof (Hs eq_refl) as Hlast. destruct (dget leqb d l) as [b|] eqn:Eb.
      * destruct (leqb x l) eqn:E1; [|apply Other; [|reflexivity]; intros ->; rewrite (proj2 (leqb_ok l l) eq_refl) in E1; discriminate].
        apply leqb_ok in E1; subst l. pose proof (Hd x) as Hx. rewrite Eb in Hx. destruct Hx as [Hi Hb].
        split; [apply in_or_app; left; exact Hi|]. intros Tb. destruct (Hb Tb) as (a & k & E & Ek). specialize (Ek Hlast).
        exists a, (k + 1). split; [|intros _; rewrite app_length; cbn; lia].
        rewrite labelled_snoc, (proj2 (leqb_ok x x) eq_refl), E, seq_app, Ek. reflexivity.
      * destruct (leqb x l) eqn:E1; [|apply Absent; [|reflexivity]; intros ->; rewrite (proj2 (leqb_ok l l) eq_refl) in E1; discriminate].
        apply leqb_ok in E1; subst l. exfalso. specialize (Hd x). rewrite Eb in Hd. apply Hd.
        rewrite Hl in Hlast. apply nth_error_In in Hlast. apply in_rev in Hlast. exact Hlast.
    + destruct (dget leqb d x) as [bx|] eqn:Ex; rewrite (dget_dset leqb leqb_ok); destruct (leqb x l) eqn:E1.
      * apply leqb_ok in E1; subst l. split; [apply in_or_app; right; left; reflexivity|discriminate].
      * assert (x <> l) as Nx by (intros ->; rewrite (proj2 (leqb_ok l l) eq_refl) in E1; discriminate).
        destruct (dget leqb d l) eqn:Eb; [apply Other; auto|apply Absent; auto].
      * apply leqb_ok in E1; subst l. split; [apply in_or_app; right; left; reflexivity|]. intros _.
        exists (length pre), 1. split; [|intros _; rewrite app_length; cbn; lia].
        specialize (Hd x). rewrite Ex in Hd. rewrite labelled_snoc, (not_labelled _ _ Hd), (proj2 (leqb_ok x x) eq_refl). reflexivity.
      * assert (x <> l) as Nx by (intros ->; rewrite (proj2 (leqb_ok l l) eq_refl) in E1; discriminate).
        destruct (dget leqb d l) eqn:Eb; [apply Other; auto|apply Absent; auto].
Qed.
Lemma contiguous_ok : forall labels l, In l labels -> exists b, dget leqb (contiguous_labels leqb [] None labels) l = Some b /\
  (b = true -> exists a k, labelled leqb labels l = seq a k).
Proof.
  intros labels l Hl. destruct (contiguous_inv labels [] None []) as (last' & _ & H).
  { split; [reflexivity|]. intros l'. cbn. auto. }
  cbn [app] in H. specialize (H l). destruct (dget leqb (contiguous_labels leqb [] None labels) l) as [b|]; [|contradiction].
  exists b. split; [reflexivity|]. intros Tb. destruct (proj2 H Tb) as (a & k & E & _). eauto.
Qed.

Lemma chan_list_run : forall ft k a, a + k <= length ft ->
  chan_list ft (seq a k) = seq (offset size ft a) (offset size ft (a + k) - offset size ft a).
Proof.
  intros ft; induction k as [|k IH]; intros a H; [rewrite Nat.add_0_r, Nat.sub_diag; reflexivity|].
  cbn [seq]. unfold chan_list. cbn [flat_map]. fold (chan_list ft (seq (S a) k)). rewrite IH by lia.
  pose proof (offset_mono size ft a (S a) ltac:(lia)). pose proof (offset_mono size ft (S a) (S a + k) ltac:(lia)).
  replace (a + S k) with (S a + k) by lia.
  replace (offset size ft (S a + k) - offset size ft a) with
    ((offset size ft (S a) - offset size ft a) + (offset size ft (S a + k) - offset size ft (S a))) by lia.
  rewrite seq_app. do 2 f_equal. lia.
Qed.
Lemma min_max_seq : forall a k, 0 < k -> list_min (seq a k) = Ret a /\ list_max (seq a k) = Ret (a + k - 1).
Proof.
  intros a [|k] H; [lia|]. cbn [seq list_min list_max]. 
  assert (forall k b m, m <= b -> fold_left Nat.min (seq b k) m = m) as Hm.
  { clear. induction k as [|k IH]; intros b m Hb; [reflexivity|]. cbn [seq fold_left]. rewrite Nat.min_l by lia. apply IH; lia. }
  assert (forall k b m, m <= b -> fold_left Nat.max (seq b k) m = match k with 0 => m | S _ => b + k - 1 end) as HM.
  { clear. induction k as [|k IH]; intros b m Hb; [reflexivity|]. cbn [seq fold_left]. rewrite Nat.max_r by lia. rewrite IH by lia.
    destruct k; lia. }
  rewrite Hm, HM by lia. split; [reflexivity|]. f_equal. destruct k; lia.
Qed.

Lemma dget_mapM : forall {X Y} (g : L * X -> res (L * Y)) (d : list (L * X)) d', mapM g d = Ret d' ->
  (forall lc kb, g lc = Ret kb -> fst kb = fst lc) ->
  forall l x, dget leqb d l = Some x -> exists y, g (l, x) = Ret (l, y) /\ dget leqb d' l = Some y.
Proof.
  intros X Y g d; induction d as [|[a b] d IH]; intros d' E K l x Hx; [discriminate|]. cbn [mapM] in E.
  apply bind_Ret in E. destruct E as ([a' y] & Eu & E). pose proof (K _ _ Eu) as Ka. cbn [fst] in Ka; subst a'.
  apply bind_Ret in E. destruct E as (d2 & E2 & E). apply Ret_inj in E; subst d'. cbn [dget] in *.
  destruct (leqb a l) eqn:El; [|eapply IH; eassumption]. apply leqb_ok in El; subst a. injection Hx as <-. eauto.
Qed.
Lemma dget_In : forall {X} (d : list (L * X)) a b, In (a, b) d -> dget leqb d a <> None.
Proof.
  intros X d a b; induction d as [|[c e] d IH]; intros H; [destruct H|]. cbn [dget]. destruct H as [H|H].
  - injection H as <- <-. rewrite (proj2 (leqb_ok c c) eq_refl). discriminate.
  - destruct (leqb c a); [discriminate|auto].
Qed.
End Labels.
