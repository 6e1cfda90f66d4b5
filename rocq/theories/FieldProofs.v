(** Offsets of fields, indexing and splitting of geometric tensors. *)
From Coq Require Import List ZArith Arith Bool Lia.
From Verif Require Import LibRes LibPy FieldModel SpecField.
Import ListNotations.

Section Field.
Context {A V : Type}.
Variable size : A -> nat.
Implicit Types (ft : list A) (chans : list V).
Definition offset ft (i : nat) : nat := list_sum (map size (firstn i ft)).

Lemma list_sum_app' : forall l m, list_sum (l ++ m) = list_sum l + list_sum m.
Proof. intros; apply list_sum_app. Qed.
Lemma offset_S : forall ft i r, nth_error ft i = Some r -> offset ft (S i) = offset ft i + size r.
Proof.
  unfold offset. induction ft as [|a ft IH]; intros [|i] r E; cbn in E; try discriminate.
  - injection E as ->. cbn. lia.
  - cbn [firstn map]. change (list_sum (size a :: ?l)) with (size a + list_sum l).
    specialize (IH i r E). cbn [firstn] in IH. rewrite IH. lia.
Qed.
Lemma offset_all : forall ft i, length ft <= i -> offset ft i = type_size size ft.
Proof. intros ft i H. unfold offset, type_size. rewrite firstn_all2 by exact H. reflexivity. Qed.
Lemma offset_mono : forall ft i j, i <= j -> offset ft i <= offset ft j.
Proof.
  intros ft i j H. induction H as [|j H IH]; [lia|].
  destruct (nth_error ft j) as [r|] eqn:E; [rewrite (offset_S _ _ _ E); lia|].
  apply nth_error_None in E. rewrite (offset_all ft (S j)), <- (offset_all ft j) by lia. exact IH.
Qed.
Lemma offset_le : forall ft i, offset ft i <= type_size size ft.
Proof.
  intros ft i. destruct (Nat.le_gt_cases (length ft) i) as [H|H]; [rewrite offset_all by exact H; lia|].
  rewrite <- (offset_all ft (length ft)) by lia. apply offset_mono; lia.
Qed.

Lemma starts_nth : forall ft p i, nth_error (starts_from size p ft) i =
  match nth_error ft i with Some _ => Some (p + offset ft i) | None => None end.
Proof.
  unfold offset. induction ft as [|a ft IH]; intros p [|i]; cbn [starts_from nth_error]; try reflexivity.
  - cbn. rewrite Nat.add_0_r. reflexivity.
  - rewrite IH. cbn [firstn map]. change (list_sum (size a :: ?l)) with (size a + list_sum l).
    destruct (nth_error ft i); [f_equal; lia|reflexivity].
Qed.
Lemma ends_nth : forall ft p i, nth_error (ends_from size p ft) i =
  match nth_error ft i with Some _ => Some (p + offset ft (S i)) | None => None end.
Proof.
  unfold offset. induction ft as [|a ft IH]; intros p [|i]; cbn [ends_from nth_error]; try reflexivity.
  - cbn. rewrite Nat.add_0_r. reflexivity.
  - rewrite IH. cbn [firstn map]. change (list_sum (size a :: ?l)) with (size a + list_sum l).
    destruct (nth_error ft i); [f_equal; lia|reflexivity].
Qed.
Lemma starts_length : forall ft p, length (starts_from size p ft) = length ft.
Proof. induction ft as [|a ft IH]; intros p; cbn; [|rewrite IH]; reflexivity. Qed.
Lemma ends_length : forall ft p, length (ends_from size p ft) = length ft.
Proof. induction ft as [|a ft IH]; intros p; cbn; [|rewrite IH]; reflexivity. Qed.

(** *** C33 *)
Lemma fields_tile : forall ft,
  length (fields_start size ft) = length ft /\ length (fields_end size ft) = length ft /\
  (forall i r, nth_error ft i = Some r -> exists s, nth_error (fields_start size ft) i = Some s /\
     nth_error (fields_end size ft) i = Some (s + size r) /\
     (i = 0 -> s = 0) /\
     (forall r', nth_error ft (S i) = Some r' -> nth_error (fields_start size ft) (S i) = Some (s + size r)) /\
     (S i = length ft -> s + size r = type_size size ft)) /\
  (forall c, c < type_size size ft -> exists i s e, nth_error (fields_start size ft) i = Some s /\
     nth_error (fields_end size ft) i = Some e /\ s <= c < e /\
     forall i' s' e', nth_error (fields_start size ft) i' = Some s' -> nth_error (fields_end size ft) i' = Some e' ->
       s' <= c < e' -> i' = i).
Proof.
  intros ft. unfold fields_start, fields_end. split; [apply starts_length|]. split; [apply ends_length|]. split.
  - intros i r E. exists (offset ft i). rewrite !starts_nth, ends_nth, E. cbn [Nat.add]. rewrite (offset_S _ _ _ E).
    split; [reflexivity|]. split; [reflexivity|]. split; [intros ->; reflexivity|]. split.
    + intros r' ->. reflexivity.
    + intros L. rewrite <- (offset_S _ _ _ E). apply offset_all; lia.
  - intros c Hc.
    assert (forall n, c < offset ft n -> exists i, i < n /\ offset ft i <= c < offset ft (S i)) as F.
    { induction n as [|n IH]; intros H; [cbn in H; lia|]. destruct (Nat.le_gt_cases (offset ft n) c) as [L|L].
      - exists n; lia.
      - destruct (IH L) as (i & Hi & K). exists i; lia. }
    rewrite <- (offset_all ft (length ft)) in Hc by lia. destruct (F _ Hc) as (i & Li & K).
    destruct (nth_error ft i) as [r|] eqn:E; [|apply nth_error_None in E; lia].
    exists i, (offset ft i), (offset ft (S i)). rewrite starts_nth, ends_nth, E; cbn [Nat.add].
    do 2 (split; [reflexivity|]). split; [exact K|]. intros i' s' e' Es Ee H'.
    rewrite starts_nth in Es. rewrite ends_nth in Ee. destruct (nth_error ft i'); [|discriminate].
    injection Es as <-; injection Ee as <-. cbn [Nat.add] in H'.
    destruct (Nat.lt_trichotomy i i') as [H|[H|H]]; [|auto|].
    + pose proof (offset_mono ft (S i) i' H). lia.
    + pose proof (offset_mono ft (S i') i H). lia.
Qed.

(** *** channels *)
Lemma field_chans_at : forall ft chans i r, nth_error ft i = Some r ->
  field_chans size ft chans i = firstn (size r) (skipn (offset ft i) chans).
Proof. intros ft chans i r E. unfold field_chans. rewrite E. reflexivity. Qed.
Lemma skipn_skipn' : forall (l : list V) a b, skipn a (skipn b l) = skipn (b + a) l.
Proof. induction l as [|x l IH]; intros a [|b]; cbn; rewrite ?skipn_nil; auto. Qed.
Lemma firstn_add : forall (l : list V) a b, firstn (a + b) l = firstn a l ++ firstn b (skipn a l).
Proof. induction l as [|x l IH]; intros [|a] b; cbn; rewrite ?firstn_nil; auto. f_equal. apply IH. Qed.

Lemma chans_range : forall ft chans k i, i + k <= length ft ->
  firstn (offset ft (i + k) - offset ft i) (skipn (offset ft i) chans) = flat_map (field_chans size ft chans) (seq i k).
Proof.
  intros ft chans; induction k as [|k IH]; intros i H.
  - rewrite Nat.add_0_r, Nat.sub_diag. reflexivity.
  - cbn [seq flat_map]. destruct (nth_error ft i) as [r|] eqn:E; [|apply nth_error_None in E; lia].
    rewrite (field_chans_at _ _ _ _ E). specialize (IH (S i) ltac:(lia)). rewrite Nat.add_succ_r. cbn [Nat.add] in IH.
    rewrite <- IH, (offset_S _ _ _ E). pose proof (offset_mono ft (S i) (S i + k) ltac:(lia)). cbn [Nat.add] in *.
    rewrite (offset_S _ _ _ E) in H0.
    replace (offset ft (S (i + k)) - offset ft i) with (size r + (offset ft (S (i + k)) - (offset ft i + size r))) by lia.
    rewrite firstn_add, skipn_skipn'. reflexivity.
Qed.

Lemma field_chans_length : forall ft chans i r, length chans = type_size size ft -> nth_error ft i = Some r ->
  length (field_chans size ft chans i) = size r.
Proof.
  intros ft chans i r L E. rewrite (field_chans_at _ _ _ _ E), firstn_length, skipn_length, L.
  pose proof (offset_le ft (S i)). rewrite (offset_S _ _ _ E) in H. lia.
Qed.
Lemma picked_length : forall ft chans sel ft', length chans = type_size size ft -> map (nth_error ft) sel = map Some ft' ->
  length (flat_map (field_chans size ft chans) sel) = type_size size ft'.
Proof.
  intros ft chans sel; induction sel as [|i sel IH]; intros [|r ft'] L E; cbn [map] in E; try discriminate; [reflexivity|].
  injection E as E1 E2. cbn [flat_map]. rewrite app_length, (field_chans_length _ _ _ _ L E1), (IH ft' L E2). reflexivity.
Qed.
Lemma mapM_app : forall {X Y} (f : X -> res Y) l m, mapM f (l ++ m) = (a <- mapM f l ;; b <- mapM f m ;; Ret (a ++ b)).
Proof.
  intros X Y f l m; induction l as [|x l IH]; cbn [app mapM bind].
  - destruct (mapM f m); reflexivity.
  - destruct (f x); [reflexivity|]. cbn [bind]. rewrite IH. destruct (mapM f l); [reflexivity|]. cbn [bind].
    destruct (mapM f m); reflexivity.
Qed.
Lemma listed_chans : forall ft chans sel ft', length chans = type_size size ft -> map (nth_error ft) sel = map Some ft' ->
  mapM (get_nth chans) (flat_map (fun i => seq (offset ft i) (offset ft (S i) - offset ft i)) sel) =
  Ret (flat_map (field_chans size ft chans) sel).
Proof.
  intros ft chans sel; induction sel as [|i sel IH]; intros [|r ft'] L E; cbn [map] in E; try discriminate; [reflexivity|].
  injection E as E1 E2. cbn [flat_map]. rewrite mapM_app, (IH ft' L E2). rewrite (offset_S _ _ _ E1).
  replace (offset ft i + size r - offset ft i) with (size r) by lia.
  rewrite mapM_get_seq; [cbn [bind]; rewrite (field_chans_at _ _ _ _ E1); reflexivity|].
  pose proof (offset_le ft (S i)). rewrite (offset_S _ _ _ E1) in H. lia.
Qed.
Lemma mapM_get_ok : forall {X} (l : list X) sel r, mapM (get_nth l) sel = Ret r <-> map (nth_error l) sel = map Some r.
Proof.
  intros X l sel; induction sel as [|i sel IH]; intros r; cbn [mapM map].
  - split; intros E; [apply Ret_inj in E; subst; reflexivity|]. destruct r; [reflexivity|discriminate].
  - split.
    + intros E. apply bind_Ret in E. destruct E as (a & Ea & E). apply bind_Ret in E. destruct E as (bs & Eb & E).
      apply Ret_inj in E; subst r. cbn [map]. apply get_nth_Ret in Ea. apply IH in Eb. congruence.
    + destruct r as [|a r]; [discriminate|]. cbn [map]. intros E. injection E as E1 E2.
      apply get_nth_Ret in E1. apply IH in E2. rewrite E1, E2. reflexivity.
Qed.

(** choosing fields one by one *)
Definition good (x : gtensor A V) : Prop := length (g_chans x) = type_size size (g_type x).

Lemma py_get_fields : forall ft f i r, py_index (length ft) f = Ret i -> nth_error ft i = Some r ->
  py_get ft f = Ret r /\ py_get (fields_start size ft) f = Ret (offset ft i) /\
  py_get (fields_end size ft) f = Ret (offset ft (S i)).
Proof.
  intros ft f i r Ei Er. unfold py_get, fields_start, fields_end. rewrite starts_length, ends_length, Ei; cbn [bind].
  unfold get_nth. rewrite starts_nth, ends_nth, Er. auto.
Qed.
Lemma py_get_Ret : forall {X} (l : list X) f r, py_get l f = Ret r -> exists i, py_index (length l) f = Ret i /\ nth_error l i = Some r.
Proof.
  intros X l f r E. unfold py_get in E. apply bind_Ret in E. destruct E as (i & Ei & E). apply get_nth_Ret in E. eauto.
Qed.

Lemma get_fields_iff : forall (x : gtensor A V) i fields, good x -> chosen_fields (length (g_type x)) i = Ret fields ->
  forall y, get_fields size x i = Ret y <-> exists sel, mapM (py_index (length (g_type x))) fields = Ret sel /\ sel <> [] /\
    picks size (g_type x) (g_chans x) sel (g_type y) (g_chans y).
Proof.
  intros x i fields G Ef y. unfold get_fields. rewrite Ef; cbn [bind]. set (ft := g_type x) in *.
  assert (forall fs rs, mapM (py_get ft) fs = Ret rs -> exists sel, mapM (py_index (length ft)) fs = Ret sel /\
     map (nth_error ft) sel = map Some rs /\
     mapM (fun f => a <- py_get (fields_start size ft) f ;; b <- py_get (fields_end size ft) f ;; Ret (seq a (b - a))) fs =
       Ret (map (fun i => seq (offset ft i) (offset ft (S i) - offset ft i)) sel)) as F.
  { induction fs as [|f fs IH]; intros rs E; cbn [mapM] in E.
    - apply Ret_inj in E; subst. exists []. auto.
    - apply bind_Ret in E. destruct E as (r & Er & E). apply bind_Ret in E. destruct E as (rs' & Ers & E). apply Ret_inj in E; subst rs.
      destruct (IH rs' Ers) as (sel & E1 & E2 & E3). destruct (py_get_Ret _ _ _ Er) as (k & Ek & Nk).
      destruct (py_get_fields _ _ _ _ Ek Nk) as (_ & Es & Ee). exists (k :: sel). cbn [mapM map].
      rewrite Ek, E1, Es, Ee, E3, Nk, E2. auto. }
  assert (forall fs sel, mapM (py_index (length ft)) fs = Ret sel -> exists rs, mapM (py_get ft) fs = Ret rs) as F'.
  { induction fs as [|f fs IH]; intros sel E; cbn [mapM] in E |- *; [eauto|].
    apply bind_Ret in E. destruct E as (k & Ek & E). apply bind_Ret in E. destruct E as (sel' & Es & E).
    destruct (IH _ Es) as (rs & Ers). pose proof (py_index_lt _ _ _ Ek) as Lk.
    destruct (nth_error ft k) as [r|] eqn:Er; [|apply nth_error_None in Er; lia].
    rewrite (proj1 (py_get_fields _ _ _ _ Ek Er)). rewrite Ers. cbn [bind]. eauto. }
  split.
  - intros E. apply bind_Ret in E. destruct E as (rs & Ers & E). destruct (F _ _ Ers) as (sel & E1 & E2 & E3).
    rewrite E3 in E; cbn [bind] in E. unfold mk_type in E.
    destruct (Nat.eqb (length rs) 0) eqn:E0; [discriminate|]. cbn [negb assert_ bind] in E.
    rewrite <- flat_map_concat_map in E. rewrite (listed_chans ft (g_chans x) sel rs G E2) in E. cbn [bind] in E.
    unfold mk_gtensor in E. apply assert_Ret in E. destruct E as [_ E]. apply Ret_inj in E; subst y; cbn [g_type g_chans].
    exists sel. split; [exact E1|]. split; [|split; [exact E2|reflexivity]].
    intros ->. destruct rs; [discriminate|discriminate E2].
  - intros (sel & E1 & Ne & P1 & P2). destruct (F' _ _ E1) as (rs & Ers). destruct (F _ _ Ers) as (sel' & E1' & E2 & E3).
    rewrite E1 in E1'; apply Ret_inj in E1'; subst sel'. rewrite Ers, E3; cbn [bind]. unfold mk_type.
    destruct (Nat.eqb_spec (length rs) 0) as [H0|H0].
    { destruct rs; [|discriminate]. destruct sel; [congruence|discriminate]. }
    cbn [negb assert_ bind]. rewrite <- flat_map_concat_map, (listed_chans ft (g_chans x) sel rs G E2). cbn [bind].
    unfold mk_gtensor. rewrite (picked_length ft (g_chans x) sel rs G E2), Nat.eqb_refl; cbn [assert_ bind].
    destruct y as [ty cy]; cbn [g_type g_chans] in *. rewrite P2. f_equal. f_equal.
    rewrite E2 in P1. clear - P1. revert ty P1. induction rs as [|r rs IH]; intros [|t ty] E; try discriminate; [reflexivity|].
    injection E as -> E. f_equal; auto.
Qed.
End Field.
