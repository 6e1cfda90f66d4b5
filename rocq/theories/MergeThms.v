(** Merging labelled pieces, runs of consecutive numbers, indexes by label, sorting. *)
From Coq Require Import List ZArith Arith Bool Lia Permutation Sorted.
From Verif Require Import LibRes LibPy FieldModel SpecField FieldProofs FieldThms BranchProofs LabelThms.
Import ListNotations.

(** *** consecutive numbers *)
Definition sumz (l : list Z) : Z := fold_right Z.add 0%Z l.
Lemma fold_add : forall l a, fold_left Z.add l a = (a + sumz l)%Z.
Proof. induction l as [|x l IH]; intros a; cbn [fold_left sumz fold_right]; [lia|]. fold (sumz l). rewrite IH. lia. Qed.
Lemma sumz_perm : forall l m, Permutation l m -> sumz l = sumz m.
Proof. unfold sumz. intros l m H; induction H; cbn [fold_right]; lia. Qed.
Lemma sumz_app : forall l m, sumz (l ++ m) = (sumz l + sumz m)%Z.
Proof. unfold sumz. induction l as [|x l IH]; intros m; cbn [app fold_right]; [lia|]. rewrite IH. lia. Qed.
Lemma fold_min : forall l x, (fold_left Z.min l x <= x)%Z /\ (forall y, In y l -> (fold_left Z.min l x <= y)%Z) /\ (fold_left Z.min l x = x \/ In (fold_left Z.min l x) l).
Proof.
  induction l as [|a l IH]; intros x; cbn [fold_left]; [repeat split; [lia|intros y []|left; reflexivity]|].
  destruct (IH (Z.min x a)) as (H1 & H2 & H3). repeat split; [lia| |].
  - intros y [<-|Hy]; [lia|auto].
  - destruct H3 as [H3|H3]; [|right; right; exact H3]. destruct (Z.min_spec x a) as [[_ E]|[_ E]]; rewrite E in *; [left; exact H3|right; left; congruence].
Qed.
Lemma fold_max : forall l x, (x <= fold_left Z.max l x)%Z /\ (forall y, In y l -> (y <= fold_left Z.max l x)%Z) /\ (fold_left Z.max l x = x \/ In (fold_left Z.max l x) l).
Proof.
  induction l as [|a l IH]; intros x; cbn [fold_left]; [repeat split; [lia|intros y []|left; reflexivity]|].
  destruct (IH (Z.max x a)) as (H1 & H2 & H3). repeat split; [lia| |].
  - intros y [<-|Hy]; [lia|auto].
  - destruct H3 as [H3|H3]; [|right; right; exact H3]. destruct (Z.max_spec x a) as [[_ E]|[_ E]]; rewrite E in *; [right; left; congruence|left; exact H3].
Qed.
Definition zrange (m : Z) (k : nat) : list Z := map (fun i => m + Z.of_nat i)%Z (seq 0 k).
Lemma zrange_In : forall m k z, In z (zrange m k) <-> (m <= z < m + Z.of_nat k)%Z.
Proof.
  intros m k z. unfold zrange. rewrite in_map_iff. split.
  - intros (i & <- & Hi). apply in_seq in Hi. lia.
  - intros H. exists (Z.to_nat (z - m)). split; [lia|]. apply in_seq. lia.
Qed.
Lemma zrange_NoDup : forall m k, NoDup (zrange m k).
Proof. intros m k. apply FinFun.Injective_map_NoDup; [intros a b; lia|apply seq_NoDup]. Qed.
Lemma zrange_sum : forall m k, (2 * sumz (zrange m k) = (m + Z.of_nat k - 1) * (m + Z.of_nat k) - (m - 1) * m)%Z.
Proof.
  intros m; induction k as [|k IH]; [cbn; lia|]. unfold zrange in *. rewrite seq_S, map_app, sumz_app. cbn [map sumz fold_right Nat.add].
  rewrite Nat2Z.inj_succ. lia.
Qed.
Theorem check_consecutive_ok : forall l, l <> [] -> NoDup l -> Forall (fun z => 0 <= z)%Z l ->
  exists b, check_consecutive l = Ret b /\ (b = true <-> consecutive l).
Proof.
  intros [|x l] Ne ND P; [congruence|]. unfold check_consecutive.
  rewrite (proj2 (forallb_forall _ _)) by (intros z Hz; rewrite Forall_forall in P; apply Z.leb_le, P, Hz). cbn [assert_ bind].
  eexists. split; [reflexivity|]. set (s := x :: l) in *. rewrite fold_add. cbn [Z.add].
  destruct (fold_min s x) as (m1 & m2 & m3). destruct (fold_max s x) as (M1 & M2 & M3).
  set (m := fold_left Z.min s x) in *. set (M := fold_left Z.max s x) in *.
  assert (In m s) as Im by (destruct m3 as [->|H]; [left; reflexivity|exact H]).
  assert (In M s) as IM by (destruct M3 as [->|H]; [left; reflexivity|exact H]).
  assert (0 <= m)%Z as m0 by (rewrite Forall_forall in P; apply P, Im).
  assert (m <= M)%Z as mM by lia.
  set (R := zrange m (Z.to_nat (M + 1 - m))).
  assert (forall z, In z R <-> (m <= z <= M)%Z) as HR by (intros z; unfold R; rewrite zrange_In; lia).
  pose proof (zrange_sum m (Z.to_nat (M + 1 - m))) as SR. fold R in SR. rewrite Z2Nat.id in SR by lia.
  replace ((m + (M + 1 - m) - 1) * (m + (M + 1 - m)))%Z with (M * (M + 1))%Z in SR by lia. rewrite <- SR.
  set (rest := filter (fun z => negb (existsb (Z.eqb z) s)) R).
  assert (forall z, In z rest <-> In z R /\ ~ In z s) as Hrest.
  { intros z. unfold rest. rewrite filter_In, negb_true_iff. split; intros [H1 H2]; (split; [exact H1|]).
    - intros K. assert (existsb (Z.eqb z) s = true) by (apply existsb_exists; exists z; split; [exact K|apply Z.eqb_refl]). congruence.
    - destruct (existsb (Z.eqb z) s) eqn:E; [|reflexivity]. apply existsb_exists in E. destruct E as (w & Hw & Ew). apply Z.eqb_eq in Ew. subst w. contradiction. }
  assert (Permutation R (s ++ rest)) as PR.
  { apply NoDup_Permutation; [apply zrange_NoDup| |].
    - assert (forall t, NoDup t -> (forall z, In z t -> In z rest) -> NoDup (s ++ t)) as App.
      { clear - ND Hrest. intros t Nt Ht. revert ND Hrest. generalize s as u. induction u as [|a u IH]; intros ND Hr; [exact Nt|].
        apply NoDup_cons_iff in ND. destruct ND as [Na Nu]. cbn [app]. constructor; [|].
        - intros K. apply in_app_or in K. destruct K as [K|K]; [contradiction|]. apply Ht, Hr in K. apply (proj2 K). left; reflexivity.
        - clear IH. revert Hr Na. induction u as [|b u IHu]; intros Hr Na; [exact Nt|]. apply NoDup_cons_iff in Nu. destruct Nu as [Nb Nu].
          cbn [app]. constructor.
          + intros K. apply in_app_or in K. destruct K as [K|K]; [contradiction|]. apply Ht, Hr in K. apply (proj2 K). right; left; reflexivity.
          + assert (forall z, In z rest -> ~ In z u) as Hd by (intros z Hz K; apply Hr in Hz; apply (proj2 Hz); right; right; exact K).
            clear - Nu Nt Ht Hd. induction u as [|c u IH]; [exact Nt|]. apply NoDup_cons_iff in Nu. destruct Nu as [Nc Nu]. cbn [app]. constructor.
            * intros K. apply in_app_or in K. destruct K as [K|K]; [contradiction|]. apply Ht in K. apply (Hd c K). left; reflexivity.
            * apply IH; [exact Nu|]. intros z Hz K. apply (Hd z Hz). right; exact K. }
      apply App; [apply NoDup_filter, zrange_NoDup|auto].
    - intros z. rewrite in_app_iff, Hrest. split.
      + intros Hz. destruct (in_dec Z.eq_dec z s); tauto.
      + intros [H|[H _]]; [|exact H]. apply HR. split; [apply m2|apply M2]; exact H. }
  rewrite (sumz_perm _ _ PR), sumz_app.
  assert (rest = [] <-> sumz rest = 0%Z) as Er.
  { split; [intros ->; reflexivity|]. intros E. destruct rest as [|z t] eqn:Et; [reflexivity|exfalso].
    assert (forall w, In w (z :: t) -> (0 < w)%Z) as Pw.
    { intros w Hw. apply Hrest in Hw. destruct Hw as [Hw Nw]. apply HR in Hw. destruct (Z.eq_dec w m); [congruence|lia]. }
    assert (0 <= sumz t)%Z as St.
    { assert (forall w, In w t -> (0 < w)%Z) as Pt by (intros w Hw; apply Pw; right; exact Hw). clear - Pt.
      induction t as [|a t IH]; cbn; [lia|]. pose proof (Pt a (or_introl eq_refl)). assert (0 <= sumz t)%Z by (apply IH; intros; apply Pt; right; assumption). unfold sumz in *. lia. }
    specialize (Pw z (or_introl eq_refl)). cbn in E. unfold sumz in St. lia. }
  rewrite Z.eqb_eq. split.
  - intros E. assert (rest = []) as Re by (apply Er; lia). exists m, (M + 1)%Z. split; [exact m0|]. intros z. split.
    + intros Hz. split; [apply m2, Hz|]. specialize (M2 z Hz). lia.
    + intros Hz. destruct (in_dec Z.eq_dec z s) as [|N]; [assumption|]. assert (In z rest) as K by (apply Hrest; split; [apply HR; lia|exact N]).
      rewrite Re in K. destruct K.
  - intros (a & b & a0 & H). assert (rest = []) as Re.
    { destruct rest as [|z t] eqn:Et; [reflexivity|exfalso]. destruct (proj1 (Hrest z) (or_introl eq_refl)) as [Hz Nz]. apply Nz, H. apply HR in Hz.
      apply H in Im. apply H in IM. lia. }
    apply Er in Re. lia.
Qed.

Section MT.
Context {A V L : Type}.
Variable size : A -> nat.
Variable leqb : L -> L -> bool.
Hypothesis leqb_ok : forall a b, leqb a b = true <-> a = b.

(** *** indexes_from_labels *)
Lemma chan_list_In : forall (ft : list A) sel c, In c (chan_list size ft sel) <-> exists i, In i sel /\ offset size ft i <= c < offset size ft (S i).
Proof.
  intros ft sel c. unfold chan_list. rewrite in_flat_map. split; intros (i & Hi & Hc); exists i; (split; [exact Hi|]); rewrite ?in_seq in *;
    pose proof (offset_mono size ft i (S i) ltac:(lia)); lia.
Qed.
Lemma chan_list_NoDup : forall (ft : list A) sel, NoDup sel -> NoDup (chan_list size ft sel).
Proof.
  intros ft sel H; induction H as [|i sel Ni H IH]; [constructor|]. unfold chan_list. cbn [flat_map]. fold (chan_list size ft sel).
  assert (forall c, In c (seq (offset size ft i) (offset size ft (S i) - offset size ft i)) -> ~ In c (chan_list size ft sel)) as D.
  { intros c Hc K. apply in_seq in Hc. apply chan_list_In in K. destruct K as (j & Hj & Kj).
    assert (i = j); [|congruence]. destruct (lt_eq_lt_dec i j) as [[Hij|]|Hij]; [|assumption|].
    - pose proof (offset_mono size ft (S i) j ltac:(lia)). lia.
    - pose proof (offset_mono size ft (S j) i ltac:(lia)). lia. }
  revert D. generalize (seq_NoDup (offset size ft (S i) - offset size ft i) (offset size ft i)).
  generalize (seq (offset size ft i) (offset size ft (S i) - offset size ft i)) as s.
  induction s as [|c s IHs]; intros Ns D; [exact IH|]. apply NoDup_cons_iff in Ns. destruct Ns as [Nc Ns]. cbn [app]. constructor.
  - intros K. apply in_app_or in K. destruct K as [K|K]; [contradiction|]. apply (D c); [left; reflexivity|exact K].
  - apply IHs; [exact Ns|]. intros c' Hc'. apply D. right; exact Hc'.
Qed.
Theorem indexes_ok : forall (ft : list A) labels, length labels = length ft -> Forall (fun a => 0 < size a) ft ->
  exists d, indexes_from_labels size leqb ft labels = Ret d /\
  forall l, In l labels -> exists c chans, lookup leqb d l = Ret (c, labelled leqb labels l, chans) /\
    (forall k, In k chans <-> exists i, In i (labelled leqb labels l) /\
        list_sum (map size (firstn i ft)) <= k < list_sum (map size (firstn (S i) ft))) /\
    NoDup chans /\ (c = true <-> consecutive (map Z.of_nat chans)).
Proof.
  intros ft labels Len P. unfold indexes_from_labels. rewrite Len, Nat.eqb_refl; cbn [assert_ bind].
  set (chl := fun l => chan_list size ft (labelled leqb labels l)).
  assert (forall l, In l labels -> exists b, check_consecutive (map Z.of_nat (chl l)) = Ret b /\ (b = true <-> consecutive (map Z.of_nat (chl l)))) as Hc.
  { intros l Hl. apply check_consecutive_ok.
    - intros K. apply map_eq_nil in K. revert K. apply chan_list_nonempty; [rewrite <- Len; apply labelled_lt|apply labelled_nonempty; assumption|exact P].
    - apply FinFun.Injective_map_NoDup; [intros a b; lia|]. apply chan_list_NoDup, labelled_NoDup.
    - apply Forall_forall. intros z Hz. apply in_map_iff in Hz. destruct Hz as (i & <- & _). lia. }
  destruct (fill_dict leqb leqb_ok (fun l => i <- lookup leqb (indices_by_label size leqb [] 0 labels ft) l ;; f <- lookup leqb (fields_by_label leqb labels) l ;;
               c <- check_consecutive (map Z.of_nat i) ;; Ret (c, f, i))
    (fun l => (match check_consecutive (map Z.of_nat (chl l)) with Ret b => b | Raise => false end, labelled leqb labels l, chl l)) labels []) as (d & E & Hd).
  { intros l Hl. rewrite (indices_lookup size leqb leqb_ok labels ft l Len Hl); cbn [bind]. rewrite (fields_lookup leqb leqb_ok labels l Hl); cbn [bind].
    fold (chl l). destruct (Hc l Hl) as (b & -> & _). reflexivity. }
  exists d. split.
  - rewrite <- E. clear. generalize (Ret (@nil (L * (bool * list nat * list nat)))). generalize labels at 3 6 as ls.
    induction ls as [|a ls IH]; intros r; [reflexivity|]. cbn [fold_left]. rewrite <- IH. f_equal.
    destruct r as [|d]; [reflexivity|]. cbn [bind]. destruct (lookup leqb (indices_by_label size leqb [] 0 labels ft) a); [reflexivity|]. cbn [bind].
    destruct (lookup leqb (fields_by_label leqb labels) a); [reflexivity|]. cbn [bind]. destruct (check_consecutive _); reflexivity.
  - intros l Hl. destruct (Hc l Hl) as (b & Eb & Hb). exists b, (chl l). unfold lookup. rewrite Hd, (existsb_leqb leqb leqb_ok) by exact Hl. rewrite Eb.
    split; [reflexivity|split; [|split; [apply chan_list_NoDup, labelled_NoDup|exact Hb]]]. intros k. apply chan_list_In.
Qed.

(** *** MergeModule over identity modules *)
Definition identity_on (ft : list A) : submodule (A := A) (V := V) := {| sm_out := ft; sm_run := fun args => match args with [y] => Ret y | _ => Raise end |}.
Theorem merge_picks : forall ft (chans : list V) (input : L -> res (gtensor A V)) (sel : L -> list nat) (t : L -> list A) ls,
  length chans = type_size size ft ->
  (forall l, In l ls -> exists y, input l = Ret y /\ g_type y = t l /\ picks size ft chans (sel l) (g_type y) (g_chans y)) ->
  flat_map sel ls <> [] ->
  exists z, merge size (map (fun l => (identity_on (t l), [l])) ls) input = Ret z /\
    picks size ft chans (flat_map sel ls) (g_type z) (g_chans z).
Proof.
  intros ft chans input sel t ls G H Ne. unfold merge.
  assert (map (nth_error ft) (flat_map sel ls) = map Some (flat_map t ls)) as Ef.
  { clear - H. induction ls as [|l ls IH]; [reflexivity|]. cbn [flat_map]. rewrite !map_app, IH by (intros; apply H; right; assumption). f_equal.
    destruct (H l (or_introl eq_refl)) as (y & _ & <- & P1 & _). exact P1. }
  replace (flat_map (fun m => sm_out (fst m)) (map (fun l => (identity_on (t l), [l])) ls)) with (flat_map t ls).
  2:{ clear. induction ls as [|l ls IH]; [reflexivity|]. cbn [map flat_map fst]. rewrite <- IH. reflexivity. }
  unfold mk_type. pose proof (map_some_length _ _ _ Ef) as Lt. destruct (Nat.eqb_spec (length (flat_map t ls)) 0) as [L0|L0].
  { exfalso. apply Ne. rewrite L0 in Lt. destruct (flat_map sel ls); [reflexivity|discriminate]. }
  cbn [negb assert_ bind].
  assert (exists parts, mapM (fun m => args <- mapM input (snd m) ;; y <- sm_run (fst m) args ;;
             assert (Nat.eqb (length (g_chans y)) (type_size size (sm_out (fst m)))) ;; Ret (g_chans y)) (map (fun l => (identity_on (t l), [l])) ls) = Ret parts
     /\ concat parts = flat_map (field_chans size ft chans) (flat_map sel ls)) as (parts & -> & Ep).
  { clear - G H. induction ls as [|l ls IH]; [exists []; split; reflexivity|]. cbn [map mapM fst snd].
    destruct (H l (or_introl eq_refl)) as (y & -> & Ty & P1 & P2). cbn [bind sm_run identity_on sm_out].
    assert (length (g_chans y) = type_size size (t l)) as -> by (rewrite P2, <- Ty; apply (picked_length size ft chans (sel l) _ G P1)).
    rewrite Nat.eqb_refl. cbn [assert_ bind].
    destruct IH as (parts & -> & Ep); [intros; apply H; right; assumption|]. cbn [bind]. eexists; split; [reflexivity|].
    cbn [concat flat_map]. rewrite Ep, flat_map_app, P2. reflexivity. }
  cbn [bind]. rewrite Ep. unfold mk_gtensor. rewrite (picked_length size ft chans _ _ G Ef), Nat.eqb_refl. cbn [assert_ bind].
  eexists; split; [reflexivity|]. split; [exact Ef|reflexivity].
Qed.
Lemma labelled_cover : forall labels ls, NoDup ls -> (forall l, In l labels -> In l ls) ->
  Permutation (flat_map (labelled leqb labels) ls) (seq 0 (length labels)).
Proof.
  intros labels ls ND C. apply NoDup_Permutation; [|apply seq_NoDup|].
  - clear C. induction ND as [|l ls Nl ND IH]; [constructor|]. cbn [flat_map].
    assert (forall i, In i (labelled leqb labels l) -> ~ In i (flat_map (labelled leqb labels) ls)) as D.
    { intros i Hi K. apply in_flat_map in K. destruct K as (l' & Hl' & K). apply (labelled_In leqb leqb_ok) in Hi, K. congruence. }
    revert D. generalize (labelled_NoDup leqb labels l). generalize (labelled leqb labels l) as s.
    induction s as [|c s IHs]; intros Ns D; [exact IH|]. apply NoDup_cons_iff in Ns. destruct Ns as [Nc Ns]. cbn [app]. constructor.
    + intros K. apply in_app_or in K. destruct K as [K|K]; [contradiction|]. apply (D c); [left; reflexivity|exact K].
    + apply IHs; [exact Ns|]. intros c' Hc'. apply D. right; exact Hc'.
  - intros i. rewrite in_flat_map, in_seq. split.
    + intros (l & _ & Hi). pose proof (labelled_lt leqb labels l) as F. rewrite Forall_forall in F. specialize (F i Hi). lia.
    + intros Hi. destruct (nth_error labels i) as [l|] eqn:E; [|apply nth_error_None in E; lia]. exists l. split; [apply C; eapply nth_error_In; eassumption|].
      apply (labelled_In leqb leqb_ok). exact E.
Qed.
(** branching followed by merging the branches: the same fields, label after label *)
Theorem branch_merge : forall lleb (teqb : list A -> list A -> bool) r ft labels ls,
  (forall a, lleb a a = true) -> (forall a b, lleb a b = true \/ lleb b a = true) ->
  (forall a b c, lleb a b = true -> lleb b c = true -> lleb a c = true) -> (forall a b, lleb a b = true -> lleb b a = true -> a = b) ->
  (forall t, teqb t t = true) -> r < 2 -> ft <> [] -> length labels = length ft -> Forall (fun a => 0 < size a) ft ->
  NoDup ls -> (forall l, In l labels <-> In l ls) ->
  exists b, mk_branching size leqb lleb ft labels r = Ret b /\
  forall x : gtensor A V, FieldProofs.good size x -> g_type x = ft ->
  exists z sel, merge size (map (fun l => (identity_on (chosen ft (labelled leqb labels l)), [l])) ls) (branch size leqb teqb b x) = Ret z /\
    sel = flat_map (labelled leqb labels) ls /\ Permutation sel (seq 0 (length ft)) /\
    picks size ft (g_chans x) sel (g_type z) (g_chans z).
Proof.
  intros lleb teqb r ft labels ls O1 O2 O3 O4 Te Hr Ne Len P ND C.
  destruct (branch_picks (V := V) size leqb lleb leqb_ok O1 O2 O3 O4 teqb r ft labels Te ltac:(lia) Ne Len P) as (b & Eb & Hb).
  exists b. split; [exact Eb|]. intros x G Ty.
  assert (Permutation (flat_map (labelled leqb labels) ls) (seq 0 (length ft))) as Pm by (rewrite <- Len; apply labelled_cover; [exact ND|intros l; apply C]).
  destruct (merge_picks ft (g_chans x) (branch size leqb teqb b x) (labelled leqb labels) (fun l => chosen ft (labelled leqb labels l)) ls) as (z & Ez & Pz).
  - rewrite <- Ty. exact G.
  - intros l Hl. apply C in Hl. destruct (Hb x l G Ty Hl) as (y & sel & Ey & _ & Py & _ & Es & _). rewrite Es in Py by lia.
    exists y. split; [exact Ey|split; [|exact Py]]. destruct Py as [P1 _]. rewrite chosen_ok in P1 by (rewrite <- Len; apply labelled_lt).
    clear - P1. revert P1. generalize (chosen ft (labelled leqb labels l)) as u. generalize (g_type y) as v.
    induction v as [|a v IH]; intros [|c u] E; try discriminate; [reflexivity|]. cbn [map] in E. injection E as -> E. f_equal. auto.
  - intros K. rewrite K in Pm. apply Permutation_length in Pm. rewrite seq_length in Pm. destruct ft; [congruence|discriminate].
  - exists z, (flat_map (labelled leqb labels) ls). auto.
Qed.

(** *** FieldType.sorted *)
Lemma size_keys : forall (ft : list A) p k, In k (combine (map size ft) (seq p (length ft))) -> p <= snd k /\ size_at size ft (snd k - p) = fst k.
Proof.
  induction ft as [|r ft IH]; intros p k H; [destruct H|]. cbn [map length seq combine] in H. destruct H as [<-|H]; cbn [fst snd].
  - rewrite Nat.sub_diag. cbn. auto.
  - destruct (IH (S p) k H) as [H1 H2]. split; [lia|]. replace (snd k - p) with (S (snd k - S p)) by lia. exact H2.
Qed.
Lemma size_keys_snd : forall (ft : list A) p, map snd (combine (map size ft) (seq p (length ft))) = seq p (length ft).
Proof. induction ft as [|r ft IH]; intros p; [reflexivity|]. cbn [map length seq combine snd]. rewrite IH. reflexivity. Qed.
Theorem sorted_ok : forall ft : list A, ft <> [] -> exists ft' sel, type_sorted size ft = Ret ft' /\
  Permutation sel (seq 0 (length ft)) /\ map (nth_error ft) sel = map Some ft' /\
  StronglySorted (fun i j => size_at size ft i < size_at size ft j \/ (size_at size ft i = size_at size ft j /\ i <= j)) sel.
Proof.
  intros ft Ne. unfold type_sorted. set (keys := combine (map size ft) (seq 0 (length ft))).
  set (sel := map snd (sort_by size_leb keys)).
  assert (Permutation sel (seq 0 (length ft))) as Pm by (rewrite <- (size_keys_snd ft 0); apply Permutation_map, sort_perm).
  assert (Forall (fun i => i < length ft) sel) as F.
  { apply Forall_forall. intros i Hi. apply (Permutation_in _ Pm) in Hi. apply in_seq in Hi. lia. }
  exists (chosen ft sel), sel. pose proof (chosen_ok ft sel F) as Ec. split; [|split; [exact Pm|split; [exact Ec|]]].
  - replace (map (fun k => Z.of_nat (snd k)) (sort_by size_leb keys)) with (map Z.of_nat sel) by (unfold sel; rewrite map_map; reflexivity).
    apply index_select_ok; [|exact Ec]. intros K. rewrite K in Pm. apply Permutation_length in Pm. rewrite seq_length in Pm. destruct ft; [congruence|discriminate].
  - assert (StronglySorted (fun a b => size_leb a b = true) (sort_by size_leb keys)) as So.
    { apply sort_sorted; [intros [a i] [b j]|intros [a i] [b j] [c k]]; unfold size_leb; cbn [fst snd];
        rewrite !orb_true_iff, !andb_true_iff, !Nat.ltb_lt, !Nat.eqb_eq, !Nat.leb_le; lia. }
    assert (forall k, In k (sort_by size_leb keys) -> size_at size ft (snd k) = fst k) as Hk.
    { intros k Hk. apply (Permutation_in _ (sort_perm _ _)) in Hk. unfold keys in Hk. apply size_keys in Hk. rewrite Nat.sub_0_r in Hk. tauto. }
    unfold sel. clear - So Hk. induction So as [|k s So IH Fk]; [constructor|]. cbn [map]. constructor; [apply IH; intros; apply Hk; right; assumption|].
    apply Forall_forall. intros i Hi. apply in_map_iff in Hi. destruct Hi as (k' & <- & Hi). rewrite Forall_forall in Fk. specialize (Fk k' Hi).
    rewrite (Hk k (or_introl eq_refl)), (Hk k' (or_intror Hi)). unfold size_leb in Fk.
    rewrite orb_true_iff, andb_true_iff, Nat.ltb_lt, Nat.eqb_eq, Nat.leb_le in Fk. exact Fk.
Qed.
End MT.
