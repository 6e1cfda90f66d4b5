From Coq Require Import String DecimalString DecimalNat FinFun List ZArith Arith Bool Lia.
From Verif Require Import LibRes LibPy SeqModel SpecSeq.
Import ListNotations.

Lemma str_inj : forall a b, str a = str b -> a = b.
Proof.
  intros a b E. unfold str in E. apply (f_equal NilEmpty.uint_of_string) in E. rewrite !NilEmpty.usu in E. injection E as E.
  apply Unsigned.to_uint_inj in E. exact E.
Qed.
Lemma slice_slots : forall {X} (l : list X) a b k r, py_slice l a b k = Ret r -> exists pos, slice_positions (length l) a b k = Ret pos /\ map (nth_error l) pos = map Some r.
Proof.
  intros X l a b k r E. unfold py_slice in E. apply bind_Ret in E. destruct E as (pos & Ep & E). exists pos. split; [exact Ep|].
  clear Ep. revert r E. induction pos as [|i pos IH]; intros r E; cbn [mapM] in E; [apply Ret_inj in E; subst r; reflexivity|].
  apply bind_Ret in E. destruct E as (x & Ex & E). apply bind_Ret in E. destruct E as (r' & Er & E). apply Ret_inj in E; subst r.
  cbn [map]. rewrite (IH r' Er). apply get_nth_Ret in Ex. rewrite Ex. reflexivity.
Qed.
Lemma slots_slice : forall {X} (l : list X) a b k pos r, slice_positions (length l) a b k = Ret pos -> map (nth_error l) pos = map Some r -> py_slice l a b k = Ret r.
Proof.
  intros X l a b k pos r Ep E. unfold py_slice. rewrite Ep; cbn [bind]. clear Ep. revert r E.
  induction pos as [|i pos IH]; intros [|x r] E; cbn [map] in E; try discriminate; [reflexivity|]. injection E as E1 E2.
  cbn [mapM]. rewrite (proj2 (get_nth_Ret _ _ _ _) E1); cbn [bind]. rewrite (IH r E2). reflexivity.
Qed.
Lemma slice_map : forall {X Y} (f : X -> Y) (l : list X) a b k r, py_slice l a b k = Ret r -> py_slice (map f l) a b k = Ret (map f r).
Proof.
  intros X Y f l a b k r E. destruct (slice_slots l a b k r E) as (pos & Ep & Er). apply (slots_slice _ _ _ _ pos); [rewrite map_length; exact Ep|].
  clear - Er. revert r Er. induction pos as [|i pos IH]; intros [|x r] E; cbn [map] in *; try discriminate; [reflexivity|]. injection E as E1 E2.
  rewrite nth_error_map, E1, (IH r E2). reflexivity.
Qed.
Lemma spread_NoDup : forall (f : nat -> Z) m, (forall i, i < m -> (0 <= f i)%Z) -> (forall i j, f i = f j -> i = j) ->
  NoDup (map (fun i => Z.to_nat (f i)) (seq 0 m)).
Proof.
  intros f m P Inj. assert (forall p, (forall i, p <= i < p + m -> (0 <= f i)%Z) -> NoDup (map (fun i => Z.to_nat (f i)) (seq p m))) as H.
  { clear P. induction m as [|m IH]; intros p P; [constructor|]. cbn [seq map]. constructor.
    - intros K. apply in_map_iff in K. destruct K as (i & E & Hi). apply in_seq in Hi.
      assert (f i = f p) as E2 by (pose proof (P i ltac:(lia)); pose proof (P p ltac:(lia)); lia). apply Inj in E2. lia.
    - apply IH. intros i Hi. apply P. lia. }
  apply H. intros i Hi. apply P. lia.
Qed.
Lemma slice_positions_NoDup : forall n a b k pos, slice_positions n a b k = Ret pos -> NoDup pos.
Proof.
  intros n start stop step pos E. unfold slice_positions in E.
  set (k := match step with None => 1%Z | Some k => k end) in *.
  destruct (Z.eqb_spec k 0); [discriminate|]. destruct (Z.ltb_spec 0 k); apply Ret_inj in E; subst pos.
  - match goal with |- context [((?b - ?a + _ - _) / _)%Z] => set (A := a) in *; set (B := b) in * end.
    assert (0 <= A)%Z.
    { unfold A, slice_end. destruct start as [v|]; [|lia]. destruct (Z.ltb_spec v 0); lia. }
    apply (spread_NoDup (fun i => A + Z.of_nat i * k)%Z); [intros i _; nia|]. intros i j Eij. nia.
  - match goal with |- context [((?a - ?b - _ - _) / _)%Z] => set (A := a) in *; set (B := b) in * end.
    assert (-1 <= B)%Z.
    { unfold B, slice_end. destruct stop as [v|]; [|lia]. destruct (Z.ltb_spec v 0); lia. }
    apply (spread_NoDup (fun i => A + Z.of_nat i * k)%Z).
    + intros i Hi. assert (Z.of_nat i < (A - B - k - 1) / - k)%Z as Hq by lia.
      assert (- k * ((A - B - k - 1) / - k) <= A - B - k - 1)%Z by (apply Z.mul_div_le; lia). nia.
    + intros i j Eij. nia.
Qed.
Lemma slice_NoDup : forall {X} (l : list X) a b k r, py_slice l a b k = Ret r -> NoDup l -> NoDup r.
Proof.
  intros X l a b k r E N. destruct (slice_slots l a b k r E) as (pos & Ep & Er). apply slice_positions_NoDup in Ep.
  clear E. revert r Er. induction Ep as [|i pos Ni Ep IH]; intros [|x r] Er; cbn [map] in Er; try discriminate; constructor; injection Er as E1 E2; [|auto].
  intros K. apply Ni. clear IH Ni Ep. revert r E2 K. induction pos as [|j pos IH]; intros [|y r] E2 K; cbn [map] in E2; try discriminate; [destruct K|].
  injection E2 as E2 E3. destruct K as [->|K]; [|right; eauto]. left. apply (proj1 (NoDup_nth_error l) N); [apply nth_error_Some|]; congruence.
Qed.
Lemma prefix_slice : forall {X} (l : list X) a b k r, from_start a = true -> unit_step k = true -> py_slice l a b k = Ret r -> exists m, r = firstn m l.
Proof.
  intros X l a b k r Ha Hk E. destruct (slice_slots l a b k r E) as (pos & Ep & Er).
  assert (slice_positions (List.length l) a b k = slice_positions (List.length l) None b None) as Ep2.
  { destruct k as [[|[p|p|]|p]|]; try discriminate Hk; destruct a as [[|p'|p']|]; try discriminate Ha; try reflexivity;
      unfold slice_positions, slice_end at 1 3; cbn [Z.ltb Z.compare]; rewrite Z.min_l by lia; reflexivity. }
  rewrite Ep2, slice_positions_1 in Ep. apply Ret_inj in Ep. cbn [slice_end Z.to_nat] in Ep. 
  match type of Ep with seq 0 ?m = _ => exists m; revert Ep; generalize m as q end. intros q <-. clear - Er.
  revert l q Er. induction r as [|x r IH]; intros l q Er.
  - destruct q; [reflexivity|discriminate].
  - destruct q as [|q]; [discriminate|]. cbn [seq map] in Er. injection Er as E1 E2. destruct l as [|y l]; [discriminate|]. cbn [nth_error] in E1.
    injection E1 as ->. cbn [firstn]. f_equal. apply IH. rewrite <- E2, <- seq_shift, map_map. reflexivity.
Qed.

Theorem seq_get_ok : forall {M T} (s : seq_state M T) z, seq_get s z = py_get (map snd (s_mods s)) z.
Proof.
  intros M T s z. unfold seq_get, py_get, py_index. rewrite map_length. set (n := List.length (s_mods s)).
  destruct (Z.leb_spec 0 z), (Z.ltb_spec z (Z.of_nat n)), (Z.leb_spec (- Z.of_nat n) z), (Z.ltb_spec z 0); cbn [andb assert_ bind]; try lia; try reflexivity.
  - rewrite Z.mod_small by lia. reflexivity.
  - f_equal. f_equal. rewrite <- (Z.mod_add z 1) by lia. rewrite Z.mod_small by lia. lia.
Qed.

Section ST.
Context {M T X : Type}.
Variables (tin tout : M -> T) (run : M -> X -> res X) (typ : X -> T) (teqb : T -> T -> bool).
Variable refused : string -> bool.
Hypothesis teqb_ok : forall a b, teqb a b = true <-> a = b.
Notation state := (seq_state M T).
Notation add_module := (add_module tin tout teqb refused).
Notation add_all := (add_all tin tout teqb refused).

Lemma dset_new : forall (d : list (string * M)) k v, ~ In k (map fst d) -> dset String.eqb d k v = (d ++ [(k, v)])%list.
Proof.
  induction d as [|[a b] d IH]; intros k v H; [reflexivity|]. cbn [map fst] in H. cbn [dset app].
  destruct (String.eqb_spec a k); [exfalso; apply H; left; assumption|]. rewrite IH; [reflexivity|]. intros K. apply H. right; exact K.
Qed.
Definition wf (s : state) : Prop :=
  NoDup (map fst (s_mods s)) /\ chained tin tout (map snd (s_mods s)) /\
  s_in s = option_map tin (hd_error (map snd (s_mods s))) /\ s_out s = option_map tout (hd_error (rev (map snd (s_mods s)))).
Lemma chained_snoc : forall l m, (forall m', hd_error (rev l) = Some m' -> tout m' = tin m) -> chained tin tout l -> chained tin tout (l ++ [m]).
Proof.
  induction l as [|a l IH]; intros m H C; [exact I|]. destruct l as [|b l].
  - cbn. split; [apply H; reflexivity|exact I].
  - cbn [app]. destruct C as [C1 C2]. change (chained tin tout (a :: (b :: l) ++ [m])%list). cbn [app]. split; [exact C1|].
    apply (IH m); [|exact C2]. intros m' Hm. apply H. cbn [rev] in *. destruct (rev l ++ [b])%list as [|c r] eqn:E; [destruct (rev l); discriminate|exact Hm].
Qed.
Lemma add_fresh : forall (s : state) name m s', wf s -> ~ In name (map fst (s_mods s)) -> add_module s name m = Ret s' ->
  wf s' /\ s_mods s' = (s_mods s ++ [(name, m)])%list.
Proof.
  intros s name m s' (W1 & W2 & W3 & W4) N E. unfold SeqModel.add_module in E. apply bind_Ret in E. destruct E as (i & Ei & E).
  destruct (refused name); [discriminate|]. cbn [negb assert_ bind] in E. apply Ret_inj in E; subst s'. rewrite dset_new by exact N.
  split; [|reflexivity]. unfold wf. cbn [s_mods s_in s_out]. rewrite !map_app. cbn [map fst snd]. split; [|split; [|split]].
  - apply (NoDup_Add (a := name) (l := map fst (s_mods s))); [|split; assumption]. rewrite <- (app_nil_r (map fst (s_mods s))) at 1. apply Add_app.
  - apply chained_snoc; [|exact W2]. intros m' Hm. destruct (Nat.eqb_spec (List.length (s_mods s)) 0) as [L0|L0].
    + destruct (s_mods s); [discriminate Hm|discriminate L0].
    + apply bind_Ret in Ei. destruct Ei as (u & Eu & Ei). destruct (opt_eqb teqb (tin m) (s_out s)) eqn:Eo; [|discriminate].
      rewrite W4, Hm in Eo. cbn in Eo. apply teqb_ok in Eo. symmetry. exact Eo.
  - destruct (s_mods s) as [|[a b] d] eqn:Es; cbn [List.length Nat.eqb] in Ei.
    + cbn in W3, W4. rewrite W3, W4 in Ei. apply Ret_inj in Ei. rewrite <- Ei. reflexivity.
    + apply bind_Ret in Ei. destruct Ei as (u & _ & Ei). apply Ret_inj in Ei. rewrite <- Ei, W3. reflexivity.
  - rewrite rev_app_distr. reflexivity.
Qed.
Lemma add_all_Raise : forall l, fold_left (fun (r : res state) km => s <- r ;; add_module s (fst km) (snd km)) l Raise = Raise.
Proof. induction l as [|km l IH]; [reflexivity|exact IH]. Qed.
Lemma add_all_fresh : forall l (s s' : state), wf s -> NoDup (map fst (s_mods s) ++ map fst l)%list -> add_all l s = Ret s' ->
  wf s' /\ s_mods s' = (s_mods s ++ l)%list.
Proof.
  induction l as [|[k m] l IH]; intros s s' W N E.
  - apply Ret_inj in E; subst s'. rewrite app_nil_r. auto.
  - unfold SeqModel.add_all in E. cbn [fold_left fst snd bind] in E. destruct (add_module s k m) as [|s1] eqn:E1; [rewrite add_all_Raise in E; discriminate|].
    cbn [map fst] in N. destruct (add_fresh s k m s1 W) as [W1 M1]; [|exact E1|].
    { apply NoDup_remove_2 in N. intros K. apply N, in_or_app. left; exact K. }
    destruct (IH s1 s' W1) as [W2 M2]; [| exact E|].
    { rewrite M1, map_app, <- app_assoc. exact N. }
    split; [exact W2|]. rewrite M2, M1, <- app_assoc. reflexivity.
Qed.
Lemma wf_empty : wf empty_seq.
Proof. repeat split; constructor. Qed.
Lemma from_dict_ok : forall d (s : state), NoDup (map fst d) -> from_dict tin tout teqb refused d = Ret s -> wf s /\ s_mods s = d.
Proof. intros d s N E. apply (add_all_fresh d empty_seq s wf_empty N E). Qed.
Lemma str_NoDup : forall k n, NoDup (map str (seq k n)).
Proof. intros k n. apply Injective_map_NoDup; [intros a b; apply str_inj|apply seq_NoDup]. Qed.
Lemma combine_fst : forall {P Q} (a : list P) (b : list Q), List.length a = List.length b -> map fst (combine a b) = a /\ map snd (combine a b) = b.
Proof.
  intros P Q a; induction a as [|x a IH]; intros [|y b] H; try discriminate; [split; reflexivity|]. cbn in *.
  destruct (IH b ltac:(lia)) as [-> ->]. split; reflexivity.
Qed.
Lemma from_args_ok : forall ms (s : state), from_args tin tout teqb refused ms = Ret s ->
  wf s /\ map snd (s_mods s) = ms /\ map fst (s_mods s) = map str (seq 0 (List.length ms)).
Proof.
  intros ms s E. assert (List.length (map str (seq 0 (List.length ms))) = List.length ms) as Len by (rewrite map_length, seq_length; reflexivity).
  destruct (combine_fst _ _ Len) as [C1 C2].
  destruct (from_dict_ok (combine (map str (seq 0 (List.length ms))) ms) s) as [W Ms]; [rewrite C1; apply str_NoDup|exact E|].
  split; [exact W|]. rewrite Ms. auto.
Qed.
Definition clean_names (s : state) : Prop := map fst (s_mods s) = map str (seq 0 (List.length (s_mods s))).

(** *** every well-numbered history *)
Lemma step_ok : forall clean ops (s : state) s', wf s -> (clean = true -> clean_names s) -> numbered clean ops = true ->
  fold_left (step tin tout teqb refused) ops (Ret s) = Ret s' ->
  wf s' /\ fold_left supplied ops (Ret (map snd (s_mods s))) = Ret (map snd (s_mods s')).
Proof.
  intros clean ops; revert clean; induction ops as [|o ops IH]; intros clean s s' W C N E.
  - apply Ret_inj in E; subst s'. auto.
  - cbn [fold_left] in *. assert (forall l, fold_left (step tin tout teqb refused) l Raise = Raise) as R by (induction l; [reflexivity|assumption]).
    destruct (step tin tout teqb refused (Ret s) o) as [|s1] eqn:E1; [rewrite R in E; discriminate|].
    unfold step in E1; cbn [bind] in E1. destruct o as [m|a b k]; cbn [numbered] in N.
    + apply andb_prop in N. destruct N as [N1 N2]. specialize (C N1). unfold append in E1.
      destruct (add_fresh s (str (List.length (s_mods s))) m s1 W) as [W1 M1]; [|exact E1|].
      { rewrite C. intros K. apply in_map_iff in K. destruct K as (i & Ei & Hi). apply str_inj in Ei. apply in_seq in Hi. lia. }
      destruct (IH clean s1 s' W1) as [W2 M2]; [|exact N2|exact E|].
      { intros _. unfold clean_names. rewrite M1, map_app, app_length, C. cbn [List.length map fst]. rewrite Nat.add_1_r, seq_S, map_app. reflexivity. }
      split; [exact W2|]. rewrite <- M2, M1. cbn [supplied bind]. rewrite map_app. reflexivity.
    + unfold slice in E1. apply bind_Ret in E1. destruct E1 as (d & Ed & E1).
      assert (NoDup (map fst d)) as Nd by (apply (slice_NoDup (map fst (s_mods s)) a b k); [apply slice_map, Ed|apply W]).
      destruct (from_dict_ok d s1 Nd E1) as [W1 M1]. destruct (IH (clean && from_start a && unit_step k) s1 s' W1) as [W2 M2]; [|exact N|exact E|].
      { intros Hc. apply andb_prop in Hc. destruct Hc as [Hc Hk]. apply andb_prop in Hc. destruct Hc as [Hc Ha]. specialize (C Hc).
        destruct (prefix_slice _ _ _ _ _ Ha Hk Ed) as (q & ->). unfold clean_names in *. rewrite M1. rewrite firstn_length, <- firstn_map, C, firstn_map. f_equal.
        clear. assert (forall p n m, firstn m (seq p n) = seq p (Nat.min m n)) as H; [|apply H].
        intros p n; revert p; induction n as [|n IH]; intros p [|m]; try reflexivity. cbn [seq firstn Nat.min]. rewrite IH. reflexivity. }
      split; [exact W2|]. rewrite <- M2, M1. cbn [supplied bind]. rewrite (slice_map snd _ _ _ _ _ Ed). reflexivity.
Qed.
Lemma runs_fold : forall ms x y, fold_left (fun r m => x <- r ;; run m x) ms (Ret x) = Ret y <-> runs run ms x y.
Proof.
  induction ms as [|m ms IH]; intros x y; cbn [fold_left bind].
  - split; [intros E; apply Ret_inj in E; subst; constructor|intros H; inversion H; reflexivity].
  - split.
    + intros E. destruct (run m x) as [|z] eqn:Ez.
      * assert (forall l, fold_left (fun r m => x <- r ;; run m x) l Raise = Raise) as R by (induction l; [reflexivity|assumption]). rewrite R in E. discriminate.
      * apply IH in E. econstructor; eassumption.
    + intros H. inversion H as [|? ? ? z ? Ez Hz]; subst. rewrite Ez. apply IH, Hz.
Qed.
Theorem seq_runs : forall b ops s, NoDup (match b with Args _ => [] | Dict d => map fst d end) -> well_numbered b ops = true ->
  history tin tout teqb refused b ops = Ret s ->
  exists ms, all_supplied b ops = Ret ms /\ chained tin tout ms /\ map snd (s_mods s) = ms /\
  forall x y, forward run typ teqb s x = Ret y <->
    exists m m', hd_error ms = Some m /\ hd_error (rev ms) = Some m' /\ typ x = tin m /\ runs run ms x y /\ typ y = tout m'.
Proof.
  intros b ops s Nd N E. unfold history in E. destruct (begin tin tout teqb refused b) as [|s0] eqn:E0.
  { exfalso. assert (forall l, fold_left (step tin tout teqb refused) l Raise = Raise) as R by (induction l; [reflexivity|assumption]). rewrite R in E. discriminate. }
  assert (wf s0 /\ map snd (s_mods s0) = (match b with Args ms => ms | Dict d => map snd d end) /\
    ((match b with Args _ => true | Dict _ => false end) = true -> clean_names s0)) as (W & Ms & C).
  { destruct b as [ms|d]; cbn [begin] in E0.
    - destruct (from_args_ok ms s0 E0) as (W & H1 & H2). split; [exact W|split; [exact H1|]]. intros _. unfold clean_names. rewrite H2, <- H1, map_length. reflexivity.
    - destruct (from_dict_ok d s0 Nd E0) as (W & ->). split; [exact W|split; [reflexivity|discriminate]]. }
  destruct (step_ok _ ops s0 s W C N E) as [(W1 & W2 & W3 & W4) Hs]. rewrite Ms in Hs. exists (map snd (s_mods s)). split; [exact Hs|split; [exact W2|split; [reflexivity|]]].
  intros x y. unfold forward. rewrite W3, W4. split.
  - intros F. apply bind_Ret in F. destruct F as (u & Fu & F). apply bind_Ret in F. destruct F as (y' & Fy & F). apply bind_Ret in F. destruct F as (v & Fv & F).
    apply Ret_inj in F; subst y'. apply runs_fold in Fy.
    destruct (hd_error (map snd (s_mods s))) as [m|] eqn:Em; [|discriminate]. destruct (hd_error (rev (map snd (s_mods s)))) as [m'|] eqn:Em'; [|discriminate].
    cbn in Fu, Fv. destruct (teqb (typ x) (tin m)) eqn:Q1; [|discriminate]. destruct (teqb (typ y) (tout m')) eqn:Q2; [|discriminate].
    apply teqb_ok in Q1, Q2. exists m, m'. auto.
  - intros (m & m' & -> & -> & H1 & H2 & H3). cbn [option_map opt_eqb]. rewrite (proj2 (teqb_ok _ _) H1); cbn [assert_ bind].
    apply runs_fold in H2. rewrite H2; cbn [bind]. rewrite (proj2 (teqb_ok _ _) H3). reflexivity.
Qed.

(** *** appending to a slice that dropped the first [k] of [n] modules *)
Lemma dset_replace : forall (l : list M) p q m, q < List.length l ->
  dset String.eqb (combine (map str (seq p (List.length l))) l) (str (p + q)) m =
  combine (map str (seq p (List.length l))) (firstn q l ++ m :: skipn (S q) l)%list.
Proof.
  induction l as [|a l IH]; intros p q m H; [cbn in H; lia|]. cbn [List.length seq map combine dset]. destruct q as [|q].
  - rewrite Nat.add_0_r, String.eqb_refl. reflexivity.
  - destruct (String.eqb_spec (str p) (str (p + S q))) as [E|_]; [apply str_inj in E; lia|]. cbn [firstn app combine skipn]. f_equal.
    replace (p + S q) with (S p + q) by lia. rewrite IH by (cbn in H; lia). reflexivity.
Qed.
Lemma skipn_combine : forall {P Q} k (a : list P) (b : list Q), skipn k (combine a b) = combine (skipn k a) (skipn k b).
Proof. intros P Q; induction k as [|k IH]; intros [|x a] [|y b]; try reflexivity; cbn [skipn combine]; [destruct (skipn k a); reflexivity|apply IH]. Qed.
Lemma skipn_seq' : forall k p n, skipn k (seq p n) = seq (p + k) (n - k).
Proof.
  induction k as [|k IH]; intros p n; [rewrite Nat.add_0_r, Nat.sub_0_r; reflexivity|]. destruct n as [|n]; [reflexivity|]. cbn [seq skipn Nat.sub].
  rewrite IH. f_equal; lia.
Qed.
Lemma drop_slice : forall {P} (l : list P) k, k <= List.length l -> py_slice l (Some (Z.of_nat k)) None None = Ret (skipn k l).
Proof.
  intros P l k H. unfold py_slice. rewrite slice_positions_1. cbn [slice_end]. destruct (Z.ltb_spec (Z.of_nat k) 0); [lia|]. rewrite Z.min_l by lia. cbn [bind].
  rewrite Nat2Z.id. replace (Z.to_nat (Z.of_nat (List.length l) - Z.of_nat k)) with (List.length l - k) by lia. rewrite mapM_get_seq by lia.
  rewrite firstn_all2 by (rewrite skipn_length; lia). reflexivity.
Qed.
Theorem append_after_drop : forall ms k m s, 0 < k < List.length ms ->
  history tin tout teqb refused (Args ms) [Slice (Some (Z.of_nat k)) None None; Append m] = Ret s ->
  let n := List.length ms in
  map snd (s_mods s) = (if Nat.leb (2 * k) n then firstn (n - 2 * k) (skipn k ms) ++ m :: skipn (S (n - 2 * k)) (skipn k ms) else skipn k ms ++ [m])%list /\
  s_in s = option_map tin (hd_error (skipn k ms)) /\ s_out s = Some (tout m).
Proof.
  intros ms k m s Hk E n. unfold history in E. cbn [fold_left begin] in E.
  destruct (from_args tin tout teqb refused ms) as [|s0] eqn:E0; [discriminate|]. destruct (from_args_ok ms s0 E0) as (W & H1 & H2).
  unfold step in E. cbn [bind] in E. apply bind_Ret in E. destruct E as (s1 & E1 & E). unfold slice in E1. apply bind_Ret in E1. destruct E1 as (d & Ed & E1).
  assert (s_mods s0 = combine (map str (seq 0 n)) ms) as Es0.
  { clear - H1 H2. fold n in H2. revert H1 H2. generalize (map str (seq 0 n)) as q. generalize (s_mods s0) as l. clear.
    intros l q <- <-. induction l as [|[a b] l IH]; [reflexivity|]. cbn. rewrite <- IH. reflexivity. }
  assert (List.length (s_mods s0) = n) as Ln by (rewrite <- (map_length snd), H1; reflexivity).
  rewrite drop_slice in Ed by (rewrite Ln; unfold n; lia). apply Ret_inj in Ed; subst d.
  assert (skipn k (s_mods s0) = combine (map str (seq k (n - k))) (skipn k ms)) as Es.
  { rewrite Es0, skipn_combine, skipn_map, skipn_seq'. reflexivity. }
  destruct (from_dict_ok (skipn k (s_mods s0)) s1) as [(W1 & W2 & W3 & W4) Ms1]; [|exact E1|].
  { rewrite <- skipn_map, H2, skipn_map. fold n. rewrite skipn_seq'. apply str_NoDup. }
  assert (List.length (skipn k ms) = n - k) as Lk by apply skipn_length.
  assert (map snd (s_mods s1) = skipn k ms) as Hs1.
  { rewrite Ms1, Es. apply combine_fst. rewrite map_length, seq_length, Lk. reflexivity. }
  assert (List.length (s_mods s1) = n - k) as L1 by (rewrite <- (map_length snd), Hs1; exact Lk).
  unfold append, SeqModel.add_module in E. apply bind_Ret in E. destruct E as (i & Ei & E). rewrite L1 in Ei, E.
  destruct (Nat.eqb_spec (n - k) 0); [unfold n in *; lia|]. apply bind_Ret in Ei. destruct Ei as (u & _ & Ei). apply Ret_inj in Ei; subst i.
  apply bind_Ret in E. destruct E as (v & _ & E). apply Ret_inj in E; subst s. cbn [s_mods s_in s_out]. split; [|split; [rewrite W3, Hs1; reflexivity|reflexivity]].
  rewrite Ms1, Es. rewrite <- Lk at 1. destruct (Nat.leb_spec (2 * k) n) as [Hn|Hn].
  - replace (n - k) with (k + (n - 2 * k)) by lia. rewrite dset_replace by (rewrite Lk; lia).
    apply combine_fst. rewrite map_length, seq_length, app_length, firstn_length. cbn [List.length]. rewrite !skipn_length. fold n. lia.
  - rewrite dset_new.
    + rewrite map_app. cbn [map snd]. f_equal. apply combine_fst. rewrite map_length, seq_length. reflexivity.
    + rewrite (proj1 (combine_fst _ _ ltac:(rewrite map_length, seq_length; reflexivity))). intros K. apply in_map_iff in K.
      destruct K as (j & Ej & Hj). apply str_inj in Ej. apply in_seq in Hj. lia.
Qed.
(** the appended module replaces another one, although the types fit *)
Theorem append_overwrites : (forall n, refused (str n) = false) -> forall a b c : M, tin a = tout a -> tin b = tin a -> tout b = tin a -> tin c = tin a ->
  exists s, history tin tout teqb refused (Args [a; b]) [Slice (Some 1%Z) None None; Append c] = Ret s /\
    all_supplied (Args [a; b]) [Slice (Some 1%Z) None None; Append c] = Ret [b; c] /\ map snd (s_mods s) = [c].
Proof.
  intros Rf a b c Ha Hb Hb' Hc.
  assert (forall x y, x = y -> teqb x y = true) as Te by (intros; apply teqb_ok; assumption).
  assert (exists s, history tin tout teqb refused (Args [a; b]) [Slice (Some (Z.of_nat 1)) None None; Append c] = Ret s) as (s & Es).
  { assert (forall n m, add_module empty_seq (str n) m = Ret {| s_in := Some (tin m); s_out := Some (tout m); s_mods := [(str n, m)] |}) as First
      by (intros; unfold SeqModel.add_module; cbn [empty_seq s_mods List.length Nat.eqb s_in s_out bind]; rewrite Rf; reflexivity).
    assert (forall i t p n m, tin m = t -> add_module {| s_in := i; s_out := Some t; s_mods := [p] |} (str n) m =
      Ret {| s_in := i; s_out := Some (tout m); s_mods := dset String.eqb [p] (str n) m |}) as Next
      by (intros; unfold SeqModel.add_module; cbn [s_mods List.length Nat.eqb s_in s_out bind opt_eqb]; rewrite Te by assumption; cbn [assert_ bind]; rewrite Rf; reflexivity).
    assert (history tin tout teqb refused (Args [a; b]) [Slice (Some (Z.of_nat 1)) None None; Append c] =
      step tin tout teqb refused (step tin tout teqb refused (s <- add_module empty_seq (str 0) a ;; add_module s (str 1) b) (Slice (Some (Z.of_nat 1)) None None)) (Append c)) as -> by reflexivity.
    rewrite First; cbn [bind]. rewrite Next by congruence. change (dset String.eqb [(str 0, a)] (str 1) b) with [(str 0, a); (str 1, b)].
    unfold step at 2; cbn [bind]. unfold slice. cbn [s_mods]. rewrite (drop_slice _ 1) by (cbn; lia). cbn [skipn bind].
    assert (from_dict tin tout teqb refused [(str 1, b)] = add_module empty_seq (str 1) b) as -> by reflexivity. rewrite First.
    unfold step; cbn [bind]. unfold append. cbn [s_mods List.length]. rewrite Next by congruence. eexists. reflexivity. }
  exists s. split; [exact Es|split; [reflexivity|]].
  destruct (append_after_drop [a; b] 1 c s ltac:(cbn; lia) Es) as (H & _). exact H.
Qed.
End ST.
