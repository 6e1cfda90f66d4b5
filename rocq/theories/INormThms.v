(** Induced norm nonlinearity. *)
From Coq Require Import Reals String List ZArith Arith Bool Lia Lra Permutation.
From Verif Require Import LibRes LibPy LibMat ParamModel ParamProofs FieldModel SpecField FieldProofs BranchProofs LabelThms MergeThms GroupedModel GroupedProofs
  NonlinModel SpecNonlin NonlinProofs NormThms.
Import ListNotations.
Open Scope R_scope.
Notation length := List.length.

Definition pieces (q s : nat) (v : list R) : list (list R) := map (fun j => piece s j v) (seq 0 q).
Lemma piece_0 : forall s v, piece s 0 v = firstn s v.
Proof. reflexivity. Qed.
Lemma piece_S : forall s j v, piece s (S j) v = piece s j (skipn s v).
Proof. intros s j v. unfold piece. rewrite skipn_skipn'. reflexivity. Qed.
Lemma pieces_S : forall q s v, pieces (S q) s v = piece s 0 v :: pieces q s (skipn s v).
Proof. intros q s v. unfold pieces. rewrite <- cons_seq, <- seq_shift, map_cons, map_map. f_equal. apply map_ext. intros j. apply piece_S. Qed.
Lemma concat_pieces : forall q s v, length v = (q * s)%nat -> concat (pieces q s v) = v.
Proof.
  induction q as [|q IH]; intros s v L; [destruct v; [reflexivity|discriminate]|]. rewrite pieces_S. cbn [concat]. rewrite IH by (rewrite skipn_length; lia).
  rewrite piece_0. apply firstn_skipn.
Qed.
Lemma piece_length : forall q s j v, length v = (q * s)%nat -> (j < q)%nat -> length (piece s j v) = s.
Proof. intros q s j v L H. unfold piece. rewrite firstn_length, skipn_length, L. nia. Qed.
Lemma pieces_uniform : forall q s v, length v = (q * s)%nat -> Forall (fun b => length b = s) (pieces q s v).
Proof.
  intros q s v L. apply Forall_forall. intros b Hb. apply in_map_iff in Hb. destruct Hb as (j & <- & Hj). apply in_seq in Hj. apply (piece_length q); [exact L|lia].
Qed.
Lemma piece_concat : forall s (bs : list (list R)) j, Forall (fun b => length b = s) bs -> (j < length bs)%nat -> piece s j (concat bs) = nth j bs [].
Proof.
  intros s bs; induction bs as [|b bs IH]; intros j F Hj; [cbn in Hj; lia|]. inversion F as [|? ? Eb F']; subst. cbn [concat]. destruct j as [|j].
  - rewrite piece_0, firstn_app, firstn_all, Nat.sub_diag. cbn. apply app_nil_r.
  - rewrite piece_S, skipn_app, skipn_all, Nat.sub_diag. cbn [skipn app nth]. apply IH; [exact F'|cbn in Hj; lia].
Qed.
Lemma piece_nth : forall s j v a, (a < s)%nat -> nth a (piece s j v) 0 = nth (j * s + a) v 0.
Proof.
  intros s j v a H. unfold piece. rewrite <- (firstn_skipn (j * s) v) at 2.
  destruct (Nat.lt_ge_cases (length v) (j * s)) as [K|K].
  - rewrite (skipn_all2 v) by lia. rewrite firstn_nil, app_nil_r. rewrite (nth_overflow [] 0) by (cbn; lia). rewrite nth_overflow; [reflexivity|]. rewrite firstn_length. lia.
  - rewrite app_nth2 by (rewrite firstn_length; lia). rewrite firstn_length. replace (j * s + a - Nat.min (j * s) (length v))%nat with a by lia.
    generalize (skipn (j * s) v) as w. clear - H. revert a H. induction s as [|s IH]; intros a H w; [lia|]. destruct w as [|c w]; [destruct a; reflexivity|]. destruct a as [|a]; [reflexivity|].
    cbn [firstn nth]. apply IH. lia.
Qed.
Lemma pieces_ext : forall q s v w, length v = (q * s)%nat -> length w = (q * s)%nat -> (forall j, (j < q)%nat -> piece s j v = piece s j w) -> v = w.
Proof.
  intros q s v w Lv Lw H. rewrite <- (concat_pieces q s v Lv), <- (concat_pieces q s w Lw). f_equal. unfold pieces. apply map_ext_in.
  intros j Hj. apply in_seq in Hj. apply H. lia.
Qed.

(** a block-orthogonal matrix moves the pieces *)
Lemma piece_mv : forall q s M (p : nat -> nat) (O : nat -> mat) v j, length v = (q * s)%nat -> (j < q)%nat ->
  (forall j, (j < q)%nat -> (p j < q)%nat) -> (forall j k, (j < q)%nat -> (k < q)%nat -> p j = p k -> j = k) ->
  (forall i a j b, (i < q)%nat -> (a < s)%nat -> (j < q)%nat -> (b < s)%nat -> M (i * s + a)%nat (j * s + b)%nat = if Nat.eqb i (p j) then O j a b else 0) ->
  piece s (p j) (mv (q * s) M v) = mv s (O j) (piece s j v).
Proof.
  intros q s M p O v j Lv Hj Rp Ip HM. apply list_ext; [rewrite (piece_length q), mv_length; [reflexivity|apply mv_length|apply Rp, Hj]|].
  intros a Ha. rewrite (piece_length q) in Ha; [|apply mv_length|apply Rp, Hj]. rewrite piece_nth by exact Ha.
  assert (p j * s + a < q * s)%nat as B by (specialize (Rp j Hj); nia).
  rewrite mv_nth by exact B. rewrite mv_nth by exact Ha. rewrite sumn_mul.
  rewrite (sumn_single q j); [|exact Hj|].
  - apply sumn_ext. intros b Hb. rewrite HM by (try assumption; apply Rp, Hj). rewrite Nat.eqb_refl, piece_nth by exact Hb. reflexivity.
  - intros k Hk Ne. apply sumn_0. intros b Hb. rewrite HM by (try assumption; apply Rp, Hj).
    destruct (Nat.eqb_spec (p j) (p k)) as [E|_]; [exfalso; apply Ne; symmetry; apply Ip; assumption|ring].
Qed.
Lemma inj_surj : forall q (p : nat -> nat), (forall j, (j < q)%nat -> (p j < q)%nat) -> (forall j k, (j < q)%nat -> (k < q)%nat -> p j = p k -> j = k) ->
  forall i, (i < q)%nat -> exists j, (j < q)%nat /\ p j = i.
Proof.
  intros q p R I i Hi. assert (In i (map p (seq 0 q))) as H.
  { apply (NoDup_length_incl (l := map p (seq 0 q)) (l' := seq 0 q)).
    - clear - I. assert (forall l, (forall j, In j l -> (j < q)%nat) -> NoDup l -> NoDup (map p l)) as H.
      { induction l as [|a l IH]; intros B ND; cbn; [constructor|]. inversion ND; subst. constructor.
        - intros K. apply in_map_iff in K. destruct K as (b & E & Hb). apply I in E; [subst; contradiction|apply B; right; exact Hb|apply B; left; reflexivity].
        - apply IH; [intros; apply B; right; assumption|assumption]. }
      apply H; [intros j Hj; apply in_seq in Hj; lia|apply seq_NoDup].
    - rewrite map_length. lia.
    - intros k Hk. apply in_map_iff in Hk. destruct Hk as (j & <- & Hj). apply in_seq in Hj. apply in_seq. specialize (R j ltac:(lia)). lia.
    - apply in_seq. lia. }
  apply in_map_iff in H. destruct H as (j & E & Hj). apply in_seq in Hj. exists j. split; [lia|exact E].
Qed.
(** rescaling every piece by a function of its norm commutes with such matrices *)
Lemma pieces_commute : forall q s M (c : R -> R) v w w', block_orthogonal q s M -> length v = (q * s)%nat -> length w = (q * s)%nat -> length w' = (q * s)%nat ->
  (forall j, (j < q)%nat -> piece s j w = scaled (c (enorm (piece s j v))) (piece s j v)) ->
  (forall j, (j < q)%nat -> piece s j w' = scaled (c (enorm (piece s j (mv (q * s) M v)))) (piece s j (mv (q * s) M v))) ->
  w' = mv (q * s) M w.
Proof.
  intros q s M c v w w' (p & O & Rp & Ip & Or & HM) Lv Lw Lw' Hw Hw'. apply (pieces_ext q s); [exact Lw'|apply mv_length|].
  intros i Hi. destruct (inj_surj q p Rp Ip i Hi) as (j & Hj & <-). rewrite (Hw' (p j) Hi).
  rewrite !(piece_mv q s M p O) by assumption. rewrite (Hw j Hj).
  rewrite enorm_orth by (try (apply (piece_length q); assumption); apply Or, Hj). symmetry. apply scaled_mv. apply (piece_length q); assumption.
Qed.

Lemma pair_eqb_ok : forall a b, pair_eqb a b = true <-> a = b.
Proof.
  intros [a a'] [b b']. unfold pair_eqb. cbn [fst snd]. rewrite andb_true_iff, !Nat.eqb_eq. split; [intros [-> ->]; reflexivity|intros E; injection E; auto].
Qed.

Section INorm.
Context {A : Type}.
Variable size : A -> nat.
Variable supported : A -> list nonlin.
Variable teqb : list A -> list A -> bool.
Notation forward := (inorm_forward size teqb).
Notation pos_sizes ft := (Forall (fun r => (0 < size r)%nat) ft).

Lemma subfield_loop_some : forall n l f0 s, subfield_loop n l (Some f0) = Ret (Some s) -> s = f0 /\ forall t, ~ In (NL_induced_norm t) l.
Proof.
  intros n l; induction l as [|a l IH]; intros f0 s E; cbn [subfield_loop] in E.
  - apply Ret_inj in E. injection E as ->. split; [reflexivity|intros t []].
  - destruct a; try discriminate; destruct (IH _ _ E) as [E1 E2]; (split; [exact E1|]); intros t [K|K]; try discriminate; exact (E2 t K).
Qed.
(** the constructor finds the only entry "induced_norm_s" *)
Lemma subfield_ok : forall r a b, subfield size supported r = Ret (a, b) ->
  a = size r /\ (0 < b)%nat /\ size r = (size r / b * b)%nat /\ forall t, In (NL_induced_norm t) (supported r) <-> t = b.
Proof.
  intros r a b E. unfold subfield in E. apply bind_Ret in E. destruct E as (o & Eo & E). destruct o as [s|]; [|discriminate]. apply Ret_inj in E. injection E as <- <-.
  split; [reflexivity|]. revert Eo. generalize (supported r) as l. induction l as [|x l IH]; intros Eo; cbn [subfield_loop] in Eo; [discriminate|].
  destruct x; try (destruct (IH Eo) as (P1 & P2 & P3); split; [exact P1|split; [exact P2|]]; intros t; rewrite <- P3; cbn [In]; split; [intros [K|K]; [discriminate|exact K]|auto]).
  apply bind_Ret in Eo. destruct Eo as (u1 & E1 & Eo). apply bind_Ret in Eo. destruct Eo as (u2 & E2 & Eo).
  destruct (subfield_loop_some _ _ _ _ Eo) as [<- N]. 
  destruct (Nat.eqb_spec s 0) as [|Ns]; [discriminate|]. destruct (Nat.eqb_spec (size r mod s) 0) as [Em|]; [|discriminate].
  split; [lia|]. split; [pose proof (Nat.div_mod (size r) s Ns); lia|]. intros t. split.
  - intros [K|K]; [injection K; auto|exfalso; exact (N t K)].
  - intros ->. left. reflexivity.
Qed.
Lemma mapM_nth : forall {X Y} (f : X -> res Y) l m i x, mapM f l = Ret m -> nth_error l i = Some x -> exists y, f x = Ret y /\ nth_error m i = Some y.
Proof.
  intros X Y f l; induction l as [|a l IH]; intros m i x E Ei; [destruct i; discriminate|]. cbn [mapM] in E.
  apply bind_Ret in E. destruct E as (b & Eb & E). apply bind_Ret in E. destruct E as (bs & Ebs & E). apply Ret_inj in E; subst m.
  destruct i as [|i]; cbn [nth_error] in *; [injection Ei as <-; eauto|]. eapply IH; eassumption.
Qed.
Lemma mapM_length : forall {X Y} (f : X -> res Y) l m, mapM f l = Ret m -> length m = length l.
Proof.
  intros X Y f l; induction l as [|a l IH]; intros m E; cbn [mapM] in E; [apply Ret_inj in E; subst; reflexivity|].
  apply bind_Ret in E. destruct E as (b & Eb & E). apply bind_Ret in E. destruct E as (bs & Ebs & E). apply Ret_inj in E; subst m. cbn. rewrite (IH _ Ebs). reflexivity.
Qed.

Definition inorm_field (f : R -> R) (b : R) (id : nat * nat) (v : list R) : list R :=
  concat (map (fun p => repeat (norm_factor f b (enorm p)) (snd id)) (pieces (fst id / snd id) (snd id) v)).
Lemma inorm_group_ok : forall f biases nf id next (bs : list (list R)), (0 < snd id)%nat -> fst id = (fst id / snd id * snd id)%nat ->
  Forall (fun b => length b = fst id) bs -> nf id = length bs -> (forall b, biases = Some b -> (next + length bs <= length b)%nat) ->
  inorm_group f biases nf id next (concat bs) = Ret (concat (imap (fun k v => inorm_field f (bias_of biases k) id v) next bs)).
Proof.
  intros f biases nf id next bs Ps Ediv F En Hb. unfold inorm_group. set (s := snd id) in *. set (q := (fst id / s)%nat) in *.
  assert (concat bs = concat (flat_map (pieces q s) bs)) as ->.
  { clear - F Ediv. induction F as [|b bs Eb F IH]; [reflexivity|]. cbn [flat_map concat]. rewrite concat_app, <- IH, concat_pieces by lia. reflexivity. }
  rewrite view_concat; [|exact Ps|].
  2:{ clear - F Ediv. induction F as [|b bs Eb F IH]; [constructor|]. cbn [flat_map]. apply Forall_app. split; [apply pieces_uniform; lia|exact IH]. }
  cbn [bind].
  assert (map vnorm (flat_map (pieces q s) bs) = flat_map (fun v => map vnorm (pieces q s v)) bs) as ->.
  { clear. induction bs as [|b bs IH]; [reflexivity|]. cbn [flat_map]. rewrite map_app, IH. reflexivity. }
  assert (multipliers f (option_map (fun b => flat_map (fun c => repeat c q) (slice_at next (nf id) b)) biases) (flat_map (fun v => map vnorm (pieces q s v)) bs) =
    Ret (concat (imap (fun k v => map (fun n => multiplier n (f (n - bias_of biases k))) (map vnorm (pieces q s v))) next bs))) as ->.
  { unfold multipliers. destruct biases as [b|]; cbn [option_map].
    - rewrite En. rewrite (zip_blocks _ q) by (try (apply Hb; reflexivity); intros v _; unfold pieces; rewrite !map_length, seq_length; reflexivity). cbn [bind].
      rewrite concat_map, map_imap. rewrite (imap_ext _ (fun k x => map (fun a => f (a - nth k b 0)) (map vnorm (pieces q s x)))) by (intros; rewrite map_map; reflexivity).
      rewrite (zip_flat (fun v => map vnorm (pieces q s v)) multiplier (fun k x a => f (a - nth k b 0))). reflexivity.
    - cbn [bind].
      assert (map f (flat_map (fun v => map vnorm (pieces q s v)) bs) = concat (imap (fun _ x => map (fun a => f a) (map vnorm (pieces q s x))) next bs)) as ->.
      { rewrite flat_map_concat_map, concat_map, map_map, (imap_const (fun x => map (fun a => f a) (map vnorm (pieces q s x)))). reflexivity. }
      rewrite (zip_flat (fun v => map vnorm (pieces q s v)) multiplier (fun k x a => f a)). f_equal. f_equal. apply imap_ext. intros j v _. apply map_ext.
      intros n. cbn [bias_of]. rewrite Rminus_0_r. reflexivity. }
  cbn [bind]. f_equal. rewrite flat_map_concat_map. rewrite concat_map, map_imap. clear. revert next.
  induction bs as [|v bs IH]; intros next; [reflexivity|]. cbn [imap concat]. rewrite concat_app, IH. f_equal.
  unfold inorm_field. fold s. fold q. f_equal. rewrite !map_map. apply map_ext. intros p. rewrite multiplier_factor. reflexivity.
Qed.

Theorem inorm_value : forall ft name bias m, pos_sizes ft -> mk_inorm size supported ft name bias = Ret m ->
  exists fn sel, named name fn /\ Permutation sel (seq 0 (length ft)) /\
  forall x log_bias junk, g_type x = ft -> good size x -> teqb ft ft = true -> length log_bias = length ft -> length junk = type_size size ft ->
  exists y, forward m log_bias junk x = Ret y /\ g_type y = ft /\ good size y /\
    forall k i r s j, nth_error sel k = Some i -> nth_error ft i = Some r -> In (NL_induced_norm s) (supported r) -> (j < size r / s)%nat ->
      piece s j (field_chans size ft (g_chans y) i) =
      scaled (norm_factor fn (bias_at bias log_bias k) (enorm (piece s j (field_chans size ft (g_chans x) i)))) (piece s j (field_chans size ft (g_chans x) i)).
Proof.
  intros ft name bias m P Em. unfold mk_inorm in Em. apply bind_Ret in Em. destruct Em as (f & Ef & Em). apply bind_Ret in Em. destruct Em as (ids & Ei & Em).
  apply bind_Ret in Em. destruct Em as (bufs & Eb & Em). apply Ret_inj in Em; subst m.
  exists f, (flat_map (labelled pair_eqb ids) (sort_by size_leb (map fst bufs))). split; [eapply norm_function_named; exact Ef|].
  assert (Permutation (sort_by size_leb (map fst bufs)) (map fst bufs)) as Po by apply sort_perm.
  pose proof (mapM_length _ _ _ Ei) as Lids.
  assert (forall i r, nth_error ft i = Some r -> exists s, nth_error ids i = Some (size r, s) /\ (0 < s)%nat /\ size r = (size r / s * s)%nat /\ forall t, In (NL_induced_norm t) (supported r) <-> t = s) as Hids.
  { intros i r Er. destruct (mapM_nth _ _ _ _ _ Ei Er) as ([a b] & E1 & E2). destruct (subfield_ok _ _ _ E1) as (-> & H1 & H2 & H3). exists b. auto. }
  assert (forall s, In s ids -> (0 < snd s)%nat /\ fst s = (fst s / snd s * snd s)%nat) as Hin.
  { intros s Hs. apply In_nth_error in Hs. destruct Hs as [i E]. destruct (nth_error ft i) as [r|] eqn:Er; [|apply nth_error_None in Er; assert (i < length ids)%nat by (apply nth_error_Some; congruence); lia].
    destruct (Hids i r Er) as (t & Et & H1 & H2 & _). assert (s = (size r, t)) by congruence. subst s. auto. }
  pose (core := fun (bs : option (list R)) (Hb : forall b, bs = Some b -> length b = length ft) (x junk : list R) (Lx : length x = type_size size ft)
     (Lj : length junk = type_size size ft) =>
    in_place size pair_eqb pair_eqb_ok fst ft ids bufs (sort_by size_leb (map fst bufs))
      (inorm_group f bs (nfields pair_eqb ids)) (fun id k v => inorm_field f (bias_of bs k) id v) x junk
      Lids P
      ltac:(intros i r s E1 E2; destruct (Hids i r E2) as (t & Et & _); assert (s = (size r, t)) by congruence; subst s; reflexivity) Eb Po Lx Lj
      ltac:(intros s next B Hs L1 L2 F Ps _; destruct (Hin s Hs); apply inorm_group_ok; [assumption|assumption|exact F|symmetry; exact L1|intros b E; rewrite (Hb b E); exact L2])
      ltac:(intros s k b Hs L; destruct (Hin s Hs) as [H1 H2]; unfold inorm_field; rewrite (concat_uniform (snd s)); [rewrite map_length; unfold pieces; rewrite map_length, seq_length; lia|apply Forall_forall; intros w Hw; apply in_map_iff in Hw; destruct Hw as (p & <- & _); apply repeat_length])).
  split.
  - apply (core None ltac:(discriminate) (repeat 0 (type_size size ft)) (repeat 0 (type_size size ft)) (repeat_length _ _) (repeat_length _ _)).
  - intros x log_bias junk Ex Gx Et Lb Lj. unfold inorm_forward. cbn [in_type in_bias in_buffers in_order in_function in_ids].
    rewrite Ex, Et. cbn [assert_ bind].
    set (bs := if bias then Some (map exp log_bias) else None).
    assert (forall b, bs = Some b -> length b = length ft) as Hb.
    { unfold bs. destruct bias; intros b E; [|discriminate]. injection E as <-. rewrite map_length. exact Lb. }
    assert (length (g_chans x) = type_size size ft) as Lx by (rewrite <- Ex; exact Gx).
    destruct (core bs Hb (g_chans x) junk Lx Lj) as (Ps & out & El & Lo & Ho). rewrite El. cbn [bind].
    rewrite zip_with_ok by lia. cbn [bind]. unfold mk_gtensor. rewrite map_length, combine_length, Lx, Lo, Nat.min_id, Nat.eqb_refl. cbn [assert_ bind].
    eexists. split; [reflexivity|]. split; [reflexivity|]. split; [red; cbn [g_chans g_type]; rewrite map_length, combine_length; lia|].
    intros k i r s j Ek Er Hs Hj. cbn [g_chans]. destruct (Hids i r Er) as (s' & Es & P1 & P2 & P3). apply P3 in Hs. subst s'.
    rewrite field_map, field_combine by lia. rewrite (Ho k i _ Ek Es).
    assert (bias_of bs k = bias_at bias log_bias k) as ->.
    { unfold bs, bias_of, bias_at. destruct bias; [|reflexivity]. assert (k < length log_bias)%nat as Hk.
      { rewrite Lb, <- (seq_length (length ft) 0), <- (Permutation_length Ps). apply nth_error_Some. congruence. }
      rewrite (nth_indep _ 0 (exp 0)) by (rewrite map_length; exact Hk). apply map_nth. }
    set (v := field_chans size ft (g_chans x) i). assert (length v = (size r / s * s)%nat) as Lv by (rewrite <- P2; apply field_chans_length; assumption).
    set (c := fun w => norm_factor f (bias_at bias log_bias k) (enorm w)). unfold inorm_field. cbn [fst snd].
    set (q := (size r / s)%nat) in *.
    assert (map (fun p => fst p * snd p) (List.combine v (concat (map (fun p => repeat (c p) s) (pieces q s v)))) = concat (map (fun p => scaled (c p) p) (pieces q s v))) as E.
    { rewrite <- (concat_pieces q s v Lv) at 1. pose proof (pieces_uniform q s v Lv) as F. clear - F. induction F as [|w ws Ew F IH]; [reflexivity|]. cbn [concat map].
      rewrite combine_app2 by (rewrite repeat_length; exact Ew). rewrite map_app, IH. f_equal. rewrite combine_repeat by exact Ew. rewrite map_map. unfold scaled.
      apply map_ext. intros a. cbn [fst snd]. ring. }
    change (fun p => repeat (norm_factor f (bias_at bias log_bias k) (enorm p)) s) with (fun p => repeat (c p) s).
    change (norm_factor f (bias_at bias log_bias k) (enorm (piece s j v))) with (c (piece s j v)).
    rewrite E.
    rewrite piece_concat.
    + unfold pieces. rewrite map_map. rewrite (nth_indep _ [] ((fun j => scaled (c (piece s j v)) (piece s j v)) 0%nat)) by (rewrite map_length, seq_length; exact Hj).
      rewrite (map_nth (fun j => scaled (c (piece s j v)) (piece s j v))), seq_nth by exact Hj. reflexivity.
    + pose proof (pieces_uniform q s v Lv) as F. apply Forall_forall. intros w Hw. apply in_map_iff in Hw. destruct Hw as (p & <- & Hp). unfold scaled. rewrite map_length.
      rewrite Forall_forall in F. apply F, Hp.
    + rewrite map_length. unfold pieces. rewrite map_length, seq_length. exact Hj.
Qed.

Theorem inorm_equivariant : forall ft name bias m, pos_sizes ft -> mk_inorm size supported ft name bias = Ret m ->
  forall (rho : A -> mat) x x' log_bias junk junk', g_type x = ft -> g_type x' = ft -> good size x -> teqb ft ft = true ->
  length log_bias = length ft -> length junk = type_size size ft -> length junk' = type_size size ft ->
  (forall r s, In r ft -> In (NL_induced_norm s) (supported r) -> block_orthogonal (size r / s) s (rho r)) -> acts size ft rho (g_chans x) (g_chans x') ->
  exists y y', forward m log_bias junk x = Ret y /\ forward m log_bias junk' x' = Ret y' /\
    g_type y = ft /\ g_type y' = ft /\ acts size ft rho (g_chans y) (g_chans y').
Proof.
  intros ft name bias m P Em rho x x' lb junk junk' Ex Ex' Gx Et Lb Lj Lj' O Ha.
  destruct (inorm_value ft name bias m P Em) as (fn & sel & _ & Ps & H).
  assert (good size x') as Gx' by (red; rewrite Ex'; apply (proj1 Ha)).
  destruct (H x lb junk Ex Gx Et Lb Lj) as (y & Ey & Ty & Gy & Hy). destruct (H x' lb junk' Ex' Gx' Et Lb Lj') as (y' & Ey' & Ty' & Gy' & Hy').
  exists y, y'. split; [exact Ey|]. split; [exact Ey'|]. split; [exact Ty|]. split; [exact Ty'|].
  red in Gx, Gy, Gy'. rewrite Ex in Gx. rewrite Ty in Gy. rewrite Ty' in Gy'. split; [exact Gy'|]. intros i r Er.
  unfold mk_inorm in Em. apply bind_Ret in Em. destruct Em as (f & Ef & Em). apply bind_Ret in Em. destruct Em as (ids & Ei & _).
  destruct (mapM_nth _ _ _ _ _ Ei Er) as ([a s] & E1 & _). destruct (subfield_ok _ _ _ E1) as (-> & P1 & P2 & P3).
  assert (In i sel) as Hi. { apply (Permutation_in _ (Permutation_sym Ps)), in_seq. assert (i < length ft)%nat by (apply nth_error_Some; congruence). lia. }
  apply In_nth_error in Hi. destruct Hi as [k Ek].
  assert (In (NL_induced_norm s) (supported r)) as Hs by (apply P3; reflexivity).
  rewrite P2 at 1. apply (pieces_commute (size r / s) s (rho r) (norm_factor fn (bias_at bias lb k)) (field_chans size ft (g_chans x) i)).
  - apply O; [apply nth_error_In in Er; exact Er|exact Hs].
  - rewrite <- P2. apply field_chans_length; assumption.
  - rewrite <- P2. apply field_chans_length; assumption.
  - rewrite <- P2. apply field_chans_length; assumption.
  - intros j Hj. apply (Hy k i r s j Ek Er Hs Hj).
  - intros j Hj. rewrite <- P2. rewrite <- (proj2 Ha i r Er). apply (Hy' k i r s j Ek Er Hs Hj).
Qed.
End INorm.
