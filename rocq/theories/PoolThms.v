(** The values of the pooling maps and their invariance. *)
From Coq Require Import Reals List ZArith Arith Bool Lia Lra Permutation.
From Verif Require Import LibRes LibPy LibMat FieldModel SpecField FieldProofs FieldThms BranchProofs LabelThms MergeThms GroupedModel GroupedProofs NonlinModel SpecNonlin NonlinProofs NormThms INormThms GatedThms PoolModel SpecPool PoolProofs.
Import ListNotations.
Open Scope R_scope.

Lemma type_size_one : forall {B} (ft : list B), type_size (fun _ => 1%nat) ft = length ft.
Proof. intros B ft. unfold type_size. induction ft as [|r ft IH]; [reflexivity|]. cbn [map length]. change (list_sum (1%nat :: map (fun _ => 1%nat) ft)) with (1 + list_sum (map (fun _ : B => 1%nat) ft))%nat. rewrite IH. reflexivity. Qed.
Lemma field_one : forall {B V} (ft : list B) (out : list V) i v, nth_error ft i <> None -> field_chans (fun _ => 1%nat) ft out i = [v] -> nth_error out i = Some v.
Proof.
  intros B V ft out i v Hi E. destruct (nth_error ft i) as [r|] eqn:Er; [|congruence]. rewrite (field_chans_at _ _ _ _ _ Er) in E.
  assert (offset (fun _ : B => 1%nat) ft i = i) as O.
  { assert (i < length ft)%nat by (apply nth_error_Some; congruence). unfold offset. rewrite <- (firstn_length_le ft (n := i)) at 2 by lia. apply (type_size_one (firstn i ft)). }
  rewrite O in E. rewrite <- (firstn_skipn i out). assert (i <= length out)%nat as Li.
  { destruct (Nat.le_gt_cases i (length out)); [assumption|]. rewrite skipn_all2 in E by lia. discriminate. }
  rewrite nth_error_app2 by (rewrite firstn_length; lia). rewrite firstn_length, Nat.min_l, Nat.sub_diag by lia.
  destruct (skipn i out); [discriminate|]. cbn in E. injection E as ->. reflexivity.
Qed.
Lemma concat_singles : forall {X Y} (f : X -> Y) l k, concat (imap (fun (_ : nat) b => [f b]) k l) = map f l.
Proof. intros X Y f l; induction l as [|a l IH]; intros k; cbn [imap concat map app]; [reflexivity|]. rewrite IH. reflexivity. Qed.
Lemma mapM_ret : forall {X Y} (f : X -> res Y) (F : X -> Y) l, (forall a, In a l -> f a = Ret (F a)) -> mapM f l = Ret (map F l).
Proof.
  intros X Y f F l H; induction l as [|a l IH]; [reflexivity|]. cbn [mapM map]. rewrite H by (left; reflexivity). cbn [bind].
  rewrite IH by (intros b Hb; apply H; right; exact Hb). reflexivity.
Qed.

Section T.
Context {A : Type}.
Variable size : A -> nat.
Variable supported : A -> list nonlin.
Variable teqb : list A -> list A -> bool.

(** one channel per field *)
Lemma pool_loop : forall {L} (leqb : L -> L -> bool) (leqb_ok : forall a b, leqb a b = true <-> a = b) (ft : list A) labels inb outb order
  (proc : L -> nat -> list R -> res (list R)) (F : L -> list R -> R) x junk,
  length labels = length ft -> NoDup order -> (forall s, In s order <-> In s labels) ->
  (forall s, In s labels ->
     (exists c, lookup leqb inb s = Ret c /\ positions (type_size size ft) c = Ret (chan_list size ft (labelled leqb labels s))) /\
     (exists c, lookup leqb outb s = Ret c /\ positions (length ft) c = Ret (labelled leqb labels s))) ->
  (forall s next, In s labels -> proc s next (concat (map (field_chans size ft x) (labelled leqb labels s))) =
     Ret (map (F s) (map (field_chans size ft x) (labelled leqb labels s)))) ->
  length x = type_size size ft -> length junk = length ft ->
  exists out, grouped_loop leqb (nfields leqb labels) inb outb proc x order 0 junk = Ret out /\ length out = length ft /\
    forall i s, nth_error labels i = Some s -> nth_error out i = Some (F s (field_chans size ft x i)).
Proof.
  intros L leqb leqb_ok ft labels inb outb order proc F x junk Len ND Io Hb Hp Lx Lj.
  assert (Permutation (flat_map (labelled leqb labels) order) (seq 0 (length ft))) as Ps.
  { rewrite <- Len. apply labelled_cover; [exact leqb_ok|exact ND|]. intros l Hl. apply Io, Hl. }
  destruct (loop_bounded size (fun _ : A => 1%nat) leqb leqb_ok ft labels ft labels inb outb proc (fun s (_ : nat) b => [F s b]) x order junk (length ft))
    as (out & E & Lo & Hv & _); try assumption.
  - rewrite type_size_one. exact Lj.
  - rewrite (Permutation_length Ps), seq_length. lia.
  - intros s Hs. apply Io in Hs. destruct (Hb s Hs) as [B1 (co & B2 & B3)]. split; [exact B1|]. split; [|split; [|split; [reflexivity|]]].
    + exists co. split; [exact B2|]. rewrite type_size_one, B3, chan_list_one; [reflexivity|]. rewrite <- Len. apply labelled_lt.
    + intros next _. rewrite Hp by exact Hs. f_equal. symmetry. apply (concat_singles (F s)).
    + intros. reflexivity.
  - exists out. rewrite type_size_one in Lo. split; [exact E|split; [exact Lo|]]. intros i s Hs.
    assert (i < length ft)%nat as Bi by (rewrite <- Len; apply nth_error_Some; congruence).
    apply (field_one ft); [apply nth_error_Some, Bi|].
    assert (In i (flat_map (labelled leqb labels) order)) as Hi by (apply (Permutation_in i (Permutation_sym Ps)), in_seq; lia).
    apply In_nth_error in Hi. destruct Hi as (k & Hk). rewrite (Hv k i i s Hk Hk Hs). reflexivity.
Qed.

Lemma fields_of_label : forall {L} (leqb : L -> L -> bool) (leqb_ok : forall a b, leqb a b = true <-> a = b) (ft : list A) labels (x : list R) s,
  length labels = length ft -> length x = type_size size ft ->
  forall b, In b (map (field_chans size ft x) (labelled leqb labels s)) -> exists i r, nth_error labels i = Some s /\ nth_error ft i = Some r /\ length b = size r.
Proof.
  intros L leqb leqb_ok ft labels x s Len Lx b Hb. apply in_map_iff in Hb. destruct Hb as (i & <- & Hi). apply (labelled_In leqb leqb_ok) in Hi.
  assert (i < length ft)%nat by (rewrite <- Len; apply nth_error_Some; congruence). destruct (nth_error ft i) as [r|] eqn:Er; [|apply nth_error_None in Er; lia].
  exists i, r. split; [exact Hi|split; [exact Er|]]. rewrite (field_chans_length size _ _ _ _ Lx Er). reflexivity.
Qed.

(** *** GroupPooling and NormPool *)
Theorem pool_value : forall (f : list R -> res R) (F : list R -> R) need ft m x junk,
  (forall v, v <> [] -> f v = Ret (F v)) -> Forall (fun r => (0 < size r)%nat) ft -> mk_pool size supported need ft = Ret m ->
  g_type x = ft -> length (g_chans x) = type_size size ft -> teqb ft ft = true -> length junk = length ft ->
  exists out, pool_forward size teqb f m junk x = Ret out /\ length out = length ft /\
    forall i, (i < length ft)%nat -> nth_error out i = Some (F (field_chans size ft (g_chans x) i)).
Proof.
  intros f F need ft m x junk Hf P Em Et Lx Er Lj. unfold mk_pool in Em.
  destruct (negb need || forallb (supports supported NL_pointwise) ft)%bool; cbn [assert_ bind] in Em; [|discriminate].
  assert (length (map size ft) = length ft) as Len by apply map_length.
  destruct (indexes_exact size Nat.eqb nat_eqb_ok ft (map size ft) Len P) as (d & Ed & ND & Ik & _). rewrite Ed in Em. cbn [bind] in Em.
  destruct (pool_buffers size Nat.eqb nat_eqb_ok ft (map size ft) d Len P Ed) as (b & Eb & Hb). rewrite Eb in Em. cbn [bind] in Em.
  apply Ret_inj in Em. subst m. unfold pool_forward. cbn [pl_type pl_in pl_out pl_order]. rewrite Et, Er. cbn [assert_ bind].
  assert (forall s b, In b (map (field_chans size ft (g_chans x)) (labelled Nat.eqb (map size ft) s)) -> length b = s /\ (0 < s)%nat) as Hl.
  { intros s c Hc. destruct (fields_of_label Nat.eqb nat_eqb_ok ft (map size ft) (g_chans x) s Len Lx c Hc) as (i & r & H1 & H2 & H3).
    rewrite (map_nth_error size i ft H2) in H1. injection H1 as <-. split; [exact H3|]. rewrite Forall_forall in P. apply P. eapply nth_error_In, H2. }
  destruct (pool_loop Nat.eqb nat_eqb_ok ft (map size ft) (map (fun e => (fst (fst e), snd (fst e))) b) (map (fun e => (fst (fst e), snd e)) b) (map fst d)
    (pool_group f) (fun _ => F) (g_chans x) junk) as (out & E & Lo & Ho); try assumption.
  - intros s next Hs. unfold pool_group.
    destruct (labelled Nat.eqb (map size ft) s) as [|i0 sel] eqn:Esel; [exfalso; revert Esel; apply (labelled_nonempty Nat.eqb nat_eqb_ok); exact Hs|]. rewrite <- Esel in *.
    assert (0 < s)%nat as Ps by (apply (Hl s (field_chans size ft (g_chans x) i0)), in_map; rewrite Esel; left; reflexivity).
    rewrite view_concat; [cbn [bind]|exact Ps|apply Forall_forall; intros c Hc; apply Hl, Hc].
    apply mapM_ret. intros c Hc. apply Hf. apply Hl in Hc. intros ->. cbn in Hc. lia.
  - exists out. split; [exact E|split; [exact Lo|]]. intros i Hi. destruct (nth_error ft i) as [r|] eqn:Ei; [|apply nth_error_None in Ei; lia].
    apply (Ho i (size r)). apply map_nth_error, Ei.
Qed.
End T.

(** *** the maximum *)
Definition lmax (v : list R) : R := match v with [] => 0 | a :: v' => fold_left Rmax v' a end.
Lemma tmax_ret : forall v, v <> [] -> tmax v = Ret (lmax v).
Proof. intros [|a v] H; [congruence|reflexivity]. Qed.
Lemma lmax_is : forall v, v <> [] -> is_max (lmax v) v.
Proof.
  intros [|a v] H; [congruence|]. clear H. cbn [lmax]. revert a. induction v as [|b v IH]; intros a; cbn [fold_left].
  - split; [left; reflexivity|]. intros c [->|[]]. lra.
  - destruct (IH (Rmax a b)) as [H1 H2]. split.
    + destruct H1 as [H1|H1]; [|right; right; exact H1]. rewrite <- H1. unfold Rmax. destruct (Rle_dec a b); [right; left|left]; reflexivity.
    + pose proof (H2 _ (or_introl eq_refl)) as K. intros c [->|[->|Hc]]; [| |apply H2; right; exact Hc].
      * pose proof (Rmax_l c b). lra.
      * pose proof (Rmax_r a c). lra.
Qed.
Lemma max_unique : forall m m' v, is_max m v -> is_max m' v -> m = m'.
Proof. intros m m' v [H1 H2] [H3 H4]. apply H2 in H3. apply H4 in H1. lra. Qed.
Lemma max_perm : forall m v w, Permutation v w -> is_max m v -> is_max m w.
Proof.
  intros m v w P [H1 H2]. split; [apply (Permutation_in m P), H1|]. intros a Ha. apply H2, (Permutation_in a (Permutation_sym P)), Ha.
Qed.
(** a permutation matrix *)
Lemma permutes_mv : forall n M v, permutes n M -> length v = n -> exists p, (forall j, (j < n)%nat -> (p j < n)%nat) /\
  (forall j k, (j < n)%nat -> (k < n)%nat -> p j = p k -> j = k) /\ forall j, (j < n)%nat -> nth (p j) (mv n M v) 0 = nth j v 0.
Proof.
  intros n M v (p & H1 & H2 & H3) Lv. exists p. split; [exact H1|split; [exact H2|]]. intros j Hj. rewrite mv_nth by (apply H1, Hj).
  rewrite (sumn_single n j) by (exact Hj || (intros i Hi Ni; rewrite H3 by (apply H1, Hj || exact Hi); destruct (Nat.eqb_spec (p j) (p i)) as [E|]; [apply H2 in E; [congruence|assumption|assumption]|lra])).
  rewrite H3 by (apply H1, Hj || exact Hj). rewrite Nat.eqb_refl. lra.
Qed.

Lemma permutes_In : forall n M v a, permutes n M -> length v = n -> In a v <-> In a (mv n M v).
Proof.
  intros n M v a H Lv. destruct (permutes_mv n M v H Lv) as (p & H1 & H2 & H3). split; intros Ha.
  - apply (In_nth _ _ 0) in Ha. destruct Ha as (j & Hj & <-). rewrite Lv in Hj. rewrite <- H3 by exact Hj. apply nth_In. rewrite mv_length. apply H1, Hj.
  - apply (In_nth _ _ 0) in Ha. destruct Ha as (i & Hi & <-). rewrite mv_length in Hi. destruct (inj_surj n p H1 H2 i Hi) as (j & Hj & <-).
    rewrite H3 by exact Hj. apply nth_In. rewrite Lv. exact Hj.
Qed.
Lemma permutes_max : forall n M v m, permutes n M -> length v = n -> is_max m v <-> is_max m (mv n M v).
Proof.
  intros n M v m H Lv. unfold is_max. rewrite <- (permutes_In n M v m H Lv). split; intros [H1 H2]; (split; [exact H1|]); intros a Ha; apply H2;
    [apply (permutes_In n M v a H Lv)|apply (permutes_In n M v a H Lv) in Ha]; exact Ha.
Qed.
Lemma permutes_map : forall n M v (f : R -> R), permutes n M -> length v = n -> map f (mv n M v) = mv n M (map f v).
Proof.
  intros n M v f H Lv. pose proof (permutes_mv n M v H Lv) as Hp. destruct H as (p & H1 & H2 & H3).
  assert (forall u, length u = n -> forall j, (j < n)%nat -> nth (p j) (mv n M u) 0 = nth j u 0) as K.
  { intros u Lu j Hj. rewrite mv_nth by (apply H1, Hj). rewrite (sumn_single n j) by (exact Hj || (intros i Hi Ni; rewrite H3 by (apply H1, Hj || exact Hi);
      destruct (Nat.eqb_spec (p j) (p i)) as [E|]; [apply H2 in E; [congruence|assumption|assumption]|lra])).
    rewrite H3 by (apply H1, Hj || exact Hj). rewrite Nat.eqb_refl. lra. }
  apply list_ext; [rewrite map_length, !mv_length; reflexivity|]. intros i Hi. rewrite map_length, mv_length in Hi.
  destruct (inj_surj n p H1 H2 i Hi) as (j & Hj & <-). rewrite (K (map f v)) by (rewrite ?map_length; assumption).
  rewrite (nth_indep _ 0 (f 0)) by (rewrite map_length, mv_length; apply H1, Hj). rewrite (nth_indep (map f v) 0 (f 0)) by (rewrite map_length, Lv; exact Hj).
  rewrite !map_nth, K by assumption. reflexivity.
Qed.

Section T2.
Context {A : Type}.
Variable size : A -> nat.
Variable supported : A -> list nonlin.
Variable teqb : list A -> list A -> bool.
Notation psz ft := (Forall (fun r : A => (0 < size r)%nat) ft).

Lemma field_nonempty : forall ft (x : list R) i, psz ft -> length x = type_size size ft -> (i < length ft)%nat -> field_chans size ft x i <> [].
Proof.
  intros ft x i P Lx Hi. destruct (nth_error ft i) as [r|] eqn:Er; [|apply nth_error_None in Er; lia].
  pose proof (field_chans_length size ft x i r Lx Er) as H. rewrite Forall_forall in P. pose proof (P r (nth_error_In _ _ Er)). intros K. rewrite K in H. cbn in H. lia.
Qed.
Lemma supports_ok : forall nl ft, forallb (supports supported nl) ft = true <-> Forall (fun r => In nl (supported r)) ft.
Proof.
  intros nl ft. rewrite forallb_forall, Forall_forall. split; intros H r Hr; specialize (H r Hr).
  - unfold supports in H. apply existsb_exists in H. destruct H as (a & Ha & E). replace nl with a; [exact Ha|]. destruct nl, a; cbn in E; try discriminate; try reflexivity; apply Nat.eqb_eq in E; congruence.
  - apply existsb_exists. exists nl. split; [exact H|]. destruct nl; cbn; try reflexivity; apply Nat.eqb_refl.
Qed.
Theorem pool_built : forall need ft, psz ft -> (exists m, mk_pool size supported need ft = Ret m) <-> (need = true -> Forall (fun r => In NL_pointwise (supported r)) ft).
Proof.
  intros need ft P. unfold mk_pool. assert (length (map size ft) = length ft) as Len by apply map_length.
  destruct (indexes_exact size Nat.eqb nat_eqb_ok ft (map size ft) Len P) as (d & Ed & _).
  destruct (pool_buffers size Nat.eqb nat_eqb_ok ft (map size ft) d Len P Ed) as (b & Eb & _). rewrite Ed.
  destruct need; cbn [negb orb].
  - destruct (forallb (supports supported NL_pointwise) ft) eqn:E; cbn [assert_ bind].
    + rewrite Eb. cbn [bind]. split; [|eauto]. intros _ _. apply supports_ok, E.
    + split; [intros (m & K); discriminate|]. intros H. apply supports_ok in H; [congruence|reflexivity].
  - cbn [assert_ bind]. rewrite Eb. cbn [bind]. split; [discriminate|eauto].
Qed.
Theorem gpool_value : forall ft m x junk, psz ft -> mk_pool size supported true ft = Ret m ->
  g_type x = ft -> good size x -> teqb ft ft = true -> length junk = length ft ->
  exists out, group_pooling size teqb m junk x = Ret out /\ length out = length ft /\
    forall i, (i < length ft)%nat -> is_max (nth i out 0) (field_chans size ft (g_chans x) i).
Proof.
  intros ft m x junk P Em Et G Er Lj. red in G. rewrite Et in G.
  destruct (pool_value size supported teqb tmax lmax true ft m x junk tmax_ret P Em Et G Er Lj) as (out & E & Lo & H).
  exists out. split; [exact E|split; [exact Lo|]]. intros i Hi. rewrite (nth_error_nth out i 0 (H i Hi)). apply lmax_is, field_nonempty; assumption.
Qed.
Theorem gpool_invariant : forall ft m (rho : A -> mat) x x' junk junk', psz ft -> mk_pool size supported true ft = Ret m ->
  g_type x = ft -> g_type x' = ft -> good size x -> teqb ft ft = true -> length junk = length ft -> length junk' = length ft ->
  Forall (fun r => permutes (size r) (rho r)) ft -> acts size ft rho (g_chans x) (g_chans x') ->
  exists out, group_pooling size teqb m junk x = Ret out /\ group_pooling size teqb m junk' x' = Ret out.
Proof.
  intros ft m rho x x' junk junk' P Em Et Et' G Er Lj Lj' Hr Ha.
  assert (good size x') as G' by (red; rewrite Et'; apply (proj1 Ha)).
  destruct (gpool_value ft m x junk P Em Et G Er Lj) as (o & E & Lo & H). destruct (gpool_value ft m x' junk' P Em Et' G' Er Lj') as (o' & E' & Lo' & H').
  exists o. split; [exact E|]. rewrite E'. f_equal. apply list_ext; [congruence|]. intros i Hi. rewrite Lo' in Hi.
  destruct (nth_error ft i) as [r|] eqn:Ei; [|apply nth_error_None in Ei; lia]. specialize (H i Hi). specialize (H' i Hi).
  rewrite (proj2 Ha i r Ei) in H'. red in G. rewrite Et in G. rewrite Forall_forall in Hr.
  apply (permutes_max (size r) (rho r)) in H'; [|apply Hr, (nth_error_In _ _ Ei)|apply (field_chans_length size _ _ _ _ G Ei)].
  apply (max_unique _ _ _ H' H).
Qed.
Theorem npool_value : forall ft m x junk, psz ft -> mk_pool size supported false ft = Ret m ->
  g_type x = ft -> good size x -> teqb ft ft = true -> length junk = length ft ->
  exists out, norm_pool size teqb m junk x = Ret out /\ length out = length ft /\
    forall i, (i < length ft)%nat -> nth i out 0 = enorm (field_chans size ft (g_chans x) i).
Proof.
  intros ft m x junk P Em Et G Er Lj. red in G. rewrite Et in G.
  destruct (pool_value size supported teqb (fun v => Ret (vnorm v)) vnorm false ft m x junk (fun _ _ => eq_refl) P Em Et G Er Lj) as (out & E & Lo & H).
  exists out. split; [exact E|split; [exact Lo|]]. intros i Hi. rewrite (nth_error_nth out i 0 (H i Hi)). apply vnorm_enorm.
Qed.
Theorem npool_invariant : forall ft m (rho : A -> mat) x x' junk junk', psz ft -> mk_pool size supported false ft = Ret m ->
  g_type x = ft -> g_type x' = ft -> good size x -> teqb ft ft = true -> length junk = length ft -> length junk' = length ft ->
  Forall (fun r => orthogonal (size r) (rho r)) ft -> acts size ft rho (g_chans x) (g_chans x') ->
  exists out, norm_pool size teqb m junk x = Ret out /\ norm_pool size teqb m junk' x' = Ret out.
Proof.
  intros ft m rho x x' junk junk' P Em Et Et' G Er Lj Lj' Hr Ha.
  assert (good size x') as G' by (red; rewrite Et'; apply (proj1 Ha)).
  destruct (npool_value ft m x junk P Em Et G Er Lj) as (o & E & Lo & H). destruct (npool_value ft m x' junk' P Em Et' G' Er Lj') as (o' & E' & Lo' & H').
  exists o. split; [exact E|]. rewrite E'. f_equal. apply list_ext; [congruence|]. intros i Hi. rewrite Lo' in Hi.
  destruct (nth_error ft i) as [r|] eqn:Ei; [|apply nth_error_None in Ei; lia]. rewrite H, H' by exact Hi.
  rewrite (proj2 Ha i r Ei). red in G. rewrite Et in G. rewrite Forall_forall in Hr.
  apply enorm_orth; [apply (field_chans_length size _ _ _ _ G Ei)|apply Hr, (nth_error_In _ _ Ei)].
Qed.

(** *** InducedNormPool *)
Theorem ipool_value : forall ft m, psz ft -> mk_ipool size supported ft = Ret m ->
  forall x junk, g_type x = ft -> good size x -> teqb ft ft = true -> length junk = length ft ->
  exists out, ipool_forward teqb m junk x = Ret out /\ length out = length ft /\
    forall i r s, nth_error ft i = Some r -> In (NL_induced_norm s) (supported r) ->
      is_max (nth i out 0) (map (fun j => enorm (piece s j (field_chans size ft (g_chans x) i))) (seq 0 (size r / s))).
Proof.
  intros ft m P Em x junk Et G Er Lj. red in G. rewrite Et in G. unfold mk_ipool in Em. apply bind_Ret in Em. destruct Em as (ids & Ei & Em).
  pose proof (mapM_length _ _ _ Ei) as Len.
  destruct (buffers_ok size pair_eqb pair_eqb_ok ft ids Len P) as (inb & Eb & Hb).
  destruct (buffers_ok (fun _ : A => 1%nat) pair_eqb pair_eqb_ok ft ids Len) as (outb & Eo & Ho); [apply Forall_forall; intros; lia|].
  rewrite Eb in Em. cbn [bind] in Em. rewrite Eo in Em. cbn [bind] in Em. apply Ret_inj in Em. subst m.
  unfold ipool_forward. cbn [ip_type ip_ids ip_in ip_out ip_order]. rewrite Et, Er. cbn [assert_ bind].
  assert (forall i r, nth_error ft i = Some r -> exists s, nth_error ids i = Some (size r, s) /\ (0 < s)%nat /\ size r = (size r / s * s)%nat /\ forall t, In (NL_induced_norm t) (supported r) <-> t = s) as Hids.
  { intros i r Er'. destruct (mapM_nth _ _ _ _ _ Ei Er') as ([a b] & E1 & E2). destruct (subfield_ok size supported _ _ _ E1) as (-> & H1 & H2 & H3). exists b. auto. }
  assert (forall id b, In b (map (field_chans size ft (g_chans x)) (labelled pair_eqb ids id)) -> (0 < snd id)%nat /\ length b = (fst id / snd id * snd id)%nat /\ (0 < length b)%nat) as Hl.
  { intros id b Hx. destruct (fields_of_label size pair_eqb pair_eqb_ok ft ids (g_chans x) id Len G b Hx) as (i & r & H1 & H2 & H3).
    destruct (Hids i r H2) as (s & E1 & E2 & E3 & _). rewrite E1 in H1. injection H1 as <-. cbn [fst snd]. rewrite Forall_forall in P. pose proof (P r (nth_error_In _ _ H2)). split; [exact E2|]. split; [congruence|lia]. }
  destruct (pool_loop size pair_eqb pair_eqb_ok ft ids inb outb (map fst (contiguous_labels pair_eqb [] None ids)) ipool_group
    (fun id v => lmax (map enorm (pieces (fst id / snd id) (snd id) v))) (g_chans x) junk) as (out & E & Lo & Hv); try assumption.
  - apply contiguous_NoDup, pair_eqb_ok.
  - intros s. apply contiguous_all, pair_eqb_ok.
  - intros s Hs. split; [apply Hb; [exact Hs|lia]|]. destruct (Ho s (length ft) Hs) as (c & E1 & E2); [rewrite type_size_one; lia|].
    exists c. split; [exact E1|]. rewrite E2, chan_list_one; [reflexivity|]. rewrite <- Len. apply labelled_lt.
  - intros id next Hs. unfold ipool_group.
    destruct (labelled pair_eqb ids id) as [|i0 sel] eqn:Esel; [exfalso; revert Esel; apply (labelled_nonempty pair_eqb pair_eqb_ok); exact Hs|]. rewrite <- Esel in *.
    destruct (Hl id (field_chans size ft (g_chans x) i0)) as (P1 & P2 & P3); [apply in_map; rewrite Esel; left; reflexivity|].
    rewrite view_concat; [cbn [bind]|lia|apply Forall_forall; intros c Hc; apply (Hl id c Hc)].
    apply mapM_ret. intros c Hc. destruct (Hl id c Hc) as (Q1 & Q2 & Q3).
    rewrite <- (concat_pieces (fst id / snd id) (snd id) c Q2) at 1. rewrite view_concat; [cbn [bind]|exact Q1|apply pieces_uniform, Q2].
    rewrite (map_ext _ _ vnorm_enorm). apply tmax_ret. unfold pieces. destruct (fst id / snd id)%nat; [lia|discriminate].
  - exists out. split; [exact E|split; [exact Lo|]]. intros i r s Hr Hs. destruct (Hids i r Hr) as (s' & E1 & E2 & E3 & E4). apply E4 in Hs. subst s'.
    rewrite (nth_error_nth out i 0 (Hv i _ E1)). cbn [fst snd]. unfold pieces. rewrite map_map. apply lmax_is.
    rewrite Forall_forall in P. pose proof (P r (nth_error_In _ _ Hr)). destruct (size r / s)%nat; [lia|discriminate].
Qed.
Theorem ipool_invariant : forall ft m, psz ft -> mk_ipool size supported ft = Ret m ->
  forall (rho : A -> mat) x x' junk junk', g_type x = ft -> g_type x' = ft -> good size x -> teqb ft ft = true -> length junk = length ft -> length junk' = length ft ->
  (forall r s, In r ft -> In (NL_induced_norm s) (supported r) -> block_orthogonal (size r / s) s (rho r)) -> acts size ft rho (g_chans x) (g_chans x') ->
  exists out, ipool_forward teqb m junk x = Ret out /\ ipool_forward teqb m junk' x' = Ret out.
Proof.
  intros ft m P Em rho x x' junk junk' Et Et' G Er Lj Lj' Hr Ha.
  assert (good size x') as G' by (red; rewrite Et'; apply (proj1 Ha)).
  destruct (ipool_value ft m P Em x junk Et G Er Lj) as (o & E & Lo & H). destruct (ipool_value ft m P Em x' junk' Et' G' Er Lj') as (o' & E' & Lo' & H').
  exists o. split; [exact E|]. rewrite E'. f_equal. apply list_ext; [congruence|]. intros i Hi. rewrite Lo' in Hi.
  destruct (nth_error ft i) as [r|] eqn:Ei; [|apply nth_error_None in Ei; lia].
  unfold mk_ipool in Em. apply bind_Ret in Em. destruct Em as (ids & Eid & _).
  destruct (mapM_nth _ _ _ _ _ Eid Ei) as ([a s] & E1 & _). destruct (subfield_ok size supported _ _ _ E1) as (-> & P1 & P2 & P3).
  assert (In (NL_induced_norm s) (supported r)) as Hs by (apply P3; reflexivity).
  specialize (H i r s Ei Hs). specialize (H' i r s Ei Hs). rewrite (proj2 Ha i r Ei) in H'. red in G. rewrite Et in G.
  pose proof (field_chans_length size ft (g_chans x) i r G Ei) as Lv.
  destruct (Hr r s (nth_error_In _ _ Ei) Hs) as (p & O & H1 & H2 & H3 & H4).
  apply (max_unique _ _ _ H'). clear H'. set (v := field_chans size ft (g_chans x) i) in *. set (q := (size r / s)%nat) in *.
  assert (forall j, (j < q)%nat -> enorm (piece s (p j) (mv (size r) (rho r) v)) = enorm (piece s j v)) as K.
  { intros j Hj. rewrite P2. rewrite (piece_mv q s (rho r) p O v j); [|rewrite Lv; exact P2|exact Hj|exact H1|exact H2|exact H4].
    apply enorm_orth; [apply (piece_length q); [rewrite Lv; exact P2|exact Hj]|apply H3, Hj]. }
  assert (forall b, In b (map (fun j => enorm (piece s j (mv (size r) (rho r) v))) (seq 0 q)) <-> In b (map (fun j => enorm (piece s j v)) (seq 0 q))) as Same.
  { intros b. rewrite !in_map_iff. split; intros (j & <- & Hj); apply in_seq in Hj.
    - destruct (inj_surj q p H1 H2 j) as (k & Hk & <-); [lia|]. exists k. split; [symmetry; apply K, Hk|apply in_seq; lia].
    - exists (p j). split; [apply K; lia|]. apply in_seq. pose proof (H1 j ltac:(lia)). lia. }
  destruct H as [M1 M2]. split; [apply Same, M1|]. intros b Hb. apply M2, Same, Hb.
Qed.

(** *** PointwiseNonLinearity *)
Theorem pointwise_ok : forall ft name m, mk_pointwise supported ft name = Ret m -> 
  fst m = ft /\ Forall (fun r => In NL_pointwise (supported r)) ft /\ pointwise_function name = Ret (snd m) /\
  forall x, g_type x = ft -> good size x -> teqb ft ft = true ->
    pointwise_forward size teqb m x = Ret {| g_type := ft; g_chans := map (snd m) (g_chans x) |}.
Proof.
  intros ft name m Em. unfold mk_pointwise in Em. destruct (forallb (supports supported NL_pointwise) ft) eqn:Es; cbn [assert_ bind] in Em; [|discriminate].
  apply bind_Ret in Em. destruct Em as (f & Ef & Em). apply Ret_inj in Em. subst m. cbn [fst snd].
  split; [reflexivity|split; [apply supports_ok, Es|split; [exact Ef|]]]. intros x Et G Er. unfold pointwise_forward. cbn [fst snd]. rewrite Et, Er. cbn [assert_ bind].
  unfold mk_gtensor. red in G. rewrite Et in G. rewrite map_length, G, Nat.eqb_refl. reflexivity.
Qed.
Theorem pointwise_equivariant : forall ft (rho : A -> mat) (f : R -> R) x y, length x = type_size size ft ->
  Forall (fun r => permutes (size r) (rho r)) ft -> acts size ft rho x y -> acts size ft rho (map f x) (map f y).
Proof.
  intros ft rho f x y Lx Hr [Ly H]. split; [rewrite map_length; exact Ly|]. intros i r Er. rewrite !field_map, (H i r Er).
  rewrite Forall_forall in Hr. apply permutes_map; [apply Hr, (nth_error_In _ _ Er)|apply (field_chans_length size _ _ _ _ Lx Er)].
Qed.
End T2.
