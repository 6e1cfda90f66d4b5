(** Attributes, indexing and comparison of shells bases. *)
From Coq Require Import Reals List ZArith Arith Bool Lia Lra.
From Verif Require Import LibRes LibMat LibTrig FinGroupModel ParamModel PlanarModel SpecPlanar PlanarProofs
  IrrepModel SpecIrrep RepModel RepProofs KernelModel SpecKernel KernelProofs PolarModel SpecPolar PolarProofs PolarThms.
Import ListNotations.

(** ** lists with running indices *)
Section Imap.
Context {X Y : Type}.
Variable f : nat -> X -> Y.
Fixpoint imap (idx : nat) (l : list X) : list Y :=
  match l with [] => [] | x :: l' => f idx x :: imap (S idx) l' end.
Lemma imap_length : forall l idx, length (imap idx l) = length l.
Proof. induction l as [|x l IH]; intros idx; cbn; [reflexivity|rewrite IH; reflexivity]. Qed.
Lemma imap_nth : forall l idx k x, nth_error l k = Some x -> nth_error (imap idx l) k = Some (f (idx + k) x).
Proof.
  induction l as [|y l IH]; intros idx [|k] x E; cbn in *; try discriminate.
  - injection E as <-. rewrite Nat.add_0_r; reflexivity.
  - rewrite (IH (S idx) k x E). f_equal; f_equal; lia.
Qed.
Lemma imap_app : forall l1 l2 idx, imap idx (l1 ++ l2) = imap idx l1 ++ imap (idx + length l1) l2.
Proof.
  induction l1 as [|x l1 IH]; intros l2 idx; cbn; [rewrite Nat.add_0_r; reflexivity|].
  rewrite IH. f_equal. f_equal. f_equal; lia.
Qed.
End Imap.

Lemma nth_error_block_inv : forall {B} (f : nat -> list B) dim a n k e, (forall j, length (f j) = dim j) ->
  nth_error (flat_map f (seq a n)) k = Some e -> exists j q, (j < n)%nat /\ (q < dim (a + j))%nat /\
    k = (list_sum (map dim (seq a j)) + q)%nat /\ nth_error (f (a + j)%nat) q = Some e.
Proof.
  intros B f dim a n k e H; revert a k; induction n as [|n IH]; intros a k E; cbn [seq flat_map] in E;
    [destruct k; discriminate|].
  destruct (Nat.lt_ge_cases k (dim a)) as [L|L].
  - rewrite nth_error_app1 in E by (rewrite H; exact L). exists 0%nat, k. rewrite Nat.add_0_r.
    split; [lia|]; split; [exact L|]; split; [reflexivity|exact E].
  - rewrite nth_error_app2 in E by (rewrite H; exact L). rewrite H in E.
    destruct (IH (S a) (k - dim a)%nat E) as (j & q & Lj & Lq & Ek & En).
    exists (S j), q. replace (a + S j)%nat with (S a + j)%nat by lia.
    split; [lia|]; split; [exact Lq|]; split; [|exact En]. cbn [seq map]. rewrite list_sum_cons; lia.
Qed.

Section Attrs.
Variable ar : arrangement.
Hypothesis ar_pos : forall j, (0 < ar_dim ar j)%nat.
Hypothesis ar_inj : forall i j, ar_id ar i = ar_id ar j -> i = j.

(** ** iterating over the elements *)
Definition mk_e (idx : nat) (e : nat * rattr * nat * nat) : eattr :=
  let '(ri, a, j, m) := e in
  {| e_sub := {| h_idx := idx; h_radial := a; h_ridx := ri; h_j := ar_id ar j |}; e_m := m |}.
Definition own (e : nat * rattr * nat * nat) : Prop := let '(ri, a, _, _) := e in ra_idx a = ri.

Lemma walk_elems_none : forall s els idx i, sh_mask s = None -> Forall own els ->
  walk_elems ar s els idx i = Ret (imap mk_e idx els).
Proof.
  intros s els; induction els as [|[[[ri a] j] mm] els IH]; intros idx i E F; cbn [walk_elems imap]; [reflexivity|].
  rewrite E. inversion F as [|? ? O F']; subst. cbn [own] in O.
  rewrite (proj2 (Nat.eqb_eq (ra_idx a) ri) O). cbn [assert_ bind]. rewrite IH by assumption. reflexivity.
Qed.
Lemma walk_elems_some : forall s els idx pre rest, sh_mask s = Some (pre ++ rest) -> length rest = length els ->
  Forall own els -> walk_elems ar s els idx (length pre) = Ret (imap mk_e idx (select rest els)).
Proof.
  intros s els; induction els as [|[[[ri a] j] mm] els IH]; intros idx pre [|b rest] E L F; cbn in L; try lia; [reflexivity|].
  cbn [walk_elems]. rewrite E. inversion F as [|? ? O F']; subst. cbn [own] in O.
  rewrite app_nth2 by lia. rewrite Nat.sub_diag. cbn [nth select].
  assert (forall k, walk_elems ar s els k (S (length pre)) = Ret (imap mk_e k (select rest els))) as H.
  { intros k. specialize (IH k (pre ++ [b]) rest). rewrite app_length in IH; cbn [length] in IH.
    replace (length pre + 1)%nat with (S (length pre)) in IH by lia. apply IH; [|lia|exact F'].
    rewrite <- app_assoc; exact E. }
  destruct b; rewrite !H.
  - rewrite (proj2 (Nat.eqb_eq (ra_idx a) ri) O). reflexivity.
  - reflexivity.
Qed.

Lemma keptels_own : forall L flt p, Forall own (keptels ar L flt p).
Proof.
  intros L flt p; apply Forall_forall. intros [[[ri a] j] mm] I.
  unfold keptels, block in I. apply in_flat_map in I. destruct I as (k & _ & I).
  apply in_flat_map in I. destruct I as ([i b] & Ib & I). apply in_map_iff in I. destruct I as (o & E & _).
  cbn [fst snd] in E. injection E as <- <- <- <-. apply sub_in in Ib. destruct Ib as [_ ->]. reflexivity.
Qed.

Lemma sh_iter_eq : forall L flt p s, built ar L p flt s -> sh_iter ar s = Ret (imap mk_e 0 (keptels ar L flt p)).
Proof.
  intros L flt p s B; unfold sh_iter. rewrite (bu_p _ _ _ _ _ B), gp_iter_eq, (bu_L _ _ _ _ _ B). cbn [bind].
  fold (rlist p). rewrite elements_all. pose proof (bu_mask _ _ _ _ _ B) as M. destruct flt as [f|].
  - destruct (mask_select ar L p f) as [Lm Sm]. cbv zeta in Lm, Sm. rewrite <- Sm.
    apply (walk_elems_some s _ 0 []); [exact M|exact Lm|apply keptels_own].
  - apply walk_elems_none; [exact M|apply keptels_own].
Qed.

Lemma keptels_length : forall L flt p s, built ar L p flt s -> length (keptels ar L flt p) = sh_dim ar s.
Proof.
  intros L flt p s B. rewrite (bu_dim _ _ _ _ _ B). unfold keptels. apply flat_length_sum. intros; apply block_length.
Qed.

(** The position among all elements of an element kept. *)
Lemma mapped_at : forall L flt p s idx e, built ar L p flt s -> nth_error (keptels ar L flt p) idx = Some e ->
  exists k, mapped ar s idx = Ret k /\ nth_error (keptels ar L None p) k = Some e.
Proof.
  intros L flt p s idx e B E; unfold mapped.
  assert (idx < sh_dim ar s)%nat as Li by (rewrite <- (keptels_length L flt p s B); apply nth_error_Some; congruence).
  rewrite (proj2 (Nat.ltb_lt _ _) Li); cbn [assert_ bind].
  rewrite (bu_map _ _ _ _ _ B), (bu_mask _ _ _ _ _ B). destruct flt as [f|].
  - destruct (mask_select ar L p f) as [Lm Sm]. cbv zeta in Lm, Sm. rewrite <- Sm in E.
    destruct (positions0 _ _ idx e Lm E) as (k & Ek & En). rewrite Ek. exists k; split; [reflexivity|exact En].
  - exists idx; split; [reflexivity|exact E].
Qed.

Lemma element_position : forall L p k ri a j mm, nth_error (keptels ar L None p) k = Some (ri, a, j, mm) ->
  (j <= L)%nat /\ (ri < gp_dim p)%nat /\ a = rattr_of p ri /\ (mm < ar_dim ar j)%nat /\
  k = (list_sum (map (fun i => gp_dim p * ar_dim ar i)%nat (seq 0 j)) + (ri * ar_dim ar j + mm))%nat.
Proof.
  intros L p k ri a j mm E. unfold keptels in E.
  assert (forall i, length (block ar None p i) = (gp_dim p * ar_dim ar i)%nat) as Lb.
  { intros i; rewrite block_length; cbn [sub]. rewrite length_enumerate, rlist_length; reflexivity. }
  destruct (nth_error_block_inv (block ar None p) (fun i => gp_dim p * ar_dim ar i)%nat 0 (S L) k _ Lb E)
    as (j' & q & Lj & Lq & Ek & En). cbn [Nat.add] in *.
  pose proof (ar_pos j') as Pd.
  assert (q / ar_dim ar j' < gp_dim p)%nat as Ld by (apply Nat.div_lt_upper_bound; lia).
  destruct (nth_error (rlist p) (q / ar_dim ar j')) as [b|] eqn:Er;
    [|apply nth_error_None in Er; rewrite rlist_length in Er; lia].
  pose proof (nth_enumerate _ _ _ Er) as Ee. apply rlist_nth in Er. destruct Er as [_ ->].
  assert (q mod ar_dim ar j' < ar_dim ar j')%nat as Lm by (apply Nat.mod_upper_bound; lia).
  pose proof (block_nth ar None p j' (q / ar_dim ar j') (q mod ar_dim ar j') _ Ee Lm) as Bn.
  assert (q / ar_dim ar j' * ar_dim ar j' + q mod ar_dim ar j' = q)%nat as Q
    by (pose proof (Nat.div_mod q (ar_dim ar j') ltac:(lia)); lia).
  rewrite Q in Bn. rewrite Bn in En. cbn [fst snd] in En. injection En as <- <- <- <-.
  split; [lia|]; split; [exact Ld|]; split; [reflexivity|]; split; [exact Lm|]. rewrite Q; exact Ek.
Qed.

(** ** the steerable subspaces *)
Definition mk_h (j idx : nat) (q : nat * rattr) : hattr :=
  {| h_idx := idx; h_radial := snd q; h_ridx := fst q; h_j := ar_id ar j |}.

Lemma walk_radial_none : forall s j rs idx i, sh_mask s = None -> Forall (fun q => ra_idx (snd q) = fst q) rs ->
  walk_radial ar s j rs idx i = Ret (imap (mk_h j) idx rs).
Proof.
  intros s j rs; induction rs as [|[ri a] rs IH]; intros idx i E F; cbn [walk_radial imap]; [reflexivity|].
  unfold mask_at; rewrite E. inversion F as [|? ? O F']; subst. cbn [fst snd] in O.
  rewrite (proj2 (Nat.eqb_eq (ra_idx a) ri) O). cbn [assert_ bind]. rewrite IH by assumption. reflexivity.
Qed.
Lemma firstn_repeat : forall (b : bool) n l, firstn n (repeat b n ++ l) = repeat b n.
Proof. intros b n l; induction n as [|n IH]; cbn; [reflexivity|rewrite IH; reflexivity]. Qed.
Lemma forallb_repeat : forall b n, (0 < n)%nat -> forallb (fun x : bool => x) (repeat b n) = b.
Proof.
  intros b n H; destruct n as [|n]; [lia|]. clear H. destruct b; [|reflexivity].
  induction n as [|n IH]; [reflexivity|exact IH].
Qed.
Lemma walk_radial_some : forall s j rs bs idx pre rest,
  sh_mask s = Some (pre ++ flat_map (fun b => repeat b (ar_dim ar j)) bs ++ rest) -> length bs = length rs ->
  Forall (fun q => ra_idx (snd q) = fst q) rs ->
  walk_radial ar s j rs idx (length pre) = Ret (imap (mk_h j) idx (select bs rs)).
Proof.
  intros s j rs; induction rs as [|[ri a] rs IH]; intros [|b bs] idx pre rest E L F; cbn in L; try lia; [reflexivity|].
  cbn [walk_radial select]. inversion F as [|? ? O F']; subst. cbn [fst snd] in O.
  assert (mask_at s (length pre) (ar_dim ar j) = b) as Mb.
  { unfold mask_at; rewrite E. rewrite skipn_app, skipn_all, Nat.sub_diag. cbn [skipn app flat_map].
    rewrite <- app_assoc, firstn_repeat. apply forallb_repeat, ar_pos. }
  rewrite Mb.
  assert (forall k, walk_radial ar s j rs k (length pre + ar_dim ar j) = Ret (imap (mk_h j) k (select bs rs))) as H.
  { intros k. specialize (IH bs k (pre ++ repeat b (ar_dim ar j)) rest). rewrite app_length, repeat_length in IH.
    apply IH; [|lia|exact F']. rewrite E. cbn [flat_map]. rewrite <- !app_assoc. reflexivity. }
  destruct b; rewrite H.
  - rewrite (proj2 (Nat.eqb_eq (ra_idx a) ri) O). reflexivity.
  - reflexivity.
Qed.
Lemma enum_own : forall p, Forall (fun q => ra_idx (snd q) = fst q) (enumerate (rlist p)).
Proof.
  intros p; apply Forall_forall. intros [i a] I. apply in_enumerate, rlist_nth in I. destruct I as [_ ->]. reflexivity.
Qed.

(** The subspaces as (frequency, kept profile). *)
Definition mk_s (idx : nat) (x : nat * (nat * rattr)) : hattr := mk_h (fst x) idx (snd x).
Lemma mk_s_imap : forall j l idx, imap (mk_h j) idx l = imap mk_s idx (map (fun q => (j, q)) l).
Proof. intros j l; induction l as [|q l IH]; intros idx; cbn [imap map]; [reflexivity|rewrite IH; reflexivity]. Qed.
Definition kept_all (flt : option (rattr * list Z -> bool)) (p : gprofile) (js : list nat) : list (nat * (nat * rattr)) :=
  flat_map (fun j => map (fun q => (j, q)) (sub ar flt p j)) js.

Lemma walk_all_eq : forall s flt p js idx pre,
  sh_mask s = match flt with None => None
    | Some f => Some (pre ++ flat_map (fun j => flat_map (fun b => repeat b (ar_dim ar j)) (kept ar f (rlist p) j)) js) end ->
  walk_all ar s js (enumerate (rlist p)) idx (length pre) = Ret (imap mk_s idx (kept_all flt p js)).
Proof.
  intros s flt p js; induction js as [|j js IH]; intros idx pre E; cbn [walk_all kept_all flat_map]; [reflexivity|].
  assert (walk_radial ar s j (enumerate (rlist p)) idx (length pre) = Ret (imap (mk_h j) idx (sub ar flt p j))) as W.
  { destruct flt as [f|].
    - cbn [flat_map] in E.
      rewrite (walk_radial_some s j (enumerate (rlist p)) (kept ar f (rlist p) j) idx pre _ E).
      + rewrite kept_eq, select_filter. reflexivity.
      + rewrite kept_eq, map_length; reflexivity.
      + apply enum_own.
    - apply walk_radial_none; [exact E|apply enum_own]. }
  rewrite W; cbn [bind]. rewrite imap_length, length_enumerate, rlist_length.
  assert (forall k, walk_all ar s js (enumerate (rlist p)) k (length pre + ar_dim ar j * gp_dim p) =
                    Ret (imap mk_s k (kept_all flt p js))) as W'.
  { intros k. destruct flt as [f|].
    - specialize (IH k (pre ++ flat_map (fun b => repeat b (ar_dim ar j)) (kept ar f (rlist p) j))).
      rewrite app_length, (length_flat _ (ar_dim ar j)) in IH by (intros; apply repeat_length).
      assert (length (kept ar f (rlist p) j) = gp_dim p) as Lk by (unfold kept; rewrite map_length, rlist_length; reflexivity).
      rewrite Lk, (Nat.mul_comm (gp_dim p)) in IH.
      apply IH. rewrite E. cbn [flat_map]. rewrite app_assoc. reflexivity.
    - specialize (IH k (repeat false (length pre + ar_dim ar j * gp_dim p))). rewrite repeat_length in IH. apply IH; exact E. }
  rewrite W'; cbn [bind]. fold (kept_all flt p js). rewrite imap_app, map_length, mk_s_imap. reflexivity.
Qed.

Lemma attrs_iter_eq : forall L flt p s, built ar L p flt s ->
  steerable_attrs_iter ar s = Ret (imap mk_s 0 (kept_all flt p (seq 0 (S L)))).
Proof.
  intros L flt p s B; unfold steerable_attrs_iter. rewrite (bu_p _ _ _ _ _ B), gp_iter_eq, (bu_L _ _ _ _ _ B). cbn [bind].
  fold (rlist p). apply (walk_all_eq s flt p _ 0 []). rewrite (bu_mask _ _ _ _ _ B). destruct flt; reflexivity.
Qed.

(** The position of a kept subspace among all. *)
Lemma smapped_at : forall L flt p s idx x, built ar L p flt s -> nth_error (kept_all flt p (seq 0 (S L))) idx = Some x ->
  exists k, match sh_smap s with None => Ret idx
            | Some m => match nth_error m idx with Some q => Ret q | None => Raise end end = Ret k /\
    (k / gp_dim p)%nat = fst x /\ (k mod gp_dim p)%nat = fst (snd x) /\ (fst (snd x) < gp_dim p)%nat /\
    snd (snd x) = rattr_of p (fst (snd x)).
Proof.
  intros L flt p s idx x B E.
  assert (exists k, match sh_smap s with None => Ret idx
            | Some m => match nth_error m idx with Some q => Ret q | None => Raise end end = Ret k /\
     nth_error (kept_all None p (seq 0 (S L))) k = Some x) as (k & Ek & En).
  { rewrite (bu_smap _ _ _ _ _ B). destruct flt as [f|].
    - assert (select (flat_map (kept ar f (rlist p)) (seq 0 (S L))) (kept_all None p (seq 0 (S L))) =
              kept_all (Some f) p (seq 0 (S L))) as Sm.
      { unfold kept_all. rewrite select_flat.
        - apply flat_map_ext. intros j. rewrite kept_eq. cbn [sub]. rewrite <- select_filter.
          generalize (enumerate (rlist p)). intros l. induction l as [|q l IH]; cbn; [reflexivity|].
          rewrite IH. destruct (f (snd q, ar_id ar j)); reflexivity.
        - intros j. unfold kept; cbn [sub]. rewrite !map_length, length_enumerate; reflexivity. }
      rewrite <- Sm in E. apply positions0 in E.
      + destruct E as (k & Ek & En). rewrite Ek. exists k; split; [reflexivity|exact En].
      + unfold kept_all. rewrite !(flat_length_sum _ (fun _ => gp_dim p)); [reflexivity|..]; intros j.
        * cbn [sub]. rewrite map_length, length_enumerate, rlist_length; reflexivity.
        * unfold kept. rewrite map_length, rlist_length; reflexivity.
    - exists idx; split; [reflexivity|exact E]. }
  exists k; split; [exact Ek|].
  unfold kept_all in En.
  destruct (nth_error_block_inv (fun j => map (fun q => (j, q)) (sub ar None p j)) (fun _ => gp_dim p) 0 (S L) k x) as
    (j & q & Lj & Lq & E1 & E2).
  - intros j; cbn [sub]. rewrite map_length, length_enumerate, rlist_length; reflexivity.
  - exact En.
  - cbn [Nat.add sub] in E2. destruct (nth_error (rlist p) q) as [a|] eqn:Er;
      [|apply nth_error_None in Er; rewrite rlist_length in Er; lia].
    rewrite (map_nth_error' (fun q => (j, q)) _ _ _ (nth_enumerate _ _ _ Er)) in E2. apply rlist_nth in Er.
    injection E2 as <-. cbn [fst snd].
    assert (list_sum (map (fun _ => gp_dim p) (seq 0 j)) = gp_dim p * j)%nat as Sm.
    { clear. generalize 0%nat. induction j as [|j IH]; intros a; cbn [seq map]; [cbn; lia|].
      rewrite list_sum_cons, IH; lia. }
    rewrite Sm in E1. subst k. split; [|split; [|split; [exact Lq|apply Er]]].
    + rewrite Nat.mul_comm, Nat.div_add_l by lia. rewrite Nat.div_small by exact Lq. lia.
    + rewrite Nat.mul_comm, Nat.add_comm, Nat.mod_add by lia. apply Nat.mod_small; exact Lq.
Qed.

Hypothesis ar_freq : forall j, freq_of ar (ar_id ar j) = Ret (Some j).

Lemma sh_mult_at : forall L flt p s j, built ar L p flt s -> (j < S L)%nat -> sh_mult s (ar_id ar j) = length (sub ar flt p j).
Proof.
  intros L flt p s j B Lj; unfold sh_mult, get_or. rewrite (bu_js _ _ _ _ _ B).
  rewrite (last_of_nodup _ (ar_id ar j) (length (sub ar flt p j))); [reflexivity|apply js_nodup; exact ar_inj|].
  apply in_map_iff. exists j; split; [reflexivity|]. apply in_seq; lia.
Qed.
Lemma sh_before_at : forall L flt p s j, built ar L p flt s -> (j <= S L)%nat ->
  sh_before ar s j = list_sum (map (fun i => length (sub ar flt p i)) (seq 0 j)).
Proof.
  intros L flt p s j B Lj; unfold sh_before. f_equal; apply map_ext_in. intros i Hi; apply in_seq in Hi.
  apply (sh_mult_at L flt p s i B); lia.
Qed.

Lemma attrs_j_at : forall L flt p s j i q, built ar L p flt s -> (j <= L)%nat -> nth_error (sub ar flt p j) i = Some q ->
  steerable_attrs_j ar s (ar_id ar j) i = Ret (mk_h j (sh_before ar s j + i) q).
Proof.
  intros L flt p s j i q B Lj Eq; unfold steerable_attrs_j. rewrite ar_freq; cbn [bind].
  rewrite (sh_mult_at L flt p s j B) by lia.
  assert (i < length (sub ar flt p j))%nat as Li by (apply nth_error_Some; congruence).
  rewrite (proj2 (Nat.ltb_lt _ _) Li); cbn [assert_ bind].
  assert (nth_error (kept_all flt p (seq 0 (S L))) (i + sh_before ar s j) = Some (j, q)) as En.
  { rewrite (sh_before_at L flt p s j B) by lia. rewrite Nat.add_comm. unfold kept_all.
    rewrite (nth_error_block (fun j => map (fun q => (j, q)) (sub ar flt p j)) (fun i => length (sub ar flt p i)) 0 (S L) j i);
      [|intros; apply map_length|lia|exact Li].
    cbn [Nat.add]. apply (map_nth_error' (fun q => (j, q))); exact Eq. }
  destruct (smapped_at L flt p s _ _ B En) as (k & Ek & E1 & E2 & E3 & E4). cbn [fst snd] in *.
  rewrite Ek; cbn [bind]. rewrite (bu_p _ _ _ _ _ B), E1, E2, Nat.eqb_refl; cbn [assert_ bind].
  rewrite gp_get_eq by exact E3. cbn [bind rattr_of ra_idx]. rewrite Nat.eqb_refl; cbn [assert_ bind].
  unfold mk_h. rewrite E4, Nat.add_comm. reflexivity.
Qed.

Lemma attrs_at : forall L f p s idx x, built ar L p (Some f) s -> nth_error (kept_all (Some f) p (seq 0 (S L))) idx = Some x ->
  steerable_attrs ar s idx = Ret (mk_s idx x).
Proof.
  intros L f p s idx x B E; unfold steerable_attrs.
  assert (idx < sh_num s)%nat as Li.
  { rewrite (bu_num _ _ _ _ _ B). rewrite <- (flat_length_sum (fun j => map (fun q => (j, q)) (sub ar (Some f) p j)))
      by (intros; apply map_length). apply nth_error_Some. unfold kept_all in E. rewrite E; discriminate. }
  rewrite (proj2 (Nat.ltb_lt _ _) Li); cbn [assert_ bind].
  destruct (smapped_at L (Some f) p s _ _ B E) as (k & Ek & E1 & E2 & E3 & E4).
  rewrite Ek; cbn [bind]. rewrite (bu_p _ _ _ _ _ B), E1, E2.
  rewrite gp_get_eq by exact E3. cbn [bind rattr_of ra_idx]. rewrite Nat.eqb_refl; cbn [assert_ bind].
  unfold mk_s, mk_h. rewrite E4. reflexivity.
Qed.

Lemma attrs_j_iter_none : forall L p s j, built ar L p None s -> (j <= L)%nat ->
  steerable_attrs_j_iter ar s (ar_id ar j) = Ret (imap (mk_h j) (sh_before ar s j) (sub ar None p j)).
Proof.
  intros L p s j B Lj; unfold steerable_attrs_j_iter. rewrite ar_freq; cbn [bind].
  rewrite (bu_p _ _ _ _ _ B), gp_iter_eq; cbn [bind]. fold (rlist p).
  apply walk_radial_none; [apply (bu_mask _ _ _ _ _ B)|apply enum_own].
Qed.
Lemma attrs_j_iter_first : forall L flt p s, built ar L p flt s ->
  steerable_attrs_j_iter ar s (ar_id ar 0) = Ret (imap (mk_h 0) 0 (sub ar flt p 0)).
Proof.
  intros L flt p s B. destruct flt as [f|]; [|rewrite (attrs_j_iter_none L p s 0 B) by lia; reflexivity].
  unfold steerable_attrs_j_iter. rewrite ar_freq; cbn [bind].
  rewrite (bu_p _ _ _ _ _ B), gp_iter_eq; cbn [bind]. fold (rlist p). change (sh_before ar s 0) with 0%nat.
  pose proof (bu_mask _ _ _ _ _ B) as M. cbn [seq flat_map] in M.
  etransitivity; [apply (walk_radial_some s 0 (enumerate (rlist p)) (kept ar f (rlist p) 0) 0 [] _ M)|].
  3:{ rewrite kept_eq, select_filter. reflexivity. }
  - rewrite kept_eq, map_length; reflexivity.
  - apply enum_own.
Qed.

Lemma wanted_sub : forall flt p j, map fst (sub ar flt p j) = wanted flt p (ar_id ar j) /\
  Forall (fun q => snd q = profile_attr p (fst q)) (sub ar flt p j).
Proof.
  intros flt p j. assert (enumerate (rlist p) = map (fun i => (i, rattr_of p i)) (seq 0 (gp_dim p))) as E.
  { unfold enumerate. rewrite rlist_length. unfold rlist. generalize (seq 0 (gp_dim p)).
    intros l; induction l as [|i l IH]; cbn; [reflexivity|rewrite IH; reflexivity]. }
  split.
  - unfold wanted. fold (gp_dim p). destruct flt as [f|]; cbn [sub]; rewrite E.
    + generalize (seq 0 (gp_dim p)). intros l; induction l as [|i l IH]; cbn [map filter]; [reflexivity|].
      cbn [snd]. change (profile_attr p i) with (rattr_of p i).
      destruct (f (rattr_of p i, ar_id ar j)); cbn [map fst]; rewrite IH; reflexivity.
    + rewrite map_map. cbn [fst]. rewrite map_id. generalize (seq 0 (gp_dim p)).
      intros l; induction l as [|i l IH]; cbn; [reflexivity|rewrite <- IH at 1; reflexivity].
  - apply Forall_forall. intros [i a] I. apply sub_in in I. destruct I as [_ ->]. reflexivity.
Qed.
End Attrs.
