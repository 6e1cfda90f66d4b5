(** Lemmas for the field-wise nonlinearities. *)
From Coq Require Import Reals String List ZArith Arith Bool Lia Lra Permutation.
From Verif Require Import LibRes LibPy LibMat ParamModel ParamProofs FieldModel SpecField FieldProofs BranchProofs LabelThms MergeThms GroupedModel GroupedProofs
  NonlinModel SpecNonlin.
Import ListNotations.
Open Scope R_scope.
Notation length := List.length.

(** *** lists of reals *)
Lemma lsum_sumn : forall l, lsum l = sumn (length l) (fun i => nth i l 0).
Proof.
  induction l as [|a l IH]; [reflexivity|]. change (length (a :: l)) with (1 + length l)%nat. rewrite sumn_app. cbn [lsum fold_right sumn Nat.add nth].
  fold (lsum l). rewrite IH. ring.
Qed.
Lemma vnorm_enorm : forall v, vnorm v = enorm v.
Proof.
  intros v. unfold vnorm, enorm. rewrite lsum_sumn, map_length. f_equal. apply sumn_ext. intros i Hi.
  change 0 with ((fun a => a * a) 0) at 1 || idtac.
  rewrite (nth_indep _ 0 (0 * 0)) by (rewrite map_length; exact Hi). rewrite (map_nth (fun a => a * a)). reflexivity.
Qed.
Lemma mv_length : forall n M v, length (mv n M v) = n.
Proof. intros. unfold mv. rewrite map_length, seq_length. reflexivity. Qed.
Lemma mv_nth : forall n M v i, (i < n)%nat -> nth i (mv n M v) 0 = sumn n (fun j => M i j * nth j v 0).
Proof.
  intros n M v i H. unfold mv. rewrite (nth_indep _ 0 ((fun i => sumn n (fun j => M i j * nth j v 0)) 0%nat)) by (rewrite map_length, seq_length; exact H).
  rewrite (map_nth (fun i => sumn n (fun j => M i j * nth j v 0))). rewrite seq_nth by exact H. reflexivity.
Qed.
Lemma list_ext : forall (l m : list R), length l = length m -> (forall i, (i < length l)%nat -> nth i l 0 = nth i m 0) -> l = m.
Proof. intros l m E H. apply (nth_ext _ _ 0 0 E H). Qed.
Lemma scaled_mv : forall n M c v, length v = n -> mv n M (scaled c v) = scaled c (mv n M v).
Proof.
  intros n M c v L. apply list_ext; [unfold scaled; rewrite map_length, !mv_length; reflexivity|].
  intros i Hi. rewrite mv_length in Hi. rewrite mv_nth by exact Hi. unfold scaled.
  rewrite (nth_indep (map _ (mv n M v)) 0 (c * 0)) by (rewrite map_length, mv_length; exact Hi).
  rewrite (map_nth (fun a => c * a)), mv_nth by exact Hi. rewrite <- sumn_scal_l. apply sumn_ext. intros j Hj.
  rewrite (nth_indep (map _ v) 0 (c * 0)) by (rewrite map_length; lia). rewrite (map_nth (fun a => c * a)). ring.
Qed.
(** an orthogonal matrix keeps norms *)
Lemma sumn_sq_orth : forall n M v, orthogonal n M -> sumn n (fun i => sumn n (fun j => M i j * v j) * sumn n (fun j => M i j * v j)) = sumn n (fun j => v j * v j).
Proof.
  intros n M v [_ H].
  transitivity (sumn n (fun j => sumn n (fun k => v j * v k * sumn n (fun i => M i j * M i k)))).
  - transitivity (sumn n (fun i => sumn n (fun j => sumn n (fun k => v j * v k * (M i j * M i k))))).
    + apply sumn_ext. intros i _. rewrite <- sumn_scal_r. apply sumn_ext. intros j _. rewrite <- sumn_scal_l. apply sumn_ext. intros k _. ring.
    + rewrite sumn_swap. apply sumn_ext. intros j _. rewrite sumn_swap. apply sumn_ext. intros k _. rewrite sumn_scal_l. reflexivity.
  - apply sumn_ext. intros j Hj. transitivity (sumn n (fun k => v j * v k * mid j k)).
    + apply sumn_ext. intros k Hk. f_equal. apply (H j k Hj Hk).
    + rewrite (sumn_single n j) by (try exact Hj; intros i Hi Ne; unfold mid; rewrite (proj2 (Nat.eqb_neq j i)) by lia; ring).
      unfold mid. rewrite Nat.eqb_refl. ring.
Qed.
Lemma enorm_orth : forall n M v, length v = n -> orthogonal n M -> enorm (mv n M v) = enorm v.
Proof.
  intros n M v L O. unfold enorm. rewrite mv_length, L. f_equal. rewrite <- (sumn_sq_orth n M (fun j => nth j v 0) O).
  apply sumn_ext. intros i Hi. rewrite !mv_nth by exact Hi. reflexivity.
Qed.

(** *** fields *)
Section Fields.
Context {A : Type}.
Variable size : A -> nat.
Lemma fields_ext : forall {V} (ft : list A) (x y : list V), length x = type_size size ft -> length y = type_size size ft ->
  (forall i, (i < length ft)%nat -> field_chans size ft x i = field_chans size ft y i) -> x = y.
Proof.
  intros V ft x y Lx Ly H.
  pose proof (chans_range size ft x (length ft) 0 (le_n _)) as Ex. pose proof (chans_range size ft y (length ft) 0 (le_n _)) as Ey.
  cbn [Nat.add] in Ex, Ey. rewrite (offset_all size ft (length ft) (le_n _)) in Ex, Ey.
  change (offset size ft 0) with 0%nat in Ex, Ey. rewrite Nat.sub_0_r in Ex, Ey. cbn [skipn] in Ex, Ey.
  rewrite <- Lx, firstn_all in Ex. rewrite <- Ly, firstn_all in Ey. rewrite Ex, Ey.
  rewrite !flat_map_concat_map. f_equal. apply map_ext_in. intros i Hi. apply in_seq in Hi. apply H. lia.
Qed.
(** the block diagonal matrix acts on every field by its own matrix *)
Lemma matvec_blocks : forall (rho : A -> mat) (ft : list A) (x : list R), length x = type_size size ft ->
  acts size ft rho x (matvec (type_size size ft) (fiber_representation size rho ft) x).
Proof.
  intros rho ft. change (@matvec) with (@mv). intros x L. split; [rewrite mv_length; reflexivity|]. revert x L.
  induction ft as [|r ft IH]; intros x L i q E; [destruct i; discriminate|].
  change (type_size size (r :: ft)) with (size r + type_size size ft)%nat in *.
  assert (mv (size r + type_size size ft) (fiber_representation size rho (r :: ft)) x =
    mv (size r) (rho r) (firstn (size r) x) ++ mv (type_size size ft) (fiber_representation size rho ft) (skipn (size r) x)) as ->.
  { apply list_ext; [rewrite app_length, !mv_length; reflexivity|]. intros k Hk. rewrite mv_length in Hk. rewrite mv_nth by exact Hk.
    rewrite sumn_app. cbn [fiber_representation map bdiag]. unfold fiber_representation. cbn [map bdiag].
    assert (forall j, nth j (firstn (size r) x) 0 = if Nat.ltb j (size r) then nth j x 0 else 0) as N1.
    { intros j. rewrite <- (firstn_skipn (size r) x) at 2. destruct (Nat.ltb_spec j (size r)) as [Hj|Hj].
      - rewrite app_nth1 by (rewrite firstn_length; lia). reflexivity.
      - apply nth_overflow. rewrite firstn_length. lia. }
    assert (forall j, nth j (skipn (size r) x) 0 = nth (size r + j) x 0) as N2.
    { intros j. rewrite <- (firstn_skipn (size r) x) at 2. rewrite app_nth2 by (rewrite firstn_length; lia). f_equal. rewrite firstn_length. lia. }
    destruct (Nat.lt_ge_cases k (size r)) as [Hr|Hr].
    - rewrite app_nth1 by (rewrite mv_length; exact Hr). rewrite mv_nth by exact Hr. rewrite (proj2 (Nat.ltb_lt k (size r)) Hr).
      rewrite (sumn_0 (type_size size ft)).
      + rewrite Rplus_0_r. apply sumn_ext. intros j Hj. rewrite N1, (proj2 (Nat.ltb_lt j (size r)) Hj). reflexivity.
      + intros j Hj. rewrite (proj2 (Nat.ltb_ge (size r + j) (size r))) by lia. ring.
    - rewrite app_nth2 by (rewrite mv_length; exact Hr). rewrite mv_length, mv_nth by lia. rewrite (proj2 (Nat.ltb_ge k (size r)) Hr).
      rewrite (sumn_0 (size r)).
      + rewrite Rplus_0_l. apply sumn_ext. intros j Hj. rewrite N2, (proj2 (Nat.ltb_ge (size r + j) (size r))) by lia.
        replace (size r + j - size r)%nat with j by lia. reflexivity.
      + intros j Hj. rewrite (proj2 (Nat.ltb_lt j (size r)) Hj). ring. }
  assert (length (firstn (size r) x) = size r) as L1 by (rewrite firstn_length; lia).
  assert (length (skipn (size r) x) = type_size size ft) as L2 by (rewrite skipn_length; lia).
  assert (field_chans size (r :: ft) x i = field_chans size (r :: ft) (firstn (size r) x ++ skipn (size r) x) i) as -> by (rewrite firstn_skipn; reflexivity).
  destruct i as [|i]; cbn [nth_error] in E.
  - injection E as <-. rewrite field_chans_0 by (rewrite mv_length; reflexivity). rewrite field_chans_0 by exact L1. reflexivity.
  - rewrite field_chans_S by (rewrite mv_length; reflexivity). rewrite field_chans_S by exact L1.
    apply IH; [exact L2|exact E].
Qed.
Lemma acts_unique : forall (rho : A -> mat) ft x y z, acts size ft rho x y -> acts size ft rho x z -> y = z.
Proof.
  intros rho ft x y z [Ly Hy] [Lz Hz]. apply (fields_ext ft); [exact Ly|exact Lz|]. intros i Hi.
  destruct (nth_error ft i) as [r|] eqn:E; [|apply nth_error_None in E; lia]. rewrite (Hy _ _ E), (Hz _ _ E). reflexivity.
Qed.
(** [transform_fibers] is the action *)
Lemma transform_acts : forall (rho : A -> mat) (x : gtensor A R), good size x ->
  g_type (transform_fibers size rho x) = g_type x /\ acts size (g_type x) rho (g_chans x) (g_chans (transform_fibers size rho x)).
Proof. intros rho x G. split; [reflexivity|]. apply matvec_blocks. exact G. Qed.
Lemma zip_with_ok : forall {X Y Z} (f : X -> Y -> Z) l m, length l = length m ->
  zip_with f l m = Ret (map (fun p => f (fst p) (snd p)) (List.combine l m)).
Proof. intros X Y Z f l m E. unfold zip_with. rewrite E, Nat.eqb_refl. reflexivity. Qed.
Lemma firstn_combine : forall {X Y} n (l : list X) (m : list Y), firstn n (List.combine l m) = List.combine (firstn n l) (firstn n m).
Proof. intros X Y n; induction n as [|n IH]; intros [|a l] [|b m]; cbn; try reflexivity. rewrite IH. reflexivity. Qed.
Lemma skipn_combine : forall {X Y} n (l : list X) (m : list Y), length l = length m -> skipn n (List.combine l m) = List.combine (skipn n l) (skipn n m).
Proof. intros X Y n; induction n as [|n IH]; intros [|a l] [|b m] E; cbn in *; try reflexivity; try discriminate. apply IH. lia. Qed.
Lemma field_combine : forall {X Y} (ft : list A) (x : list X) (y : list Y) i, length x = length y ->
  field_chans size ft (List.combine x y) i = List.combine (field_chans size ft x i) (field_chans size ft y i).
Proof.
  intros X Y ft x y i E. unfold field_chans. destruct (nth_error ft i); [|reflexivity]. rewrite skipn_combine by exact E. apply firstn_combine.
Qed.
Lemma field_map : forall {X Y} (f : X -> Y) (ft : list A) (x : list X) i, field_chans size ft (map f x) i = map f (field_chans size ft x i).
Proof. intros X Y f ft x i. unfold field_chans. destruct (nth_error ft i); [|reflexivity]. rewrite skipn_map, firstn_map. reflexivity. Qed.
End Fields.

Lemma combine_repeat : forall {X Y} (l : list X) (y : Y) n, length l = n -> List.combine l (repeat y n) = map (fun x => (x, y)) l.
Proof. intros X Y l y n E; subst n. induction l as [|a l IH]; cbn; [|rewrite IH]; reflexivity. Qed.

(** *** one loop over all the groups, in place *)
Section InPlace.
Context {A L V W : Type}.
Variable size : A -> nat.
Variable leqb : L -> L -> bool.
Hypothesis leqb_ok : forall a b, leqb a b = true <-> a = b.
Lemma mapM_buffer_keys : forall (idx : list (L * list nat)) cont buf, mapM (buffer leqb idx) cont = Ret buf -> map fst buf = map fst cont.
Proof.
  intros idx cont; induction cont as [|lc cont IH]; intros buf E; cbn [mapM] in E; [apply Ret_inj in E; subst; reflexivity|].
  apply bind_Ret in E. destruct E as (b & Eb & E). apply bind_Ret in E. destruct E as (bs & Ebs & E). apply Ret_inj in E; subst buf.
  cbn [map]. rewrite (IH bs Ebs). f_equal. exact (buf_key leqb idx lc b Eb).
Qed.
Lemma buffers_keys : forall ft labels buf, buffers size leqb ft labels = Ret buf -> NoDup (map fst buf) /\ forall l, In l (map fst buf) <-> In l labels.
Proof.
  intros ft labels buf E. unfold buffers in E. rewrite (mapM_buffer_keys _ _ _ E). split; [apply contiguous_NoDup, leqb_ok|].
  intros l. apply contiguous_all, leqb_ok.
Qed.
Variable lsize : L -> nat.
Lemma in_place : forall (ft : list A) labels buf order (proc : L -> nat -> list V -> res (list W)) (f : L -> nat -> list V -> list W) x junk,
  length labels = length ft -> Forall (fun r => (0 < size r)%nat) ft -> (forall i r s, nth_error labels i = Some s -> nth_error ft i = Some r -> size r = lsize s) ->
  buffers size leqb ft labels = Ret buf ->
  Permutation order (map fst buf) -> length x = type_size size ft -> length junk = type_size size ft ->
  (forall s next (bs : list (list V)), In s labels -> length bs = nfields leqb labels s -> (next + length bs <= length ft)%nat ->
     Forall (fun b => length b = lsize s) bs -> (0 < lsize s)%nat -> (exists r, In r ft /\ size r = lsize s) -> proc s next (concat bs) = Ret (concat (imap (f s) next bs))) ->
  (forall s k b, In s labels -> length b = lsize s -> length (f s k b) = lsize s) ->
  Permutation (flat_map (labelled leqb labels) order) (seq 0 (length ft)) /\
  exists out, grouped_loop leqb (nfields leqb labels) buf buf proc x order 0 junk = Ret out /\ length out = type_size size ft /\
    forall k i s, nth_error (flat_map (labelled leqb labels) order) k = Some i -> nth_error labels i = Some s -> field_chans size ft out i = f s k (field_chans size ft x i).
Proof.
  intros ft labels buf order proc f x junk Len P Ls Eb Po Lx Lj Hp Hf.
  destruct (buffers_keys ft labels buf Eb) as [NDb Ib].
  assert (NoDup order) as ND by (apply (Permutation_NoDup (Permutation_sym Po)), NDb).
  assert (forall s, In s order <-> In s labels) as Io.
  { intros s. rewrite <- Ib. split; [apply Permutation_in, Po|apply Permutation_in, Permutation_sym, Po]. }
  assert (Permutation (flat_map (labelled leqb labels) order) (seq 0 (length ft))) as Ps.
  { rewrite <- Len. apply labelled_cover; [exact leqb_ok|exact ND|]. intros l Hl. apply Io, Hl. }
  split; [exact Ps|].
  destruct (buffers_ok size leqb leqb_ok ft labels Len P) as (buf' & Eb' & Hb). assert (buf' = buf) by congruence. subst buf'.
  assert (forall s i, In i (labelled leqb labels s) -> exists r, nth_error labels i = Some s /\ nth_error ft i = Some r /\ size r = lsize s) as Hi.
  { intros s i Hi. apply (labelled_In leqb leqb_ok) in Hi. assert (i < length ft)%nat as Bi by (rewrite <- Len; apply nth_error_Some; congruence).
    destruct (nth_error ft i) as [r|] eqn:E; [|apply nth_error_None in E; lia]. exists r. repeat split; try assumption. eapply Ls; eassumption. }
  (* the loop, with the bound on [next] known *)
  set (proc' := fun s next fm => if Nat.leb (next + nfields leqb labels s) (length ft) then proc s next fm
     else Ret (concat (imap (f s) next (map (field_chans size ft x) (labelled leqb labels s))))).
  assert (forall order next out, (next + length (flat_map (labelled leqb labels) order) <= length ft)%nat ->
     grouped_loop leqb (nfields leqb labels) buf buf proc' x order next out = grouped_loop leqb (nfields leqb labels) buf buf proc x order next out) as Same.
  { clear - leqb_ok. induction order as [|s order IH]; intros next out H; [reflexivity|]. cbn [grouped_loop flat_map] in *. rewrite app_length in H.
    pose proof (nfields_labelled leqb labels s) as Nf.
    destruct (lookup leqb buf s) as [|c]; cbn [bind]; [reflexivity|]. destruct (read x c) as [|fm]; cbn [bind]; [reflexivity|].
    assert (proc' s next fm = proc s next fm) as -> by (unfold proc'; rewrite (proj2 (Nat.leb_le _ _)) by lia; reflexivity).
    destruct (proc s next fm) as [|w]; cbn [bind]; [reflexivity|]. destruct (write out c w); cbn [bind]; [reflexivity|]. apply IH. lia. }
  destruct (loop_ok size size leqb leqb_ok ft labels ft labels buf buf (nfields leqb labels) proc' f x Lx Len Len order 0 junk ND)
    as (out & El & Lo & Hin & _); [|exact Lj|].
  - apply Forall_forall. intros s Hs. apply Io in Hs. unfold treated. rewrite nfields_labelled.
    destruct (Hb s (type_size size ft) Hs (le_n _)) as (c & Ec & Pc).
    assert (exists r, In r ft /\ size r = lsize s) as (r0 & Ir0 & Er0).
    { apply In_nth_error in Hs. destruct Hs as [i Ei]. destruct (Hi s i) as (r & _ & E & F); [apply (labelled_In leqb leqb_ok), Ei|].
      exists r. split; [apply nth_error_In in E; exact E|exact F]. }
    split; [reflexivity|]. split; [exists c; auto|]. split; [exists c; auto|]. split; [|split; [reflexivity|]].
    + intros next. unfold proc'. destruct (Nat.leb_spec (next + nfields leqb labels s) (length ft)) as [H|]; [|reflexivity]. apply Hp.
      * exact Hs.
      * rewrite map_length, nfields_labelled. reflexivity.
      * rewrite map_length. rewrite nfields_labelled in H. exact H.
      * apply Forall_forall. intros b Hb'. apply in_map_iff in Hb'. destruct Hb' as (i & <- & Hi'). destruct (Hi s i Hi') as (r & H1 & H2 & H3).
        rewrite <- H3. apply field_chans_length; assumption.
      * rewrite <- Er0. rewrite Forall_forall in P. apply P, Ir0.
      * exists r0. auto.
    + intros k o i r H1 H2 Er. destruct (Hi s i H1) as (q & E1 & E2 & E3). destruct (Hi s o H2) as (q' & E1' & E2' & E3').
      assert (q' = r) by congruence. subst q'. rewrite E3'. apply Hf; [exact Hs|]. rewrite <- E3. apply field_chans_length; assumption.
  - exists out. rewrite <- Same by (cbn [Nat.add]; rewrite (Permutation_length Ps), seq_length; lia). split; [exact El|split; [exact Lo|]].
    intros k i s Ek Es. apply (Hin k i i s Ek Ek Es).
Qed.
End InPlace.
