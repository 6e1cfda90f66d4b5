(** The convolutions on point clouds are equivariant: the generic part. *)
From Coq Require Import String Ascii.
From Coq Require Import Reals ZArith Bool List Arith Lia Lra Permutation.
From Verif Require Import LibRes LibPy LibMat LibMatS FieldModel SpecField FieldProofs RepModel SpecRepr BlocksModel SpecBlocks SamplerModel SpecSampler SamplerCor LayerModel SpecLayer SpecNonlin NonlinProofs BiasThms BiasCor
  GridModel SpecGrid ImageModel SpecImage RdConvModel RdConvProofs RdConvThms SpecPointConv PointConvModel PointConvProofs.
Import ListNotations.
Open Scope R_scope.

Section Layer.
Context {A X T : Type}.
Variable rep : A -> repr T.
Variable name : A -> string.
Variable aeqb : A -> A -> bool.
Variable order : list A -> list A.
Variable sort : list (string * string) -> list (string * string).
Hypothesis aeqb_ok : forall a b, aeqb a b = true <-> a = b.
Hypothesis order_ok : forall l, Permutation (order l) l.
Hypothesis sort_ok : forall l, Permutation (sort l) l.
Notation size := (asize rep).
Notation forward := (pt_forward rep name aeqb).

Lemma mk_cloud_inv : forall d ft rows coords x, mk_cloud rep d ft rows coords = Ret x ->
  x = {| cl_type := ft; cl_rows := rows; cl_coords := coords |} /\ Forall (fun p => length p = d) coords /\ length rows = length coords /\ Forall (fun v => length v = type_size size ft) rows.
Proof.
  intros d ft rows coords x H. unfold mk_cloud in H. apply assert_Ret in H as (H1 & H). apply assert_Ret in H as (H2 & H). apply assert_Ret in H as (H3 & H). apply Ret_inj in H. subst x.
  apply rows_of_ok in H1. apply Nat.eqb_eq in H2. apply rows_of_ok in H3. auto.
Qed.
Lemma mk_cloud_go : forall d ft rows coords, Forall (fun p => length p = d) coords -> length rows = length coords -> Forall (fun v => length v = type_size size ft) rows ->
  mk_cloud rep d ft rows coords = Ret {| cl_type := ft; cl_rows := rows; cl_coords := coords |}.
Proof.
  intros d ft rows coords H1 H2 H3. unfold mk_cloud. rewrite (proj2 (rows_of_ok _ _) H1), (proj2 (Nat.eqb_eq _ _) H2), (proj2 (rows_of_ok _ _) H3). reflexivity.
Qed.

(** ** What a layer computes *)
Section Run.
Variable c : pointconv A X.
Variable w : list R.
Notation m := (type_size size (pt_out c)).
Definition msg (rows : list (list R)) (ed : (nat * nat) * list R) : res (list R) := pt_message rep name c w (nth (fst (fst ed)) rows []) (snd ed).
Definition msg_of (rows : list (list R)) (ed : (nat * nat) * list R) : list R := match msg rows ed with Ret v => v | Raise => [] end.

Lemma reaching_ok : forall f i edges (deltas : list (list R)), length deltas = length edges ->
  reaching i (map snd edges) (map f (List.combine edges deltas)) = map f (entering i (List.combine edges deltas)).
Proof.
  intros f i. unfold reaching, entering. induction edges as [|e edges IH]; intros [|t deltas] L; try discriminate; [reflexivity|]. cbn in L. injection L as L.
  cbn [List.combine map filter fst snd]. destruct (Nat.eqb (snd e) i); cbn [map]; rewrite <- IH by exact L; reflexivity.
Qed.

Lemma propagate_iff : forall rows edges deltas out, propagate rep name c w rows edges deltas = Ret out <->
  (between (length rows) edges /\ length deltas = length edges /\ edges <> [] /\ (forall ed, In ed (List.combine edges deltas) -> exists v, msg rows ed = Ret v)) /\
  out = map (fun i => mean_rows m (map (msg_of rows) (entering i (List.combine edges deltas)))) (seq 0 (length rows)).
Proof.
  intros rows edges deltas out. unfold propagate.
  assert (Bt : forallb (fun e => Nat.ltb (fst e) (length rows) && Nat.ltb (snd e) (length rows)) edges = true <-> between (length rows) edges).
  { unfold between. rewrite forallb_forall, Forall_forall. split; intros H e He; specialize (H e He); [apply andb_true_iff in H as [? ?]; split; apply Nat.ltb_lt; assumption|].
    apply andb_true_iff. split; apply Nat.ltb_lt; apply H. }
  assert (Nz : negb (Nat.eqb (length edges) 0) = true <-> edges <> []) by (destruct edges; cbn; split; (discriminate || congruence)).
  assert (Go : between (length rows) edges -> forall ed, In ed (List.combine edges deltas) -> (x_j <- get_nth rows (fst (fst ed)) ;; pt_message rep name c w x_j (snd ed)) = msg rows ed).
  { intros B [e t] He. apply in_combine_l in He. unfold between in B. rewrite Forall_forall in B. specialize (B e He). cbn [fst snd]. unfold get_nth.
    rewrite (nth_error_nth' rows [] (proj1 B)). reflexivity. }
  split.
  - intros H. apply assert_Ret in H as (H1 & H). apply assert_Ret in H as (H2 & H). apply assert_Ret in H as (H3 & H). apply bind_Ret in H as (ms & Em & H). apply Ret_inj in H. subst out.
    apply Bt in H1. apply Nat.eqb_eq in H2. apply Nz in H3. apply mapM_Ret_inv in Em.
    assert (Ms : ms = map (msg_of rows) (List.combine edges deltas)).
    { specialize (Go H1). clear - Em Go. induction Em as [|ed v l ms E _ IH]; [reflexivity|]. cbn [map]. f_equal.
      - rewrite (Go ed) in E by (left; reflexivity). unfold msg_of. rewrite E. reflexivity.
      - apply IH. intros e He. apply Go. right. exact He. }
    split.
    + split; [exact H1|]. split; [exact H2|]. split; [exact H3|]. intros ed He. rewrite <- (Go H1 ed He).
      clear - Em He. induction Em as [|e v l ms E _ IH]; [destruct He|]. destruct He as [<-|He]; [eauto|auto].
    + apply map_ext. intros i. rewrite mean_at_ok, Ms, reaching_ok by exact H2. reflexivity.
  - intros ((H1 & H2 & H3 & H4) & ->). rewrite (proj2 Bt H1), (proj2 (Nat.eqb_eq _ _) H2), (proj2 Nz H3). cbn [assert_ bind].
    rewrite (mapM_Ret_map _ _ _ (msg_of rows)).
    + cbn [bind]. f_equal. apply map_ext. intros i. rewrite mean_at_ok, reaching_ok by exact H2. reflexivity.
    + intros ed He. rewrite (Go H1 ed He). destruct (H4 ed He) as (v & E). unfold msg_of. rewrite E. reflexivity.
Qed.

(** the rows with the bias *)
Definition biased (b : list R) (r : list R) : list R := match expand_bias (map rep (pt_out c)) (pt_bias c) b with Some v => row_add r v | None => r end.
Lemma biased_length : forall b r, length r = m -> length (biased b r) = m.
Proof.
  intros b r L. unfold biased. destruct (expand_bias (map rep (pt_out c)) (pt_bias c) b) as [v|] eqn:E; [|exact L]. apply expand_bias_length in E. rewrite row_add_length by congruence. exact L.
Qed.
Definition result (b : list R) (rows : list (list R)) (eds : list ((nat * nat) * list R)) : list (list R) :=
  map (fun i => biased b (mean_rows m (map (msg_of rows) (entering i eds)))) (seq 0 (length rows)).
Definition runs (rows : list (list R)) (edges : list (nat * nat)) (deltas : list (list R)) : Prop :=
  between (length rows) edges /\ length deltas = length edges /\ edges <> [] /\ forall ed, In ed (List.combine edges deltas) -> exists v, msg rows ed = Ret v.

Definition steps_of (x : cloud A) (edges : list (nat * nat)) (dl : option (list (list R))) : list (list R) :=
  match dl with Some l => l | None => along_edges (pt_d c) (cl_coords x) edges end.

(** A call on a tensor [x] succeeds exactly when all messages can be computed. *)
Lemma forward_iff : forall b rows coords x edges dl y, mk_cloud rep (pt_d c) (pt_in c) rows coords = Ret x ->
  (forward c w b x edges dl = Ret y <->
   runs rows edges (steps_of x edges dl) /\ y = {| cl_type := pt_out c; cl_rows := result b rows (List.combine edges (steps_of x edges dl)); cl_coords := coords |}).
Proof.
  intros b rows coords x edges dl y Ex. apply mk_cloud_inv in Ex as (-> & Lc & Ln & Lr). unfold pt_forward. cbn [cl_type cl_rows cl_coords].
  rewrite (proj2 (same_type_ok aeqb aeqb_ok (pt_in c) (pt_in c)) eq_refl). cbn [assert_ bind].
  assert (Fin : forall deltas z, propagate rep name c w rows edges deltas = Ret z -> forall y,
    mk_cloud rep (pt_d c) (pt_out c) (match expand_bias (map rep (pt_out c)) (pt_bias c) b with Some v => map (fun r => row_add r v) z | None => z end) coords = Ret y <->
    y = {| cl_type := pt_out c; cl_rows := result b rows (List.combine edges deltas); cl_coords := coords |}).
  { intros deltas z Ez y0. apply propagate_iff in Ez as (_ & ->).
    assert (E : (match expand_bias (map rep (pt_out c)) (pt_bias c) b with Some v => map (fun r => row_add r v) (map (fun i => mean_rows m (map (msg_of rows) (entering i (List.combine edges deltas)))) (seq 0 (length rows)))
       | None => map (fun i => mean_rows m (map (msg_of rows) (entering i (List.combine edges deltas)))) (seq 0 (length rows)) end) = result b rows (List.combine edges deltas)).
    { unfold result, biased. destruct (expand_bias (map rep (pt_out c)) (pt_bias c) b); [rewrite map_map|]; reflexivity. }
    rewrite E. rewrite mk_cloud_go.
    - split; [intros K; apply Ret_inj in K; auto|intros ->; reflexivity].
    - exact Lc.
    - unfold result. rewrite map_length, seq_length. exact Ln.
    - apply Forall_forall. intros r Hr. apply in_map_iff in Hr. destruct Hr as (i & <- & _). apply biased_length, mean_rows_length. }
  assert (Off : between (length rows) edges -> mapM (fun e => p <- get_nth coords (fst e) ;; q <- get_nth coords (snd e) ;; Ret (row_sub p q)) edges = Ret (along_edges (pt_d c) coords edges)).
  { intros B. unfold along_edges. apply mapM_Ret_map. intros e He. unfold between in B. rewrite Forall_forall in B. destruct (B e He) as [B1 B2]. rewrite Ln in B1, B2.
    unfold get_nth. rewrite (nth_error_nth' coords [] B1), (nth_error_nth' coords [] B2). cbn [bind]. f_equal.
    rewrite Forall_forall in Lc. apply row_sub_offset; apply Lc, nth_In; assumption. }
  split.
  - intros H. apply bind_Ret in H as (deltas & Ed & H). apply bind_Ret in H as (z & Ez & H).
    pose proof (proj1 (propagate_iff _ _ _ _) Ez) as (R & _).
    assert (deltas = steps_of {| cl_type := pt_in c; cl_rows := rows; cl_coords := coords |} edges dl) as <-.
    { unfold steps_of. destruct dl as [l|]; [apply Ret_inj in Ed; auto|]. cbn [cl_coords]. destruct R as (B & _). rewrite (Off B) in Ed. apply Ret_inj in Ed. auto. }
    split; [exact R|]. exact (proj1 (Fin deltas z Ez y) H).
  - intros (R & ->). unfold steps_of in *. cbn [cl_coords] in *.
    assert (E : match dl with Some l => Ret l | None => mapM (fun e => p <- get_nth coords (fst e) ;; q <- get_nth coords (snd e) ;; Ret (row_sub p q)) edges end =
      Ret (match dl with Some l => l | None => along_edges (pt_d c) coords edges end)).
    { destruct dl as [l|]; [reflexivity|]. apply Off. apply R. }
    rewrite E. cbn [bind]. pose proof (proj2 (propagate_iff rows edges _ _) (conj R eq_refl)) as Ez. rewrite Ez. cbn [bind]. apply (Fin _ _ Ez). reflexivity.
Qed.
End Run.

(** ** Motions that leave the displacements alone, and the order of the edges *)
Theorem translation_ok : forall (c : pointconv A X) w b rows coords x edges y t, mk_cloud rep (pt_d c) (pt_in c) rows coords = Ret x -> forward c w b x edges None = Ret y ->
  forward c w b {| cl_type := pt_in c; cl_rows := rows; cl_coords := map (shifted t) coords |} edges None =
    Ret {| cl_type := pt_out c; cl_rows := cl_rows y; cl_coords := map (shifted t) coords |}.
Proof.
  intros c w b rows coords x edges y t Ex Hy. pose proof (mk_cloud_inv _ _ _ _ _ Ex) as (Xe & Lc & Ln & Lr).
  apply (forward_iff c w b rows coords x edges None y Ex) in Hy as (R & ->). cbn [cl_rows].
  assert (E : along_edges (pt_d c) (map (shifted t) coords) edges = along_edges (pt_d c) coords edges).
  { unfold along_edges. apply map_ext_in. intros e He. destruct R as (B & _). unfold between in B. rewrite Forall_forall in B, Lc. destruct (B e He) as [B1 B2]. rewrite Ln in B1, B2.
    assert (N : forall k, nth k (map (shifted t) coords) [] = shifted t (nth k coords [])) by (intros k; exact (map_nth (shifted t) coords [] k)).
    rewrite !N. apply offset_shifted; apply Lc, nth_In; assumption. }
  apply (forward_iff c w b rows (map (shifted t) coords)).
  - apply mk_cloud_go; [|rewrite map_length; exact Ln|exact Lr]. apply Forall_map. eapply Forall_impl; [|exact Lc]. intros p Hp. cbn. rewrite shifted_length. exact Hp.
  - rewrite Xe in *. unfold steps_of in *. cbn [cl_coords] in *. rewrite E. split; [exact R|reflexivity].
Qed.

Lemma combine_map_r : forall {B C} (f : B -> C) (l : list B), List.combine l (map f l) = map (fun e => (e, f e)) l.
Proof. intros B C f. induction l as [|a l IH]; [reflexivity|]. cbn. rewrite IH. reflexivity. Qed.

Theorem edge_order_ok : forall (c : pointconv A X) w b rows coords x edges edges' y, mk_cloud rep (pt_d c) (pt_in c) rows coords = Ret x -> Permutation edges edges' ->
  forward c w b x edges None = Ret y -> forward c w b x edges' None = Ret y.
Proof.
  intros c w b rows coords x edges edges' y Ex P Hy. apply (forward_iff c w b rows coords x edges None y Ex) in Hy as ((R1 & R2 & R3 & R4) & ->).
  apply (forward_iff c w b rows coords x edges' None _ Ex). unfold steps_of, along_edges in *. rewrite combine_map_r in *. split.
  - split; [unfold between in *; rewrite Forall_forall in *; intros e He; apply R1, (Permutation_in _ (Permutation_sym P)), He|].
    split; [apply map_length|]. split; [intros ->; apply R3, (Permutation_nil (Permutation_sym P))|]. intros ed He. apply R4. rewrite combine_map_r in *.
    exact (Permutation_in _ (Permutation_sym (Permutation_map _ P)) He).
  - f_equal. unfold result. apply map_ext. intros i. f_equal. apply mean_rows_perm, Permutation_map. rewrite combine_map_r.
    apply (Permutation_map (fun e => (e, offset (pt_d c) (nth (fst e) (cl_coords x) []) (nth (snd e) (cl_coords x) [])))) in P.
    unfold entering. clear - P. induction P as [|a l l' P IH|a a' l|l l' l'' P IH P' IH']; cbn [filter].
    + constructor.
    + destruct (Nat.eqb _ i); [constructor|]; exact IH.
    + destruct (Nat.eqb (snd (fst a')) i), (Nat.eqb (snd (fst a)) i); try reflexivity. constructor.
    + etransitivity; eassumption.
Qed.

(** Renumbering the nodes renumbers the rows of the output. *)
Theorem renumber_ok : forall (c : pointconv A X) w b rows coords x rows' coords' x' edges y s, mk_cloud rep (pt_d c) (pt_in c) rows coords = Ret x -> mk_cloud rep (pt_d c) (pt_in c) rows' coords' = Ret x' ->
  renumbers (length rows) s -> length rows' = length rows ->
  (forall i, (i < length rows)%nat -> nth (s i) rows' [] = nth i rows [] /\ nth (s i) coords' [] = nth i coords []) ->
  forward c w b x edges None = Ret y ->
  exists y', forward c w b x' (map (fun e => (s (fst e), s (snd e))) edges) None = Ret y' /\ cl_type y' = pt_out c /\ cl_coords y' = coords' /\
    forall i, (i < length rows)%nat -> nth (s i) (cl_rows y') [] = nth i (cl_rows y) [].
Proof.
  intros c w b rows coords x rows' coords' x' edges y s Ex Ex' (S1 & S2) Ln Hs Hy.
  pose proof (mk_cloud_inv _ _ _ _ _ Ex) as (Xe & _). pose proof (mk_cloud_inv _ _ _ _ _ Ex') as (Xe' & _).
  apply (forward_iff c w b rows coords x edges None y Ex) in Hy as ((R1 & R2 & R3 & R4) & ->).
  set (se := fun e : nat * nat => (s (fst e), s (snd e))).
  set (to := fun e : nat * nat => (e, offset (pt_d c) (nth (fst e) coords []) (nth (snd e) coords []))) in *.
  set (to' := fun e : nat * nat => (e, offset (pt_d c) (nth (fst e) coords' []) (nth (snd e) coords' []))).
  unfold steps_of, along_edges in R2, R4. rewrite combine_map_r in R4. rewrite Xe in R4. cbn [cl_coords] in R4.
  assert (Bd : forall e, In e edges -> (fst e < length rows)%nat /\ (snd e < length rows)%nat) by (unfold between in R1; rewrite Forall_forall in R1; exact R1).
  assert (M : forall e, In e edges -> msg c w rows' (to' (se e)) = msg c w rows (to e)).
  { intros e He. destruct (Bd e He) as [B1 B2]. unfold msg, to, to', se. cbn [fst snd]. destruct (Hs _ B1) as [-> ->]. destruct (Hs _ B2) as [_ ->]. reflexivity. }
  eexists. split; [apply (forward_iff c w b rows' coords' x' (map se edges) None _ Ex'); split; [|reflexivity]|].
  - unfold runs, steps_of, along_edges. rewrite Xe'. cbn [cl_coords]. rewrite combine_map_r. fold to'. split.
    + unfold between. apply Forall_map, Forall_forall. intros e He. destruct (Bd e He). unfold se. cbn [fst snd]. rewrite Ln. split; apply S1; assumption.
    + split; [rewrite !map_length; reflexivity|]. split; [intros K; apply map_eq_nil in K; contradiction|]. intros ed He. rewrite map_map in He. apply in_map_iff in He. destruct He as (e & <- & He).
      fold to'. rewrite M by exact He. apply R4, in_map_iff. exists e. split; [reflexivity|exact He].
  - cbn [cl_type cl_coords cl_rows]. split; [reflexivity|]. split; [reflexivity|]. intros i Hi.
    unfold steps_of, along_edges. rewrite Xe, Xe'. cbn [cl_coords]. rewrite !combine_map_r. fold to to'.
    unfold result. rewrite Ln.
    set (fi := fun k => biased c b (mean_rows (type_size size (pt_out c)) (map (msg_of c w rows') (entering k (map to' (map se edges)))))).
    set (fj := fun k => biased c b (mean_rows (type_size size (pt_out c)) (map (msg_of c w rows) (entering k (map to edges))))).
    rewrite (nth_indep _ [] (fi 0%nat)) by (rewrite map_length, seq_length; apply S1, Hi). rewrite (nth_indep (map fj _) [] (fj 0%nat)) by (rewrite map_length, seq_length; exact Hi).
    rewrite !map_nth, !seq_nth by (try apply S1; exact Hi). cbn [Nat.add]. unfold fi, fj. do 2 f_equal.
    unfold entering. clear - M Bd S2 Hi. induction edges as [|e edges IH]; [reflexivity|]. cbn [map filter].
    destruct (Bd e ltac:(left; reflexivity)) as [_ B2]. unfold to' at 1, se at 1, to at 1. cbn [fst snd].
    assert (Nat.eqb (s (snd e)) (s i) = Nat.eqb (snd e) i) as ->.
    { destruct (Nat.eqb_spec (snd e) i) as [->|N]; [apply Nat.eqb_refl|]. apply Nat.eqb_neq. intros K. apply N, S2; assumption. }
    specialize (IH ltac:(intros; apply Bd; right; assumption) ltac:(intros; apply M; right; assumption)).
    destruct (Nat.eqb (snd e) i); cbn [map]; rewrite IH; [|reflexivity]. f_equal. unfold msg_of. fold (to' (se e)). fold (to e). rewrite M by (left; reflexivity). reflexivity.
Qed.
End Layer.
