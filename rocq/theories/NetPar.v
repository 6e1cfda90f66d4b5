(** MultipleModule commutes with the group when its modules do. *)
From Coq Require Import String Ascii.
From Coq Require Import Reals ZArith Lia Lra Bool List Arith Permutation Sorted.
From Verif Require Import LibRes LibPy LibMat LibMatS FieldModel SpecField FieldProofs BranchProofs LabelThms MergeThms RepModel
  GridModel SpecGrid GridProofs GridThms ImageModel SpecImage ImageProofs MaskThms RdConvModel SpecBlocks RdConvProofs RdConvThms BlocksFwd FieldMapModel FieldMapProofs SpecFieldMap FieldMapThms SeqModel NetModel SpecNet NetProofs NetThms NetMult.
Import ListNotations.
Open Scope R_scope.

Lemma smem_ok : forall l ls, smem l ls = true <-> In l ls.
Proof. intros l ls. unfold smem. rewrite existsb_exists. split; [intros (a & Ha & E); apply String.eqb_eq in E; subst; exact Ha|intros H; exists l; split; [exact H|apply String.eqb_refl]]. Qed.
Lemma lookup_labels : forall {X} (f : string -> X) ls l, In l ls -> lookup String.eqb (map (fun l => (l, f l)) ls) l = Ret (f l).
Proof.
  intros X f ls l H. unfold lookup. induction ls as [|a ls IH]; [destruct H|]. cbn [map dget]. destruct (String.eqb_spec a l) as [->|N]; [reflexivity|]. apply IH. destruct H as [->|H]; [congruence|exact H].
Qed.
Lemma branching_labels : forall {A} (size : A -> nat) lleb ft labels r b, mk_branching size String.eqb lleb ft labels r = Ret b -> br_labels b = labels /\ length labels = length ft /\ (r < 3)%nat.
Proof.
  intros A size lleb ft labels r b H. unfold mk_branching in H. apply assert_Ret in H as (Q1 & H). apply assert_Ret in H as (Q2 & H). apply Nat.ltb_lt in Q1. apply Nat.eqb_eq in Q2.
  apply bind_Ret in H as (((m & ft') & labels') & _ & H). apply bind_Ret in H as (out & _ & H). apply bind_Ret in H as (buf & _ & H). apply Ret_inj in H. subst b. auto.
Qed.

Section Par.
Context {A T : Type}.
Variable rep : A -> repr T.
Notation size := (asize rep).
Variable teqb : list A -> list A -> bool.
Hypothesis teqb_ok : forall a b, teqb a b = true <-> a = b.
Variable lleb : string -> string -> bool.
Hypothesis lleb_refl : forall a, lleb a a = true.
Hypothesis lleb_total : forall a b, lleb a b = true \/ lleb b a = true.
Hypothesis lleb_trans : forall a b c, lleb a b = true -> lleb b c = true -> lleb a c = true.
Hypothesis lleb_antisym : forall a b, lleb a b = true -> lleb b a = true -> a = b.
Variables (ft : list A) (labels : list string) (mods : list (netmod A * labarg)) (r : nat) (mu : multiple A) (mods' : list (netmod A * labarg)).
Hypothesis Ne : ft <> [].
Hypothesis Pos : Forall (fun a => (0 < size a)%nat) ft.
Hypothesis Hmk : mk_multiple size teqb lleb ft labels mods r = Ret (mu, mods').
Variable n : nat.
Hypothesis Hrel : Forall (fun m => reliable rep n (fst m)) mods.
Let b := mu_branching mu.
Let pm := mu_mods mu.

Lemma built : br_labels b = labels /\ length labels = length ft /\ (r < 3)%nat /\ mk_branching size String.eqb lleb ft labels r = Ret b /\ mu_in mu = ft /\
  pm = map (fun m => (fst m, labs (snd m))) mods /\ mu_out mu = flat_map (fun m => nm_out (fst m)) mods /\ mods <> [] /\ forall m l, In m pm -> In l (snd m) -> In l labels.
Proof.
  pose proof Hmk as H. unfold mk_multiple in H. apply assert_Ret in H as (Q & H). apply bind_Ret in H as (b0 & Eb & H). apply assert_Ret in H as (_ & H). apply bind_Ret in H as (u & _ & H).
  apply bind_Ret in H as (out & Eo & H). apply Ret_inj in H. injection H as Emu _. unfold b, pm. rewrite <- Emu. cbn [mu_branching mu_mods mu_in mu_out].
  destruct (branching_labels _ _ _ _ _ _ Eb) as (L1 & L2 & L3). unfold mk_type in Eo. apply assert_Ret in Eo as (Qo & Eo). apply Ret_inj in Eo. repeat split; try assumption; try (symmetry; exact Eo).
  - intros ->. cbn in Eo. subst out. discriminate Qo.
  - intros m l Hm Hl. apply andb_prop in Q as (Q & _). rewrite forallb_forall in Q. apply smem_ok, Q. apply in_map_iff in Hm as (m0 & <- & Hm). apply in_flat_map. exists m0. auto.
Qed.

(** ** The branches *)
Definition sub (x : tensor A) (l : string) : tensor A := match on_chans (fun u => branch size String.eqb teqb b u l) x with Ret t => t | Raise => x end.
Lemma sub_ok : exists sel : string -> list nat, forall x l, shaped rep n x -> fst x = ft -> In l labels ->
  on_chans (fun u => branch size String.eqb teqb b u l) x = Ret (sub x l) /\ chooses rep (sel l) x (sub x l) /\
  Permutation (sel l) (labelled String.eqb labels l) /\ (r <= 1 -> sel l = labelled String.eqb labels l)%nat /\ (r = 2 -> StronglySorted (fun i j => size_at size ft i <= size_at size ft j) (sel l))%nat.
Proof.
  destruct built as (_ & Ll & Hr & Eb & _). 
  destruct (branch_picks_at (V := chan) size String.eqb lleb String.eqb_eq lleb_refl lleb_total lleb_trans lleb_antisym teqb r ft labels (fun t => proj2 (teqb_ok t t) eq_refl) Hr Ne Ll Pos) as (b0 & sel & Eb0 & H).
  rewrite Eb in Eb0. apply Ret_inj in Eb0. rewrite <- Eb0 in H. exists sel. intros x l Sx Tx Hl.
  destruct (H {| g_type := fst x; g_chans := tchans x |} l) as (y & Ey & Gy & Py & Pl); [exact (shaped_good rep n x Sx)|exact Tx|exact Hl|].
  assert (E : on_chans (fun u => branch size String.eqb teqb b u l) x = Ret (g_type y, of_chans (shape (snd x)) (g_chans y))) by (unfold on_chans; rewrite Ey; reflexivity).
  unfold sub. rewrite E. split; [reflexivity|]. split; [|exact Pl]. apply (on_chans_chooses rep n (sel l) x y Sx Gy). rewrite Tx. exact Py.
Qed.
Lemma sub_shaped : forall x l, shaped rep n x -> fst x = ft -> In l labels -> shaped rep n (sub x l).
Proof.
  intros x l Sx Tx Hl. destruct sub_ok as (sel & H). destruct (H x l Sx Tx Hl) as (_ & (_ & (B & ws & E1 & E2) & _) & _). destruct Sx as (B' & ws' & E' & Ln). rewrite E1 in E'. injection E' as <- <-. exists B, ws. auto.
Qed.
Lemma forward_merge : forall x, shaped rep n x -> fst x = ft -> multiple_forward size teqb mu x = merge_forward size pm (mu_out mu) (map (fun l => (l, sub x l)) labels).
Proof.
  intros x Sx Tx. destruct built as (Bl & _ & _ & _ & Mi & _). destruct sub_ok as (sel & H). unfold multiple_forward. rewrite Mi, (proj2 (teqb_ok _ _) Tx). cbn [assert_ bind]. fold b pm. rewrite Bl.
  rewrite (mapM_Ret_map _ _ _ (fun l => (l, sub x l))); [reflexivity|]. intros l Hl. destruct (H x l Sx Tx Hl) as (-> & _). reflexivity.
Qed.

(** ** The parts *)
Definition val (x : tensor A) (m : netmod A * list string) : tensor A := match nm_run (fst m) (map (sub x) (snd m)) with Ret y => y | Raise => x end.
Definition runs_at (x : tensor A) (B : nat) (ws : list nat) : Prop := forall m, In m pm ->
  nm_run (fst m) (map (sub x) (snd m)) = Ret (val x m) /\ shape (snd (val x m)) = B :: type_size size (nm_out (fst m)) :: ws.

Lemma args_ok : forall x m, In m pm -> mapM (lookup String.eqb (map (fun l => (l, sub x l)) labels)) (snd m) = Ret (map (sub x) (snd m)).
Proof. intros x m Hm. destruct built as (_ & _ & _ & _ & _ & _ & _ & _ & Hl). apply mapM_Ret_map. intros l Hin. apply lookup_labels. exact (Hl m l Hm Hin). Qed.
Lemma args_shaped : forall x m, shaped rep n x -> fst x = ft -> In m pm -> Forall (shaped rep n) (map (sub x) (snd m)).
Proof. intros x m Sx Tx Hm. destruct built as (_ & _ & _ & _ & _ & _ & _ & _ & Hl). apply Forall_map, Forall_forall. intros l Hin. apply sub_shaped; [exact Sx|exact Tx|exact (Hl m l Hm Hin)]. Qed.
Lemma pm_reliable : forall m, In m pm -> reliable rep n (fst m).
Proof. intros m Hm. destruct built as (_ & _ & _ & _ & _ & Ep & _). rewrite Ep in Hm. apply in_map_iff in Hm as (m0 & <- & H). rewrite Forall_forall in Hrel. apply Hrel, H. Qed.
Lemma out_types : forall x B ws, shaped rep n x -> fst x = ft -> runs_at x B ws -> flat_map fst (map (val x) pm) = mu_out mu /\ forall m, In m pm -> fst (val x m) = nm_out (fst m).
Proof.
  intros x B ws Sx Tx H. assert (K : forall m, In m pm -> fst (val x m) = nm_out (fst m)).
  { intros m Hm. destruct (H m Hm) as (E & _). apply (proj2 (pm_reliable m Hm) _ _ (args_shaped x m Sx Tx Hm) E). }
  split; [|exact K]. destruct built as (_ & _ & _ & _ & _ & Ep & Eo & _). rewrite Eo. transitivity (flat_map (fun m => nm_out (fst m)) pm).
  - clear - K. induction pm as [|m l IH]; [reflexivity|]. cbn [map flat_map]. rewrite (K m (or_introl eq_refl)), IH by (intros; apply K; right; assumption). reflexivity.
  - rewrite Ep. clear. induction mods as [|m l IH]; [reflexivity|]. cbn [map flat_map fst]. rewrite IH. reflexivity.
Qed.

Lemma merge_inv : forall x y, shaped rep n x -> fst x = ft -> multiple_forward size teqb mu x = Ret y -> smem "self" labels = false /\
  exists B ws, runs_at x B ws /\ joins rep (map (val x) pm) y /\ length ws = n.
Proof.
  intros x y Sx Tx Hy. rewrite forward_merge in Hy by assumption. unfold merge_forward in Hy. apply assert_Ret in Hy as (Q & Hy). rewrite map_map, map_id in Q. cbn [fst] in Q.
  split; [destruct (smem "self" labels); [discriminate|reflexivity]|]. apply bind_Ret in Hy as (shapes & Es & Hy). destruct shapes as [|s0 ss]; [discriminate|].
  apply assert_Ret in Hy as (Qs & Hy). apply bind_Ret in Hy as (parts & Ep & Hy). apply assert_Ret in Hy as (_ & Hy). apply Ret_inj in Hy.
  assert (K : parts = map (val x) pm /\ runs_at x (nth 0 s0 0%nat) (skipn 2 s0)).
  { clear Hy. apply mapM_Ret_inv in Ep. assert (F : Forall2 (fun m q => nm_run (fst m) (map (sub x) (snd m)) = Ret q /\ shape (snd q) = nth 0 s0 0%nat :: type_size size (nm_out (fst m)) :: skipn 2 s0) pm parts).
    { assert (Ip : forall m, In m pm -> In m pm) by auto. revert Ip Ep. generalize pm at 1 3 4. intros l Ip Ep. induction Ep as [|m q l qs E Ep IH]; [constructor|]. constructor; [|apply IH; intros; apply Ip; right; assumption].
      rewrite args_ok in E by (apply Ip; left; reflexivity). cbn [bind] in E. apply bind_Ret in E as (q0 & Eq & E). apply assert_Ret in E as (Qq & E). apply Ret_inj in E. subst q0. split; [exact Eq|]. apply shape_eqb_spec in Qq. exact Qq. }
    clear Ep Es. assert (G : parts = map (val x) pm /\ forall m, In m pm -> nm_run (fst m) (map (sub x) (snd m)) = Ret (val x m) /\ shape (snd (val x m)) = nth 0 s0 0%nat :: type_size size (nm_out (fst m)) :: skipn 2 s0); [|exact G].
    induction F as [|m q l qs (E1 & E2) F IH]; [split; [reflexivity|intros m []]|]. destruct IH as (IH1 & IH2). assert (Ev : val x m = q) by (unfold val; rewrite E1; reflexivity).
    cbn [map]. rewrite Ev, IH1 at 1. split; [reflexivity|]. intros m' [<-|Hm']; [rewrite Ev; auto|apply IH2, Hm']. }
  destruct K as (-> & Rn). exists (nth 0 s0 0%nat), (skipn 2 s0). split; [exact Rn|]. destruct (out_types x _ _ Sx Tx Rn) as (Eo & Et).
  assert (Npm : pm <> []). { destruct built as (_ & _ & _ & _ & _ & Epm & _ & Nm & _). rewrite Epm. destruct mods; [congruence|discriminate]. }
  assert (Sp : Forall (fun q => shape (snd q) = nth 0 s0 0%nat :: type_size size (fst q) :: skipn 2 s0) (map (val x) pm)) by (apply Forall_map, Forall_forall; intros m Hm; rewrite (Et m Hm); apply Rn, Hm).
  split.
  - rewrite <- Hy, <- Eo. apply (join_value rep (map (val x) pm) (nth 0 s0 0%nat) (skipn 2 s0) 0%nat) in Sp; [exact Sp|]. destruct pm; [congruence|discriminate].
  - destruct pm as [|m l] eqn:E; [congruence|]. assert (Hm : In m pm) by (rewrite E; left; reflexivity). rewrite <- E in *. destruct (Rn m Hm) as (E1 & E2).
    destruct (proj2 (pm_reliable m Hm) _ _ (args_shaped x m Sx Tx Hm) E1) as (_ & (B & ws & E3 & Ln) & _). rewrite E2 in E3. assert (skipn 2 s0 = ws) as -> by congruence. exact Ln.
Qed.

Lemma merge_intro : forall x B ws, shaped rep n x -> fst x = ft -> smem "self" labels = false -> runs_at x B ws ->
  exists y, multiple_forward size teqb mu x = Ret y /\ joins rep (map (val x) pm) y.
Proof.
  intros x B ws Sx Tx Ns Rn. rewrite forward_merge by assumption. unfold merge_forward. rewrite map_map, map_id. cbn [fst]. rewrite Ns. cbn [negb assert_ bind]. destruct (out_types x _ _ Sx Tx Rn) as (Eo & Et).
  rewrite (mapM_Ret_map _ _ _ (fun m => shape (snd (val x m)))); cycle 1.
  { intros m Hm. rewrite args_ok by exact Hm. cbn [bind]. apply (proj2 (pm_reliable m Hm) _ _ (args_shaped x m Sx Tx Hm)). apply Rn, Hm. }
  cbn [bind]. assert (Npm : pm <> []). { destruct built as (_ & _ & _ & _ & _ & Epm & _ & Nm & _). rewrite Epm. destruct mods; [congruence|discriminate]. }
  assert (Sp : Forall (fun q => shape (snd q) = B :: type_size size (fst q) :: ws) (map (val x) pm)) by (apply Forall_map, Forall_forall; intros m Hm; rewrite (Et m Hm); apply Rn, Hm).
  assert (exists m0 l0, pm = m0 :: l0) as (m0 & l0 & Epm) by (destruct pm; [congruence|eauto]).
  assert (E0 : shape (snd (val x m0)) = B :: type_size size (nm_out (fst m0)) :: ws) by (apply Rn; rewrite Epm; left; reflexivity).
  assert (Esh : map (fun m => shape (snd (val x m))) pm = (B :: type_size size (nm_out (fst m0)) :: ws) :: map (fun m => shape (snd (val x m))) l0) by (rewrite Epm; cbn [map]; rewrite E0; reflexivity).
  rewrite Esh. change (nth 0 (B :: type_size size (nm_out (fst m0)) :: ws) 0%nat) with B. change (skipn 2 (B :: type_size size (nm_out (fst m0)) :: ws)) with ws.
  assert (forallb (fun s => Nat.eqb B (nth 0 s 0%nat) && shape_eqb ws (skipn 2 s)) (map (fun m => shape (snd (val x m))) l0) = true) as ->.
  { apply forallb_forall. intros s Hs. apply in_map_iff in Hs as (m & <- & Hm). destruct (Rn m) as (_ & ->); [rewrite Epm; right; exact Hm|]. cbn [nth skipn]. rewrite Nat.eqb_refl, shape_eqb_refl. reflexivity. }
  cbn [assert_ bind]. rewrite (mapM_Ret_map _ _ _ (val x)); cycle 1.
  { intros m Hm. rewrite args_ok by exact Hm. cbn [bind]. destruct (Rn m Hm) as (-> & E). cbn [bind]. rewrite E, shape_eqb_refl. reflexivity. }
  cbn [bind]. assert (list_sum (map (fun s => nth 1 s 0%nat) ((B :: type_size size (nm_out (fst m0)) :: ws) :: map (fun m => shape (snd (val x m))) l0)) = type_size size (mu_out mu)) as ->.
  { rewrite <- Esh, map_map, <- Eo. unfold runs_at in Rn. clear - Rn Et.
    induction pm as [|m l IH]; [reflexivity|]. cbn [map flat_map list_sum]. rewrite size_app, <- IH; [|intros m' Hm'; apply Rn; right; exact Hm'|intros; apply Et; right; assumption].
    destruct (Rn m (or_introl eq_refl)) as (_ & ->). rewrite (Et m (or_introl eq_refl)). reflexivity. }
  rewrite Nat.eqb_refl. cbn [assert_ bind]. eexists. split; [reflexivity|]. rewrite <- Eo. apply (join_value rep (map (val x) pm) B ws); [|exact Sp]. destruct pm; [congruence|discriminate].
Qed.

(** *** the value *)
Theorem multiple_value : exists sel : string -> list nat,
  (forall l, In l labels -> Permutation (sel l) (labelled String.eqb labels l) /\ (r <= 1 -> sel l = labelled String.eqb labels l)%nat /\ (r = 2 -> StronglySorted (fun i j => size_at size ft i <= size_at size ft j) (sel l))%nat) /\
  forall x, shaped rep n x -> fst x = ft -> exists subs : string -> tensor A, (forall l, In l labels -> chooses rep (sel l) x (subs l)) /\
    (forall y, multiple_forward size teqb mu x = Ret y -> exists parts, Forall2 (fun m p => nm_run (fst m) (map subs (labs (snd m))) = Ret p) mods parts /\ joins rep parts y) /\
    forall parts B ws, smem "self" labels = false -> Forall2 (fun m p => nm_run (fst m) (map subs (labs (snd m))) = Ret p /\ shape (snd p) = B :: type_size size (nm_out (fst m)) :: ws) mods parts ->
      exists y, multiple_forward size teqb mu x = Ret y.
Proof.
  destruct sub_ok as (sel & Hs). destruct built as (_ & _ & _ & _ & _ & Epm & _). exists (fun l => if smem l labels then sel l else []). split.
  - intros l Il. rewrite (proj2 (smem_ok l labels) Il). 
    assert (exists x, shaped rep n x /\ fst x = ft) as (x & Sx & Tx) by (exists (ft, {| shape := 0%nat :: type_size size ft :: repeat 0%nat n; entry := fun _ => 0 |}); split; [exists 0%nat, (repeat 0%nat n); split; [reflexivity|apply repeat_length]|reflexivity]).
    destruct (Hs x l Sx Tx Il) as (_ & _ & K). exact K.
  - intros x Sx Tx. exists (sub x). split; [intros l Il; rewrite (proj2 (smem_ok l labels) Il); apply (Hs x l Sx Tx Il)|]. split.
    + intros y Hy. destruct (merge_inv x y Sx Tx Hy) as (_ & B & ws & Rn & J & _). exists (map (val x) pm). split; [|exact J]. unfold runs_at in Rn. rewrite Epm in Rn |- *. clear - Rn.
      induction mods as [|m l IH]; [constructor|]. cbn [map]. constructor; [apply (Rn (fst m, labs (snd m))); left; reflexivity|apply IH; intros; apply Rn; right; assumption].
    + intros parts B ws Ns F. destruct (merge_intro x B ws Sx Tx Ns) as (y & Ey & _); [|eauto]. intros m Hin. rewrite Epm in Hin. clear - F Hin. induction F as [|m0 p l ps (E1 & E2) F IH]; [destruct Hin|]. destruct Hin as [<-|Hin]; [|apply IH, Hin].
      unfold val. cbn [fst snd]. rewrite E1. auto.
Qed.

(** ** The module is steady *)
Lemma same_shaped : forall x x' : tensor A, same_tensor x x' -> shaped rep n x -> shaped rep n x'.
Proof. intros x x' (Et & Es & _) (B & ws & Ex & Ln). exists B, ws. rewrite <- Es, <- Et. auto. Qed.
Lemma same_runs : forall x y : tensor A, shaped rep n x -> fst x = ft -> multiple_forward size teqb mu x = Ret y ->
  forall x' (F : netmod A * list string -> list (tensor A)) (Y : netmod A * list string -> tensor A), shaped rep n x' -> fst x' = ft ->
  (exists B ws, forall m, In m pm -> Forall2 same_tensor (F m) (map (sub x') (snd m)) /\ Forall (shaped rep n) (F m) /\ nm_run (fst m) (F m) = Ret (Y m) /\ shape (snd (Y m)) = B :: type_size size (nm_out (fst m)) :: ws) ->
  exists y', multiple_forward size teqb mu x' = Ret y' /\ joins rep (map (val x') pm) y' /\ Forall2 same_tensor (map Y pm) (map (val x') pm).
Proof.
  intros x y Sx Tx Hy x' F Y Sx' Tx' (B & ws & H). destruct (merge_inv x y Sx Tx Hy) as (Ns & _).
  assert (K : forall m, In m pm -> nm_run (fst m) (map (sub x') (snd m)) = Ret (val x' m) /\ same_tensor (Y m) (val x' m)).
  { intros m Hm. destruct (H m Hm) as (S & Sf & E & _). pose proof (proj1 (pm_reliable m Hm) _ _ Sf S) as Q. rewrite E in Q. unfold val. destruct (nm_run (fst m) (map (sub x') (snd m))) as [|q]; [contradiction|]. auto. }
  destruct (merge_intro x' B ws Sx' Tx' Ns) as (y' & Ey' & J').
  { intros m Hm. destruct (K m Hm) as (E1 & (_ & Es & _)). split; [exact E1|]. rewrite <- Es. apply H, Hm. }
  exists y'. split; [exact Ey'|]. split; [exact J'|]. clear - K. induction pm as [|m l IH]; [constructor|]. cbn [map]. constructor; [apply K; left; reflexivity|apply IH; intros; apply K; right; assumption].
Qed.
Lemma map_same : forall (x x' : tensor A) ls, (forall l, In l ls -> same_tensor (sub x l) (sub x' l)) -> Forall2 same_tensor (map (sub x) ls) (map (sub x') ls).
Proof. intros x x' ls H. induction ls as [|l ls IH]; [constructor|]. cbn [map]. constructor; [apply H; left; reflexivity|apply IH; intros; apply H; right; assumption]. Qed.
Lemma pm_nonempty : forall f : netmod A * list string -> tensor A, map f pm <> [].
Proof. intros f. destruct built as (_ & _ & _ & _ & _ & -> & _ & Nm & _). destruct mods; [congruence|discriminate]. Qed.
Lemma multiple_same : forall x x' y, shaped rep n x -> fst x = ft -> same_tensor x x' -> multiple_forward size teqb mu x = Ret y ->
  exists y', multiple_forward size teqb mu x' = Ret y' /\ same_tensor y y'.
Proof.
  intros x x' y Sx Tx S Hy. pose proof (same_shaped x x' S Sx) as Sx'. assert (Tx' : fst x' = ft) by (rewrite <- (proj1 S); exact Tx). destruct (merge_inv x y Sx Tx Hy) as (Ns & B & ws & Rn & J & _).
  destruct sub_ok as (sel & Hs). destruct built as (_ & _ & _ & _ & _ & _ & _ & _ & Hl).
  destruct (same_runs x y Sx Tx Hy x' (fun m => map (sub x) (snd m)) (val x) Sx' Tx') as (y' & Ey' & J' & F).
  { exists B, ws. intros m Hm. split; [|split; [exact (args_shaped x m Sx Tx Hm)|exact (Rn m Hm)]]. apply map_same. intros l Hin. pose proof (Hl m l Hm Hin) as Il.
    destruct (Hs x l Sx Tx Il) as (_ & C & _). destruct (Hs x' l Sx' Tx' Il) as (_ & C' & _). exact (chooses_same rep (sel l) x _ x' _ C C' S). }
  exists y'. split; [exact Ey'|]. exact (joins_same rep _ _ y y' J J' F (pm_nonempty _)).
Qed.
Theorem multiple_steady : steady rep n (multiple_forward size teqb mu).
Proof.
  intros x x' Sx S. destruct (teqb (fst x) ft) eqn:Et.
  - apply teqb_ok in Et. destruct (multiple_forward size teqb mu x) as [|y] eqn:Ey.
    + destruct (multiple_forward size teqb mu x') as [|y'] eqn:Ey'; [exact I|]. destruct (multiple_same x' x y') as (y & E & _); [exact (same_shaped x x' S Sx)|rewrite <- (proj1 S); exact Et|apply same_sym, S|exact Ey'|congruence].
    + destruct (multiple_same x x' y Sx Et S Ey) as (y' & -> & Sy). exact Sy.
  - assert (mu_in mu = ft) as Mi by apply built. unfold multiple_forward. rewrite Mi, <- (proj1 S), Et. exact I.
Qed.

(** ** and commutes with the group *)
Section At.
Variables (half : R -> R) (affine : array R -> mat -> nat -> res (array R)) (base : T -> res (nat * mat)) (g : T).
Hypothesis H0 : half 0 = 0.
Hypothesis H1 : half 1 = 1.
Hypothesis Hm : half (-1) = -1.
Variable M : mat.
Hypothesis Eb : base g = Ret (n, M).
Hypothesis SM : signed_perm n M.
Notation move := (moved_by rep half affine base g).
Hypothesis Df : defined_at rep g ft.
Hypothesis Hc : Forall (fun m => defined_at rep g (nm_out (fst m)) /\ forall xs, Forall (shaped rep n) xs -> Forall (fun x => defined_at rep g (fst x)) xs -> commutes_all rep half affine base g (nm_run (fst m)) xs) mods.

Theorem multiple_commutes : forall x, shaped rep n x -> fst x = ft -> commutes rep half affine base g (multiple_forward size teqb mu) x.
Proof.
  intros x Sx Tx y Hy. destruct (merge_inv x y Sx Tx Hy) as (Ns & B & ws & Rn & J & Ln). destruct sub_ok as (sel & Hs). destruct built as (_ & _ & _ & _ & _ & Epm & Eout & _ & Hl).
  destruct (move_normal rep half affine base g H0 H1 Hm n M Eb SM) as (W & t & Re). destruct (move_ok rep half affine base g n W t Re x Sx) as (x' & Ex & Tx' & Sx'); [rewrite Tx; exact Df|].
  rewrite Tx in Tx'. destruct (Re ws Ln) as (_ & _ & _ & Hre).
  assert (Hcm : forall m, In m pm -> defined_at rep g (nm_out (fst m)) /\ forall xs, Forall (shaped rep n) xs -> Forall (fun x => defined_at rep g (fst x)) xs -> commutes_all rep half affine base g (nm_run (fst m)) xs).
  { intros m Hin. rewrite Epm in Hin. apply in_map_iff in Hin as (m0 & <- & Hin). rewrite Forall_forall in Hc. apply (Hc m0 Hin). }
  set (zsub := fun l => match move (sub x l) with Ret z => z | Raise => x end).
  assert (Hz : forall l, In l labels -> move (sub x l) = Ret (zsub l) /\ same_tensor (zsub l) (sub x' l) /\ shaped rep n (zsub l) /\ defined_at rep g (fst (sub x l))).
  { intros l Il. destruct (Hs x l Sx Tx Il) as (_ & C & _). destruct (Hs x' l Sx' Tx' Il) as (_ & C' & _). destruct (chooses_move rep half affine base g n W t Re (sel l) x (sub x l) x' (sub x' l) C Sx ltac:(rewrite Tx; exact Df) Ex C') as (z & Ez & Sz).
    assert (Dl : defined_at rep g (fst (sub x l))) by (apply (chosen_defined rep g (sel l) x (sub x l) C); rewrite Tx; exact Df).
    destruct (move_ok rep half affine base g n W t Re (sub x l) (sub_shaped x l Sx Tx Il) Dl) as (z2 & Ez2 & _ & Sz2). rewrite Ez in Ez2. apply Ret_inj in Ez2. subst z2.
    unfold zsub. rewrite Ez. split; [reflexivity|]. split; [apply same_sym, Sz|]. auto. }
  set (yz := fun m : netmod A * list string => match nm_run (fst m) (map zsub (snd m)) with Ret q => q | Raise => x end).
  set (mv := fun m => match move (val x m) with Ret z => z | Raise => x end).
  assert (Hy' : forall m, In m pm -> nm_run (fst m) (map zsub (snd m)) = Ret (yz m) /\ move (val x m) = Ret (mv m) /\ same_tensor (yz m) (mv m) /\ shape (snd (mv m)) = B :: type_size size (nm_out (fst m)) :: W ws /\ fst (mv m) = nm_out (fst m)).
  { intros m Hin. destruct (Rn m Hin) as (E1 & E2). destruct (out_types x B ws Sx Tx Rn) as (_ & Et). specialize (Et m Hin). destruct (Hcm m Hin) as (Do & C).
    destruct (C (map (sub x) (snd m)) (args_shaped x m Sx Tx Hin)) with (y := val x m) as (xs' & y' & z & K1 & K2 & K3 & K4); [|exact E1|].
    - apply Forall_map, Forall_forall. intros l Il. apply Hz. exact (Hl m l Hin Il).
    - assert (xs' = map zsub (snd m)) as ->.
      { assert (Q : mapM move (map (sub x) (snd m)) = Ret (map zsub (snd m))); [|rewrite K1 in Q; apply Ret_inj in Q; exact Q]. assert (Il : forall l, In l (snd m) -> In l labels) by (intros l; exact (Hl m l Hin)). clear - Il Hz. induction (snd m) as [|l ls IH]; [reflexivity|].
        cbn [map mapM]. rewrite (proj1 (Hz l (Il l (or_introl eq_refl)))). cbn [bind]. rewrite IH by (intros; apply Il; right; assumption). reflexivity. }
      unfold yz, mv. rewrite K2, K3. split; [reflexivity|]. split; [reflexivity|]. split; [exact K4|].
      destruct (Hre (val x m) B) as (q & Eq & Sq & _); [rewrite Et; exact Do|rewrite Et; exact E2|]. rewrite K3 in Eq. apply Ret_inj in Eq. subst z. cbn [fst snd]. rewrite Et in Sq. auto. }
  destruct (same_runs x y Sx Tx Hy x' (fun m => map zsub (snd m)) yz Sx' Tx') as (y' & Ey' & J' & F).
  { exists B, (W ws). intros m Hin. destruct (Hy' m Hin) as (E1 & _ & E3 & E4 & _). split; [|split; [|split; [exact E1|]]].
    - assert (Il : forall l, In l (snd m) -> In l labels) by (intros l; exact (Hl m l Hin)). clear - Il Hz. induction (snd m) as [|l ls IH]; [constructor|]. cbn [map]. constructor; [apply Hz, Il; left; reflexivity|apply IH; intros; apply Il; right; assumption].
    - apply Forall_map, Forall_forall. intros l Il. apply Hz. exact (Hl m l Hin Il).
    - destruct E3 as (_ & -> & _). exact E4. }
  assert (Fm : Forall2 same_tensor (map (val x') pm) (map mv pm)).
  { clear - F Hy'. assert (Q : forall m, In m pm -> same_tensor (yz m) (mv m)) by (intros m Hin; apply Hy', Hin). clear Hy'. induction pm as [|m l IH]; [constructor|]. cbn [map] in *. inversion F; subst. constructor; [|apply IH; [assumption|intros; apply Q; right; assumption]].
    eapply same_trans; [apply same_sym; eassumption|]. apply Q. left; reflexivity. }
  assert (Em : mapM move (map (val x) pm) = Ret (map mv pm)).
  { assert (Q : forall m, In m pm -> move (val x m) = Ret (mv m)) by (intros m Hin; apply Hy', Hin). clear - Q. induction pm as [|m l IH]; [reflexivity|]. cbn [map mapM]. rewrite (Q m (or_introl eq_refl)). cbn [bind]. rewrite IH by (intros; apply Q; right; assumption). reflexivity. }
  assert (Sy : shaped rep n y). { destruct J as (_ & (B' & ws' & Sy & Sp) & _). exists B', ws'. split; [exact Sy|].
    assert (exists m0 l0, pm = m0 :: l0) as (m0 & l0 & E) by (pose proof (pm_nonempty (val x)) as K; destruct pm; [exfalso; apply K; reflexivity|eauto]). rewrite E in Sp. cbn [map] in Sp. apply Forall_inv in Sp. destruct (Rn m0) as (_ & K); [rewrite E; left; reflexivity|]. rewrite K in Sp. injection Sp as _ _ <-. exact Ln. }
  assert (Dy : defined_at rep g (fst y)).
  { destruct J as (Ty & _). rewrite Ty. unfold defined_at. apply Forall_flat_map, Forall_map, Forall_forall. intros m Hin. rewrite (proj2 (out_types x B ws Sx Tx Rn) m Hin). apply Hcm, Hin. }
  assert (Sm : Forall (fun q => shape (snd q) = B :: type_size size (fst q) :: W ws) (map mv pm)) by (apply Forall_map, Forall_forall; intros m Hin; destruct (Hy' m Hin) as (_ & _ & _ & -> & ->); reflexivity).
  pose proof (join_value rep (map mv pm) B (W ws) 0%nat (pm_nonempty _) Sm) as Jm.
  destruct (joins_move rep half affine base g n W t Re _ y _ _ J Sy Dy Em (pm_nonempty _) Jm) as (z & Ez & Sz).
  exists x', y', z. split; [exact Ex|]. split; [exact Ey'|]. split; [exact Ez|]. eapply same_trans; [|exact Sz]. exact (joins_same rep _ _ _ _ J' Jm Fm (pm_nonempty _)).
Qed.
End At.
End Par.

(** The labels of the fields are the labels of the modules. *)
Theorem labels_used : forall {A} (size : A -> nat) (teqb : list A -> list A -> bool) (lleb : string -> string -> bool) ft labels (mods : list (netmod A * labarg)) r mu mods',
  mk_multiple size teqb lleb ft labels mods r = Ret (mu, mods') ->
  forall l, In l labels <-> exists m, In m mods /\ match snd m with LStr l' => l = l' | LList ls => In l ls end.
Proof.
  intros A size teqb lleb ft labels mods r mu mods' H l. unfold mk_multiple in H. apply assert_Ret in H as (Q & _). apply andb_true_iff in Q as (Q1 & Q2).
  rewrite forallb_forall in Q1, Q2.
  assert (U : In l (flat_map (fun m : netmod A * labarg => labs (snd m)) mods) <-> exists m, In m mods /\ match snd m with LStr l' => l = l' | LList ls => In l ls end).
  { rewrite in_flat_map. split; intros (m & Hm & K); exists m; (split; [exact Hm|]); destruct (snd m) as [l'|ls]; cbn [labs In] in *; intuition congruence. }
  rewrite <- U. split; intros K; apply smem_ok; auto.
Qed.
