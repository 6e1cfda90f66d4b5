(** What the convolutions on point clouds compute, and when. *)
From Coq Require Import String Ascii.
From Coq Require Import Reals ZArith Bool List Arith Lia Lra Permutation Classical.
From Verif Require Import LibRes LibPy LibMat LibMatS FieldModel SpecField FieldProofs RepModel SpecRepr BlocksModel SpecBlocks SamplerModel SpecSampler SamplerCor LayerModel SpecLayer SpecNonlin NonlinProofs BiasThms BiasCor
  GridModel SpecGrid ImageModel SpecImage RdConvModel RdConvProofs RdConvThms SpecPointConv PointConvModel PointConvProofs PointConvThms PointConvEquiv.
Import ListNotations.
Open Scope R_scope.

Lemma copies_length : forall {A} g (f : list A), length (copies g f) = (g * length f)%nat.
Proof. intros A g f. unfold copies. induction g as [|g IH]; [reflexivity|]. cbn [repeat concat]. rewrite app_length, IH. reflexivity. Qed.
Lemma copies_inj : forall {A} g (f f' : list A), (0 < g)%nat -> copies g f = copies g f' -> f = f'.
Proof.
  intros A g f f' Hg E. pose proof (f_equal (@length A) E) as L. rewrite !copies_length in L. apply Nat.mul_cancel_l in L; [|lia].
  destruct g as [|g]; [lia|]. unfold copies in E. cbn [repeat concat] in E. apply (f_equal (firstn (length f))) in E.
  rewrite firstn_app, firstn_all, Nat.sub_diag, app_nil_r in E. rewrite L, firstn_app, firstn_all, Nat.sub_diag, app_nil_r in E. exact E.
Qed.

Lemma map_seq_nth_d : forall {B} (f : nat -> B) n k e, (k < n)%nat -> nth k (map f (seq 0 n)) e = f k.
Proof. intros B f n k e H. rewrite (nth_indep _ e (f 0%nat)) by (rewrite map_length, seq_length; exact H). rewrite map_nth, seq_nth by exact H. reflexivity. Qed.

Section Layer.
Context {A X T : Type}.
Variable rep : A -> repr T.
Variable name : A -> string.
Variable aeqb : A -> A -> bool.
Variable order : list A -> list A.
Variable sort : list (string * string) -> list (string * string).
Variable generator : A -> A -> res (option (BlocksModel.kbasis X (list R))).
Variable bf : option (attr X -> bool).
Hypothesis aeqb_ok : forall a b, aeqb a b = true <-> a = b.
Hypothesis order_ok : forall l, Permutation (order l) l.
Hypothesis sort_ok : forall l, Permutation (sort l) l.
Notation size := (asize rep).
Notation forward := (pt_forward rep name aeqb).
Notation elements := (scaled_elements generator bf).
Variables ins outs : list A.
Hypothesis Din : forall a, In a ins -> dotless (name a).
Hypothesis Dout : forall a, In a outs -> dotless (name a).
Hypothesis Nin : forall a a', In a ins -> In a' ins -> name a = name a' -> a = a'.
Hypothesis Nout : forall a a', In a outs -> In a' outs -> name a = name a' -> a = a'.
Hypothesis Sin : Forall (fun a => (0 < size a)%nat) ins.
Hypothesis Sout : Forall (fun a => (0 < size a)%nat) outs.
Hypothesis Gen : forall i o, In i ins -> In o outs -> exists k, generator i o = Ret k /\ forall kb, k = Some kb -> kb_out kb = size o /\ kb_in kb = size i.
Variables (irr : list Z -> res (girrep T)) (tid : list Z) (d groups : nat) (bias : bool) (c : pointconv A X).
Hypothesis Ec : mk_pointconv rep name aeqb order sort irr tid generator ins outs d groups bias bf = Ret c.

(** A call computes at every node the mean over the edges that enter it, plus a bias. *)
Theorem pointconv_value : forall first, (0 < groups)%nat -> ins = copies groups first -> exists infos,
  length infos = bb_dim (sm_blocks (pt_sampler c)) /\
  (forall k f, nth_error infos k = Some f -> describes name (fun _ => 0%nat) elements first outs k f) /\
  NoDup (map slot infos) /\
  (forall o i j ro ri, nth_error outs o = Some ro -> nth_error first i = Some ri -> (j < length (elements ri ro))%nat -> In (o, i, j) (map slot infos)) /\
  forall w b rows coords x edges dl y, mk_cloud rep d ins rows coords = Ret x -> forward c w b x edges dl = Ret y ->
  cl_type y = outs /\ cl_coords y = coords /\ length (cl_rows y) = length rows /\
  forall i, (i < length rows)%nat -> length (nth i (cl_rows y) []) = type_size size outs /\
  forall o, (o < type_size size outs)%nat ->
    nth o (nth i (cl_rows y) []) 0 =
      mean (map (fun ed => row_message (type_size size first) (drawn size elements first outs infos w (snd ed)) (nth (fst (fst ed)) rows []) o (o / (type_size size outs / groups)))
             (entering i (List.combine edges (match dl with Some l => l | None => along_edges d coords edges end))))
      + match expand_bias (map rep outs) (pt_bias c) b with Some v => nth o v 0 | None => 0 end.
Proof.
  intros first Gp Ef. destruct (mk_pointconv_inv rep name aeqb order sort generator bf aeqb_ok _ _ _ _ _ _ _ _ Ec) as (first' & mb & s & Em & Es & Nz & Hfi & Hgr & Ecc).
  destruct (Hgr Gp) as (Egi & fo & Ego). assert (first' = first) as -> by (apply (copies_inj groups); [exact Gp|congruence]).
  rewrite Ecc. cbn [pt_sampler pt_bias].
  assert (Df : forall a, In a first -> dotless (name a)) by auto.
  assert (Nf : forall a a', In a first -> In a' first -> name a = name a' -> a = a') by auto.
  assert (Sf : Forall (fun a => (0 < size a)%nat) first) by (rewrite Forall_forall in Sin |- *; auto).
  assert (Gf : forall i o, In i first -> In o outs -> exists k, generator i o = Ret k /\ forall kb, k = Some kb -> kb_out kb = size o /\ kb_in kb = size i) by auto.
  pose proof (messages_ok name size (fun _ => 0%nat) aeqb order sort generator bf first outs aeqb_ok order_ok sort_ok Df Dout Nf Nout Sf Sout Gf) as MO.
  pose proof (orders_agree name size (fun _ => 0%nat) aeqb order sort generator bf first outs aeqb_ok order_ok sort_ok Df Dout Nf Nout Sf Sout Gf) as OA.
  destruct MO as (s' & infos & Es' & _ & Li & Hd & _ & ND & Hall & _ & HR & HF & HA & _). assert (s' = s) as -> by (rewrite Es in Es'; apply Ret_inj in Es'; congruence).
  exists infos. split; [exact Li|]. split; [intros k f Hk; exact (proj1 (Hd k f Hk))|]. split; [exact ND|]. split; [exact Hall|].
  intros w b rows coords x edges dl y Ex Hy. rewrite <- Ecc in Hy.
  set (m := type_size size outs) in *. set (n := type_size size first) in *.
  assert (Ex' : mk_cloud rep (pt_d c) (pt_in c) rows coords = Ret x) by (rewrite Ecc; exact Ex).
  pose proof (mk_cloud_inv rep d ins rows coords x Ex) as (Xe & Lc & Ln & Lr).
  apply (forward_iff rep name aeqb aeqb_ok c w b rows coords x edges dl y Ex') in Hy as (Rn & ->). cbn [cl_type cl_rows cl_coords].
  assert (Ho : pt_out c = outs) by (rewrite Ecc; reflexivity). rewrite Ho.
  split; [reflexivity|]. split; [reflexivity|]. unfold result at 1. rewrite map_length, seq_length. split; [reflexivity|].
  intros i Hi. unfold result. rewrite map_seq_nth_d by exact Hi. rewrite Ho. fold m.
  split; [rewrite (biased_length rep c) by (rewrite Ho; apply mean_rows_length); rewrite Ho; reflexivity|].
  intros o Hm.
  assert (Sd : steps_of c x edges dl = match dl with Some l => l | None => along_edges d coords edges end).
  { unfold steps_of. rewrite Ecc, Xe. reflexivity. }
  rewrite Sd in *. set (eds := List.combine edges _) in *.
  assert (MS : forall ed, In ed eds -> msg_of rep name c w rows ed = map (fun r => row_message n (drawn size elements first outs infos w (snd ed)) (nth (fst (fst ed)) rows []) r (r / (m / groups))) (seq 0 m)).
  { intros ed He. destruct Rn as (_ & _ & _ & Ms). destruct (Ms ed He) as (v & Ev). unfold msg_of. rewrite Ev. unfold msg, pt_message in Ev. rewrite Ecc in Ev. cbn [pt_d pt_sampler pt_groups] in Ev.
    apply assert_Ret in Ev as (_ & Ev). pose proof (OA s fo groups w _ _ v Es Ego Ev) as E0. destruct (HR _ _ _ _ _ _ Ev) as (F & Ne & _).
    rewrite (HF w _ _ groups F Ne) in E0. apply Ret_inj in E0. symmetry. exact E0. }
  assert (Hb : nth o (biased rep c b (mean_rows m (map (msg_of rep name c w rows) (entering i eds)))) 0 =
    nth o (mean_rows m (map (msg_of rep name c w rows) (entering i eds))) 0 + match expand_bias (map rep outs) mb b with Some v => nth o v 0 | None => 0 end).
  { unfold biased. rewrite Ho. replace (pt_bias c) with mb by (rewrite Ecc; reflexivity).
    destruct (expand_bias (map rep outs) mb b) as [v|] eqn:Eb; [|ring]. apply row_add_nth. rewrite mean_rows_length. symmetry. exact (expand_bias_length rep outs mb b v Eb). }
  rewrite Hb. f_equal. unfold mean_rows. rewrite map_seq_nth by exact Hm. f_equal. rewrite map_map. apply map_ext_in. intros ed He.
  unfold entering in He. apply filter_In in He. destruct He as [He _]. rewrite (MS ed He). rewrite map_seq_nth by exact Hm. reflexivity.
Qed.

(** When a call succeeds. *)
Theorem pointconv_runs : forall first w b rows coords x edges dl, mk_cloud rep d ins rows coords = Ret x -> ins = copies groups first ->
  ((exists y, forward c w b x edges dl = Ret y) <->
   (0 < groups)%nat /\ between (length rows) edges /\ edges <> [] /\ length w = bb_dim (sm_blocks (pt_sampler c)) /\
   (forall l, dl = Some l -> length l = length edges /\ Forall (fun t => length t = d) l) /\
   ((1 < groups)%nat -> one_kind first /\ one_kind outs \/
      forall i o, In i first -> In o outs -> elements i o <> [] -> ~ (one_run name size first (name i) /\ one_run name size outs (name o)))).
Proof.
  intros first w b rows coords x edges dl Ex Ef.
  destruct (mk_pointconv_inv rep name aeqb order sort generator bf aeqb_ok _ _ _ _ _ _ _ _ Ec) as (first' & mb & s & Em & Es & Nz & Hfi & Hgr & Ecc).
  assert (Ex' : mk_cloud rep (pt_d c) (pt_in c) rows coords = Ret x) by (rewrite Ecc; exact Ex).
  pose proof (mk_cloud_inv rep d ins rows coords x Ex) as (Xe & Lc & Ln & Lr).
  assert (Sd : steps_of c x edges dl = match dl with Some l => l | None => along_edges d coords edges end).
  { unfold steps_of. rewrite Ecc, Xe. reflexivity. }
  transitivity (runs rep name c w rows edges (steps_of c x edges dl)).
  { split; [intros (y & H); apply (forward_iff rep name aeqb aeqb_ok c w b rows coords x edges dl y Ex') in H; apply H|].
    intros H. eexists. apply (forward_iff rep name aeqb aeqb_ok c w b rows coords x edges dl _ Ex'). split; [exact H|reflexivity]. }
  rewrite Sd. set (st := match dl with Some l => l | None => along_edges d coords edges end).
  assert (MG : forall ed v, msg rep name c w rows ed = Ret v -> (0 < groups)%nat).
  { intros ed v Ev. unfold msg, pt_message in Ev. rewrite Ecc in Ev. apply assert_Ret in Ev as (_ & Ev). unfold compute_messages in Ev. cbn [pt_groups] in Ev.
    apply assert_Ret in Ev as (_ & Ev). apply assert_Ret in Ev as (_ & Ev). apply assert_Ret in Ev as (Ev & _). apply negb_true_iff, Nat.eqb_neq in Ev. lia. }
  assert (MR : (0 < groups)%nat -> forall ed, (fst (fst ed) < length rows)%nat -> ((exists v, msg rep name c w rows ed = Ret v) <->
    length (snd ed) = d /\ length w = bb_dim (sm_blocks (pt_sampler c)) /\
    ((1 < groups)%nat -> one_kind first /\ one_kind outs \/
      forall i o, In i first -> In o outs -> elements i o <> [] -> ~ (one_run name size first (name i) /\ one_run name size outs (name o))))).
  { intros Gp ed Hed. destruct (Hgr Gp) as (Egi & fo & Ego). assert (first' = first) as -> by (apply (copies_inj groups); [exact Gp|congruence]).
    assert (Df : forall a, In a first -> dotless (name a)) by auto.
    assert (Nf : forall a a', In a first -> In a' first -> name a = name a' -> a = a') by auto.
    assert (Sf : Forall (fun a => (0 < size a)%nat) first) by (rewrite Forall_forall in Sin |- *; auto).
    assert (Gf : forall i o, In i first -> In o outs -> exists k, generator i o = Ret k /\ forall kb, k = Some kb -> kb_out kb = size o /\ kb_in kb = size i) by auto.
    pose proof (messages_ok name size (fun _ => 0%nat) aeqb order sort generator bf first outs aeqb_ok order_ok sort_ok Df Dout Nf Nout Sf Sout Gf) as MO.
    destruct MO as (s' & infos & Es' & _ & Li & Hd & _ & _ & _ & _ & HR & _ & HA & _). assert (s' = s) as -> by (rewrite Es in Es'; apply Ret_inj in Es'; congruence).
    assert (Ne : one_kind first /\ one_kind outs -> infos <> []) by (intros _ ->; cbn in Li; congruence).
    assert (Lx : length (nth (fst (fst ed)) rows []) = (type_size size first * groups)%nat).
    { rewrite Forall_forall in Lr. rewrite (Lr _ (nth_In rows [] Hed)). rewrite Egi at 1. rewrite copies_size. apply Nat.mul_comm. }
    assert (Lm : (type_size size outs mod groups = 0)%nat) by (rewrite Ego, copies_size, Nat.mul_comm; apply Nat.mod_mul; lia).
    assert (Cm : forall l, (carrying name outs l mod groups = 0)%nat) by (intros l; rewrite Ego, copies_carrying, Nat.mul_comm; apply Nat.mod_mul; lia).
    unfold msg, pt_message. rewrite Ecc. cbn [pt_d pt_sampler pt_groups].
    split.
    - intros (v & Ev). apply assert_Ret in Ev as (Lt & Ev). apply Nat.eqb_eq in Lt. destruct (HR _ _ _ _ _ _ Ev) as (F & _ & _). pose proof F as (Lw & _).
      split; [exact Lt|]. split; [exact Lw|]. intros G1. pose proof (proj1 (HA w _ (snd ed) groups F Ne) (ex_intro _ v Ev)) as K.
      destruct (classic (one_kind first /\ one_kind outs)) as [O|O]; [left; exact O|right]. intros i o Hi Ho He. destruct (K i o Hi Ho He) as (_ & [?|[?|?]]); [contradiction|lia|assumption].
    - intros (Lt & Lw & K). rewrite (proj2 (Nat.eqb_eq _ _) Lt). cbn [assert_ bind]. apply HA; [split; [exact Lw|split; [exact Lx|split; [exact Gp|exact Lm]]]|exact Ne|].
      intros i o Hi Ho He. split; [apply Cm|]. destruct (Nat.lt_ge_cases 1 groups) as [G1|G1]; [|right; left; lia]. destruct (K G1) as [O|O]; [left; exact O|right; right; exact (O i o Hi Ho He)]. }
  assert (LO : length (along_edges d coords edges) = length edges) by (unfold along_edges; apply map_length).
  assert (LD : forall t, In t (along_edges d coords edges) -> length t = d).
  { intros t Ht. unfold along_edges in Ht. apply in_map_iff in Ht. destruct Ht as (e & <- & _). unfold offset. rewrite map_length, seq_length. reflexivity. }
  unfold runs. split.
  - intros (B & Ls & Ne & Ms). destruct edges as [|e0 edges]; [contradiction|]. destruct st as [|t0 ts] eqn:Est; [discriminate|].
    assert (Gp : (0 < groups)%nat) by (destruct (Ms (e0, t0) ltac:(left; reflexivity)) as (v & Ev); exact (MG _ _ Ev)).
    split; [exact Gp|]. split; [exact B|]. split; [exact Ne|].
    assert (B0 : (fst e0 < length rows)%nat) by (unfold between in B; inversion B; subst; tauto).
    destruct (proj1 (MR Gp (e0, t0) B0) (Ms (e0, t0) ltac:(left; reflexivity))) as (_ & Lw & K). split; [exact Lw|]. split; [|exact K].
    intros l ->. unfold st in Est. subst l. split; [exact Ls|]. apply Forall_forall. intros t Ht.
    assert (exists e, In (e, t) (List.combine (e0 :: edges) (t0 :: ts))) as (e & He).
    { apply In_nth with (d := []) in Ht. destruct Ht as (k & Hk & <-). exists (nth k (e0 :: edges) (0%nat, 0%nat)). rewrite <- combine_nth by (symmetry; exact Ls). apply nth_In. rewrite combine_length. lia. }
    assert (Be : (fst e < length rows)%nat) by (unfold between in B; rewrite Forall_forall in B; apply B; exact (in_combine_l _ _ _ _ He)).
    exact (proj1 (proj1 (MR Gp (e, t) Be) (Ms (e, t) He))).
  - intros (Gp & B & Ne & Lw & Ld & K). assert (length st = length edges /\ forall t, In t st -> length t = d) as (Ls & Lt).
    { unfold st. destruct dl as [l|]; [|split; [exact LO|exact LD]]. destruct (Ld l eq_refl) as (L1 & L2). rewrite Forall_forall in L2. auto. }
    split; [exact B|]. split; [exact Ls|]. split; [exact Ne|]. intros ed He. apply (MR Gp).
    + destruct ed as [e t]. unfold between in B. rewrite Forall_forall in B. apply B. exact (in_combine_l _ _ _ _ He).
    + destruct ed as [e t]. split; [apply Lt; exact (in_combine_r _ _ _ _ He)|]. auto.
Qed.
End Layer.
