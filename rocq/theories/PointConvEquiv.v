(** The convolutions on point clouds commute with the group. *)
From Coq Require Import String Ascii.
From Coq Require Import Reals ZArith Bool List Arith Lia Lra Permutation.
From Verif Require Import LibRes LibPy LibMat LibMatS FieldModel SpecField FieldProofs RepModel SpecRepr BlocksModel SpecBlocks SamplerModel SpecSampler SamplerCor LayerModel SpecLayer SpecNonlin NonlinProofs BiasThms BiasCor
  GridModel SpecGrid ImageModel SpecImage RdConvModel RdConvProofs RdConvThms SpecPointConv PointConvModel PointConvProofs PointConvThms.
Import ListNotations.
Open Scope R_scope.

Section Layer.
Context {A X T : Type}.
Variable rep : A -> repr T.
Variable name : A -> string.
Variable aeqb : A -> A -> bool.
Variable order : list A -> list A.
Variable sort : list (string * string) -> list (string * string).
Variable generator : A -> A -> res (option (BlocksModel.kbasis X (list R))).
Variable bf : option (attr X -> bool).
Hypothesis aeqb_ok : forall a b, aeqb a b = true <-> a = b.
Hypothesis order_ok : forall l, Permutation (order l) l.
Hypothesis sort_ok : forall l, Permutation (sort l) l.
Notation size := (asize rep).
Notation forward := (pt_forward rep name aeqb).

Lemma mk_pointconv_inv : forall irr tid ins outs d groups bias c,
  mk_pointconv rep name aeqb order sort irr tid generator ins outs d groups bias bf = Ret c ->
  exists first m s, mk_bias irr tid bias (map rep outs) = Ret m /\
    mk_sampler name size aeqb order sort first outs generator bf = Ret s /\ bb_dim (sm_blocks s) <> 0%nat /\
    (forall x, In x first -> In x ins) /\
    ((0 < groups)%nat -> ins = copies groups first /\ exists fo, outs = copies groups fo) /\
    c = {| pt_in := ins; pt_out := outs; pt_d := d; pt_groups := groups; pt_bias := m; pt_sampler := s |}.
Proof.
  intros irr tid ins outs d groups bias c H. unfold mk_pointconv in H.
  apply bind_Ret in H as (first & H1 & H). apply bind_Ret in H as (m & H2 & H). apply bind_Ret in H as (s & H3 & H).
  apply assert_Ret in H as (H4 & H). apply Ret_inj in H. subst c. exists first, m, s.
  split; [exact H2|]. split; [exact H3|]. split; [apply negb_true_iff, Nat.eqb_neq in H4; exact H4|].
  destruct (Nat.ltb_spec 1 groups).
  - do 4 apply assert_Ret in H1 as (? & H1). apply Ret_inj in H1. subst first. split; [intros x Hx; rewrite <- (firstn_skipn (length ins / groups)); apply in_or_app; left; exact Hx|].
    split; [|reflexivity]. intros Hg. split.
    + apply (equal_groups_ok aeqb aeqb_ok); [lia|apply Nat.eqb_eq; assumption|assumption].
    + eexists. apply (equal_groups_ok aeqb aeqb_ok); [lia|apply Nat.eqb_eq; assumption|assumption].
  - apply Ret_inj in H1. subst first. split; [auto|]. split; [|reflexivity]. intros Hg. assert (groups = 1%nat) as -> by lia. unfold copies. cbn [repeat concat]. rewrite app_nil_r. split; [reflexivity|].
    exists outs. rewrite app_nil_r. reflexivity.
Qed.

Section Messages.
Variables first outs : list A.
Hypothesis dots_in : forall a, In a first -> dotless (name a).
Hypothesis dots_out : forall a, In a outs -> dotless (name a).
Hypothesis names_in : forall a b, In a first -> In b first -> name a = name b -> a = b.
Hypothesis names_out : forall a b, In a outs -> In b outs -> name a = name b -> a = b.
Hypothesis sizes_in : Forall (fun r => (0 < size r)%nat) first.
Hypothesis sizes_out : Forall (fun r => (0 < size r)%nat) outs.
Hypothesis generator_ok : forall i o, In i first -> In o outs ->
  exists k, generator i o = Ret k /\ forall kb, k = Some kb -> kb_out kb = size o /\ kb_in kb = size i.
Notation elements := (scaled_elements generator bf).
Notation n := (type_size size first).
Notation m := (type_size size outs).

Definition elements_steer (d : nat) (M : mat) (rho : A -> mat) : Prop :=
  forall i o kb e, In i first -> In o outs -> generator i o = Ret (Some kb) -> In e (kb_elements kb) -> steerable_on d (size o) (size i) M (rho i) (rho o) (el_sample e).

Lemma drawn_steers : forall d M rho infos w, elements_steer d M rho -> (forall k f, nth_error infos k = Some f -> describes name (fun _ => 0%nat) elements first outs k f) ->
  steerable_on d m n M (dg size rho first) (dg size rho outs) (fun r c p => drawn size elements first outs infos w p r c).
Proof.
  intros d M rho infos w HS Hd. unfold drawn. apply st_sum. intros j Hj.
  destruct (nth_error infos j) as [f|] eqn:Ej; [|apply nth_error_None in Ej; lia].
  destruct (Hd j f Ej) as (ri & ro & a & s & Ei & Eo & Ee & _).
  eapply st_ext; [|apply (st_block size d M rho first outs (in_field_position f) (out_field_position f) ri ro s Ei Eo)].
  - intros r c p _ _. unfold element_at. rewrite Ei, Eo, Ee. reflexivity.
  - unfold scaled_elements in Ee. destruct (generator ri ro) as [|[kb|]] eqn:Eg; try (destruct (block_id f); discriminate).
    apply nth_error_In in Ee. apply in_map_iff in Ee. destruct Ee as (e & E & He). injection E as _ <-. apply filter_In in He. destruct He as [He _].
    pose proof (HS ri ro kb e (nth_error_In _ _ Ei) (nth_error_In _ _ Eo) Eg He) as St.
    eapply st_ext; [|exact (st_lin d _ _ M _ _ (fun _ _ _ => 0) (el_sample e) (INR (el_dim e)) (st_0 d _ _ M _ _) St)].
    intros r c p _ _. cbn. ring.
Qed.

Lemma messages_commute : forall s d M rho groups fo w x p v, mk_sampler name size aeqb order sort first outs generator bf = Ret s -> outs = copies groups fo ->
  elements_steer d M rho -> length p = d ->
  compute_messages name size s w x p true groups = Ret v ->
  length v = m /\
  compute_messages name size s w (row_map (groups * n) (groups * n) (dg size rho (copies groups first)) x) (turned d M p) true groups = Ret (row_map m m (dg size rho outs) v).
Proof.
  intros s d M rho groups fo w x p v Es Eo HS Lp E.
  destruct (messages_ok name size (fun _ => 0%nat) aeqb order sort generator bf first outs aeqb_ok order_ok sort_ok dots_in dots_out names_in names_out sizes_in sizes_out generator_ok)
    as (s' & infos & Es' & _ & _ & Hd & _ & _ & _ & _ & HR & HF & HA & _). assert (s' = s) as -> by (rewrite Es in Es'; apply Ret_inj in Es'; congruence).
  destruct (HR _ _ _ _ _ _ E) as (F & Ne & Lv). pose proof F as (L1 & L2 & L3 & L4). split; [exact Lv|].
  pose proof (orders_agree name size (fun _ => 0%nat) aeqb order sort generator bf first outs aeqb_ok order_ok sort_ok dots_in dots_out names_in names_out sizes_in sizes_out generator_ok) as OA.
  pose proof (OA s fo groups w x p v Es Eo E) as E0. rewrite (HF w x p groups F Ne) in E0. apply Ret_inj in E0.
  set (x' := row_map (groups * n) (groups * n) (dg size rho (copies groups first)) x).
  assert (F' : fitting (bb_dim (sm_blocks s)) n m w x' groups).
  { split; [exact L1|]. split; [|split; [exact L3|exact L4]]. unfold x'. rewrite row_map_length. apply Nat.mul_comm. }
  destruct (proj2 (HA w x' (turned d M p) groups F' Ne) (proj1 (HA w x p groups F Ne) (ex_intro _ v E))) as (v' & E').
  rewrite E'. f_equal. pose proof (OA s fo groups w x' _ v' Es Eo E') as E1. rewrite (HF w x' _ groups F' Ne) in E1. apply Ret_inj in E1.
  rewrite <- E1, <- E0.
  apply (message_moves d groups n m (fun r c q => drawn size elements first outs infos w q r c) M (dg size rho first) (dg size rho outs) (dg size rho (copies groups first)) x p); auto.
  - apply dg_repeat.
  - rewrite Eo at 2. rewrite Eo. rewrite copies_size. apply repeats_blocks with (B := dg size rho fo); [exact L3|]. apply dg_repeat.
  - apply drawn_steers; [exact HS|]. intros k f Hk. exact (proj1 (Hd k f Hk)).
Qed.
End Messages.

Lemma cloud_transform_go : forall d base g M ft rows coords rho, fiber_matrix rep ft g = Ret rho -> base g = Ret (d, M) ->
  Forall (fun p => length p = d) coords -> length rows = length coords -> Forall (fun v => length v = type_size size ft) rows ->
  cloud_transform rep base g {| cl_type := ft; cl_rows := rows; cl_coords := coords |} =
    Ret {| cl_type := ft; cl_rows := map (row_map (type_size size ft) (type_size size ft) rho) rows; cl_coords := map (turned d M) coords |} /\
  mk_cloud rep d ft (map (row_map (type_size size ft) (type_size size ft) rho) rows) (map (turned d M) coords) =
    Ret {| cl_type := ft; cl_rows := map (row_map (type_size size ft) (type_size size ft) rho) rows; cl_coords := map (turned d M) coords |}.
Proof.
  intros d base g M ft rows coords rho Er Eb Lc Ln Lr.
  assert (G : mk_cloud rep d ft (map (row_map (type_size size ft) (type_size size ft) rho) rows) (map (turned d M) coords) =
    Ret {| cl_type := ft; cl_rows := map (row_map (type_size size ft) (type_size size ft) rho) rows; cl_coords := map (turned d M) coords |}).
  { apply mk_cloud_go.
    - apply Forall_map, Forall_forall. intros p _. apply turned_length.
    - rewrite !map_length. exact Ln.
    - apply Forall_map, Forall_forall. intros v _. apply row_map_length. }
  split; [|exact G]. unfold cloud_transform. cbn [cl_type cl_rows cl_coords]. rewrite Er, Eb. cbn [bind fst snd].
  rewrite (proj2 (rows_of_ok _ _) Lr), (proj2 (rows_of_ok _ _) Lc). cbn [assert_ bind]. exact G.
Qed.

Theorem pointconv_commutes : forall base irr mem op e tid ins outs d groups bias c g M w b rows coords x edges dl y,
  (forall i, irr tid = Ret i -> trivial_rep mem (gi_size i) (gi_rep i)) ->
  Forall (fun a => proper irr mem op e (rep a)) ins -> Forall (fun a => proper irr mem op e (rep a)) outs ->
  (forall a, In a ins -> dotless (name a)) -> (forall a, In a outs -> dotless (name a)) ->
  (forall a a', In a ins -> In a' ins -> name a = name a' -> a = a') -> (forall a a', In a outs -> In a' outs -> name a = name a' -> a = a') ->
  Forall (fun a => (0 < size a)%nat) ins -> Forall (fun a => (0 < size a)%nat) outs ->
  (forall i o, In i ins -> In o outs -> exists k, generator i o = Ret k /\ forall kb, k = Some kb -> kb_out kb = size o /\ kb_in kb = size i) ->
  mem g -> base g = Ret (d, M) ->
  (forall i o kb el, In i ins -> In o outs -> generator i o = Ret (Some kb) -> In el (kb_elements kb) ->
     steerable_on d (size o) (size i) M (value_at g (rep i)) (value_at g (rep o)) (el_sample el)) ->
  mk_pointconv rep name aeqb order sort irr tid generator ins outs d groups bias bf = Ret c ->
  mk_cloud rep d ins rows coords = Ret x -> forward c w b x edges dl = Ret y ->
  exists x' y', cloud_transform rep base g x = Ret x' /\ cloud_transform rep base g y = Ret y' /\
    forward c w b x' edges (option_map (map (turned d M)) dl) = Ret y'.
Proof.
  intros base irr mem op e tid ins outs d groups bias c g M w b rows coords x edges dl y Tr Pin Pout Din Dout Nin Nout Sin Sout Gen Hg EM HS Ec Ex Hy.
  destruct (mk_pointconv_inv _ _ _ _ _ _ _ _ Ec) as (first & mb & s & Em & Es & Nz & Hfi & Hgr & ->).
  set (c := {| pt_in := ins; pt_out := outs; pt_d := d; pt_groups := groups; pt_bias := mb; pt_sampler := s |}) in *.
  assert (Val : forall ft, Forall (fun a => proper irr mem op e (rep a)) ft -> Forall (fun a => exists C, r_fun (rep a) g = Ret (size a, C)) ft).
  { intros ft. apply Forall_impl. intros a (_ & _ & _ & _ & R). destruct (R g Hg) as (_ & C & _ & _ & E & _). exists C. exact E. }
  set (rho := fun a => value_at g (rep a)) in *.
  pose proof (fiber_matrix_ok rep ins g (Val _ Pin)) as Fi. pose proof (fiber_matrix_ok rep outs g (Val _ Pout)) as Fo. fold rho in Fi, Fo.
  pose proof (mk_cloud_inv rep d ins rows coords x Ex) as (Xe & Lc & Ln & Lr).
  pose proof (proj1 (forward_iff rep name aeqb aeqb_ok c w b rows coords x edges dl y Ex) Hy) as (Rn & Ye).
  destruct (cloud_transform_go d base g M ins rows coords _ Fi EM Lc Ln Lr) as (Tx & Kx). rewrite <- Xe in Tx.
  set (rows' := map (row_map (type_size size ins) (type_size size ins) (dg size rho ins)) rows) in *.
  set (coords' := map (turned d M) coords) in *.
  assert (Lo : Forall (fun v => length v = type_size size outs) (cl_rows y)).
  { rewrite Ye. cbn [cl_rows]. unfold result. apply Forall_map, Forall_forall. intros i _. apply (biased_length rep c), mean_rows_length. }
  assert (Lny : length (cl_rows y) = length coords) by (rewrite Ye; cbn [cl_rows]; unfold result; rewrite map_length, seq_length; exact Ln).
  destruct (cloud_transform_go d base g M outs (cl_rows y) coords _ Fo EM Lc Lny Lo) as (Ty & _).
  assert (Ey : y = {| cl_type := outs; cl_rows := cl_rows y; cl_coords := coords |}) by (rewrite Ye; reflexivity). rewrite <- Ey in Ty.
  eexists; eexists. split; [exact Tx|]. split; [exact Ty|].
  (* the displacements *)
  assert (Gp : (0 < groups)%nat).
  { destruct Rn as (B & Ld & Ne & Ms). destruct edges as [|ed0 edges]; [contradiction|]. destruct (steps_of c x (ed0 :: edges) dl) as [|t0 ts]; [discriminate|].
    destruct (Ms (ed0, t0) ltac:(left; reflexivity)) as (v & Ev). unfold msg, pt_message in Ev. apply assert_Ret in Ev as (_ & Ev). unfold compute_messages in Ev. cbn [pt_groups c] in Ev.
    apply assert_Ret in Ev as (_ & Ev). apply assert_Ret in Ev as (_ & Ev). apply assert_Ret in Ev as (Ev & _). apply negb_true_iff, Nat.eqb_neq in Ev. lia. }
  destruct (Hgr Gp) as (Egi & fo & Ego).
  assert (Si : type_size size ins = (groups * type_size size first)%nat) by (rewrite Egi at 1; apply copies_size).
  assert (St : steps_of c {| cl_type := ins; cl_rows := rows'; cl_coords := coords' |} edges (option_map (map (turned d M)) dl) = map (turned d M) (steps_of c x edges dl)).
  { unfold steps_of. destruct dl as [l|]; [reflexivity|]. cbn [option_map]. rewrite Xe. cbn [cl_coords pt_d c]. unfold along_edges. rewrite map_map. apply map_ext_in. intros ed He.
    destruct Rn as (B & _). unfold between in B. rewrite Forall_forall in B. destruct (B ed He) as [B1 B2]. rewrite Ln in B1, B2. unfold coords'.
    assert (N : forall k, (k < length coords)%nat -> nth k (map (turned d M) coords) [] = turned d M (nth k coords [])).
    { intros k Hk. rewrite (nth_indep _ [] (turned d M [])) by (rewrite map_length; exact Hk). apply map_nth. }
    rewrite !N by assumption. apply offset_turned. }
  (* the messages *)
  assert (MS : forall ed v, In ed (List.combine edges (steps_of c x edges dl)) -> msg rep name c w rows ed = Ret v ->
    length v = type_size size outs /\ msg rep name c w rows' (fst ed, turned d M (snd ed)) = Ret (row_map (type_size size outs) (type_size size outs) (dg size rho outs) v)).
  { intros [ed t] v He Ev. unfold msg, pt_message in Ev |- *. cbn [fst snd pt_d pt_sampler pt_groups c] in Ev |- *. apply assert_Ret in Ev as (Lt & Ev). apply Nat.eqb_eq in Lt.
    destruct Rn as (B & _). unfold between in B. rewrite Forall_forall in B. destruct (B ed (in_combine_l _ _ _ _ He)) as [B1 _].
    destruct (messages_commute first outs) with (s := s) (d := d) (M := M) (rho := rho) (groups := groups) (fo := fo) (w := w) (x := nth (fst ed) rows []) (p := t) (v := v) as (Lv & Ev'); auto.
    - rewrite Forall_forall in Sin |- *. auto.
    - intros i o kb el Hi Ho. apply HS; auto.
    - split; [exact Lv|]. rewrite turned_length, Nat.eqb_refl. cbn [assert_ bind].
      assert (nth (fst ed) rows' [] = row_map (groups * type_size size first) (groups * type_size size first) (dg size rho (copies groups first)) (nth (fst ed) rows [])) as ->; [|exact Ev'].
      unfold rows'. rewrite (nth_indep _ [] (row_map (type_size size ins) (type_size size ins) (dg size rho ins) [])) by (rewrite map_length; exact B1). rewrite map_nth, Si, <- Egi. reflexivity. }
  apply (forward_iff rep name aeqb aeqb_ok c w b rows' coords' _ edges _ _ Kx). rewrite St.
  assert (Cm : forall (l : list (nat * nat)) l', List.combine l (map (turned d M) l') = map (fun ed => (fst ed, turned d M (snd ed))) (List.combine l l')).
  { induction l as [|a l IH]; intros [|t l']; try reflexivity. cbn. rewrite IH. reflexivity. }
  rewrite Cm. set (eds := List.combine edges (steps_of c x edges dl)) in *.
  destruct Rn as (B & Ld & Ne & Ms). fold eds in Ms. split.
  - unfold runs. rewrite Cm. fold eds. unfold rows' at 1. rewrite !map_length. split; [exact B|]. split; [exact Ld|]. split; [exact Ne|].
    intros ed He. apply in_map_iff in He. destruct He as (ed0 & <- & He). destruct (Ms ed0 He) as (v & Ev). eexists. exact (proj2 (MS ed0 v He Ev)).
  - f_equal. rewrite Ye. cbn [cl_rows]. unfold result. unfold rows' at 2. rewrite map_length, map_map. apply map_ext. intros i. fold eds.
    assert (Ent : forall l, entering i (map (fun ed : (nat * nat) * list R => (fst ed, turned d M (snd ed))) l) = map (fun ed => (fst ed, turned d M (snd ed))) (entering i l)).
    { unfold entering. induction l as [|a l IH]; [reflexivity|]. cbn [map filter fst]. destruct (Nat.eqb (snd (fst a)) i); cbn [map]; rewrite IH; reflexivity. }
    rewrite Ent, map_map. cbn [pt_out c].
    assert (Em' : map (fun ed => msg_of rep name c w rows' (fst ed, turned d M (snd ed))) (entering i eds) =
      map (row_map (type_size size outs) (type_size size outs) (dg size rho outs)) (map (msg_of rep name c w rows) (entering i eds))).
    { rewrite map_map. apply map_ext_in. intros ed He. unfold entering in He. apply filter_In in He. destruct He as [He _]. destruct (Ms ed He) as (v & Ev).
      unfold msg_of. rewrite (proj2 (MS ed v He Ev)), Ev. reflexivity. }
    rewrite Em', mean_rows_linear.
    2:{ apply Forall_map, Forall_forall. intros ed He. unfold entering in He. apply filter_In in He. destruct He as [He _]. destruct (Ms ed He) as (v & Ev). unfold msg_of. rewrite Ev. exact (proj1 (MS ed v He Ev)). }
    set (r := mean_rows (type_size size outs) (map (msg_of rep name c w rows) (entering i eds))). unfold biased. cbn [pt_out pt_bias c].
    destruct (expand_bias (map rep outs) mb b) as [v|] eqn:Eb; [|reflexivity].
    pose proof (expand_bias_length rep outs mb b v Eb) as Lv. assert (Lr' : length r = type_size size outs) by (unfold r; apply mean_rows_length).
    apply row_ext; [rewrite row_add_length, !row_map_length by (rewrite row_map_length; congruence); reflexivity|].
    intros k Hk. rewrite row_map_length in Hk.
    rewrite row_add_nth by (rewrite row_map_length; congruence). rewrite !row_map_nth by exact Hk.
    rewrite <- (fixed_sum rep (value_at g) outs v) with (o := k) at 1; [|clear Hk|exact Hk].
    + rewrite <- sumn_plus. apply sumn_ext. intros j Hj. rewrite row_add_nth by congruence. unfold rho. ring.
    + apply (bias_invariant_ok T irr mem op e tid bias (map rep outs) mb b v g (value_at g)); auto.
      * apply Forall_map. exact Pout.
      * intros q Hq. apply in_map_iff in Hq. destruct Hq as (a & <- & Ha). specialize (Val _ Pout). rewrite Forall_forall in Val. destruct (Val a Ha) as (C & EC).
        unfold value_at. rewrite EC. reflexivity.
Qed.
End Layer.
