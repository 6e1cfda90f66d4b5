(** Proofs about SamplerModel: the theorems on messages. *)
From Coq Require Import String Ascii.
From Coq Require Import List ZArith Arith Bool Reals Lia Lra Permutation Sorted.
From Verif Require Import LibRes LibPy LibMat FieldModel SpecField FieldProofs BranchProofs LabelThms MergeThms GroupedModel GroupedProofs PoolProofs BlocksModel SpecBlocks BlocksProofs BlocksThms BlocksInfo BlocksPlan BlocksFwd BlocksValue BlocksCor SamplerModel SpecSampler SamplerProofs SamplerThms.
Import ListNotations.
Local Open Scope nat_scope.

Section Ranks.
Context {A : Type}.
Variable name : A -> string.
Lemma carrying_ok : forall ft l, carrying name ft l = count name ft l.
Proof. intros ft l. unfold carrying, count, nfields. induction ft as [|r ft IH]; [reflexivity|]. cbn [map filter]. destruct (String.eqb (name r) l); cbn [List.length]; rewrite IH; reflexivity. Qed.
Lemma carrying_app : forall a b l, carrying name (a ++ b) l = carrying name a l + carrying name b l.
Proof. intros. unfold carrying. rewrite filter_app, app_length. reflexivity. Qed.
Lemma rank_ok : forall ft l k o, nth_error (labelled String.eqb (map name ft) l) k = Some o -> k = earlier name ft o l.
Proof.
  induction ft as [|r ft IH]; intros l k o H; [destruct k; discriminate|]. cbn [map] in H. rewrite labelled_cons in H.
  assert (forall j, nth_error (map S (labelled String.eqb (map name ft) l)) j = Some o -> exists o', o = S o' /\ j = earlier name ft o' l) as G.
  { intros j Hj. rewrite nth_error_map in Hj. destruct (nth_error (labelled String.eqb (map name ft) l) j) as [o'|] eqn:E; [|discriminate]. cbn in Hj. injection Hj as <-. exists o'. split; [reflexivity|apply IH, E]. }
  unfold earlier. destruct (String.eqb (name r) l) eqn:E; cbn [app] in H.
  - destruct k as [|k]; cbn [nth_error] in H; [injection H as <-; reflexivity|]. apply G in H. destruct H as (o' & -> & ->). cbn [firstn filter]. rewrite E. reflexivity.
  - apply G in H. destruct H as (o' & -> & ->). cbn [firstn filter]. rewrite E. reflexivity.
Qed.
Variable size : A -> nat.
(** fields of a type made of copies *)
Lemma start_app : forall (a b : list A) o, List.length a <= o -> field_start size (a ++ b) o = type_size size a + field_start size b (o - List.length a).
Proof.
  intros a b o H. unfold field_start, type_size. rewrite firstn_app, firstn_all2 by lia. rewrite map_app, list_sum_app. reflexivity.
Qed.
Lemma start_app_l : forall (a b : list A) o, o <= List.length a -> field_start size (a ++ b) o = field_start size a o.
Proof. intros a b o H. unfold field_start. rewrite firstn_app. replace (o - List.length a) with 0 by lia. rewrite app_nil_r. reflexivity. Qed.
Lemma copies_size : forall g period, type_size size (copies g period) = g * type_size size period.
Proof. induction g as [|g IH]; intros period; [reflexivity|]. unfold copies. cbn [repeat concat]. unfold type_size in *. rewrite map_app, list_sum_app. fold (copies g period). rewrite IH. reflexivity. Qed.
Lemma copies_carrying : forall g period l, carrying name (copies g period) l = g * carrying name period l.
Proof. induction g as [|g IH]; intros period l; [reflexivity|]. unfold copies. cbn [repeat concat]. rewrite carrying_app. fold (copies g period). rewrite IH. reflexivity. Qed.
Lemma earlier_lt : forall ft o r, nth_error ft o = Some r -> earlier name ft o (name r) < carrying name ft (name r).
Proof.
  intros ft o r E. rewrite <- (firstn_skipn o ft) at 2. rewrite carrying_app. unfold earlier, carrying at 2.
  pose proof (nth_error_split ft o E) as (a & b & -> & <-). replace (skipn (List.length a) (a ++ r :: b)) with (r :: b) by (rewrite skipn_app, skipn_all, Nat.sub_diag; reflexivity).
  cbn [filter]. rewrite String.eqb_refl. cbn [List.length]. unfold carrying. lia.
Qed.
Lemma start_le : forall (ft : list A) o r, nth_error ft o = Some r -> field_start size ft o + size r <= type_size size ft.
Proof.
  induction ft as [|x ft IH]; intros o r E; [destruct o; discriminate|]. destruct o as [|o].
  - cbn in E. injection E as ->. unfold field_start, type_size. cbn. lia.
  - specialize (IH o r E). unfold field_start, type_size in *. cbn [firstn map list_sum fold_right] in *. unfold list_sum in *. lia.
Qed.
Lemma copies_group : forall g period o r c, nth_error (copies g period) o = Some r -> field_start size (copies g period) o <= c < field_start size (copies g period) o + size r ->
  earlier name (copies g period) o (name r) / carrying name period (name r) = c / type_size size period.
Proof.
  induction g as [|g IH]; intros period o r c E B; [destruct o; discriminate|]. change (copies (S g) period) with (period ++ copies g period) in *.
  destruct (le_lt_dec (List.length period) o) as [L|L].
  - rewrite nth_error_app2 in E by exact L. rewrite start_app in B by exact L.
    assert (nth_error period 0 <> None \/ period = []) as [Np| ->] by (destruct period; [right; reflexivity|left; discriminate]).
    2:{ exfalso. clear - E. assert (forall g, copies g (@nil A) = []) as K by (induction g0; [reflexivity|exact IHg0]). rewrite K in E. destruct (o - List.length (@nil A)); discriminate. }
    assert (In r period) as Ir. { apply nth_error_In in E. unfold copies in E. apply in_concat in E. destruct E as (l & Hl & Hr). apply repeat_spec in Hl. subst l. exact Hr. }
    destruct (In_nth_error _ _ Ir) as (s & Es). pose proof (earlier_lt _ _ _ Es) as Lc. pose proof (start_le _ _ _ Es) as Ls.
    assert (earlier name (period ++ copies g period) o (name r) = carrying name period (name r) + earlier name (copies g period) (o - List.length period) (name r)) as ->.
    { unfold earlier. rewrite firstn_app, firstn_all2, filter_app, app_length by lia. reflexivity. }
    set (k := carrying name period (name r)) in *. set (z := type_size size period) in *.
    replace (k + earlier name (copies g period) (o - List.length period) (name r)) with (earlier name (copies g period) (o - List.length period) (name r) + 1 * k) by lia.
    rewrite Nat.div_add by lia. assert (0 < z) by lia. replace c with (c - z + 1 * z) by lia. rewrite Nat.div_add by lia. f_equal. apply IH; [exact E|lia].
  - rewrite nth_error_app1 in E by exact L. rewrite start_app_l in B by lia. pose proof (start_le _ _ _ E). rewrite (Nat.div_small c) by lia. apply Nat.div_small.
    unfold earlier. rewrite firstn_app. replace (o - List.length period) with 0 by lia. cbn [firstn]. rewrite app_nil_r. apply (earlier_lt _ _ _ E).
Qed.
(** channels in one run *)
Lemma chans_In : forall ft l c, In c (chans_of name size ft l) <-> exists o r, nth_error ft o = Some r /\ name r = l /\ field_start size ft o <= c < field_start size ft o + size r.
Proof.
  intros ft l c. unfold chans_of. rewrite chan_list_In. split.
  - intros (i & Hi & B). apply (BranchProofs.labelled_In String.eqb string_eqb_ok), name_at in Hi. destruct Hi as (r & E & N). exists i, r. rewrite (offset_S size ft i r E) in B. auto.
  - intros (o & r & E & N & B). exists o. rewrite (offset_S size ft o r E). split; [|exact B]. apply (BranchProofs.labelled_In String.eqb string_eqb_ok), name_at. eauto.
Qed.
Lemma one_run_ok : forall ft l, Forall (fun r => 0 < size r) ft -> In l (map name ft) -> one_run name size ft l <-> exists a k, 0 < k /\ chans_of name size ft l = seq a k.
Proof.
  intros ft l Pos Hl. split.
  - intros (a & k & H). apply in_map_iff in Hl. destruct Hl as (r & N & Hr). destruct (In_nth_error _ _ Hr) as (o & E). rewrite Forall_forall in Pos. specialize (Pos r Hr).
    assert (a <= field_start size ft o < a + k) as B by (apply H; exists o, r; repeat split; auto; lia).
    exists a, k. split; [lia|]. apply increasing_eq; [apply chan_list_increasing, labelled_increasing|apply seq_increasing|]. intros c. rewrite chans_In, in_seq. symmetry. apply H.
  - intros (a & k & _ & E). exists a, k. intros c. rewrite <- chans_In, E, in_seq. reflexivity.
Qed.
End Ranks.

Section Sampler.
Context {A X P : Type}.
Variable name : A -> string.
Variables size nirreps : A -> nat.
Variable aeqb : A -> A -> bool.
Variable order : list A -> list A.
Variable sort : list (string * string) -> list (string * string).
Variable generator : A -> A -> res (option (kbasis X P)).
Variable bf : option (attr X -> bool).
Variables ins outs : list A.
Hypothesis aeqb_ok : forall a b, aeqb a b = true <-> a = b.
Hypothesis order_ok : forall l, Permutation (order l) l.
Hypothesis sort_ok : forall l, Permutation (sort l) l.
Hypothesis dots_in : forall a, In a ins -> dotless (name a).
Hypothesis dots_out : forall a, In a outs -> dotless (name a).
Hypothesis names_in : forall a b, In a ins -> In b ins -> name a = name b -> a = b.
Hypothesis names_out : forall a b, In a outs -> In b outs -> name a = name b -> a = b.
Hypothesis sizes_in : Forall (fun r => 0 < size r) ins.
Hypothesis sizes_out : Forall (fun r => 0 < size r) outs.
Hypothesis generator_ok : forall i o, In i ins -> In o outs ->
  exists k, generator i o = Ret k /\ forall kb, k = Some kb -> kb_out kb = size o /\ kb_in kb = size i.
Notation elements := (scaled_elements generator bf).
Notation n := (type_size size ins).
Notation m := (type_size size outs).

Lemma all_equal_ok : forall l : list A, all_equal aeqb l = true <-> forall a b, In a l -> In b l -> a = b.
Proof.
  intros [|x l]; [split; [intros _ a b []|reflexivity]|]. unfold all_equal. rewrite forallb_forall. split.
  - intros H a b Ha Hb. transitivity x; [|symmetry]; apply aeqb_ok, H; assumption.
  - intros H a Ha. apply aeqb_ok, H; [exact Ha|left; reflexivity].
Qed.
Lemma set_length : forall l, l <> [] -> List.length (as_set aeqb order l) = 1 <-> forall a b, In a l -> In b l -> a = b.
Proof.
  intros l Ne. split.
  - intros H. apply (one_set aeqb order aeqb_ok order_ok l H).
  - intros H. pose proof (as_set_NoDup aeqb order aeqb_ok order_ok l) as ND. pose proof (as_set_In aeqb order aeqb_ok order_ok l) as I.
    destruct (as_set aeqb order l) as [|x [|y t]]; [exfalso|reflexivity|exfalso].
    + destruct l as [|x l]; [contradiction|]. apply (proj2 (I x)). left. reflexivity.
    + apply NoDup_cons_iff in ND. destruct ND as [N _]. apply N. left. apply H; apply I; [right; left|left]; reflexivity.
Qed.
Lemma set_empty : List.length (as_set aeqb order []) = 0.
Proof. pose proof (as_set_In aeqb order aeqb_ok order_ok []) as I. destruct (as_set aeqb order []) as [|x t]; [reflexivity|]. exfalso. apply (proj1 (I x)). left. reflexivity. Qed.

Lemma constructed : exists s ps kp sg v c, mk_sampler name size aeqb order sort ins outs generator bf = Ret s /\
  (sm_uniform s = true <-> one_kind ins /\ one_kind outs) /\ planned plain name size ins outs elements (sm_blocks s) ps kp sg v c /\
  (sm_uniform s = true -> bb_npairs (sm_blocks s) = 1).
Proof.
  destruct (build_planned plain (fun p => p) (fun kb => block_basissampler kb bf) (skept bf) (the_sampler bf) name size aeqb order sort generator ins outs aeqb_ok order_ok sort_ok)
    as (b & ps & kp & sg & v & c & Eb & En & PL); try assumption.
  - intros kb. apply sampler_block_ok.
  - intros kb. split; [apply sampler_holds|]. split; reflexivity.
  - intros [a b] H1 H2. apply plain_ok; cbn [fst snd names] in *; auto.
  - intros [a b] [a' b'] H1 H2 H3 H4 E. unfold names in E. cbn [fst snd] in *. injection E as E1 E2. f_equal; auto.
  - unfold mk_sampler. rewrite Eb. cbn [bind].
    assert (all_equal aeqb ins && all_equal aeqb outs = true -> bb_npairs b <= 1) as Le.
    { intros H. apply andb_true_iff in H. destruct H as [H1 H2]. pose proof (proj1 (all_equal_ok _) H1) as H1'. pose proof (proj1 (all_equal_ok _) H2) as H2'. rewrite En.
      assert (forall l, (forall a b, In a l -> In b l -> a = b) -> List.length (as_set aeqb order l) <= 1) as G.
      { intros [|x l] H; [rewrite set_empty; lia|]. rewrite (proj2 (set_length (x :: l) ltac:(discriminate)) H). lia. }
      change 1 with (1 * 1). apply Nat.mul_le_mono; apply G; assumption. }
    assert (negb (all_equal aeqb ins && all_equal aeqb outs) || Nat.leb (bb_npairs b) 1 = true) as ->.
    { destruct (all_equal aeqb ins && all_equal aeqb outs); [|reflexivity]. cbn [negb orb]. apply Nat.leb_le, Le. reflexivity. }
    cbn [assert_ bind]. eexists. exists ps, kp, sg, v, c. split; [reflexivity|]. cbn [sm_blocks sm_uniform]. split; [|split].
    + rewrite !andb_true_iff, !all_equal_ok, Nat.eqb_eq, En. unfold one_kind. split.
      * intros [[H1 H2] H3]. apply Nat.eq_mul_1 in H3. destruct H3 as [H3 H4]. split; (split; [intros ->; rewrite set_empty in *; discriminate|assumption]).
      * intros [[N1 H1] [N2 H2]]. split; [auto|]. rewrite (proj2 (set_length ins N1) H1), (proj2 (set_length outs N2) H2). reflexivity.
    + exact PL.
    + intros H. apply andb_true_iff in H. apply Nat.eqb_eq, H.
Qed.

Notation fits s := (fitting (bb_dim (sm_blocks s)) n m).
Notation drawn := (SpecSampler.drawn size elements ins outs).
Theorem messages_ok : exists s infos,
  mk_sampler name size aeqb order sort ins outs generator bf = Ret s /\
  basis_info plain name nirreps (sm_blocks s) = Ret infos /\ List.length infos = bb_dim (sm_blocks s) /\
  (forall k f, nth_error infos k = Some f ->
     describes name nirreps elements ins outs k f /\ element_info plain name nirreps (sm_blocks s) (Z.of_nat k) = Ret f) /\
  (forall z, (z < 0 \/ Z.of_nat (bb_dim (sm_blocks s)) <= z)%Z -> element_info plain name nirreps (sm_blocks s) z = Raise) /\
  NoDup (map slot infos) /\
  (forall o i j ro ri, nth_error outs o = Some ro -> nth_error ins i = Some ri -> j < List.length (elements ri ro) -> In (o, i, j) (map slot infos)) /\
  (forall w, List.length w = List.length infos -> (one_kind ins /\ one_kind outs -> infos <> []) -> exists F, sampler_filter name size s w = Ret F /\
     forall r c pt, r < m -> c < n -> F r c pt = drawn infos w pt r c) /\
  (forall w x pt cf groups msg, compute_messages name size s w x pt cf groups = Ret msg -> fits s w x groups /\ (one_kind ins /\ one_kind outs -> infos <> []) /\ List.length msg = m) /\
  (forall w x pt groups, fits s w x groups -> (one_kind ins /\ one_kind outs -> infos <> []) ->
     compute_messages name size s w x pt false groups = Ret (map (fun r => row_message n (drawn infos w pt) x r (r / (m / groups))) (seq 0 m))) /\
  (forall w x pt groups, fits s w x groups -> (one_kind ins /\ one_kind outs -> infos <> []) ->
     (exists msg, compute_messages name size s w x pt true groups = Ret msg) <->
     forall i o, In i ins -> In o outs -> elements i o <> [] -> carrying name outs (name o) mod groups = 0 /\
       (one_kind ins /\ one_kind outs \/ groups = 1 \/ ~ (one_run name size ins (name i) /\ one_run name size outs (name o)))) /\
  (forall w x pt groups msg, compute_messages name size s w x pt true groups = Ret msg ->
     forall o ro r, nth_error outs o = Some ro -> field_start size outs o <= r < field_start size outs o + size ro ->
       nth r msg 0%R = row_message n (drawn infos w pt) x r (earlier name outs o (name ro) / (carrying name outs (name ro) / groups))).
Proof.
  destruct constructed as (s & ps & kp & sg & v & c & Es & EU & PL & UN). exists s.
  destruct (planned_ok 1 plain name size nirreps ins outs elements (sm_blocks s) ps kp sg v c PL) as (infos & EI & LI & HD & HO & HN & HA & _).
  exists infos. assert (infos = BlocksPlan.infos name nirreps ins outs ps kp) as EQ.
  { pose proof PL as PL'. destruct PL'. eapply Ret_inj. rewrite <- EI. eapply basis_info_ok; eassumption. }
  assert (infos <> [] <-> ps <> []) as NE.
  { split; intros H K; apply H.
    - pose proof (pl_dim _ _ _ _ _ _ _ _ _ _ _ _ PL) as D. rewrite K in D. cbn in D. rewrite D in LI. destruct infos; [reflexivity|discriminate].
    - destruct ps as [|p l] eqn:Eps; [reflexivity|]. exfalso. rewrite <- Eps in *. eapply dim_pos; [exact PL|rewrite Eps; discriminate|]. rewrite <- LI, K. reflexivity. }
  assert ((one_kind ins /\ one_kind outs -> infos <> []) <-> (sm_uniform s = true -> ps <> [])) as NU by (rewrite EU, NE; reflexivity).
  assert (forall w x pt cf groups, fits s w x groups -> compute_messages name size s w x pt cf groups =
    (if (cf : bool) then compute_then_expand name size s w x pt groups else expand_then_compute name size s w x pt groups)) as Go.
  { intros w x pt cf groups (L1 & L2 & L3 & L4). unfold compute_messages. unfold input_size, output_size. rewrite (pl_in _ _ _ _ _ _ _ _ _ _ _ _ PL), (pl_out _ _ _ _ _ _ _ _ _ _ _ _ PL).
    rewrite L1, L2, L4, !Nat.eqb_refl. cbn [assert_ bind]. destruct groups; [lia|]. reflexivity. }
  assert (forall w x pt cf groups msg, compute_messages name size s w x pt cf groups = Ret msg -> fits s w x groups) as Fit.
  { intros w x pt cf groups msg H. unfold compute_messages in H. unfold input_size, output_size in H. rewrite (pl_in _ _ _ _ _ _ _ _ _ _ _ _ PL), (pl_out _ _ _ _ _ _ _ _ _ _ _ _ PL) in H.
    apply assert_Ret in H. destruct H as [H1 H]. apply assert_Ret in H. destruct H as [H2 H]. apply assert_Ret in H. destruct H as [H3 H]. apply assert_Ret in H. destruct H as [H4 H].
    apply Nat.eqb_eq in H1, H2, H4. destruct groups; [discriminate|]. split; [exact H1|]. split; [exact H2|]. split; [lia|exact H4]. }
  assert (forall w x pt groups, fits s w x groups -> (one_kind ins /\ one_kind outs -> infos <> []) ->
     compute_messages name size s w x pt false groups = Ret (map (fun r => row_message n (drawn infos w pt) x r (r / (m / groups))) (seq 0 m))) as First.
  { intros w x pt groups F Ne. rewrite Go by exact F. destruct F as (L1 & L2 & L3 & L4). unfold SpecSampler.drawn. rewrite LI, EQ. eapply then_compute_ok; try eassumption. apply NU, Ne. }
  repeat match goal with |- _ /\ _ => split end; try assumption.
  - intros w Lw Ne. unfold SpecSampler.drawn. rewrite LI, EQ. rewrite LI in Lw. eapply filter_ok; try eassumption. apply NU, Ne.
  - intros w x pt cf groups msg E. pose proof (Fit _ _ _ _ _ _ E) as F. split; [exact F|].
    assert (one_kind ins /\ one_kind outs -> infos <> []) as Ne.
    { apply NU. intros HU K. rewrite Go in E by exact F. destruct cf.
      - destruct F as (L1 & L2 & L3 & L4). destruct (then_expand_ok name size nirreps ins outs elements s ps kp sg v c PL UN w x pt groups L1 L2 L3) as [[Q _]|(G & Q & [Q1 _] & _)]; [congruence|exact (Q1 HU K)].
      - rewrite (then_compute_raise name size ins outs elements s ps kp sg v c PL w x pt groups HU K) in E. discriminate. }
    split; [exact Ne|]. rewrite Go in E by exact F. destruct F as (L1 & L2 & L3 & L4). destruct cf.
    + destruct (then_expand_ok name size nirreps ins outs elements s ps kp sg v c PL UN w x pt groups L1 L2 L3) as [[Q _]|(G & Q & _ & _)]; [congruence|]. rewrite Q in E. apply Ret_inj in E. rewrite <- E, map_length, seq_length. reflexivity.
    + unfold expand_then_compute in E. apply bind_Ret in E. destruct E as (f & _ & E). apply assert_Ret in E. destruct E as [_ E]. apply assert_Ret in E. destruct E as [E0 E]. apply Ret_inj in E. rewrite <- E, map_length, seq_length.
      unfold output_size. rewrite (pl_out _ _ _ _ _ _ _ _ _ _ _ _ PL). pose proof (Nat.div_mod m groups ltac:(lia)) as DM. lia.
  - intros w x pt groups F Ne. rewrite Go by exact F. destruct F as (L1 & L2 & L3 & L4). pose proof (proj1 NU Ne) as Ne'.
    assert (((sm_uniform s = true -> ps <> []) /\ forall p, In p ps -> count name outs (snd p) mod groups = 0 /\ (sm_uniform s = false -> c p = true -> groups = 1)) <->
      forall i o, In i ins -> In o outs -> elements i o <> [] -> carrying name outs (name o) mod groups = 0 /\
       (one_kind ins /\ one_kind outs \/ groups = 1 \/ ~ (one_run name size ins (name i) /\ one_run name size outs (name o)))) as Eq.
    { split.
      - intros [_ H] i o Hi Ho Nel. pose proof (pl_all _ _ _ _ _ _ _ _ _ _ _ _ PL i o Hi Ho Nel) as Hp. destruct (H _ Hp) as [H1 H2]. cbn [snd] in H1. split; [rewrite carrying_ok; exact H1|].
        destruct (bool_dec (sm_uniform s) true) as [U|U]; [left; apply EU, U|]. apply not_true_is_false in U. right. destruct (Nat.eq_dec groups 1) as [G|G]; [left; exact G|]. right. intros [R1 R2]. apply G, H2; [exact U|].
        apply (pl_both _ _ _ _ _ _ _ _ _ _ _ _ PL _ Hp); apply one_run_ok; try assumption; cbn [fst snd]; apply in_map; assumption.
      - intros H. split; [exact Ne'|]. intros p Hp. destruct (pl_real _ _ _ _ _ _ _ _ _ _ _ _ PL p Hp) as [Ri Ro]. apply in_map_iff in Ri. destruct Ri as (ri & Ni & Ii). apply in_map_iff in Ro. destruct Ro as (ro & No & Io).
        assert (p = (name ri, name ro)) as Ep by (destruct p; cbn [fst snd] in *; congruence).
        destruct (H ri ro Ii Io) as [H1 H2]. { rewrite (pl_el _ _ _ _ _ _ _ _ _ _ _ _ PL p ri ro Hp Ii Io Ep). apply (pl_kept _ _ _ _ _ _ _ _ _ _ _ _ PL p Hp). }
        rewrite carrying_ok, No in H1. split; [exact H1|]. intros U Ec. destruct H2 as [K|[K|K]]; [apply EU in K; congruence|exact K|]. exfalso. apply K.
        destruct (pl_run _ _ _ _ _ _ _ _ _ _ _ _ PL p Hp Ec) as (ai & ki & ao & ko & Pi & Po & Ei & Eo & _). rewrite Ni, No.
        destruct (pl_real _ _ _ _ _ _ _ _ _ _ _ _ PL p Hp) as [Ri Ro]. split; apply one_run_ok; try assumption; eauto. }
    rewrite <- Eq. destruct (then_expand_ok name size nirreps ins outs elements s ps kp sg v c PL UN w x pt groups L1 L2 L3) as [[Q Nq]|(G & Q & Yq & _)].
    + split; [intros (msg & K); congruence|intros K; contradiction].
    + split; [intros _; exact Yq|intros _; eauto].
  - intros w x pt groups msg E o ro r Eo Br. pose proof (Fit _ _ _ _ _ _ E) as F. rewrite Go in E by exact F. destruct F as (L1 & L2 & L3 & L4).
    destruct (then_expand_ok name size nirreps ins outs elements s ps kp sg v c PL UN w x pt groups L1 L2 L3) as [[Q _]|(G & Q & _ & V)]; [congruence|]. rewrite Q in E. apply Ret_inj in E. rewrite <- E.
    pose proof (start_le size outs o ro Eo) as Lr. rewrite (nth_indep _ 0%R (G 0)) by (rewrite map_length, seq_length; lia). rewrite map_nth, seq_nth by lia. cbn [Nat.add].
    destruct (rank_exists name outs o ro Eo) as (ko & Ko). rewrite (V o ro ko r Eo Ko Br). rewrite (rank_ok name outs _ _ _ Ko), carrying_ok. unfold SpecSampler.drawn. rewrite LI, EQ. reflexivity.
Qed.

(** The two orders agree when the output fields are copies of one list, one per group. *)
Theorem orders_agree : forall s period groups w x pt msg, mk_sampler name size aeqb order sort ins outs generator bf = Ret s -> outs = copies groups period ->
  compute_messages name size s w x pt true groups = Ret msg -> compute_messages name size s w x pt false groups = Ret msg.
Proof.
  intros s period groups w x pt msg Es Eo E. destruct messages_ok as (s' & infos & Es' & _ & _ & _ & _ & _ & _ & _ & HR & HF & _ & HT). assert (s' = s) as -> by (rewrite Es in Es'; apply Ret_inj in Es'; congruence).
  destruct (HR _ _ _ _ _ _ E) as (F & Ne & Lm). pose proof F as (L1 & L2 & L3 & L4).
  rewrite (HF w x pt groups F Ne). f_equal. symmetry. apply (nth_ext _ _ 0%R 0%R); [rewrite Lm, map_length, seq_length; reflexivity|]. rewrite Lm. intros r Hr.
  destruct (in_field size outs r Hr) as (o & ro & Fo & Bo). rewrite (HT w x pt groups msg E o ro r Fo Bo).
  set (g := fun r => row_message n (drawn infos w pt) x r (r / (m / groups))). rewrite (nth_indep _ 0%R (g 0)) by (rewrite map_length, seq_length; exact Hr). rewrite map_nth, seq_nth by exact Hr. unfold g. cbn [Nat.add]. f_equal.
  rewrite Eo in *. rewrite copies_size, copies_carrying. rewrite !(Nat.mul_comm groups), !Nat.div_mul by lia. apply copies_group; assumption.
Qed.
(** Without groups they always agree, and raise together. *)
Theorem orders_agree_one : forall s w x pt, mk_sampler name size aeqb order sort ins outs generator bf = Ret s ->
  compute_messages name size s w x pt true 1 = compute_messages name size s w x pt false 1.
Proof.
  intros s w x pt Es. destruct (compute_messages name size s w x pt true 1) as [|msg] eqn:E.
  - destruct (compute_messages name size s w x pt false 1) as [|msg] eqn:E'; [reflexivity|]. exfalso.
    destruct messages_ok as (s' & infos & Es' & _ & _ & _ & _ & _ & _ & _ & HR & _ & HA & _). assert (s' = s) as -> by (rewrite Es in Es'; apply Ret_inj in Es'; congruence).
    destruct (HR _ _ _ _ _ _ E') as (F & Ne & _). destruct (proj2 (HA w x pt 1 F Ne)) as (msg' & K); [|congruence]. intros. split; [apply Nat.mod_1_r|auto].
  - symmetry. apply (orders_agree s outs 1); [exact Es| |exact E]. unfold copies. cbn. rewrite app_nil_r. reflexivity.
Qed.
End Sampler.
