(** Proofs about BlocksModel: the constructed expansion. *)
From Coq Require Import String.
From Coq Require Import List ZArith Arith Bool Reals Lia Lra Permutation Sorted.
From Verif Require Import LibRes LibPy LibMat FieldModel SpecField FieldProofs BranchProofs LabelThms MergeThms GroupedModel GroupedProofs PoolProofs BlocksModel SpecBlocks BlocksProofs BlocksThms BlocksInfo BlocksPlan BlocksFwd BlocksValue.
Import ListNotations.
Local Open Scope nat_scope.

(** What the constructor leaves behind *)
Record planned {A X P} (key : string * string -> res (string * string)) (name : A -> string) (size : A -> nat) (ins outs : list A)
    (elements : A -> A -> list (attr X * (nat -> nat -> P -> R))) (b : blocks A X P) (ps : list (string * string))
    (kp : string * string -> list (attr X * (nat -> nat -> P -> R))) (sg : string * string -> single X P)
    (v : string * string -> channels * channels) (c : string * string -> bool) : Prop := {
  pl_in : bb_in b = ins;
  pl_out : bb_out b = outs;
  pl_pairs : bb_pairs b = ps;
  pl_ND : NoDup ps;
  pl_ranges : bb_ranges b = ranges_of (tot name ins outs kp) 0 ps;
  pl_dim : bb_dim b = list_sum (map (tot name ins outs kp) ps);
  pl_mod : forall p, In p ps -> module_of key b p = Ret (sg p);
  pl_sg : forall p, In p ps -> holds (sg p) (kp p);
  pl_kept : forall p, In p ps -> kp p <> [];
  pl_real : forall p, In p ps -> In (fst p) (map name ins) /\ In (snd p) (map name outs);
  pl_el : forall p ri ro, In p ps -> In ri ins -> In ro outs -> p = (name ri, name ro) -> elements ri ro = kp p;
  pl_all : forall ri ro, In ri ins -> In ro outs -> elements ri ro <> [] -> In (name ri, name ro) ps;
  pl_shape : forall p ri ro, In p ps -> In ri ins -> In ro outs -> p = (name ri, name ro) -> sg_out (sg p) = size ro /\ sg_in (sg p) = size ri;
  pl_idx : forall p, In p ps -> exists k, key p = Ret k /\ lookup pair_eqb (bb_indices b) k = Ret (v p);
  pl_cont : forall p, In p ps -> lookup pair_eqb (bb_contiguous b) p = Ret (c p);
  pl_run : forall p, In p ps -> c p = true -> exists ai ki ao ko, 0 < ki /\ 0 < ko /\
    chans_of name size ins (fst p) = seq ai ki /\ chans_of name size outs (snd p) = seq ao ko /\ v p = (Run ai (ai + ki - 1 + 1), Run ao (ao + ko - 1 + 1));
  pl_listed : forall p, In p ps -> c p = false -> v p = (Listed (chans_of name size ins (fst p)), Listed (chans_of name size outs (snd p)));
  pl_both : forall p, In p ps -> (exists a k, 0 < k /\ chans_of name size ins (fst p) = seq a k) -> (exists a k, 0 < k /\ chans_of name size outs (snd p) = seq a k) -> c p = true;
  pl_one : bb_npairs b = 1 -> (forall p ri, In p ps -> In ri ins -> name ri = fst p) /\ (forall p ro, In p ps -> In ro outs -> name ro = snd p) /\ (forall p, In p ps -> c p = true) }.

Section All.
Context {A X P : Type}.
Variable key : string * string -> res (string * string).
Variable kf : string * string -> string * string.
Variable block : kbasis X P -> res (option (single X P)).
Variable elts : kbasis X P -> list (attr X * (nat -> nat -> P -> R)).
Variable sgl : kbasis X P -> single X P.
Variable name : A -> string.
Variable size : A -> nat.
Variable aeqb : A -> A -> bool.
Variable order : list A -> list A.
Variable sort : list (string * string) -> list (string * string).
Variable generator : A -> A -> res (option (kbasis X P)).
Variables ins outs : list A.
Hypothesis aeqb_ok : forall a b, aeqb a b = true <-> a = b.
Hypothesis order_ok : forall l, Permutation (order l) l.
Hypothesis sort_ok : forall l, Permutation (sort l) l.
Hypothesis block_ok : forall kb, block kb = Ret (match elts kb with [] => None | _ => Some (sgl kb) end).
Hypothesis sgl_ok : forall kb, holds (sgl kb) (elts kb) /\ sg_out (sgl kb) = kb_out kb /\ sg_in (sgl kb) = kb_in kb.
Hypothesis key_ok : forall io, In (fst io) ins -> In (snd io) outs -> key (names name io) = Ret (kf (names name io)).
Hypothesis names_inj : forall x y, In (fst x) ins -> In (snd x) outs -> In (fst y) ins -> In (snd y) outs -> kf (names name x) = kf (names name y) -> x = y.
Hypothesis sizes_in : Forall (fun r => 0 < size r) ins.
Hypothesis sizes_out : Forall (fun r => 0 < size r) outs.
Hypothesis generator_ok : forall i o, In i ins -> In o outs ->
  exists k, generator i o = Ret k /\ forall kb, k = Some kb -> kb_out kb = size o /\ kb_in kb = size i.

Notation prod := (prod aeqb order ins outs).
Notation pairs := (pairs elts sgl name aeqb order sort generator ins outs).
Notation dict := (dict elts sgl name aeqb order generator ins outs).
Definition nokb : kbasis X P := {| kb_out := 0; kb_in := 0; kb_elements := [] |}.
Definition kbp (p : string * string) : kbasis X P :=
  match find (fun io => pair_eqb (names name io) p) prod with
  | Some io => match generator (fst io) (snd io) with Ret (Some kb) => kb | _ => nokb end
  | None => nokb
  end.
Lemma kbp_ok : forall ri ro, In ri ins -> In ro outs ->
  kbp (name ri, name ro) = match generator ri ro with Ret (Some kb) => kb | _ => nokb end.
Proof.
  intros ri ro Hi Ho. unfold kbp. destruct (find (fun io => pair_eqb (names name io) (name ri, name ro)) prod) as [io|] eqn:E.
  - apply find_some in E. destruct E as [Hio E]. apply pair_eqb_ok in E. apply (prod_In aeqb order ins outs aeqb_ok order_ok) in Hio. destruct Hio as [H1 H2].
    assert (io = (ri, ro)) as ->; [|reflexivity]. apply names_inj; auto. rewrite E. reflexivity.
  - exfalso. pose proof (find_none _ _ E (ri, ro)) as K. cbn beta in K. rewrite (proj2 (pair_eqb_ok _ _)) in K by reflexivity.
    assert (In (ri, ro) prod) as H by (apply (prod_In aeqb order ins outs aeqb_ok order_ok); auto). specialize (K H). discriminate.
Qed.
Lemma real : forall p, In p pairs -> exists ri ro, In ri ins /\ In ro outs /\ p = (name ri, name ro) /\ generator ri ro = Ret (Some (kbp p)) /\ elts (kbp p) <> [] /\
  dget pair_eqb dict p = Some (sgl (kbp p)) /\ dget pair_eqb (map (esc_key kf) dict) (kf p) = Some (sgl (kbp p)).
Proof.
  intros p Hp. destruct (pair_real kf elts sgl name aeqb order sort generator ins outs aeqb_ok order_ok sort_ok names_inj p Hp) as (ri & ro & kb & Hi & Ho & E & Eg & K).
  exists ri, ro. assert (kbp p = kb) as -> by (rewrite E, kbp_ok, Eg by assumption; reflexivity). auto 10.
Qed.
Lemma one_set : forall l, List.length (as_set aeqb order l) = 1 -> forall a b, In a l -> In b l -> a = b.
Proof.
  intros l H a b Ha Hb. apply (as_set_In aeqb order aeqb_ok order_ok) in Ha. apply (as_set_In aeqb order aeqb_ok order_ok) in Hb.
  destruct (as_set aeqb order l) as [|x [|y t]]; try discriminate. destruct Ha as [<-|[]], Hb as [<-|[]]. reflexivity.
Qed.
Lemma all_named : forall ft nm, (forall x, In x ft -> name x = nm) -> chans_of name size ft nm = seq 0 (type_size size ft).
Proof.
  intros ft nm Hn. unfold chans_of. assert (labelled String.eqb (map name ft) nm = seq 0 (List.length ft)) as ->.
  { apply increasing_eq; [apply labelled_increasing|apply seq_increasing|]. intros a. rewrite (BranchProofs.labelled_In String.eqb string_eqb_ok), name_at, in_seq. split.
    - intros (x0 & E0 & _). assert (a < List.length ft) by (apply nth_error_Some; congruence). lia.
    - intros Ha. destruct (nth_error ft a) as [x0|] eqn:E0; [|apply nth_error_None in E0; lia]. exists x0. split; [reflexivity|]. apply Hn. eapply nth_error_In, E0. }
  rewrite chan_list_run by lia. unfold offset at 1. cbn. rewrite Nat.sub_0_r. f_equal. apply offset_all. lia.
Qed.

(** the elements of the block between two fields *)
Definition elements (i o : A) : list (attr X * (nat -> nat -> P -> R)) := match generator i o with Ret (Some kb) => elts kb | _ => [] end.
Theorem build_planned : exists b ps kp sg v c, build_blocks key block name size aeqb order sort ins outs generator = Ret b /\
  bb_npairs b = List.length (as_set aeqb order ins) * List.length (as_set aeqb order outs) /\
  planned key name size ins outs elements b ps kp sg v c.
Proof.
  destruct (contiguous_ok name size ins sizes_in) as (cin & Ecin & Hcin). destruct (contiguous_ok name size outs sizes_out) as (cout & Ecout & Hcout).
  pose proof (pairs_NoDup kf elts sgl name aeqb order sort generator ins outs aeqb_ok order_ok sort_ok names_inj) as NDp.
  pose proof (pairs_esc_NoDup kf elts sgl name aeqb order sort generator ins outs aeqb_ok order_ok sort_ok names_inj) as NDe.
  set (ps := pairs) in *. set (v := vp name size ins outs cin cout). set (c := cp cin cout). set (kp := fun p => elts (kbp p)). set (tt := tot name ins outs kp).
  set (b := {| bb_in := ins; bb_out := outs; bb_modules := map (esc_key kf) dict; bb_pairs := ps;
               bb_npairs := List.length (as_set aeqb order ins) * List.length (as_set aeqb order outs);
               bb_contiguous := map (fun p => (p, c p)) ps; bb_indices := map (fun p => (kf p, v p)) ps;
               bb_ranges := ranges_of tt 0 ps; bb_dim := list_sum (map tt ps) |}).
  assert (forall p, In p ps -> BlocksThms.tot elts sgl name aeqb order generator ins outs p = tt p) as Htot.
  { intros p Hp. destruct (real p Hp) as (ri & ro & _ & _ & _ & _ & _ & Ed & _). unfold BlocksThms.tot, dimp, tt, tot, kp. rewrite Ed. rewrite (proj1 (proj1 (sgl_ok (kbp p)))). reflexivity. }
  assert (build_blocks key block name size aeqb order sort ins outs generator = Ret b) as Emk.
  { unfold build_blocks. rewrite (expand_ok key kf block elts sgl name size aeqb order generator ins outs aeqb_ok order_ok block_ok key_ok names_inj generator_ok). cbn [bind fst snd].
    rewrite Ecin, Ecout. cbn [bind]. change (sort (map fst dict)) with ps.
    rewrite (assign_ok key kf elts sgl name size aeqb order sort generator ins outs aeqb_ok order_ok sort_ok key_ok names_inj sizes_in sizes_out cin cout Hcin Hcout ps [] [] [] 0).
    - cbn [bind app Nat.add]. unfold b. do 2 f_equal.
      + assert (forall l last, (forall p, In p l -> In p ps) -> BlocksThms.build elts sgl name aeqb order generator ins outs last l = ranges_of tt last l) as G.
        { induction l as [|p l IH]; intros last M; [reflexivity|]. cbn [BlocksThms.build ranges_of]. rewrite (Htot p) by (apply M; left; reflexivity). rewrite IH; [reflexivity|].
          intros q Hq. apply M. right. exact Hq. }
        apply G. auto.
      + unfold total. f_equal. apply map_ext_in. exact Htot.
    - auto.
    - exact NDp.
    - exact NDe.
    - intros p _. split; [|split]; intros []. }
  assert (forall p, In p ps -> module_of key b p = Ret (sgl (kbp p))) as Hmod.
  { intros p Hp. destruct (real p Hp) as (ri & ro & Hi & Ho & E & _ & _ & _ & Ed). unfold module_of, lookup. pose proof (key_ok (ri, ro) Hi Ho) as Ek. unfold names in Ek. cbn [fst snd] in Ek. rewrite E at 1. rewrite Ek, <- E. cbn [bind bb_modules b]. rewrite Ed. reflexivity. }
  assert (forall p, In p ps -> kp p <> []) as Hkept by (intros p Hp; destruct (real p Hp) as (ri & ro & _ & _ & _ & _ & K & _); exact K).
  assert (forall p, In p ps -> In (fst p) (map name ins) /\ In (snd p) (map name outs)) as Hreal.
  { intros p Hp. destruct (real p Hp) as (ri & ro & Hi & Ho & -> & _). cbn [fst snd]. split; apply in_map; assumption. }
  assert (forall p ri ro, In p ps -> In ri ins -> In ro outs -> p = (name ri, name ro) -> generator ri ro = Ret (Some (kbp p))) as Hgen.
  { intros p ri ro Hp Hi Ho E. destruct (real p Hp) as (ri' & ro' & Hi' & Ho' & E' & Eg & _).
    assert ((ri, ro) = (ri', ro')) as K by (apply names_inj; auto; unfold names; cbn [fst snd]; congruence). injection K as -> ->. exact Eg. }
  assert (forall p ri ro, In p ps -> In ri ins -> In ro outs -> p = (name ri, name ro) -> elements ri ro = kp p) as Hel.
  { intros p ri ro Hp Hi Ho E. unfold elements. rewrite (Hgen p ri ro Hp Hi Ho E). reflexivity. }
  assert (forall p ri ro, In p ps -> In ri ins -> In ro outs -> p = (name ri, name ro) -> sg_out (sgl (kbp p)) = size ro /\ sg_in (sgl (kbp p)) = size ri) as Hshape.
  { intros p ri ro Hp Hi Ho E. destruct (sgl_ok (kbp p)) as (_ & -> & ->). destruct (generator_ok ri ro Hi Ho) as (k & Ek & Hk). apply Hk. rewrite (Hgen p ri ro Hp Hi Ho E) in Ek. apply Ret_inj in Ek. auto. }
  assert (forall ri ro, In ri ins -> In ro outs -> elements ri ro <> [] -> In (name ri, name ro) ps) as Hall.
  { intros ri ro Hi Ho Ne. apply (pairs_In elts sgl name aeqb order sort generator ins outs sort_ok). unfold elements in Ne.
    destruct (generator ri ro) as [|[kb|]] eqn:Eg; try contradiction. exists (sgl kb).
    apply blist_In. exists (ri, ro). split; [apply (prod_In aeqb order ins outs aeqb_ok order_ok); auto|]. split; [reflexivity|]. unfold blk. cbn [fst snd]. rewrite Eg. destruct (elts kb); [contradiction|reflexivity]. }
  assert (forall p, In p ps -> exists k, key p = Ret k /\ lookup pair_eqb (bb_indices b) k = Ret (v p)) as Hidx.
  { intros p Hp. exists (kf p). split; [destruct (real p Hp) as (ri & ro & Hi & Ho & -> & _); apply (key_ok (ri, ro) Hi Ho)|]. unfold lookup. rewrite (dget_found pair_eqb pair_eqb_ok (bb_indices b) (kf p) (v p)); [reflexivity| |].
    - cbn [bb_indices b]. rewrite map_map. exact NDe.
    - cbn [bb_indices b]. apply in_map_iff. exists p. auto. }
  assert (forall p, In p ps -> lookup pair_eqb (bb_contiguous b) p = Ret (c p)) as Hcont.
  { intros p Hp. unfold lookup. rewrite (dget_found pair_eqb pair_eqb_ok (bb_contiguous b) p (c p)); [reflexivity| |].
    - cbn [bb_contiguous b]. rewrite map_map. cbn [fst]. rewrite map_id. exact NDp.
    - cbn [bb_contiguous b]. apply in_map_iff. exists p. auto. }
  assert (forall l, In l (map name ins) -> lk cin l = true <-> exists a k, 0 < k /\ chans_of name size ins l = seq a k) as Lin.
  { intros l Hl. destruct (Hcin l Hl) as (y & Ey & Hy). unfold lk, lookup in *. destruct (dget String.eqb cin l); [|discriminate]. apply Ret_inj in Ey. subst y. exact Hy. }
  assert (forall l, In l (map name outs) -> lk cout l = true <-> exists a k, 0 < k /\ chans_of name size outs l = seq a k) as Lout.
  { intros l Hl. destruct (Hcout l Hl) as (y & Ey & Hy). unfold lk, lookup in *. destruct (dget String.eqb cout l); [|discriminate]. apply Ret_inj in Ey. subst y. exact Hy. }
  assert (forall a k, 0 < k -> run_val (seq a k) = Run a (a + k - 1 + 1)) as Hrv.
  { intros a k Pk. unfold run_val, run_of. destruct (min_max_seq a k Pk) as [-> ->]. reflexivity. }
  assert (forall p, In p ps -> c p = true -> exists ai ki ao ko, 0 < ki /\ 0 < ko /\ chans_of name size ins (fst p) = seq ai ki /\ chans_of name size outs (snd p) = seq ao ko /\
    v p = (Run ai (ai + ki - 1 + 1), Run ao (ao + ko - 1 + 1))) as Hrun.
  { intros p Hp Ec. destruct (Hreal p Hp) as [Ri Ro]. pose proof Ec as Ec'. unfold c, cp in Ec'. apply andb_true_iff in Ec'. destruct Ec' as [C1 C2].
    apply (Lin _ Ri) in C1. apply (Lout _ Ro) in C2. destruct C1 as (ai & ki & Pi & Ei), C2 as (ao & ko & Po & Eo). exists ai, ki, ao, ko. repeat split; auto.
    unfold v, vp. change (cp cin cout p) with (c p). rewrite Ec, Ei, Eo, !Hrv by assumption. reflexivity. }
  assert (forall p, In p ps -> c p = false -> v p = (Listed (chans_of name size ins (fst p)), Listed (chans_of name size outs (snd p)))) as Hlisted.
  { intros p Hp Ec. unfold v, vp. change (cp cin cout p) with (c p). rewrite Ec. reflexivity. }
  assert (bb_npairs b = 1 -> (forall p ri, In p ps -> In ri ins -> name ri = fst p) /\ (forall p ro, In p ps -> In ro outs -> name ro = snd p) /\ (forall p, In p ps -> c p = true)) as Hone.
  { intros E. cbn [bb_npairs b] in E. apply Nat.eq_mul_1 in E. destruct E as [E1 E2].
    assert (forall p ri, In p ps -> In ri ins -> name ri = fst p) as O1.
    { intros p ri Hp Hi. destruct (real p Hp) as (ri' & ro' & Hi' & Ho' & -> & _). cbn [fst]. f_equal. apply (one_set ins E1); assumption. }
    assert (forall p ro, In p ps -> In ro outs -> name ro = snd p) as O2.
    { intros p ro Hp Ho. destruct (real p Hp) as (ri' & ro' & Hi' & Ho' & -> & _). cbn [snd]. f_equal. apply (one_set outs E2); assumption. }
    split; [exact O1|]. split; [exact O2|]. intros p Hp. destruct (Hreal p Hp) as [Ri Ro]. unfold c, cp. apply andb_true_iff. split.
    - apply (Lin _ Ri). exists 0, (type_size size ins). split; [|apply all_named; intros x Hx; apply O1; assumption].
      apply in_map_iff in Ri. destruct Ri as (ri & _ & Hi). rewrite Forall_forall in sizes_in. specialize (sizes_in ri Hi). clear - Hi sizes_in.
      unfold type_size. induction ins as [|x t IH]; [destruct Hi|]. cbn [map list_sum fold_right]. destruct Hi as [->|Hi]; [lia|specialize (IH Hi); unfold list_sum in IH; lia].
    - apply (Lout _ Ro). exists 0, (type_size size outs). split; [|apply all_named; intros x Hx; apply O2; assumption].
      apply in_map_iff in Ro. destruct Ro as (ro & _ & Ho). rewrite Forall_forall in sizes_out. specialize (sizes_out ro Ho). clear - Ho sizes_out.
      unfold type_size. induction outs as [|x t IH]; [destruct Ho|]. cbn [map list_sum fold_right]. destruct Ho as [->|Ho]; [lia|specialize (IH Ho); unfold list_sum in IH; lia]. }
  exists b, ps, kp, (fun p => sgl (kbp p)), v, c. split; [exact Emk|]. split; [reflexivity|]. constructor; try assumption; try reflexivity.
  - intros p Hp. apply sgl_ok.
  - intros p Hp H1 H2. destruct (Hreal p Hp) as [Ri Ro]. unfold c, cp. apply andb_true_iff. split; [apply (Lin _ Ri), H1|apply (Lout _ Ro), H2].
Qed.
End All.

Section Planned.
Context {A X P : Type}.
Variable S : nat.
Variable key : string * string -> res (string * string).
Variable name : A -> string.
Variables size nirreps : A -> nat.
Variables ins outs : list A.
Variable elements : A -> A -> list (attr X * (nat -> nat -> P -> R)).
Variable b : blocks A X P.
Variable ps : list (string * string).
Variable kp : string * string -> list (attr X * (nat -> nat -> P -> R)).
Variable sg : string * string -> single X P.
Variable v : string * string -> channels * channels.
Variable c : string * string -> bool.
Hypothesis PL : planned key name size ins outs elements b ps kp sg v c.
Lemma count_pos : forall ft l, In l (map name ft) -> 0 < count name ft l.
Proof.
  intros ft l0 Hl0. unfold count. rewrite nfields_labelled. pose proof (labelled_nonempty String.eqb string_eqb_ok _ _ Hl0) as N0. destruct (labelled String.eqb (map name ft) l0); [contradiction|cbn; lia].
Qed.
Lemma dim_pos : ps <> [] -> bb_dim b <> 0.
Proof.
  destruct PL. intros Ne. rewrite pl_dim0. destruct ps as [|p l] eqn:Eps; [contradiction|]. cbn [map list_sum fold_right].
  assert (In p (p :: l)) as Hp by (left; reflexivity). destruct (pl_real0 p Hp) as [Ri Ro]. pose proof (pl_kept0 p Hp) as Kp.
  assert (0 < tot name ins outs kp p); [|lia]. unfold tot.
  apply Nat.mul_pos_pos; [destruct (kp p); [contradiction|cbn; lia]|]. apply Nat.mul_pos_pos; apply count_pos; assumption.
Qed.
Theorem planned_ok : exists infos,
  basis_info key name nirreps b = Ret infos /\ List.length infos = bb_dim b /\
  (forall k f, nth_error infos k = Some f ->
     describes name nirreps elements ins outs k f /\ element_info key name nirreps b (Z.of_nat k) = Ret f) /\
  (forall z, (z < 0 \/ Z.of_nat (bb_dim b) <= z)%Z -> element_info key name nirreps b z = Raise) /\
  NoDup (map slot infos) /\
  (forall o i j ro ri, nth_error outs o = Some ro -> nth_error ins i = Some ri -> j < List.length (elements ri ro) -> In (o, i, j) (map slot infos)) /\
  (forall w dflt, List.length w = bb_dim b -> (bb_npairs b = 1 -> bb_dim b <> 0) -> exists F, filter_of S key name size b w = Ret F /\
     forall r c p, r < type_size size outs -> c < type_size size ins ->
       F r c p = sumn (bb_dim b) (fun k => nth k w 0 * element_at size elements ins outs (nth k infos dflt) r c p)%R) /\
  (forall w, bb_npairs b = 1 -> bb_dim b = 0 -> filter_of S key name size b w = Raise).
Proof.
  pose proof dim_pos as Hdim. destruct PL.
  exists (infos name nirreps ins outs ps kp).
  split; [eapply basis_info_ok; eassumption|].
  split; [eapply infos_length; eassumption|].
  split.
  { intros k f Hf. split; [eapply described; eassumption|eapply element_info_ok; eassumption]. }
  split; [intros z Hz; eapply element_info_out; eassumption|].
  split; [eapply slots_distinct with (b := b); eassumption|].
  split; [intros o i j ro ri Eo Ei Hj; eapply slots_complete with (b := b); eassumption|].
  split.
  { intros w dflt Lw Ne. eapply forward_ok with (v := v) (c := c) (b := b); try eassumption.
    intros E Eps. apply (Ne E). rewrite pl_dim0, Eps. reflexivity. }
  intros w E1 E0. assert (ps = []) as Eps by (destruct ps eqn:Eps; [reflexivity|exfalso; apply Hdim; [discriminate|exact E0]]).
  unfold filter_of. destruct (Nat.eqb (List.length w) (bb_dim b)); [|reflexivity]. cbn [assert_ bind]. rewrite E1. cbn [Nat.eqb]. rewrite pl_pairs0, Eps. reflexivity.
Qed.
End Planned.

Section Expansion.
Context {A X : Type}.
Variable S : nat.
Variable name : A -> string.
Variables size nirreps : A -> nat.
Variable aeqb : A -> A -> bool.
Variable order : list A -> list A.
Variable sort : list (string * string) -> list (string * string).
Variable generator : A -> A -> res (option (kbasis X nat)).
Variable bf : option (attr X -> bool).
Variables ins outs : list A.
Hypothesis aeqb_ok : forall a b, aeqb a b = true <-> a = b.
Hypothesis order_ok : forall l, Permutation (order l) l.
Hypothesis sort_ok : forall l, Permutation (sort l) l.
Hypothesis names_in : forall a b, In a ins -> In b ins -> escape_name (name a) = escape_name (name b) -> a = b.
Hypothesis names_out : forall a b, In a outs -> In b outs -> escape_name (name a) = escape_name (name b) -> a = b.
Hypothesis sizes_in : Forall (fun r => 0 < size r) ins.
Hypothesis sizes_out : Forall (fun r => 0 < size r) outs.
Hypothesis generator_ok : forall i o, In i ins -> In o outs ->
  exists k, generator i o = Ret k /\ forall kb, k = Some kb -> kb_out kb = size o /\ kb_in kb = size i.
Theorem blocks_ok : exists b infos,
  mk_blocks S name size aeqb order sort ins outs generator bf = Ret b /\
  get_basis_info name nirreps b = Ret infos /\ List.length infos = bb_dim b /\
  (forall k f, nth_error infos k = Some f ->
     describes name nirreps (elements_of S generator bf) ins outs k f /\ get_element_info name nirreps b (Z.of_nat k) = Ret f) /\
  (forall z, (z < 0 \/ Z.of_nat (bb_dim b) <= z)%Z -> get_element_info name nirreps b z = Raise) /\
  NoDup (map slot infos) /\
  (forall o i j ro ri, nth_error outs o = Some ro -> nth_error ins i = Some ri -> j < List.length (elements_of S generator bf ri ro) -> In (o, i, j) (map slot infos)) /\
  (forall w dflt, List.length w = bb_dim b -> (bb_npairs b = 1 -> bb_dim b <> 0) -> exists F, forward S name size b w = Ret F /\
     forall r c p, r < type_size size outs -> c < type_size size ins ->
       F r c p = sumn (bb_dim b) (fun k => nth k w 0 * element_at size (elements_of S generator bf) ins outs (nth k infos dflt) r c p)%R) /\
  (forall w, bb_npairs b = 1 -> bb_dim b = 0 -> forward S name size b w = Raise).
Proof.
  destruct (build_planned escaped escape_pair (fun b => block_basisexpansion S b bf) (kept S bf) (the_single S bf) name size aeqb order sort generator ins outs aeqb_ok order_ok sort_ok)
    as (b & ps & kp & sg & v & c & Eb & _ & PL); try assumption.
  - intros kb. apply block_ok.
  - intros kb. split; [apply single_holds|]. split; reflexivity.
  - intros io _ _. reflexivity.
  - intros [a b] [c d] H1 H2 H3 H4 E. unfold names, escape_pair in E. cbn [fst snd] in *. injection E as E1 E2. f_equal; auto.
  - exists b. destruct (planned_ok S escaped name size nirreps ins outs _ b ps kp sg v c PL) as (infos & H). exists infos. split; [exact Eb|]. exact H.
Qed.
End Expansion.
