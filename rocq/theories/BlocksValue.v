(** Proofs about BlocksModel: every weight multiplies the element it is reported to. *)
From Coq Require Import String.
From Coq Require Import List ZArith Arith Bool Reals Lia Lra Permutation Sorted.
From Verif Require Import LibRes LibPy LibMat FieldModel SpecField FieldProofs BranchProofs LabelThms MergeThms GroupedModel GroupedProofs PoolProofs BlocksModel SpecBlocks BlocksProofs BlocksThms BlocksInfo BlocksPlan BlocksFwd.
Import ListNotations.
Local Open Scope nat_scope.

Section Value.
Context {A X P : Type}.
Variable S : nat.
Variable key : string * string -> res (string * string).
Variable name : A -> string.
Variables size nirreps : A -> nat.
Variables ins outs : list A.
Variable elements : A -> A -> list (attr X * (nat -> nat -> P -> R)).
Variable b : blocks A X P.
Variable ps : list (string * string).
Variable kp : string * string -> list (attr X * (nat -> nat -> P -> R)).
Variable sg : string * string -> single X P.
Notation tot := (tot name ins outs kp).
Notation slots := (slots name ins outs kp).
Notation all := (all name ins outs ps kp).
Notation infos := (infos name nirreps ins outs ps kp).
Hypothesis H_in : bb_in b = ins.
Hypothesis H_out : bb_out b = outs.
Hypothesis H_pairs : bb_pairs b = ps.
Hypothesis H_ND : NoDup ps.
Hypothesis H_ranges : bb_ranges b = ranges_of tot 0 ps.
Hypothesis H_dim : bb_dim b = list_sum (map tot ps).
Hypothesis H_mod : forall p, In p ps -> module_of key b p = Ret (sg p).
Hypothesis H_sg : forall p, In p ps -> holds (sg p) (kp p).
Hypothesis H_kept : forall p, In p ps -> kp p <> [].
Hypothesis H_real : forall p, In p ps -> In (fst p) (map name ins) /\ In (snd p) (map name outs).
Hypothesis H_el : forall p ri ro, In p ps -> In ri ins -> In ro outs -> p = (name ri, name ro) -> elements ri ro = kp p.
Hypothesis H_all : forall ri ro, In ri ins -> In ro outs -> elements ri ro <> [] -> In (name ri, name ro) ps.
Hypothesis H_shape : forall p ri ro, In p ps -> In ri ins -> In ro outs -> p = (name ri, name ro) -> sg_out (sg p) = size ro /\ sg_in (sg p) = size ri.
Notation sel_in p := (labelled String.eqb (map name ins) (fst p)).
Notation sel_out p := (labelled String.eqb (map name outs) (snd p)).
Notation chans_in p := (chan_list size ins (sel_in p)).
Notation chans_out p := (chan_list size outs (sel_out p)).
Variable v : string * string -> channels * channels.
Variable c : string * string -> bool.
Hypothesis H_idx : forall p, In p ps -> exists k, key p = Ret k /\ lookup pair_eqb (bb_indices b) k = Ret (v p).
Hypothesis H_cont : forall p, In p ps -> lookup pair_eqb (bb_contiguous b) p = Ret (c p).
Hypothesis H_run : forall p, In p ps -> c p = true -> exists ai ki ao ko, 0 < ki /\ 0 < ko /\
  chans_in p = seq ai ki /\ chans_out p = seq ao ko /\ v p = (Run ai (ai + ki - 1 + 1), Run ao (ao + ko - 1 + 1)).
Hypothesis H_listed : forall p, In p ps -> c p = false -> v p = (Listed (chans_in p), Listed (chans_out p)).
Hypothesis H_one : bb_npairs b = 1 -> (forall p ri, In p ps -> In ri ins -> name ri = fst p) /\ (forall p ro, In p ps -> In ro outs -> name ro = snd p) /\ (forall p, In p ps -> c p = true).

Lemma range_ok : forall l last q, NoDup l -> In q l -> exists a, dget pair_eqb (ranges_of tot last l) q = Some (a, a + tot q) /\ last <= a /\
  a + tot q <= last + list_sum (map tot l) /\ forall rel, rel < tot q -> nth_error (flat_map slots l) (a - last + rel) = nth_error (slots q) rel.
Proof.
  induction l as [|p l IH]; intros last q ND Hq; [destruct Hq|]. apply NoDup_cons_iff in ND; destruct ND as [N ND']. cbn [ranges_of dget map list_sum fold_right flat_map].
  fold (list_sum (map tot l)). destruct (pair_eqb p q) eqn:E.
  - apply pair_eqb_ok in E. subst q. exists last. split; [reflexivity|]. split; [lia|]. split; [lia|]. intros rel Hr. rewrite Nat.sub_diag. apply nth_error_app1. rewrite slots_length. exact Hr.
  - destruct Hq as [->|Hq]; [rewrite (proj2 (pair_eqb_ok q q) eq_refl) in E; discriminate|]. destruct (IH (last + tot p) q ND' Hq) as (a & Ea & L1 & L2 & Hn).
    exists a. split; [exact Ea|]. split; [lia|]. split; [lia|]. intros rel Hr. rewrite nth_error_app2 by (rewrite slots_length; lia). rewrite slots_length, <- Hn by exact Hr. f_equal. lia.
Qed.

Notation nI p := (count name ins (fst p)).
Notation nO p := (count name outs (snd p)).
Definition base (p : string * string) : nat := match dget pair_eqb (bb_ranges b) p with Some r => fst r | None => 0 end.
Lemma base_ok : forall p, In p ps -> lookup pair_eqb (bb_ranges b) p = Ret (base p, base p + tot p) /\ base p + tot p <= bb_dim b /\
  forall rel, rel < tot p -> nth_error all (base p + rel) = nth_error (slots p) rel.
Proof.
  intros p Hp. destruct (range_ok ps 0 p H_ND Hp) as (a & Ea & _ & L & Hn). rewrite <- H_ranges in Ea. unfold base, lookup. rewrite Ea. cbn [fst].
  split; [reflexivity|]. split; [rewrite H_dim; lia|]. intros rel Hr. rewrite <- Hn by exact Hr. f_equal. lia.
Qed.

Lemma expand_block_ok : forall p w, In p ps -> List.length w = bb_dim b -> exists x, expand_block S key name b w p = Ret x /\
  ex_oc x = nO p /\ ex_o x = sg_out (sg p) /\ ex_ic x = nI p /\ ex_i x = sg_in (sg p) /\
  forall ko a ki e pt, ko < nO p -> ki < nI p ->
    ex_entry x ko a ki e pt = sumn (List.length (kp p)) (fun j =>
      match nth_error (kp p) j with Some (_, s) => s | None => fun _ _ _ => 0%R end a e pt * nth (base p + ((ko * nI p + ki) * List.length (kp p) + j))%nat w 0)%R.
Proof.
  intros p w Hp Lw. destruct (base_ok p Hp) as (Er & Le & _). set (d := List.length (kp p)). assert (0 < d) as Pd by (apply kp_pos with (ps := ps); assumption).
  unfold expand_block. rewrite (H_mod p Hp). cbn [bind]. rewrite Er. cbn [bind fst snd]. rewrite (proj1 (H_sg p Hp)). fold d.
  replace (base p + tot p - base p) with (tot p) by lia.
  assert (List.length (firstn (tot p) (skipn (base p) w)) = tot p) as Lc by (apply firstn_length_le; rewrite skipn_length; lia).
  assert (tot p = (nO p * nI p) * d) as Et by (unfold BlocksPlan.tot; fold d; lia).
  unfold view. destruct (Nat.eqb_spec d 0); [lia|]. cbn [negb assert_ bind]. rewrite Lc, Et, Nat.mod_mul by lia. cbn [Nat.eqb assert_ bind]. rewrite Nat.div_mul by lia.
  rewrite <- Et. set (cf := firstn (tot p) (skipn (base p) w)) in *. set (rows := chunks (nO p * nI p) d cf). unfold single_forward. rewrite (proj1 (H_sg p Hp)). fold d.
  rewrite (proj2 (forallb_forall _ _)).
  2:{ intros r Hr. apply Nat.eqb_eq. pose proof (chunks_row_length d (nO p * nI p) cf ltac:(lia)) as F. rewrite Forall_forall in F. apply F, Hr. }
  cbn [assert_ bind]. assert (List.length rows = nO p * nI p) as Lr by apply chunks_length. rewrite Lr, H_in, H_out. rewrite Nat.eqb_refl. cbn [assert_ bind].
  eexists. split; [reflexivity|]. cbn [ex_oc ex_o ex_ic ex_i ex_entry]. repeat split; try reflexivity.
  intros ko a ki e pt Hko Hki. apply sumn_ext. intros j Hj. rewrite (proj2 (proj2 (proj2 (H_sg p Hp)))). f_equal. unfold rows.
  assert (ko * nI p + ki < nO p * nI p) as Lk.
  { clear - Hko Hki. generalize dependent (nO p). generalize dependent (nI p). intros i Hi o Ho. assert ((ko + 1) * i <= o * i) by (apply Nat.mul_le_mono_r; lia). lia. }
  rewrite chunks_nth by assumption. unfold cf. rewrite nth_skip_first; [reflexivity|]. rewrite Et.
  assert ((ko * nI p + ki + 1) * d <= nO p * nI p * d) by (apply Nat.mul_le_mono_r; lia). lia.
Qed.

Variable expand : list R -> string * string -> res (@expanded P).
Hypothesis H_expand : forall p w, In p ps -> List.length w = bb_dim b -> exists x, expand w p = Ret x /\
  ex_oc x = nO p /\ ex_o x = sg_out (sg p) /\ ex_ic x = nI p /\ ex_i x = sg_in (sg p) /\
  forall ko a ki e pt, ko < nO p -> ki < nI p ->
    ex_entry x ko a ki e pt = sumn (List.length (kp p)) (fun j =>
      match nth_error (kp p) j with Some (_, s) => s | None => fun _ _ _ => 0%R end a e pt * nth (base p + ((ko * nI p + ki) * List.length (kp p) + j))%nat w 0)%R.

Lemma reshape_ok : forall (x : @expanded P) oc o ic i, ex_oc x = oc -> ex_o x = o -> ex_ic x = ic -> ex_i x = i -> exists y, reshape S x (oc * o) (ic * i) = Ret y /\
  forall ko a ki e pt, a < o -> ki < ic -> e < i -> y (ko * o + a) (ki * i + e) pt = ex_entry x ko a ki e pt.
Proof.
  intros x oc o ic i E1 E2 E3 E4. unfold reshape. rewrite E1, E2, E3, E4. rewrite (proj2 (Nat.eqb_eq _ _)) by (f_equal; lia). cbn [assert_ bind]. eexists. split; [reflexivity|].
  intros ko a ki e pt La Lki Le. cbv beta zeta.
  replace ((ko * o + a) * (ic * i) + (ki * i + e)) with (((ko * o + a) * ic + ki) * i + e) by lia.
  assert (forall q m r, r < m -> (q * m + r) / m = q) as D by (intros q m r H; rewrite Nat.div_add_l, Nat.div_small by lia; lia).
  assert (forall q m r, r < m -> (q * m + r) mod m = r) as M by (intros q m r H; rewrite Nat.add_comm, Nat.mod_add, Nat.mod_small by lia; lia).
  rewrite !D, !M by (rewrite ?D by assumption; assumption). reflexivity.
Qed.

Lemma sel_uniform : forall p, In p ps ->
  (forall x, In x (sel_in p) -> exists r, nth_error ins x = Some r /\ size r = sg_in (sg p)) /\
  (forall x, In x (sel_out p) -> exists r, nth_error outs x = Some r /\ size r = sg_out (sg p)).
Proof.
  intros p Hp. destruct (H_real p Hp) as [Ri Ro]. apply in_map_iff in Ri. destruct Ri as (ri0 & Ni0 & Ii0). apply in_map_iff in Ro. destruct Ro as (ro0 & No0 & Io0). split; intros x Hx;
    apply (BranchProofs.labelled_In String.eqb string_eqb_ok) in Hx; apply name_at in Hx; destruct Hx as (r & Er & Nr); exists r; (split; [exact Er|]).
  - destruct (H_shape p r ro0 Hp (nth_error_In _ _ Er) Io0) as [_ K]; [destruct p; cbn [fst snd] in *; congruence|]. auto.
  - destruct (H_shape p ri0 r Hp Ii0 (nth_error_In _ _ Er)) as [K _]; [destruct p; cbn [fst snd] in *; congruence|]. auto.
Qed.

(** the value at a place in a block *)
Definition value (w : list R) (q : string * string) (o i r e : nat) (pt : P) : R :=
  match position (sel_out q) o, position (sel_in q) i with
  | Some ko, Some ki => sumn (List.length (kp q)) (fun j =>
      match nth_error (kp q) j with Some (_, s) => s | None => fun _ _ _ => 0%R end (r - field_start size outs o)%nat (e - field_start size ins i)%nat pt *
      nth (base q + ((ko * nI q + ki) * List.length (kp q) + j))%nat w 0)%R
  | _, _ => 0%R
  end.
(** the block of a pair, written at its place *)
Lemma block_value : forall p w, In p ps -> List.length w = bb_dim b -> exists x y, expand w p = Ret x /\
  reshape S x (List.length (chans_out p)) (List.length (chans_in p)) = Ret y /\
  forall o i ro ri r e pt, nth_error outs o = Some ro -> nth_error ins i = Some ri -> name ro = snd p -> name ri = fst p ->
    field_start size outs o <= r < field_start size outs o + size ro -> field_start size ins i <= e < field_start size ins i + size ri ->
    exists r' e', position (chans_out p) r = Some r' /\ position (chans_in p) e = Some e' /\ y r' e' pt = value w p o i r e pt.
Proof.
  intros p w Hp Lw. destruct (H_expand p w Hp Lw) as (x & Ex & X1 & X2 & X3 & X4 & Val). destruct (sel_uniform p Hp) as [Ui Uo].
  rewrite (chan_length size ins (sel_in p) _ Ui), (chan_length size outs (sel_out p) _ Uo).
  assert (List.length (sel_in p) = nI p) as -> by (unfold count; rewrite nfields_labelled; reflexivity).
  assert (List.length (sel_out p) = nO p) as -> by (unfold count; rewrite nfields_labelled; reflexivity).
  destruct (reshape_ok x _ _ _ _ X1 X2 X3 X4) as (y & Ey & Vy). exists x, y. split; [exact Ex|]. split; [exact Ey|].
  intros o i ro ri r e pt Eo Ei No Ni Br Be.
  assert (In o (sel_out p)) as So by (apply (BranchProofs.labelled_In String.eqb string_eqb_ok), name_at; eauto).
  assert (In i (sel_in p)) as Si by (apply (BranchProofs.labelled_In String.eqb string_eqb_ok), name_at; eauto).
  pose proof (labelled_NoDup String.eqb (map name outs) (snd p)) as Do. pose proof (labelled_NoDup String.eqb (map name ins) (fst p)) as Di.
  destruct (In_nth_error _ _ So) as (ko & Ko). destruct (In_nth_error _ _ Si) as (ki & Ki).
  assert (size ro = sg_out (sg p)) as Zo by (destruct (Uo o So) as (r0 & E0 & <-); congruence).
  assert (size ri = sg_in (sg p)) as Zi by (destruct (Ui i Si) as (r0 & E0 & <-); congruence).
  exists (ko * sg_out (sg p) + (r - field_start size outs o)), (ki * sg_in (sg p) + (e - field_start size ins i)).
  assert (ko < nO p) as Lko by (unfold count; rewrite nfields_labelled; apply nth_error_Some; congruence).
  assert (ki < nI p) as Lki by (unfold count; rewrite nfields_labelled; apply nth_error_Some; congruence).
  split; [|split].
  - rewrite <- (chan_position size outs (sel_out p) (sg_out (sg p)) ko o (r - field_start size outs o) Do Uo Ko) by lia. f_equal. lia.
  - rewrite <- (chan_position size ins (sel_in p) (sg_in (sg p)) ki i (e - field_start size ins i) Di Ui Ki) by lia. f_equal. lia.
  - rewrite Vy by lia. rewrite Val by assumption. unfold value. rewrite (position_nth _ ko o Do Ko), (position_nth _ ki i Di Ki). reflexivity.
Qed.

Lemma chans_bounds : forall ft sel a k, chan_list size ft sel = seq a k -> 0 < k -> a + k <= type_size size ft.
Proof.
  intros ft sel a k E PP. pose proof (chan_list_lt size ft sel) as F. rewrite E, Forall_forall in F. specialize (F (a + k - 1) ltac:(apply in_seq; lia)). cbn beta in F. lia.
Qed.
Definition step (w : list R) (r : res (nat -> nat -> P -> R)) (p : string * string) : res (nat -> nat -> P -> R) :=
  f <- r ;;
  k <- key p ;;
  v <- lookup pair_eqb (bb_indices b) k ;;
  x <- expand w p ;;
  c <- lookup pair_eqb (bb_contiguous b) p ;;
  rows <- positions (type_size size (bb_out b)) (snd v) ;;
  cols <- positions (type_size size (bb_in b)) (fst v) ;;
  match v, (c : bool) with
  | (Run ia ie, Run oa oe), true => y <- reshape S x (oe - oa) (ie - ia) ;; Ret (assign f rows cols y)
  | (Listed _, Listed _), false => y <- reshape S x (List.length rows) (List.length cols) ;; Ret (assign f rows cols y)
  | _, _ => Raise
  end.
Lemma step_ok : forall w f p, In p ps -> List.length w = bb_dim b -> exists y, step w (Ret f) p = Ret (assign f (chans_out p) (chans_in p) y) /\
  exists x, expand w p = Ret x /\ reshape S x (List.length (chans_out p)) (List.length (chans_in p)) = Ret y.
Proof.
  intros w f p Hp Lw. destruct (block_value p w Hp Lw) as (x & y & Ex & Ey & _). exists y. split; [|exists x; auto]. unfold step. cbn [bind].
  destruct (H_idx p Hp) as (k & Ek & Ev). rewrite Ek. cbn [bind]. rewrite Ev, (H_cont p Hp), Ex. clear k Ek Ev. cbn [bind]. rewrite H_in, H_out. destruct (c p) eqn:Ec.
  - destruct (H_run p Hp Ec) as (ai & ki & ao & ko & Pi & Po & Ei & Eo & Ev). rewrite Ev. cbn [fst snd].
    rewrite !run_positions by (try assumption; eapply chans_bounds; eassumption). cbn [bind].
    rewrite Ei, Eo, !seq_length in Ey. replace (ao + ko - 1 + 1 - ao) with ko by lia. replace (ai + ki - 1 + 1 - ai) with ki by lia. rewrite Ey. cbn [bind]. rewrite Ei, Eo. reflexivity.
  - rewrite (H_listed p Hp Ec). cbn [fst snd positions bind]. rewrite Ey. reflexivity.
Qed.
Definition q_eq_dec (x y : string * string) : {x = y} + {x <> y}.
Proof. destruct (pair_eqb x y) eqn:E; [left; apply pair_eqb_ok, E|right; intros ->; rewrite (proj2 (pair_eqb_ok y y) eq_refl) in E; discriminate]. Defined.
Lemma fold_ok : forall w l f, (forall p, In p l -> In p ps) -> NoDup l -> List.length w = bb_dim b -> exists F, fold_left (step w) l (Ret f) = Ret F /\
  forall o i ro ri r e pt, nth_error outs o = Some ro -> nth_error ins i = Some ri ->
    field_start size outs o <= r < field_start size outs o + size ro -> field_start size ins i <= e < field_start size ins i + size ri ->
    F r e pt = if in_dec q_eq_dec (name ri, name ro) l then value w (name ri, name ro) o i r e pt else f r e pt.
Proof.
  intros w l; induction l as [|p l IH]; intros f Mem ND Lw; cbn [fold_left].
  - exists f. split; [reflexivity|]. intros. destruct (in_dec q_eq_dec (name ri, name ro) []) as [[]|_]. reflexivity.
  - apply NoDup_cons_iff in ND; destruct ND as [N ND']. pose proof (Mem p (or_introl eq_refl)) as Hp. destruct (step_ok w f p Hp Lw) as (y & Es & x & Ex & Ey).
    rewrite Es. destruct (IH (assign f (chans_out p) (chans_in p) y) (fun q Hq => Mem q (or_intror Hq)) ND' Lw) as (F & EF & HF). exists F. split; [exact EF|].
    intros o i ro ri r e pt Eo Ei Br Be. rewrite (HF o i ro ri r e pt Eo Ei Br Be). set (q := (name ri, name ro)).
    destruct (in_dec q_eq_dec q l) as [Hq|Hq]; destruct (in_dec q_eq_dec q (p :: l)) as [Hq'|Hq']; try reflexivity; try (exfalso; apply Hq'; right; exact Hq).
    + destruct Hq' as [Eq|Hq']; [|contradiction]. assert (name ro = snd p /\ name ri = fst p) as [Nro Nri] by (rewrite Eq; split; reflexivity). unfold assign. destruct (block_value _ w Hp Lw) as (x' & y' & Ex' & Ey' & V).
      assert (y' = y) as -> by (rewrite Ex in Ex'; apply Ret_inj in Ex'; subst x'; rewrite Ey in Ey'; apply Ret_inj in Ey'; congruence).
      destruct (V o i ro ri r e pt Eo Ei Nro Nri Br Be) as (r' & e' & -> & -> & Ev). rewrite Ev, Eq. reflexivity.
    + unfold assign. assert (p <> q) as Npq by (intros ->; apply Hq'; left; reflexivity).
      destruct (string_dec (name ro) (snd p)) as [E1|N1].
      * destruct (string_dec (name ri) (fst p)) as [E2|N2].
        -- exfalso. apply Npq. destruct p as [p1 p2]. cbn [fst snd] in *. unfold q. congruence.
        -- rewrite (chan_outside size ins (sel_in p) e i ri Ei Be).
           ++ destruct (position (chans_out p) r); reflexivity.
           ++ intros H. apply (BranchProofs.labelled_In String.eqb string_eqb_ok), name_at in H. destruct H as (r0 & E0 & N0). congruence.
      * rewrite (chan_outside size outs (sel_out p) r o ro Eo Br); [reflexivity|].
        intros H. apply (BranchProofs.labelled_In String.eqb string_eqb_ok), name_at in H. destruct H as (r0 & E0 & N0). congruence.
Qed.
(** the value of a place is the sum over the weights *)
Lemma infos_nth : forall k, nth_error infos k = option_map (info_at nirreps ins outs k) (nth_error all k).
Proof. intros k. unfold BlocksPlan.infos. rewrite imap_nth. reflexivity. Qed.
Lemma value_sum : forall w o i ro ri r e pt dflt, nth_error outs o = Some ro -> nth_error ins i = Some ri ->
  field_start size outs o <= r < field_start size outs o + size ro -> field_start size ins i <= e < field_start size ins i + size ri ->
  sumn (bb_dim b) (fun k => nth k w 0 * element_at size elements ins outs (nth k infos dflt) r e pt)%R =
  if in_dec q_eq_dec (name ri, name ro) ps then value w (name ri, name ro) o i r e pt else 0%R.
Proof.
  intros w o i ro ri r e pt dflt Eo Ei Br Be. set (q := (name ri, name ro)).
  assert (forall k, k < bb_dim b -> element_at size elements ins outs (nth k infos dflt) r e pt <> 0%R ->
    exists j a, In q ps /\ nth_error all k = Some (q, (o, i), j, a)) as Only.
  { intros k Hk Nz. assert (nth_error infos k <> None) as Nk by (apply nth_error_Some; rewrite (infos_length name nirreps ins outs b ps kp H_dim); exact Hk).
    rewrite infos_nth in Nk. destruct (nth_error all k) as [s|] eqn:Es; [|contradiction].
    assert (nth k infos dflt = info_at nirreps ins outs k s) as En by (apply nth_error_nth; rewrite infos_nth, Es; reflexivity). rewrite En in Nz. clear Nk En.
    destruct s as [[[p [o' i']] j] a]. pose proof (nth_error_In _ _ Es) as Is. apply all_In in Is. destruct Is as (Hp & Hc & Ha). apply cells_In in Hc. destruct Hc as [Co Ci].
    apply name_at in Co. destruct Co as (ro' & Eo' & No'). apply name_at in Ci. destruct Ci as (ri' & Ei' & Ni').
    unfold element_at in Nz. cbn [info_at mk_info out_field_position in_field_position block_id with_id at_id] in Nz. rewrite Eo', Ei' in Nz. cbv zeta in Nz.
    destruct (Nat.leb_spec (field_start size outs o') r); [|contradiction]. destruct (Nat.ltb_spec r (field_start size outs o' + size ro')); [|contradiction].
    destruct (Nat.leb_spec (field_start size ins i') e); [|contradiction]. destruct (Nat.ltb_spec e (field_start size ins i' + size ri')); [|contradiction].
    assert (o' = o) as -> by (apply (one_field size outs r o' ro' o ro); auto). assert (i' = i) as -> by (apply (one_field size ins e i' ri' i ri); auto).
    exists j, a. assert (p = q) as ->; [|auto]. destruct p as [p1 p2]. unfold q. cbn [fst snd] in *. congruence. }
  destruct (in_dec q_eq_dec q ps) as [Hq|Hq].
  2:{ apply sumn_0. intros k Hk. destruct (Req_dec (element_at size elements ins outs (nth k infos dflt) r e pt) 0) as [->|Nz]; [ring|].
      exfalso. destruct (Only k Hk Nz) as (_ & _ & H & _). exact (Hq H). }
  set (d := List.length (kp q)). assert (0 < d) as Pd by (apply kp_pos with (ps := ps); assumption).
  assert (In o (sel_out q)) as So by (apply (BranchProofs.labelled_In String.eqb string_eqb_ok), name_at; eauto).
  assert (In i (sel_in q)) as Si by (apply (BranchProofs.labelled_In String.eqb string_eqb_ok), name_at; eauto).
  pose proof (labelled_NoDup String.eqb (map name outs) (snd q)) as Do. pose proof (labelled_NoDup String.eqb (map name ins) (fst q)) as Di.
  destruct (In_nth_error _ _ So) as (ko & Ko). destruct (In_nth_error _ _ Si) as (ki & Ki).
  unfold value. rewrite (position_nth _ ko o Do Ko), (position_nth _ ki i Di Ki). fold d.
  assert (ko < nO q) as Lko by (unfold count; rewrite nfields_labelled; apply nth_error_Some; congruence).
  assert (ki < nI q) as Lki by (unfold count; rewrite nfields_labelled; apply nth_error_Some; congruence).
  set (cell := ko * nI q + ki).
  assert (cell < nO q * nI q) as Lcell.
  { unfold cell. clear - Lko Lki. generalize dependent (nO q). generalize dependent (nI q). intros a Ha z Hz. assert ((ko + 1) * a <= z * a) by (apply Nat.mul_le_mono_r; lia). lia. }
  assert (nth_error (cells_of name q outs ins) cell = Some (o, i)) as Ecell.
  { unfold cells_of. rewrite (nth_flat _ (nI q)); [|lia|intros y _; rewrite map_length; unfold count; rewrite nfields_labelled; reflexivity].
    unfold cell. rewrite Nat.div_add_l, Nat.div_small, Nat.add_0_r by lia. rewrite Ko. rewrite Nat.add_comm, Nat.mod_add, Nat.mod_small by lia. rewrite nth_error_map, Ki. reflexivity. }
  destruct (base_ok q Hq) as (_ & Le & Hall).
  assert (tot q = nO q * nI q * d) as Et by (unfold BlocksPlan.tot; fold d; lia).
  assert ((cell + 1) * d <= nO q * nI q * d) as Lcd by (apply Nat.mul_le_mono_r; lia).
  assert (forall j, j < d -> exists a, nth_error (kp q) j = Some a /\ nth_error all (base q + cell * d + j) = Some (q, (o, i), j, a)) as At.
  { intros j Hj. destruct (nth_error (kp q) j) as [a|] eqn:Ea; [|apply nth_error_None in Ea; fold d in Ea; lia]. exists a. split; [reflexivity|].
    rewrite <- Nat.add_assoc, Hall by lia. rewrite (slots_nth name ins outs ps kp H_kept q _ Hq). fold d.
    rewrite Nat.div_add_l, Nat.div_small, Nat.add_0_r by lia. rewrite Ecell. rewrite Nat.add_comm, Nat.mod_add, Nat.mod_small by lia. rewrite Ea. reflexivity. }
  rewrite (sumn_window _ (base q + cell * d) d); [|lia|].
  - apply sumn_ext. intros j Hj. destruct (At j Hj) as (a & Ea & Eall). rewrite Ea.
    assert (nth (base q + cell * d + j) infos dflt = info_at nirreps ins outs (base q + cell * d + j) (q, (o, i), j, a)) as -> by (apply nth_error_nth; rewrite infos_nth, Eall; reflexivity).
    unfold element_at. cbn [info_at mk_info out_field_position in_field_position block_id with_id at_id]. rewrite Eo, Ei. cbv zeta.
    rewrite (proj2 (Nat.leb_le _ _) (proj1 Br)), (proj2 (Nat.ltb_lt _ _) (proj2 Br)), (proj2 (Nat.leb_le _ _) (proj1 Be)), (proj2 (Nat.ltb_lt _ _) (proj2 Be)). cbn [andb].
    rewrite (H_el q ri ro Hq (nth_error_In _ _ Ei) (nth_error_In _ _ Eo) eq_refl), Ea. destruct a as [a s]. rewrite Nat.add_assoc. apply Rmult_comm.
  - intros k Hk Out. destruct (Req_dec (element_at size elements ins outs (nth k infos dflt) r e pt) 0) as [->|Nz]; [ring|]. exfalso.
    destruct (Only k Hk Nz) as (j & a & _ & Ek). pose proof (nth_error_In _ _ Ek) as Ia. apply all_In in Ia. destruct Ia as (_ & _ & Ej).
    assert (j < d) as Hj by (apply nth_error_Some; congruence). destruct (At j Hj) as (a' & Ea' & Eall). apply Out. enough (k = base q + cell * d + j) by lia.
    assert (NoDup (map slot infos)) as ND by (eapply slots_distinct; eassumption).
    apply (proj1 (NoDup_nth_error _) ND).
    + rewrite map_length, (infos_length name nirreps ins outs b ps kp H_dim). exact Hk.
    + rewrite !nth_error_map, !infos_nth, Ek, Eall. reflexivity.
Qed.
Lemma run0 : forall ft nm, (forall x, In x ft -> name x = nm) -> chan_list size ft (labelled String.eqb (map name ft) nm) = seq 0 (type_size size ft).
Proof.
  intros ft nm Hn. assert (labelled String.eqb (map name ft) nm = seq 0 (List.length ft)) as ->.
  { apply increasing_eq; [apply labelled_increasing|apply seq_increasing|]. intros a. rewrite (BranchProofs.labelled_In String.eqb string_eqb_ok), name_at, in_seq. split.
    - intros (x0 & E0 & _). assert (a < List.length ft) by (apply nth_error_Some; congruence). lia.
    - intros Ha. destruct (nth_error ft a) as [x0|] eqn:E0; [|apply nth_error_None in E0; lia]. exists x0. split; [reflexivity|]. apply Hn. eapply nth_error_In, E0. }
  rewrite chan_list_run by lia. unfold offset at 1. cbn. rewrite Nat.sub_0_r. f_equal. apply offset_all. lia.
Qed.
Notation formula w dflt r e pt := (sumn (bb_dim b) (fun k => nth k w 0 * element_at size elements ins outs (nth k infos dflt) r e pt)%R).
(** a single pair of representations: the block is the filter *)
Lemma uniform_ok : forall w dflt p, List.length w = bb_dim b -> bb_npairs b = 1 -> get_nth ps 0 = Ret p -> exists x y, In p ps /\ expand w p = Ret x /\
  reshape S x (type_size size outs) (type_size size ins) = Ret y /\
  chans_in p = seq 0 (type_size size ins) /\ chans_out p = seq 0 (type_size size outs) /\
  forall r e pt, r < type_size size outs -> e < type_size size ins -> y r e pt = formula w dflt r e pt.
Proof.
  intros w dflt p Lw E1 G. destruct (H_one E1) as (Oi & Oo & Oc). apply get_nth_Ret in G.
  assert (In p ps) as Hp by (eapply nth_error_In, G).
  destruct (block_value p w Hp Lw) as (x & y & Ex & Ey & V).
  pose proof (run0 outs (snd p) (fun x H => Oo p x Hp H)) as Ro. pose proof (run0 ins (fst p) (fun x H => Oi p x Hp H)) as Ri.
  rewrite Ri, Ro, !seq_length in Ey. exists x, y. split; [exact Hp|]. split; [exact Ex|]. split; [exact Ey|]. split; [exact Ri|]. split; [exact Ro|].
    intros r e pt Hr He. destruct (in_field size outs r Hr) as (o & ro & Fo & Bo). destruct (in_field size ins e He) as (i & ri & Fi & Bi).
    pose proof (nth_error_In _ _ Fo) as Io. pose proof (nth_error_In _ _ Fi) as Ii.
    destruct (V o i ro ri r e pt Fo Fi (Oo p ro Hp Io) (Oi p ri Hp Ii) Bo Bi) as (r' & e' & Pr & Pe & Ve).
    rewrite Ro in Pr. rewrite Ri in Pe.
    rewrite (position_nth _ r r) in Pr; [|apply seq_NoDup|rewrite nth_error_nth' with (d := 0) by (rewrite seq_length; lia); rewrite seq_nth by lia; reflexivity].
    rewrite (position_nth _ e e) in Pe; [|apply seq_NoDup|rewrite nth_error_nth' with (d := 0) by (rewrite seq_length; lia); rewrite seq_nth by lia; reflexivity].
    injection Pr as <-. injection Pe as <-. rewrite Ve. rewrite (value_sum w o i ro ri r e pt dflt Fo Fi Bo Bi).
    assert ((name ri, name ro) = p) as -> by (destruct p as [p1 p2]; f_equal; [apply (Oi (p1, p2) ri Hp Ii)|apply (Oo (p1, p2) ro Hp Io)]).
    destruct (in_dec q_eq_dec p ps) as [_|K]; [reflexivity|contradiction].
Qed.
Lemma loop_ok : forall w dflt, List.length w = bb_dim b -> exists F, filter_loop S key size (expand w) b = Ret F /\
  forall r e pt, r < type_size size outs -> e < type_size size ins -> F r e pt = formula w dflt r e pt.
Proof.
  intros w dflt Lw. unfold filter_loop.
  rewrite H_pairs. change (exists F, fold_left (step w) ps (Ret (fun _ _ _ => 0%R)) = Ret F /\
      forall r e pt, r < type_size size outs -> e < type_size size ins -> F r e pt = sumn (bb_dim b) (fun k => nth k w 0 * element_at size elements ins outs (nth k infos dflt) r e pt)%R).
    destruct (fold_ok w ps (fun _ _ _ => 0%R) (fun p H => H) H_ND Lw) as (F & EF & HF). exists F. split; [exact EF|]. intros r e pt Hr He.
    destruct (in_field size outs r Hr) as (o & ro & Fo & Bo). destruct (in_field size ins e He) as (i & ri & Fi & Bi).
    rewrite (HF o i ro ri r e pt Fo Fi Bo Bi). symmetry. apply value_sum; assumption.
Qed.
End Value.

Section Forward.
Context {A X P : Type}.
Variable S : nat.
Variable key : string * string -> res (string * string).
Variable name : A -> string.
Variables size nirreps : A -> nat.
Variables ins outs : list A.
Variable elements : A -> A -> list (attr X * (nat -> nat -> P -> R)).
Variable b : blocks A X P.
Variable ps : list (string * string).
Variable kp : string * string -> list (attr X * (nat -> nat -> P -> R)).
Variable sg : string * string -> single X P.
Hypothesis H_in : bb_in b = ins.
Hypothesis H_out : bb_out b = outs.
Hypothesis H_pairs : bb_pairs b = ps.
Hypothesis H_ND : NoDup ps.
Hypothesis H_ranges : bb_ranges b = ranges_of (tot name ins outs kp) 0 ps.
Hypothesis H_dim : bb_dim b = list_sum (map (tot name ins outs kp) ps).
Hypothesis H_mod : forall p, In p ps -> module_of key b p = Ret (sg p).
Hypothesis H_sg : forall p, In p ps -> holds (sg p) (kp p).
Hypothesis H_kept : forall p, In p ps -> kp p <> [].
Hypothesis H_real : forall p, In p ps -> In (fst p) (map name ins) /\ In (snd p) (map name outs).
Hypothesis H_el : forall p ri ro, In p ps -> In ri ins -> In ro outs -> p = (name ri, name ro) -> elements ri ro = kp p.
Hypothesis H_all : forall ri ro, In ri ins -> In ro outs -> elements ri ro <> [] -> In (name ri, name ro) ps.
Hypothesis H_shape : forall p ri ro, In p ps -> In ri ins -> In ro outs -> p = (name ri, name ro) -> sg_out (sg p) = size ro /\ sg_in (sg p) = size ri.
Notation sel_in p := (labelled String.eqb (map name ins) (fst p)).
Notation sel_out p := (labelled String.eqb (map name outs) (snd p)).
Notation chans_in p := (chan_list size ins (sel_in p)).
Notation chans_out p := (chan_list size outs (sel_out p)).
Variable v : string * string -> channels * channels.
Variable c : string * string -> bool.
Hypothesis H_idx : forall p, In p ps -> exists k, key p = Ret k /\ lookup pair_eqb (bb_indices b) k = Ret (v p).
Hypothesis H_cont : forall p, In p ps -> lookup pair_eqb (bb_contiguous b) p = Ret (c p).
Hypothesis H_run : forall p, In p ps -> c p = true -> exists ai ki ao ko, 0 < ki /\ 0 < ko /\
  chans_in p = seq ai ki /\ chans_out p = seq ao ko /\ v p = (Run ai (ai + ki - 1 + 1), Run ao (ao + ko - 1 + 1)).
Hypothesis H_listed : forall p, In p ps -> c p = false -> v p = (Listed (chans_in p), Listed (chans_out p)).
Hypothesis H_one : bb_npairs b = 1 -> (forall p ri, In p ps -> In ri ins -> name ri = fst p) /\ (forall p ro, In p ps -> In ro outs -> name ro = snd p) /\ (forall p, In p ps -> c p = true).


Theorem forward_ok : forall w dflt, List.length w = bb_dim b -> (bb_npairs b = 1 -> ps <> []) -> exists F, filter_of S key name size b w = Ret F /\
  forall r e pt, r < type_size size outs -> e < type_size size ins ->
    F r e pt = sumn (bb_dim b) (fun k => nth k w 0 * element_at size elements ins outs (nth k (infos name nirreps ins outs ps kp) dflt) r e pt)%R.
Proof.
  intros w dflt Lw Ne. unfold filter_of. rewrite (proj2 (Nat.eqb_eq _ _) Lw). cbn [assert_ bind].
  assert (forall p w, In p ps -> List.length w = bb_dim b -> exists x, expand_block S key name b w p = Ret x /\
    ex_oc x = count name outs (snd p) /\ ex_o x = sg_out (sg p) /\ ex_ic x = count name ins (fst p) /\ ex_i x = sg_in (sg p) /\
    forall ko a ki e pt, ko < count name outs (snd p) -> ki < count name ins (fst p) ->
      ex_entry x ko a ki e pt = sumn (List.length (kp p)) (fun j =>
        match nth_error (kp p) j with Some (_, s) => s | None => fun _ _ _ => 0%R end a e pt *
        nth (base b p + ((ko * count name ins (fst p) + ki) * List.length (kp p) + j))%nat w 0)%R) as HE by (intros; eapply expand_block_ok; eassumption).
  destruct (Nat.eqb_spec (bb_npairs b) 1) as [E1|N1].
  - destruct (H_one E1) as (Oi & Oo & Oc). specialize (Ne E1). assert (exists p, get_nth ps 0 = Ret p) as (p & Gp) by (destruct ps as [|p l]; [contradiction|exists p; reflexivity]).
    destruct (uniform_ok S name size nirreps ins outs elements b ps kp sg H_ND H_ranges H_dim H_kept H_real H_el H_shape c H_one _ HE w dflt p Lw E1 Gp) as (x & y & Hp & Ex & Ey & Ei & Eo & HF).
    rewrite H_pairs, Gp. cbn [bind]. destruct (H_idx p Hp) as (k & Ek & Ev). rewrite Ek. cbn [bind]. rewrite Ev, Ex. cbn [bind].
    destruct (H_run p Hp (Oc p Hp)) as (ai & ki & ao & ko & Pi & Po & Ei' & Eo' & ->).
    replace (ao + ko - 1 + 1 - ao) with ko by lia. replace (ai + ki - 1 + 1 - ai) with ki by lia.
    rewrite Ei in Ei'. rewrite Eo in Eo'. apply (f_equal (@List.length nat)) in Ei'. apply (f_equal (@List.length nat)) in Eo'. rewrite !seq_length in Ei', Eo'.
    rewrite <- Ei', <- Eo'. exists y. auto.
  - eapply loop_ok; eassumption.
Qed.
End Forward.
