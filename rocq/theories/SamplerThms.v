(** Proofs about SamplerModel: the messages of both orders. *)
From Coq Require Import String Ascii.
From Coq Require Import List ZArith Arith Bool Reals Lia Lra Permutation Sorted.
From Verif Require Import LibRes LibPy LibMat FieldModel SpecField FieldProofs BranchProofs LabelThms MergeThms GroupedModel GroupedProofs PoolProofs BlocksModel SpecBlocks BlocksProofs BlocksThms BlocksInfo BlocksPlan BlocksFwd BlocksValue BlocksCor SamplerModel SpecSampler SamplerProofs.
Import ListNotations.
Local Open Scope nat_scope.

Section Messages.
Context {A X P : Type}.
Variable name : A -> string.
Variables size nirreps : A -> nat.
Variables ins outs : list A.
Variable elements : A -> A -> list (attr X * (nat -> nat -> P -> R)).
Variable s : sampler A X P.
Notation b := (sm_blocks s).
Variable ps : list (string * string).
Variable kp : string * string -> list (attr X * (nat -> nat -> P -> R)).
Variable sg : string * string -> single X P.
Variable v : string * string -> channels * channels.
Variable c : string * string -> bool.
Hypothesis PL : planned plain name size ins outs elements b ps kp sg v c.
Hypothesis UN : sm_uniform s = true -> bb_npairs b = 1.
Notation sel_in p := (labelled String.eqb (map name ins) (fst p)).
Notation sel_out p := (labelled String.eqb (map name outs) (snd p)).
Notation chans_in p := (chan_list size ins (sel_in p)).
Notation chans_out p := (chan_list size outs (sel_out p)).
Notation nI p := (count name ins (fst p)).
Notation nO p := (count name outs (snd p)).
Notation n := (type_size size ins).
Notation m := (type_size size outs).
Notation d p := (List.length (kp p)).

Lemma coefficients_ok : forall p w, In p ps -> List.length w = bb_dim b -> exists cf, coefficients b w p = Ret cf /\ List.length cf = nO p * nI p * d p /\
  forall t, t < nO p * nI p * d p -> nth t cf 0%R = nth (base b p + t) w 0%R.
Proof.
  intros p w Hp Lw. destruct PL. destruct (base_ok name ins outs b ps kp pl_ND pl_ranges pl_dim c pl_one p Hp) as (Er & Le & _).
  unfold coefficients. rewrite Er. cbn [bind fst snd]. eexists. split; [reflexivity|].
  assert (tot name ins outs kp p = nO p * nI p * d p) as Et by (unfold tot; lia). rewrite <- Et.
  replace (base b p + tot name ins outs kp p - base b p) with (tot name ins outs kp p) by lia. split.
  - apply firstn_length_le. rewrite skipn_length. lia.
  - intros t Ht. apply nth_skip_first. exact Ht.
Qed.
Lemma contract_ok : forall p w, In p ps -> List.length w = bb_dim b -> exists x, contract_block name b w p = Ret x /\
  ex_oc x = nO p /\ ex_o x = sg_out (sg p) /\ ex_ic x = nI p /\ ex_i x = sg_in (sg p) /\
  forall ko a ki e pt, ko < nO p -> ki < nI p ->
    ex_entry x ko a ki e pt = sumn (d p) (fun j =>
      match nth_error (kp p) j with Some (_, s) => s | None => fun _ _ _ => 0%R end a e pt * nth (base b p + ((ko * nI p + ki) * d p + j))%nat w 0)%R.
Proof.
  intros p w Hp Lw. destruct (coefficients_ok p w Hp Lw) as (cf & Ec & Lc & Vc). destruct PL. destruct (pl_sg p Hp) as (Hd & _ & _ & Hn).
  unfold contract_block. rewrite (pl_mod p Hp), Ec. cbn [bind]. rewrite pl_in, pl_out, Hd, Lc, Nat.eqb_refl. cbn [assert_ bind]. eexists. split; [reflexivity|].
  cbn [ex_oc ex_o ex_ic ex_i ex_entry]. repeat split. intros ko a ki e pt Hko Hki. apply sumn_ext. intros j Hj. rewrite Hn, Rmult_comm. f_equal.
  rewrite Vc.
  - f_equal. lia.
  - assert ((ko + 1) * nI p <= nO p * nI p) by (apply Nat.mul_le_mono_r; lia). assert ((ko * nI p + ki + 1) * d p <= nO p * nI p * d p) by (apply Nat.mul_le_mono_r; lia). lia.
Qed.

(** the filter *)
Notation infos := (infos name nirreps ins outs ps kp).
Notation dformula w dflt r e pt := (sumn (bb_dim b) (fun k => nth k w 0 * element_at size elements ins outs (nth k infos dflt) r e pt)%R).
Notation formula w r e pt := (sumn (bb_dim b) (fun k => nth k w 0 * match nth_error infos k with Some f => element_at size elements ins outs f r e pt | None => 0 end)%R).
Lemma infos_len : List.length infos = bb_dim b.
Proof. destruct PL. eapply infos_length; eassumption. Qed.
Lemma formula_ok : forall w dflt r e pt, dformula w dflt r e pt = formula w r e pt.
Proof.
  intros w dflt r e pt. apply sumn_ext. intros k Hk. rewrite <- infos_len in Hk. destruct (nth_error infos k) as [f|] eqn:E; [|apply nth_error_None in E; lia]. rewrite (nth_error_nth _ _ _ E). reflexivity.
Qed.
Lemma no_infos : infos = [] -> ps = [].
Proof.
  intros E. assert (forall l : list (string * string), l = [] \/ l <> []) as D by (intros [|]; [left|right]; congruence). destruct (D ps) as [K|K]; [exact K|]. exfalso.
  eapply dim_pos; [exact PL|exact K|]. rewrite <- infos_len, E. reflexivity.
Qed.
Lemma value_formula : forall w o i ro ri r e pt, nth_error outs o = Some ro -> nth_error ins i = Some ri ->
  field_start size outs o <= r < field_start size outs o + size ro -> field_start size ins i <= e < field_start size ins i + size ri ->
  formula w r e pt = if in_dec q_eq_dec (name ri, name ro) ps then value name size ins outs b kp w (name ri, name ro) o i r e pt else 0%R.
Proof.
  intros w o i ro ri r e pt Eo Ei Br Be. destruct infos as [|f l] eqn:E.
  - destruct (in_dec q_eq_dec (name ri, name ro) ps) as [K|_]; [exfalso; rewrite (no_infos E) in K; destruct K|]. apply sumn_0. intros k _. destruct k; cbn [nth_error]; ring.
  - rewrite <- E. rewrite <- (formula_ok w f). pose proof PL as PL'. destruct PL'. eapply value_sum; eassumption.
Qed.
Lemma filter_ok : forall w, List.length w = bb_dim b -> (sm_uniform s = true -> ps <> []) -> exists F, sampler_filter name size s w = Ret F /\
  forall r e pt, r < m -> e < n -> F r e pt = formula w r e pt.
Proof.
  intros w Lw Ne. unfold sampler_filter. rewrite (proj2 (Nat.eqb_eq _ _) Lw). cbn [assert_ bind]. pose proof PL as PL'. destruct PL'. destruct (bool_dec (sm_uniform s) true) as [EU|EU]; [|apply not_true_is_false in EU]; rewrite EU.
  - assert (exists f : info X, True) as (dflt & _) by (specialize (Ne EU); destruct infos as [|f l] eqn:E; [exfalso; apply Ne, no_infos, E|exists f; exact I]).
    specialize (Ne EU). pose proof (UN EU) as UN1. assert (exists p, get_nth ps 0 = Ret p) as (p & Gp) by (destruct ps as [|p l]; [contradiction|exists p; reflexivity]).
    destruct (uniform_ok 1 name size nirreps ins outs elements b ps kp sg pl_ND pl_ranges pl_dim pl_kept pl_real pl_el pl_shape c pl_one (contract_block name b) contract_ok w dflt p Lw UN1 Gp)
      as (x & y & Hp & Ex & Ey & _ & _ & HF).
    rewrite pl_pairs, Gp. cbn [bind]. rewrite Ex. cbn [bind]. unfold output_size, input_size. rewrite pl_in, pl_out. exists y. split; [exact Ey|]. intros r e pt Hr He. rewrite <- (formula_ok w dflt). auto.
  - destruct infos as [|dflt l] eqn:E.
    + unfold filter_loop. rewrite pl_pairs, (no_infos E). cbn [fold_left]. eexists. split; [reflexivity|]. intros r e pt _ _. symmetry. apply sumn_0. intros k _. destruct k; cbn [nth_error]; ring.
    + rewrite <- E. assert (exists F, filter_loop 1 plain size (contract_block name b w) b = Ret F /\ forall r e pt, r < m -> e < n -> F r e pt = dformula w dflt r e pt) as (F & EF & HF).
      { eapply loop_ok; try eassumption. exact contract_ok. }
      exists F. split; [exact EF|]. intros r e pt Hr He. rewrite <- (formula_ok w dflt). auto.
Qed.

Lemma sizes_lookup : forall p, In p ps -> lookup String.eqb (in_sizes name size b) (fst p) = Ret (sg_in (sg p)).
Proof.
  intros p Hp. destruct PL. destruct (pl_real p Hp) as [Ri Ro]. apply in_map_iff in Ro. destruct Ro as (ro & No & Io).
  assert (forall r, In r ins -> name r = fst p -> size r = sg_in (sg p)) as Z.
  { intros r Hr Nr. destruct (pl_shape p r ro Hp Hr Io) as [_ K]; [destruct p; cbn [fst snd] in *; congruence|auto]. }
  unfold in_sizes. rewrite pl_in. unfold lookup.
  assert (forall l dd, (forall r, In r l -> In r ins) -> (dget String.eqb dd (fst p) = Some (sg_in (sg p)) \/ In (fst p) (map name l)) ->
    dget String.eqb (fold_left (fun d0 r => dset String.eqb d0 (name r) (size r)) l dd) (fst p) = Some (sg_in (sg p))) as G.
  { induction l as [|r l IH]; intros dd M H; cbn [fold_left].
    - destruct H as [H|[]]. exact H.
    - apply IH; [intros; apply M; right; assumption|]. rewrite (dget_dset String.eqb string_eqb_ok). destruct (String.eqb (name r) (fst p)) eqn:E.
      + left. apply String.eqb_eq in E. f_equal. apply Z; [apply M; left; reflexivity|exact E].
      + destruct H as [H|[H|H]]; [left; exact H|rewrite H, String.eqb_refl in E; discriminate|right; exact H]. }
  rewrite G; [reflexivity|auto|right; exact Ri].
Qed.

(** the block of a pair, computed first *)
Lemma out_block_ok : forall p w groups inp pt, In p ps -> List.length w = bb_dim b -> 0 < groups ->
  compute_out_block name b w groups (sg_in (sg p)) inp pt p = Raise /\ nO p mod groups <> 0 \/
  exists ob x, compute_out_block name b w groups (sg_in (sg p)) inp pt p = Ret ob /\ nO p mod groups = 0 /\ contract_block name b w p = Ret x /\
    ob_u ob = nO p / groups /\ ob_o ob = sg_out (sg p) /\
    forall g k a, g < groups -> k < nO p / groups ->
      ob_entry ob g k a = sumn (nI p) (fun j => sumn (sg_in (sg p)) (fun i => ex_entry x (g * (nO p / groups) + k) a j i pt * inp g j i)%R).
Proof.
  intros p w groups inp pt Hp Lw Pg. destruct (coefficients_ok p w Hp Lw) as (cf & Ec & Lc & Vc). destruct (contract_ok p w Hp Lw) as (x & Ex & X1 & X2 & X3 & X4 & Val).
  pose proof PL as PL'. destruct PL'. destruct (pl_sg p Hp) as (Hd & _ & _ & Hn). destruct (pl_real p Hp) as [Ri Ro].
  unfold compute_out_block. rewrite (pl_mod p Hp), Ec. cbn [bind]. rewrite pl_in, pl_out, Hd, Lc.
  pose proof (count_pos name ins _ Ri) as Pi. assert (0 < d p) as Pd by (pose proof (pl_kept p Hp); destruct (kp p); [contradiction|cbn; lia]).
  pose proof (Nat.div_mod (nO p) groups ltac:(lia)) as DM. set (u := nO p / groups) in *.
  destruct (Nat.eqb_spec (nO p * nI p * d p) (groups * u * nI p * d p)) as [E|E].
  2:{ left. split; [reflexivity|]. intros K. apply E. rewrite K, Nat.add_0_r in DM. rewrite DM at 1. reflexivity. }
  right. assert (nO p = groups * u) as Eo by (apply Nat.mul_cancel_r in E; [|lia]; apply Nat.mul_cancel_r in E; [exact E|lia]).
  cbn [assert_ bind]. rewrite Nat.eqb_refl. cbn [assert_ bind]. eexists. exists x. split; [reflexivity|]. split; [lia|]. split; [exact Ex|]. cbn [ob_u ob_o ob_entry].
  split; [reflexivity|]. split; [reflexivity|]. intros g k a Hg Hk. apply sumn_ext. intros j Hj. apply sumn_ext. intros i Hi.
  assert (g * u + k < nO p) as Lk by (assert ((g + 1) * u <= groups * u) by (apply Nat.mul_le_mono_r; lia); lia).
  rewrite (Val (g * u + k) a j i pt Lk Hj). rewrite <- sumn_scal_r. apply sumn_ext. intros l Hl. rewrite Hn. rewrite (Rmult_comm (nth _ cf 0%R)). f_equal. f_equal.
  rewrite Vc.
  - f_equal. lia.
  - assert ((g * u + k + 1) * nI p <= nO p * nI p) by (apply Nat.mul_le_mono_r; lia).
    assert (((g * u + k) * nI p + j + 1) * d p <= nO p * nI p * d p) by (apply Nat.mul_le_mono_r; lia). lia.
Qed.

(** *** the messages of one pair *)
Definition none : @expanded P := {| ex_oc := 0; ex_o := 0; ex_ic := 0; ex_i := 0; ex_entry := fun _ _ _ _ _ => 0%R |}.
Definition xp (w : list R) (p : string * string) : @expanded P := match contract_block name b w p with Ret x => x | Raise => none end.
(** the entry of a filter that the block of [p] holds, at offset [a] of the [ko]-th field of its name *)
Definition entry (w : list R) (pt : P) (nm : string) (ko a : nat) (p : string * string) (e : nat) : R :=
  match position (chans_in p) e with
  | Some t => if string_dec (snd p) nm then ex_entry (xp w p) ko a (t / sg_in (sg p)) (t mod sg_in (sg p)) pt else 0%R
  | None => 0%R
  end.
Lemma div_small : forall q k r, r < k -> (q * k + r) / k = q.
Proof. intros. rewrite Nat.div_add_l, Nat.div_small by lia. lia. Qed.
Lemma mod_small : forall q k r, r < k -> (q * k + r) mod k = r.
Proof. intros. rewrite Nat.add_comm, Nat.mod_add, Nat.mod_small by lia. reflexivity. Qed.
Lemma uniform_sizes : forall p, In p ps ->
  (forall x, In x (sel_in p) -> exists r, nth_error ins x = Some r /\ size r = sg_in (sg p)) /\
  (forall x, In x (sel_out p) -> exists r, nth_error outs x = Some r /\ size r = sg_out (sg p)).
Proof. intros p Hp. destruct PL. eapply sel_uniform; eassumption. Qed.
Lemma chans_in_length : forall p, In p ps -> List.length (chans_in p) = nI p * sg_in (sg p).
Proof.
  intros p Hp. destruct (uniform_sizes p Hp) as [Ui _]. rewrite (chan_length size ins _ _ Ui). unfold count. rewrite nfields_labelled. reflexivity.
Qed.
Lemma chans_out_length : forall p, In p ps -> List.length (chans_out p) = nO p * sg_out (sg p).
Proof.
  intros p Hp. destruct (uniform_sizes p Hp) as [_ Uo]. rewrite (chan_length size outs _ _ Uo). unfold count. rewrite nfields_labelled. reflexivity.
Qed.
Lemma rank_lt : forall ft l k o, nth_error (labelled String.eqb (map name ft) l) k = Some o -> k < count name ft l.
Proof. intros. unfold count. rewrite nfields_labelled. apply nth_error_Some. congruence. Qed.
(** the rows of the block *)
Lemma row_position : forall p o ro ko r, In p ps -> nth_error outs o = Some ro -> name ro = snd p -> nth_error (sel_out p) ko = Some o ->
  field_start size outs o <= r < field_start size outs o + size ro ->
  position (chans_out p) r = Some (ko * sg_out (sg p) + (r - field_start size outs o)) /\ r - field_start size outs o < sg_out (sg p).
Proof.
  intros p o ro ko r Hp Eo No Ko Br. destruct (uniform_sizes p Hp) as [_ Uo]. pose proof (labelled_NoDup String.eqb (map name outs) (snd p)) as Do.
  assert (size ro = sg_out (sg p)) as Zo by (destruct (Uo o (nth_error_In _ _ Ko)) as (r0 & E0 & <-); congruence). split; [|lia].
  rewrite <- (chan_position size outs (sel_out p) (sg_out (sg p)) ko o (r - field_start size outs o) Do Uo Ko) by lia. f_equal. lia.
Qed.
Lemma message_ok : forall p w groups x pt ob o ro ko r, In p ps -> List.length w = bb_dim b -> 0 < groups ->
  compute_out_block name b w groups (sg_in (sg p)) (fun g j i => nth (g * n + nth (j * sg_in (sg p) + i) (chans_in p) 0) x 0%R) pt p = Ret ob ->
  nth_error outs o = Some ro -> nth_error (labelled String.eqb (map name outs) (name ro)) ko = Some o ->
  field_start size outs o <= r < field_start size outs o + size ro ->
  match position (chans_out p) r with Some t => ob_flat ob t | None => 0%R end =
  sumn n (fun e => entry w pt (name ro) ko (r - field_start size outs o) p e * nth (ko / (count name outs (name ro) / groups) * n + e)%nat x 0)%R.
Proof.
  intros p w groups x pt ob o ro ko r Hp Lw Pg Eob Eo Ko Br.
  destruct (string_dec (snd p) (name ro)) as [En|Nn].
  2:{ rewrite (chan_outside size outs (sel_out p) r o ro Eo Br).
      - symmetry. apply sumn_0. intros e _. unfold entry. destruct (string_dec (snd p) (name ro)); [contradiction|]. destruct (position (chans_in p) e); ring.
      - intros H. apply (BranchProofs.labelled_In String.eqb string_eqb_ok), name_at in H. destruct H as (r0 & E0 & N0). congruence. }
  pose proof Ko as Ko'. rewrite <- En in Ko'. destruct (row_position p o ro ko r Hp Eo (eq_sym En) Ko' Br) as [-> La]. set (a := r - field_start size outs o) in *.
  destruct (out_block_ok p w groups (fun g j i => nth (g * n + nth (j * sg_in (sg p) + i) (chans_in p) 0) x 0%R) pt Hp Lw Pg) as [[K _]|(ob' & xx & Eob' & Mod & Ex & U1 & U2 & Val)]; [congruence|].
  assert (ob' = ob) as -> by (rewrite Eob in Eob'; apply Ret_inj in Eob'; congruence).
  unfold ob_flat. rewrite U1, U2, div_small, mod_small by exact La. pose proof (rank_lt _ _ _ _ Ko') as Lko. rewrite <- En. set (u := nO p / groups) in *.
  pose proof (Nat.div_mod (nO p) groups ltac:(lia)) as DM. rewrite Mod, Nat.add_0_r in DM. fold u in DM.
  assert (0 < u) as Pu by (destruct u; lia).
  assert (ko / u < groups) as Lg by (apply Nat.div_lt_upper_bound; lia). assert (ko mod u < u) as Lm by (apply Nat.mod_upper_bound; lia).
  rewrite (Val (ko / u) (ko mod u) a Lg Lm). assert (ko / u * u + ko mod u = ko) as -> by (pose proof (Nat.div_mod ko u ltac:(lia)); lia).
  set (isz := sg_in (sg p)) in *. set (cols := chans_in p) in *.
  transitivity (sumn (nI p * isz) (fun t => ex_entry xx ko a (t / isz) (t mod isz) pt * nth (ko / u * n + nth t cols 0)%nat x 0)%R).
  { rewrite sumn_mul. apply sumn_ext. intros j Hj. apply sumn_ext. intros i Hi. rewrite div_small, mod_small by exact Hi. reflexivity. }
  unfold isz at 1. rewrite <- (chans_in_length p Hp). fold cols.
  rewrite <- (sumn_position n cols (fun t e => ex_entry xx ko a (t / isz) (t mod isz) pt * nth (ko / u * n + e)%nat x 0)%R).
  - apply sumn_ext. intros e He. unfold entry. fold cols. fold isz. destruct (position cols e) as [t|]; [|ring]. destruct (string_dec (snd p) (snd p)) as [_|K]; [|contradiction].
    unfold xp. rewrite Ex. reflexivity.
  - apply chan_list_NoDup, (labelled_NoDup String.eqb).
  - pose proof (chan_list_lt size ins (sel_in p)) as F. rewrite Forall_forall in F. exact F.
Qed.
Lemma entry_ok : forall p w pt o ro ko r i ri e, In p ps -> List.length w = bb_dim b ->
  nth_error outs o = Some ro -> nth_error (labelled String.eqb (map name outs) (name ro)) ko = Some o ->
  field_start size outs o <= r < field_start size outs o + size ro ->
  nth_error ins i = Some ri -> field_start size ins i <= e < field_start size ins i + size ri ->
  entry w pt (name ro) ko (r - field_start size outs o) p e = if q_eq_dec p (name ri, name ro) then value name size ins outs b kp w (name ri, name ro) o i r e pt else 0%R.
Proof.
  intros p w pt o ro ko r i ri e Hp Lw Eo Ko Br Ei Be. unfold entry. destruct (string_dec (fst p) (name ri)) as [E1|N1].
  2:{ rewrite (chan_outside size ins (sel_in p) e i ri Ei Be).
      - destruct (q_eq_dec p (name ri, name ro)) as [->|]; [exfalso; apply N1; reflexivity|reflexivity].
      - intros H. apply (BranchProofs.labelled_In String.eqb string_eqb_ok), name_at in H. destruct H as (r0 & E0 & N0). congruence. }
  destruct (uniform_sizes p Hp) as [Ui Uo]. pose proof (labelled_NoDup String.eqb (map name ins) (fst p)) as Di.
  assert (In i (sel_in p)) as Si by (apply (BranchProofs.labelled_In String.eqb string_eqb_ok), name_at; eauto).
  destruct (In_nth_error _ _ Si) as (ki & Ki). assert (size ri = sg_in (sg p)) as Zi by (destruct (Ui i Si) as (r0 & E0 & <-); congruence).
  assert (position (chans_in p) e = Some (ki * sg_in (sg p) + (e - field_start size ins i))) as ->.
  { rewrite <- (chan_position size ins (sel_in p) (sg_in (sg p)) ki i (e - field_start size ins i) Di Ui Ki) by lia. f_equal. lia. }
  destruct (string_dec (snd p) (name ro)) as [E2|N2].
  2:{ destruct (q_eq_dec p (name ri, name ro)) as [->|]; [exfalso; apply N2; reflexivity|reflexivity]. }
  destruct (q_eq_dec p (name ri, name ro)) as [Ep|Np]; [|exfalso; apply Np; destruct p as [p1 p2]; cbn [fst snd] in *; congruence].
  destruct (contract_ok p w Hp Lw) as (x & Ex & X1 & X2 & X3 & X4 & Val). unfold xp. rewrite Ex.
  rewrite div_small, mod_small by lia. pose proof Ko as Ko'. rewrite <- E2 in Ko'. rewrite Val by (eapply rank_lt; eassumption).
  unfold value. rewrite <- Ep. rewrite (position_nth _ ko o (labelled_NoDup String.eqb (map name outs) (snd p)) Ko'), (position_nth _ ki i Di Ki). reflexivity.
Qed.
(** all pairs together: the filter, applied to the group of the field *)
Lemma sum_ok : forall w groups x pt o ro ko r, List.length w = bb_dim b -> 0 < groups ->
  nth_error outs o = Some ro -> nth_error (labelled String.eqb (map name outs) (name ro)) ko = Some o ->
  field_start size outs o <= r < field_start size outs o + size ro ->
  tsum (fun p => sumn n (fun e => entry w pt (name ro) ko (r - field_start size outs o) p e * nth (ko / (count name outs (name ro) / groups) * n + e)%nat x 0)%R) ps =
  row_message n (fun r e => formula w r e pt) x r (ko / (count name outs (name ro) / groups)).
Proof.
  intros w groups x pt o ro ko r Lw Pg Eo Ko Br. rewrite tsum_sumn. unfold row_message. apply sumn_ext. intros e He. rewrite tsum_scal. f_equal.
  destruct (in_field size ins e He) as (i & ri & Ei & Be). pose proof PL as PL'. destruct PL'.
  transitivity (tsum (fun p => if q_eq_dec p (name ri, name ro) then value name size ins outs b kp w (name ri, name ro) o i r e pt else 0%R) ps).
  - apply tsum_ext. intros p Hp. apply entry_ok; assumption.
  - rewrite tsum_one by exact pl_ND. symmetry. apply value_formula; assumption.
Qed.

(** *** computing first *)
Definition good (groups : nat) (p : string * string) : Prop := nO p mod groups = 0 /\ (c p = true -> groups = 1).
Notation inp x p := (fun g j i => nth (g * n + nth (j * sg_in (sg p) + i) (chans_in p) 0) x 0%R).
Definition mstep (w x : list R) (pt : P) (groups : nat) (r : res (nat -> R)) (p : string * string) : res (nat -> R) :=
  f <- r ;;
  k <- plain p ;;
  v <- lookup pair_eqb (bb_indices b) k ;;
  c <- lookup pair_eqb (bb_contiguous b) p ;;
  cols <- positions (input_size size b) (fst v) ;;
  isz <- lookup String.eqb (in_sizes name size b) (fst p) ;;
  assert (Nat.eqb (groups * List.length cols) (groups * count name (bb_in b) (fst p) * isz)) ;;
  ob <- compute_out_block name b w groups isz (fun g j i => nth (g * input_size size b + nth (j * isz + i) cols 0) x 0%R) pt p ;;
  rows <- positions (output_size size b) (snd v) ;;
  match v, (c : bool) with
  | (Run _ _, Run oa oe), true =>
      assert (Nat.eqb (groups * ob_u ob * ob_o ob) (groups * (oe - oa))) ;;
      assert (Nat.eqb (groups * (oe - oa)) (List.length rows)) ;;
      Ret (fun r => f r + match position rows r with Some t => ob_flat ob t | None => 0 end)%R
  | (Listed _, Listed _), false =>
      assert (Nat.eqb (groups * ob_u ob * ob_o ob) (List.length rows)) ;;
      Ret (fun r => f r + match position rows r with Some t => ob_flat ob t | None => 0 end)%R
  | _, _ => Raise
  end.
Lemma chans_ok : forall p, In p ps -> positions (input_size size b) (fst (v p)) = Ret (chans_in p) /\ positions (output_size size b) (snd (v p)) = Ret (chans_out p) /\
  (c p = true -> exists ai ki ao ko, v p = (Run ai (ai + ki - 1 + 1), Run ao (ao + ko - 1 + 1)) /\ 0 < ko /\ List.length (chans_out p) = ko) /\
  (c p = false -> v p = (Listed (chans_in p), Listed (chans_out p))).
Proof.
  intros p Hp. destruct PL. unfold input_size, output_size. rewrite pl_in, pl_out. destruct (c p) eqn:Ec.
  - destruct (pl_run p Hp Ec) as (ai & ki & ao & ko & Pi & Po & Ei & Eo & Ev). rewrite Ev. cbn [fst snd].
    rewrite !run_positions by (try assumption; eapply chans_bounds; eassumption). unfold chans_of in Ei, Eo. rewrite Ei, Eo. repeat split; try discriminate.
    intros _. exists ai, ki, ao, ko. rewrite seq_length. auto.
  - rewrite (pl_listed p Hp Ec). cbn [fst snd positions]. repeat split. discriminate.
Qed.
Lemma mstep_ok : forall p w x pt groups f, In p ps -> List.length w = bb_dim b -> 0 < groups ->
  mstep w x pt groups (Ret f) p = Raise /\ ~ good groups p \/
  exists ob, mstep w x pt groups (Ret f) p = Ret (fun r => f r + match position (chans_out p) r with Some t => ob_flat ob t | None => 0 end)%R /\
    compute_out_block name b w groups (sg_in (sg p)) (inp x p) pt p = Ret ob /\ good groups p.
Proof.
  intros p w x pt groups f Hp Lw Pg. destruct (chans_ok p Hp) as (Pi & Po & Cr & Cl). pose proof (chans_in_length p Hp) as Li. pose proof (chans_out_length p Hp) as Lo.
  unfold mstep. cbn [bind]. pose proof PL as PL'. destruct PL'. destruct (pl_idx p Hp) as (k & Ek & Ev). rewrite Ek. cbn [bind]. rewrite Ev, (pl_cont p Hp). cbn [bind]. rewrite Pi, (sizes_lookup p Hp). cbn [bind].
  rewrite pl_in, Li. rewrite (proj2 (Nat.eqb_eq _ _)) by lia. cbn [assert_ bind]. unfold input_size. rewrite pl_in.
  destruct (out_block_ok p w groups (inp x p) pt Hp Lw Pg) as [[E Nm]|(ob & xx & E & Mod & _ & U1 & U2 & _)]; rewrite E.
  - left. split; [reflexivity|]. intros [H _]. contradiction.
  - cbn [bind]. rewrite Po. cbn [bind]. pose proof (Nat.div_mod (nO p) groups ltac:(lia)) as DM. rewrite Mod, Nat.add_0_r in DM.
    assert (groups * ob_u ob * ob_o ob = List.length (chans_out p)) as Eob by (rewrite U1, U2, Lo, <- DM; reflexivity).
    clear Ev. destruct (c p) eqn:Ec.
    + destruct (Cr eq_refl) as (ai & ki & ao & ko & -> & Pk & Lk). replace (ao + ko - 1 + 1 - ao) with ko by lia. rewrite Eob, Lk.
      destruct (Nat.eqb_spec ko (groups * ko)) as [K|K].
      * right. assert (groups = 1) as -> by (destruct groups as [|[|g]]; [lia|reflexivity|exfalso; rewrite !Nat.mul_succ_l in K; lia]). rewrite Nat.mul_1_l, Nat.eqb_refl. cbn [assert_ bind]. exists ob. split; [reflexivity|].
        split; [reflexivity|]. split; [exact Mod|auto].
      * left. split; [reflexivity|]. intros [_ H]. specialize (H Ec). subst groups. apply K. lia.
    + rewrite (Cl eq_refl), Eob, Nat.eqb_refl. cbn [assert_ bind]. right. exists ob. split; [reflexivity|]. split; [reflexivity|]. split; [exact Mod|congruence].
Qed.
Lemma mstep_raise : forall w x pt groups l, fold_left (mstep w x pt groups) l Raise = Raise.
Proof. intros w x pt groups; induction l as [|p l IH]; [reflexivity|exact IH]. Qed.
Lemma mfold_ok : forall w x pt groups l f, (forall p, In p l -> In p ps) -> List.length w = bb_dim b -> 0 < groups ->
  fold_left (mstep w x pt groups) l (Ret f) = Raise /\ (exists p, In p l /\ ~ good groups p) \/
  exists G, fold_left (mstep w x pt groups) l (Ret f) = Ret G /\ (forall p, In p l -> good groups p) /\
    forall o ro ko r, nth_error outs o = Some ro -> nth_error (labelled String.eqb (map name outs) (name ro)) ko = Some o ->
      field_start size outs o <= r < field_start size outs o + size ro ->
      G r = (f r + tsum (fun p => sumn n (fun e => entry w pt (name ro) ko (r - field_start size outs o) p e * nth (ko / (count name outs (name ro) / groups) * n + e)%nat x 0)%R) l)%R.
Proof.
  intros w x pt groups l; induction l as [|p l IH]; intros f Mem Lw Pg; cbn [fold_left].
  - right. exists f. split; [reflexivity|]. split; [intros p []|]. intros. cbn. ring.
  - pose proof (Mem p (or_introl eq_refl)) as Hp. destruct (mstep_ok p w x pt groups f Hp Lw Pg) as [[E N]|(ob & E & Eob & Gp)]; rewrite E.
    + left. split; [apply mstep_raise|]. exists p. split; [left; reflexivity|exact N].
    + destruct (IH (fun r => f r + match position (chans_out p) r with Some t => ob_flat ob t | None => 0 end)%R (fun q Hq => Mem q (or_intror Hq)) Lw Pg) as [[E' (q & Hq & N)]|(G & E' & HG & V)].
      * left. split; [exact E'|]. exists q. split; [right; exact Hq|exact N].
      * right. exists G. split; [exact E'|]. split; [intros q [<-|Hq]; auto|]. intros o ro ko r Eo Ko Br. rewrite (V o ro ko r Eo Ko Br).
        rewrite (message_ok p w groups x pt ob o ro ko r Hp Lw Pg Eob Eo Ko Br). cbn [tsum fold_right]. unfold tsum. ring.
Qed.
Lemma rank_exists : forall o ro, nth_error outs o = Some ro -> exists ko, nth_error (labelled String.eqb (map name outs) (name ro)) ko = Some o.
Proof. intros o ro E. apply In_nth_error. apply (BranchProofs.labelled_In String.eqb string_eqb_ok), name_at. eauto. Qed.
Lemma then_expand_ok : forall w x pt groups, List.length w = bb_dim b -> List.length x = n * groups -> 0 < groups ->
  compute_then_expand name size s w x pt groups = Raise /\ ~ ((sm_uniform s = true -> ps <> []) /\ forall p, In p ps -> nO p mod groups = 0 /\ (sm_uniform s = false -> c p = true -> groups = 1)) \/
  exists G, compute_then_expand name size s w x pt groups = Ret (map G (seq 0 m)) /\
    ((sm_uniform s = true -> ps <> []) /\ forall p, In p ps -> nO p mod groups = 0 /\ (sm_uniform s = false -> c p = true -> groups = 1)) /\
    forall o ro ko r, nth_error outs o = Some ro -> nth_error (labelled String.eqb (map name outs) (name ro)) ko = Some o ->
      field_start size outs o <= r < field_start size outs o + size ro ->
      G r = row_message n (fun r e => formula w r e pt) x r (ko / (count name outs (name ro) / groups)).
Proof.
  intros w x pt groups Lw Lx Pg. unfold compute_then_expand.
  assert (Nat.eqb (List.length x) (groups * input_size size b) = true) as -> by (apply Nat.eqb_eq; unfold input_size; rewrite (pl_in _ _ _ _ _ _ _ _ _ _ _ _ PL); lia).
  cbn [assert_ bind]. destruct (bool_dec (sm_uniform s) true) as [EU|EU]; [|apply not_true_is_false in EU]; rewrite EU.
  - unfold output_size, input_size. rewrite (pl_in _ _ _ _ _ _ _ _ _ _ _ _ PL), (pl_out _ _ _ _ _ _ _ _ _ _ _ _ PL), (pl_pairs _ _ _ _ _ _ _ _ _ _ _ _ PL).
    destruct ps as [|p l] eqn:Eps.
    { left. split; [reflexivity|]. intros [H _]. exact (H eq_refl eq_refl). }
    rewrite <- Eps in *. assert (In p ps) as Hp by (rewrite Eps; left; reflexivity). replace (get_nth ps 0) with (Ret p) by (rewrite Eps; reflexivity). cbn [bind].
    rewrite (sizes_lookup p Hp). cbn [bind]. pose proof (UN EU) as UN1. destruct (pl_one _ _ _ _ _ _ _ _ _ _ _ _ PL UN1) as (Oi & Oo & Oc).
    assert (forall q, In q ps -> q = p) as Only.
    { intros q Hq. destruct (pl_real _ _ _ _ _ _ _ _ _ _ _ _ PL q Hq) as [Ri Ro]. apply in_map_iff in Ri. destruct Ri as (ri & Ni & Ii). apply in_map_iff in Ro. destruct Ro as (ro & No & Io).
      destruct p as [p1 p2], q as [q1 q2]. pose proof (Oi _ ri Hp Ii). pose proof (Oo _ ro Hp Io). cbn [fst snd] in *. congruence. }
    assert (forall ft nm, (forall x, In x ft -> name x = nm) -> chan_list size ft (labelled String.eqb (map name ft) nm) = seq 0 (type_size size ft)) as R0 by (intros; apply all_named; assumption).
    pose proof (R0 ins (fst p) (fun y Hy => Oi p y Hp Hy)) as Ri. pose proof (R0 outs (snd p) (fun y Hy => Oo p y Hp Hy)) as Ro.
    pose proof (chans_in_length p Hp) as Li. rewrite Ri, seq_length in Li. pose proof (chans_out_length p Hp) as Lo. rewrite Ro, seq_length in Lo.
    rewrite <- Nat.mul_assoc, <- Li, Nat.eqb_refl. cbn [assert_ bind].
    destruct (out_block_ok p w groups (fun g j i => nth (g * n + (j * sg_in (sg p) + i)) x 0%R) pt Hp Lw Pg) as [[E Nm]|(ob & xx & E & Mod & Ex & U1 & U2 & Val)]; rewrite E.
    { left. split; [reflexivity|]. intros [_ H]. destruct (H p Hp). contradiction. }
    cbn [bind]. pose proof (Nat.div_mod (nO p) groups ltac:(lia)) as DM. rewrite Mod, Nat.add_0_r in DM. rewrite U1, U2.
    replace (groups * (nO p / groups) * sg_out (sg p)) with m by (rewrite <- DM; exact Lo). rewrite Nat.eqb_refl. cbn [assert_ bind]. right. exists (ob_flat ob). split; [reflexivity|]. split.
    { split; [intros _; rewrite Eps; discriminate|]. intros q Hq. rewrite (Only q Hq). split; [exact Mod|discriminate]. }
    intros o ro ko r Eo Ko Br.
    destruct (out_block_ok p w groups (inp x p) pt Hp Lw Pg) as [[_ Nm]|(ob' & xx' & E' & _ & Ex' & U1' & U2' & Val')]; [contradiction|].
    assert (xx' = xx) as -> by (rewrite Ex in Ex'; apply Ret_inj in Ex'; congruence).
    pose proof (Oo p ro Hp (nth_error_In _ _ Eo)) as No. pose proof Ko as Ko'. rewrite No in Ko'.
    destruct (row_position p o ro ko r Hp Eo No Ko' Br) as [Pr La]. pose proof (message_ok p w groups x pt ob' o ro ko r Hp Lw Pg E' Eo Ko Br) as V. rewrite Pr in V.
    pose proof (rank_lt _ _ _ _ Ko') as Lko. set (u := nO p / groups) in *. assert (0 < u) as Pu by (destruct u; lia).
    assert (ko / u < groups) as Lg by (apply Nat.div_lt_upper_bound; lia). assert (ko mod u < u) as Lm by (apply Nat.mod_upper_bound; lia).
    assert (r = ko * sg_out (sg p) + (r - field_start size outs o)) as Er.
    { apply position_Some in Pr. rewrite Ro in Pr. assert (ko * sg_out (sg p) + (r - field_start size outs o) < m) as L by (assert (nth_error (seq 0 m) (ko * sg_out (sg p) + (r - field_start size outs o)) <> None) as K by congruence; apply nth_error_Some in K; rewrite seq_length in K; exact K).
      rewrite (nth_error_nth' _ 0) in Pr by (rewrite seq_length; exact L). rewrite seq_nth in Pr by exact L. injection Pr as Pr. lia. }
    transitivity (ob_flat ob' (ko * sg_out (sg p) + (r - field_start size outs o))).
    { rewrite <- Er. unfold ob_flat. rewrite U1, U2, U1', U2'. rewrite Er, div_small, mod_small by exact La. rewrite Val, Val' by assumption.
      apply sumn_ext. intros j Hj. apply sumn_ext. intros i Hi. do 3 f_equal. rewrite Ri. rewrite seq_nth; [reflexivity|]. rewrite Li. assert ((j + 1) * sg_in (sg p) <= nI p * sg_in (sg p)) by (apply Nat.mul_le_mono_r; lia). lia. }
    rewrite V. rewrite <- (sum_ok w groups x pt o ro ko r Lw Pg Eo Ko Br). rewrite Eps. destruct l as [|q l]; [cbn [tsum fold_right]; ring|].
    exfalso. pose proof (pl_ND _ _ _ _ _ _ _ _ _ _ _ _ PL) as ND. rewrite Eps in ND. apply NoDup_cons_iff in ND. destruct ND as [N _]. apply N. left. apply Only. rewrite Eps. right. left. reflexivity.
  - rewrite (pl_pairs _ _ _ _ _ _ _ _ _ _ _ _ PL). assert (output_size size b = m) as EO by (unfold output_size; rewrite (pl_out _ _ _ _ _ _ _ _ _ _ _ _ PL); reflexivity).
    change (fold_left _ ps (Ret (fun _ : nat => 0%R))) with (fold_left (mstep w x pt groups) ps (Ret (fun _ : nat => 0%R))).
    destruct (mfold_ok w x pt groups ps (fun _ => 0%R) (fun p H => H) Lw Pg) as [[E (p & Hp & N)]|(G & E & HG & V)]; rewrite E; cbn [bind]; rewrite ?EO.
    + left. split; [reflexivity|]. intros [_ H]. apply N. destruct (H p Hp) as [H1 H2]. split; [exact H1|exact (H2 eq_refl)].
    + right. exists G. split; [reflexivity|]. split; [split; [discriminate|]; intros p Hp; destruct (HG p Hp); auto|]. intros o ro ko r Eo Ko Br.
      rewrite (V o ro ko r Eo Ko Br), Rplus_0_l. apply sum_ok; assumption.
Qed.
(** *** the filter first *)
Lemma then_compute_ok : forall w x pt groups, List.length w = bb_dim b -> List.length x = n * groups -> 0 < groups -> m mod groups = 0 -> (sm_uniform s = true -> ps <> []) ->
  expand_then_compute name size s w x pt groups = Ret (map (fun r => row_message n (fun r e => formula w r e pt) x r (r / (m / groups))) (seq 0 m)).
Proof.
  intros w x pt groups Lw Lx Pg Mod Ne. destruct (filter_ok w Lw Ne) as (F & EF & VF). unfold expand_then_compute. rewrite EF. cbn [bind]. unfold output_size, input_size.
  rewrite (pl_in _ _ _ _ _ _ _ _ _ _ _ _ PL), (pl_out _ _ _ _ _ _ _ _ _ _ _ _ PL). rewrite (proj2 (Nat.eqb_eq _ _)) by lia. cbn [assert_ bind].
  pose proof (Nat.div_mod m groups ltac:(lia)) as DM. rewrite Mod, Nat.add_0_r in DM. rewrite <- DM, Nat.eqb_refl. cbn [assert_ bind]. f_equal. apply map_ext_in. intros r Hr. apply in_seq in Hr.
  unfold row_message. apply sumn_ext. intros e He. f_equal. set (u := m / groups) in *. assert (u <> 0) as Nu by (intros K; rewrite K in DM; lia).
  replace (r / u * u + r mod u) with r by (pose proof (Nat.div_mod r u Nu); lia). apply VF; lia.
Qed.
Lemma then_compute_raise : forall w x pt groups, sm_uniform s = true -> ps = [] -> expand_then_compute name size s w x pt groups = Raise.
Proof.
  intros w x pt groups EU Eps. unfold expand_then_compute, sampler_filter. rewrite EU, (pl_pairs _ _ _ _ _ _ _ _ _ _ _ _ PL), Eps. cbn [get_nth nth_error bind]. destruct (Nat.eqb (List.length w) (bb_dim b)); reflexivity.
Qed.
End Messages.
