(** Proofs about BlocksModel: get_element_info and get_basis_info list the same slots. *)
From Coq Require Import String.
From Coq Require Import List ZArith Arith Bool Reals Lia Lra Permutation Sorted.
From Verif Require Import LibRes LibPy LibMat FieldModel SpecField FieldProofs BranchProofs LabelThms MergeThms GroupedModel GroupedProofs PoolProofs BlocksModel SpecBlocks BlocksProofs BlocksThms BlocksInfo.
Import ListNotations.
Local Open Scope nat_scope.

Fixpoint ranges_of (tot : string * string -> nat) (last : nat) (ps : list (string * string)) : list ((string * string) * (nat * nat)) :=
  match ps with [] => [] | p :: ps' => (p, (last, last + tot p)) :: ranges_of tot (last + tot p) ps' end.

Section Plan.
Context {A X P : Type}.
Variable key : string * string -> res (string * string).
Variable name : A -> string.
Variables size nirreps : A -> nat.
Variables ins outs : list A.
Variable elements : A -> A -> list (attr X * (nat -> nat -> P -> R)).
Variable b : blocks A X P.
Variable ps : list (string * string).
Variable kp : string * string -> list (attr X * (nat -> nat -> P -> R)).
Variable sg : string * string -> single X P.
Definition tot (p : string * string) : nat := List.length (kp p) * (count name ins (fst p) * count name outs (snd p)).
Hypothesis H_in : bb_in b = ins.
Hypothesis H_out : bb_out b = outs.
Hypothesis H_pairs : bb_pairs b = ps.
Hypothesis H_ND : NoDup ps.
Hypothesis H_ranges : bb_ranges b = ranges_of tot 0 ps.
Hypothesis H_dim : bb_dim b = list_sum (map tot ps).
Hypothesis H_mod : forall p, In p ps -> module_of key b p = Ret (sg p).
Hypothesis H_sg : forall p, In p ps -> holds (sg p) (kp p).
Hypothesis H_kept : forall p, In p ps -> kp p <> [].
Hypothesis H_real : forall p, In p ps -> In (fst p) (map name ins) /\ In (snd p) (map name outs).
Hypothesis H_el : forall p ri ro, In p ps -> In ri ins -> In ro outs -> p = (name ri, name ro) -> elements ri ro = kp p.
Hypothesis H_all : forall ri ro, In ri ins -> In ro outs -> elements ri ro <> [] -> In (name ri, name ro) ps.

Notation cells p := (cells_of name p outs ins).
Notation entry := ((string * string) * (nat * nat) * nat * (attr X * (nat -> nat -> P -> R)))%type.
Definition slots (p : string * string) : list entry := flat_map (fun oi => imap (fun j e => (p, oi, j, e)) 0 (kp p)) (cells p).
Definition all : list entry := flat_map slots ps.
Definition info_at (k : nat) (s : entry) : info X :=
  let '(p, (o, i), j, e) := s in mk_info k p o (field_start nirreps outs o) i (field_start nirreps ins i) (with_id j (fst e)).
Definition infos : list (info X) := imap info_at 0 all.

Lemma cells_length : forall p, List.length (cells p) = count name outs (snd p) * count name ins (fst p).
Proof.
  intros p. unfold cells_of. rewrite (flat_length _ (count name ins (fst p))).
  - unfold count. rewrite !nfields_labelled. reflexivity.
  - intros o _. rewrite map_length. unfold count. rewrite nfields_labelled. reflexivity.
Qed.
Lemma slots_length : forall p, List.length (slots p) = tot p.
Proof.
  intros p. unfold slots. rewrite (flat_length _ (List.length (kp p))) by (intros; apply imap_length). rewrite cells_length. unfold tot. rewrite Nat.mul_comm. f_equal. apply Nat.mul_comm.
Qed.
Lemma kp_pos : forall p, In p ps -> 0 < List.length (kp p).
Proof. intros p H. pose proof (H_kept p H). destruct (kp p); [contradiction|apply Nat.lt_0_succ]. Qed.
Lemma cells_In : forall p o i, In (o, i) (cells p) <-> nth_error (map name outs) o = Some (snd p) /\ nth_error (map name ins) i = Some (fst p).
Proof.
  intros p o i. unfold cells_of. rewrite in_flat_map. split.
  - intros (o' & Ho & H). apply in_map_iff in H. destruct H as (i' & E & Hi). injection E as -> ->.
    split; apply (BranchProofs.labelled_In String.eqb string_eqb_ok); assumption.
  - intros [Ho Hi]. exists o. split; [apply (BranchProofs.labelled_In String.eqb string_eqb_ok), Ho|]. apply in_map. apply (BranchProofs.labelled_In String.eqb string_eqb_ok), Hi.
Qed.
Lemma slots_nth : forall p k, In p ps ->
  nth_error (slots p) k = match nth_error (cells p) (k / List.length (kp p)) with
                          | Some oi => option_map (fun e => (p, oi, k mod List.length (kp p), e)) (nth_error (kp p) (k mod List.length (kp p)))
                          | None => None end.
Proof.
  intros p k Hp. unfold slots. rewrite (nth_flat _ (List.length (kp p))); [|apply kp_pos, Hp|intros; apply imap_length].
  destruct (nth_error (cells p) (k / List.length (kp p))) as [oi|]; [|reflexivity]. rewrite imap_nth. reflexivity.
Qed.
Lemma all_length' : forall l, List.length (flat_map slots l) = list_sum (map tot l).
Proof. induction l as [|p l IH]; [reflexivity|]. cbn [flat_map map list_sum fold_right]. rewrite app_length, slots_length, IH. reflexivity. Qed.
Lemma all_length : List.length all = bb_dim b.
Proof. rewrite H_dim. apply all_length'. Qed.
Lemma infos_length : List.length infos = bb_dim b.
Proof. unfold infos. rewrite imap_length. exact all_length. Qed.

Lemma find_ok : forall l last k, last <= k < last + list_sum (map tot l) ->
  exists p rel, In p l /\ find_range k (ranges_of tot last l) = Ret (p, rel) /\ rel < tot p /\ nth_error (flat_map slots l) (k - last) = nth_error (slots p) rel.
Proof.
  induction l as [|p l IH]; intros last k H; cbn [map list_sum fold_right] in H; [lia|]. cbn [ranges_of find_range flat_map].
  rewrite (proj2 (Nat.leb_le last k)) by lia. cbn [andb]. destruct (Nat.ltb_spec k (last + tot p)) as [L|L].
  - exists p, (k - last). repeat split; [left; reflexivity|lia|]. apply nth_error_app1. rewrite slots_length. lia.
  - fold (list_sum (map tot l)) in H. destruct (IH (last + tot p) k) as (q & rel & Hq & E & Lt & En); [lia|]. exists q, rel. repeat split; [right; exact Hq|exact E|exact Lt|].
    rewrite nth_error_app2 by (rewrite slots_length; lia). rewrite slots_length, <- En. f_equal. lia.
Qed.
Theorem element_info_ok : forall k f, nth_error infos k = Some f -> element_info key name nirreps b (Z.of_nat k) = Ret f.
Proof.
  intros k f Hf. assert (k < bb_dim b) as Hk by (rewrite <- infos_length; apply nth_error_Some; congruence).
  unfold infos in Hf. rewrite imap_nth, Nat.add_0_l in Hf. destruct (nth_error all k) as [s|] eqn:Es; [|discriminate]. injection Hf as <-.
  unfold element_info. rewrite (proj2 (Z.leb_le 0 (Z.of_nat k))) by lia. rewrite (proj2 (Z.ltb_lt (Z.of_nat k) (Z.of_nat (bb_dim b)))) by lia. cbn [andb assert_ bind].
  rewrite Nat2Z.id, H_ranges. destruct (find_ok ps 0 k) as (p & rel & Hp & -> & Lt & En); [rewrite H_dim in Hk; lia|]. cbn [bind].
  rewrite (H_mod p Hp). cbn [bind]. rewrite (proj1 (H_sg p Hp)). pose proof (kp_pos p Hp) as Pp. destruct (Nat.eqb_spec (List.length (kp p)) 0) as [E0|_]; [lia|]. cbn [negb assert_ bind].
  rewrite (proj1 (proj2 (H_sg p Hp))). rewrite Nat.sub_0_r in En. fold all in En. rewrite Es in En. symmetry in En. rewrite (slots_nth p rel Hp) in En.
  destruct (nth_error (cells p) (rel / List.length (kp p))) as [[o i]|] eqn:Ec; [|discriminate].
  destruct (nth_error (kp p) (rel mod List.length (kp p))) as [e|]; [|discriminate]. cbn [option_map] in En. injection En as <-. cbn [option_map bind].
  rewrite H_in, H_out. rewrite (search_out_ok name nirreps p _ ins outs 0 0 0 o i) by (try lia; rewrite Nat.sub_0_r; exact Ec). cbn [bind]. reflexivity.
Qed.
Lemma element_info_out : forall z, (z < 0 \/ Z.of_nat (bb_dim b) <= z)%Z -> element_info key name nirreps b z = Raise.
Proof.
  intros z H. unfold element_info. destruct (Z.leb_spec 0 z); destruct (Z.ltb_spec z (Z.of_nat (bb_dim b))); try reflexivity. lia.
Qed.

Lemma emit_ok : forall dim p o oirr i iirr (attrs : list (attr X)) idx, idx + List.length attrs <= dim ->
  emit dim idx p o oirr i iirr attrs = Ret (imap (fun k a => mk_info k p o oirr i iirr a) idx attrs).
Proof.
  intros dim p o oirr i iirr attrs; induction attrs as [|a attrs IH]; intros idx H; cbn [emit]; [reflexivity|]. cbn [List.length] in H.
  rewrite (proj2 (Nat.ltb_lt idx dim)) by lia. cbn [assert_ bind]. rewrite IH by lia. cbn [bind imap]. rewrite Nat.add_1_r. reflexivity.
Qed.
Lemma defaulted_ok : forall l x, In x (map name l) -> defaulted (block_counts name l) x = labelled String.eqb (map name l) x.
Proof.
  intros l x H. pose proof (fields_lookup String.eqb string_eqb_ok (map name l) x H) as E. unfold defaulted, block_counts. unfold lookup in E.
  destruct (dget String.eqb (fields_by_label String.eqb (map name l)) x); [|discriminate]. apply Ret_inj in E. exact E.
Qed.
Lemma emit_pair_ok : forall p idx, In p ps -> idx + tot p <= bb_dim b -> emit_pair key name nirreps b idx p = Ret (imap info_at idx (slots p)).
Proof.
  intros p idx Hp H. unfold emit_pair. rewrite (H_mod p Hp). cbn [bind]. rewrite (proj1 (proj2 (proj2 (H_sg p Hp)))). cbn [bind]. rewrite H_in, H_out.
  destruct (H_real p Hp) as [Ni No]. rewrite !defaulted_ok by assumption. fold (cells p).
  assert (forall cs done, (forall o i, In (o, i) cs -> o < List.length outs /\ i < List.length ins) -> idx + List.length done + List.length cs * List.length (kp p) <= bb_dim b ->
    fold_left (fun r oi => l <- r ;;
      let '(o, i) := oi in
      oirr <- get_nth (irreps_counts nirreps outs) o ;;
      iirr <- get_nth (irreps_counts nirreps ins) i ;;
      l' <- emit (bb_dim b) (idx + List.length l) p o oirr i iirr (imap (fun k e => with_id k (fst e)) 0 (kp p)) ;;
      Ret (l ++ l')) cs (Ret done) =
    Ret (done ++ imap info_at (idx + List.length done) (flat_map (fun oi => imap (fun j e => (p, oi, j, e)) 0 (kp p)) cs))) as G.
  { induction cs as [|[o i] cs IH]; intros done Mem Le; cbn [fold_left flat_map].
    - cbn. rewrite app_nil_r. reflexivity.
    - destruct (Mem o i (or_introl eq_refl)) as [Lo Li]. cbn [bind]. rewrite !irreps_count by assumption. cbn [bind]. cbn [List.length] in Le.
      rewrite emit_ok by (rewrite imap_length; lia). cbn [bind].
      rewrite (imap_imap _ _ info_at (fun j e => (p, (o, i), j, e)) (kp p) (idx + List.length done) 0) by reflexivity.
      rewrite IH.
      + rewrite <- app_assoc. f_equal. rewrite imap_app. f_equal. f_equal. f_equal. rewrite app_length, !imap_length. lia.
      + intros o' i' H'. apply Mem. right. exact H'.
      + rewrite app_length, !imap_length. lia. }
  specialize (G (cells p) []). rewrite G; [cbn [app List.length]; rewrite Nat.add_0_r; reflexivity| |].
  - intros o i Hc. apply cells_In in Hc. destruct Hc as [Ho Hi]. rewrite <- (map_length name outs), <- (map_length name ins). split; apply nth_error_Some; congruence.
  - cbn [List.length]. rewrite Nat.add_0_r, cells_length. unfold tot in H. lia.
Qed.
Theorem basis_info_ok : basis_info key name nirreps b = Ret infos.
Proof.
  unfold basis_info. rewrite H_pairs.
  assert (forall l done, (forall p, In p l -> In p ps) -> List.length done + list_sum (map tot l) <= bb_dim b ->
    fold_left (fun r p => l <- r ;; l' <- emit_pair key name nirreps b (List.length l) p ;; Ret (l ++ l')) l (Ret done) =
    Ret (done ++ imap info_at (List.length done) (flat_map slots l))) as G.
  { induction l as [|p l IH]; intros done Mem Le; cbn [fold_left flat_map].
    - cbn. rewrite app_nil_r. reflexivity.
    - cbn [bind]. cbn [map list_sum fold_right] in Le. fold (list_sum (map tot l)) in Le. rewrite emit_pair_ok; [|apply Mem; left; reflexivity|lia]. cbn [bind]. rewrite IH.
      + rewrite <- app_assoc. f_equal. rewrite imap_app. f_equal. f_equal. f_equal. rewrite app_length, imap_length. reflexivity.
      + intros q Hq. apply Mem. right. exact Hq.
      + rewrite app_length, imap_length, slots_length. lia. }
  rewrite G; [reflexivity|auto|]. cbn [List.length]. rewrite H_dim. lia.
Qed.

(** every slot is what it says *)
Lemma all_In : forall p o i j e, In (p, (o, i), j, e) all <-> In p ps /\ In (o, i) (cells p) /\ nth_error (kp p) j = Some e.
Proof.
  intros p o i j e. unfold all. rewrite in_flat_map. split.
  - intros (q & Hq & H). unfold slots in H. apply in_flat_map in H. destruct H as ([o' i'] & Hc & H). apply In_nth_error in H. destruct H as (m & H).
    rewrite imap_nth, Nat.add_0_l in H. destruct (nth_error (kp q) m) as [e'|] eqn:E; [|discriminate]. cbn [option_map] in H.
    assert (q = p /\ o' = o /\ i' = i /\ m = j /\ e' = e) as (-> & -> & -> & -> & ->) by (injection H as ? ? ? ? ?; auto). auto.
  - intros (Hp & Hc & He). exists p. split; [exact Hp|]. unfold slots. apply in_flat_map. exists (o, i). split; [exact Hc|].
    apply nth_error_In with j. rewrite imap_nth, He. reflexivity.
Qed.
Lemma name_at : forall (l : list A) i x, nth_error (map name l) i = Some x <-> exists r, nth_error l i = Some r /\ name r = x.
Proof.
  intros l i x. rewrite nth_error_map. split.
  - destruct (nth_error l i) as [r|]; [|discriminate]. cbn. intros E. injection E as <-. eauto.
  - intros (r & -> & <-). reflexivity.
Qed.
Theorem described : forall k f, nth_error infos k = Some f -> describes name nirreps elements ins outs k f.
Proof.
  intros k f H. unfold infos in H. rewrite imap_nth, Nat.add_0_l in H. destruct (nth_error all k) as [s|] eqn:E; [|discriminate]. injection H as <-.
  apply nth_error_In in E. destruct s as [[[p [o i]] j] [a s]]. apply all_In in E. destruct E as (Hp & Hc & He). apply cells_In in Hc. destruct Hc as [Ho Hi].
  apply name_at in Ho. destruct Ho as (ro & Ho & No). apply name_at in Hi. destruct Hi as (ri & Hi & Ni).
  exists ri, ro, a, s. cbn [info_at mk_info in_field_position out_field_position block_id in_repr out_repr in_irreps_position out_irreps_position i_attr with_id at_id at_in at_out at_rest fst].
  assert (elements ri ro = kp p) as ->.
  { apply H_el; [exact Hp|eapply nth_error_In, Hi|eapply nth_error_In, Ho|]. destruct p as [p1 p2]. cbn [fst snd] in *. congruence. }
  repeat split; auto.
Qed.
Lemma slot_info : forall k s, slot (info_at k s) = let '(p, (o, i), j, e) := s in (o, i, j).
Proof. intros k [[[p [o i]] j] e]. reflexivity. Qed.
Definition slot_of (s : entry) : nat * nat * nat := let '(p, (o, i), j, e) := s in (o, i, j).
Lemma map_slots : map slot infos = map slot_of all.
Proof.
  unfold infos. generalize 0. induction all as [|s l IH]; intros k; [reflexivity|]. cbn [imap map]. rewrite IH, slot_info. reflexivity.
Qed.
Theorem slots_distinct : NoDup (map slot infos).
Proof.
  rewrite map_slots. apply NoDup_map_in.
  - intros [[[p [o i]] j] e] [[[q [o' i']] j'] e'] H H' E. cbn in E. injection E as <- <- <-. apply all_In in H. apply all_In in H'.
    destruct H as (Hp & Hc & He). destruct H' as (Hq & Hc' & He'). apply cells_In in Hc. apply cells_In in Hc'. destruct Hc as [C1 C2], Hc' as [C1' C2'].
    assert (p = q) as <- by (destruct p, q; cbn [fst snd] in *; congruence). congruence.
  - unfold all. apply NoDup_flat; [exact H_ND| |].
    + intros p Hp. unfold slots. apply NoDup_flat.
      * unfold cells_of. apply NoDup_pairs; apply labelled_NoDup.
      * intros oi _. apply NoDup_nth_error. rewrite imap_length. intros a c La E. rewrite !imap_nth in E.
        destruct (nth_error (kp p) a) eqn:Ea; [|apply nth_error_None in Ea; lia]. destruct (nth_error (kp p) c); [|discriminate]. cbn in E. injection E as E _. exact E.
      * intros x y c _ _ Hx Hy. apply In_nth_error in Hx. apply In_nth_error in Hy. destruct Hx as (m & Hx), Hy as (m' & Hy). rewrite imap_nth in Hx, Hy.
        destruct (nth_error (kp p) (m)); [|discriminate]. destruct (nth_error (kp p) m'); [|discriminate]. cbn in Hx, Hy. congruence.
    + intros p q [[[p' oi] j] e] Hp Hq Hx Hy. unfold slots in Hx, Hy. apply in_flat_map in Hx. apply in_flat_map in Hy. destruct Hx as (x & _ & Hx), Hy as (y & _ & Hy).
      apply In_nth_error in Hx. apply In_nth_error in Hy. destruct Hx as (m & Hx), Hy as (m' & Hy). rewrite imap_nth in Hx, Hy.
      destruct (nth_error (kp p) m); [|discriminate]. destruct (nth_error (kp q) m'); [|discriminate]. cbn in Hx, Hy. congruence.
Qed.
Theorem slots_complete : forall o i j ro ri, nth_error outs o = Some ro -> nth_error ins i = Some ri -> j < List.length (elements ri ro) -> In (o, i, j) (map slot infos).
Proof.
  intros o i j ro ri Ho Hi Hj. rewrite map_slots. pose proof (nth_error_In _ _ Ho) as Io. pose proof (nth_error_In _ _ Hi) as Ii.
  assert (In (name ri, name ro) ps) as Hp by (apply H_all; auto; destruct (elements ri ro); [cbn in Hj; lia|discriminate]).
  rewrite (H_el _ ri ro Hp Ii Io eq_refl) in Hj. destruct (nth_error (kp (name ri, name ro)) j) as [e|] eqn:Ee; [|apply nth_error_None in Ee; lia].
  change (o, i, j) with (slot_of ((name ri, name ro), (o, i), j, e)). apply in_map. apply all_In. split; [exact Hp|]. split; [|exact Ee].
  apply cells_In. split; apply name_at; eauto.
Qed.
End Plan.
