(** Proofs about BlocksModel: the constructor. *)
From Coq Require Import String.
From Coq Require Import List ZArith Arith Bool Reals Lia Lra Permutation Sorted.
From Verif Require Import LibRes LibPy LibMat FieldModel SpecField FieldProofs BranchProofs LabelThms MergeThms GroupedModel GroupedProofs PoolProofs BlocksModel SpecBlocks BlocksProofs.
Import ListNotations.
Local Open Scope nat_scope.

Lemma NoDup_map_in : forall {B C} (f : B -> C) l, (forall a b, In a l -> In b l -> f a = f b -> a = b) -> NoDup l -> NoDup (map f l).
Proof.
  intros B C f l Inj ND; induction ND as [|a l Na ND IH]; [constructor|]. cbn [map]. constructor.
  - intros H. apply in_map_iff in H. destruct H as (b & E & Hb). apply Na. rewrite <- (Inj b a (or_intror Hb) (or_introl eq_refl) E). exact Hb.
  - apply IH. intros x y Hx Hy. apply Inj; right; assumption.
Qed.
Lemma NoDup_app_intro : forall {B} (l m : list B), NoDup l -> NoDup m -> (forall a, In a l -> ~ In a m) -> NoDup (l ++ m).
Proof.
  intros B l m Nl Nm D; induction Nl as [|a l Na Nl IH]; [exact Nm|]. cbn [app]. constructor.
  - rewrite in_app_iff. intros [H|H]; [auto|]. exact (D a (or_introl eq_refl) H).
  - apply IH. intros x Hx. apply D. right. exact Hx.
Qed.
Lemma NoDup_pairs : forall {B C} (l : list B) (m : list C), NoDup l -> NoDup m -> NoDup (flat_map (fun b => map (fun c => (b, c)) m) l).
Proof.
  intros B C l m Nl Nm; induction Nl as [|a l Na Nl IH]; [constructor|]. cbn [flat_map].
  apply NoDup_app_intro; [apply NoDup_map_in; [|exact Nm]; intros x y _ _ E; congruence|exact IH|].
  intros x Hx Hx'. apply in_map_iff in Hx. destruct Hx as (c & <- & _). apply in_flat_map in Hx'. destruct Hx' as (b & Hb & Hx').
  apply in_map_iff in Hx'. destruct Hx' as (c' & E & _). injection E as -> _. exact (Na Hb).
Qed.

Section Build.
Context {A X P : Type}.
Variable key : string * string -> res (string * string).
Variable kf : string * string -> string * string.
Variable block : kbasis X P -> res (option (single X P)).
Variable elts : kbasis X P -> list (attr X * (nat -> nat -> P -> R)).
Variable sgl : kbasis X P -> single X P.
Variable name : A -> string.
Variable size : A -> nat.
Variable aeqb : A -> A -> bool.
Variable order : list A -> list A.
Variable sort : list (string * string) -> list (string * string).
Variable generator : A -> A -> res (option (kbasis X P)).
Variables ins outs : list A.
Hypothesis aeqb_ok : forall a b, aeqb a b = true <-> a = b.
Hypothesis order_ok : forall l, Permutation (order l) l.
Hypothesis sort_ok : forall l, Permutation (sort l) l.
Hypothesis block_ok : forall kb, block kb = Ret (match elts kb with [] => None | _ => Some (sgl kb) end).
Definition names (io : A * A) : string * string := (name (fst io), name (snd io)).
Hypothesis key_ok : forall io, In (fst io) ins -> In (snd io) outs -> key (names io) = Ret (kf (names io)).
Hypothesis names_inj : forall x y, In (fst x) ins -> In (snd x) outs -> In (fst y) ins -> In (snd y) outs -> kf (names x) = kf (names y) -> x = y.
Hypothesis sizes_in : Forall (fun r => 0 < size r) ins.
Hypothesis sizes_out : Forall (fun r => 0 < size r) outs.
Hypothesis generator_ok : forall i o, In i ins -> In o outs ->
  exists k, generator i o = Ret k /\ forall kb, k = Some kb -> kb_out kb = size o /\ kb_in kb = size i.

Lemma distinct_In : forall l a, In a (distinct aeqb l) <-> In a l.
Proof.
  intros l a; induction l as [|b l IH]; [reflexivity|]. cbn [distinct]. destruct (existsb (aeqb b) l) eqn:E.
  - rewrite IH. split; [right; assumption|]. intros [->|H]; [|exact H]. apply existsb_exists in E. destruct E as (c & Hc & Ec). apply aeqb_ok in Ec. subst c. exact Hc.
  - cbn [In]. rewrite IH. reflexivity.
Qed.
Lemma distinct_NoDup : forall l, NoDup (distinct aeqb l).
Proof.
  induction l as [|b l IH]; [constructor|]. cbn [distinct]. destruct (existsb (aeqb b) l) eqn:E; [exact IH|]. constructor; [|exact IH].
  intros H. apply (proj1 (distinct_In l b)) in H. assert (existsb (aeqb b) l = true); [|congruence]. apply existsb_exists. exists b. split; [exact H|]. apply aeqb_ok. reflexivity.
Qed.
Lemma as_set_In : forall l a, In a (as_set aeqb order l) <-> In a l.
Proof.
  intros l a. unfold as_set. rewrite <- (distinct_In l a). split; apply Permutation_in; [|symmetry]; apply order_ok.
Qed.
Lemma as_set_NoDup : forall l, NoDup (as_set aeqb order l).
Proof. intros l. unfold as_set. eapply Permutation_NoDup; [symmetry; apply order_ok|apply distinct_NoDup]. Qed.

Definition blk (i o : A) : option (single X P) :=
  match generator i o with Ret (Some kb) => match elts kb with [] => None | _ => Some (sgl kb) end | _ => None end.
Definition blist (l : list (A * A)) : list ((string * string) * single X P) :=
  flat_map (fun io => match blk (fst io) (snd io) with Some e => [(names io, e)] | None => [] end) l.
Definition esc_key (ke : (string * string) * single X P) : (string * string) * single X P := (kf (fst ke), snd ke).

Lemma expand_step : forall l d1 d2, (forall io, In io l -> In (fst io) ins /\ In (snd io) outs) ->
  (forall io, In io l -> ~ In (names io) (map fst d1) /\ ~ In (kf (names io)) (map fst d2)) -> NoDup l ->
  fold_left (fun r io => d <- r ;;
      let '(i, o) := io in
      let names := (name i, name o) in
      kb <- generator i o ;;
      match kb with
      | None => Ret d
      | Some b => e <- block b ;;
          match e with
          | None => Ret d
          | Some e => k <- key names ;; Ret (dset pair_eqb (fst d) names e, dset pair_eqb (snd d) k e)
          end
      end) l (Ret (d1, d2)) = Ret (d1 ++ blist l, d2 ++ map esc_key (blist l)).
Proof.
  induction l as [|[i o] l IH]; intros d1 d2 Mem Fr ND; cbn [fold_left].
  - cbn. rewrite !app_nil_r. reflexivity.
  - inversion ND as [|? ? Nio ND']; subst. destruct (Mem (i, o) (or_introl eq_refl)) as [Hi Ho]. cbn [fst snd] in Hi, Ho.
    destruct (generator_ok i o Hi Ho) as (k & Ek & _). cbn [bind]. rewrite Ek. cbn [bind]. unfold blist. cbn [flat_map fst snd]. fold (blist l).
    assert (forall d1' d2', (blk i o = None -> d1' = [] /\ d2' = []) -> (forall e, blk i o = Some e -> d1' = [(names (i, o), e)] /\ d2' = [(kf (names (i, o)), e)]) ->
      forall io, In io l -> ~ In (names io) (map fst (d1 ++ d1')) /\ ~ In (kf (names io)) (map fst (d2 ++ d2'))) as Fr'.
    { intros d1' d2' E0 E1 io Hio. destruct (Fr io (or_intror Hio)) as [F1 F2]. destruct (Mem io (or_intror Hio)) as [M1 M2].
      rewrite !map_app, !in_app_iff. destruct (blk i o) as [e|].
      - destruct (E1 e eq_refl) as [-> ->]. cbn [map fst In]. split; intros [H|[H|[]]]; auto.
        + apply Nio. replace (i, o) with io; [exact Hio|]. apply names_inj; auto. f_equal. congruence.
        + apply Nio. replace (i, o) with io; [exact Hio|]. apply names_inj; auto.
      - destruct (E0 eq_refl) as [-> ->]. cbn [map In]. tauto. }
    unfold blk in *. rewrite Ek in *. destruct k as [kb|].
    + rewrite block_ok. cbn [bind]. destruct (elts kb) as [|x t] eqn:Kk.
      * rewrite IH; [reflexivity|intros io H; apply Mem; right; exact H|intros io H; apply Fr; right; exact H|exact ND'].
      * destruct (Fr (i, o) (or_introl eq_refl)) as [F1 F2]. cbn [fst snd]. change (name i, name o) with (names (i, o)). rewrite key_ok by assumption. cbn [bind].
        rewrite !(dset_fresh pair_eqb pair_eqb_ok) by assumption. rewrite IH.
        -- cbn [app map esc_key fst snd]. unfold esc_key at 2. cbn [fst snd]. rewrite <- !app_assoc. reflexivity.
        -- intros io H; apply Mem; right; exact H.
        -- apply Fr'; [discriminate|]. intros e E. injection E as <-. auto.
        -- exact ND'.
    + rewrite IH; [reflexivity|intros io H; apply Mem; right; exact H|intros io H; apply Fr; right; exact H|exact ND'].
Qed.

Definition prod : list (A * A) := flat_map (fun i => map (fun o => (i, o)) (as_set aeqb order outs)) (as_set aeqb order ins).
Lemma prod_In : forall io, In io prod <-> In (fst io) ins /\ In (snd io) outs.
Proof.
  intros [i o]. unfold prod. rewrite in_flat_map. cbn [fst snd]. split.
  - intros (a & Ha & H). apply in_map_iff in H. destruct H as (b & E & Hb). injection E as -> ->. split; apply as_set_In; assumption.
  - intros [Hi Ho]. exists i. split; [apply as_set_In, Hi|]. apply in_map, as_set_In, Ho.
Qed.
Lemma prod_NoDup : NoDup prod.
Proof. apply NoDup_pairs; apply as_set_NoDup. Qed.
Definition dict := blist prod.
Lemma expand_ok : expand_pairs key block name generator (as_set aeqb order ins) (as_set aeqb order outs) = Ret (dict, map esc_key dict).
Proof.
  unfold expand_pairs. etransitivity; [apply (expand_step prod [] []); [| |exact prod_NoDup]|reflexivity].
  - intros io H. apply prod_In, H.
  - intros io H. split; intros [].
Qed.
Lemma blist_In : forall l p e, In (p, e) (blist l) <-> exists io, In io l /\ p = names io /\ blk (fst io) (snd io) = Some e.
Proof.
  intros l p e. unfold blist. rewrite in_flat_map. split.
  - intros (io & Hio & H). exists io. destruct (blk (fst io) (snd io)) as [e'|]; [|destruct H]. destruct H as [H|[]]. injection H as <- <-. auto.
  - intros (io & Hio & -> & E). exists io. rewrite E. split; [exact Hio|left; reflexivity].
Qed.
Lemma blist_keys : forall l, NoDup l -> (forall io, In io l -> In (fst io) ins /\ In (snd io) outs) -> NoDup (map (fun ke => kf (fst ke)) (blist l)).
Proof.
  intros l ND Mem; induction ND as [|io l N ND IH]; [constructor|]. unfold blist. cbn [flat_map]. fold (blist l).
  assert (NoDup (map (fun ke => kf (fst ke)) (blist l))) as IH' by (apply IH; intros x Hx; apply Mem; right; exact Hx).
  destruct (blk (fst io) (snd io)) as [e|]; [|exact IH']. cbn [app map fst]. constructor; [|exact IH'].
  intros H. apply in_map_iff in H. destruct H as ([p e'] & E & H). apply blist_In in H. destruct H as (io' & Hio' & -> & _). cbn [fst] in E.
  apply N. replace io with io'; [exact Hio'|]. destruct (Mem io' (or_intror Hio')). destruct (Mem io (or_introl eq_refl)). apply names_inj; auto.
Qed.
Lemma dict_esc_keys : NoDup (map fst (map esc_key dict)).
Proof. rewrite map_map. apply blist_keys; [exact prod_NoDup|]. intros io H. apply prod_In, H. Qed.
Lemma dict_keys : NoDup (map fst dict).
Proof. apply (NoDup_map_inv kf). rewrite map_map. apply blist_keys; [exact prod_NoDup|]. intros io H. apply prod_In, H. Qed.

Definition pairs := sort (map fst dict).
Lemma pairs_NoDup : NoDup pairs.
Proof. eapply Permutation_NoDup; [symmetry; apply sort_ok|exact dict_keys]. Qed.
Lemma pairs_In : forall p, In p pairs <-> exists e, In (p, e) dict.
Proof.
  intros p. assert (In p pairs <-> In p (map fst dict)) as -> by (split; apply Permutation_in; [|symmetry]; apply sort_ok).
  rewrite in_map_iff. split; [intros ([q e] & <- & H); exists e; exact H|intros (e & H); exists (p, e); auto].
Qed.
(** the reality behind a pair of names *)
Lemma pair_real : forall p, In p pairs -> exists ri ro kb, In ri ins /\ In ro outs /\ p = (name ri, name ro) /\ generator ri ro = Ret (Some kb) /\
  elts kb <> [] /\ dget pair_eqb dict p = Some (sgl kb) /\ dget pair_eqb (map esc_key dict) (kf p) = Some (sgl kb).
Proof.
  intros p H. apply pairs_In in H. destruct H as (e & H). pose proof H as H0. apply blist_In in H. destruct H as ([ri ro] & Hio & E & B). cbn [fst snd] in B.
  apply prod_In in Hio. destruct Hio as [Hi Ho]. cbn [fst snd] in Hi, Ho. exists ri, ro. unfold blk in B.
  destruct (generator ri ro) as [|[kb|]]; try discriminate. exists kb. destruct (elts kb) eqn:K; [discriminate|]. injection B as <-.
  repeat split; auto; [discriminate| |].
  - apply (dget_found pair_eqb pair_eqb_ok); [exact dict_keys|exact H0].
  - apply (dget_found pair_eqb pair_eqb_ok); [exact dict_esc_keys|]. change (kf p, sgl kb) with (esc_key (p, sgl kb)). apply in_map, H0.
Qed.
Lemma pairs_esc_NoDup : NoDup (map kf pairs).
Proof.
  eapply Permutation_NoDup; [apply Permutation_map; symmetry; apply sort_ok|]. pose proof dict_esc_keys as H. rewrite map_map in H. rewrite map_map. exact H.
Qed.

(** *** contiguity *)
Definition chans_of (ft : list A) (l : string) : list nat := chan_list size ft (labelled String.eqb (map name ft) l).
Lemma indices_nonempty : forall ft, Forall (fun r => 0 < size r) ft -> forall labels d p,
  Forall (fun e => snd e <> []) d -> Forall (fun e : string * list nat => snd e <> []) (indices_by_label size String.eqb d p labels ft).
Proof.
  intros ft PP; induction PP as [|r ft Pr PP IH]; intros [|l labels] d p F; try exact F. cbn [indices_by_label]. apply IH.
  assert (seq p (size r) <> []) as N by (destruct (size r); [lia|discriminate]). unfold dappend.
  set (v := match dget String.eqb d l with Some y => y | None => [] end ++ seq p (size r)). assert (v <> []) as Nv by (unfold v; destruct (dget String.eqb d l) as [[|]|]; cbn; congruence).
  clearbody v. clear - F Nv. induction F as [|[a b] d Hb F IH]; [constructor; [exact Nv|constructor]|]. cbn [dset]. destruct (String.eqb a l); constructor; auto.
Qed.
Lemma contiguous_ok : forall ft, Forall (fun r => 0 < size r) ft -> exists c, contiguous name size ft = Ret c /\
  forall l, In l (map name ft) -> exists b, lookup String.eqb c l = Ret b /\ (b = true <-> exists a k, 0 < k /\ chans_of ft l = seq a k).
Proof.
  intros ft PP. unfold contiguous.
  set (g := fun e : string * list nat => c <- check_consecutive (map Z.of_nat (snd e)) ;; Ret (fst e, c)).
  assert (exists c, mapM g (indices name size ft) = Ret c) as (c & Ec).
  { assert (Forall (fun e => snd e <> []) (indices name size ft)) as F by (apply indices_nonempty; [exact PP|constructor]).
    induction F as [|[a b] d Hb F IH]; [eexists; reflexivity|]. destruct IH as (c & Ec). cbn [mapM]. rewrite Ec. unfold g. cbn [fst snd].
    destruct b as [|x t]; [contradiction|]. cbn [map check_consecutive].
    rewrite (proj2 (forallb_forall _ _)). { cbn [assert_ bind]. eexists; reflexivity. }
    intros z Hz. change (Z.of_nat x :: map Z.of_nat t) with (map Z.of_nat (x :: t)) in Hz. apply in_map_iff in Hz. destruct Hz as (n & <- & _). apply Z.leb_le. lia. }
  exists c. split; [exact Ec|]. intros l Hl.
  pose proof (indices_lookup size String.eqb string_eqb_ok (map name ft) ft l (map_length _ _) Hl) as El. unfold lookup in El.
  fold (indices name size ft) in El. destruct (dget String.eqb (indices name size ft) l) as [x|] eqn:Ex; [|discriminate]. apply Ret_inj in El. subst x.
  destruct (dget_mapM String.eqb string_eqb_ok g (indices name size ft) c Ec) with (l := l) (x := chans_of ft l) as (b & Eb & Db); [| exact Ex |].
  { intros [a b] [a' b'] E. unfold g in E. apply bind_Ret in E. destruct E as (y & _ & E). apply Ret_inj in E. injection E as <- _. reflexivity. }
  exists b. unfold lookup. rewrite Db. split; [reflexivity|]. unfold g in Eb. apply bind_Ret in Eb. destruct Eb as (y & Ey & E). apply Ret_inj in E. injection E as ->.
  cbn [snd] in Ey. set (cl := chans_of ft l) in *. assert (cl <> []) as Nc.
  { apply chan_list_nonempty; [|apply (labelled_nonempty String.eqb string_eqb_ok), Hl|exact PP]. rewrite <- (map_length name ft). apply (labelled_lt String.eqb). }
  assert (StronglySorted lt cl) as Inc by (apply chan_list_increasing, labelled_increasing).
  destruct (check_consecutive_ok (map Z.of_nat cl)) as (b' & Eb & Hb).
  { destruct cl; [congruence|discriminate]. }
  { apply FinFun.Injective_map_NoDup; [exact Nat2Z.inj|]. apply chan_list_NoDup, (labelled_NoDup String.eqb). }
  { apply Forall_forall. intros z Hz. apply in_map_iff in Hz. destruct Hz as (n & <- & _). lia. }
  rewrite Ey in Eb. apply Ret_inj in Eb. subst b'. rewrite Hb. split.
  - intros Co. destruct (consecutive_run cl Inc Co) as (a & k & E). exists a, k. split; [|exact E]. destruct k; [|lia]. cbn in E. congruence.
  - intros (a & k & Pk & E). exists (Z.of_nat a), (Z.of_nat (a + k)). split; [lia|]. intros z. rewrite E, in_map_iff. split.
    + intros (n & <- & Hn). apply in_seq in Hn. lia.
    + intros Hz. exists (Z.to_nat z). split; [lia|]. apply in_seq. lia.
Qed.

Lemma chans_nonempty : forall ft l, Forall (fun r => 0 < size r) ft -> In l (map name ft) -> chans_of ft l <> [].
Proof.
  intros ft l PP Hl. apply chan_list_nonempty; [|apply (labelled_nonempty String.eqb string_eqb_ok), Hl|exact PP].
  rewrite <- (map_length name ft). apply (labelled_lt String.eqb).
Qed.

(** *** the loop over the pairs *)
Variables cin cout : list (string * bool).
Hypothesis cin_ok : forall l, In l (map name ins) -> exists b, lookup String.eqb cin l = Ret b /\ (b = true <-> exists a k, 0 < k /\ chans_of ins l = seq a k).
Hypothesis cout_ok : forall l, In l (map name outs) -> exists b, lookup String.eqb cout l = Ret b /\ (b = true <-> exists a k, 0 < k /\ chans_of outs l = seq a k).
Definition lk (c : list (string * bool)) (l : string) : bool := match dget String.eqb c l with Some b => b | None => false end.
Definition cp (p : string * string) : bool := lk cin (fst p) && lk cout (snd p).
Definition run_val (l : list nat) : channels := match run_of l with Ret c => c | Raise => Listed l end.
Definition vp (p : string * string) : channels * channels :=
  if cp p then (run_val (chans_of ins (fst p)), run_val (chans_of outs (snd p))) else (Listed (chans_of ins (fst p)), Listed (chans_of outs (snd p))).
Definition dimp (p : string * string) : nat := match dget pair_eqb dict p with Some e => dimension e | None => 0 end.
Definition tot (p : string * string) : nat := dimp p * (count name ins (fst p) * count name outs (snd p)).
Fixpoint build (last : nat) (ps : list (string * string)) : list ((string * string) * (nat * nat)) :=
  match ps with [] => [] | p :: ps' => (p, (last, last + tot p)) :: build (last + tot p) ps' end.
Definition total (ps : list (string * string)) : nat := list_sum (map tot ps).

Lemma run_of_ok : forall l, l <> [] -> run_of l = Ret (run_val l).
Proof.
  intros l N. unfold run_val. destruct (list_min_some l N) as (a & b & Ea & Eb). unfold run_of. rewrite Ea, Eb. reflexivity.
Qed.
Lemma lk_in : forall l, In l (map name ins) -> lookup String.eqb cin l = Ret (lk cin l).
Proof. intros l H. destruct (cin_ok l H) as (b & E & _). unfold lookup, lk in *. destruct (dget String.eqb cin l); [reflexivity|discriminate]. Qed.
Lemma lk_out : forall l, In l (map name outs) -> lookup String.eqb cout l = Ret (lk cout l).
Proof. intros l H. destruct (cout_ok l H) as (b & E & _). unfold lookup, lk in *. destruct (dget String.eqb cout l); [reflexivity|discriminate]. Qed.
Lemma pair_names : forall p, In p pairs -> In (fst p) (map name ins) /\ In (snd p) (map name outs).
Proof. intros p H. destruct (pair_real p H) as (ri & ro & kb & Hi & Ho & -> & _). cbn [fst snd]. split; apply in_map; assumption. Qed.

Lemma assign_ok : forall ps cont inds ranges last, (forall p, In p ps -> In p pairs) -> NoDup ps -> NoDup (map kf ps) ->
  (forall p, In p ps -> ~ In p (map fst cont) /\ ~ In p (map fst ranges) /\ ~ In (kf p) (map fst inds)) ->
  assign_pairs key name size dict ins outs cin cout ps cont inds ranges last =
  Ret (cont ++ map (fun p => (p, cp p)) ps, inds ++ map (fun p => (kf p, vp p)) ps, ranges ++ build last ps, last + total ps).
Proof.
  induction ps as [|p ps IH]; intros cont inds ranges last Mem ND NE Fr; cbn [assign_pairs].
  - cbn. rewrite !app_nil_r, Nat.add_0_r. reflexivity.
  - inversion ND as [|? ? N1 ND']; subst. cbn [map] in NE. inversion NE as [|? ? N2 NE']; subst.
    destruct (Fr p (or_introl eq_refl)) as (F1 & F2 & F3). pose proof (Mem p (or_introl eq_refl)) as Hp.
    destruct (pair_names p Hp) as [Hi Ho]. destruct (pair_real p Hp) as (ri & ro & kb & Iri & Iro & Ep & _ & _ & Ed & _).
    assert (key p = Ret (kf p)) as Ekp by (rewrite Ep; apply (key_ok (ri, ro)); assumption).
    rewrite (lk_in _ Hi). cbn [bind].
    assert ((if lk cin (fst p) then lookup String.eqb cout (snd p) else Ret false) = Ret (cp p)) as ->.
    { unfold cp. destruct (lk cin (fst p)); [|reflexivity]. rewrite (lk_out _ Ho). reflexivity. }
    cbn [bind]. unfold indices. rewrite !(indices_lookup size String.eqb string_eqb_ok) by (rewrite ?map_length; auto). cbn [bind].
    fold (chans_of ins (fst p)). fold (chans_of outs (snd p)).
    rewrite !run_of_ok by (apply chans_nonempty; assumption). cbn [bind].
    assert ((if cp p then Ret (run_val (chans_of ins (fst p)), run_val (chans_of outs (snd p))) else Ret (Listed (chans_of ins (fst p)), Listed (chans_of outs (snd p)))) = Ret (vp p)) as ->
      by (unfold vp; destruct (cp p); reflexivity).
    cbn [bind]. rewrite Ekp. cbn [bind]. unfold set_indices. rewrite (dget_fresh pair_eqb pair_eqb_ok) by exact F3. cbn [bind]. unfold lookup. rewrite Ed. cbn [bind].
    rewrite !(dset_fresh pair_eqb pair_eqb_ok) by assumption.
    assert (dimension (sgl kb) * (count name ins (fst p) * count name outs (snd p)) = tot p) as -> by (unfold tot, dimp; rewrite Ed; reflexivity).
    rewrite IH; auto.
    + cbn [map build]. unfold total. cbn [map list_sum fold_right]. rewrite <- !app_assoc. cbn [app]. rewrite Nat.add_assoc. reflexivity.
    + intros q Hq. apply Mem. right. exact Hq.
    + intros q Hq. destruct (Fr q (or_intror Hq)) as (G1 & G2 & G3). rewrite !map_app, !in_app_iff. cbn [map fst In].
      split; [|split]; intros [H|[H|[]]]; auto.
      * subst q. exact (N1 Hq).
      * subst q. exact (N1 Hq).
      * apply N2. rewrite H. apply in_map, Hq.
Qed.
End Build.
