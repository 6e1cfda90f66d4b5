(** The bias of a layer is invariant, and every invariant vector is a bias. *)
From Coq Require Import Reals ZArith Bool List Arith Lia Lra.
From Verif Require Import LibRes LibMat FieldModel SpecField FieldProofs RepModel SpecRep SpecRepr SpecNonlin NonlinProofs LayerModel SpecLayer.
Import ListNotations.
Open Scope R_scope.

Section Bias.
Context {T : Type}.
Variable irr : list Z -> res (girrep T).
Variable mem : T -> Prop.
Variable op : T -> T -> res T.
Variable e : T.
Variable tid : list Z.

(** positions of the trivial irreps among the rows of the irreps *)
Fixpoint tpos (ids : list (list Z)) (pi : nat) : res (list nat) :=
  match ids with
  | [] => Ret []
  | id :: ids' => i <- irr id ;; l <- tpos ids' (pi + gi_size i) ;; Ret (if is_trivial tid i then pi :: l else l)
  end.
Lemma tpos_total : forall ids pi, Forall (sound_irrep irr mem op e) ids -> exists l, tpos ids pi = Ret l.
Proof.
  induction ids as [|id ids IH]; intros pi H; cbn [tpos]; [eauto|]. inversion H as [|? ? (i & Ei & _) H2]; subst. rewrite Ei. cbn [bind].
  destruct (IH (pi + gi_size i)%nat H2) as (l & ->). cbn [bind]. eauto.
Qed.
Lemma tpos_shift : forall ids pi l, tpos ids pi = Ret l -> forall k, tpos ids (k + pi) = Ret (map (Nat.add k) l).
Proof.
  induction ids as [|id ids IH]; intros pi l E k; cbn [tpos] in *; [apply Ret_inj in E; subst; reflexivity|].
  apply bind_Ret in E. destruct E as (i & Ei & E). apply bind_Ret in E. destruct E as (l' & El & E). apply Ret_inj in E. subst l.
  rewrite Ei. cbn [bind]. rewrite <- Nat.add_assoc, (IH _ _ El). cbn [bind]. destruct (is_trivial tid i); reflexivity.
Qed.
Lemma tpos_count : forall ids pi l, tpos ids pi = Ret l -> count_trivials irr tid ids = Ret (length l).
Proof.
  induction ids as [|id ids IH]; intros pi l E; cbn [tpos count_trivials] in *; [apply Ret_inj in E; subst; reflexivity|].
  apply bind_Ret in E. destruct E as (i & Ei & E). apply bind_Ret in E. destruct E as (l' & El & E). apply Ret_inj in E. subst l.
  rewrite Ei. cbn [bind]. rewrite (IH _ _ El). cbn [bind]. destruct (is_trivial tid i); reflexivity.
Qed.
Lemma tpos_range : forall ids pi l n, tpos ids pi = Ret l -> total_size irr ids n -> Forall (sound_irrep irr mem op e) ids ->
  forall a, In a l -> (pi <= a < pi + n)%nat.
Proof.
  induction ids as [|id ids IH]; intros pi l n E Tn Hs a Ha; cbn [tpos] in *; [apply Ret_inj in E; subst; destruct Ha|].
  apply bind_Ret in E. destruct E as (i & Ei & E). apply bind_Ret in E. destruct E as (l' & El & E). apply Ret_inj in E. subst l.
  destruct Tn as (is_ & Em & En). cbn [mapM] in Em. rewrite Ei in Em. cbn [bind] in Em. apply bind_Ret in Em. destruct Em as (is' & Em & E2). apply Ret_inj in E2. subst is_.
  cbn [map list_sum fold_right] in En. change (fold_right Nat.add 0%nat) with list_sum in En.
  inversion Hs as [|? ? (i' & Ei' & _ & Pos & _) Hs']; subst. rewrite Ei in Ei'. apply Ret_inj in Ei'. subst i'.
  pose proof (IH _ _ (list_sum (map gi_size is')) El ltac:(exists is'; auto) Hs') as R.
  destruct (is_trivial tid i); [destruct Ha as [<- |Ha]; [lia|]|]; apply R in Ha; lia.
Qed.

Lemma irr_sizes : forall ids, Forall (sound_irrep irr mem op e) ids -> exists n, total_size irr ids n.
Proof.
  intros ids H. induction H as [|id ids (i & Ei & _) H (n & is_ & Em & En)]; [exists 0%nat, []; split; reflexivity|].
  exists (gi_size i + n)%nat, (i :: is_). cbn [mapM]. rewrite Ei. cbn [bind]. rewrite Em. cbn [bind map list_sum fold_right]. split; [reflexivity|]. rewrite <- En. reflexivity.
Qed.
(** the loop over the irreps of a field *)
Lemma bias_field_ok : forall t r p ids pi c M l, tpos ids pi = Ret l -> (forall a, In a l -> (a < r_size r)%nat) -> (c + length l <= t)%nat ->
  exists M', bias_field irr tid t r p ids pi c M = Ret ((c + length l)%nat, M') /\
    forall i j, M' i j = if Nat.leb c j && Nat.ltb j (c + length l) && Nat.leb p i && Nat.ltb i (p + r_size r) then r_cob r (i - p)%nat (nth (j - c) l 0%nat) else M i j.
Proof.
  intros t r p ids. induction ids as [|id ids IH]; intros pi c M l E Hl Hc; cbn [tpos bias_field] in *.
  - apply Ret_inj in E. subst l. exists M. cbn [length]. rewrite Nat.add_0_r. split; [reflexivity|]. intros i j.
    destruct (Nat.leb_spec c j), (Nat.ltb_spec j c); try reflexivity; lia.
  - apply bind_Ret in E. destruct E as (i & Ei & E). apply bind_Ret in E. destruct E as (l' & El & E). apply Ret_inj in E.
    rewrite Ei. cbn [bind]. destruct (is_trivial tid i); subst l.
    + cbn [length] in *. destruct (Nat.ltb_spec pi (r_size r)) as [_|Bad]; [|exfalso; specialize (Hl pi (or_introl eq_refl)); lia].
      destruct (Nat.ltb_spec c t) as [_|Bad]; [|lia]. cbn [assert_ bind].
      destruct (IH (pi + gi_size i)%nat (S c) (set_column M p (r_size r) c (fun a => r_cob r a pi)) l' El (fun a H => Hl a (or_intror H)) ltac:(lia)) as (M' & E' & EM).
      exists M'. split; [rewrite E'; do 2 f_equal; lia|]. intros a j. rewrite EM. unfold set_column.
      destruct (Nat.leb_spec (S c) j), (Nat.leb_spec c j), (Nat.ltb_spec j (S c + length l')), (Nat.ltb_spec j (c + S (length l'))), (Nat.eqb_spec j c); try lia; cbn [andb]; try reflexivity.
      * destruct (Nat.leb p a && Nat.ltb a (p + r_size r))%bool; [|reflexivity]. replace (j - c)%nat with (S (j - S c)) by lia. reflexivity.
      * subst j. rewrite Nat.sub_diag. reflexivity.
    + destruct (IH (pi + gi_size i)%nat c M l' El Hl Hc) as (M' & E' & EM). exists M'. split; [exact E'|exact EM].
Qed.

(** positions of the trivial irreps of every field *)
Definition tposs (ft : list (repr T)) : res (list (list nat)) := mapM (fun r => tpos (r_irreps r) 0) ft.
Fixpoint coffset (ls : list (list nat)) (k : nat) : nat :=
  match ls, k with l :: ls', S k' => (length l + coffset ls' k')%nat | _, _ => 0%nat end.
Lemma bias_loop_ok : forall t ft ls p c M, tposs ft = Ret ls -> Forall2 (fun r l => forall a, In a l -> (a < r_size r)%nat) ft ls ->
  (c + length (concat ls) <= t)%nat ->
  exists M', bias_loop irr tid t ft p c M = Ret M' /\
    (forall i j, (i < p)%nat -> M' i j = M i j) /\
    forall k r l a j, nth_error ft k = Some r -> nth_error ls k = Some l -> (a < r_size r)%nat ->
      M' (p + offset r_size ft k + a)%nat j =
      if Nat.leb (c + coffset ls k) j && Nat.ltb j (c + coffset ls k + length l) then r_cob r a (nth (j - (c + coffset ls k)) l 0%nat)
      else M (p + offset r_size ft k + a)%nat j.
Proof.
  intros t ft. induction ft as [|r ft IH]; intros ls p c M E H Hc.
  - exists M. split; [reflexivity|split; [reflexivity|]]. intros [|k]; discriminate.
  - cbn [tposs mapM] in E. apply bind_Ret in E. destruct E as (l & El & E). apply bind_Ret in E. destruct E as (ls' & Els & E). apply Ret_inj in E. subst ls.
    inversion H as [|? ? ? ? H1 H2]; subst. cbn [concat] in Hc. rewrite app_length in Hc.
    destruct (bias_field_ok t r p (r_irreps r) 0 c M l El H1 ltac:(lia)) as (M1 & E1 & EM1).
    destruct (IH ls' (p + r_size r)%nat (c + length l)%nat M1 Els H2 ltac:(lia)) as (M2 & E2 & EM2 & EM3).
    exists M2. cbn [bias_loop]. rewrite E1. cbn [bind fst snd]. split; [exact E2|]. split.
    + intros i j Hi. rewrite EM2 by lia. rewrite EM1. destruct (Nat.leb_spec p i); [lia|]. rewrite andb_false_r. reflexivity.
    + intros [|k] r' l0 a j Er El0 Ha.
      * cbn [nth_error] in Er, El0. injection Er as <-. injection El0 as <-. cbn [coffset]. unfold offset; cbn [firstn map list_sum fold_right]. rewrite !Nat.add_0_r.
        rewrite EM2 by lia. rewrite EM1. destruct (Nat.leb_spec p (p + a)); [|lia]. destruct (Nat.ltb_spec (p + a) (p + r_size r)); [|lia].
        rewrite !andb_true_r. replace (p + a - p)%nat with a by lia. reflexivity.
      * cbn [nth_error] in Er, El0. cbn [coffset]. specialize (EM3 k r' l0 a j Er El0 Ha).
        assert (offset r_size (r :: ft) (S k) = (r_size r + offset r_size ft k)%nat) as Off by reflexivity.
        rewrite Off. rewrite !Nat.add_assoc in *. rewrite EM3. rewrite EM1. destruct (Nat.ltb_spec (p + r_size r + offset r_size ft k + a) (p + r_size r)); [lia|]. rewrite andb_false_r. reflexivity.
Qed.
Lemma tposs_count : forall ft ls, tposs ft = Ret ls -> count_trivials irr tid (flat_map r_irreps ft) = Ret (length (concat ls)).
Proof.
  assert (forall a b x y, count_trivials irr tid a = Ret x -> count_trivials irr tid b = Ret y -> count_trivials irr tid (a ++ b) = Ret (x + y)%nat) as App.
  { induction a as [|id a IH]; intros b x y Ea Eb; cbn [count_trivials app] in *; [apply Ret_inj in Ea; subst x; exact Eb|].
    apply bind_Ret in Ea. destruct Ea as (i & Ei & Ea). apply bind_Ret in Ea. destruct Ea as (n & En & Ea). apply Ret_inj in Ea. subst x.
    rewrite Ei. cbn [bind]. rewrite (IH b n y En Eb). cbn [bind]. destruct (is_trivial tid i); reflexivity. }
  unfold tposs. induction ft as [|r ft IH]; intros ls E; cbn [mapM flat_map] in *; [apply Ret_inj in E; subst; reflexivity|].
  apply bind_Ret in E. destruct E as (l & El & E). apply bind_Ret in E. destruct E as (ls' & Els & E). apply Ret_inj in E. subst ls.
  cbn [concat]. rewrite app_length. apply App; [exact (tpos_count _ _ _ El)|exact (IH _ Els)].
Qed.
Lemma coffset_le : forall ls k l, nth_error ls k = Some l -> (coffset ls k + length l <= length (concat ls))%nat.
Proof.
  induction ls as [|l0 ls IH]; intros [|k] l E; cbn [nth_error coffset concat] in *; try discriminate; rewrite app_length.
  - injection E as ->. lia.
  - specialize (IH _ _ E). lia.
Qed.
Lemma sumn_window : forall n a k f, (a + k <= n)%nat -> sumn n (fun j => if Nat.leb a j && Nat.ltb j (a + k) then f (j - a)%nat else 0) = sumn k f.
Proof.
  intros n a k f H. replace n with (a + (k + (n - a - k)))%nat by lia. rewrite !sumn_app.
  rewrite (sumn_0 a) by (intros j Hj; destruct (Nat.leb_spec a j); [lia|reflexivity]).
  rewrite (sumn_0 (n - a - k)) by (intros j Hj; destruct (Nat.ltb_spec (a + (k + j)) (a + k)); [lia|rewrite andb_false_r; reflexivity]).
  rewrite Rplus_0_l, Rplus_0_r. apply sumn_ext. intros j Hj. destruct (Nat.leb_spec a (a + j)); [|lia]. destruct (Nat.ltb_spec (a + j) (a + k)); [|lia].
  cbn [andb]. f_equal. lia.
Qed.
Lemma Forall2_length_eq : forall {X Y} {P : X -> Y -> Prop} {l m}, Forall2 P l m -> length l = length m.
Proof. intros X Y P l m H. induction H; cbn; congruence. Qed.
(** what is known about the type *)
Definition fields_sound (ft : list (repr T)) : Prop :=
  Forall (fun r => Forall (sound_irrep irr mem op e) (r_irreps r) /\ total_size irr (r_irreps r) (r_size r)) ft.
Lemma tposs_ok : forall ft, fields_sound ft -> exists ls, tposs ft = Ret ls /\ Forall2 (fun r l => forall a, In a l -> (a < r_size r)%nat) ft ls.
Proof.
  intros ft H. unfold tposs. induction H as [|r ft [Hs Ht] H IH]; [exists []; split; [reflexivity|constructor]|].
  destruct IH as (ls & E & F2). destruct (tpos_total (r_irreps r) 0 Hs) as (l & El). exists (l :: ls). cbn [mapM]. rewrite El. cbn [bind]. rewrite E. cbn [bind].
  split; [reflexivity|]. constructor; [|exact F2]. intros a Ha. pose proof (tpos_range _ _ _ _ El Ht Hs a Ha). lia.
Qed.
(** the expanded bias, field by field *)
Lemma bias_value : forall ft, fields_sound ft -> exists ls, tposs ft = Ret ls /\ Forall2 (fun r l => forall a, In a l -> (a < r_size r)%nat) ft ls /\
  (length (concat ls) = 0%nat -> mk_bias irr tid true ft = Ret None) /\
  ((0 < length (concat ls))%nat -> exists M, mk_bias irr tid true ft = Ret (Some (length (concat ls), M)) /\
    forall b k r l v, nth_error ft k = Some r -> nth_error ls k = Some l -> expand_bias ft (Some (length (concat ls), M)) b = Some v ->
      length v = type_size r_size ft /\
      field_chans r_size ft v k = map (fun a => sumn (length l) (fun q => r_cob r a (nth q l 0%nat) * nth (coffset ls k + q) b 0)) (seq 0 (r_size r))).
Proof.
  intros ft H. destruct (tposs_ok ft H) as (ls & E & F2). exists ls. split; [exact E|]. split; [exact F2|].
  pose proof (tposs_count ft ls E) as Ct. unfold mk_bias. rewrite Ct. cbn [bind]. split.
  - intros ->. reflexivity.
  - intros Pos. destruct (Nat.ltb_spec 0 (length (concat ls))) as [_|]; [|lia].
    destruct (bias_loop_ok (length (concat ls)) ft ls 0 0 mzero E F2 ltac:(lia)) as (M & EM & _ & HM). rewrite EM. cbn [bind]. exists M. split; [reflexivity|].
    intros b k r l v Er El Ev. cbn [expand_bias] in Ev. injection Ev as <-.
    assert (length (map (fun i => sumn (length (concat ls)) (fun j => M i j * nth j b 0)) (seq 0 (list_sum (map r_size ft)))) = type_size r_size ft) as Lv
      by (rewrite map_length, seq_length; reflexivity).
    split; [exact Lv|]. apply list_ext.
    + rewrite (field_chans_length r_size ft _ k r Lv Er), map_length, seq_length. reflexivity.
    + rewrite (field_chans_length r_size ft _ k r Lv Er). intros a Ha. rewrite (field_chans_at r_size ft _ k r Er).
      pose proof (offset_S r_size ft k r Er) as OS. pose proof (offset_le r_size ft (S k)) as OL. unfold type_size in OL.
      assert (forall (l0 : list R) n s d, (a < n)%nat -> nth a (firstn n (skipn s l0)) d = nth (s + a) l0 d) as NF.
      { intros l0 n s d Hn. revert l0. induction s as [|s IHs]; intros l0; cbn [skipn].
        - rewrite Nat.add_0_l. clear - Hn. revert n a Hn. induction l0 as [|x l0 IH0]; intros [|n] [|a] Hn; cbn; try lia; try reflexivity. apply IH0; lia.
        - destruct l0 as [|x l0]; [rewrite firstn_nil; destruct a; reflexivity|]. rewrite IHs. reflexivity. }
      rewrite NF by exact Ha.
      set (F := fun i => sumn (length (concat ls)) (fun j => M i j * nth j b 0)).
      set (G := fun a => sumn (length l) (fun q => r_cob r a (nth q l 0%nat) * nth (coffset ls k + q) b 0)).
      rewrite (nth_indep _ 0 (F 0%nat)) by (rewrite map_length, seq_length; lia). rewrite map_nth, seq_nth by lia.
      rewrite (nth_indep (map G _) 0 (G 0%nat)) by (rewrite map_length, seq_length; lia). rewrite map_nth, seq_nth by lia. cbn [Nat.add]. unfold F, G.
      pose proof (coffset_le ls k l El) as CL.
      rewrite <- (sumn_window (length (concat ls)) (coffset ls k) (length l) (fun q => r_cob r a (nth q l 0%nat) * nth (coffset ls k + q) b 0) CL).
      apply sumn_ext. intros j Hj. pose proof (HM k r l a j Er El Ha) as Q. cbn [Nat.add] in Q. rewrite Q.
      destruct (Nat.leb_spec (coffset ls k) j), (Nat.ltb_spec j (coffset ls k + length l)); cbn [andb]; try (unfold mzero; lra).
      do 2 f_equal. lia.
Qed.

(** the columns of the block diagonal matrix at trivial irreps *)
Hypothesis trivial_ok : forall i, irr tid = Ret i -> trivial_rep mem (gi_size i) (gi_rep i).
Lemma tpos_column : forall ids pi l g bs, tpos ids pi = Ret l -> Forall (sound_irrep irr mem op e) ids -> mem g -> values irr ids g = Ret bs ->
  forall a i, In a l -> (i < bsize bs)%nat -> bdiag bs i (a - pi)%nat = mid i (a - pi)%nat.
Proof.
  induction ids as [|id ids IH]; intros pi l g bs E Hs Hg Ev a i Ha Hi; cbn [tpos values mapM] in *; [apply Ret_inj in E; subst; destruct Ha|].
  apply bind_Ret in E. destruct E as (s & Es & E). apply bind_Ret in E. destruct E as (l' & El & E). apply Ret_inj in E. subst l.
  rewrite Es in Ev. cbn [bind] in Ev. apply bind_Ret in Ev. destruct Ev as (B & EB & Ev). apply bind_Ret in Ev. destruct Ev as (bs' & Ebs & Ev). apply Ret_inj in Ev. subst bs.
  inversion Hs as [|? ? (s' & Es' & Eid & Pos & LR & _) Hs']; subst. rewrite Es in Es'. apply Ret_inj in Es'. subst s'.
  destruct (lr_total _ _ _ _ _ LR g Hg) as (A & EA). rewrite EB in EA. apply Ret_inj in EA. subst B.
  cbn [bdiag bsize] in *.
  assert (In a l' -> (if Nat.ltb i (gi_size s) then if Nat.ltb (a - pi) (gi_size s) then A i (a - pi)%nat else 0 else if Nat.ltb (a - pi) (gi_size s) then 0 else bdiag bs' (i - gi_size s)%nat (a - pi - gi_size s)%nat) = mid i (a - pi)%nat) as Rest.
  { intros Ha'. assert (pi + gi_size s <= a)%nat as Ge.
    { destruct (irr_sizes ids Hs') as (n & Tn). pose proof (tpos_range _ _ _ _ El Tn Hs' a Ha'). lia. }
    destruct (Nat.ltb_spec (a - pi) (gi_size s)) as [Lt|_]; [lia|]. unfold mid. destruct (Nat.ltb_spec i (gi_size s)) as [Li|Li].
    - destruct (Nat.eqb_spec i (a - pi)); [lia|reflexivity].
    - assert (i - gi_size s < bsize bs')%nat as Hi' by lia.
      pose proof (IH _ _ g bs' El Hs' Hg Ebs a (i - gi_size s)%nat Ha' Hi') as Q. replace (a - (pi + gi_size s))%nat with (a - pi - gi_size s)%nat in Q by lia.
      rewrite Q. unfold mid. destruct (Nat.eqb_spec (i - gi_size s) (a - pi - gi_size s)), (Nat.eqb_spec i (a - pi)); try reflexivity; lia. }
  destruct (is_trivial tid s) eqn:Tr; [|exact (Rest Ha)]. destruct Ha as [<- |Ha]; [|exact (Rest Ha)].
  rewrite Nat.sub_diag. unfold is_trivial in Tr. destruct (list_eq_dec Z.eq_dec tid (gi_id s)) as [Et|]; [|discriminate].
  assert (irr tid = Ret s) as Ets by (rewrite Et; exact Es). destruct (trivial_ok s Ets) as [S1 Tv]. destruct (Tv g Hg) as (A' & EA' & A00).
  rewrite EB in EA'. apply Ret_inj in EA'. rewrite S1 in *. assert (A = A') by congruence. subst A'.
  destruct (Nat.ltb_spec 0 1) as [_|]; [|lia]. unfold mid. destruct (Nat.ltb_spec i 1) as [Li|Li].
  - assert (i = 0%nat) by lia. subst i. cbn. exact A00.
  - destruct (Nat.eqb_spec i 0); [lia|reflexivity].
Qed.

Lemma mid_r : forall n A i j, (j < n)%nat -> mmul n A mid i j = A i j.
Proof.
  intros n A i j H. unfold mmul. rewrite (sumn_single n j); [unfold mid; rewrite Nat.eqb_refl; lra|exact H|]. intros k _ Ne. unfold mid. destruct (Nat.eqb_spec k j); [lia|lra].
Qed.
Lemma column_fixed : forall r l g A, Forall (sound_irrep irr mem op e) (r_irreps r) -> reproduces irr mem r -> tpos (r_irreps r) 0 = Ret l ->
  mem g -> r_fun r g = Ret (r_size r, A) -> forall a i, In a l -> (a < r_size r)%nat -> (i < r_size r)%nat ->
  sumn (r_size r) (fun j => A i j * r_cob r j a) = r_cob r i a.
Proof.
  intros r l g A Hs [[I1 I2] Hv] El Hg EA a i Ha Hn Hi. destruct (Hv g Hg) as (bs & A' & Eb & Lb & EA' & HA). rewrite EA in EA'. apply Ret_inj in EA'. assert (A = A') by congruence. subst A'.
  set (n := r_size r) in *. set (Q := r_cob r) in *. set (Qi := r_inv r) in *. set (B := bdiag bs) in *.
  transitivity (mmul n (mmul n (mmul n Q B) Qi) Q i a); [apply sumn_ext; intros j Hj; rewrite (HA i j Hi Hj); reflexivity|].
  rewrite mmul_assoc. transitivity (mmul n (mmul n Q B) mid i a); [apply sumn_ext; intros j Hj; rewrite (I2 j a Hj Hn); reflexivity|].
  rewrite mid_r by assumption. unfold mmul. rewrite (sumn_single n a); [| exact Hn |].
  - pose proof (tpos_column _ _ _ g bs El Hs Hg Eb a a Ha ltac:(lia)) as C. rewrite Nat.sub_0_r in C. unfold B. rewrite C. unfold mid. rewrite Nat.eqb_refl. lra.
  - intros m Hm Ne. pose proof (tpos_column _ _ _ g bs El Hs Hg Eb a m Ha ltac:(lia)) as C. rewrite Nat.sub_0_r in C. unfold B. rewrite C. unfold mid.
    destruct (Nat.eqb_spec m a); [lia|lra].
Qed.
Lemma Forall2_nth_error : forall {X Y} (P : X -> Y -> Prop) l m k x y, Forall2 P l m -> nth_error l k = Some x -> nth_error m k = Some y -> P x y.
Proof.
  intros X Y P l m k x y H. revert k. induction H as [|a b l m H1 H2 IH]; intros [|k] E1 E2; cbn in *; try discriminate; [congruence|eauto].
Qed.
Lemma tposs_nth : forall ft ls k r, tposs ft = Ret ls -> nth_error ft k = Some r -> exists l, nth_error ls k = Some l /\ tpos (r_irreps r) 0 = Ret l.
Proof.
  unfold tposs. induction ft as [|r0 ft IH]; intros ls k r E Ek; [destruct k; discriminate|]. cbn [mapM] in E.
  apply bind_Ret in E. destruct E as (l & El & E). apply bind_Ret in E. destruct E as (ls' & Els & E). apply Ret_inj in E. subst ls.
  destruct k as [|k]; cbn [nth_error] in *; [injection Ek as <-; eauto|exact (IH _ _ _ Els Ek)].
Qed.
Lemma map_seq_nth : forall (f : nat -> R) n i, (i < n)%nat -> nth i (map f (seq 0 n)) 0 = f i.
Proof.
  intros f n i H. rewrite (nth_indep _ 0 (f 0%nat)) by (rewrite map_length, seq_length; exact H). rewrite map_nth, seq_nth by exact H. reflexivity.
Qed.
Theorem bias_invariant : forall bias ft m b v g rho, fields_sound ft -> Forall (reproduces irr mem) ft ->
  mk_bias irr tid bias ft = Ret m -> expand_bias ft m b = Some v -> mem g -> (forall r, In r ft -> r_fun r g = Ret (r_size r, rho r)) ->
  acts r_size ft rho v v.
Proof.
  intros bias ft m b v g rho Hs Hr Em Ev Hg Hrho. destruct bias; [|apply Ret_inj in Em; subst m; discriminate].
  destruct (bias_value ft Hs) as (ls & Els & F2 & N0 & N1).
  destruct (Nat.eq_dec (length (concat ls)) 0) as [Z0|Nz]; [rewrite (N0 Z0) in Em; apply Ret_inj in Em; subst m; discriminate|].
  destruct (N1 ltac:(lia)) as (M & EM & HM). rewrite Em in EM. apply Ret_inj in EM. subst m.
  split; [cbn [expand_bias] in Ev; injection Ev as <-; rewrite map_length, seq_length; reflexivity|].
  intros k r Er. destruct (tposs_nth ft ls k r Els Er) as (l & El & Et). destruct (HM b k r l v Er El Ev) as [_ Ec]. rewrite Ec.
  pose proof (Hrho r (nth_error_In _ _ Er)) as EA. unfold fields_sound in Hs. rewrite Forall_forall in Hs, Hr. destruct (Hs r (nth_error_In _ _ Er)) as [Sr Tr]. pose proof (Hr r (nth_error_In _ _ Er)) as Rr.
  pose proof (Forall2_nth_error _ _ _ _ _ _ F2 Er El) as Lt. cbn beta in Lt.
  unfold mv. apply map_ext_in. intros i Hi. apply in_seq in Hi.
  transitivity (sumn (r_size r) (fun j => sumn (length l) (fun q => (rho r i j * r_cob r j (nth q l 0%nat)) * nth (coffset ls k + q) b 0))).
  - rewrite sumn_swap. apply sumn_ext. intros q Hq. rewrite sumn_scal_r. f_equal. symmetry.
    apply (column_fixed r l g (rho r) Sr Rr Et Hg EA); [apply nth_In; exact Hq|apply Lt, nth_In, Hq|lia].
  - apply sumn_ext. intros j Hj. rewrite map_seq_nth by exact Hj. rewrite <- sumn_scal_l. apply sumn_ext. intros q Hq. ring.
Qed.

(** ** Every invariant vector is a bias *)
Lemma tpos_increasing : forall ids pi l, tpos ids pi = Ret l -> Forall (sound_irrep irr mem op e) ids -> (forall a, In a l -> (pi <= a)%nat) /\ NoDup l.
Proof.
  induction ids as [|id ids IH]; intros pi l E Hs; cbn [tpos] in *; [apply Ret_inj in E; subst; split; [intros a []|constructor]|].
  apply bind_Ret in E. destruct E as (s & Es & E). apply bind_Ret in E. destruct E as (l' & El & E). apply Ret_inj in E. subst l.
  inversion Hs as [|? ? (s' & Es' & _ & Pos & _) Hs']; subst. rewrite Es in Es'. apply Ret_inj in Es'. subst s'.
  destruct (IH _ _ El Hs') as [L N]. destruct (is_trivial tid s).
  - split; [intros a [<- |Ha]; [lia|apply L in Ha; lia]|]. constructor; [intros Bad; apply L in Bad; lia|exact N].
  - split; [intros a Ha; apply L in Ha; lia|exact N].
Qed.
Lemma sum_support : forall n l (f : nat -> R), NoDup l -> (forall a, In a l -> (a < n)%nat) -> (forall j, (j < n)%nat -> ~ In j l -> f j = 0) ->
  sumn n f = sumn (length l) (fun q => f (nth q l 0%nat)).
Proof.
  intros n l. induction l as [|a l IH]; intros f Nd Lt Z0; [apply sumn_0; intros j Hj; apply Z0; [exact Hj|intros []]|].
  inversion Nd as [|? ? Na Nd']; subst. cbn [length]. rewrite sumn_S_first. cbn [nth].
  rewrite (sumn_ext n f (fun j => (if Nat.eqb j a then f j else 0) + (if Nat.eqb j a then 0 else f j))) by (intros j _; destruct (Nat.eqb j a); lra).
  rewrite sumn_plus. f_equal.
  - rewrite (sumn_single n a); [rewrite Nat.eqb_refl; reflexivity|apply Lt; left; reflexivity|]. intros j _ Ne. destruct (Nat.eqb_spec j a); [lia|reflexivity].
  - rewrite (IH (fun j => if Nat.eqb j a then 0 else f j) Nd' (fun b H => Lt b (or_intror H))).
    + apply sumn_ext. intros q Hq. destruct (Nat.eqb_spec (nth q l 0%nat) a) as [E|]; [|reflexivity]. exfalso. apply Na. rewrite <- E. apply nth_In, Hq.
    + intros j Hj Nj. destruct (Nat.eqb_spec j a) as [|Ne]; [reflexivity|]. apply Z0; [exact Hj|]. intros [E|Hin]; [congruence|contradiction].
Qed.
Lemma values_sound : forall ids g, Forall (sound_irrep irr mem op e) ids -> mem g -> exists bs, values irr ids g = Ret bs.
Proof.
  intros ids g H Hg. induction H as [|id ids (i & Ei & _ & _ & LR & _) H (bs & E)]; [exists []; reflexivity|].
  destruct (lr_total _ _ _ _ _ LR g Hg) as (A & EA). exists ((gi_size i, A) :: bs). unfold values in *. cbn [mapM]. rewrite Ei. cbn [bind]. rewrite EA. cbn [bind]. rewrite E. reflexivity.
Qed.
Lemma zero_off : forall ids l (y : nat -> R) n, tpos ids 0 = Ret l -> Forall (sound_irrep irr mem op e) ids -> total_size irr ids n ->
  (forall id i, In id ids -> id <> tid -> irr id = Ret i -> nothing_fixed mem (gi_size i) (gi_rep i)) ->
  (forall g bs, mem g -> values irr ids g = Ret bs -> forall i, (i < bsize bs)%nat -> sumn (bsize bs) (fun j => bdiag bs i j * y j) = y i) ->
  forall j, (j < n)%nat -> ~ In j l -> y j = 0.
Proof.
  induction ids as [|id ids IH]; intros l y n El Hs (is_ & Em & En) Nf Fx j Hj Nj; [cbn in Em; apply Ret_inj in Em; subst; cbn in Hj; lia|].
  cbn [tpos mapM] in El, Em. apply bind_Ret in El. destruct El as (s & Es & El). rewrite Es in Em. cbn [bind] in Em. apply bind_Ret in Em. destruct Em as (is' & Em & E2). apply Ret_inj in E2. subst is_.
  apply bind_Ret in El. destruct El as (l0 & El0 & El). apply Ret_inj in El. cbn [map list_sum fold_right] in En. change (fold_right Nat.add 0%nat) with list_sum in En.
  inversion Hs as [|? ? Hs1 Hs']; subst x l1. pose proof Hs1 as (s' & Es' & Eid & Pos & LR & _). rewrite Es in Es'. apply Ret_inj in Es'. subst s'.
  destruct (tpos_total ids 0 Hs') as (l' & El'). pose proof (tpos_shift _ _ _ El' (gi_size s)) as Sh. rewrite Nat.add_0_r in Sh. cbn [Nat.add] in El0. rewrite Sh in El0. apply Ret_inj in El0. subst l0.
  assert (forall g A bs', mem g -> gi_rep s g = Ret (gi_size s, A) -> values irr ids g = Ret bs' ->
    (forall i, (i < gi_size s)%nat -> sumn (gi_size s) (fun j => A i j * y j) = y i) /\
    (forall i, (i < bsize bs')%nat -> sumn (bsize bs') (fun j => bdiag bs' i j * y (gi_size s + j)%nat) = y (gi_size s + i)%nat)) as Split.
  { intros g A bs' Hg EA Eb. assert (values irr (id :: ids) g = Ret ((gi_size s, A) :: bs')) as Ev.
    { unfold values in *. cbn [mapM]. rewrite Es. cbn [bind]. rewrite EA. cbn [bind]. rewrite Eb. reflexivity. }
    pose proof (Fx g _ Hg Ev) as F. cbn [bsize bdiag] in F. split; intros i Hi.
    - specialize (F i ltac:(lia)). rewrite sumn_app in F. rewrite <- F. rewrite (sumn_0 (bsize bs')).
      + rewrite Rplus_0_r. apply sumn_ext. intros m Hm. destruct (Nat.ltb_spec i (gi_size s)); [|lia]. destruct (Nat.ltb_spec m (gi_size s)); [reflexivity|lia].
      + intros m Hm. destruct (Nat.ltb_spec i (gi_size s)); [|lia]. destruct (Nat.ltb_spec (gi_size s + m) (gi_size s)); [lia|lra].
    - specialize (F (gi_size s + i)%nat ltac:(lia)). rewrite sumn_app in F. rewrite <- F. rewrite (sumn_0 (gi_size s)).
      + rewrite Rplus_0_l. apply sumn_ext. intros m Hm. destruct (Nat.ltb_spec (gi_size s + i) (gi_size s)); [lia|]. destruct (Nat.ltb_spec (gi_size s + m) (gi_size s)); [lia|].
        do 2 f_equal; lia.
      + intros m Hm. destruct (Nat.ltb_spec (gi_size s + i) (gi_size s)); [lia|]. destruct (Nat.ltb_spec m (gi_size s)); [lra|lia]. }
  destruct (Nat.lt_ge_cases j (gi_size s)) as [Lj|Gj].
  - destruct (is_trivial tid s) eqn:Tr.
    + unfold is_trivial in Tr. destruct (list_eq_dec Z.eq_dec tid (gi_id s)) as [Et|]; [|discriminate].
      destruct (trivial_ok s) as [S1 _]; [rewrite Et, Eid; exact Es|]. exfalso. apply Nj. subst l. left. lia.
    + assert (id <> tid) as Ne. { intros ->. unfold is_trivial in Tr. rewrite Eid in Tr. destruct (list_eq_dec Z.eq_dec tid tid); congruence. }
      assert (Forall (fun a => a = 0) (map y (seq 0 (gi_size s)))) as Zs.
      { apply (Nf id s (or_introl eq_refl) Ne Es). split; [rewrite map_length, seq_length; reflexivity|]. intros g A Hg EA.
        destruct (values_sound ids g Hs' Hg) as (bs' & Eb). destruct (Split g A bs' Hg EA Eb) as [F _].
        unfold mv. apply map_ext_in. intros i Hi. apply in_seq in Hi. rewrite <- F by lia. apply sumn_ext. intros m Hm. rewrite map_seq_nth by exact Hm. reflexivity. }
      rewrite Forall_forall in Zs. apply Zs. apply in_map_iff. exists j. split; [reflexivity|apply in_seq; lia].
  - replace j with (gi_size s + (j - gi_size s))%nat by lia.
    apply (IH l' (fun m => y (gi_size s + m)%nat) (list_sum (map gi_size is')) El' Hs'); [exists is'; auto| | |lia|].
    + intros id' i Hin. apply Nf. right. exact Hin.
    + intros g bs' Hg Eb. destruct (lr_total _ _ _ _ _ LR g Hg) as (A & EA). apply (Split g A bs' Hg EA Eb).
    + intros Hin. apply Nj. subst l. assert (In j (map (Nat.add (gi_size s)) l')) as Q by (apply in_map_iff; exists (j - gi_size s)%nat; split; [lia|exact Hin]).
      destruct (is_trivial tid s); [right|]; exact Q.
Qed.
Lemma coffset_nth : forall ls cs k c q, map (@length nat) ls = map (@length R) cs -> nth_error cs k = Some c -> (q < length c)%nat -> nth (coffset ls k + q) (concat cs) 0 = nth q c 0.
Proof.
  induction ls as [|l ls IH]; intros [|c0 cs] k c q E Ek Hq; cbn [map] in E; try discriminate; [destruct k; discriminate|]. injection E as E1 E2.
  destruct k as [|k]; cbn [nth_error coffset concat] in *.
  - injection Ek as ->. cbn [Nat.add]. rewrite app_nth1 by exact Hq. reflexivity.
  - rewrite app_nth2 by lia. rewrite <- (IH cs k c q E2 Ek Hq). f_equal. lia.
Qed.
Lemma field_combination : forall r l x, Forall (sound_irrep irr mem op e) (r_irreps r) -> total_size irr (r_irreps r) (r_size r) -> reproduces irr mem r ->
  tpos (r_irreps r) 0 = Ret l -> (forall id i, In id (r_irreps r) -> id <> tid -> irr id = Ret i -> nothing_fixed mem (gi_size i) (gi_rep i)) ->
  fixed_by mem (r_size r) (r_fun r) x -> exists c, length c = length l /\ x = map (fun a => sumn (length l) (fun q => r_cob r a (nth q l 0%nat) * nth q c 0)) (seq 0 (r_size r)).
Proof.
  intros r l x Hs Tn [[I1 I2] Hv] El Nf [Lx Fx]. set (n := r_size r) in *. set (Q := r_cob r) in *. set (Qi := r_inv r) in *.
  set (y := fun m => sumn n (fun j => Qi m j * nth j x 0)).
  assert (forall j, (j < n)%nat -> ~ In j l -> y j = 0) as Z0.
  { apply (zero_off (r_irreps r) l y n El Hs Tn Nf). intros g bs Hg Eb i Hi. destruct (Hv g Hg) as (bs' & A & Eb' & Lb & EA & HA).
    rewrite Eb in Eb'. apply Ret_inj in Eb'. subst bs'. rewrite Lb in *. pose proof (Fx g A Hg EA) as Fg.
    symmetry. transitivity (mvec n Qi (mvec n A (fun j => nth j x 0)) i).
    - unfold y, mvec at 1. apply sumn_ext. intros j Hj. f_equal. transitivity (nth j (mv n A x) 0); [rewrite Fg; reflexivity|]. rewrite mv_nth by exact Hj. reflexivity.
    - transitivity (mvec n Qi (mvec n Q (mvec n (bdiag bs) y)) i).
      + unfold mvec at 1 3. apply sumn_ext. intros j Hj. f_equal. rewrite (mvec_ext n n A _ _ (fun j => nth j x 0) HA ltac:(reflexivity) j Hj). rewrite mvec_mmul, mvec_mmul. reflexivity.
      + rewrite <- mvec_mmul. rewrite (mvec_ext n n _ mid _ (mvec n (bdiag bs) y) I2 ltac:(reflexivity) i Hi). rewrite mvec_mid by exact Hi. reflexivity. }
  exists (map y l). split; [apply map_length|]. apply list_ext; [rewrite map_length, seq_length; exact Lx|]. rewrite Lx. intros i Hi. rewrite map_seq_nth by exact Hi.
  transitivity (sumn n (fun m => Q i m * y m)).
  - transitivity (mvec n mid (fun j => nth j x 0) i); [rewrite mvec_mid by exact Hi; reflexivity|].
    rewrite <- (mvec_ext n n (mmul n Q Qi) mid (fun j => nth j x 0) _ I1 ltac:(reflexivity) i Hi). rewrite mvec_mmul. reflexivity.
  - destruct (tpos_increasing _ _ _ El Hs) as [_ Nd]. rewrite (sum_support n l (fun m => Q i m * y m) Nd).
    + apply sumn_ext. intros q Hq. rewrite (nth_indep (map y l) 0 (y 0%nat)) by (rewrite map_length; exact Hq). rewrite map_nth. reflexivity.
    + intros a Ha. pose proof (tpos_range _ _ _ _ El Tn Hs a Ha). lia.
    + intros j Hj Nj. rewrite (Z0 j Hj Nj). lra.
Qed.
Theorem bias_complete : forall ft m x, fields_sound ft -> Forall (reproduces irr mem) ft ->
  (forall r id i, In r ft -> In id (r_irreps r) -> id <> tid -> irr id = Ret i -> nothing_fixed mem (gi_size i) (gi_rep i)) ->
  mk_bias irr tid true ft = Ret m -> length x = type_size r_size ft ->
  (forall g rho, mem g -> (forall r, In r ft -> r_fun r g = Ret (r_size r, rho r)) -> acts r_size ft rho x x) ->
  match m with
  | None => Forall (fun a => a = 0) x
  | Some (t, M) => exists b, length b = t /\ expand_bias ft m b = Some x
  end.
Proof.
  intros ft m x Hs Hr Nf Em Lx Fx. destruct (bias_value ft Hs) as (ls & Els & F2 & N0 & N1).
  assert (forall k r, nth_error ft k = Some r -> fixed_by mem (r_size r) (r_fun r) (field_chans r_size ft x k)) as Fk.
  { intros k r Er. split; [exact (field_chans_length r_size ft x k r Lx Er)|]. intros g A Hg EA.
    assert (exists rho, (forall r, In r ft -> r_fun r g = Ret (r_size r, rho r))) as (rho & Hrho).
    { exists (fun r => match r_fun r g with Ret (_, A) => A | Raise => mzero end). intros r' Hin. rewrite Forall_forall in Hr. destruct (Hr r' Hin) as [_ Hv].
      destruct (Hv g Hg) as (bs & A' & _ & _ & EA' & _). rewrite EA'. reflexivity. }
    destruct (Fx g rho Hg Hrho) as [_ Q]. specialize (Q k r Er). rewrite (Hrho r (nth_error_In _ _ Er)) in EA. apply Ret_inj in EA. assert (rho r = A) by congruence. congruence. }
  assert (exists cs, map (@length nat) ls = map (@length R) cs /\ forall k r l c, nth_error ft k = Some r -> nth_error ls k = Some l -> nth_error cs k = Some c ->
    field_chans r_size ft x k = map (fun a => sumn (length l) (fun q => r_cob r a (nth q l 0%nat) * nth q c 0)) (seq 0 (r_size r))) as (cs & Lc & Hc).
  { assert (forall k r l, nth_error ft k = Some r -> nth_error ls k = Some l -> exists c, length c = length l /\
      field_chans r_size ft x k = map (fun a => sumn (length l) (fun q => r_cob r a (nth q l 0%nat) * nth q c 0)) (seq 0 (r_size r))) as Each.
    { intros k r l Er El. destruct (tposs_nth ft ls k r Els Er) as (l' & El' & Et). rewrite El in El'. injection El' as <-.
      unfold fields_sound in Hs. rewrite Forall_forall in Hs, Hr. destruct (Hs r (nth_error_In _ _ Er)) as [Sr Tr]. pose proof (Hr r (nth_error_In _ _ Er)) as Rr.
      apply (field_combination r l _ Sr Tr Rr Et); [|exact (Fk k r Er)]. intros id i Hin. apply (Nf r id i (nth_error_In _ _ Er) Hin). }
    clear - Each F2.
    assert (forall a, exists cs, map (@length nat) (skipn a ls) = map (@length R) cs /\ forall k r l c, nth_error ft (a + k) = Some r -> nth_error ls (a + k) = Some l -> nth_error cs k = Some c ->
      field_chans r_size ft x (a + k) = map (fun a => sumn (length l) (fun q => r_cob r a (nth q l 0%nat) * nth q c 0)) (seq 0 (r_size r))) as G.
    { assert (forall d a, (length ls - a = d)%nat -> exists cs, map (@length nat) (skipn a ls) = map (@length R) cs /\ forall k r l c, nth_error ft (a + k) = Some r -> nth_error ls (a + k) = Some l -> nth_error cs k = Some c ->
        field_chans r_size ft x (a + k) = map (fun a => sumn (length l) (fun q => r_cob r a (nth q l 0%nat) * nth q c 0)) (seq 0 (r_size r))) as G; [|intros a; exact (G _ a eq_refl)].
      pose proof (Forall2_length_eq F2) as L2.
      induction d as [|d IH]; intros a Hd.
      - exists []. rewrite skipn_all2 by lia. split; [reflexivity|]. intros k r l c _ _ E. destruct k; discriminate.
      - destruct (IH (S a) ltac:(lia)) as (cs & E & Hcs). destruct (nth_error ls a) as [l|] eqn:El; [|apply nth_error_None in El; lia].
        destruct (nth_error ft a) as [r|] eqn:Er; [|apply nth_error_None in Er; lia]. destruct (Each a r l Er El) as (c & Lcl & Ec).
        exists (c :: cs). split.
        + assert (skipn a ls = l :: skipn (S a) ls) as ->.
          { clear - El. revert a El. induction ls as [|z ls IHl]; intros [|a] El; cbn in *; try discriminate; [congruence|apply IHl, El]. }
          cbn [map]. rewrite E, Lcl. reflexivity.
        + intros [|k] r' l' c' Er' El' Ec'; cbn [nth_error] in Ec'.
          * rewrite Nat.add_0_r in *. rewrite Er in Er'. rewrite El in El'. injection Er' as <-. injection El' as <-. injection Ec' as <-. exact Ec.
          * replace (a + S k)%nat with (S a + k)%nat in * by lia. exact (Hcs k r' l' c' Er' El' Ec'). }
    destruct (G 0%nat) as (cs & E & H). exists cs. split; [exact E|exact H]. }
  assert (length cs = length ls) as Lcs by (rewrite <- (map_length (@length R) cs), <- Lc, map_length; reflexivity).
  assert (length (concat cs) = length (concat ls)) as Ltot.
  { clear - Lc. revert cs Lc. induction ls as [|l ls IH]; intros [|c cs] Lc; cbn [map] in Lc; try discriminate; [reflexivity|]. injection Lc as L1 L2. cbn [concat]. rewrite !app_length, (IH cs L2). lia. }
  assert (forall k r, nth_error ft k = Some r -> exists l c, nth_error ls k = Some l /\ nth_error cs k = Some c /\ length c = length l) as Get.
  { intros k r Er. destruct (tposs_nth ft ls k r Els Er) as (l & El & _). destruct (nth_error cs k) as [c|] eqn:Ek.
    - exists l, c. split; [exact El|split; [reflexivity|]]. assert (nth_error (map (@length nat) ls) k = nth_error (map (@length R) cs) k) as Q by (rewrite Lc; reflexivity).
      rewrite (map_nth_error (@length nat) _ _ El), (map_nth_error (@length R) _ _ Ek) in Q. congruence.
    - apply nth_error_None in Ek. assert (nth_error ls k <> None) by congruence. apply nth_error_Some in H. lia. }
  destruct (Nat.eq_dec (length (concat ls)) 0) as [Zt|Nz].
  - rewrite (N0 Zt) in Em. apply Ret_inj in Em. subst m.
    assert (x = repeat 0 (type_size r_size ft)) as ->; [|apply Forall_forall; intros a Ha; exact (repeat_spec _ _ _ Ha)].
    apply (fields_ext r_size ft); [exact Lx|apply repeat_length|]. intros k Hk. destruct (nth_error ft k) as [r|] eqn:Er; [|apply nth_error_None in Er; lia].
    destruct (Get k r Er) as (l & c & El & Ec & Lcl). rewrite (Hc k r l c Er El Ec).
    assert (length l = 0%nat) as L0. { pose proof (coffset_le ls k l El). lia. }
    apply list_ext; [rewrite map_length, seq_length, (field_chans_length r_size ft _ k r (repeat_length _ _) Er); reflexivity|].
    rewrite map_length, seq_length. intros i Hi. rewrite map_seq_nth by exact Hi. rewrite L0. cbn [sumn].
    rewrite (field_chans_at r_size ft _ k r Er). symmetry. assert (forall q, nth i (firstn q (skipn (offset r_size ft k) (repeat 0 (type_size r_size ft)))) 0 = 0) as Q.
    { intros q. destruct (nth_in_or_default i (firstn q (skipn (offset r_size ft k) (repeat 0 (type_size r_size ft)))) 0) as [Hin|D]; [|exact D].
      apply (repeat_spec (type_size r_size ft) 0). revert Hin. generalize (nth i (firstn q (skipn (offset r_size ft k) (repeat 0 (type_size r_size ft)))) 0). intros z Hin. rewrite <- (firstn_skipn (offset r_size ft k)). apply in_or_app. right.
      set (sk := skipn (offset r_size ft k) (repeat 0 (type_size r_size ft))) in *. rewrite <- (firstn_skipn q sk). apply in_or_app. left. exact Hin. }
    apply Q.
  - destruct (N1 ltac:(lia)) as (M & EM & HM). rewrite Em in EM. apply Ret_inj in EM. subst m. exists (concat cs). split; [exact Ltot|].
    destruct (expand_bias ft (Some (length (concat ls), M)) (concat cs)) as [v|] eqn:Ev; [|discriminate]. f_equal.
    assert (length v = type_size r_size ft) as Lv by (cbn [expand_bias] in Ev; injection Ev as <-; rewrite map_length, seq_length; reflexivity).
    apply (fields_ext r_size ft); [exact Lv|exact Lx|]. intros k Hk. destruct (nth_error ft k) as [r|] eqn:Er; [|apply nth_error_None in Er; lia].
    destruct (Get k r Er) as (l & c & El & Ec & Lcl). destruct (HM (concat cs) k r l v Er El Ev) as [_ ->]. rewrite (Hc k r l c Er El Ec).
    apply map_ext. intros a. apply sumn_ext. intros q Hq. f_equal. apply (coffset_nth ls cs k c q Lc Ec). lia.
Qed.
End Bias.
