(** Convolutions on a grid commute with the symmetries of the grid. *)
From Coq Require Import Reals ZArith Bool List Lia Lra.
From Verif Require Import LibRes LibMat GridModel SpecGrid GridProofs GridThms ImageModel SpecImage ImageProofs MaskThms.
Import ListNotations.
Open Scope R_scope.

(** ** The grid of the filter *)
Lemma ravel_snoc : forall k t a, ravel k (t ++ [a]) = (ravel k t * k + a)%nat.
Proof. intros; unfold ravel; rewrite fold_left_app; reflexivity. Qed.

Lemma ravel_digit : forall k n t, valid (repeat k n) t -> forall j, (j < n)%nat -> ((ravel k t / k ^ j) mod k)%nat = nth (n - 1 - j) t 0%nat.
Proof.
  intros k n t V; apply valid_nth in V as (L & V); rewrite repeat_length in *.
  assert (W : forall i, (i < n)%nat -> (nth i t 0 < k)%nat) by (intros i Hi; specialize (V i Hi); rewrite nth_repeat_lt in V by exact Hi; exact V).
  clear V; revert n L W; induction t as [|a t IH] using rev_ind; intros n L W j Hj; [cbn in L; lia|].
  rewrite app_length in L; cbn in L. rewrite ravel_snoc.
  assert (Ha : (a < k)%nat). { specialize (W (length t) ltac:(lia)); rewrite app_nth2, Nat.sub_diag in W by lia; exact W. }
  destruct j as [|j].
  - cbn [Nat.pow]; rewrite Nat.div_1_r. replace (n - 1 - 0)%nat with (length t) by lia. rewrite app_nth2, Nat.sub_diag by lia; cbn [nth].
    rewrite Nat.add_comm, Nat.mod_add by lia. apply Nat.mod_small; exact Ha.
  - cbn [Nat.pow]. rewrite <- Nat.div_div by (try apply Nat.pow_nonzero; lia).
    rewrite Nat.div_add_l by lia. rewrite (Nat.div_small a k) by exact Ha. rewrite Nat.add_0_r.
    rewrite (IH (n - 1)%nat) by (try lia; intros i Hi; specialize (W i ltac:(lia)); rewrite app_nth1 in W by lia; exact W).
    rewrite app_nth1 by lia; f_equal; lia.
Qed.

Lemma grid_coord : forall k dil n t j, valid (repeat k n) t -> (j < n)%nat ->
  grid_coords k dil (ravel k t) j = INR dil * coord 0 n (repeat k n) t j.
Proof.
  intros k dil n t j V Hj; unfold grid_coords; rewrite (ravel_digit k n t V j Hj); unfold coord, axis; cbn [Nat.add].
  rewrite nth_repeat_lt by lia. apply valid_nth in V as (L & V); rewrite repeat_length in V; specialize (V (n - 1 - j)%nat ltac:(lia)); rewrite nth_repeat_lt in V by lia.
  rewrite plus_INR, mult_INR, minus_INR by lia; cbn [INR]. destruct j; cbn [Nat.leb Nat.eqb]; field.
Qed.

Lemma grid_act : forall n M p b k dil t j, does n M p b -> valid (repeat k n) t -> (j < n)%nat ->
  grid_coords k dil (ravel k (act n p b (repeat k n) t)) j = mvec n M (grid_coords k dil (ravel k t)) j.
Proof.
  intros n M p b k dil t j (P & D) V Hj.
  assert (V' : valid (repeat k n) (act n p b (repeat k n) t)).
  { rewrite <- (repeat_pshape n p k P) at 1; apply act_valid; [exact P|apply repeat_length|exact V]. }
  rewrite (grid_coord k dil n) by assumption.
  assert (Im : image 0 n M (repeat k n) t (repeat k n) (act n p b (repeat k n) t)).
  { apply (D 0%nat); cbn [skipn firstn Nat.add]; try (rewrite repeat_length; reflexivity); auto. symmetry; apply repeat_pshape; exact P. }
  destruct Im as (_ & C); rewrite C by exact Hj. unfold mvec. rewrite <- sumn_scal_l; apply sumn_ext; intros i Hi; rewrite (grid_coord k dil n) by assumption; ring.
Qed.

(** ** Padding *)
Lemma pad_ok_lt : forall m p w, pad_ok m p w = true -> match m with PadZeros => True | PadReflect => (p < w)%nat | PadReplicate => (0 < w)%nat | PadCircular => (p <= w /\ 0 < w)%nat end.
Proof.
  intros m p w; destruct m; cbn [pad_ok]; intros H; [exact I|apply Nat.ltb_lt; exact H|apply Nat.ltb_lt; exact H|].
  apply andb_true_iff in H as (H & G); apply Nat.leb_le in H; apply Nat.ltb_lt in G; auto.
Qed.

Lemma pad_read_lt : forall m p w j i, pad_ok m p w = true -> (j < w + 2 * p)%nat -> pad_read m p w j = Some i -> (i < w)%nat.
Proof.
  intros m p w j i O Hj; apply pad_ok_lt in O; unfold pad_read.
  destruct (Nat.leb_spec p j), (Nat.ltb_spec j (p + w)); cbn [andb]; try (intros E; injection E as <-; lia);
  destruct m; try discriminate; intros E; injection E as <-; 
  destruct (Nat.ltb_spec j p); lia.
Qed.

Lemma pad_read_mirror : forall m p w j, pad_ok m p w = true -> (j < w + 2 * p)%nat ->
  pad_read m p w (w + 2 * p - 1 - j) = option_map (fun i => w - 1 - i)%nat (pad_read m p w j).
Proof.
  intros m p w j O Hj; apply pad_ok_lt in O; unfold pad_read.
  destruct (Nat.leb_spec p j), (Nat.ltb_spec j (p + w)), (Nat.leb_spec p (w + 2 * p - 1 - j)), (Nat.ltb_spec (w + 2 * p - 1 - j) (p + w)); try lia; cbn [andb option_map]; try (f_equal; lia);
  destruct m; try reflexivity; 
  destruct (Nat.ltb_spec (w + 2 * p - 1 - j) p), (Nat.ltb_spec j p); try lia; cbn [option_map]; f_equal; lia.
Qed.

Definition reads (m : pad_mode) (p : nat) (ws q : list nat) : option (list nat) :=
  all_some (map (fun wj => pad_read m p (fst wj) (snd wj)) (combine ws q)).

Lemma reads_Some : forall m p ws q js, length q = length ws ->
  (reads m p ws q = Some js <-> length js = length ws /\ forall k, (k < length ws)%nat -> pad_read m p (nth k ws 0%nat) (nth k q 0%nat) = Some (nth k js 0%nat)).
Proof.
  intros m p ws; induction ws as [|w ws IH]; intros [|j q] js L; cbn in L; try discriminate.
  - unfold reads; cbn. split; [intros E; injection E as <-; split; [reflexivity|intros; cbn in *; lia]|intros (E & _); destruct js; [reflexivity|discriminate]].
  - unfold reads in *; cbn [combine map all_some fst snd length]; injection L as L; specialize (IH q (tl js) L).
    split.
    + destruct (pad_read m p w j) as [i|] eqn:E; [|discriminate]. destruct (all_some _) as [is|]; [|discriminate].
      intros F; injection F as <-; cbn [tl] in IH; destruct IH as (IH & _); specialize (IH eq_refl) as (L' & IH).
      split; [cbn; lia|]; intros [|k] Hk; cbn [nth]; [exact E|apply IH; lia].
    + intros (L' & H). destruct js as [|i js]; [discriminate|]; cbn [tl] in IH. pose proof (H 0%nat ltac:(lia)) as H0; cbn [nth] in H0; rewrite H0.
      destruct IH as (_ & IH). rewrite IH; [reflexivity|]. split; [cbn in L'; lia|]; intros k Hk; apply (H (S k)); lia.
Qed.

Lemma reads_None : forall m p ws q, length q = length ws -> reads m p ws q = None ->
  exists k, (k < length ws)%nat /\ pad_read m p (nth k ws 0%nat) (nth k q 0%nat) = None.
Proof.
  intros m p ws; induction ws as [|w ws IH]; intros [|j q] L; cbn in L; try discriminate.
  unfold reads in *; cbn [combine map all_some fst snd length]; injection L as L; specialize (IH q L).
  destruct (pad_read m p w j) as [i|] eqn:E; [|intros _; exists 0%nat; split; [lia|exact E]].
  destruct (all_some _) as [is|]; [discriminate|]; intros _; destruct IH as (k & Hk & IH); [reflexivity|]; exists (S k); split; [lia|exact IH].
Qed.

Lemma forallb_nth : forall f l k, forallb f l = true -> (k < length l)%nat -> f (nth k l 0%nat) = true.
Proof. intros f l k H Hk; rewrite forallb_forall in H; apply H, nth_In, Hk. Qed.

Lemma map_nth_nat : forall (f : nat -> nat) l k, (k < length l)%nat -> nth k (map f l) 0%nat = f (nth k l 0%nat).
Proof. intros f l k H; rewrite (nth_indep _ 0%nat (f 0%nat)) by (rewrite map_length; exact H); apply map_nth. Qed.

Lemma reads_act : forall m p n pi b ws q, permutes n pi -> length ws = n -> forallb (pad_ok m p) ws = true -> valid (map (fun w => w + 2 * p)%nat ws) q ->
  reads m p (pshape n pi ws) (act n pi b (map (fun w => w + 2 * p)%nat ws) q) = option_map (act n pi b ws) (reads m p ws q).
Proof.
  intros m p n pi b ws q P L O V; apply valid_nth in V as (Lq & V); rewrite map_length, L in *.
  assert (E : forall k, (k < n)%nat -> pad_read m p (nth k (pshape n pi ws) 0%nat) (nth k (act n pi b (map (fun w => w + 2 * p)%nat ws) q) 0%nat) =
    option_map (fun i => if b k then (nth (pi k) ws 0 - 1 - i)%nat else i) (pad_read m p (nth (pi k) ws 0%nat) (nth (pi k) q 0%nat))).
  { intros k Hk. pose proof (proj1 P k Hk) as Hpk. rewrite pshape_nth, act_nth by exact Hk. rewrite map_nth_nat by lia.
    destruct (b k); [|destruct (pad_read m p _ _); reflexivity].
    specialize (V (pi k) Hpk); rewrite map_nth_nat in V by lia. apply pad_read_mirror; [|exact V]. apply forallb_nth; [exact O|lia]. }
  destruct (reads m p ws q) as [js|] eqn:Er.
  - apply reads_Some in Er as (Lj & Er); [|lia]. cbn [option_map]. apply reads_Some; [rewrite act_length, pshape_length; reflexivity|].
    rewrite act_length, pshape_length; split; [reflexivity|]. intros k Hk; rewrite E, act_nth by exact Hk.
    rewrite Er by (rewrite L; apply P; exact Hk); reflexivity.
  - apply reads_None in Er as (a & Ha & Er); [|lia]. cbn [option_map]. rewrite L in Ha; destruct (permutes_onto n pi P a Ha) as (k & Hk & <-).
    destruct (reads m p (pshape n pi ws) _) as [js|] eqn:Er'; [|reflexivity].
    apply reads_Some in Er' as (_ & Er'); [|rewrite act_length, pshape_length; reflexivity]. rewrite pshape_length in Er'.
    specialize (Er' k Hk); rewrite E, Er in Er' by exact Hk; discriminate.
Qed.

Lemma pad_reads : forall m p x B c ws, shape x = B :: c :: ws -> forallb (pad_ok m p) ws = true ->
  exists xp, pad m p x = Ret xp /\ shape xp = B :: c :: map (fun w => w + 2 * p)%nat ws /\
    forall b o q, entry xp (b :: o :: q) = match reads m p ws q with Some js => entry x (b :: o :: js) | None => 0 end.
Proof.
  intros m p x B c ws E O; unfold pad; rewrite E; cbn [skipn firstn app]; rewrite O; cbn [assert_ bind].
  eexists; split; [reflexivity|split; [reflexivity|]]; intros b o q; reflexivity.
Qed.

Lemma reads_valid : forall m p ws q js, forallb (pad_ok m p) ws = true -> valid (map (fun w => w + 2 * p)%nat ws) q -> reads m p ws q = Some js -> valid ws js.
Proof.
  intros m p ws q js O V E; apply valid_nth in V as (Lq & V); rewrite map_length in *. apply reads_Some in E as (L & E); [|lia].
  apply valid_nth; split; [exact L|]; intros k Hk; specialize (V k Hk); rewrite map_nth_nat in V by exact Hk.
  apply (pad_read_lt m p (nth k ws 0%nat) (nth k q 0%nat)); [apply forallb_nth; assumption|exact V|apply E; exact Hk].
Qed.

(** ** Positions *)
Lemma combine_nth_map : forall (f : nat * nat -> nat) l m k, length l = length m -> (k < length l)%nat ->
  nth k (map f (combine l m)) 0%nat = f (nth k l 0%nat, nth k m 0%nat).
Proof.
  intros f l m k L H; rewrite (nth_indep _ 0%nat (f (0%nat, 0%nat))) by (rewrite map_length, combine_length; lia).
  rewrite map_nth, combine_nth by exact L; reflexivity.
Qed.

Definition place (stride dil : nat) (pos t : list nat) : list nat := map (fun pt => stride * fst pt + dil * snd pt)%nat (combine pos t).
Definition osize (k stride dil : nat) (ws : list nat) : list nat := map (fun kw => conv_size (fst kw) stride dil (snd kw)) (combine (repeat k (length ws)) ws).

Lemma osize_length : forall k stride dil ws, length (osize k stride dil ws) = length ws.
Proof. intros; unfold osize; rewrite map_length, combine_length, repeat_length; lia. Qed.
Lemma osize_nth : forall k stride dil ws a, (a < length ws)%nat -> nth a (osize k stride dil ws) 0%nat = conv_size k stride dil (nth a ws 0%nat).
Proof.
  intros k stride dil ws a H; unfold osize; rewrite combine_nth_map by (rewrite repeat_length; lia); cbn [fst snd].
  rewrite nth_repeat_lt by exact H; reflexivity.
Qed.

Lemma fits_exactly : forall k stride dil w, (0 < stride)%nat -> (dil * (k - 1) + 1 <= w)%nat -> ((w - (dil * (k - 1) + 1)) mod stride = 0)%nat ->
  (stride * (conv_size k stride dil w - 1) + dil * (k - 1) + 1 = w)%nat.
Proof.
  intros k stride dil w Hs Hw Hm; unfold conv_size. set (d := (dil * (k - 1))%nat) in *. pose proof (Nat.div_mod (w - (d + 1)) stride ltac:(lia)) as E.
  rewrite Hm in E. replace ((w - (d + 1)) / stride + 1 - 1)%nat with ((w - (d + 1)) / stride)%nat by lia. lia.
Qed.

Lemma place_valid : forall k stride dil ws pos t, (0 < stride)%nat -> Forall (fun w => dil * (k - 1) + 1 <= w)%nat ws ->
  valid (osize k stride dil ws) pos -> valid (repeat k (length ws)) t -> valid ws (place stride dil pos t).
Proof.
  intros k stride dil ws pos t Hs Hw V Vt; apply valid_nth in V as (L & V), Vt as (Lt & Vt); rewrite osize_length in *; rewrite repeat_length in *.
  apply valid_nth; unfold place; rewrite map_length, combine_length; split; [lia|]; intros a Ha; rewrite combine_nth_map by lia; cbn [fst snd].
  specialize (V a Ha); specialize (Vt a Ha); rewrite osize_nth in V by exact Ha; rewrite nth_repeat_lt in Vt by exact Ha.
  rewrite Forall_forall in Hw. pose proof (Hw (nth a ws 0%nat) (nth_In _ _ Ha)) as H; unfold conv_size in V.
  set (w := nth a ws 0%nat) in *; set (i := nth a pos 0%nat) in *; set (u := nth a t 0%nat) in *.
  assert (stride * i <= w - (dil * (k - 1) + 1))%nat.
  { transitivity (stride * ((w - (dil * (k - 1) + 1)) / stride))%nat; [apply Nat.mul_le_mono_l; lia|apply Nat.mul_div_le; lia]. }
  assert (dil * u <= dil * (k - 1))%nat by (apply Nat.mul_le_mono_l; lia). lia.
Qed.

Lemma place_act : forall n pi b k stride dil ws pos t, permutes n pi -> length ws = n -> (0 < stride)%nat ->
  Forall (fun w => dil * (k - 1) + 1 <= w /\ (w - (dil * (k - 1) + 1)) mod stride = 0)%nat ws ->
  valid (osize k stride dil ws) pos -> valid (repeat k n) t ->
  place stride dil (act n pi b (osize k stride dil ws) pos) (act n pi b (repeat k n) t) = act n pi b ws (place stride dil pos t).
Proof.
  intros n pi b k stride dil ws pos t P L Hs Hw V Vt; apply valid_nth in V as (Lp & V), Vt as (Lt & Vt); rewrite osize_length, L in *; rewrite repeat_length in *.
  apply (nth_ext _ _ 0%nat 0%nat); unfold place; rewrite map_length, combine_length, !act_length; [lia|]; intros a Ha.
  rewrite combine_nth_map by (rewrite !act_length; lia); cbn [fst snd]. rewrite !act_nth by lia.
  pose proof (proj1 P a ltac:(lia)) as Hpa. rewrite combine_nth_map by lia; cbn [fst snd].
  specialize (V (pi a) Hpa); specialize (Vt (pi a) Hpa). rewrite osize_nth in * by lia; rewrite nth_repeat_lt in * by lia.
  destruct (b a); [|reflexivity]. rewrite Forall_forall in Hw. destruct (Hw (nth (pi a) ws 0%nat) (nth_In ws 0%nat (eq_ind_r (fun z => (pi a < z)%nat) Hpa L))) as (H1 & H2).
  pose proof (fits_exactly k stride dil _ Hs H1 H2) as E. set (wo := conv_size k stride dil (nth (pi a) ws 0%nat)) in *.
  set (i := nth (pi a) pos 0%nat) in *; set (u := nth (pi a) t 0%nat) in *; set (w := nth (pi a) ws 0%nat) in *.
  rewrite !Nat.mul_sub_distr_l. rewrite !Nat.mul_sub_distr_l in E.
  assert (stride * i <= stride * wo - stride * 1)%nat by (rewrite <- Nat.mul_sub_distr_l; apply Nat.mul_le_mono_l; lia).
  assert (dil * u <= dil * k - dil * 1)%nat by (rewrite <- Nat.mul_sub_distr_l; apply Nat.mul_le_mono_l; lia). lia.
Qed.

Lemma osize_pshape : forall n pi k stride dil ws, permutes n pi -> length ws = n ->
  osize k stride dil (pshape n pi ws) = pshape n pi (osize k stride dil ws).
Proof.
  intros n pi k stride dil ws P L; apply (nth_ext _ _ 0%nat 0%nat); [rewrite osize_length, !pshape_length; reflexivity|].
  intros a Ha; rewrite osize_length, pshape_length in Ha. rewrite osize_nth, !pshape_nth by (rewrite ?pshape_length; exact Ha).
  rewrite osize_nth by (rewrite L; apply P; exact Ha); reflexivity.
Qed.

Lemma map_pshape : forall n pi (f : nat -> nat) ws, permutes n pi -> length ws = n -> map f (pshape n pi ws) = pshape n pi (map f ws).
Proof.
  intros n pi f ws P L; apply (nth_ext _ _ 0%nat 0%nat); [rewrite map_length, !pshape_length; reflexivity|].
  intros a Ha; rewrite map_length, pshape_length in Ha. rewrite map_nth_nat, !pshape_nth by (rewrite ?pshape_length; exact Ha).
  rewrite map_nth_nat by (rewrite L; apply P; exact Ha); reflexivity.
Qed.
Lemma Forall_pshape : forall n pi (Q : nat -> Prop) ws, permutes n pi -> length ws = n -> Forall Q ws -> Forall Q (pshape n pi ws).
Proof.
  intros n pi Q ws P L F; apply Forall_forall; intros w H; apply in_map_iff in H as (a & <- & Ha); apply in_seq in Ha.
  rewrite Forall_forall in F; apply F, nth_In; rewrite L; apply P; lia.
Qed.
Lemma forallb_pshape : forall n pi (f : nat -> bool) ws, permutes n pi -> length ws = n -> forallb f ws = true -> forallb f (pshape n pi ws) = true.
Proof.
  intros n pi f ws P L F; rewrite forallb_forall in *; intros w H; apply in_map_iff in H as (a & <- & Ha); apply in_seq in Ha.
  apply F, nth_In; rewrite L; apply P; lia.
Qed.

(** ** The convolution *)
Definition bias_at (bias : option (list R)) (o : nat) : R := match bias with Some v => nth o v 0 | None => 0 end.

Lemma forallb_combine : forall (f : nat * nat -> bool) l m, length l = length m ->
  (forallb f (combine l m) = true <-> forall k, (k < length l)%nat -> f (nth k l 0%nat, nth k m 0%nat) = true).
Proof.
  intros f l; induction l as [|a l IH]; intros [|c m] L; cbn in L; try discriminate; cbn [combine forallb]; [split; [intros _ k Hk; cbn in Hk; lia|reflexivity]|].
  injection L as L; rewrite andb_true_iff, (IH m L); split.
  - intros (H & G) [|k] Hk; cbn [nth]; [exact H|apply G; cbn in Hk; lia].
  - intros H; split; [apply (H 0%nat); cbn; lia|intros k Hk; apply (H (S k)); cbn; lia].
Qed.

Lemma conv_accepts : forall groups stride dil cout cin k n f bias x B c ws, shape x = B :: c :: ws -> length ws = n ->
  ((exists y, conv groups stride dil (reshape_filter cout cin k n f) bias x = Ret y) <->
   (0 < groups)%nat /\ (0 < stride)%nat /\ (0 < dil)%nat /\ (n = 0%nat \/ (0 < k)%nat) /\ (cout mod groups = 0)%nat /\ c = (groups * cin)%nat /\
   (match bias with Some v => length v = cout | None => True end) /\ Forall (fun w => dil * (k - 1) + 1 <= w)%nat ws).
Proof.
  intros groups stride dil cout cin k n f bias x B c ws E L. unfold conv; rewrite E; cbn [shape reshape_filter skipn nth length Nat.leb].
  rewrite repeat_length, L, Nat.eqb_refl; cbn [andb assert_ bind].
  assert (Hk : forallb (Nat.ltb 0) (repeat k n) = true <-> n = 0%nat \/ (0 < k)%nat).
  { split; [|intros H; apply forallb_forall; intros a Ha; pose proof Ha as Ha'; apply repeat_spec in Ha; subst a; apply Nat.ltb_lt; destruct H as [Z|H]; [rewrite Z in Ha'; destruct Ha'|exact H]].
    destruct n as [|n]; [left; reflexivity|]. cbn; rewrite andb_true_iff; intros (H & _); right; destruct k; [discriminate|lia]. }
  assert (Hw : forallb (fun kw => Nat.leb (dil * (fst kw - 1) + 1) (snd kw)) (combine (repeat k n) ws) = true <-> Forall (fun w => dil * (k - 1) + 1 <= w)%nat ws).
  { rewrite forallb_combine by (rewrite repeat_length; lia). rewrite repeat_length, Forall_forall; cbn [fst snd]. split.
    - intros H w Hin; apply (In_nth _ _ 0%nat) in Hin as (a & Ha & <-); specialize (H a ltac:(lia)); rewrite nth_repeat_lt in H by lia; apply Nat.leb_le in H; exact H.
    - intros H a Ha; rewrite nth_repeat_lt by lia; apply Nat.leb_le, H, nth_In; lia. }
  split.
  - intros (y & H). apply assert_Ret in H as (H1 & H); apply assert_Ret in H as (H2 & H); apply assert_Ret in H as (H3 & H); apply assert_Ret in H as (H4 & _).
    rewrite !andb_true_iff, !Nat.ltb_lt in H1; rewrite andb_true_iff, !Nat.eqb_eq in H2. destruct H1 as (((A1 & A2) & A3) & A4), H2 as (B1 & B2).
    repeat split; auto; [apply Hk; exact A4| |apply Hw; exact H4]. destruct bias; [apply Nat.eqb_eq; exact H3|exact I].
  - intros (A1 & A2 & A3 & A4 & A5 & A6 & A7 & A8). eexists.
    apply assert_Ret; split; [rewrite !andb_true_iff, !Nat.ltb_lt; repeat split; auto; apply Hk; exact A4|].
    apply assert_Ret; split; [rewrite andb_true_iff, !Nat.eqb_eq; auto|].
    apply assert_Ret; split; [destruct bias; [apply Nat.eqb_eq; exact A7|reflexivity]|].
    apply assert_Ret; split; [apply Hw; exact A8|reflexivity].
Qed.

Lemma conv_value : forall groups stride dil cout cin k n f bias x B c ws y, shape x = B :: c :: ws -> length ws = n ->
  conv groups stride dil (reshape_filter cout cin k n f) bias x = Ret y ->
  shape y = B :: cout :: osize k stride dil ws /\
  forall b o pos, entry y (b :: o :: pos) =
    sumn cin (fun i => rsum (map (fun t => f o i (ravel k t) * entry x (b :: (o / (cout / groups) * cin + i)%nat :: place stride dil pos t)) (all_indices (repeat k n)))) + bias_at bias o.
Proof.
  intros groups stride dil cout cin k n f bias x B c ws y E L H. unfold conv in H; rewrite E in H; cbn [shape reshape_filter skipn nth length Nat.leb] in H.
  do 5 apply assert_Ret in H as (_ & H). apply Ret_inj in H; subst y; cbn [shape entry]. rewrite <- L; split; [reflexivity|]. intros; reflexivity.
Qed.

Lemma conv_equivariant_gen : forall half, half 0 = 0 -> half 1 = 1 -> half (-1) = -1 ->
  forall affine n M m p groups stride dil cout cin k K f bias A Bo rin x y B ws, signed_perm n M ->
  (forall o i t, (o < cout)%nat -> (i < cin)%nat -> valid (repeat k n) t -> f o i (ravel k t) = K (grid_coords k dil (ravel k t)) o i) ->
  kernel_on n cout cin K -> steers n cout cin M A Bo K -> repeats groups cin rin A -> in_blocks groups cout Bo ->
  (forall v, bias = Some v -> forall o, (o < cout)%nat -> sumn cout (fun j => Bo o j * nth j v 0) = nth o v 0) ->
  shape x = B :: (groups * cin)%nat :: ws -> length ws = n ->
  Forall (fun w => (w + 2 * p - (dil * (k - 1) + 1)) mod stride = 0)%nat ws ->
  conv_forward m p groups stride dil (reshape_filter cout cin k n f) bias x = Ret y ->
  exists x' y' z, transform half affine (groups * cin) rin n M x = Ret x' /\
    conv_forward m p groups stride dil (reshape_filter cout cin k n f) bias x' = Ret y' /\
    transform half affine cout Bo n M y = Ret z /\ same_array y' z.
Proof.
  intros half H0 H1 Hm affine n M m p groups stride dil cout cin k K f bias A Bo rin x y B ws HM HF HK HS HA HB Hb Ex Ln Hd H.
  assert (O : forallb (pad_ok m p) ws = true).
  { unfold conv_forward, pad in H; rewrite Ex in H; cbn [skipn] in H. apply bind_Ret in H as (xp & H & _); apply assert_Ret in H as (H & _); exact H. }
  destruct (pad_reads m p x B _ ws Ex O) as (xp & Ep & Sp & Rp).
  unfold conv_forward in H; rewrite Ep in H; cbn [bind] in H.
  set (wp := map (fun w => w + 2 * p)%nat ws) in *. assert (Lwp : length wp = n) by (unfold wp; rewrite map_length; exact Ln).
  destruct (conv_value _ _ _ _ _ _ _ _ _ _ _ _ _ _ Sp Lwp H) as (Sy & Vy).
  destruct (proj1 (conv_accepts groups stride dil cout cin k n f bias xp B _ wp Sp Lwp) (ex_intro _ y H)) as (G1 & G2 & G3 & G4 & G5 & G6 & G7 & G8).
  destruct (signed_perm_does n M HM) as (pi & b & D). pose proof (proj1 D) as P.
  destruct (transform_ok half H0 H1 Hm affine _ rin n M x B ws HM Ex Ln) as (x1 & x' & E1 & Ex' & Ex1 & F1 & M1). rewrite Ex in Ex1.
  apply (moved_iff _ x1 x' 2 n M pi b [B; (groups * cin)%nat] ws D Ex1 eq_refl Ln) in M1; destruct M1 as (Sx' & M1).
  cbn [app] in Sx'.
  destruct (pad_reads m p x' B _ _ Sx' (forallb_pshape n pi _ ws P Ln O)) as (xp' & Ep' & Sp' & Rp').
  rewrite map_pshape in Sp' by assumption; fold wp in Sp'.
  destruct (proj2 (conv_accepts groups stride dil cout cin k n f bias xp' B _ (pshape n pi wp) Sp' (pshape_length _ _ _))) as (y' & Hy').
  { repeat split; auto. apply Forall_pshape; assumption. }
  assert (Hy : conv_forward m p groups stride dil (reshape_filter cout cin k n f) bias x' = Ret y') by (unfold conv_forward; rewrite Ep'; exact Hy').
  destruct (conv_value _ _ _ _ _ _ _ _ _ _ _ _ _ _ Sp' (pshape_length _ _ _) Hy') as (Sy' & Vy').
  destruct (transform_ok half H0 H1 Hm affine _ Bo n M y B _ HM Sy ltac:(rewrite osize_length; exact Lwp)) as (y1 & z & E2 & Ez & Ey1 & F2 & M2).
  exists x', y', z; split; [exact Ex'|split; [exact Hy|split; [exact Ez|]]].
  apply (moved_unique R y1 y' z 2 n M); [rewrite Ey1, Sy; cbn; rewrite osize_length; lia|exact HM| |exact M2].
  rewrite Sy in Ey1.
  apply (moved_iff _ y1 y' 2 n M pi b [B; cout] (osize k stride dil wp) D Ey1 eq_refl ltac:(rewrite osize_length; exact Lwp)).
  split; [rewrite Sy', osize_pshape by assumption; reflexivity|].
  assert (Xp : forall bt g i q, (g < groups)%nat -> (i < cin)%nat -> (bt < B)%nat -> valid wp q ->
    entry xp' (bt :: (g * cin + i)%nat :: act n pi b wp q) = sumn cin (fun j => A i j * entry xp (bt :: (g * cin + j)%nat :: q))).
  { intros bt g i q Hg Hi Hbt Vq. rewrite Rp'. pose proof (reads_act m p n pi b ws q P Ln O Vq) as RA; fold wp in RA; rewrite RA; clear RA.
    assert (Hgi : (g * cin + i < groups * cin)%nat) by (apply Nat.lt_le_trans with ((g + 1) * cin)%nat; [lia|apply Nat.mul_le_mono_r; lia]).
    destruct (reads m p ws q) as [js|] eqn:Er; cbn [option_map].
    - pose proof (reads_valid m p ws q js O Vq Er) as Vj.
      assert (Vl : valid [B; (groups * cin)%nat] [bt; (g * cin + i)%nat]) by (constructor; [exact Hbt|constructor; [exact Hgi|constructor]]).
      pose proof (M1 _ js Vl Vj) as G; cbn [app] in G; rewrite G, F1.
      rewrite sumn_mul, (sumn_single groups g) by (first [exact Hg|intros g' Hg' Ng; apply sumn_0; intros j Hj; rewrite HA;
        [rewrite !Nat.div_add_l by lia; rewrite !Nat.div_small by lia; rewrite !Nat.add_0_r; destruct (Nat.eqb_spec g g'); [congruence|ring]|exact Hgi|
         apply Nat.lt_le_trans with ((g' + 1) * cin)%nat; [lia|apply Nat.mul_le_mono_r; lia]]]).
      apply sumn_ext; intros j Hj. rewrite HA by (first [exact Hgi|apply Nat.lt_le_trans with ((g + 1) * cin)%nat; [lia|apply Nat.mul_le_mono_r; lia]]).
      rewrite !Nat.div_add_l by lia; rewrite !Nat.div_small by lia; rewrite !Nat.add_0_r, Nat.eqb_refl.
      rewrite !(Nat.add_comm (g * cin)), !Nat.mod_add by lia; rewrite !Nat.mod_small by lia.
      rewrite (Nat.add_comm j), Rp, Er; reflexivity.
    - symmetry; apply sumn_0; intros j Hj; rewrite Rp, Er; ring. }
  intros l pos Vl Vpos. destruct l as [|bt [|o [|? ?]]]; try (apply valid_nth in Vl as (Ll & _); discriminate); cbn [app].
  assert (Hbt : (bt < B)%nat) by (inversion Vl; assumption). assert (Ho : (o < cout)%nat) by (inversion Vl as [|? ? ? ? ? V2]; inversion V2; assumption).
  rewrite F2, Vy'.
  (* the groups *)
  set (cg := (cout / groups)%nat) in *. assert (Ec : cout = (groups * cg)%nat) by (unfold cg; rewrite (Nat.div_mod cout groups) at 1 by lia; rewrite G5; lia).
  assert (Hg : forall o', (o' < cout)%nat -> (o' / cg < groups)%nat).
  { intros o' Ho'; apply Nat.div_lt_upper_bound; [intros Z; rewrite Z in Ec; lia|lia]. }
  assert (Hd' : Forall (fun w => dil * (k - 1) + 1 <= w /\ (w - (dil * (k - 1) + 1)) mod stride = 0)%nat wp).
  { apply Forall_forall; intros w Hw; split; [rewrite Forall_forall in G8; apply G8; exact Hw|]. unfold wp in Hw; apply in_map_iff in Hw as (w0 & <- & Hw0).
    rewrite Forall_forall in Hd; apply Hd; exact Hw0. }
  (* left side *)
  assert (LHS : sumn cin (fun i => rsum (map (fun t => f o i (ravel k t) * entry xp' (bt :: (o / cg * cin + i)%nat :: place stride dil (act n pi b (osize k stride dil wp) pos) t)) (all_indices (repeat k n)))) =
    rsum (map (fun t => sumn cin (fun j => sumn cout (fun o' => Bo o o' * K (grid_coords k dil (ravel k t)) o' j) * entry xp (bt :: (o / cg * cin + j)%nat :: place stride dil pos t))) (all_indices (repeat k n)))).
  { rewrite <- rsum_sumn.
    pose proof (act_perm n pi b (repeat k n) P (repeat_length _ _)) as Pm. rewrite repeat_pshape in Pm by exact P.
    rewrite <- (rsum_perm _ _ (Permutation.Permutation_map _ Pm)), map_map. apply rsum_ext; intros t Ht; apply all_indices_In in Ht.
    rewrite (place_act n pi b k stride dil wp pos t P Lwp G2 Hd' Vpos Ht).
    assert (Vq : valid wp (place stride dil pos t)) by (apply (place_valid k); [exact G2|exact G8|exact Vpos|rewrite Lwp; exact Ht]).
    transitivity (sumn cin (fun i => sumn cin (fun j => K (mvec n M (grid_coords k dil (ravel k t))) o i * A i j * entry xp (bt :: (o / cg * cin + j)%nat :: place stride dil pos t)))).
    - apply sumn_ext; intros i Hi. rewrite Xp by auto. rewrite <- sumn_scal_l; apply sumn_ext; intros j Hj.
      rewrite HF; [|exact Ho|exact Hi|rewrite <- (repeat_pshape n pi k P) at 1; apply act_valid; [exact P|apply repeat_length|exact Ht]]. rewrite (HK (grid_coords k dil (ravel k (act n pi b (repeat k n) t))) (mvec n M (grid_coords k dil (ravel k t)))) by (auto; intros a Ha; apply grid_act; assumption). ring.
    - rewrite sumn_swap; apply sumn_ext; intros j Hj. rewrite <- (HS _ o j Ho Hj). rewrite <- sumn_scal_r. reflexivity. }
  rewrite LHS; clear LHS.
  (* right side *)
  transitivity (sumn cout (fun o' => Bo o o' * sumn cin (fun j => rsum (map (fun t => K (grid_coords k dil (ravel k t)) o' j * entry xp (bt :: (o / cg * cin + j)%nat :: place stride dil pos t)) (all_indices (repeat k n))))) + bias_at bias o).
  - f_equal. rewrite rsum_sumn. transitivity (sumn cin (fun j => sumn cout (fun o' => Bo o o' * rsum (map (fun t => K (grid_coords k dil (ravel k t)) o' j * entry xp (bt :: (o / cg * cin + j)%nat :: place stride dil pos t)) (all_indices (repeat k n)))))).
    + apply sumn_ext; intros j Hj.
      transitivity (rsum (map (fun t => sumn cout (fun o' => Bo o o' * (K (grid_coords k dil (ravel k t)) o' j * entry xp (bt :: (o / cg * cin + j)%nat :: place stride dil pos t)))) (all_indices (repeat k n)))).
      * apply rsum_ext; intros t _; rewrite <- sumn_scal_r; apply sumn_ext; intros; ring.
      * rewrite rsum_sumn; apply sumn_ext; intros o' Ho'; apply rsum_scal.
    + rewrite sumn_swap; apply sumn_ext; intros o' Ho'; apply sumn_scal_l.
  - assert (Eb : bias_at bias o = sumn cout (fun o' => Bo o o' * bias_at bias o')).
    { unfold bias_at; destruct bias as [v|]; [symmetry; apply (Hb v eq_refl o Ho)|symmetry; apply sumn_0; intros; ring]. }
    rewrite Eb, <- sumn_plus; apply sumn_ext; intros o' Ho'. rewrite Vy.
    destruct (Nat.eq_dec (o / cg) (o' / cg)) as [E|E]; [rewrite E, Rmult_plus_distr_l; f_equal; f_equal; apply sumn_ext; intros j Hj; apply rsum_ext; intros t Ht; apply all_indices_In in Ht; rewrite HF by auto; reflexivity|].
    rewrite (HB o o' Ho Ho' E); ring.
Qed.

Lemma conv_equivariant : forall half, half 0 = 0 -> half 1 = 1 -> half (-1) = -1 ->
  forall affine n M m p groups stride dil cout cin k K bias A Bo rin x y B ws, signed_perm n M ->
  kernel_on n cout cin K -> steers n cout cin M A Bo K -> repeats groups cin rin A -> in_blocks groups cout Bo ->
  (forall v, bias = Some v -> forall o, (o < cout)%nat -> sumn cout (fun j => Bo o j * nth j v 0) = nth o v 0) ->
  shape x = B :: (groups * cin)%nat :: ws -> length ws = n ->
  Forall (fun w => (w + 2 * p - (dil * (k - 1) + 1)) mod stride = 0)%nat ws ->
  conv_forward m p groups stride dil (reshape_filter cout cin k n (fun o i q => K (grid_coords k dil q) o i)) bias x = Ret y ->
  exists x' y' z, transform half affine (groups * cin) rin n M x = Ret x' /\
    conv_forward m p groups stride dil (reshape_filter cout cin k n (fun o i q => K (grid_coords k dil q) o i)) bias x' = Ret y' /\
    transform half affine cout Bo n M y = Ret z /\ same_array y' z.
Proof.
  intros. eapply (conv_equivariant_gen half H H0 H1 affine n M m p groups stride dil cout cin k K); eauto.
Qed.
