(** Splitting and concatenating geometric tensors. *)
From Coq Require Import List ZArith Arith Bool Lia.
From Verif Require Import LibRes LibPy FieldModel SpecField FieldProofs FieldThms.
Import ListNotations.

Section Split.
Context {A V : Type}.
Variable size : A -> nat.
Variable x : gtensor A V.
Hypothesis G : good size x.
Notation ft := (g_type x).
Notation n := (length ft).
Let positions := fields_start size ft ++ [type_size size ft].

Lemma position_at : forall i, i <= n -> py_get positions (Z.of_nat i) = Ret (offset size ft i).
Proof.
  intros i H. apply py_get_nat. unfold positions, fields_start. destruct (Nat.eq_dec i n) as [->|Ni].
  - rewrite nth_error_app2 by (rewrite starts_length; lia). rewrite starts_length, Nat.sub_diag. cbn [nth_error].
    rewrite offset_all by lia. reflexivity.
  - rewrite nth_error_app1 by (rewrite starts_length; lia). rewrite starts_nth.
    destruct (nth_error ft i) eqn:E; [reflexivity|]. apply nth_error_None in E. lia.
Qed.
Lemma type_slice : forall a b, a < b <= n -> py_slice ft (Some (Z.of_nat a)) (Some (Z.of_nat b)) None = Ret (firstn (b - a) (skipn a ft)).
Proof. intros a b H. apply py_slice_chans. lia. Qed.
Lemma slice_picks : forall a b, a <= b <= n -> map (nth_error ft) (seq a (b - a)) = map Some (firstn (b - a) (skipn a ft)).
Proof. intros a b H. apply mapM_get_ok. apply mapM_get_seq. lia. Qed.

Lemma loop_step : forall a b bs, a < b <= n ->
  split_loop size x positions (Z.of_nat a) (Z.of_nat b :: bs) =
  (ts <- split_loop size x positions (Z.of_nat b) bs ;;
   Ret ({| g_type := firstn (b - a) (skipn a ft);
           g_chans := flat_map (field_chans size ft (g_chans x)) (seq a (b - a)) |} :: ts)).
Proof.
  intros a b bs H. cbn [split_loop]. rewrite (proj2 (Z.ltb_lt _ _)) by lia. cbn [assert_ bind].
  rewrite type_slice by exact H. cbn [bind]. unfold mk_type. rewrite firstn_length, skipn_length.
  destruct (Nat.eqb_spec (Nat.min (b - a) (n - a)) 0); [lia|]. cbn [negb assert_ bind].
  rewrite !position_at by lia. cbn [bind].
  rewrite py_slice_chans by (rewrite G; split; [apply offset_mono; lia|apply offset_le]). cbn [bind].
  replace b with (a + (b - a)) at 2 by lia. rewrite chans_range by lia.
  unfold mk_gtensor. rewrite (picked_length size ft (g_chans x) _ _ G (slice_picks a b ltac:(lia))), Nat.eqb_refl. reflexivity.
Qed.

Lemma loop_ok : forall bs a, rising a bs -> Forall (fun b => b <= n) bs -> exists ts,
  split_loop size x positions (Z.of_nat a) (map Z.of_nat bs) = Ret ts /\
  Forall2 (fun sel t => picks size ft (g_chans x) sel (g_type t) (g_chans t) /\ good size t) (between a bs) ts.
Proof.
  induction bs as [|b bs IH]; intros a R F; [exists []; split; [reflexivity|constructor]|].
  destruct R as [R1 R2]. inversion F; subst. cbn [map]. rewrite loop_step by lia.
  destruct (IH b R2 H2) as (ts & E & P). rewrite E; cbn [bind]. eexists; split; [reflexivity|]. cbn [between]. constructor; [|exact P].
  cbn [g_type g_chans]. split; [split; [apply slice_picks; lia|reflexivity]|].
  unfold good; cbn [g_type g_chans]. apply picked_length; [exact G|apply slice_picks; lia].
Qed.

Lemma loop_accepts : forall bs a ts, split_loop size x positions (Z.of_nat a) bs = Ret ts -> a <= n ->
  exists l, bs = map Z.of_nat l /\ rising a l /\ Forall (fun b => b <= n) l.
Proof.
  induction bs as [|b bs IH]; intros a ts E Ha; [exists []; repeat split; constructor|].
  cbn [split_loop] in E. apply assert_Ret in E. destruct E as [Hb E]. apply Z.ltb_lt in Hb.
  apply bind_Ret in E; destruct E as (r & Er & E). apply bind_Ret in E; destruct E as (t & Et & E).
  apply bind_Ret in E; destruct E as (p & Ep & E). apply bind_Ret in E; destruct E as (q & Eq & E).
  apply bind_Ret in E; destruct E as (d & Ed & E). apply bind_Ret in E; destruct E as (u & Eu & E).
  apply bind_Ret in E; destruct E as (us & Eus & E).
  apply py_get_Ret in Eq. destruct Eq as (k & Ek & _). unfold positions in Ek. rewrite app_length in Ek. unfold fields_start in Ek.
  rewrite starts_length in Ek. cbn [length] in Ek. assert (b <= Z.of_nat n)%Z as Hn.
  { unfold py_index in Ek. destruct (Z.leb_spec 0 b); [|lia]. destruct (Z.ltb_spec b (Z.of_nat (n + 1))); [lia|].
    cbn [andb] in Ek. destruct (Z.ltb_spec b 0); [lia|]. rewrite andb_false_r in Ek. discriminate. }
  rewrite <- (Z2Nat.id b) in Eus by lia. destruct (IH (Z.to_nat b) us Eus ltac:(lia)) as (l & -> & R & F).
  exists (Z.to_nat b :: l). split; [cbn [map]; rewrite Z2Nat.id by lia; reflexivity|]. split; [split; [lia|exact R]|].
  constructor; [lia|exact F].
Qed.

Lemma rising_end : forall l a m, rising a (l ++ [m]) -> a < m /\ Forall (fun b => b <= m) (l ++ [m]).
Proof.
  induction l as [|b l IH]; intros a m R; cbn [app rising] in *.
  - split; [tauto|]. constructor; [lia|constructor].
  - destruct R as [R1 R2]. destruct (IH b m R2) as [H F]. split; [lia|]. constructor; [lia|exact F].
Qed.
Lemma between_all : forall l a m, rising a (l ++ [m]) -> concat (between a (l ++ [m])) = seq a (m - a).
Proof.
  induction l as [|b l IH]; intros a m R; cbn [app between concat].
  - rewrite app_nil_r. reflexivity.
  - cbn [app rising] in R. destruct R as [R1 R2]. destruct (rising_end _ _ _ R2) as [H _]. rewrite IH by exact R2.
    replace (m - a) with ((b - a) + (m - b)) by lia. rewrite seq_app. replace (a + (b - a)) with b by lia. reflexivity.
Qed.
Lemma picks_concat : forall sels ts,
  Forall2 (fun sel t => picks size ft (g_chans x) sel (g_type t) (g_chans t) /\ good size t) sels ts ->
  picks size ft (g_chans x) (concat sels) (flat_map g_type ts) (flat_map g_chans ts).
Proof.
  intros sels ts H. induction H as [|s t sels ts [[H1 H2] _] H [IH1 IH2]]; [split; reflexivity|].
  cbn [concat flat_map]. split; [rewrite !map_app; congruence|]. rewrite flat_map_app. congruence.
Qed.
Lemma picks_all : forall ft' chans', picks size ft (g_chans x) (seq 0 n) ft' chans' -> ft' = ft /\ chans' = g_chans x.
Proof.
  intros ft' chans' [H1 H2]. split.
  - pose proof (proj2 (mapM_get_ok ft (seq 0 n) ft') H1) as E. rewrite mapM_get_seq in E by lia. cbn [skipn] in E.
    rewrite firstn_all in E. congruence.
  - rewrite H2. pose proof (chans_range size ft (g_chans x) n 0 ltac:(lia)) as H. cbn [Nat.add] in H. rewrite <- H.
    rewrite (offset_all size ft n) by lia. change (offset size ft 0) with 0. rewrite Nat.sub_0_r. cbn [skipn]. rewrite <- G. apply firstn_all.
Qed.
End Split.

(** *** C35 *)
Theorem split_ok : forall {A V} (size : A -> nat) (x : gtensor A V) breaks, good size x ->
  rising 0 (breaks ++ [length (g_type x)]) -> exists ts,
  split size x (Some (map Z.of_nat breaks)) =
    (Ret ts, Some (map Z.of_nat (breaks ++ [length (g_type x)]))) /\
  Forall2 (fun sel t => picks size (g_type x) (g_chans x) sel (g_type t) (g_chans t))
    (between 0 (breaks ++ [length (g_type x)])) ts /\
  tensor_directsum size ts = Ret x.
Proof.
  intros A V size x breaks G R. destruct (rising_end breaks 0 _ R) as [Pos F].
  destruct (loop_ok size x G (breaks ++ [length (g_type x)]) 0 R F) as (ts & E & P).
  exists ts. split; [|split].
  - unfold split. rewrite map_app in *. cbn [map] in *. rewrite <- E. reflexivity.
  - clear - P. induction P as [|s t ss ts [H _] P IH]; constructor; assumption.
  - pose proof (picks_concat size x _ _ P) as C. rewrite (between_all _ _ _ R), Nat.sub_0_r in C.
    destruct (picks_all size x G _ _ C) as [E1 E2]. unfold tensor_directsum. rewrite E1, E2.
    unfold mk_type, mk_gtensor. destruct (Nat.eqb_spec (length (g_type x)) 0); [lia|]. cbn [negb assert_ bind].
    rewrite G, Nat.eqb_refl. cbn [assert_ bind]. destruct x; reflexivity.
Qed.

Theorem split_accepts : forall {A V} (size : A -> nat) (x : gtensor A V) zs ts, good size x ->
  fst (split size x (Some zs)) = Ret ts ->
  exists breaks, zs = map Z.of_nat breaks /\ rising 0 (breaks ++ [length (g_type x)]).
Proof.
  intros A V size x zs ts G E. unfold split in E. cbn [fst] in E. change 0%Z with (Z.of_nat 0) in E.
  destruct (loop_accepts size x _ 0 ts E ltac:(lia)) as (l & El & R & F).
  destruct (exists_last (l := l)) as (l' & m & ->). { intros ->. destruct zs; discriminate El. }
  rewrite map_app in El. cbn [map] in El. apply app_inj_tail in El. destruct El as [-> Em].
  exists l'. split; [reflexivity|]. apply Nat2Z.inj in Em. subst m. exact R.
Qed.

(** splitting at every field, as documented for None, always fails *)
Theorem split_none : forall {A V} (size : A -> nat) (x : gtensor A V), 0 < length (g_type x) -> fst (split size x None) = Raise.
Proof.
  intros A V size x H. unfold split; cbn [fst]. destruct (length (g_type x)) as [|m]; [lia|]. cbn [seq map app split_loop].
  reflexivity.
Qed.
(** and so does every list that starts with 0, as in the documented example *)
Theorem split_zero : forall {A V} (size : A -> nat) (x : gtensor A V) l, fst (split size x (Some (0%Z :: l))) = Raise.
Proof. reflexivity. Qed.

(** a list used for one call cannot be used for a second one *)
Theorem split_twice : forall {A V} (size : A -> nat) (x : gtensor A V) breaks ts l', good size x ->
  split size x (Some breaks) = (Ret ts, Some l') -> l' <> breaks /\ fst (split size x (Some l')) = Raise.
Proof.
  intros A V size x breaks ts l' G E.
  assert (fst (split size x (Some breaks)) = Ret ts) as E1 by (rewrite E; reflexivity).
  assert (snd (split size x (Some breaks)) = Some l') as E2 by (rewrite E; reflexivity).
  unfold split in E2. cbn [snd] in E2. injection E2 as <-. split.
  { intros K. apply (f_equal (@length Z)) in K. rewrite app_length in K. cbn in K. lia. }
  destruct (fst (split size x (Some (breaks ++ [Z.of_nat (length (g_type x))])))) as [|ts'] eqn:E3; [reflexivity|exfalso].
  destruct (split_accepts size x _ _ G E3) as (l & El & R).
  destruct (exists_last (l := l)) as (l' & m & ->). { intros ->. destruct breaks; discriminate El. }
  rewrite map_app in El. cbn [map] in El. apply app_inj_tail in El. destruct El as [_ Em]. apply Nat2Z.inj in Em. subst m.
  rewrite <- app_assoc in R. clear - R. revert R. generalize 0 as a. induction l' as [|b l IH]; intros a R; cbn in R; [lia|].
  apply (IH b). tauto.
Qed.
