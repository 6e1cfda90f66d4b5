(** InducedNormBatchNorm: its values and its histories. *)
From Coq Require Import Reals List ZArith Arith Bool Lia Lra Permutation.
From Verif Require Import LibRes LibPy LibMat FieldModel SpecField FieldProofs BranchProofs LabelThms MergeThms GroupedModel GroupedProofs NonlinModel SpecNonlin NonlinProofs NormThms INormThms PoolModel PoolThms ImageModel ImageProofs BatchNormModel SpecBatch BatchNormProofs BatchThms NormBNThms InnerBNThms IndBNModel SpecIndBN.
Import ListNotations.
Open Scope R_scope.

Lemma dget_order2 : forall {X} (F : nat * nat -> X) order s, In s order -> dget pair_eqb (map (fun s => (s, F s)) order) s = Some (F s).
Proof.
  intros X F order s H. induction order as [|t o IH]; [destruct H|]. cbn [map dget]. destruct (pair_eqb t s) eqn:E; [apply pair_eqb_ok in E; subst t; reflexivity|].
  apply IH. destruct H as [->|H]; [rewrite (proj2 (pair_eqb_ok s s) eq_refl) in E; discriminate|exact H].
Qed.
Lemma kept_dget2 : forall d s l j, dget pair_eqb d s = Some l -> kept2 d s j = nth j l 0.
Proof.
  intros d s l j. unfold kept2. induction d as [|[t u] d IH]; cbn [dget find fst]; [discriminate|]. change (both_eqb t s) with (pair_eqb t s).
  destruct (pair_eqb t s); [|exact IH]. intros E. injection E as ->. reflexivity.
Qed.
Lemma energy_app : forall N v w, energy N (v ++ w) = energy N v + energy N w.
Proof.
  intros N v w. unfold energy. rewrite <- sumn_plus. apply sumn_ext. intros p _. 
  rewrite <- !(rsum_list (fun c => nth p c 0 * nth p c 0) []). rewrite map_app. apply rsum_app.
Qed.
Lemma norms_energy : forall N v, rsum (field_norms N v) = energy N v.
Proof.
  intros N v. unfold field_norms, energy. rewrite rsum_seq. apply sumn_ext. intros p _. rewrite (rsum_list (fun c => square (nth p c 0)) []). reflexivity.
Qed.
Lemma chunks_concat' : forall {V} s n (l : list V), length l = (n * s)%nat -> concat (chunks n s l) = l.
Proof.
  intros V s n. induction n as [|n IH]; intros l L; cbn [chunks concat]; [destruct l; [reflexivity|discriminate]|].
  rewrite IH by (rewrite skipn_length; lia). apply firstn_skipn.
Qed.
Lemma chunks_count : forall {V} s n (l : list V), length (chunks n s l) = n.
Proof. intros V s n; induction n as [|n IH]; intros l; cbn [chunks length]; [|rewrite IH]; reflexivity. Qed.
Lemma sub_var_ok : forall N s z n v, (0 < s)%nat -> length v = (n * s)%nat ->
  sub_var N (z, s) v = Ret (energy N v / INR (N * n) / INR s * correction (N * n)).
Proof.
  intros N s z n v Ps Lv. unfold sub_var, sub_norms. cbn [snd].
  assert (view s v = Ret (chunks n s v)) as ->.
  { unfold view. destruct (Nat.eqb_spec s 0) as [|_]; [lia|]. rewrite Lv, Nat.mod_mul, Nat.div_mul by lia. reflexivity. }
  cbn [bind].
  assert (forall l, rsum (concat (map (field_norms N) l)) = energy N (concat l)) as H1.
  { induction l as [|b l IH]; cbn [map concat]; [unfold energy; rewrite sumn_0 by reflexivity; reflexivity|].
    rewrite rsum_app, energy_app, IH, norms_energy. reflexivity. }
  assert (forall l, length (concat (map (field_norms N) l)) = (N * length l)%nat) as H2.
  { induction l as [|b l IH]; cbn [map concat length]; [lia|]. rewrite app_length, IH. unfold field_norms at 1. rewrite map_length, seq_length. lia. }
  unfold mean. rewrite H1, H2, (chunks_concat' s n v Lv), chunks_count. reflexivity.
Qed.
Lemma repeat_scale : forall n k (fs : list (list chan)), length k = length fs -> Forall (fun b => length b = n) fs ->
  map (fun p => map (fun a => a * fst p) (snd p)) (List.combine (flat_map (fun a => repeat a n) k) (concat fs)) =
  concat (map (fun p => map (map (fun a => a * fst p)) (snd p)) (List.combine k fs)).
Proof.
  intros n k fs. revert k. induction fs as [|b fs IH]; intros [|a k] L F; try discriminate; [reflexivity|]. inversion F as [|? ? Fb F']; subst.
  cbn [flat_map concat List.combine map fst snd]. rewrite <- IH by (try assumption; cbn in L; lia).
  assert (forall (b : list chan) r t, List.combine (repeat a (length b) ++ r) (b ++ t) = List.combine (repeat a (length b)) b ++ List.combine r t) as H.
  { induction b0 as [|c b0 IHb]; intros r t; cbn [length repeat app List.combine]; [reflexivity|]. rewrite IHb. reflexivity. }
  rewrite H, map_app. f_equal. clear. induction b as [|c b IHb]; cbn [length repeat List.combine map fst snd]; [reflexivity|]. rewrite IHb. reflexivity.
Qed.
Lemma flat_repeat_length : forall n (k : list R), length (flat_map (fun a => repeat a n) k) = (length k * n)%nat.
Proof. intros n k; induction k as [|a k IH]; cbn [flat_map length]; [reflexivity|]. rewrite app_length, repeat_length, IH. lia. Qed.
Lemma concat_length_uniform : forall {V} n (fs : list (list V)), Forall (fun b => length b = n) fs -> length (concat fs) = (length fs * n)%nat.
Proof. intros V n fs F; induction F as [|b fs Hb F IH]; cbn [concat length]; [reflexivity|]. rewrite app_length, Hb, IH. lia. Qed.

Section N.
Context {A : Type}.
Variable size : A -> nat.
Variable sub : A -> nat.
Variable supported : A -> list nonlin.
Variable has_trivial : A -> bool.
Variable teqb : list A -> list A -> bool.
Variable ft : list A.
Hypothesis P : Forall (fun r => (0 < size r)%nat) ft.
Notation idf := (fun r => (size r, sub r)).
Notation ids := (map idf ft).
Notation lab := (labelled pair_eqb ids).
Notation fields x s := (map (field_chans size ft x) (lab s)).
Notation pok := pair_eqb_ok.

Lemma ids_length : length ids = length ft.
Proof. apply map_length. Qed.
Lemma ids_ok : forall i r s, nth_error ids i = Some s -> nth_error ft i = Some r -> size r = fst s.
Proof. intros i r s E1 E2. rewrite nth_error_map, E2 in E1. injection E1 as <-. reflexivity. Qed.
Lemma id_pos : forall s, In s ids -> (0 < fst s)%nat.
Proof. intros s H. apply in_map_iff in H. destruct H as (r & <- & Hr). rewrite Forall_forall in P. apply P, Hr. Qed.
Lemma rank2_id : forall i s j r, rank2 size sub ft i s j -> nth_error ft i = Some r -> (size r, sub r) = s /\ In s ids.
Proof.
  intros i s j r E Er. unfold rank2 in E. assert (In i (lab s)) as Hi by (apply nth_error_In in E; exact E). apply (labelled_In pair_eqb pok) in Hi.
  split; [rewrite nth_error_map, Er in Hi; injection Hi as <-; reflexivity|]. apply nth_error_In in Hi. exact Hi.
Qed.
Lemma rank2_exists : forall i r, nth_error ft i = Some r -> exists j, rank2 size sub ft i (size r, sub r) j.
Proof.
  intros i r E. unfold rank2. apply In_nth_error. apply (labelled_In pair_eqb pok). rewrite nth_error_map, E. reflexivity.
Qed.

(** the buffers of a module *)
Definition fine2 (bufs : list ((nat * nat) * channels)) (order : list (nat * nat)) : Prop :=
  NoDup order /\ (forall s, In s order <-> In s ids) /\
  forall s, In s ids -> exists c, lookup pair_eqb bufs s = Ret c /\ positions (type_size size ft) c = Ret (chan_list size ft (lab s)).
Definition fits_dict2 (d : list ((nat * nat) * list R)) : Prop := forall s, In s ids -> exists l, dget pair_eqb d s = Some l /\ length l = length (lab s).
Definition fits2 (st : inb_state) : Prop := fits_dict2 (iv_vars st) /\ forall w, iv_weights st = Some w -> fits_dict2 w.
(** the sizes of the sub-fields *)
Definition parts : Prop := forall r, In r ft -> (0 < sub r)%nat /\ size r = (size r / sub r * sub r)%nat.

Lemma subs_ids : forall l, (forall r, In r l -> In (NL_induced_norm (sub r)) (supported r)) -> forall m, mapM (subfield size supported) l = Ret m ->
  m = map idf l /\ forall r, In r l -> (0 < sub r)%nat /\ size r = (size r / sub r * sub r)%nat.
Proof.
  intros l. induction l as [|r l IH]; intros H m E; cbn [mapM] in E; [apply Ret_inj in E; subst m; split; [reflexivity|intros r []]|].
  apply bind_Ret in E. destruct E as ([a b] & E1 & E). apply bind_Ret in E. destruct E as (m' & E2 & E). apply Ret_inj in E; subst m.
  destruct (subfield_ok size supported r a b E1) as (-> & Pb & Db & Hb). specialize (proj1 (Hb (sub r)) (H r (or_introl eq_refl))) as <-.
  destruct (IH (fun q Hq => H q (or_intror Hq)) m' E2) as [-> Hl]. split; [reflexivity|]. intros q [<-|Hq]; [split; assumption|apply Hl, Hq].
Qed.
Lemma mk_fine2 : forall affine eps mom m st, (forall r, In r ft -> In (NL_induced_norm (sub r)) (supported r)) ->
  mk_inb size supported has_trivial affine eps mom ft = Ret (m, st) ->
  iv_type m = ft /\ iv_ids m = ids /\ iv_eps m = eps /\ iv_momentum m = mom /\ parts /\ fine2 (iv_buffers m) (iv_order m) /\ fits2 st /\
  iv_count st = 0%nat /\ (iv_weights st = None <-> affine = false) /\
  st = {| iv_vars := id_ones (iv_ids m) (iv_order m); iv_weights := if affine then Some (id_ones (iv_ids m) (iv_order m)) else None; iv_count := 0 |}.
Proof.
  intros affine eps mom m st Hsub E. unfold mk_inb in E. apply bind_Ret in E. destruct E as (u & _ & E). apply bind_Ret in E. destruct E as (ids' & Ei & E).
  apply bind_Ret in E. destruct E as (b & Eb & E).
  apply Ret_inj in E. injection E as <- <-. cbn [iv_type iv_ids iv_eps iv_momentum iv_buffers iv_order iv_count iv_weights].
  destruct (subs_ids ft Hsub ids' Ei) as [-> Pa].
  destruct (buffers_keys size pair_eqb pok ft ids b Eb) as [ND Ib].
  destruct (buffers_ok size pair_eqb pok ft ids ids_length P) as (b' & Eb' & Hb). assert (b' = b) by congruence; subst b'.
  assert (fits_dict2 (id_ones ids (map fst b))) as F1.
  { intros s Hs. eexists. split; [apply (dget_order2 (fun s => repeat 1 (nfields pair_eqb ids s))); apply Ib, Hs|].
    rewrite repeat_length. apply nfields_labelled. }
  split; [reflexivity|]. split; [reflexivity|]. split; [reflexivity|]. split; [reflexivity|]. split; [exact Pa|].
  split; [split; [exact ND|split; [exact Ib|]]|]; [intros s Hs; apply Hb; [exact Hs|lia]|].
  split; [split; [exact F1|]|].
  - intros w. cbn [iv_weights]. destruct affine; [|discriminate]. intros E. injection E as <-. exact F1.
  - split; [reflexivity|]. split; [|reflexivity]. destruct affine; split; congruence.
Qed.

Variable m : inb_module (A := A).
Hypothesis Tm : iv_type m = ft.
Hypothesis Im : iv_ids m = ids.
Hypothesis Pa : parts.
Hypothesis Fm : fine2 (iv_buffers m) (iv_order m).

(** the variance of a field *)
Definition spread (N : nat) (s : nat * nat) (v : list chan) : R :=
  energy N v / INR (N * (fst s / snd s)) / INR (snd s) * correction (N * (fst s / snd s)).
Lemma id_parts : forall s, In s ids -> (0 < snd s)%nat /\ fst s = (fst s / snd s * snd s)%nat.
Proof. intros s H. apply in_map_iff in H. destruct H as (r & <- & Hr). apply Pa, Hr. Qed.
Lemma id_fields : forall (x : list chan) s, length x = type_size size ft -> Forall (fun b => length b = fst s) (fields x s).
Proof. intros x s Lx. apply (group_fields size pair_eqb pok ft ids fst ids_length ids_ok). exact Lx. Qed.
Lemma id_vars_ok : forall N x s, length x = type_size size ft -> In s ids ->
  id_vars m N x s = Ret (map (fun i => spread N s (field_chans size ft x i)) (lab s)).
Proof.
  intros N x s Lx Hs. destruct Fm as (_ & _ & Hb). unfold id_vars.
  destruct (group_read size pair_eqb ft ids ids_length (iv_buffers m) Hb x s Lx Hs) as (c & Ec & Er).
  rewrite Ec; cbn [bind]. rewrite Er; cbn [bind].
  rewrite (view_concat (fst s)) by (try (apply id_pos, Hs); apply id_fields; exact Lx).
  cbn [bind]. pose proof (id_fields x s Lx) as F. rewrite <- (map_map (field_chans size ft x) (spread N s)).
  apply mapM_ret. intros b Hb'. rewrite Forall_forall in F. specialize (F b Hb'). destruct (id_parts s Hs) as [P1 P2]. destruct s as [z t]. cbn [fst snd] in *.
  apply (sub_var_ok N t z (z / t) b P1). rewrite F. exact P2.
Qed.
(** the running variances of id [s] after a training step *)
Definition next_vars2 (f : R) (N : nat) (x : list chan) (vars : list ((nat * nat) * list R)) (s : nat * nat) : list R :=
  blend f (match dget pair_eqb vars s with Some l => l | None => [] end) (map (fun i => spread N s (field_chans size ft x i)) (lab s)).
Lemma update2_ok : forall f N x vars, length x = type_size size ft -> fits_dict2 vars ->
  inb_update m f N x vars = Ret (map (fun s => (s, next_vars2 f N x vars s)) (iv_order m)).
Proof.
  intros f N x vars Lx F. unfold inb_update. apply mapM_ret. intros s Hs. destruct Fm as (_ & Io & _). apply Io in Hs.
  destruct (F s Hs) as (l & El & Ll). unfold next_vars2. unfold lookup at 1. rewrite El. cbn [bind]. rewrite id_vars_ok by assumption. cbn [bind].
  rewrite map_length, Ll, Nat.eqb_refl. reflexivity.
Qed.
Lemma next_vars2_nth : forall f N x vars s j i, fits_dict2 vars -> In s ids -> nth_error (lab s) j = Some i ->
  nth j (next_vars2 f N x vars s) 0 = towards f (kept2 vars s j) (spread N s (field_chans size ft x i)).
Proof.
  intros f N x vars s j i F Hs E. destruct (F s Hs) as (l & El & Ll). unfold next_vars2, blend. rewrite El, (kept_dget2 _ _ _ _ El).
  assert (j < length (lab s))%nat as Hj by (apply nth_error_Some; congruence).
  rewrite (nth_combine_map _ _ _ j 0 0) by (rewrite map_length; lia). cbn [fst snd]. unfold towards.
  rewrite (nth_indep (map (fun i => spread N s (field_chans size ft x i)) (lab s)) 0 (spread N s (field_chans size ft x i))) by (rewrite map_length; exact Hj).
  rewrite (map_nth (fun i => spread N s (field_chans size ft x i)) (lab s) i j). rewrite (nth_error_nth (lab s) j i E). ring.
Qed.
Lemma next_fits2 : forall f N x vars, fits_dict2 vars -> fits_dict2 (map (fun s => (s, next_vars2 f N x vars s)) (iv_order m)).
Proof.
  intros f N x vars F s Hs. destruct Fm as (_ & Io & _). exists (next_vars2 f N x vars s). split; [apply dget_order2, Io, Hs|].
  destruct (F s Hs) as (l & El & Ll). unfold next_vars2, blend. rewrite El, map_length, combine_length, map_length. lia.
Qed.

(** the multiplier of a field *)
Definition mult2 (st : inb_state) (s : nat * nat) (j : nat) : R :=
  match iv_weights st with Some w => kept2 w s j | None => 1 end / sqrt (kept2 (iv_vars st) s j + iv_eps m).
Lemma multipliers2_ok : forall st s, fits2 st -> In s ids -> exists k, inb_multipliers m st s = Ret k /\ length k = length (lab s) /\
  forall j, (j < length (lab s))%nat -> nth j k 0 = mult2 st s j.
Proof.
  intros st s [F Fw] Hs. destruct (F s Hs) as (l & El & Ll). unfold inb_multipliers, mult2. unfold lookup at 1. rewrite El. cbn [bind].
  destruct (iv_weights st) as [w|] eqn:Ew.
  - destruct (Fw w eq_refl s Hs) as (lw & Elw & Llw). unfold lookup. rewrite Elw. cbn [bind]. rewrite Llw, Ll, Nat.eqb_refl. cbn [assert_ bind].
    eexists. split; [reflexivity|]. split; [rewrite map_length, combine_length; lia|]. intros j Hj. rewrite (nth_combine_map _ _ _ j 0 0) by lia. cbn [fst snd].
    rewrite (kept_dget2 _ _ _ _ El), (kept_dget2 _ _ _ _ Elw). reflexivity.
  - eexists. split; [reflexivity|]. split; [rewrite map_length; lia|]. intros j Hj. rewrite (kept_dget2 _ _ _ _ El).
    rewrite (nth_indep _ 0 ((fun v => 1 / sqrt (v + iv_eps m)) 0)) by (rewrite map_length; lia). apply (map_nth (fun v => 1 / sqrt (v + iv_eps m))).
Qed.
Lemma scale2_ok : forall st s x, fits2 st -> In s ids -> length x = type_size size ft ->
  inb_scale m st s (concat (fields x s)) = Ret (concat (imap (fun j b => map (map (fun a => a * mult2 st s j)) b) 0 (fields x s))).
Proof.
  intros st s x F Hs Lx. destruct (multipliers2_ok st s F Hs) as (k & Ek & Lk & Hk). unfold inb_scale. rewrite Ek. cbn [bind].
  destruct (id_parts s Hs) as [_ <-]. pose proof (id_fields x s Lx) as Ff.
  rewrite flat_repeat_length, (concat_length_uniform (fst s)) by exact Ff. rewrite Lk, map_length, Nat.eqb_refl. cbn [assert_ bind].
  rewrite (repeat_scale (fst s)) by (try exact Ff; rewrite map_length; exact Lk).
  pose proof (combine_imap (fun p : R * list chan => map (map (fun a => a * fst p)) (snd p)) k (fields x s) ltac:(rewrite map_length; exact Lk)) as Ec.
  rewrite Ec. cbn [fst snd].
  do 2 f_equal. apply NormBNThms.imap_ext. intros j b Hj. rewrite map_length in Hj. rewrite Hk by lia. reflexivity.
Qed.

(** the state after a call *)
Definition after2 (training : bool) (N : nat) (st : inb_state) (x : list chan) : inb_state :=
  if training then {| iv_vars := map (fun s => (s, next_vars2 (average_factor (iv_momentum m) (S (iv_count st))) N x (iv_vars st) s)) (iv_order m);
                      iv_weights := iv_weights st; iv_count := S (iv_count st) |}
  else st.
Lemma after_fits2 : forall t N st x, fits2 st -> fits2 (after2 t N st x).
Proof. intros t N st x F. unfold after2. destruct t; [|exact F]. destruct F as [F1 F2]. split; [apply next_fits2, F1|exact F2]. Qed.
Lemma forward2_ok : forall t N st x, fits2 st -> teqb ft ft = true -> (t = true -> 0 < N)%nat -> g_type x = ft -> length (g_chans x) = type_size size ft ->
  exists out, inb_forward size teqb m t N st x = Ret (after2 t N st (g_chans x), {| g_type := ft; g_chans := out |}) /\ length out = type_size size ft /\
    forall s j i, rank2 size sub ft i s j -> field_chans size ft out i = map (map (fun a => a * mult2 (after2 t N st (g_chans x)) s j)) (field_chans size ft (g_chans x) i).
Proof.
  intros t N st x F Te HN Tx Lx. pose proof (after_fits2 t N st (g_chans x) F) as F'.
  destruct Fm as (ND & Io & Hb).
  destruct (local_loop size pair_eqb pok ft ids fst ids_length ids_ok (iv_buffers m) (iv_order m) ND Io Hb
    (inb_scale m (after2 t N st (g_chans x))) (fun s j b => map (map (fun a => a * mult2 (after2 t N st (g_chans x)) s j)) b) (g_chans x) (g_chans x) Lx Lx)
    as (out & El & Lo & Ho).
  - intros s Hs. apply scale2_ok; assumption.
  - intros s j b _ Lb. rewrite map_length. exact Lb.
  - exists out. split; [|split; [exact Lo|exact Ho]]. unfold inb_forward. rewrite Tx, Tm, Te. cbn [assert_ bind].
    match goal with |- bind ?e _ = _ => assert (e = Ret (after2 t N st (g_chans x))) as -> end.
    { unfold after2. destruct t; [|reflexivity]. destruct (Nat.ltb_spec 0 N) as [_|H]; [|specialize (HN eq_refl); lia]. cbn [assert_ bind].
      destruct F as [F1 F2]. rewrite update2_ok by assumption. reflexivity. }
    cbn [bind]. rewrite Im, El. cbn [bind]. unfold mk_gtensor. rewrite Lo, Nat.eqb_refl. reflexivity.
Qed.
Lemma next_moved2 : forall f N rho pi x y vars s, reorders N pi -> moved_batch size ft N rho pi x y -> In s ids ->
  (forall p r, (p < N)%nat -> In r ft -> orthogonal (size r) (rho p r)) -> next_vars2 f N x vars s = next_vars2 f N y vars s.
Proof.
  intros f N rho pi x y vars s R M Hs O. unfold next_vars2. f_equal. apply map_ext_in. intros i Hi. unfold spread. do 3 f_equal. symmetry.
  apply (labelled_In pair_eqb pok) in Hi. rewrite nth_error_map in Hi. destruct (nth_error ft i) as [r|] eqn:E; [|discriminate].
  apply (energy_moved size ft N rho pi x y i r R M E). intros p Hp. apply O; [exact Hp|]. apply nth_error_In in E. exact E.
Qed.
Lemma step_moved2 : forall t N rho pi st x y, fits2 st -> teqb ft ft = true -> (t = true -> 0 < N)%nat -> reorders N pi ->
  (forall p r, (p < N)%nat -> In r ft -> orthogonal (size r) (rho p r)) ->
  g_type x = ft -> g_type y = ft -> moved_batch size ft N rho pi (g_chans x) (g_chans y) ->
  exists st' z z', inb_forward size teqb m t N st x = Ret (st', z) /\ inb_forward size teqb m t N st y = Ret (st', z') /\ fits2 st' /\
    g_type z = ft /\ g_type z' = ft /\ moved_batch size ft N rho pi (g_chans z) (g_chans z').
Proof.
  intros t N rho pi st x y F Te HN R O Tx Ty M.
  assert (after2 t N st (g_chans y) = after2 t N st (g_chans x)) as Ea.
  { unfold after2. destruct t; [|reflexivity]. f_equal. apply map_ext_in. intros s Hs. destruct Fm as (_ & Io & _). apply Io in Hs. f_equal. symmetry.
    eapply next_moved2; eassumption. }
  destruct (forward2_ok t N st x F Te HN Tx (proj1 (proj1 M))) as (z & E1 & L1 & H1).
  destruct (forward2_ok t N st y F Te HN Ty (proj1 (proj1 (proj2 M)))) as (z' & E2 & L2 & H2). rewrite Ea in E2, H2.
  exists (after2 t N st (g_chans x)). eexists. eexists. split; [exact E1|]. split; [exact E2|]. split; [apply after_fits2, F|]. split; [reflexivity|]. split; [reflexivity|].
  cbn [g_chans].
  apply (moved_map size ft N rho pi (g_chans x) (g_chans y) z z' R M L1 L2). intros i r E. destruct (rank2_exists i r E) as [j Hj].
  exists (fun a => a * mult2 (after2 t N st (g_chans x)) (size r, sub r) j). split; [apply H1, Hj|]. split; [apply H2, Hj|].
  intros p v Hp Lv. set (c := mult2 _ _ _).
  pose proof (scaled_mv (size r) (rho p r) c v Lv) as Hs. unfold scaled in Hs.
  rewrite (map_ext (fun a => a * c) (fun a => c * a)) by (intros; ring). rewrite <- Hs. f_equal. apply map_ext. intros a. ring.
Qed.
End N.
