(** NormBatchNorm: its values and its histories. *)
From Coq Require Import Reals List ZArith Arith Bool Lia Lra Permutation.
From Verif Require Import LibRes LibPy LibMat FieldModel SpecField FieldProofs BranchProofs LabelThms MergeThms GroupedModel GroupedProofs NonlinModel SpecNonlin NonlinProofs NormThms PoolModel PoolThms ImageModel ImageProofs BatchNormModel SpecBatch BatchNormProofs BatchThms.
Import ListNotations.
Open Scope R_scope.

Lemma dget_order : forall {X} (F : nat -> X) order s, In s order -> dget Nat.eqb (map (fun s => (s, F s)) order) s = Some (F s).
Proof.
  intros X F order s H. induction order as [|t o IH]; [destruct H|]. cbn [map dget]. destruct (Nat.eqb_spec t s) as [->|n]; [reflexivity|].
  apply IH. destruct H as [->|H]; [congruence|exact H].
Qed.
Lemma dget_find : forall {X} (d : list (nat * X)) s l, dget Nat.eqb d s = Some l -> exists e, find (fun e => Nat.eqb (fst e) s) d = Some e /\ snd e = l.
Proof.
  intros X d s l. induction d as [|[t u] d IH]; cbn [dget find fst]; [discriminate|]. destruct (Nat.eqb t s); [|exact IH]. intros E. injection E as ->. eexists; split; reflexivity.
Qed.
Lemma kept_dget : forall d s l j, dget Nat.eqb d s = Some l -> kept d s j = nth j l 0.
Proof. intros d s l j E. destruct (dget_find d s l E) as (e & F & Es). unfold kept. rewrite F, Es. reflexivity. Qed.
Lemma nth_combine_map : forall {X Y} (F : X * Y -> R) (a : list X) (b : list Y) j d e, length a = length b -> (j < length b)%nat ->
  nth j (map F (List.combine a b)) 0 = F (nth j a d, nth j b e).
Proof.
  intros X Y F a b j d e L Hj. rewrite (nth_indep _ 0 (F (d, e))) by (rewrite map_length, combine_length; lia). rewrite map_nth. rewrite combine_nth by exact L. reflexivity.
Qed.
Lemma combine_imap : forall {X Y} (F : R * X -> Y) (k : list R) (l : list X), length k = length l ->
  map F (List.combine k l) = imap (fun j b => F (nth j k 0, b)) 0 l.
Proof.
  intros X Y F k l L. assert (forall pre, map F (List.combine k l) = imap (fun j b => F (nth j (pre ++ k) 0, b)) (length pre) l) as H; [|exact (H [])].
  revert l L. induction k as [|a k IH]; intros [|b l] L pre; try discriminate; [reflexivity|]. cbn [List.combine map imap].
  f_equal; [rewrite app_nth2, Nat.sub_diag by lia; reflexivity|].
  rewrite (IH l ltac:(cbn in L; lia) (pre ++ [a])), app_length, Nat.add_comm. cbn [length Nat.add]. rewrite <- app_assoc. reflexivity.
Qed.

Section N.
Context {A : Type}.
Variable size : A -> nat.
Variable supported : A -> list nonlin.
Variable has_trivial : A -> bool.
Variable teqb : list A -> list A -> bool.
Variable ft : list A.
Hypothesis P : Forall (fun r => (0 < size r)%nat) ft.
Notation lab := (labelled Nat.eqb (map size ft)).
Notation fields x s := (map (field_chans size ft x) (lab s)).

Lemma eqb_ok : forall a b, Nat.eqb a b = true <-> a = b.
Proof. intros; apply Nat.eqb_eq. Qed.
Lemma sizes_ok : forall i r s, nth_error (map size ft) i = Some s -> nth_error ft i = Some r -> size r = s.
Proof. intros i r s E1 E2. rewrite nth_error_map, E2 in E1. injection E1 as <-. reflexivity. Qed.
Lemma size_pos : forall s, In s (map size ft) -> (0 < s)%nat.
Proof. intros s H. apply in_map_iff in H. destruct H as (r & <- & Hr). rewrite Forall_forall in P. apply P, Hr. Qed.
Lemma rank_size : forall i s j r, rank size ft i s j -> nth_error ft i = Some r -> size r = s /\ In s (map size ft).
Proof.
  intros i s j r E Er. unfold rank in E. assert (In i (lab s)) as Hi by (apply nth_error_In in E; exact E). apply (labelled_In Nat.eqb eqb_ok) in Hi.
  split; [eapply sizes_ok; eassumption|]. apply nth_error_In in Hi. exact Hi.
Qed.
Lemma rank_exists : forall i r, nth_error ft i = Some r -> exists j, rank size ft i (size r) j.
Proof.
  intros i r E. unfold rank. apply In_nth_error. apply (labelled_In Nat.eqb eqb_ok). rewrite nth_error_map, E. reflexivity.
Qed.

(** the buffers of a module *)
Definition fine (bufs : list (nat * channels)) (order : list nat) : Prop :=
  NoDup order /\ (forall s, In s order <-> In s (map size ft)) /\
  forall s, In s (map size ft) -> exists c, lookup Nat.eqb bufs s = Ret c /\ positions (type_size size ft) c = Ret (chan_list size ft (lab s)).
Definition fits_dict (d : list (nat * list R)) : Prop := forall s, In s (map size ft) -> exists l, dget Nat.eqb d s = Some l /\ length l = length (lab s).
Definition fits (st : nbn_state) : Prop := fits_dict (nb_vars st) /\ forall w, nb_weights st = Some w -> fits_dict w.

Lemma mk_fine : forall affine eps mom m st, mk_nbn size supported has_trivial affine eps mom ft = Ret (m, st) ->
  nb_type m = ft /\ nb_eps m = eps /\ nb_momentum m = mom /\ fine (nb_buffers m) (nb_order m) /\ fits st /\
  nb_count st = 0%nat /\ (nb_weights st = None <-> affine = false).
Proof.
  intros affine eps mom m st E. unfold mk_nbn in E. apply bind_Ret in E. destruct E as (u & _ & E). apply bind_Ret in E. destruct E as (b & Eb & E).
  apply Ret_inj in E. injection E as <- <-. cbn [nb_type nb_eps nb_momentum nb_buffers nb_order nb_count nb_weights].
  destruct (buffers_keys size Nat.eqb eqb_ok ft (map size ft) b Eb) as [ND Ib].
  destruct (buffers_ok size Nat.eqb eqb_ok ft (map size ft) (map_length size ft) P) as (b' & Eb' & Hb). assert (b' = b) by congruence; subst b'.
  assert (fits_dict (ones size ft (map fst b))) as F1.
  { intros s Hs. eexists. split; [apply (dget_order (fun s => repeat 1 (nfields Nat.eqb (map size ft) s))); apply Ib, Hs|].
    rewrite repeat_length. apply nfields_labelled. }
  repeat split; try assumption; try (destruct affine; intros E; congruence).
  - apply Ib.
  - apply Ib.
  - intros s Hs. apply Hb; [exact Hs|lia].
  - intros w. cbn [nb_weights]. destruct affine; [|discriminate]. intros E. injection E as <-. exact F1.
Qed.

Variable m : nbn_module (A := A).
Hypothesis Tm : nb_type m = ft.
Hypothesis Fm : fine (nb_buffers m) (nb_order m).

Lemma group_vars_ok : forall N x s, length x = type_size size ft -> In s (map size ft) ->
  group_vars m N x s = Ret (map (fun i => field_var N s (field_chans size ft x i)) (lab s)).
Proof.
  intros N x s Lx Hs. destruct Fm as (_ & _ & Hb). unfold group_vars.
  destruct (group_read size Nat.eqb ft (map size ft) (map_length size ft) (nb_buffers m) Hb x s Lx Hs) as (c & Ec & Er).
  rewrite Ec; cbn [bind]. rewrite Er; cbn [bind].
  rewrite (view_concat s) by (try (apply size_pos, Hs); apply (group_fields size Nat.eqb eqb_ok ft (map size ft) (fun s => s) (map_length size ft) sizes_ok); exact Lx).
  cbn [bind]. rewrite map_map. reflexivity.
Qed.
(** the running variances of size [s] after a training step *)
Definition next_vars (f : R) (N : nat) (x : list chan) (vars : list (nat * list R)) (s : nat) : list R :=
  blend f (match dget Nat.eqb vars s with Some l => l | None => [] end) (map (fun i => field_var N s (field_chans size ft x i)) (lab s)).
Lemma update_ok : forall f N x vars, length x = type_size size ft -> fits_dict vars ->
  update_vars m f N x vars = Ret (map (fun s => (s, next_vars f N x vars s)) (nb_order m)).
Proof.
  intros f N x vars Lx F. unfold update_vars. apply mapM_ret. intros s Hs. destruct Fm as (_ & Io & _). apply Io in Hs.
  destruct (F s Hs) as (l & El & Ll). unfold next_vars. unfold lookup at 1. rewrite El. cbn [bind]. rewrite group_vars_ok by assumption. cbn [bind].
  rewrite map_length, Ll, Nat.eqb_refl. reflexivity.
Qed.
Lemma next_vars_nth : forall f N x vars s j i, fits_dict vars -> In s (map size ft) -> nth_error (lab s) j = Some i ->
  nth j (next_vars f N x vars s) 0 = towards f (kept vars s j) (field_var N s (field_chans size ft x i)).
Proof.
  intros f N x vars s j i F Hs E. destruct (F s Hs) as (l & El & Ll). unfold next_vars, blend. rewrite El, (kept_dget _ _ _ _ El).
  assert (j < length (lab s))%nat as Hj by (apply nth_error_Some; congruence).
  rewrite (nth_combine_map _ _ _ j 0 0) by (rewrite map_length; lia). cbn [fst snd]. unfold towards.
  rewrite (nth_indep (map (fun i => field_var N s (field_chans size ft x i)) (lab s)) 0 (field_var N s (field_chans size ft x i))) by (rewrite map_length; exact Hj).
  rewrite (map_nth (fun i => field_var N s (field_chans size ft x i)) (lab s) i j). rewrite (nth_error_nth (lab s) j i E). ring.
Qed.
Lemma next_fits : forall f N x vars, fits_dict vars -> fits_dict (map (fun s => (s, next_vars f N x vars s)) (nb_order m)).
Proof.
  intros f N x vars F s Hs. destruct Fm as (_ & Io & _). exists (next_vars f N x vars s). split; [apply dget_order, Io, Hs|].
  destruct (F s Hs) as (l & El & Ll). unfold next_vars, blend. rewrite El, map_length, combine_length, map_length. lia.
Qed.

(** the multiplier of a field *)
Definition mult (st : nbn_state) (s j : nat) : R :=
  match nb_weights st with Some w => kept w s j | None => 1 end / sqrt (kept (nb_vars st) s j + nb_eps m).
Lemma multipliers_ok : forall st s, fits st -> In s (map size ft) -> exists k, multipliers m st s = Ret k /\ length k = length (lab s) /\
  forall j, (j < length (lab s))%nat -> nth j k 0 = mult st s j.
Proof.
  intros st s [F Fw] Hs. destruct (F s Hs) as (l & El & Ll). unfold multipliers, mult. unfold lookup at 1. rewrite El. cbn [bind].
  destruct (nb_weights st) as [w|] eqn:Ew.
  - destruct (Fw w eq_refl s Hs) as (lw & Elw & Llw). unfold lookup. rewrite Elw. cbn [bind]. rewrite Llw, Ll, Nat.eqb_refl. cbn [assert_ bind].
    eexists. split; [reflexivity|]. split; [rewrite map_length, combine_length; lia|]. intros j Hj. rewrite (nth_combine_map _ _ _ j 0 0) by lia. cbn [fst snd].
    rewrite (kept_dget _ _ _ _ El), (kept_dget _ _ _ _ Elw). reflexivity.
  - eexists. split; [reflexivity|]. split; [rewrite map_length; lia|]. intros j Hj. rewrite (kept_dget _ _ _ _ El).
    rewrite (nth_indep _ 0 ((fun v => 1 / sqrt (v + nb_eps m)) 0)) by (rewrite map_length; lia). apply (map_nth (fun v => 1 / sqrt (v + nb_eps m))).
Qed.
Lemma imap_ext : forall {X Y} (f g : nat -> X -> Y) l n, (forall j b, (n <= j < n + length l)%nat -> f j b = g j b) -> imap f n l = imap g n l.
Proof.
  intros X Y f g l; induction l as [|b l IH]; intros n H; cbn [imap]; [reflexivity|]. rewrite H by (cbn; lia). f_equal. apply IH. intros j c Hj. apply H. cbn; lia.
Qed.
Lemma scale_ok : forall st s x, fits st -> In s (map size ft) -> length x = type_size size ft ->
  scale_group m st s (concat (fields x s)) = Ret (concat (imap (fun j b => map (map (fun a => a * mult st s j)) b) 0 (fields x s))).
Proof.
  intros st s x F Hs Lx. destruct (multipliers_ok st s F Hs) as (k & Ek & Lk & Hk). unfold scale_group. rewrite Ek. cbn [bind].
  rewrite (view_concat s) by (try (apply size_pos, Hs); apply (group_fields size Nat.eqb eqb_ok ft (map size ft) (fun s => s) (map_length size ft) sizes_ok); exact Lx).
  cbn [bind]. rewrite Lk, map_length, Nat.eqb_refl. cbn [assert_ bind].
  
  pose proof (combine_imap (fun p : R * list chan => map (map (fun a => a * fst p)) (snd p)) k (fields x s) ltac:(rewrite map_length; exact Lk)) as Ec.
  rewrite Ec. cbn [fst snd].
  do 2 f_equal. apply imap_ext. intros j b Hj. rewrite map_length in Hj. rewrite Hk by lia. reflexivity.
Qed.

(** the state after a call *)
Definition after (training : bool) (N : nat) (st : nbn_state) (x : list chan) : nbn_state :=
  if training then {| nb_vars := map (fun s => (s, next_vars (average_factor (nb_momentum m) (S (nb_count st))) N x (nb_vars st) s)) (nb_order m);
                      nb_weights := nb_weights st; nb_count := S (nb_count st) |}
  else st.
Lemma after_fits : forall t N st x, fits st -> fits (after t N st x).
Proof. intros t N st x F. unfold after. destruct t; [|exact F]. destruct F as [F1 F2]. split; [apply next_fits, F1|exact F2]. Qed.
Lemma forward_ok : forall t N st x, fits st -> teqb ft ft = true -> (t = true -> 0 < N)%nat -> g_type x = ft -> length (g_chans x) = type_size size ft ->
  exists out, nbn_forward size teqb m t N st x = Ret (after t N st (g_chans x), {| g_type := ft; g_chans := out |}) /\ length out = type_size size ft /\
    forall s j i, rank size ft i s j -> field_chans size ft out i = map (map (fun a => a * mult (after t N st (g_chans x)) s j)) (field_chans size ft (g_chans x) i).
Proof.
  intros t N st x F Te HN Tx Lx. pose proof (after_fits t N st (g_chans x) F) as F'.
  destruct Fm as (ND & Io & Hb).
  destruct (local_loop size Nat.eqb eqb_ok ft (map size ft) (fun s => s) (map_length size ft) sizes_ok (nb_buffers m) (nb_order m) ND Io Hb
    (scale_group m (after t N st (g_chans x))) (fun s j b => map (map (fun a => a * mult (after t N st (g_chans x)) s j)) b) (g_chans x) (g_chans x) Lx Lx)
    as (out & El & Lo & Ho).
  - intros s Hs. apply scale_ok; assumption.
  - intros s j b _ Lb. rewrite map_length. exact Lb.
  - exists out. split; [|split; [exact Lo|exact Ho]]. unfold nbn_forward. rewrite Tx, Tm, Te. cbn [assert_ bind].
    match goal with |- bind ?e _ = _ => assert (e = Ret (after t N st (g_chans x))) as -> end.
    { unfold after. destruct t; [|reflexivity]. destruct (Nat.ltb_spec 0 N) as [_|H]; [|specialize (HN eq_refl); lia]. cbn [assert_ bind].
      destruct F as [F1 F2]. rewrite update_ok by assumption. reflexivity. }
    cbn [bind]. rewrite El. cbn [bind]. unfold mk_gtensor. rewrite Lo, Nat.eqb_refl. reflexivity.
Qed.

Lemma field_var_energy : forall N s v, field_var N s v = energy N v / INR N / INR s * correction N.
Proof.
  intros N s v. unfold field_var, mean, field_norms, energy. rewrite map_length, seq_length, rsum_seq. do 3 f_equal.
  apply sumn_ext. intros p _. rewrite (rsum_list (fun c => square (nth p c 0)) []). reflexivity.
Qed.
Lemma energy_moved : forall N rho pi x y i r, reorders N pi -> moved_batch size ft N rho pi x y -> nth_error ft i = Some r ->
  (forall p, (p < N)%nat -> orthogonal (size r) (rho p r)) ->
  energy N (field_chans size ft y i) = energy N (field_chans size ft x i).
Proof.
  intros N rho pi x y i r R M E O. unfold energy.
  rewrite (field_chans_length size ft y i r), (field_chans_length size ft x i r); try assumption; try apply M.
  apply (sum_moved size ft N rho pi x y (fun a => a * a) i r R M E). intros p v Hp Lv.
  rewrite <- (sumn_sq_orth (size r) (rho p r) (fun j => nth j v 0) (O p Hp)). apply sumn_ext. intros c Hc. rewrite !mv_nth by exact Hc. reflexivity.
Qed.
Lemma next_moved : forall f N rho pi x y vars s, reorders N pi -> moved_batch size ft N rho pi x y -> In s (map size ft) ->
  (forall p r, (p < N)%nat -> In r ft -> orthogonal (size r) (rho p r)) -> next_vars f N x vars s = next_vars f N y vars s.
Proof.
  intros f N rho pi x y vars s R M Hs O. unfold next_vars. f_equal. apply map_ext_in. intros i Hi. rewrite !field_var_energy. do 3 f_equal. symmetry.
  apply (labelled_In Nat.eqb eqb_ok) in Hi. rewrite nth_error_map in Hi. destruct (nth_error ft i) as [r|] eqn:E; [|discriminate].
  apply (energy_moved N rho pi x y i r R M E). intros p Hp. apply O; [exact Hp|]. apply nth_error_In in E. exact E.
Qed.
Lemma step_moved : forall t N rho pi st x y, fits st -> teqb ft ft = true -> (t = true -> 0 < N)%nat -> reorders N pi ->
  (forall p r, (p < N)%nat -> In r ft -> orthogonal (size r) (rho p r)) ->
  g_type x = ft -> g_type y = ft -> moved_batch size ft N rho pi (g_chans x) (g_chans y) ->
  exists st' z z', nbn_forward size teqb m t N st x = Ret (st', z) /\ nbn_forward size teqb m t N st y = Ret (st', z') /\ fits st' /\
    g_type z = ft /\ g_type z' = ft /\ moved_batch size ft N rho pi (g_chans z) (g_chans z').
Proof.
  intros t N rho pi st x y F Te HN R O Tx Ty M.
  assert (after t N st (g_chans y) = after t N st (g_chans x)) as Ea.
  { unfold after. destruct t; [|reflexivity]. f_equal. apply map_ext_in. intros s Hs. destruct Fm as (_ & Io & _). apply Io in Hs. f_equal. symmetry.
    eapply next_moved; eassumption. }
  destruct (forward_ok t N st x F Te HN Tx (proj1 (proj1 M))) as (z & E1 & L1 & H1).
  destruct (forward_ok t N st y F Te HN Ty (proj1 (proj1 (proj2 M)))) as (z' & E2 & L2 & H2). rewrite Ea in E2, H2.
  exists (after t N st (g_chans x)). eexists. eexists. split; [exact E1|]. split; [exact E2|]. split; [apply after_fits, F|]. split; [reflexivity|]. split; [reflexivity|].
  cbn [g_chans].
  apply (moved_map size ft N rho pi (g_chans x) (g_chans y) z z' R M L1 L2). intros i r E. destruct (rank_exists i r E) as [j Hj].
  exists (fun a => a * mult (after t N st (g_chans x)) (size r) j). split; [apply H1, Hj|]. split; [apply H2, Hj|].
  intros p v Hp Lv. set (c := mult _ _ _).
  pose proof (scaled_mv (size r) (rho p r) c v Lv) as Hs. unfold scaled in Hs.
  rewrite (map_ext (fun a => a * c) (fun a => c * a)) by (intros; ring). rewrite <- Hs. f_equal. apply map_ext. intros a. ring.
Qed.
End N.
