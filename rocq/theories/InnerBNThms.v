(** InnerBatchNorm: its values and its histories. *)
From Coq Require Import Reals List ZArith Arith Bool Lia Lra Permutation.
From Verif Require Import LibRes LibPy LibMat FieldModel SpecField FieldProofs BranchProofs LabelThms MergeThms GroupedModel GroupedProofs NonlinModel SpecNonlin NonlinProofs NormThms ImageModel ImageProofs PoolModel SpecPool PoolProofs PoolThms BatchNormModel SpecBatch BatchNormProofs BatchThms NormBNThms.
Import ListNotations.
Open Scope R_scope.

Lemma mapi_imap : forall {X Y} (f : nat -> X -> Y) l k, mapi f k l = imap f k l.
Proof. intros X Y f l; induction l as [|a l IH]; intros k; cbn; [reflexivity|]. rewrite IH. reflexivity. Qed.
Lemma rsum_app : forall l m, rsum (l ++ m) = rsum l + rsum m.
Proof. intros l m; induction l as [|a l IH]; unfold rsum in *; cbn; [ring|rewrite IH; ring]. Qed.
Lemma rsum_concat : forall N (g : R -> R) (v : list (list R)), Forall (fun c => length c = N) v ->
  rsum (map g (concat v)) = sumn N (fun p => sumn (length v) (fun c => g (nth p (nth c v []) 0))).
Proof.
  intros N g v F. rewrite sumn_swap. induction F as [|c v Hc F IH]; [cbn; reflexivity|]. cbn [concat map length]. rewrite map_app, rsum_app, IH, sumn_S_first.
  cbn [nth]. f_equal. rewrite (rsum_list g 0), Hc. reflexivity.
Qed.
Lemma length_concat : forall N (v : list (list R)), Forall (fun c => length c = N) v -> length (concat v) = (length v * N)%nat.
Proof. intros N v F; induction F as [|c v Hc F IH]; [reflexivity|]. cbn [concat length]. rewrite app_length, IH, Hc. cbn; lia. Qed.
Lemma mean_total : forall N v, Forall (fun c : list R => length c = N) v -> mean (concat v) = total N v / (INR (length v) * INR N).
Proof.
  intros N v F. unfold mean. rewrite (length_concat N v F), mult_INR. f_equal. rewrite <- (map_id (concat v)), (rsum_concat N (fun a => a) v F). reflexivity.
Qed.
Lemma deviation_scatter : forall N v, Forall (fun c : list R => length c = N) v -> deviation (concat v) = scatter N (mean (concat v)) v.
Proof. intros N v F. unfold deviation. rewrite (rsum_concat N _ v F). reflexivity. Qed.
Lemma permutes_sum : forall n M v (g : R -> R), permutes n M -> length v = n -> sumn n (fun c => g (nth c (mv n M v) 0)) = sumn n (fun c => g (nth c v 0)).
Proof.
  intros n M v g H Lv. destruct (permutes_mv n M v H Lv) as (p & H1 & H2 & H3). rewrite <- (sumn_bij n p (fun c => g (nth c (mv n M v) 0)) H1 H2).
  apply sumn_ext. intros j Hj. rewrite H3 by exact Hj. reflexivity.
Qed.

(** what happens to the values of the [j]-th field *)
Definition field_fn (eps : R) (training : bool) (t : bn) (j : nat) (v : list chan) : R -> R :=
  let '(w, b) := affine_of t j in
  match training, bn_stats t with
  | false, Some (ms, vs, _) => normalise eps (nth j ms 0) (nth j vs 0) w b
  | _, _ => normalise eps (mean (concat v)) (biased_var (concat v)) w b
  end.
Definition next_bn (mom : option R) (training : bool) (t : bn) (fields : list (list chan)) : bn :=
  match training, bn_stats t with
  | true, Some (ms, vs, k) => {| bn_affine := bn_affine t; bn_stats := Some (blend (average_factor mom (S k)) ms (map (fun v => mean (concat v)) fields),
                                   blend (average_factor mom (S k)) vs (map (fun v => unbiased_var (concat v)) fields), S k) |}
  | _, _ => t
  end.
(** the statistics of the batch are used *)
Definition uses_batch (training : bool) (t : bn) : Prop := training = true \/ bn_stats t = None.
Lemma bn_call_ok : forall eps mom n training t fields, length fields = n ->
  (uses_batch training t -> Forall (fun v => (1 < length (concat v))%nat) fields) ->
  bn_call eps mom n training t fields = Ret (next_bn mom training t fields, imap (fun j v => map (map (field_fn eps training t j v)) v) 0 fields).
Proof.
  intros eps mom n training t fields L H. unfold bn_call. rewrite L, Nat.eqb_refl. cbn [assert_ bind].
  assert (uses_batch training t -> forallb (fun v => Nat.ltb 1 (length (concat v))) fields = true) as H'.
  { intros U. specialize (H U). apply forallb_forall. rewrite Forall_forall in H. intros v Hv. apply Nat.ltb_lt, H, Hv. }
  unfold next_bn, field_fn, uses_batch in *. destruct training, (bn_stats t) as [[[ms vs] k]|]; try rewrite H' by auto; cbn [assert_ bind];
    rewrite mapi_imap; do 2 f_equal; apply imap_ext; intros j v _; destruct (affine_of t j); reflexivity.
Qed.

Section I.
Context {A : Type}.
Variable size : A -> nat.
Variable supported : A -> list nonlin.
Variable teqb : list A -> list A -> bool.
Variable ft : list A.
Hypothesis P : Forall (fun r => (0 < size r)%nat) ft.
Notation lab := (labelled Nat.eqb (map size ft)).
Notation fields x s := (map (field_chans size ft x) (lab s)).

Definition bn_fits (n : nat) (t : bn) : Prop :=
  (forall w b, bn_affine t = Some (w, b) -> length w = n /\ length b = n) /\ (forall ms vs k, bn_stats t = Some (ms, vs, k) -> length ms = n /\ length vs = n).
Definition ifits (affine track : bool) (st : ibn_state) : Prop :=
  forall s, In s (map size ft) -> exists t, dget Nat.eqb st s = Some t /\ bn_fits (length (lab s)) t /\ (bn_stats t = None <-> track = false) /\ (bn_affine t = None <-> affine = false).

Lemma imk_fine : forall dim affine track eps mom m st, mk_ibn size supported dim affine track eps mom ft = Ret (m, st) ->
  ib_type m = ft /\ ib_dim m = dim /\ ib_eps m = eps /\ ib_momentum m = mom /\ fine size ft (ib_buffers m) (ib_order m) /\ ifits affine track st /\ (dim <= 3)%nat.
Proof.
  intros dim affine track eps mom m st E. unfold mk_ibn in E. apply bind_Ret in E. destruct E as (u & _ & E). apply bind_Ret in E. destruct E as (d & Ed & E).
  apply bind_Ret in E. destruct E as (b & Eb & E). apply bind_Ret in E. destruct E as (dims & Edims & E). apply Ret_inj in E. injection E as <- <-.
  cbn [ib_type ib_dim ib_eps ib_momentum ib_buffers ib_order].
  destruct (indexes_exact size Nat.eqb eqb_ok ft (map size ft) (map_length size ft) P) as (d' & Ed' & ND & Ik & _). assert (d' = d) by congruence; subst d'.
  destruct (pool_buffers size Nat.eqb eqb_ok ft (map size ft) d (map_length size ft) P Ed) as (b' & Eb' & Hb). assert (b' = b) by congruence; subst b'.
  repeat split; try assumption; try apply Ik.
  - intros s Hs. apply Hb, Hs.
  - intros s Hs. eexists. split; [apply (dget_order (fun s => new_bn affine track (nfields Nat.eqb (map size ft) s))), Ik, Hs|].
    unfold bn_fits, new_bn; cbn [bn_affine bn_stats]. rewrite nfields_labelled. split; [split|split].
    + intros w bb. destruct affine; [|discriminate]. intros E. injection E as <- <-. rewrite !repeat_length. auto.
    + intros ms vs k. destruct track; [|discriminate]. intros E. injection E as <- <- _. rewrite !repeat_length. auto.
    + destruct track; split; intros; congruence.
    + destruct affine; split; intros; congruence.
  - destruct dim as [|[|[|[|]]]]; try lia. discriminate.
Qed.

Variable m : ibn_module (A := A).
Hypothesis Tm : ib_type m = ft.
Hypothesis Fm : fine size ft (ib_buffers m) (ib_order m).
Variable spatial : nat.
Hypothesis Hd : ib_dim m = spatial /\ (1 <= spatial <= 3)%nat.
Variables affine track : bool.

Definition enough (t : bool) (N : nat) : Prop := (t = true \/ track = false) -> forall r, In r ft -> (1 < size r * N)%nat.
Lemma group_enough : forall t N x s b, batch size ft N x -> enough t N -> In s (map size ft) -> (bn_stats b = None <-> track = false) ->
  uses_batch t b -> Forall (fun v => (1 < length (concat v))%nat) (fields x s).
Proof.
  intros t N x s b (Lx & Fx) En Hs Hb U. apply Forall_forall. intros v Hv. apply in_map_iff in Hv. destruct Hv as (i & <- & Hi).
  destruct (label_field size Nat.eqb eqb_ok ft (map size ft) (fun s => s) (map_length size ft) (sizes_ok size ft) s i Hi) as (r & _ & Er & Es).
  rewrite (length_concat N) by (exact (proj1 (Forall_fields size ft _ x Lx) Fx i r Er)). rewrite (field_chans_length size ft x i r Lx Er).
  apply En; [|apply nth_error_In in Er; exact Er]. destruct U as [->|U]; [auto|right; apply Hb, U].
Qed.
Lemma inner_ok : forall t N st x s, ifits affine track st -> batch size ft N x -> enough t N -> In s (map size ft) ->
  exists b, dget Nat.eqb st s = Some b /\ bn_fits (length (lab s)) b /\ (bn_stats b = None <-> track = false) /\
    inner_group size m t spatial st s (concat (fields x s)) =
      Ret (next_bn (ib_momentum m) t b (fields x s), concat (imap (fun j v => map (map (field_fn (ib_eps m) t b j v)) v) 0 (fields x s))).
Proof.
  intros t N st x s F B En Hs. destruct (F s Hs) as (b & Eb & Fb & Tb & Ab). exists b. split; [exact Eb|split; [exact Fb|split; [exact Tb|]]].
  unfold inner_group, lookup. rewrite Eb. cbn [bind].
  rewrite (view_concat s) by (try (apply (size_pos size ft P), Hs); apply (group_fields size Nat.eqb eqb_ok ft (map size ft) (fun s => s) (map_length size ft) (sizes_ok size ft)); apply B).
  cbn [bind]. destruct Hd as [Ed Hr]. rewrite Ed. assert (bn_dims spatial = Ret (spatial + 3)%nat) as -> by (destruct spatial as [|[|[|[|]]]]; try lia; reflexivity).
  cbn [bind]. rewrite Nat.eqb_refl. cbn [assert_ bind]. rewrite Tm. rewrite bn_call_ok.
  - reflexivity.
  - rewrite map_length, nfields_labelled. reflexivity.
  - intros U. eapply group_enough; eassumption.
Qed.
Definition iafter (t : bool) (st : ibn_state) (x : list chan) : ibn_state :=
  map (fun s => (s, match dget Nat.eqb st s with Some b => next_bn (ib_momentum m) t b (fields x s) | None => new_bn false false 0 end)) (ib_order m).
Lemma next_fits_bn : forall mom t b n (l : list (list chan)), bn_fits n b -> length l = n -> bn_fits n (next_bn mom t b l).
Proof.
  intros mom t b n l [H1 H2] L. unfold next_bn. destruct t; [|split; assumption]. destruct (bn_stats b) as [[[ms vs] k]|] eqn:E; [|split; [exact H1|rewrite E; discriminate]].
  split; [exact H1|]. cbn [bn_stats]. intros ms' vs' k' E'. injection E' as <- <- _. destruct (H2 ms vs k eq_refl). unfold blend.
  rewrite !map_length, !combine_length, !map_length. lia.
Qed.
Lemma next_track : forall mom t b (l : list (list chan)), bn_stats (next_bn mom t b l) = None <-> bn_stats b = None.
Proof. intros mom t b l. unfold next_bn. destruct t; [|tauto]. destruct (bn_stats b) as [[[ms vs] k]|] eqn:E; [cbn; split; discriminate|rewrite E; tauto]. Qed.
Lemma next_affine : forall mom t b (l : list (list chan)), bn_affine (next_bn mom t b l) = bn_affine b.
Proof. intros mom t b l. unfold next_bn. destruct t; [|reflexivity]. destruct (bn_stats b) as [[[ms vs] k]|]; reflexivity. Qed.
Lemma iafter_dget : forall t st x s, In s (map size ft) -> dget Nat.eqb (iafter t st x) s =
  Some (match dget Nat.eqb st s with Some b => next_bn (ib_momentum m) t b (fields x s) | None => new_bn false false 0 end).
Proof.
  intros t st x s Hs. destruct Fm as (_ & Io & _). unfold iafter.
  apply (dget_order (fun s => match dget Nat.eqb st s with Some b => next_bn (ib_momentum m) t b (fields x s) | None => new_bn false false 0 end)). apply Io, Hs.
Qed.
Lemma iafter_fits : forall t st x, ifits affine track st -> ifits affine track (iafter t st x).
Proof.
  intros t st x F s Hs. rewrite (iafter_dget t st x s Hs). destruct (F s Hs) as (b & -> & Fb & Tb & Ab). eexists. split; [reflexivity|].
  split; [apply next_fits_bn; [exact Fb|apply map_length]|]. rewrite next_track, next_affine. auto.
Qed.
Lemma iforward_ok : forall t N st junk x, ifits affine track st -> teqb ft ft = true -> enough t N -> g_type x = ft -> batch size ft N (g_chans x) -> length junk = type_size size ft ->
  exists out, ibn_forward size teqb m t spatial st junk x = Ret (iafter t st (g_chans x), {| g_type := ft; g_chans := out |}) /\ length out = type_size size ft /\
    forall s j i, rank size ft i s j -> exists b, dget Nat.eqb st s = Some b /\
      field_chans size ft out i = map (map (field_fn (ib_eps m) t b j (field_chans size ft (g_chans x) i))) (field_chans size ft (g_chans x) i).
Proof.
  intros t N st junk x F Te En Tx B Lj. pose proof (proj1 B) as Lx. pose proof Fm as (ND & Io & Hb).
  set (bof := fun s => match dget Nat.eqb st s with Some b => b | None => new_bn false false 0 end).
  destruct (local_loop size Nat.eqb eqb_ok ft (map size ft) (fun s => s) (map_length size ft) (sizes_ok size ft) (ib_buffers m) (ib_order m) ND Io Hb
    (fun s fm => r <- inner_group size m t spatial st s fm ;; Ret (snd r)) (fun s j v => map (map (field_fn (ib_eps m) t (bof s) j v)) v) (g_chans x) junk Lx Lj)
    as (out & El & Lo & Ho).
  - intros s Hs. destruct (inner_ok t N st (g_chans x) s F B En Hs) as (b & Eb & _ & _ & E). rewrite E. cbn [bind snd]. unfold bof. rewrite Eb. reflexivity.
  - intros s j v _ Lv. rewrite map_length. exact Lv.
  - exists out. split; [|split; [exact Lo|]].
    + unfold ibn_forward. rewrite Tx, Tm, Te. cbn [assert_ bind]. rewrite El. cbn [bind].
      match goal with |- bind ?e _ = _ => assert (e = Ret (iafter t st (g_chans x))) as -> end.
      { unfold iafter. apply mapM_ret. intros s Hs. apply Io in Hs.
        destruct (group_read size Nat.eqb ft (map size ft) (map_length size ft) (ib_buffers m) Hb (g_chans x) s Lx Hs) as (c & Ec & Er).
        rewrite Ec; cbn [bind]. rewrite Er; cbn [bind]. destruct (inner_ok t N st (g_chans x) s F B En Hs) as (b & Eb & _ & _ & E). rewrite E. cbn [bind fst].
        rewrite Eb. reflexivity. }
      cbn [bind]. unfold mk_gtensor. rewrite Lo, Nat.eqb_refl. reflexivity.
    + intros s j i Hr. rewrite (Ho s j i Hr). unfold bof.
      assert (In i (lab s)) as Hi by (apply nth_error_In in Hr; exact Hr). apply (labelled_In Nat.eqb eqb_ok) in Hi. apply nth_error_In in Hi.
      destruct (F s Hi) as (b & Eb & _). exists b. rewrite Eb. auto.
Qed.

(** *** statistics do not move *)
Lemma field_Forall : forall {V} (Q : V -> Prop) x i r, length x = list_sum (map size ft) -> Forall Q x -> nth_error ft i = Some r -> Forall Q (field_chans size ft x i).
Proof. intros V Q x i r Lx F E. exact (proj1 (Forall_fields size ft Q x Lx) F i r E). Qed.
Lemma mean_moved : forall N rho pi x y i r, reorders N pi -> moved_batch size ft N rho pi x y -> nth_error ft i = Some r ->
  (forall p, (p < N)%nat -> permutes (size r) (rho p r)) -> mean (concat (field_chans size ft y i)) = mean (concat (field_chans size ft x i)).
Proof.
  intros N rho pi x y i r R M E O. pose proof M as ((Lx & Fx) & (Ly & Fy) & _).
  rewrite !(mean_total N) by (eapply field_Forall; eassumption). unfold total.
  rewrite (field_chans_length size ft y i r), (field_chans_length size ft x i r); try assumption. f_equal.
  apply (sum_moved size ft N rho pi x y (fun a => a) i r R M E). intros p v Hp Lv. apply (permutes_sum (size r) (rho p r) v (fun a => a)); [apply O, Hp|exact Lv].
Qed.
Lemma deviation_moved : forall N rho pi x y i r, reorders N pi -> moved_batch size ft N rho pi x y -> nth_error ft i = Some r ->
  (forall p, (p < N)%nat -> permutes (size r) (rho p r)) -> deviation (concat (field_chans size ft y i)) = deviation (concat (field_chans size ft x i)).
Proof.
  intros N rho pi x y i r R M E O. pose proof M as ((Lx & Fx) & (Ly & Fy) & _).
  rewrite !(deviation_scatter N) by (eapply field_Forall; eassumption). rewrite (mean_moved N rho pi x y i r R M E O). unfold scatter.
  rewrite (field_chans_length size ft y i r), (field_chans_length size ft x i r); try assumption.
  apply (sum_moved size ft N rho pi x y (fun a => (a - mean (concat (field_chans size ft x i))) * (a - mean (concat (field_chans size ft x i)))) i r R M E). intros p v Hp Lv.
  apply (permutes_sum (size r) (rho p r) v (fun a => (a - mean (concat (field_chans size ft x i))) * (a - mean (concat (field_chans size ft x i))))); [apply O, Hp|exact Lv].
Qed.
Lemma length_moved : forall N rho pi x y i r, moved_batch size ft N rho pi x y -> nth_error ft i = Some r ->
  length (concat (field_chans size ft y i)) = length (concat (field_chans size ft x i)).
Proof.
  intros N rho pi x y i r ((Lx & Fx) & (Ly & Fy) & _) E. rewrite !(length_concat N) by (eapply field_Forall; eassumption).
  rewrite (field_chans_length size ft y i r), (field_chans_length size ft x i r); try assumption. reflexivity.
Qed.
Lemma step_moved_inner : forall t N rho pi st junk junk' x y, ifits affine track st -> teqb ft ft = true -> enough t N -> reorders N pi ->
  (forall p r, (p < N)%nat -> In r ft -> permutes (size r) (rho p r)) -> length junk = type_size size ft -> length junk' = type_size size ft ->
  g_type x = ft -> g_type y = ft -> moved_batch size ft N rho pi (g_chans x) (g_chans y) ->
  exists st' z z', ibn_forward size teqb m t spatial st junk x = Ret (st', z) /\ ibn_forward size teqb m t spatial st junk' y = Ret (st', z') /\ ifits affine track st' /\
    g_type z = ft /\ g_type z' = ft /\ moved_batch size ft N rho pi (g_chans z) (g_chans z').
Proof.
  intros t N rho pi st junk junk' x y F Te En R O Lj Lj' Tx Ty M.
  assert (Hin : forall s i, In i (lab s) -> exists r, nth_error ft i = Some r /\ In r ft /\ size r = s).
  { intros s i Hi. destruct (label_field size Nat.eqb eqb_ok ft (map size ft) (fun s => s) (map_length size ft) (sizes_ok size ft) s i Hi) as (r & _ & E & Es).
    exists r. split; [exact E|split; [apply nth_error_In in E; exact E|exact Es]]. }
  assert (iafter t st (g_chans y) = iafter t st (g_chans x)) as Ea.
  { unfold iafter. apply map_ext_in. intros s Hs. f_equal. destruct (dget Nat.eqb st s) as [b|]; [|reflexivity]. unfold next_bn.
    destruct t; [|reflexivity]. destruct (bn_stats b) as [[[ms vs] k]|]; [|reflexivity]. 
    assert (E1 : map (fun v => mean (concat v)) (fields (g_chans y) s) = map (fun v => mean (concat v)) (fields (g_chans x) s)).
    { rewrite !map_map. apply map_ext_in. intros i Hi. destruct (Hin s i Hi) as (r & E & Ir & Es).
      apply (mean_moved N rho pi _ _ i r R M E). intros p Hp. apply O; assumption. }
    assert (E2 : map (fun v => unbiased_var (concat v)) (fields (g_chans y) s) = map (fun v => unbiased_var (concat v)) (fields (g_chans x) s)).
    { rewrite !map_map. apply map_ext_in. intros i Hi. destruct (Hin s i Hi) as (r & E & Ir & Es).
      unfold unbiased_var. rewrite (deviation_moved N rho pi _ _ i r R M E) by (intros p Hp; apply O; assumption).
      rewrite (length_moved N rho pi _ _ i r M E). reflexivity. }
    rewrite E1, E2. reflexivity. }
  destruct (iforward_ok t N st junk x F Te En Tx (proj1 M) Lj) as (z & E1 & L1 & H1).
  destruct (iforward_ok t N st junk' y F Te En Ty (proj1 (proj2 M)) Lj') as (z' & E2 & L2 & H2). rewrite Ea in E2.
  exists (iafter t st (g_chans x)). eexists. eexists. split; [exact E1|]. split; [exact E2|]. split; [apply iafter_fits, F|]. split; [reflexivity|]. split; [reflexivity|].
  cbn [g_chans]. apply (moved_map size ft N rho pi (g_chans x) (g_chans y) z z' R M L1 L2). intros i r E. destruct (rank_exists size ft i r E) as [j Hj].
  destruct (H1 _ _ _ Hj) as (b & Eb & Hz). destruct (H2 _ _ _ Hj) as (b' & Eb' & Hz'). assert (b' = b) by congruence; subst b'.
  assert (In r ft) as Ir by (apply nth_error_In in E; exact E).
  exists (field_fn (ib_eps m) t b j (field_chans size ft (g_chans x) i)). split; [exact Hz|]. split.
  - rewrite Hz'. f_equal. f_equal. unfold field_fn, biased_var.
    rewrite (mean_moved N rho pi _ _ i r R M E), (deviation_moved N rho pi _ _ i r R M E), (length_moved N rho pi _ _ i r M E) by (intros p Hp; apply O; assumption). reflexivity.
  - intros p v Hp Lv. apply permutes_map; [apply O; assumption|exact Lv].
Qed.
End I.
