(** Modules with a group of parameters for every name: their loops and their
    histories. *)
From Coq Require Import Reals List ZArith Arith Bool Lia Lra Permutation.
From Verif Require Import LibRes LibPy LibMat FieldModel SpecField FieldProofs BranchProofs LabelThms MergeThms GroupedModel GroupedProofs NonlinModel SpecNonlin NonlinProofs PoolModel ImageModel BatchNormModel SpecBatch BatchNormProofs BatchThms FNormModel SpecFNorm KeyedProofs FNormProofs.
Import ListNotations.
Open Scope R_scope.

(** histories whose calls are related in a way that may depend on the mode *)
Section H.
Context {St W X : Type}.
Variable fwd : bool -> nat -> St -> X -> res (St * X).
Variable setw : W -> St -> res St.
Variable reset : St -> St.
Variable fits : St -> Prop.
Lemma run_pair_mode : forall (rel : nat -> bool -> nat -> X -> X -> Prop) (h h' : list (event W X)) k0,
  (forall k t N st x x', fits st -> rel k t N x x' -> exists st' y y', fwd t N st x = Ret (st', y) /\ fwd t N st x' = Ret (st', y') /\ fits st' /\ rel k t N y y') ->
  (forall w st st', fits st -> setw w st = Ret st' -> fits st') ->
  (forall st, fits st -> fits (reset st)) ->
  length h' = length h ->
  (forall k e, nth_error h k = Some e -> match e with
     | Call t N x => exists x', nth_error h' k = Some (Call t N x') /\ rel (k0 + k)%nat t N x x'
     | _ => nth_error h' k = Some e end) ->
  forall st, fits st -> forall r, run fwd setw reset st h = Ret r -> 
  exists ys', run fwd setw reset st h' = Ret (fst r, ys') /\
    forall k t N x, nth_error h k = Some (Call t N x) -> exists y y', nth_error (snd r) k = Some (Some y) /\ nth_error ys' k = Some (Some y') /\ rel (k0 + k)%nat t N y y'.
Proof.
  intros rel h h' k0 Hf Hs Hr. revert h' k0. induction h as [|e h IH]; intros h' k0 L H st F r E.
  - destruct h'; [|discriminate]. apply Ret_inj in E; subst r. exists []. split; [reflexivity|]. intros [|k]; discriminate.
  - destruct h' as [|e' h']; [discriminate|]. cbn [run] in E |- *. apply bind_Ret in E. destruct E as (a & Ea & E). apply bind_Ret in E. destruct E as (q & Eq & E).
    apply Ret_inj in E; subst r. pose proof (H 0%nat e eq_refl) as H0. cbn [nth_error] in H0.
    assert (H' : forall k e0, nth_error h k = Some e0 -> match e0 with
       | Call t N x => exists x', nth_error h' k = Some (Call t N x') /\ rel (S k0 + k)%nat t N x x'
       | _ => nth_error h' k = Some e0 end).
    { intros k e0 Ek. specialize (H (S k) e0 Ek). cbn [nth_error] in H. rewrite Nat.add_succ_r in H. exact H. }
    assert (L' : length h' = length h) by (cbn in L; lia).
    destruct e as [t N x|w|].
    + destruct H0 as (x' & Ex' & R). injection Ex' as ->. rewrite Nat.add_0_r in R.
      destruct (Hf k0 t N st x x' F R) as (st' & y & y' & E1 & E2 & F' & R'). rewrite E1 in Ea. cbn [bind] in Ea. apply Ret_inj in Ea; subst a.
      rewrite E2. cbn [bind fst snd]. cbn [fst] in Eq. destruct (IH h' (S k0) L' H' st' F' q Eq) as (ys' & Er & Hy). rewrite Er. cbn [bind fst snd].
      eexists. split; [reflexivity|]. intros [|k] t' N' x0 Ek; cbn [nth_error] in Ek |- *.
      * injection Ek as -> -> ->. exists y, y'. rewrite Nat.add_0_r. auto.
      * destruct (Hy k t' N' x0 Ek) as (u & u' & H1 & H2 & H3). exists u, u'. rewrite Nat.add_succ_r. auto.
    + injection H0 as ->. apply bind_Ret in Ea. destruct Ea as (st' & Es & Ea). apply Ret_inj in Ea; subst a. rewrite Es. cbn [bind fst snd] in *.
      destruct (IH h' (S k0) L' H' st' (Hs _ _ _ F Es) q Eq) as (ys' & Er & Hy). rewrite Er. cbn [bind fst snd].
      eexists. split; [reflexivity|]. intros [|k] t' N' x0 Ek; cbn [nth_error] in Ek |- *; [discriminate|].
      destruct (Hy k t' N' x0 Ek) as (u & u' & H1 & H2 & H3). exists u, u'. rewrite Nat.add_succ_r. auto.
    + injection H0 as ->. apply Ret_inj in Ea; subst a. cbn [bind fst snd] in *.
      destruct (IH h' (S k0) L' H' (reset st) (Hr _ F) q Eq) as (ys' & Er & Hy). rewrite Er. cbn [bind fst snd].
      eexists. split; [reflexivity|]. intros [|k] t' N' x0 Ek; cbn [nth_error] in Ek |- *; [discriminate|].
      destruct (Hy k t' N' x0 Ek) as (u & u' & H1 & H2 & H3). exists u, u'. rewrite Nat.add_succ_r. auto.
Qed.
(** what holds after every history *)
Lemma run_fits : forall (okc : bool -> nat -> X -> Prop) (h : list (event W X)),
  (forall t N st x st' y, fits st -> okc t N x -> fwd t N st x = Ret (st', y) -> fits st') ->
  (forall w st st', fits st -> setw w st = Ret st' -> fits st') ->
  (forall st, fits st -> fits (reset st)) ->
  (forall t N x, In (Call t N x) h -> okc t N x) ->
  forall st st' ys, fits st -> run fwd setw reset st h = Ret (st', ys) -> fits st'.
Proof.
  intros okc h Hf Hs Hr. induction h as [|e h IH]; intros H st st' ys F E.
  - apply Ret_inj in E. injection E as <- _. exact F.
  - cbn [run] in E. apply bind_Ret in E. destruct E as (a & Ea & E). apply bind_Ret in E. destruct E as ([q1 q2] & Eq & E). apply Ret_inj in E. injection E as <- _.
    apply (IH (fun t N x Hin => H t N x (or_intror Hin)) (fst a) q1 q2); [|exact Eq]. destruct e as [t N x|w|].
    + apply bind_Ret in Ea. destruct Ea as ([s y] & Ep & Ea). apply Ret_inj in Ea. subst a. apply (Hf t N st x s y F); [apply H; left; reflexivity|exact Ep].
    + apply bind_Ret in Ea. destruct Ea as (s & Ep & Ea). apply Ret_inj in Ea. subst a. apply (Hs w st s F Ep).
    + apply Ret_inj in Ea. subst a. apply Hr, F.
Qed.
End H.

Section Fields.
Context {A : Type}.
Variable size : A -> nat.
Variable ft : list A.
Lemma field_rect : forall N x i r, batch size ft N x -> nth_error ft i = Some r -> rect (size r) N (field_chans size ft x i).
Proof.
  intros N x i r [Lx Fx] E. split; [apply field_chans_length; assumption|]. exact (proj1 (Forall_fields size ft _ x Lx) Fx i r E).
Qed.
Lemma batch_fields : forall N x, length x = type_size size ft -> (forall i r, nth_error ft i = Some r -> rect (size r) N (field_chans size ft x i)) -> batch size ft N x.
Proof. intros N x Lx H. split; [exact Lx|]. apply (Forall_fields size ft _ x Lx). intros i r E. apply (H i r E). Qed.
Lemma moved_ent : forall N rho pi x y i r c p, moved_batch size ft N rho pi x y -> nth_error ft i = Some r -> (c < size r)%nat -> (p < N)%nat ->
  ent (field_chans size ft y i) c p = sumn (size r) (fun d => rho p r c d * ent (field_chans size ft x i) d (pi p)).
Proof.
  intros N rho pi x y i r c p (Bx & By & H) E Hc Hp. pose proof (proj2 (H p Hp) i r E) as K. rewrite !point_field in K.
  transitivity (nth c (point (field_chans size ft y i) p) 0); [rewrite point_nth; reflexivity|]. rewrite K, mv_nth by exact Hc.
  apply sumn_ext. intros d Hd. rewrite point_nth. reflexivity.
Qed.
Lemma moved_of_ent : forall N rho pi x y, reorders N pi -> batch size ft N x -> batch size ft N y ->
  (forall i r c p, nth_error ft i = Some r -> (c < size r)%nat -> (p < N)%nat ->
     ent (field_chans size ft y i) c p = sumn (size r) (fun d => rho p r c d * ent (field_chans size ft x i) d (pi p))) ->
  moved_batch size ft N rho pi x y.
Proof.
  intros N rho pi x y Hpi Bx By H. split; [exact Bx|]. split; [exact By|]. intros p Hp. split; [rewrite point_length; apply By|]. intros i r E. rewrite !point_field.
  pose proof (field_rect N y i r By E) as [Ly _]. apply list_ext; [rewrite point_length, mv_length; exact Ly|]. intros c Hc. rewrite point_length, Ly in Hc. rewrite mv_nth by exact Hc.
  rewrite point_nth. unfold ent in H. rewrite (H i r c p E Hc Hp). apply sumn_ext. intros d Hd. rewrite point_nth. reflexivity.
Qed.
End Fields.

Section Named.
Context {A L S V : Type}.
Variable size : A -> nat.
Variable name : A -> L.
Variable leqb : L -> L -> bool.
Hypothesis leqb_ok : forall a b, leqb a b = true <-> a = b.
Variable ft uniq : list A.
Hypothesis Pos : Forall (fun r => (0 < size r)%nat) ft.
Hypothesis Lu : listing ft uniq.
Hypothesis Na : named_apart name ft.
Notation lab := (labelled leqb (map name ft)).

Lemma order_nodup : NoDup (map name uniq).
Proof.
  destruct Lu as [ND Iu]. assert (forall l, NoDup l -> (forall r, In r l -> In r ft) -> NoDup (map name l)) as K.
  { induction l as [|r l IH]; intros N H; [constructor|]. apply NoDup_cons_iff in N. destruct N as [Nr N]. cbn [map]. constructor; [|apply IH; [exact N|intros; apply H; right; assumption]].
    intros Q. apply in_map_iff in Q. destruct Q as (r' & E & Hr'). apply Nr. rewrite <- (Na r' r); [exact Hr'|apply H; right; exact Hr'|apply H; left; reflexivity|exact E]. }
  apply K; [exact ND|]. intros r Hr. apply Iu, Hr.
Qed.
Lemma rank_rep : forall i s j, named_rank leqb name ft i s j -> exists r, nth_error ft i = Some r /\ name r = s /\ In r ft.
Proof.
  intros i s j E. unfold named_rank in E. assert (In i (lab s)) as Hi by (apply nth_error_In in E; exact E). apply (labelled_In leqb leqb_ok) in Hi. rewrite nth_error_map in Hi.
  destruct (nth_error ft i) as [r|] eqn:Er; [|discriminate]. injection Hi as <-. exists r. split; [reflexivity|]. split; [reflexivity|]. apply nth_error_In in Er. exact Er.
Qed.
Lemma rank_of : forall i r, nth_error ft i = Some r -> exists j, named_rank leqb name ft i (name r) j.
Proof. intros i r E. unfold named_rank. apply In_nth_error. apply (labelled_In leqb leqb_ok). rewrite nth_error_map, E. reflexivity. Qed.
Lemma lab_rep : forall r i, In r ft -> In i (lab (name r)) -> nth_error ft i = Some r.
Proof.
  intros r i Hr Hi. apply (labelled_In leqb leqb_ok) in Hi. rewrite nth_error_map in Hi. destruct (nth_error ft i) as [r'|] eqn:Er; [|discriminate]. injection Hi as E.
  f_equal. apply Na; [apply nth_error_In in Er; exact Er|exact Hr|exact E].
Qed.
Lemma fold_dset_out : forall (G : A -> S) l d s, ~ In s (map name l) -> dget leqb (fold_left (fun d r => dset leqb d (name r) (G r)) l d) s = dget leqb d s.
Proof.
  intros G l. induction l as [|r l IH]; intros d s N; cbn [fold_left]; [reflexivity|]. rewrite IH; [|intros Q; apply N; right; exact Q]. rewrite (LibPy.dget_dset leqb leqb_ok).
  destruct (leqb (name r) s) eqn:E; [|reflexivity]. apply leqb_ok in E. exfalso. apply N. left. exact E.
Qed.
Lemma named_get : forall (G : A -> S) d r, In r ft -> dget leqb (fold_left (fun d r => dset leqb d (name r) (G r)) uniq d) (name r) = Some (G r).
Proof.
  intros G d r Hr. apply (proj2 Lu) in Hr. pose proof order_nodup as ND. clear Lu. revert d. induction uniq as [|u l IH]; [destruct Hr|]. intros d. cbn [map] in ND. apply NoDup_cons_iff in ND. destruct ND as [Nu ND]. cbn [fold_left].
  destruct Hr as [->|Hr]; [|apply IH; assumption]. rewrite fold_dset_out by exact Nu. rewrite (LibPy.dget_dset leqb leqb_ok).
  assert (leqb (name r) (name r) = true) as -> by (apply leqb_ok; reflexivity). reflexivity.
Qed.
Lemma fold_dset_ext : forall (G G' : A -> S) d, (forall r, In r ft -> G r = G' r) ->
  fold_left (fun d r => dset leqb d (name r) (G r)) uniq d = fold_left (fun d r => dset leqb d (name r) (G' r)) uniq d.
Proof.
  intros G G' d H. assert (forall r, In r uniq -> G r = G' r) as H' by (intros r Hr; apply H, (proj2 Lu), Hr). clear H Lu. revert d. induction uniq as [|u l IH]; intros d; [reflexivity|]. cbn [fold_left].
  rewrite (H' u) by (left; reflexivity). apply IH. intros r Hr. apply H'. right; exact Hr.
Qed.

Variable bufs : list (L * channels).
Hypothesis Eb : buffers size leqb ft (map name ft) = Ret bufs.
Notation fields x s := (map (field_chans size ft x) (lab s)).

Definition rep_at (d : A) (s : L) : A := match find (fun r => leqb (name r) s) ft with Some r => r | None => d end.
Lemma rep_at_name : forall d r, In r ft -> rep_at d (name r) = r.
Proof.
  intros d r Hr. unfold rep_at. destruct (find _ ft) as [r'|] eqn:E.
  - apply find_some in E. destruct E as [Hr' E]. apply leqb_ok in E. apply Na; assumption.
  - exfalso. pose proof (find_none _ _ E r Hr) as K. cbn in K. assert (leqb (name r) (name r) = true) by (apply leqb_ok; reflexivity). congruence.
Qed.
Lemma bufs_ok : forall s, In s (map name ft) -> exists c, lookup leqb bufs s = Ret c /\ positions (type_size size ft) c = Ret (chan_list size ft (lab s)).
Proof.
  intros s Hs. destruct (buffers_ok size leqb leqb_ok ft (map name ft) (map_length name ft) Pos) as (b' & Eb' & Hb). assert (b' = bufs) by congruence; subst b'.
  apply Hb; [exact Hs|lia].
Qed.

Theorem named_loop : forall (proc : L -> S -> list (list V) -> res (S * list (list V))) (G : A -> S) (Ws : A -> list (list V)) x st junk,
  length x = type_size size ft -> length junk = type_size size ft ->
  (forall r, In r ft -> exists g, dget leqb st (name r) = Some g /\ proc (name r) g (fields x (name r)) = Ret (G r, Ws r) /\
     length (Ws r) = length (lab (name r)) /\ Forall (fun w => length w = size r) (Ws r)) ->
  exists out, keyed_loop leqb bufs proc x (map (fun r => (name r, size r)) uniq) st junk = Ret (fold_left (fun d r => dset leqb d (name r) (G r)) uniq st, out) /\
    length out = type_size size ft /\
    forall i r j, nth_error ft i = Some r -> named_rank leqb name ft i (name r) j -> field_chans size ft out i = nth j (Ws r) [].
Proof.
  intros proc G Ws x st junk Lx Lj H. destruct Lu as [ND Iu].
  destruct uniq as [|r0 u0] eqn:Eu.
  { exists junk. split; [reflexivity|]. split; [exact Lj|]. intros i r j Er. exfalso. apply nth_error_In in Er. apply Iu in Er. exact Er. }
  rewrite <- Eu in *. assert (In r0 ft) as H0 by (apply Iu; rewrite Eu; left; reflexivity).
  pose (at_ := rep_at r0).
  assert (map (fun r => (name r, size r)) uniq = map (fun s => (s, size (at_ s))) (map name uniq)) as ->.
  { rewrite map_map. apply map_ext_in. intros r Hr. unfold at_. rewrite rep_at_name by (apply Iu, Hr). reflexivity. }
  assert (forall i r s, nth_error (map name ft) i = Some s -> nth_error ft i = Some r -> size r = size (at_ s)) as Ls.
  { intros i r s E1 E2. rewrite nth_error_map, E2 in E1. injection E1 as <-. unfold at_. rewrite rep_at_name; [reflexivity|apply nth_error_In in E2; exact E2]. }
  destruct (keyed_ok size leqb leqb_ok ft (map name ft) (fun s => size (at_ s)) (map_length name ft) Ls Pos bufs bufs_ok proc (fun s => G (at_ s)) (fun s => Ws (at_ s)) x Lx
    (map name uniq) st junk) as (out & E & Lo & Ho & _); try assumption.
  - apply order_nodup.
  - intros s Hs. apply in_map_iff in Hs. destruct Hs as (r & <- & Hr). apply in_map, Iu, Hr.
  - intros s Hs. apply in_map_iff in Hs. destruct Hs as (r & <- & Hr). apply Iu in Hr. unfold at_. rewrite rep_at_name by exact Hr. apply H, Hr.
  - exists out. split; [|split; [exact Lo|]].
    + rewrite E. f_equal. f_equal. clear - Iu leqb_ok Na at_. assert (forall r, In r uniq -> at_ (name r) = r) as K by (intros r Hr; apply rep_at_name, Iu, Hr).
      clear Iu. revert st. induction uniq as [|u l IH]; intros st; [reflexivity|]. cbn [map fold_left]. rewrite (K u) by (left; reflexivity). apply IH. intros r Hr. apply K. right; exact Hr.
    + intros i r j Er Rk. assert (In r ft) as Hr by (apply nth_error_In in Er; exact Er). rewrite (Ho (name r) j i); [|apply in_map, Iu, Hr|exact Rk].
      unfold at_. rewrite rep_at_name by exact Hr. reflexivity.
Qed.
End Named.
