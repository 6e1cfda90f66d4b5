(** Batches: statistics and histories. *)
From Coq Require Import Reals List ZArith Arith Bool Lia Lra Permutation.
From Verif Require Import LibRes LibPy LibMat FieldModel SpecField FieldProofs BranchProofs LabelThms MergeThms GroupedModel GroupedProofs NonlinModel SpecNonlin NonlinProofs PoolModel ImageModel ImageProofs BatchNormModel SpecBatch BatchNormProofs.
Import ListNotations.
Open Scope R_scope.

Lemma rsum_list : forall {X} (f : X -> R) d l, rsum (map f l) = sumn (length l) (fun i => f (nth i l d)).
Proof.
  intros X f d l. induction l as [|a l IH]; [reflexivity|]. cbn [map length]. change (rsum (f a :: map f l)) with (f a + rsum (map f l)).
  rewrite IH, sumn_S_first. reflexivity.
Qed.
Lemma rsum_seq : forall (f : nat -> R) n, rsum (map f (seq 0 n)) = sumn n f.
Proof.
  intros f n. rewrite (rsum_list f 0%nat), seq_length. apply sumn_ext. intros i Hi. rewrite seq_nth by exact Hi. reflexivity.
Qed.
Lemma point_nth : forall v c p, nth c (point v p) 0 = nth p (nth c v []) 0.
Proof.
  intros v c p. unfold point. transitivity (nth c (map (fun c => nth p c 0) v) ((fun c => nth p c 0) [])); [f_equal; destruct p; reflexivity|].
  exact (map_nth (fun c => nth p c 0) v [] c).
Qed.
Lemma point_length : forall v p, length (point v p) = length v.
Proof. intros. unfold point. apply map_length. Qed.

Section B.
Context {A : Type}.
Variable size : A -> nat.
Variable ft : list A.

Lemma point_field : forall x p i, field_chans size ft (point x p) i = point (field_chans size ft x i) p.
Proof. intros x p i. unfold point. apply field_map. Qed.
Lemma chans_by_field : forall {V} (x : list V), length x = type_size size ft -> x = concat (map (field_chans size ft x) (seq 0 (length ft))).
Proof.
  intros V x Lx. pose proof (chans_range size ft x (length ft) 0 (le_n _)) as Ex. cbn [Nat.add] in Ex. rewrite (offset_all size ft (length ft) (le_n _)) in Ex.
  change (offset size ft 0) with 0%nat in Ex. rewrite Nat.sub_0_r in Ex. cbn [skipn] in Ex. rewrite <- Lx, firstn_all in Ex.
  rewrite <- flat_map_concat_map. exact Ex.
Qed.
Lemma Forall_fields : forall {V} (P : V -> Prop) x, length x = type_size size ft ->
  (Forall P x <-> forall i r, nth_error ft i = Some r -> Forall P (field_chans size ft x i)).
Proof.
  intros V P x Lx. split.
  - intros F i r E. unfold field_chans. rewrite E. rewrite Forall_forall in F |- *. intros c Hc. apply F.
    rewrite <- (firstn_skipn (list_sum (map size (firstn i ft))) x). apply in_or_app; right.
    rewrite <- (firstn_skipn (size r) (skipn _ x)). apply in_or_app; left. exact Hc.
  - intros H. rewrite (chans_by_field x Lx). apply Forall_forall. intros c Hc. apply in_concat in Hc. destruct Hc as (b & Hb & Hc).
    apply in_map_iff in Hb. destruct Hb as (i & <- & Hi). apply in_seq in Hi. destruct (nth_error ft i) as [r|] eqn:E; [|apply nth_error_None in E; lia].
    specialize (H i r E). rewrite Forall_forall in H. apply H, Hc.
Qed.

(** functions applied to every value of a field *)
Lemma moved_map : forall N rho pi x y z z', reorders N pi ->
  moved_batch size ft N rho pi x y -> length z = type_size size ft -> length z' = type_size size ft ->
  (forall i r, nth_error ft i = Some r -> exists h : R -> R, field_chans size ft z i = map (map h) (field_chans size ft x i) /\
     field_chans size ft z' i = map (map h) (field_chans size ft y i) /\
     forall p v, (p < N)%nat -> length v = size r -> map h (mv (size r) (rho p r) v) = mv (size r) (rho p r) (map h v)) ->
  moved_batch size ft N rho pi z z'.
Proof.
  intros N rho pi x y z z' [Hpi _] ((Lx & Fx) & (Ly & Fy) & Hp) Lz Lz' Hz.
  assert (Hm : forall v (f : R -> R), Forall (fun c : list R => length c = N) v -> Forall (fun c : list R => length c = N) (map (map f) v)).
  { intros v f F. rewrite Forall_forall in F |- *. intros c Hc. apply in_map_iff in Hc. destruct Hc as (c' & <- & Hc'). rewrite map_length. apply F, Hc'. }
  assert (Hpt : forall v (f : R -> R) p, (p < N)%nat -> Forall (fun c : list R => length c = N) v -> point (map (map f) v) p = map f (point v p)).
  { intros v f p Hp' F. unfold point. rewrite !map_map. apply map_ext_in. intros c Hc. rewrite Forall_forall in F.
    rewrite (nth_indep _ 0 (f 0)) by (rewrite map_length, (F c Hc); exact Hp'). apply map_nth. }
  split; [split; [exact Lz|]|split; [split; [exact Lz'|]|]].
  - apply (Forall_fields _ z Lz). intros i r E. destruct (Hz i r E) as (h & -> & _ & _). apply Hm. exact (proj1 (Forall_fields _ x Lx) Fx i r E).
  - apply (Forall_fields _ z' Lz'). intros i r E. destruct (Hz i r E) as (h & _ & -> & _). apply Hm. exact (proj1 (Forall_fields _ y Ly) Fy i r E).
  - intros p Hp'. split; [rewrite point_length; exact Lz'|]. intros i r E. destruct (Hz i r E) as (h & E1 & E2 & Hh). rewrite !point_field, E1, E2.
    pose proof (proj1 (Forall_fields _ x Lx) Fx i r E) as Fxi. pose proof (proj1 (Forall_fields _ y Ly) Fy i r E) as Fyi.
    rewrite Hpt by assumption. rewrite Hpt by (try assumption; apply Hpi; exact Hp').
    rewrite <- Hh; [|exact Hp'|rewrite point_length; apply field_chans_length; assumption]. f_equal.
    rewrite <- !point_field. apply (proj2 (Hp p Hp') i r E).
Qed.

(** sums over all the values of a field *)
Lemma sum_moved : forall N rho pi x y (g : R -> R) i r, reorders N pi -> moved_batch size ft N rho pi x y -> nth_error ft i = Some r ->
  (forall p v, (p < N)%nat -> length v = size r -> sumn (size r) (fun c => g (nth c (mv (size r) (rho p r) v) 0)) = sumn (size r) (fun c => g (nth c v 0))) ->
  sumn N (fun p => sumn (size r) (fun c => g (nth p (nth c (field_chans size ft y i) []) 0))) =
  sumn N (fun p => sumn (size r) (fun c => g (nth p (nth c (field_chans size ft x i) []) 0))).
Proof.
  intros N rho pi x y g i r (P1 & P2) ((Lx & Fx) & (Ly & Fy) & Hp) E Hg.
  rewrite <- (sumn_bij N pi (fun p => sumn (size r) (fun c => g (nth p (nth c (field_chans size ft x i) []) 0))) P1 P2).
  apply sumn_ext. intros p Hp'. transitivity (sumn (size r) (fun c => g (nth c (point (field_chans size ft y i) p) 0))).
  { apply sumn_ext. intros c _. rewrite point_nth. reflexivity. }
  rewrite <- point_field. rewrite (proj2 (Hp p Hp') i r E). rewrite Hg; [|exact Hp'|rewrite point_field, point_length; apply field_chans_length; assumption].
  apply sumn_ext. intros c _. rewrite point_field, point_nth. reflexivity.
Qed.
End B.

(** *** histories *)
Section H.
Context {St W X : Type}.
Variable fwd : bool -> nat -> St -> X -> res (St * X).
Variable setw : W -> St -> res St.
Variable reset : St -> St.
Variable fits : St -> Prop.
Variable okc : bool -> nat -> Prop.
Lemma run_pair : forall (rel : nat -> nat -> X -> X -> Prop) (h h' : list (event W X)) k0,
  (forall k t N st x x', fits st -> okc t N -> rel k N x x' -> exists st' y y', fwd t N st x = Ret (st', y) /\ fwd t N st x' = Ret (st', y') /\ fits st' /\ rel k N y y') ->
  (forall w st st', fits st -> setw w st = Ret st' -> fits st') ->
  (forall st, fits st -> fits (reset st)) ->
  length h' = length h ->
  (forall k e, nth_error h k = Some e -> match e with
     | Call t N x => okc t N /\ exists x', nth_error h' k = Some (Call t N x') /\ rel (k0 + k)%nat N x x'
     | _ => nth_error h' k = Some e end) ->
  forall st, fits st -> forall r, run fwd setw reset st h = Ret r -> 
  exists ys', run fwd setw reset st h' = Ret (fst r, ys') /\
    forall k t N x, nth_error h k = Some (Call t N x) -> exists y y', nth_error (snd r) k = Some (Some y) /\ nth_error ys' k = Some (Some y') /\ rel (k0 + k)%nat N y y'.
Proof.
  intros rel h h' k0 Hf Hs Hr. revert h' k0. induction h as [|e h IH]; intros h' k0 L H st F r E.
  - destruct h'; [|discriminate]. apply Ret_inj in E; subst r. exists []. split; [reflexivity|]. intros [|k]; discriminate.
  - destruct h' as [|e' h']; [discriminate|]. cbn [run] in E |- *. apply bind_Ret in E. destruct E as (a & Ea & E). apply bind_Ret in E. destruct E as (q & Eq & E).
    apply Ret_inj in E; subst r. pose proof (H 0%nat e eq_refl) as H0. cbn [nth_error] in H0.
    assert (H' : forall k e0, nth_error h k = Some e0 -> match e0 with
       | Call t N x => okc t N /\ exists x', nth_error h' k = Some (Call t N x') /\ rel (S k0 + k)%nat N x x'
       | _ => nth_error h' k = Some e0 end).
    { intros k e0 Ek. specialize (H (S k) e0 Ek). cbn [nth_error] in H. rewrite Nat.add_succ_r in H. exact H. }
    assert (L' : length h' = length h) by (cbn in L; lia).
    destruct e as [t N x|w|].
    + destruct H0 as (HN & x' & Ex' & R). injection Ex' as ->. rewrite Nat.add_0_r in R.
      destruct (Hf k0 t N st x x' F HN R) as (st' & y & y' & E1 & E2 & F' & R'). rewrite E1 in Ea. cbn [bind] in Ea. apply Ret_inj in Ea; subst a.
      rewrite E2. cbn [bind fst snd]. cbn [fst] in Eq. destruct (IH h' (S k0) L' H' st' F' q Eq) as (ys' & Er & Hy). rewrite Er. cbn [bind fst snd].
      eexists. split; [reflexivity|]. intros [|k] t' N' x0 Ek; cbn [nth_error] in Ek |- *.
      * injection Ek as -> -> ->. exists y, y'. rewrite Nat.add_0_r. auto.
      * destruct (Hy k t' N' x0 Ek) as (u & u' & H1 & H2 & H3). exists u, u'. rewrite Nat.add_succ_r. auto.
    + injection H0 as ->. apply bind_Ret in Ea. destruct Ea as (st' & Es & Ea). apply Ret_inj in Ea; subst a. rewrite Es. cbn [bind fst snd] in *.
      destruct (IH h' (S k0) L' H' st' (Hs _ _ _ F Es) q Eq) as (ys' & Er & Hy). rewrite Er. cbn [bind fst snd].
      eexists. split; [reflexivity|]. intros [|k] t' N' x0 Ek; cbn [nth_error] in Ek |- *; [discriminate|].
      destruct (Hy k t' N' x0 Ek) as (u & u' & H1 & H2 & H3). exists u, u'. rewrite Nat.add_succ_r. auto.
    + injection H0 as ->. apply Ret_inj in Ea; subst a. cbn [bind fst snd] in *.
      destruct (IH h' (S k0) L' H' (reset st) (Hr _ F) q Eq) as (ys' & Er & Hy). rewrite Er. cbn [bind fst snd].
      eexists. split; [reflexivity|]. intros [|k] t' N' x0 Ek; cbn [nth_error] in Ek |- *; [discriminate|].
      destruct (Hy k t' N' x0 Ek) as (u & u' & H1 & H2 & H3). exists u, u'. rewrite Nat.add_succ_r. auto.
Qed.
End H.
