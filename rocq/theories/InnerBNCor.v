(** InnerBatchNorm: histories. *)
From Coq Require Import Reals List ZArith Arith Bool Lia Lra Permutation.
From Verif Require Import LibRes LibPy LibMat FieldModel SpecField FieldProofs BranchProofs LabelThms MergeThms GroupedModel GroupedProofs NonlinModel SpecNonlin NonlinProofs NormThms PoolModel SpecPool BatchNormModel SpecBatch BatchNormProofs BatchThms NormBNThms InnerBNThms.
Import ListNotations.
Open Scope R_scope.

Section I.
Context {A : Type}.
Variable size : A -> nat.
Variable supported : A -> list nonlin.
Variable teqb : list A -> list A -> bool.

Lemma iset_fits : forall ft affine track u st st', ifits size ft affine track st -> ibn_set u st = Ret st' -> ifits size ft affine track st'.
Proof.
  intros ft affine track [s0 [w b]] st st' F E. unfold ibn_set in E. cbn [fst snd] in E. apply bind_Ret in E. destruct E as (t & Et & E).
  destruct (bn_affine t) as [[w0 b0]|] eqn:Ea; [|discriminate]. apply assert_Ret in E. destruct E as (Lw & E). apply assert_Ret in E. destruct E as (Lb & E).
  apply Ret_inj in E; subst st'. apply Nat.eqb_eq in Lw, Lb. intros s Hs. destruct (F s Hs) as (t' & Et' & [F1 F2] & Tr & Af).
  rewrite (LibPy.dget_dset Nat.eqb eqb_ok). destruct (Nat.eqb_spec s0 s) as [->|n]; [|exists t'; split; [exact Et'|split; [split; assumption|split; assumption]]].
  unfold lookup in Et. rewrite Et' in Et. apply Ret_inj in Et; subst t'. eexists. split; [reflexivity|]. split; [split|split; [exact Tr|]].
  - cbn [bn_affine]. intros w1 b1 E1. injection E1 as <- <-. destruct (F1 w0 b0 Ea). lia.
  - exact F2.
  - cbn [bn_affine]. rewrite Ea in Af. split; [discriminate|]. intros Ef. apply Af in Ef. discriminate.
Qed.
Lemma ireset_fits : forall ft affine track st, ifits size ft affine track st -> ifits size ft affine track (ibn_reset_running_stats st).
Proof.
  intros ft affine track st F s Hs. destruct (F s Hs) as (t & Et & [F1 F2] & Tr & Af). unfold ibn_reset_running_stats.
  exists {| bn_affine := bn_affine t; bn_stats := match bn_stats t with Some (ms, vs, _) => Some (map (fun _ => 0) ms, map (fun _ => 1) vs, 0%nat) | None => None end |}.
  split; [|split; [split|split]].
  - revert Et. generalize st as d. induction d as [|[q u] d IH]; cbn [map dget fst snd]; [discriminate|]. destruct (Nat.eqb q s); [|exact IH]. intros E; injection E as ->; reflexivity.
  - exact F1.
  - cbn [bn_stats]. destruct (bn_stats t) as [[[ms vs] k]|]; [|discriminate]. intros ms' vs' k' E. injection E as <- <- _. rewrite !map_length. apply (F2 ms vs k eq_refl).
  - cbn [bn_stats]. destruct (bn_stats t) as [[[ms vs] k]|]; [|exact Tr]. split; [discriminate|]. intros E. apply Tr in E. discriminate.
  - exact Af.
Qed.
(** the module as it is called *)
Definition icall (m : ibn_module (A := A)) (spatial : nat) (junk : gtensor A chan -> list chan) (t : bool) (N : nat) (st : ibn_state) (x : gtensor A chan) :=
  ibn_forward size teqb m t spatial st (junk x) x.
Notation irun m spatial junk := (run (icall m spatial junk) ibn_set ibn_reset_running_stats).

Theorem ibn_histories : forall ft dim affine track eps mom m st0 junk, Forall (fun r => (0 < size r)%nat) ft -> teqb ft ft = true ->
  mk_ibn size supported dim affine track eps mom ft = Ret (m, st0) -> (1 <= dim)%nat -> (forall x, length (junk x) = type_size size ft) ->
  forall (rho : nat -> nat -> A -> mat) (pi : nat -> nat -> nat), (forall k p r, In r ft -> permutes (size r) (rho k p r)) ->
  forall h h', length h' = length h ->
  (forall k e, nth_error h k = Some e -> match e with
     | Call t N x => ((t = true \/ track = false) -> forall r, In r ft -> (1 < size r * N)%nat) /\ g_type x = ft /\ reorders N (pi k) /\
         exists x', nth_error h' k = Some (Call t N x') /\ g_type x' = ft /\ moved_batch size ft N (rho k) (pi k) (g_chans x) (g_chans x')
     | _ => nth_error h' k = Some e end) ->
  forall st ys, irun m dim junk st0 h = Ret (st, ys) ->
  exists ys', irun m dim junk st0 h' = Ret (st, ys') /\
    forall k t N x, nth_error h k = Some (Call t N x) -> exists y y', nth_error ys k = Some (Some y) /\ nth_error ys' k = Some (Some y') /\
      g_type y = ft /\ g_type y' = ft /\ moved_batch size ft N (rho k) (pi k) (g_chans y) (g_chans y').
Proof.
  intros ft dim affine track eps mom m st0 junk P Te Em Hdim Lj rho pi O h h' L H st ys Er.
  destruct (imk_fine size supported ft P dim affine track eps mom m st0 Em) as (Tm & Ed & Ee & Emo & Fm & F0 & Hd3).
  destruct (run_pair (icall m dim junk) ibn_set ibn_reset_running_stats (ifits size ft affine track) (enough size ft track)
    (fun k N x y => reorders N (pi k) /\ g_type x = ft /\ g_type y = ft /\ moved_batch size ft N (rho k) (pi k) (g_chans x) (g_chans y)) h h' 0)
    with (st := st0) (r := (st, ys)) as (ys' & Er' & Hy).
  - intros k t N s x x' F HN (R & Tx & Tx' & M). unfold icall.
    destruct (step_moved_inner size teqb ft P m Tm Fm dim (conj Ed (conj Hdim Hd3)) affine track t N (rho k) (pi k) s (junk x) (junk x') x x' F Te HN R (fun p r _ Hr => O k p r Hr) (Lj x) (Lj x') Tx Tx' M)
      as (s' & z & z' & E1 & E2 & F' & T1 & T2 & M').
    exists s', z, z'. auto 8.
  - intros w s s'. apply iset_fits.
  - apply ireset_fits.
  - exact L.
  - intros k e Ek. specialize (H k e Ek). destruct e as [t N x| |]; try exact H. destruct H as (HN & Tx & R & x' & Ex' & Tx' & M). split; [exact HN|].
    exists x'. cbn [Nat.add]. auto.
  - exact F0.
  - exact Er.
  - exists ys'. split; [exact Er'|]. intros k t N x Ek. destruct (Hy k t N x Ek) as (y & y' & H1 & H2 & _ & H3 & H4 & H5). exists y, y'. auto.
Qed.

Lemma irun_fits : forall ft (m : ibn_module (A := A)) dim affine track junk h st r, Forall (fun q => (0 < size q)%nat) ft -> ib_type m = ft -> fine size ft (ib_buffers m) (ib_order m) -> teqb ft ft = true ->
  ib_dim m = dim -> (1 <= dim <= 3)%nat -> (forall x, length (junk x) = type_size size ft) ->
  ifits size ft affine track st -> (forall t N x, In (Call t N x) h -> enough size ft track t N /\ g_type x = ft /\ batch size ft N (g_chans x)) ->
  irun m dim junk st h = Ret r -> ifits size ft affine track (fst r).
Proof.
  intros ft m dim affine track junk h st r P Tm Fm Te Ed Hd Lj. revert st r. induction h as [|e h IH]; intros st r F H E; cbn [run] in E; [apply Ret_inj in E; subst r; exact F|].
  apply bind_Ret in E. destruct E as (a & Ea & E). apply bind_Ret in E. destruct E as (q & Eq & E). apply Ret_inj in E; subst r. cbn [fst].
  apply (IH (fst a) q); [|intros; apply H; right; assumption|exact Eq]. destruct e as [t N x|w|].
  - destruct (H t N x (or_introl eq_refl)) as (HN & Tx & Bx). unfold icall in Ea.
    destruct (iforward_ok size teqb ft P m Tm Fm dim (conj Ed Hd) affine track t N st (junk x) x F Te HN Tx Bx (Lj x)) as (out & Ef & _).
    rewrite Ef in Ea. cbn [bind] in Ea. apply Ret_inj in Ea; subst a. cbn [fst]. apply (iafter_fits size teqb ft m Fm dim (conj Ed Hd) affine track), F.
  - apply bind_Ret in Ea. destruct Ea as (st' & Es & Ea). apply Ret_inj in Ea; subst a. cbn [fst]. eapply iset_fits; eassumption.
  - apply Ret_inj in Ea; subst a. cbn [fst]. apply ireset_fits, F.
Qed.
Lemma map_nth' : forall {X} (f : X -> R) l j a, nth_error l j = Some a -> nth j (map f l) 0 = f a.
Proof. intros X f l j a E. apply nth_error_nth. rewrite nth_error_map, E. reflexivity. Qed.

Theorem ibn_value : forall ft dim affine track eps mom m st0 junk, Forall (fun r => (0 < size r)%nat) ft -> teqb ft ft = true ->
  mk_ibn size supported dim affine track eps mom ft = Ret (m, st0) -> (1 <= dim)%nat -> (forall x, length (junk x) = type_size size ft) ->
  forall h st ys, (forall t N x, In (Call t N x) h -> ((t = true \/ track = false) -> forall r, In r ft -> (1 < size r * N)%nat) /\ g_type x = ft /\ batch size ft N (g_chans x)) ->
  irun m dim junk st0 h = Ret (st, ys) ->
  forall (t : bool) N x, ((t = true \/ track = false) -> forall r, In r ft -> (1 < size r * N)%nat) -> g_type x = ft -> batch size ft N (g_chans x) ->
  exists st' y, ibn_forward size teqb m t dim st (junk x) x = Ret (st', y) /\ g_type y = ft /\ batch size ft N (g_chans y) /\
    forall i s j, rank size ft i s j ->
      let v := field_chans size ft (g_chans x) i in
      let mu := total N v / (INR s * INR N) in
      exists b b' w c mu' var, dget Nat.eqb st s = Some b /\ dget Nat.eqb st' s = Some b' /\ bn_affine b' = bn_affine b /\
        (w, c) = match bn_affine b with Some (ws, cs) => (nth j ws 0, nth j cs 0) | None => (1, 0) end /\
        field_chans size ft (g_chans y) i = map (map (fun a => (a - mu') / sqrt (var + eps) * w + c)) v /\
        match bn_stats b with
        | None => bn_stats b' = None /\ mu' = mu /\ var = scatter N mu v / (INR s * INR N)
        | Some (ms, vs, k) =>
            if t then mu' = mu /\ var = scatter N mu v / (INR s * INR N) /\ exists ms' vs', bn_stats b' = Some (ms', vs', S k) /\
              let f := match mom with Some f => f | None => 1 / INR (S k) end in
              nth j ms' 0 = towards f (nth j ms 0) mu /\ nth j vs' 0 = towards f (nth j vs 0) (scatter N mu v / (INR s * INR N - 1))
            else b' = b /\ mu' = nth j ms 0 /\ var = nth j vs 0
        end.
Proof.
  intros ft dim affine track eps mom m st0 junk P Te Em Hdim Lj h st ys Hh Er t N x En Tx B.
  destruct (imk_fine size supported ft P dim affine track eps mom m st0 Em) as (Tm & Ed & Ee & Emo & Fm & F0 & Hd3).
  assert (ifits size ft affine track st) as F by (exact (irun_fits ft m dim affine track junk h st0 (st, ys) P Tm Fm Te Ed (conj Hdim Hd3) Lj F0 Hh Er)).
  destruct (iforward_ok size teqb ft P m Tm Fm dim (conj Ed (conj Hdim Hd3)) affine track t N st (junk x) x F Te En Tx B (Lj x)) as (out & Ef & Lo & Ho).
  pose proof B as (Lx & Fx).
  exists (iafter size ft m t st (g_chans x)), {| g_type := ft; g_chans := out |}. cbn [g_type g_chans].
  split; [exact Ef|]. split; [reflexivity|]. split; [split; [exact Lo|]|].
  - apply (Forall_fields size ft _ out Lo). intros i r E. destruct (rank_exists size ft i r E) as [j Hj]. destruct (Ho _ _ _ Hj) as (b & _ & ->). apply Forall_forall. intros c Hc.
    apply in_map_iff in Hc. destruct Hc as (c' & <- & Hc'). rewrite map_length. pose proof (field_Forall size ft _ _ i r Lx Fx E) as Fi.
    rewrite Forall_forall in Fi. apply Fi, Hc'.
  - intros i s j Hj. set (v := field_chans size ft (g_chans x) i). set (mu := total N v / (INR s * INR N)). assert (In i (labelled Nat.eqb (map size ft) s)) as Hin by (unfold rank in Hj; apply nth_error_In in Hj; exact Hj).
    destruct (label_field size Nat.eqb eqb_ok ft (map size ft) (fun s => s) (map_length size ft) (sizes_ok size ft) s i Hin) as (r & El & E & Es).
    assert (In s (map size ft)) as Hs by (apply nth_error_In in El; exact El).
    pose proof (field_Forall size ft _ _ i r Lx Fx E) as Fi. fold v in Fi.
    assert (length v = s) as Lv by (unfold v; rewrite (field_chans_length size ft _ i r Lx E); exact Es).
    assert (mean (concat v) = mu) as Emu by (rewrite (mean_total N v Fi), Lv; reflexivity).
    assert (INR (length (concat v)) = INR s * INR N) as El' by (rewrite (length_concat N v Fi), Lv, mult_INR; reflexivity).
    assert (biased_var (concat v) = scatter N mu v / (INR s * INR N)) as Eb by (unfold biased_var; rewrite (deviation_scatter N v Fi), Emu, El'; reflexivity).
    destruct (Ho _ _ _ Hj) as (b & Ebd & Hf). fold v in Hf. pose proof (iafter_dget size ft m Fm t st (g_chans x) s Hs) as Ed'. rewrite Ebd in Ed'.
    set (b' := next_bn (ib_momentum m) t b (map (field_chans size ft (g_chans x)) (labelled Nat.eqb (map size ft) s))) in *.
    exists b, b', (fst (affine_of b j)), (snd (affine_of b j)).
    unfold field_fn in Hf. destruct (affine_of b j) as [w c] eqn:Eaf. rewrite Ee, Emu, Eb in Hf.
    assert (bn_affine b' = bn_affine b) as Ea by apply next_affine.
    assert ((w, c) = match bn_affine b with Some (ws, cs) => (nth j ws 0, nth j cs 0) | None => (1, 0) end) as Ewc by (rewrite <- Eaf; reflexivity).
    destruct (F s Hs) as (b0 & Eb0 & [_ F2] & _ & _). assert (b0 = b) by congruence; subst b0. cbn [fst snd].
    unfold b', next_bn in *. destruct (bn_stats b) as [[[ms vs] k]|] eqn:Est; destruct t.
    + exists mu, (scatter N mu v / (INR s * INR N)). do 5 (split; [assumption|]). split; [reflexivity|]. split; [reflexivity|].
      destruct (F2 ms vs k eq_refl) as [L1 L2]. eexists; eexists. split; [reflexivity|]. cbn beta zeta. rewrite !map_map. unfold blend, average_factor. rewrite Emo.
      assert (j < length (labelled Nat.eqb (map size ft) s))%nat as Hjl by (apply nth_error_Some; unfold rank in Hj; congruence).
      rewrite !(nth_combine_map _ _ _ j 0 0) by (rewrite map_length; lia). cbn [fst snd].
      rewrite (map_nth' (fun i => mean (concat (field_chans size ft (g_chans x) i))) _ j i Hj), (map_nth' (fun i => unbiased_var (concat (field_chans size ft (g_chans x) i))) _ j i Hj).
      fold v. rewrite Emu. unfold unbiased_var. rewrite (deviation_scatter N v Fi), Emu.
      assert (1 < length (concat v))%nat as H1.
      { rewrite (length_concat N v Fi), Lv, <- Es. apply En; [left; reflexivity|]. apply nth_error_In in E; exact E. }
      rewrite minus_INR by lia. rewrite El'. change (INR 1) with 1. unfold towards. split; ring.
    + exists (nth j ms 0), (nth j vs 0). do 5 (split; [assumption|]). auto.
    + exists mu, (scatter N mu v / (INR s * INR N)). do 5 (split; [assumption|]). split; [assumption|]. auto.
    + exists mu, (scatter N mu v / (INR s * INR N)). do 5 (split; [assumption|]). split; [assumption|]. auto.
Qed.

(** tensors without spatial axes *)
Theorem ibn_no_points : forall ft dim affine track eps mom m st0, ft <> [] -> Forall (fun r => (0 < size r)%nat) ft ->
  mk_ibn size supported dim affine track eps mom ft = Ret (m, st0) ->
  forall t st junk x, ibn_forward size teqb m t 0 st junk x = Raise.
Proof.
  intros ft dim affine track eps mom m st0 Nf P Em t st junk x.
  destruct (imk_fine size supported ft P dim affine track eps mom m st0 Em) as (Tm & Ed & Ee & Emo & (ND & Io & _) & F0 & Hd3).
  unfold ibn_forward. destruct (teqb (g_type x) (ib_type m)); [|reflexivity]. cbn [assert_ bind].
  destruct (ib_order m) as [|s order] eqn:Eo.
  - destruct ft as [|r ft']; [congruence|]. exfalso. apply (proj2 (Io (size r))). left; reflexivity.
  - cbn [grouped_loop]. destruct (lookup Nat.eqb (ib_buffers m) s) as [|c]; [reflexivity|]. cbn [bind]. destruct (read (g_chans x) c) as [|fm]; [reflexivity|]. cbn [bind].
    assert (inner_group size m t 0 st s fm = Raise) as ->; [|reflexivity].
    unfold inner_group. destruct (lookup Nat.eqb st s) as [|b]; [reflexivity|]. cbn [bind]. destruct (view s fm) as [|l]; [reflexivity|]. cbn [bind].
    rewrite Ed. destruct dim as [|[|[|[|]]]]; try lia; reflexivity.
Qed.
End I.
