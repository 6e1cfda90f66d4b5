(** FieldNorm: its values, its histories and its resets. *)
From Coq Require Import Reals List ZArith Arith Bool Lia Lra Permutation.
From Verif Require Import LibRes LibPy LibMat LibMatS FieldModel SpecField FieldProofs BranchProofs LabelThms MergeThms GroupedModel GroupedProofs NonlinModel SpecNonlin NonlinProofs PoolModel ImageModel BatchNormModel SpecBatch BatchNormProofs BatchThms NormBNThms FNormModel SpecFNorm KeyedProofs FNormProofs NamedProofs.
From Verif Require IIDThms.
Import ListNotations.
Open Scope R_scope.

(** a number for every point *)
Lemma weigh_rect : forall (h : R -> R) n N vars v, length vars = N -> rect n N v ->
  rect n N (map (fun c => map (fun p => fst p * h (snd p)) (List.combine c vars)) v) /\
  forall c p, (c < n)%nat -> (p < N)%nat -> ent (map (fun c => map (fun p => fst p * h (snd p)) (List.combine c vars)) v) c p = ent v c p * h (nth p vars 0).
Proof.
  intros h n N vars v Lv [L F]. split.
  - split; [rewrite map_length; exact L|]. apply Forall_forall. intros c Hc. apply in_map_iff in Hc. destruct Hc as (d & <- & Hd). rewrite Forall_forall in F.
    rewrite map_length, combine_length, (F d Hd). lia.
  - intros c p Hc Hp. unfold ent. set (W := fun c : chan => map (fun p0 => fst p0 * h (snd p0)) (List.combine c vars)).
    rewrite (nth_indep (map W v) [] (W [])) by (rewrite map_length; lia). rewrite map_nth. unfold W.
    assert (length (nth c v []) = N) as Lc by (apply (rect_chan n N v c); [split; assumption|exact Hc]).
    rewrite (nth_indep _ 0 ((fun p0 => fst p0 * h (snd p0)) (0, 0))) by (rewrite map_length, combine_length; lia).
    rewrite (map_nth (fun p0 => fst p0 * h (snd p0))), combine_nth by lia. reflexivity.
Qed.

Section FieldNorm.
Context {A L : Type}.
Variable size : A -> nat.
Variable name : A -> L.
Variable irreps : A -> list (nat * bool).
Variable cob inv : A -> mat.
Variable leqb : L -> L -> bool.
Hypothesis leqb_ok : forall a b, leqb a b = true <-> a = b.
Variable teqb : list A -> list A -> bool.
Variable ft uniq : list A.
Hypothesis Pos : Forall (fun r => (0 < size r)%nat) ft.
Hypothesis Lu : listing ft uniq.
Hypothesis Na : named_apart name ft.
Hypothesis Iok : forall r, In r ft -> irreps_ok (irreps r) (size r).
Hypothesis Teq : teqb ft ft = true.
Variable affine : bool.
Variable eps : R.
Variable m : fn_module (A := A) (L := L).
Variable st0 : list (L * fn_params).
Hypothesis Em : mk_fn size name irreps cob inv leqb affine eps ft uniq = Ret (m, st0).
Variable junk : gtensor A chan -> list chan.
Hypothesis Lj : forall x, length (junk x) = type_size size ft.
Notation lab := (labelled leqb (map name ft)).
Notation fields x s := (map (field_chans size ft x) (lab s)).
Notation info := (iid_info_of size irreps cob inv).
Notation ntriv r := (length (trivials 0 (irreps r))).
Notation call := (fun t N st x => fn_call size leqb teqb m t N st (junk x) x).

Definition fits_group (r : A) (g : fn_params) : Prop :=
  match fp_weight g with Some w => affine = true /\ length w = length (lab (name r)) | None => affine = false end /\
  match fp_bias g with Some b => affine = true /\ ntriv r <> 0%nat /\ length b = length (lab (name r)) /\ Forall (fun row => length row = ntriv r) b
                  | None => affine = false \/ ntriv r = 0%nat end.
Definition fits (st : list (L * fn_params)) : Prop := forall r, In r ft -> exists g, dget leqb st (name r) = Some g /\ fits_group r g.

Lemma mk_ok : exists b, buffers size leqb ft (map name ft) = Ret b /\ fm_type m = ft /\ fm_bufs m = b /\ fm_sizes m = map (fun r => (name r, size r)) uniq /\
  (forall r, In r ft -> lookup leqb (fm_info m) (name r) = Ret (info r)) /\ fm_eps m = eps /\
  (forall r, In r ft -> dget leqb st0 (name r) = Some (fn_start affine (length (lab (name r))) (info r))).
Proof.
  unfold mk_fn in Em. pose proof Em as E. apply bind_Ret in E. destruct E as (b & Eb & E). apply Ret_inj in E. injection E as <- <-.
  exists b. split; [exact Eb|]. cbn [fm_type fm_bufs fm_sizes fm_info fm_eps]. repeat split; try reflexivity.
  - intros r Hr. unfold lookup. rewrite (named_get name leqb leqb_ok ft uniq Lu Na info [] r Hr). reflexivity.
  - intros r Hr. rewrite (named_get name leqb leqb_ok ft uniq Lu Na (fun r => fn_start affine (nfields leqb (map name ft) (name r)) (info r)) [] r Hr). rewrite nfields_labelled. reflexivity.
Qed.
Lemma start_fits : forall r, fits_group r (fn_start affine (length (lab (name r))) (info r)).
Proof.
  intros r. unfold fits_group, fn_start. cbn [fp_weight fp_bias]. clear Em. split.
  - destruct affine; [split; [reflexivity|apply repeat_length]|reflexivity].
  - destruct affine; cbn [andb]; [|left; reflexivity]. destruct (has_trivial (info r)) eqn:H; [|right; apply (IIDThms.has_false _ _ _ _ _ H)]. split; [reflexivity|].
    split; [apply (IIDThms.has_true _ _ _ _ _ H)|].
    split; [apply repeat_length|]. apply Forall_forall. intros row Hrow. apply repeat_spec in Hrow. subst row. apply repeat_length.
Qed.
Lemma fits0 : fits st0.
Proof. intros r Hr. destruct mk_ok as (b & _ & _ & _ & _ & _ & _ & H). eexists. split; [apply H, Hr|]. apply start_fits. Qed.

(** one field *)
Definition bias_row (r : A) (g : fn_params) (j c : nat) : R := match fp_bias g with Some b => along (irreps r) (cob r) (size r) (nth j b []) c | None => 0 end.
Definition weight_at (g : fn_params) (j : nat) : R := match fp_weight g with Some w => nth j w 0 | None => 1 end.
Notation cen r v p := (centred (irreps r) (cob r) (inv r) (size r) v p).
Lemma field_ok : forall r N g j v, In r ft -> rect (size r) N v ->
  rect (size r) N (fn_field m N (info r) g j v) /\
  forall c p, (c < size r)%nat -> (p < N)%nat -> ent (fn_field m N (info r) g j v) c p =
    cen r v p c * (weight_at g j / sqrt (mean_square (size r) (cen r v p) + eps)) + bias_row r g j c.
Proof.
  intros r N g j v Hr R. destruct mk_ok as (_ & _ & _ & _ & _ & _ & Ee & _). unfold fn_field, bias_row. fold (weight_at g j). cbn [iid_info_of ii_size ii_avg].
  set (c0 := if has_trivial (info r) then minus v (mix (size r) N (mmul (size r) (mmul (size r) (cob r) (mask (trivials 0 (irreps r)))) (inv r)) v) else v).
  assert (rect (size r) N c0 /\ forall c p, (c < size r)%nat -> (p < N)%nat -> ent c0 c p = cen r v p c) as [Rc Kc].
  { unfold c0, centred. destruct (has_trivial (info r)) eqn:H.
    - destruct (mix_rect (size r) N (mmul (size r) (mmul (size r) (cob r) (mask (trivials 0 (irreps r)))) (inv r)) v) as [Rm Km]. destruct (minus_rect (size r) N v _ R Rm) as [Rr Kr].
      split; [exact Rr|]. intros c p Hc Hp. rewrite Kr, Km by assumption. rewrite (avg_matrix (irreps r) (size r) (cob r) (inv r) (fun d => ent v d p) c (Iok r Hr) Hc). reflexivity.
    - split; [exact R|]. intros c p Hc Hp. rewrite (IIDThms.fixed_none size irreps cob inv ft Iok r _ c Hr (IIDThms.has_false _ _ _ _ _ H)). ring. }
  set (vars := map (fun p => mean (map (fun c => square (nth p c 0)) c0)) (seq 0 N)).
  assert (length vars = N) as Lv by (unfold vars; rewrite map_length, seq_length; reflexivity).
  assert (forall p, (p < N)%nat -> nth p vars 0 = mean_square (size r) (cen r v p)) as Ev.
  { intros p Hp. unfold vars. rewrite (nth_seq_map _ N p 0 Hp). unfold mean, mean_square. rewrite map_length. destruct Rc as [Lc Fc]. rewrite Lc. f_equal.
    rewrite (rsum_list _ []), Lc. apply sumn_ext. intros c Hc. unfold square. change (nth p (nth c c0 []) 0) with (ent c0 c p). rewrite Kc by assumption. reflexivity. }
  destruct (weigh_rect (fun a => weight_at g j / sqrt (a + fm_eps m)) (size r) N vars c0 Lv Rc) as [Rs Ks]. rewrite Ee in *.
  destruct (fp_bias g) as [b|].
  - destruct (shift_rect (size r) N (lin (size r) (ii_trivials (info r)) (ii_cob (info r)) (nth j b [])) _ (lin_length _ _ _ _) Rs) as [Rr Kr]. split; [exact Rr|].
    intros c p Hc Hp. cbn [iid_info_of ii_trivials ii_cob] in *. rewrite Kr, Ks, Kc, Ev by assumption. f_equal. rewrite lin_nth by exact Hc. apply bias_matrix, Iok, Hr.
  - split; [exact Rs|]. intros c p Hc Hp. rewrite Ks, Kc, Ev by assumption. ring.
Qed.

Lemma forward_ok : forall N st j0 x, fits st -> g_type x = ft -> batch size ft N (g_chans x) -> length j0 = type_size size ft ->
  exists y, fn_forward size leqb teqb m N st j0 x = Ret y /\ g_type y = ft /\ batch size ft N (g_chans y) /\
    forall i r j, nth_error ft i = Some r -> named_rank leqb name ft i (name r) j -> exists g, dget leqb st (name r) = Some g /\ fits_group r g /\
      field_chans size ft (g_chans y) i = fn_field m N (info r) g j (field_chans size ft (g_chans x) i).
Proof.
  intros N st j0 x F Tx B Lj0. destruct mk_ok as (b & Eb & Et & Ebuf & Es & Hi & _). unfold fn_forward. rewrite Tx, Et, Teq. cbn [assert_ bind]. rewrite Ebuf, Es.
  assert (length (g_chans x) = type_size size ft) as Lx by apply B.
  set (G := fun r => match dget leqb st (name r) with Some g => g | None => fn_start affine 0 (info r) end).
  set (Ws := fun r => mapi (fn_field m N (info r) (G r)) 0 (fields (g_chans x) (name r))).
  assert (forall r, In r ft -> exists g, dget leqb st (name r) = Some g /\ fits_group r g /\ G r = g) as HG.
  { intros r Hr. destruct (F r Hr) as (g & Eg & Fg). exists g. unfold G. rewrite Eg. auto. }
  assert (forall r i j, In r ft -> nth_error ft i = Some r -> named_rank leqb name ft i (name r) j -> nth j (Ws r) [] = fn_field m N (info r) (G r) j (field_chans size ft (g_chans x) i)) as Hw.
  { intros r i j Hr Er Rk. destruct (IIDThms.fields_nth size name leqb ft (g_chans x) r j i Rk) as [Ef Hj]. unfold Ws. rewrite mapi_imap.
    rewrite (IIDThms.imap_at _ _ 0 j [] []) by (rewrite map_length; exact Hj). rewrite Ef, Nat.add_0_l. reflexivity. }
  destruct (named_loop size name leqb leqb_ok ft uniq Pos Lu Na b Eb (fn_group leqb m N) G Ws (g_chans x) st j0 Lx Lj0) as (out & Eo & Lo & Ho).
  { intros r Hr. destruct (HG r Hr) as (g & Eg & Fg & EG). exists g. split; [exact Eg|].
    split; [unfold fn_group; rewrite (Hi r Hr); cbn [bind]; unfold Ws; rewrite EG; reflexivity|].
    assert (length (Ws r) = length (lab (name r))) as LW by (unfold Ws; rewrite mapi_imap, imap_length, map_length; reflexivity). split; [exact LW|].
    apply Forall_forall. intros w Hw'. apply In_nth with (d := []) in Hw'. destruct Hw' as (j & Hj & <-). rewrite LW in Hj.
    destruct (IIDThms.lab_field name leqb leqb_ok ft Na r j Hr Hj) as [Ei Rk]. rewrite (Hw r _ j Hr Ei Rk). apply (field_ok r N); [exact Hr|apply field_rect; assumption]. }
  rewrite Eo. cbn [bind fst snd]. unfold mk_gtensor. rewrite Lo, Nat.eqb_refl. cbn [assert_ bind].
  eexists. split; [reflexivity|]. cbn [g_type g_chans]. split; [reflexivity|]. split.
  - apply batch_fields; [exact Lo|]. intros i r Er. destruct (rank_of name leqb leqb_ok ft i r Er) as (j & Rk).
    assert (In r ft) as Hr by (apply nth_error_In in Er; exact Er). rewrite (Ho i r j Er Rk), (Hw r i j Hr Er Rk). apply (field_ok r N); [exact Hr|apply field_rect; assumption].
  - intros i r j Er Rk. assert (In r ft) as Hr by (apply nth_error_In in Er; exact Er). destruct (HG r Hr) as (g & Eg & Fg & EG). exists g. split; [exact Eg|]. split; [exact Fg|].
    rewrite (Ho i r j Er Rk), (Hw r i j Hr Er Rk), EG. reflexivity.
Qed.

Lemma set_fits : forall u st st', fits st -> fn_set leqb u st = Ret st' -> fits st'.
Proof.
  intros u st st' F E. unfold fn_set in E. apply bind_Ret in E. destruct E as (g & Eg & E). unfold lookup in Eg. destruct (dget leqb st (fst u)) as [g'|] eqn:Eg'; [|discriminate].
  apply Ret_inj in Eg. subst g'. destruct (fp_weight g) as [w|] eqn:Ew; [|discriminate]. apply assert_Ret in E. destruct E as [E1 E]. apply assert_Ret in E. destruct E as [E2 E].
  apply Ret_inj in E. subst st'. intros r Hr. rewrite (LibPy.dget_dset leqb leqb_ok). destruct (F r Hr) as (g0 & E0 & F0). destruct (leqb (fst u) (name r)) eqn:Q; [|exists g0; auto].
  apply leqb_ok in Q. rewrite Q, E0 in Eg'. injection Eg' as ->. destruct F0 as (Fw & Fb). rewrite Ew in Fw. destruct Fw as [Fa Fw]. apply Nat.eqb_eq in E1.
  eexists. split; [reflexivity|]. unfold fits_group. cbn [fp_weight fp_bias]. split; [split; [exact Fa|lia]|].
  destruct (fp_bias g) as [b|], (snd (snd u)) as [b'|]; try discriminate.
  - destruct Fb as (_ & Nt & Lb & Fb). destruct (IIDThms.same_rows_ok b b' _ E2 Fb) as [L' F']. repeat split; try assumption. lia.
  - exact Fb.
Qed.
Lemma dget_map_snd : forall (h : fn_params -> fn_params) (d : list (L * fn_params)) s, dget leqb (map (fun e => (fst e, h (snd e))) d) s = option_map h (dget leqb d s).
Proof. intros h d s. induction d as [|[k g] d IH]; cbn [map dget fst snd]; [reflexivity|]. destruct (leqb k s); [reflexivity|exact IH]. Qed.
Lemma map_const : forall {X} (a : R) (l : list X), map (fun _ => a) l = repeat a (length l).
Proof. intros X a l. induction l as [|x l IH]; cbn; [|rewrite IH]; reflexivity. Qed.
Lemma reset_start : forall st r, fits st -> In r ft -> dget leqb (fn_reset_parameters st) (name r) = Some (fn_start affine (length (lab (name r))) (info r)).
Proof.
  intros st r F Hr. destruct (F r Hr) as (g & Eg & Fw & Fb). unfold fn_reset_parameters.
  rewrite (dget_map_snd (fun g => {| fp_weight := option_map (map (fun _ => 1)) (fp_weight g); fp_bias := option_map (map (map (fun _ => 0))) (fp_bias g) |})), Eg. cbn [option_map]. f_equal.
  unfold fn_start. f_equal.
  - destruct (fp_weight g) as [w|]; cbn [option_map].
    + destruct Fw as [-> Lw]. rewrite map_const, Lw. reflexivity.
    + rewrite Fw. reflexivity.
  - destruct (fp_bias g) as [b|]; cbn [option_map].
    + destruct Fb as (-> & Nt & Lb & Fb). cbn [andb]. destruct (has_trivial (info r)) eqn:Hq; [|exfalso; apply Nt, (IIDThms.has_false _ _ _ _ _ Hq)]. f_equal.
      rewrite <- Lb. cbn [iid_info_of ii_trivials]. clear - Fb. induction Fb as [|row b Hrow Fb IH]; cbn [map repeat length]; [reflexivity|]. rewrite IH, map_const, Hrow. reflexivity.
    + destruct affine; cbn [andb]; [|reflexivity]. destruct Fb as [Fb|Fb]; [discriminate|]. destruct (has_trivial (info r)) eqn:Hq; [|reflexivity].
      exfalso. apply (IIDThms.has_true _ _ _ _ _ Hq), Fb.
Qed.
Lemma reset_fits : forall st, fits st -> fits (fn_reset_parameters st).
Proof. intros st F r Hr. eexists. split; [apply reset_start; assumption|]. apply start_fits. Qed.
Lemma call_fits : forall (t : bool) N st x st' y, fits st -> call t N st x = Ret (st', y) -> fits st'.
Proof. intros t N st x st' y F E. unfold fn_call in E. apply bind_Ret in E. destruct E as (z & _ & E). apply Ret_inj in E. injection E as <- _. exact F. Qed.
Lemma reached : forall h st ys, run call (fn_set leqb) fn_reset_parameters st0 h = Ret (st, ys) -> fits st.
Proof.
  intros h st ys E. apply (run_fits call (fn_set leqb) fn_reset_parameters fits (fun _ _ _ => True) h) with (st := st0) (ys := ys); try assumption.
  - intros t N s x s' y F _ E'. apply (call_fits t N s x s' y F E').
  - intros u s s' F E'. apply (set_fits u s s' F E').
  - intros s F. apply reset_fits; assumption.
  - intros; exact I.
  - exact fits0.
Qed.

(** ** The theorems *)
Theorem fn_value : forall h st ys, run call (fn_set leqb) fn_reset_parameters st0 h = Ret (st, ys) ->
  forall (t : bool) N x, g_type x = ft -> batch size ft N (g_chans x) ->
  exists y, call t N st x = Ret (st, y) /\ g_type y = ft /\ batch size ft N (g_chans y) /\
    forall i r j, nth_error ft i = Some r -> named_rank leqb name ft i (name r) j -> exists g, dget leqb st (name r) = Some g /\
      forall c p, (c < size r)%nat -> (p < N)%nat ->
        let u := centred (irreps r) (cob r) (inv r) (size r) (field_chans size ft (g_chans x) i) p in
        ent (field_chans size ft (g_chans y) i) c p =
          u c * (match fp_weight g with Some w => nth j w 0 | None => 1 end / sqrt (mean_square (size r) u + eps)) +
          match fp_bias g with Some b => along (irreps r) (cob r) (size r) (nth j b []) c | None => 0 end.
Proof.
  intros h st ys E t N x Tx B. pose proof (reached h st ys E) as F. destruct (forward_ok N st (junk x) x F Tx B (Lj x)) as (y & Ey & Ty & By & Hy).
  exists y. unfold fn_call. rewrite Ey. cbn [bind]. split; [reflexivity|]. split; [exact Ty|]. split; [exact By|]. intros i r j Er Rk.
  destruct (Hy i r j Er Rk) as (g & Eg & Fg & Ef). exists g. split; [exact Eg|]. intros c p Hc Hp. assert (In r ft) as Hr by (apply nth_error_In in Er; exact Er).
  rewrite Ef. exact (proj2 (field_ok r N g j _ Hr (field_rect size ft N _ i r B Er)) c p Hc Hp).
Qed.
Theorem fn_resets : forall h st ys, run call (fn_set leqb) fn_reset_parameters st0 h = Ret (st, ys) ->
  forall r, In r ft -> exists g0, dget leqb (fn_reset_parameters st) (name r) = Some g0 /\ dget leqb st0 (name r) = Some g0.
Proof.
  intros h st ys E r Hr. eexists. split; [apply reset_start; [apply (reached h st ys E)|exact Hr]|]. destruct mk_ok as (_ & _ & _ & _ & _ & _ & _ & H). apply H, Hr.
Qed.

Hypothesis Inv : forall r, In r ft -> inverse_of (size r) (cob r) (inv r).
(** a field of trivial irreps is replaced by its bias *)
Theorem fn_trivial : forall h st ys, run call (fn_set leqb) fn_reset_parameters st0 h = Ret (st, ys) ->
  forall (t : bool) N x, g_type x = ft -> batch size ft N (g_chans x) ->
  exists y, call t N st x = Ret (st, y) /\
    forall i r j, nth_error ft i = Some r -> named_rank leqb name ft i (name r) j -> Forall (fun e => snd e = true) (irreps r) -> exists g, dget leqb st (name r) = Some g /\
      forall c p, (c < size r)%nat -> (p < N)%nat ->
        ent (field_chans size ft (g_chans y) i) c p = match fp_bias g with Some b => along (irreps r) (cob r) (size r) (nth j b []) c | None => 0 end.
Proof.
  intros h st ys E t N x Tx B. destruct (fn_value h st ys E t N x Tx B) as (y & Ey & _ & _ & Hy). exists y. split; [exact Ey|]. intros i r j Er Rk Tr.
  destruct (Hy i r j Er Rk) as (g & Eg & Hg). exists g. split; [exact Eg|]. intros c p Hc Hp. rewrite (Hg c p Hc Hp). clear Hg.
  assert (In r ft) as Hr by (apply nth_error_In in Er; exact Er).
  assert (forall l n, irreps_ok l n -> Forall (fun e : nat * bool => snd e = true) l -> forall t, (t < n)%nat -> triv l t = true) as K.
  { clear. induction l as [|[s b] l IH]; intros n [Ln F] Ft t Ht; cbn [triv].
    - cbn in Ln. lia.
    - inversion Ft as [|? ? Fb Ft']; subst. cbn [snd] in Fb. subst b. destruct (Nat.ltb_spec t s) as [H|H]; [reflexivity|]. inversion F as [|? ? _ F']; subst.
      apply (IH (list_sum (map fst l)) (conj eq_refl F') Ft'). cbn [map fst list_sum] in Ht. change (t < s + list_sum (map fst l))%nat in Ht. lia. }
  pose proof (K (irreps r) (size r) (Iok r Hr) Tr) as Kt.
  assert (centred (irreps r) (cob r) (inv r) (size r) (field_chans size ft (g_chans x) i) p c = 0) as ->; [|ring].
  unfold centred, fixed_part. set (a := fun d => ent (field_chans size ft (g_chans x) i) d p). change (a c - sumn (size r) (fun t => if triv (irreps r) t then cob r c t * sumn (size r) (fun d => inv r t d * a d) else 0) = 0).
  rewrite (sumn_ext _ _ (fun t => sumn (size r) (fun d => (cob r c t * inv r t d) * a d))).
  2:{ intros t' Ht. rewrite (Kt t' Ht), <- sumn_scal_l. apply sumn_ext. intros d _. ring. }
  rewrite sumn_swap. rewrite (sumn_ext _ _ (fun d => if Nat.eqb d c then a c else 0)); [rewrite (sum_delta (size r) c (a c) Hc); ring|].
  intros d Hd. rewrite sumn_scal_r. destruct (Inv r Hr) as [I1 _]. pose proof (I1 c d Hc Hd) as I. unfold mmul, mid in I. rewrite I. rewrite Nat.eqb_sym. destruct (Nat.eqb_spec d c) as [->|]; ring.
Qed.

Variable rho : nat -> nat -> A -> mat.
Variable pi : nat -> nat -> nat.
Hypothesis Rep : forall k p r, In r ft -> represents (irreps r) (cob r) (inv r) (size r) (rho k p r).
Hypothesis Orth : forall k p r, In r ft -> orthogonal (size r) (rho k p r).
Lemma centred_moved : forall k N x x' i r p c, moved_batch size ft N (rho k) (pi k) x x' -> nth_error ft i = Some r -> (p < N)%nat -> (c < size r)%nat ->
  cen r (field_chans size ft x' i) p c = sumn (size r) (fun d => rho k p r c d * cen r (field_chans size ft x i) (pi k p) d).
Proof.
  intros k N x x' i r p c Mv Er Hp Hc. assert (In r ft) as Hr by (apply nth_error_In in Er; exact Er). destruct (Rep k p r Hr) as (D & HM & _ & Db & Dt). unfold centred.
  rewrite (moved_ent size ft N (rho k) (pi k) x x' i r c p Mv Er Hc Hp).
  rewrite (fixed_part_moved (irreps r) (cob r) (inv r) (size r) (Iok r Hr) (Inv r Hr) (rho k p r) D HM Db Dt (fun d => ent (field_chans size ft x i) d (pi k p))).
  2:{ intros d Hd. apply (moved_ent size ft N (rho k) (pi k) x x' i r d p Mv Er Hd Hp). }
  rewrite (sumn_ext _ (fun d => rho k p r c d * (_ - _)) (fun d => rho k p r c d * ent (field_chans size ft x i) d (pi k p) - rho k p r c d * fixed_part (irreps r) (cob r) (inv r) (size r) (fun d => ent (field_chans size ft x i) d (pi k p)) d)) by (intros; ring).
  rewrite sumn_minus. f_equal. rewrite (sumn_ext _ _ (fun d => rho k p r c d * along (irreps r) (cob r) (size r) (map (fun t => sumn (size r) (fun d => inv r t d * ent (field_chans size ft x i) d (pi k p))) (trivial_channels (irreps r) (size r))) d)).
  2:{ intros d _. rewrite fixed_part_along. reflexivity. }
  rewrite fixed_part_along. symmetry. apply (along_fixed (irreps r) (cob r) (inv r) (size r) (Iok r Hr) (Inv r Hr) (rho k p r) D HM Db Dt _ c Hc).
Qed.
Theorem fn_histories : forall h h', length h' = length h ->
  (forall k e, nth_error h k = Some e -> match e with
     | Call t N x => g_type x = ft /\ reorders N (pi k) /\
         exists x', nth_error h' k = Some (Call t N x') /\ g_type x' = ft /\ moved_batch size ft N (rho k) (pi k) (g_chans x) (g_chans x')
     | _ => nth_error h' k = Some e end) ->
  forall st ys, run call (fn_set leqb) fn_reset_parameters st0 h = Ret (st, ys) ->
  exists ys', run call (fn_set leqb) fn_reset_parameters st0 h' = Ret (st, ys') /\
    forall k t N x, nth_error h k = Some (Call t N x) -> exists y y', nth_error ys k = Some (Some y) /\ nth_error ys' k = Some (Some y') /\
      g_type y = ft /\ g_type y' = ft /\ moved_batch size ft N (rho k) (pi k) (g_chans y) (g_chans y').
Proof.
  intros h h' Ll H st ys E.
  set (rel := fun k (t : bool) N (x x' : gtensor A chan) => g_type x = ft /\ g_type x' = ft /\ reorders N (pi k) /\ moved_batch size ft N (rho k) (pi k) (g_chans x) (g_chans x')).
  destruct (run_pair_mode call (fn_set leqb) fn_reset_parameters fits rel h h' 0) with (st := st0) (r := (st, ys)) as (ys' & Er & Hy).
  - intros k t N s x x' F (Tx & Tx' & Hpi & Mv). pose proof Mv as (B & B' & _).
    destruct (forward_ok N s (junk x) x F Tx B (Lj x)) as (y & Ey & Ty & By & Hfy). destruct (forward_ok N s (junk x') x' F Tx' B' (Lj x')) as (y' & Ey' & Ty' & By' & Hfy').
    exists s, y, y'. unfold fn_call. rewrite Ey, Ey'. cbn [bind]. split; [reflexivity|]. split; [reflexivity|]. split; [exact F|].
    split; [exact Ty|]. split; [exact Ty'|]. split; [exact Hpi|]. apply moved_of_ent; try assumption. intros i r c p Er Hc Hp.
    assert (In r ft) as Hr by (apply nth_error_In in Er; exact Er). destruct (rank_of name leqb leqb_ok ft i r Er) as (j & Rk).
    destruct (Hfy i r j Er Rk) as (g1 & Eg1 & Fg & ->). destruct (Hfy' i r j Er Rk) as (g2 & Eg2 & _ & ->). rewrite Eg1 in Eg2. injection Eg2 as <-.
    pose proof (field_rect size ft N (g_chans x) i r B Er) as Rv. pose proof (field_rect size ft N (g_chans x') i r B' Er) as Rv'.
    rewrite (proj2 (field_ok r N g1 j _ Hr Rv') c p Hc Hp).
    set (v := field_chans size ft (g_chans x) i) in *. set (v' := field_chans size ft (g_chans x') i) in *.
    assert (forall d, (d < size r)%nat -> cen r v' p d = sumn (size r) (fun e => rho k p r d e * cen r v (pi k p) e)) as Ec.
    { intros d Hd. apply (centred_moved k N (g_chans x) (g_chans x') i r p d Mv Er Hp Hd). }
    assert (mean_square (size r) (cen r v' p) = mean_square (size r) (cen r v (pi k p))) as Es.
    { unfold mean_square. f_equal. rewrite <- (sumn_sq_orth (size r) (rho k p r) (cen r v (pi k p)) (Orth k p r Hr)). apply sumn_ext. intros d Hd. rewrite (Ec d Hd). reflexivity. }
    rewrite Es, (Ec c Hc).
    assert (pi k p < N)%nat as Hpp by (destruct Hpi as [P1 _]; apply P1, Hp).
    rewrite (sumn_ext (size r) (fun d => rho k p r c d * ent (fn_field m N (info r) g1 j v) d (pi k p))
      (fun d => (rho k p r c d * cen r v (pi k p) d) * (weight_at g1 j / sqrt (mean_square (size r) (cen r v (pi k p)) + eps)) + rho k p r c d * bias_row r g1 j d)).
    2:{ intros d Hd. rewrite (proj2 (field_ok r N g1 j v Hr Rv) d (pi k p) Hd Hpp). ring. }
    rewrite sumn_plus, sumn_scal_r. f_equal. symmetry. destruct (Rep k p r Hr) as (D & HM & _ & Db & Dt). unfold bias_row. destruct (fp_bias g1) as [b|]; [|apply sumn_0; intros; ring].
    apply (along_fixed (irreps r) (cob r) (inv r) (size r) (Iok r Hr) (Inv r Hr) (rho k p r) D HM Db Dt (nth j b []) c Hc).
  - intros u s s' F E'. apply (set_fits u s s' F E').
  - intros s F. apply reset_fits; assumption.
  - exact Ll.
  - intros k e Ek. specialize (H k e Ek). destruct e as [t N x|w|]; try exact H. destruct H as (Tx & Hpi & x' & E1 & Tx' & Mv). exists x'. split; [exact E1|]. unfold rel; exact (conj Tx (conj Tx' (conj Hpi Mv))).
  - exact fits0.
  - exact E.
  - cbn [fst snd] in Er, Hy. exists ys'. split; [exact Er|]. intros k t N x Ek. destruct (Hy k t N x Ek) as (y & y' & E1 & E2 & (Ty & Ty' & _ & Mv)). exists y, y'. auto.
Qed.
End FieldNorm.
