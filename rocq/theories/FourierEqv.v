(** Equivariance of a module in the Fourier domain under elements that permute its rows. *)
From Coq Require Import Reals String List ZArith Arith Bool Lia Lra Permutation.
From Verif Require Import LibRes LibPy LibMat LibMatS ParamModel FieldModel GroupedModel NonlinModel PoolModel SpecRep IrrepModel RepModel RepProofs SpecRepr
  FieldProofs GroupedProofs NonlinProofs BatchThms SpecField SpecNonlin FourierModel SpecFourier FourierProofs FourierThms FourierCor.
Import ListNotations.
Open Scope R_scope.

Lemma dot_maps : forall {X} (f g : X -> R) l, dot (map f l) (map g l) = lsum (map (fun x => f x * g x) l).
Proof. intros X f g l; unfold dot. f_equal. induction l as [|x l IH]; [reflexivity|]. cbn [map combine fst snd]. rewrite IH; reflexivity. Qed.

Lemma firstn_map_seq : forall {X} (f : nat -> X) a n, (a <= n)%nat -> firstn a (map f (seq 0 n)) = map f (seq 0 a).
Proof.
  intros X f a n L. rewrite firstn_map. f_equal. replace n with (a + (n - a))%nat by lia. rewrite seq_app, firstn_app, seq_length.
  rewrite firstn_all2 by (rewrite seq_length; lia). replace (a - a)%nat with 0%nat by lia. rewrite firstn_O, app_nil_r. reflexivity.
Qed.

Lemma tsize_app : forall {T} (a b : list (girrep T)), tsize (a ++ b) = (tsize a + tsize b)%nat.
Proof. intros; unfold tsize. rewrite map_app, list_sum_app; reflexivity. Qed.

Section Eqv.
Context {T : Type}.
Variables (mem : T -> Prop) (op : T -> T -> res T) (inv : T -> res T) (e : T).
Variable teqb : list (repr T) -> list (repr T) -> bool.
Variables (grid : list T) (m : fourier_module (T := T)) (fl fo fr : list (girrep T)) (k k' : list R) (Gi : mat).
Hypothesis Fg : Forall mem grid.
Hypothesis SH : shaped mem op inv e grid m fl fo fr k k' Gi.
Let n := tsize fl.
Let n' := tsize (fo ++ fr).
Definition sampled : list (list R * list R) := map (fun g => (row fl k g, row (fo ++ fr) k' g)) grid.

Lemma field_answer : forall v, fourier_field m v = map (answer n' Gi (fm_function m) sampled v) (seq 0 (tsize fo)).
Proof.
  intros v. destruct SH as (_ & _ & _ & _ & _ & _ & _ & _ & EA & _ & EI). unfold fourier_field. rewrite EA, EI. unfold pseudo_inverse.
  rewrite firstn_map_seq by (rewrite tsize_app; lia). rewrite map_map. apply map_ext; intros f. rewrite !map_map.
  rewrite dot_maps. unfold answer, sampled. rewrite map_map. reflexivity.
Qed.

Lemma field_length : forall v, length (fourier_field m v) = r_size (fm_out m).
Proof. intros v. rewrite field_answer, map_length, seq_length. symmetry. apply SH. Qed.

(** [h] permutes the samples *)
Definition samples_moved (h : T) : Prop := exists l l', mapM (op h) grid = Ret l /\ Permutation l' grid /\
  Forall2 (fun x y => row fl k x = row fl k y /\ row (fo ++ fr) k' x = row (fo ++ fr) k' y) l l'.

Lemma sampled_permutes : forall h, mem h -> samples_moved h ->
  Permutation (map (fun p => (mv n (V fl h) (fst p), mv n' (V (fo ++ fr) h) (snd p))) sampled) sampled.
Proof.
  intros h Hh (l & l' & El & Pl & F2). destruct SH as (_ & _ & _ & _ & O1 & O2 & _).
  apply Permutation_trans with (map (fun g => (row fl k g, row (fo ++ fr) k' g)) l').
  - assert (E : map (fun p => (mv n (V fl h) (fst p), mv n' (V (fo ++ fr) h) (snd p))) sampled = map (fun g => (row fl k g, row (fo ++ fr) k' g)) l').
    { transitivity (map (fun g => (row fl k g, row (fo ++ fr) k' g)) l).
      - unfold sampled. rewrite map_map. cbn [fst snd]. clear F2 Pl SH. apply mapM_Ret_inv in El. revert Fg El. revert l. generalize grid as gr.
        induction gr as [|g gr IH]; intros l Fg' El; inversion El as [|? x ? l0 Ex El']; subst; [reflexivity|]. inversion Fg' as [|? ? Hg Fg0]; subst. cbn [map]. f_equal.
        + rewrite (row_moves mem op inv e fl k h g x O1 Hh Hg Ex), (row_moves mem op inv e (fo ++ fr) k' h g x O2 Hh Hg Ex). reflexivity.
        + apply IH; assumption.
      - clear - F2. induction F2 as [|x y l l' [E1 E2] F2 IH]; [reflexivity|]. cbn [map]. rewrite E1, E2, IH. reflexivity. }
    rewrite E. apply Permutation_refl.
  - unfold sampled. apply Permutation_map. exact Pl.
Qed.

Lemma field_moves : forall h v, mem h -> samples_moved h -> length v = n ->
  fourier_field m (mv n (V fl h) v) = mv (tsize fo) (V fo h) (fourier_field m v).
Proof.
  intros h v Hh HM Lv. pose proof (sampled_permutes h Hh HM) as PP. destruct SH as (_ & _ & _ & _ & O1 & O2 & L1 & L2 & _ & GI & _).
  apply list_ext.
  - rewrite mv_length, field_answer, map_length, seq_length; reflexivity.
  - rewrite field_answer, map_length, seq_length. intros f Hf. rewrite mv_nth by exact Hf.
    rewrite (field_answer v). rewrite (nth_indep _ 0 (answer n' Gi (fm_function m) sampled (mv n (V fl h) v) 0%nat)) by (rewrite map_length, seq_length; exact Hf).
    rewrite map_nth, seq_nth by exact Hf. cbn [Nat.add].
    rewrite (answer_moves n n' (V fl h) (V (fo ++ fr) h) Gi (fm_function m) sampled).
    + unfold n'. rewrite V_part by exact Hf. apply sumn_ext; intros i Hi. f_equal.
      rewrite (nth_indep _ 0 (answer (tsize (fo ++ fr)) Gi (fm_function m) sampled v 0%nat)) by (rewrite map_length, seq_length; exact Hi).
      rewrite map_nth, seq_nth by exact Hi. reflexivity.
    + unfold sampled. apply Forall_map, Forall_forall. intros g _. cbn [fst snd]. split; apply row_length.
    + apply (V_orth mem op inv e); assumption.
    + apply (V_orth mem op inv e); assumption.
    + exact PP.
    + replace (map snd sampled) with (map (row (fo ++ fr) k') grid); [exact GI|]. unfold sampled. rewrite map_map. reflexivity.
    + exact Lv.
    + unfold n'. rewrite tsize_app. lia.
Qed.

Lemma mv_ext : forall d A B x, meq d d A B -> mv d A x = mv d B x.
Proof. intros d A B x E. apply list_ext; [rewrite !mv_length; reflexivity|]. rewrite mv_length; intros i Hi. rewrite !mv_nth by exact Hi. apply sumn_ext; intros j Hj. rewrite (E i j Hi Hj); reflexivity. Qed.

Hypothesis teq : teqb (fm_in_type m) (fm_in_type m) = true.

Lemma forward_ok : forall x, g_type x = fm_in_type m -> length (g_chans x) = (fm_channels m * r_size (fm_rho m))%nat ->
  exists y, fourier_forward teqb m x = Ret y /\ g_type y = fm_out_type m /\ length (g_chans y) = type_size r_size (fm_out_type m) /\
    forall i, (i < fm_channels m)%nat -> field_chans r_size (fm_out_type m) (g_chans y) i = fourier_field m (field_chans r_size (fm_in_type m) (g_chans x) i).
Proof.
  intros x Ex Lx. unfold fourier_forward. rewrite Ex, teq, Lx, Nat.eqb_refl. cbn [assert_ bind].
  rewrite flat_map_concat_map, (uniform_fields r_size (fm_rho m) (fm_channels m) (g_chans x) Lx), map_map.
  set (bs := map _ _).
  assert (Lb : length bs = fm_channels m) by (unfold bs; rewrite map_length, seq_length; reflexivity).
  assert (Fb : Forall (fun b => length b = r_size (fm_out m)) bs) by (apply Forall_map, Forall_forall; intros i _; apply field_length).
  assert (L : length (concat bs) = type_size r_size (fm_out_type m)).
  { rewrite (concat_uniform _ _ Fb), Lb. unfold fm_out_type. rewrite uniform_size. reflexivity. }
  unfold mk_gtensor. rewrite L, Nat.eqb_refl. cbn [assert_ bind]. eexists; split; [reflexivity|]. cbn [g_type g_chans]. split; [reflexivity|]. split; [exact L|].
  intros i Hi. unfold fm_out_type. rewrite (field_of_concat r_size (fm_out m) (fm_channels m) bs Lb Fb i Hi). unfold bs.
  rewrite (nth_indep _ [] (fourier_field m (field_chans r_size (repeat (fm_rho m) (fm_channels m)) (g_chans x) 0%nat))) by (rewrite map_length, seq_length; exact Hi).
  rewrite (map_nth (fun i0 => fourier_field m (field_chans r_size (repeat (fm_rho m) (fm_channels m)) (g_chans x) i0))), seq_nth by exact Hi. reflexivity.
Qed.

Lemma nth_error_rep : forall {X} (a : X) c i, (i < c)%nat -> nth_error (repeat a c) i = Some a.
Proof. intros X a c; induction c as [|c IH]; intros [|i] L; try lia; cbn; [reflexivity|apply IH; lia]. Qed.
Lemma nth_error_rep_inv : forall {X} (a b : X) c i, nth_error (repeat a c) i = Some b -> (i < c)%nat /\ a = b.
Proof. intros X a b c; induction c as [|c IH]; intros [|i] E; cbn in E; try discriminate; [split; [lia|congruence]|]. destruct (IH i E); split; [lia|assumption]. Qed.

Lemma forward_moves : forall h x x', mem h -> samples_moved h -> g_type x = fm_in_type m -> g_type x' = fm_in_type m ->
  length (g_chans x) = list_sum (map r_size (fm_in_type m)) ->
  acts r_size (fm_in_type m) (at_element h) (g_chans x) (g_chans x') ->
  exists y y', fourier_forward teqb m x = Ret y /\ fourier_forward teqb m x' = Ret y' /\ g_type y = fm_out_type m /\ g_type y' = fm_out_type m /\
    acts r_size (fm_out_type m) (at_element h) (g_chans y) (g_chans y').
Proof.
  intros h x x' Hh HM Ex Ex' Lx [Lx' A].
  pose proof (uniform_size r_size (fm_rho m) (fm_channels m)) as US. fold (fm_in_type m) in US. unfold type_size in US.
  destruct (forward_ok x Ex) as (y & Ey & Ty & Ly & Fy); [rewrite <- US; exact Lx|].
  destruct (forward_ok x' Ex') as (y' & Ey' & Ty' & Ly' & Fy'); [rewrite <- US; exact Lx'|].
  exists y, y'. repeat split; try assumption.
  intros i r E. apply nth_error_rep_inv in E as [Hi <-]. rewrite (Fy' i Hi), (Fy i Hi).
  assert (Ei : nth_error (fm_in_type m) i = Some (fm_rho m)) by (apply nth_error_rep; exact Hi).
  rewrite (A i _ Ei). destruct SH as (S1 & S2 & R1 & R2 & _).
  unfold at_element. rewrite (R1 h Hh), (R2 h Hh). cbn [snd]. rewrite S1, S2. apply field_moves; [exact Hh|exact HM|].
  unfold n. rewrite <- S1. apply (field_chans_length r_size (fm_in_type m)); assumption.
Qed.

(** ** the value *)
Lemma field_ridge : forall v, exists z, ridge (/ 10 ^ 8) n' (map (fun g => (row (fo ++ fr) k' g, fm_function m (dot v (row fl k g)))) grid) z /\
  fourier_field m v = firstn (tsize fo) z.
Proof.
  intros v. set (z := map (answer n' Gi (fm_function m) sampled v) (seq 0 n')). exists z. split.
  2:{ rewrite field_answer. unfold z. symmetry. apply firstn_map_seq. unfold n'. rewrite tsize_app; lia. }
  split; [unfold z; rewrite map_length, seq_length; reflexivity|]. intros i Hi. destruct SH as (_ & S2 & _ & _ & _ & _ & _ & _ & _ & [GI _] & _).
  assert (Z : forall j, (j < n')%nat -> nth j z 0 = sumn n' (fun f => Gi j f *
     lsum (map (fun g => nth f (row (fo ++ fr) k' g) 0 * fm_function m (dot v (row fl k g))) grid))).
  { intros j Hj. unfold z. rewrite (nth_indep _ 0 (answer n' Gi (fm_function m) sampled v 0%nat)) by (rewrite map_length, seq_length; exact Hj).
    rewrite map_nth, seq_nth by exact Hj. unfold answer, sampled. cbn [Nat.add]. rewrite map_map. cbn [fst snd].
    transitivity (lsum (map (fun g => sumn n' (fun f => Gi j f * (nth f (row (fo ++ fr) k' g) 0 * fm_function m (dot v (row fl k g))))) grid)).
    - apply lsum_ext; intros g _. rewrite <- sumn_scal_l. apply sumn_ext; intros f _. ring.
    - rewrite (lsum_sumn n' (fun g f => Gi j f * (nth f (row (fo ++ fr) k' g) 0 * fm_function m (dot v (row fl k g))))). apply sumn_ext; intros f _. apply lsum_scal. }
  rewrite !map_map. cbn [fst snd]. fold n' in GI. clearbody z.
  set (G := gram n' (map (row (fo ++ fr) k') grid)) in *. set (b := fun f => lsum (map (fun g => nth f (row (fo ++ fr) k' g) 0 * fm_function m (dot v (row fl k g))) grid)) in *.
  change (lsum (map (fun g => nth i (row (fo ++ fr) k' g) 0 * sumn n' (fun j => nth j (row (fo ++ fr) k' g) 0 * nth j z 0)) grid)
    + / 10 ^ 8 * nth i z 0 = b i).
  transitivity (sumn n' (fun j => G i j * nth j z 0)).
  - transitivity (sumn n' (fun j => lsum (map (fun g => nth i (row (fo ++ fr) k' g) 0 * nth j (row (fo ++ fr) k' g) 0) grid) * nth j z 0
        + / 10 ^ 8 * (mid i j * nth j z 0))).
    + rewrite sumn_plus. f_equal.
      * transitivity (lsum (map (fun g => sumn n' (fun j => nth i (row (fo ++ fr) k' g) 0 * nth j (row (fo ++ fr) k' g) 0 * nth j z 0)) grid)).
        -- apply lsum_ext; intros g _. rewrite <- sumn_scal_l. apply sumn_ext; intros j _. ring.
        -- rewrite (lsum_sumn n' (fun g j => nth i (row (fo ++ fr) k' g) 0 * nth j (row (fo ++ fr) k' g) 0 * nth j z 0)).
           apply sumn_ext; intros j _. rewrite Rmult_comm, <- lsum_scal. apply lsum_ext; intros g _; ring.
      * rewrite sumn_scal_l. f_equal. symmetry. rewrite (sumn_single n' i) by (try exact Hi; intros j Hj Ne; unfold mid; rewrite (proj2 (Nat.eqb_neq i j)) by congruence; ring).
        unfold mid; rewrite Nat.eqb_refl; ring.
    + apply sumn_ext; intros j _. unfold G, gram. rewrite map_map. ring.
  - transitivity (sumn n' (fun j => sumn n' (fun f => G i j * Gi j f * b f))).
    + apply sumn_ext; intros j Hj. rewrite (Z j Hj), <- sumn_scal_l. apply sumn_ext; intros f _. unfold b; ring.
    + rewrite sumn_swap. transitivity (sumn n' (fun f => mid i f * b f)).
      * apply sumn_ext; intros f Hf. rewrite <- (GI i f Hi Hf). unfold mmul. rewrite <- sumn_scal_r. reflexivity.
      * rewrite (sumn_single n' i) by (try exact Hi; intros j Hj Ne; unfold mid; rewrite (proj2 (Nat.eqb_neq i j)) by congruence; ring).
        unfold mid; rewrite Nat.eqb_refl; ring.
Qed.
End Eqv.
