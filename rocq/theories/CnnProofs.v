(** The layers of a network on the plane see nothing but types and entries, and commute with the
    symmetries of the grid. *)
From Coq Require Import Reals ZArith Lia Lra Bool List Arith Permutation.
From Verif Require Import LibRes LibMat LibMatS FieldModel SpecField FieldProofs NonlinModel SpecNonlin NonlinProofs SpecPool PoolModel PoolThms NormThms RepModel
  GridModel SpecGrid GridProofs GridThms ImageModel SpecImage ImageProofs MaskThms ConvThms SPoolModel SpecSPool SPoolProofs SPoolThms SPoolBlur
  BiasThms RdConvModel RdConvProofs RdConvThms NetModel SpecNet NetProofs CnnModel.
Import ListNotations.
Open Scope R_scope.

(** ** Types and entries *)
Section Steady.
Context {A T : Type}.
Variables (rep : A -> repr T) (n : nat).
Notation size := (asize rep).
Notation steady := (steady rep n).

(** a function of arrays with [n] spatial axes depends on the entries only *)
Definition even (F : array R -> res (array R)) : Prop := forall x x' B c ws, shape x = B :: c :: ws -> length ws = n -> same_array x x' ->
  match F x, F x' with Raise, Raise => True | Ret y, Ret y' => same_array y y' | _, _ => False end.

Lemma at_pixels_steady : forall F, steady (at_pixels size F).
Proof.
  intros F x x' (B & ws & Sx & Ln) (Et & Ea). pose proof (proj1 Ea) as Es. unfold at_pixels. rewrite <- Es, <- Et, Sx. cbn [nth skipn].
  destruct (F _) as [|y0]; cbn [bind same_tensors]; [exact I|]. split; [reflexivity|]. cbn [snd].
  apply (same_image _ _ B (type_size size (g_type y0)) ws); try reflexivity. intros b k p Hb Hk V. cbn [entry].
  assert (Ef : fiber x b p = fiber x' b p).
  { unfold fiber. rewrite <- Es, <- Et, Sx. cbn [nth]. f_equal. apply map_ext_in. intros i Hi. apply in_seq in Hi.
    apply (same_entry _ _ B (type_size size (fst x)) ws); auto; lia. }
  rewrite Ef. reflexivity.
Qed.

Lemma of_type_steady : forall teqb ft F, even F -> steady (of_type teqb ft F).
Proof.
  intros teqb ft F HF x x' (B & ws & Sx & Ln) (Et & Ea). unfold of_type. rewrite <- Et. destruct (teqb (fst x) ft); cbn [assert_ bind same_tensors]; [|exact I].
  specialize (HF (snd x) (snd x') _ _ _ Sx Ln Ea). destruct (F (snd x)), (F (snd x')); cbn [bind same_tensors]; try contradiction; [exact I|]. split; [reflexivity|exact HF].
Qed.

Lemma mask_even : forall mask, even (mask_forward mask).
Proof.
  intros mask x x' B c ws Sx Ln (Es & Ee). unfold mask_forward. rewrite <- Es. destruct (shape_eqb _ _); cbn [assert_ bind]; [|exact I].
  split; [reflexivity|]. cbn [entry shape]. intros idx V. rewrite Ee by exact V. reflexivity.
Qed.

Lemma points_valid : forall k s p d ws pos q, length pos = length ws -> In q (window_points k s p d ws pos) -> valid ws q.
Proof. intros k s p d ws pos q L H. apply (proj1 (window_points_In k s p d ws pos q L)) in H as (V & _). exact V. Qed.

Lemma max_even : forall l, even (max_forward l).
Proof.
  intros l x x' B c ws Sx Ln Ea. pose proof (proj1 Ea) as Es. assert (Sx' : shape x' = B :: c :: ws) by congruence. unfold max_forward.
  set (k := m_kernel l). set (s := m_stride l). set (p := m_padding l). set (d := m_dilation l).
  assert (G : forall u u', shape u = B :: c :: ws -> shape u' = B :: c :: ws -> same_array u u' -> forall y, max_pool (m_ceil l) k s p d u = Ret y ->
    exists y', max_pool (m_ceil l) k s p d u' = Ret y' /\ same_array y y').
  { intros u u' Su Su' Eu y Ey. destruct (max_pool_inv _ _ _ _ _ _ _ _ _ _ Su Ey) as (os & Eo & Sy & Ne & Vy).
    destruct (max_pool_go (m_ceil l) k s p d u' B c ws os Su' Eo Ne) as (y' & Ey'). exists y'. split; [exact Ey'|].
    destruct (max_pool_inv _ _ _ _ _ _ _ _ _ _ Su' Ey') as (os' & Eo' & Sy' & _ & Vy'). assert (os' = os) as -> by congruence.
    apply (same_image _ _ B c os Sy Sy'). intros b o pos Hb Ho V. rewrite Vy, Vy'. f_equal. apply map_ext_in. intros q Hq.
    apply (same_entry _ _ B c ws); auto. apply (points_valid k s p d ws pos); [|exact Hq].
    apply BiasThms.Forall2_length_eq in V. rewrite V. eapply mapM_length; exact Eo. }
  destruct (max_pool (m_ceil l) k s p d x) as [|y] eqn:E.
  2:{ destruct (G x x' Sx Sx' Ea y E) as (y' & -> & S). exact S. }
  - destruct (max_pool (m_ceil l) k s p d x') as [|y'] eqn:E'; [exact I|].
    destruct (G x' x Sx' Sx (same_array_sym _ _ Ea) y' E') as (y & E2 & _). rewrite E2 in E. discriminate.
Qed.

Lemma avg_even : forall kernel stride padding ceil, even (avg_forward kernel stride padding ceil).
Proof.
  intros k stride p ceil x x' B c ws Sx Ln Ea. pose proof (proj1 Ea) as Es. assert (Sx' : shape x' = B :: c :: ws) by congruence. unfold avg_forward.
  set (s := match stride with Some s => s | None => k end).
  assert (G : forall u u', shape u = B :: c :: ws -> shape u' = B :: c :: ws -> same_array u u' -> forall y, avg_pool ceil k s p u = Ret y ->
    exists y', avg_pool ceil k s p u' = Ret y' /\ same_array y y').
  { intros u u' Su Su' Eu y Ey. destruct (avg_pool_inv _ _ _ _ _ _ _ _ _ Su Ey) as (os & Eo & Sy & Vy).
    destruct (avg_pool_go ceil k s p u' B c ws os Su' Eo) as (y' & Ey'). exists y'. split; [exact Ey'|].
    destruct (avg_pool_inv _ _ _ _ _ _ _ _ _ Su' Ey') as (os' & Eo' & Sy' & Vy'). assert (os' = os) as -> by congruence.
    apply (same_image _ _ B c os Sy Sy'). intros b o pos Hb Ho V. rewrite Vy, Vy'. f_equal. f_equal. apply map_ext_in. intros q Hq.
    apply (same_entry _ _ B c ws); auto. apply (points_valid k s p 1 ws pos); [|exact Hq].
    apply BiasThms.Forall2_length_eq in V. rewrite V. eapply mapM_length; exact Eo. }
  destruct (avg_pool ceil k s p x) as [|y] eqn:E.
  2:{ destruct (G x x' Sx Sx' Ea y E) as (y' & -> & S). exact S. }
  - destruct (avg_pool ceil k s p x') as [|y'] eqn:E'; [exact I|].
    destruct (G x' x Sx' Sx (same_array_sym _ _ Ea) y' E') as (y & E2 & _). rewrite E2 in E. discriminate.
Qed.

Lemma conv_even : forall m p groups stride dil cout cin k f bias, even (conv_forward m p groups stride dil (reshape_filter cout cin k n f) bias).
Proof.
  intros m p groups stride dil cout cin k f bias x x' B c ws Sx Ln Ea. pose proof (proj1 Ea) as Es. assert (Sx' : shape x' = B :: c :: ws) by congruence. unfold conv_forward.
  destruct (forallb (pad_ok m p) ws) eqn:O.
  2:{ assert (R : forall u, shape u = B :: c :: ws -> pad m p u = Raise) by (intros u Su; unfold pad; rewrite Su; cbn [skipn]; rewrite O; reflexivity).
      rewrite (R x Sx), (R x' Sx'). exact I. }
  destruct (pad_reads m p x B c ws Sx O) as (xp & Ep & Sp & Vp). destruct (pad_reads m p x' B c ws Sx' O) as (xp' & Ep' & Sp' & Vp').
  rewrite Ep, Ep'. cbn [bind]. set (wp := map (fun w => w + 2 * p)%nat ws) in *. assert (Lp : length wp = n) by (unfold wp; rewrite map_length; exact Ln).
  assert (Sa : same_array xp xp').
  { apply (same_image _ _ B c wp Sp Sp'). intros b o q Hb Ho V. rewrite Vp, Vp'. destruct (reads m p ws q) as [js|] eqn:Er; [|reflexivity].
    apply (same_entry _ _ B c ws); auto. apply (reads_valid m p ws q js O V Er). }
  destruct (conv groups stride dil (reshape_filter cout cin k n f) bias xp) as [|y] eqn:E.
  2:{ pose proof (proj1 (conv_accepts groups stride dil cout cin k n f bias xp B c wp Sp Lp) (ex_intro _ y E)) as Q.
    destruct (proj2 (conv_accepts groups stride dil cout cin k n f bias xp' B c wp Sp' Lp) Q) as (y' & E'). rewrite E'.
    destruct Q as (Hg & Hs & Hd & Hk & Hm & Hc & _ & Hw).
    destruct (conv_value _ _ _ _ _ _ _ _ _ _ _ _ _ _ Sp Lp E) as (Sy & Vy). destruct (conv_value _ _ _ _ _ _ _ _ _ _ _ _ _ _ Sp' Lp E') as (Sy' & Vy').
    apply (same_image _ _ B cout _ Sy Sy'). intros b o pos Hb Ho V. rewrite Vy, Vy'. f_equal. apply sumn_ext. intros i Hi. f_equal. apply map_ext_in. intros t Ht. f_equal.
    apply (same_entry _ _ B c wp); auto.
    + assert (Hq : (o / (cout / groups) < groups)%nat).
      { assert (Hq : (0 < cout / groups)%nat). { apply Nat.div_str_pos. split; [lia|]. destruct (le_lt_dec groups cout) as [|Hlt]; [assumption|]. rewrite Nat.mod_small in Hm by exact Hlt. lia. }
        apply Nat.div_lt_upper_bound; [lia|]. pose proof (Nat.div_mod cout groups ltac:(lia)). nia. }
      rewrite Hc. nia.
    + apply (place_valid k); auto. rewrite Lp. apply all_indices_In. exact Ht. }
  - destruct (conv groups stride dil (reshape_filter cout cin k n f) bias xp') as [|y'] eqn:E'; [exact I|].
    pose proof (proj1 (conv_accepts groups stride dil cout cin k n f bias xp' B c wp Sp' Lp) (ex_intro _ y' E')) as Q.
    destruct (proj2 (conv_accepts groups stride dil cout cin k n f bias xp B c wp Sp Lp) Q) as (y & E2). rewrite E2 in E. discriminate.
Qed.
End Steady.

(** ** Transforms *)
Lemma permutes_bdiag : forall l, Forall (fun nm => SpecPool.permutes (fst nm) (snd nm)) l -> SpecPool.permutes (bsize l) (bdiag l).
Proof.
  induction l as [|[n M] l IH]; intros H.
  - exists (fun j => j). split; [cbn; intros; lia|]. split; [cbn; intros; lia|]. cbn. intros; lia.
  - inversion H as [|? ? Hp Hl]; subst. destruct Hp as (p & P1 & P2 & P3). destruct (IH Hl) as (q & Q1 & Q2 & Q3). cbn [fst snd] in *.
    change (bsize ((n, M) :: l)) with (n + bsize l)%nat.
    exists (fun j => if Nat.ltb j n then p j else (n + q (j - n))%nat). split; [|split].
    + intros j Hj. destruct (Nat.ltb_spec j n) as [L|L]; [specialize (P1 j L)|specialize (Q1 (j - n)%nat ltac:(lia))]; lia.
    + intros j k Hj Hk. destruct (Nat.ltb_spec j n) as [L|L], (Nat.ltb_spec k n) as [L'|L']; intros E.
      * apply P2; assumption.
      * specialize (P1 j L); lia.
      * specialize (P1 k L'); lia.
      * assert (j - n = k - n)%nat by (apply Q2; lia). lia.
    + intros i j Hi Hj. cbn [bdiag]. destruct (Nat.ltb_spec j n) as [L|L].
      * specialize (P1 j L). destruct (Nat.ltb_spec i n) as [L'|L']; [apply P3; assumption|]. destruct (Nat.eqb_spec i (p j)); [lia|reflexivity].
      * destruct (Nat.ltb_spec i n) as [L'|L']; [destruct (Nat.eqb_spec i (n + q (j - n))%nat); [lia|reflexivity]|].
        rewrite Q3 by lia. destruct (Nat.eqb_spec (i - n) (q (j - n)%nat)), (Nat.eqb_spec i (n + q (j - n)))%nat; try reflexivity; lia.
Qed.

Section Commute.
Context {A T : Type}.
Variables (rep : A -> repr T) (half : R -> R) (affine : array R -> mat -> nat -> res (array R)) (base : T -> res (nat * mat)) (g : T).
Hypothesis H0 : half 0 = 0.
Hypothesis H1 : half 1 = 1.
Hypothesis Hm : half (-1) = -1.
Variables (n : nat) (M : mat).
Hypothesis Eb : base g = Ret (n, M).
Hypothesis SM : signed_perm n M.
Notation size := (asize rep).
Notation rho := (fun a => value_at g (rep a)).
Notation move := (moved_by rep half affine base g).

Lemma fiber_good : forall x b p B ws, shape (snd x) = B :: type_size size (fst x) :: ws -> good size (fiber x b p).
Proof. intros x b p B ws Sx. unfold good, fiber. cbn [g_chans g_type]. rewrite map_length, seq_length, Sx. reflexivity. Qed.
Lemma zeros_good : forall ft, good size {| g_type := ft; g_chans := repeat 0 (type_size size ft) |}.
Proof. intros ft. unfold good. cbn [g_chans g_type]. apply repeat_length. Qed.

Lemma at_pixels_value : forall ft out F x B ws, 
  (forall u, g_type u = ft -> good size u -> exists v, F u = Ret v /\ g_type v = out /\ good size v) ->
  fst x = ft -> shape (snd x) = B :: type_size size ft :: ws ->
  exists y, at_pixels size F x = Ret (out, y) /\ shape y = B :: type_size size out :: ws /\
    forall b k p v, F (fiber x b p) = Ret v -> entry y (b :: k :: p) = nth k (g_chans v) 0.
Proof.
  intros ft out F x B ws HF <- Sx. destruct (HF {| g_type := fst x; g_chans := repeat 0 (type_size size (fst x)) |} eq_refl (zeros_good _)) as (v0 & E0 & T0 & _).
  unfold at_pixels. rewrite Sx. cbn [nth skipn]. rewrite E0. cbn [bind]. rewrite T0. eexists. split; [reflexivity|]. split; [reflexivity|].
  intros b k p v Ev. cbn [entry]. rewrite Ev. reflexivity.
Qed.

Lemma at_pixels_commutes : forall ft out F x,
  (forall u, g_type u = ft -> good size u -> exists v, F u = Ret v /\ g_type v = out /\ good size v) ->
  (forall u u' v v', g_type u = ft -> g_type u' = ft -> good size u -> SpecNonlin.acts size ft rho (g_chans u) (g_chans u') -> F u = Ret v -> F u' = Ret v' ->
     SpecNonlin.acts size out rho (g_chans v) (g_chans v')) ->
  fst x = ft -> shaped rep n x -> defined_at rep g ft -> defined_at rep g out -> commutes rep half affine base g (at_pixels size F) x.
Proof.
  intros ft out F x HF HE Tx (B & ws & Sx & Ln) Df Do y Ey.
  destruct (move_normal rep half affine base g H0 H1 Hm n M Eb SM) as (W & t & Re). destruct (Re ws Ln) as (LW & Vt & On & Mv). clear Re.
  rewrite Tx in Sx. destruct (at_pixels_value ft out F x B ws HF Tx Sx) as (ya & Ey' & Sy & Vy). rewrite Ey in Ey'. apply Ret_inj in Ey'. subst y.
  destruct (Mv x B ltac:(rewrite Tx; exact Df) ltac:(rewrite Tx; exact Sx)) as (xa & Ex & Sxa & Vx). rewrite Tx in Ex, Sxa, Vx.
  destruct (Mv (out, ya) B Do Sy) as (za & Ez & Sz & Vz). cbn [fst snd] in Ez, Sz, Vz.
  destruct (at_pixels_value ft out F (ft, xa) B (W ws) HF eq_refl Sxa) as (ya' & Ea' & Sy' & Vy').
  exists (ft, xa), (out, ya'), (out, za). split; [exact Ex|]. split; [exact Ea'|]. split; [exact Ez|]. split; [reflexivity|]. cbn [snd].
  apply (same_image _ _ B (type_size size out) (W ws) Sy' Sz). intros b k p Hb Hk Vp. destruct (On p Vp) as (i & Vi & <-).
  set (u := fiber x b i). set (u' := fiber (ft, xa) b (t ws i)).
  assert (Gu : good size u) by (apply (fiber_good x b i B ws); rewrite Tx; exact Sx).
  assert (Gu' : good size u') by (apply (fiber_good (ft, xa) b (t ws i) B (W ws)); exact Sxa).
  destruct (HF u Tx Gu) as (v & Ev & Tv & Gv). destruct (HF u' eq_refl Gu') as (v' & Ev' & Tv' & Gv').
  assert (Hu : g_chans u' = matvec (type_size size ft) (fiber_representation size rho ft) (g_chans u)).
  { unfold u', u, fiber. cbn [g_chans fst snd]. rewrite Sxa, Sx. cbn [nth]. unfold matvec. apply map_ext_in. intros o Ho. apply in_seq in Ho.
    rewrite Vx by (auto; lia). apply sumn_ext. intros j Hj. f_equal. rewrite (nth_indep _ 0 (entry (snd x) (b :: 0%nat :: i))) by (rewrite map_length, seq_length; exact Hj).
    rewrite (map_nth (fun i0 => entry (snd x) (b :: i0 :: i))). rewrite seq_nth by exact Hj. reflexivity. }
  assert (Lu : length (g_chans u) = type_size size ft) by (rewrite <- Tx; exact Gu).
  pose proof (matvec_blocks size rho ft (g_chans u) Lu) as Au. rewrite <- Hu in Au.
  pose proof (HE u u' v v' Tx eq_refl Gu Au Ev Ev') as Av.
  assert (Lv : length (g_chans v) = type_size size out) by (rewrite <- Tv; exact Gv).
  pose proof (matvec_blocks size rho out (g_chans v) Lv) as Bv.
  pose proof (acts_unique size rho out _ _ _ Av Bv) as Ec.
  rewrite (Vy' b k (t ws i) v' Ev'), Ec. unfold matvec.
  rewrite (nth_indep _ 0 (sumn (type_size size out) (fun j => fiber_representation size rho out 0%nat j * nth j (g_chans v) 0))) by (rewrite map_length, seq_length; exact Hk).
  rewrite (map_nth (fun o => sumn (type_size size out) (fun j => fiber_representation size rho out o j * nth j (g_chans v) 0))), seq_nth by exact Hk.
  rewrite Vz by assumption. apply sumn_ext. intros j Hj. cbn [Nat.add]. rewrite (Vy b j i v Ev). reflexivity.
Qed.

Lemma of_type_commutes : forall teqb ft F x, (forall a b, teqb a b = true <-> a = b) -> defined_at rep g ft -> 
  (forall B ws y, shape (snd x) = B :: type_size size ft :: ws -> length ws = n -> F (snd x) = Ret y -> commutes_with half affine (type_size size ft) (dg size rho ft) n M F (snd x) y) ->
  shaped rep n x -> commutes rep half affine base g (of_type teqb ft F) x.
Proof.
  intros teqb ft F x Ht Df HF (B & ws & Sx & Ln) y Ey. unfold of_type in Ey. apply assert_Ret in Ey as (Et & Ey). apply Ht in Et. apply bind_Ret in Ey as (ya & Ea & Ey). apply Ret_inj in Ey. subst y.
  rewrite Et in Sx. destruct (HF B ws ya Sx Ln Ea) as (x' & y' & z & Ex & Ey & Ez & S).
  assert (Em : forall u v, transform half affine (type_size size ft) (dg size rho ft) n M u = Ret v -> moved_by rep half affine base g (ft, u) = Ret (ft, v)).
  { intros u v E. unfold moved_by, field_transform. cbn [fst snd]. rewrite (fiber_matrix_ok rep ft g Df). cbn [bind]. rewrite Eb. cbn [bind fst snd]. rewrite E. reflexivity. }
  exists (ft, x'), (ft, y'), (ft, z). split; [|split; [|split; [apply Em; exact Ez|split; [reflexivity|exact S]]]].
  - destruct x as [tx xa]. cbn [fst snd] in *. subst tx. apply Em. exact Ex.
  - unfold of_type. cbn [fst snd]. rewrite (proj2 (Ht ft ft) eq_refl). cbn [assert_ bind]. rewrite Ey. reflexivity.
Qed.

Lemma dg_permutes : forall ft, Forall (fun a => SpecPool.permutes (size a) (value_at g (rep a))) ft -> SpecPool.permutes (type_size size ft) (dg size rho ft).
Proof.
  intros ft H. unfold dg. replace (type_size size ft) with (bsize (map (fun a => (size a, value_at g (rep a))) ft)).
  - apply permutes_bdiag. apply Forall_map. exact H.
  - induction ft as [|a ft IH]; [reflexivity|]. inversion H; subst. cbn [map bsize]. rewrite IH by assumption. reflexivity.
Qed.
End Commute.
