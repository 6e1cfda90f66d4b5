(** Networks: modules in sequence, in parallel, and tensors that are combined. *)
From Coq Require Import String Ascii.
From Coq Require Import Reals ZArith Lia Lra Bool List Arith Permutation.
From Verif Require Import LibRes LibPy LibMat LibMatS FieldModel SpecField FieldProofs BranchProofs LabelThms MergeThms RepModel
  GridModel SpecGrid GridProofs GridThms ImageModel SpecImage ImageProofs MaskThms RdConvModel SpecBlocks RdConvProofs RdConvThms BlocksFwd FieldMapModel FieldMapProofs SpecFieldMap FieldMapThms SeqModel NetModel SpecNet NetProofs.
Import ListNotations.
Open Scope R_scope.

Section Thms.
Context {A T : Type}.
Variables (rep : A -> repr T) (half : R -> R) (affine : array R -> mat -> nat -> res (array R)) (base : T -> res (nat * mat)) (g : T).
Hypothesis H0 : half 0 = 0.
Hypothesis H1 : half 1 = 1.
Hypothesis Hm : half (-1) = -1.
Variables (n : nat) (M : mat).
Hypothesis Eb : base g = Ret (n, M).
Hypothesis SM : signed_perm n M.
Notation size := (asize rep).
Notation move := (moved_by rep half affine base g).

(** ** SequentialModule *)
Section Sequence.
Context {Mod : Type}.
Variables (tin tout : Mod -> list A) (run : Mod -> tensor A -> res (tensor A)) (teqb : list A -> list A -> bool).
Hypothesis teqb_ok : forall a b, teqb a b = true <-> a = b.

Lemma fold_raise : forall l : list Mod, fold_left (fun r m => x <- r ;; run m x) l Raise = Raise.
Proof. induction l as [|m l IH]; [reflexivity|exact IH]. Qed.
Definition good_at (m : Mod) (x : tensor A) : Prop := shaped rep n x /\ defined_at rep g (fst x) /\ commutes rep half affine base g (run m) x.
Lemma run_all : forall l : list Mod, (forall m, In m l -> steady rep n (run m)) -> forall x, throughout run good_at l x -> forall y x' u, move x = Ret x' -> same_tensor u x' ->
  fold_left (fun r m => x <- r ;; run m x) l (Ret x) = Ret y ->
  exists y' z, fold_left (fun r m => x <- r ;; run m x) l (Ret u) = Ret y' /\ move y = Ret z /\ same_tensor y' z.
Proof.
  destruct (move_normal rep half affine base g H0 H1 Hm n M Eb SM) as (W & t & Re).
  induction l as [|m l IH]; intros Hl x Al y x' u Ex Su Ey; cbn [fold_left bind] in *.
  - apply Ret_inj in Ey. subst y. exists u, x'. auto.
  - destruct (run m x) as [|v] eqn:Ev; [rewrite fold_raise in Ey; discriminate|]. pose proof (Hl m (or_introl eq_refl)) as St.
    destruct Al as ((Sx & Dfx & C) & Al). destruct (C v Ev) as (x2 & v' & z & E1 & E2 & E3 & E4). rewrite Ex in E1. apply Ret_inj in E1. subst x2.
    destruct (move_ok rep half affine base g n W t Re x Sx Dfx) as (x2 & E1 & _ & Sx'). rewrite Ex in E1. apply Ret_inj in E1. subst x2.
    pose proof (St x' u Sx' (same_sym _ _ Su)) as Q. rewrite E2 in Q. destruct (run m u) as [|w] eqn:Ew; [contradiction|].
    refine (IH _ v (Al v Ev) y z w E3 _ Ey).
    + intros a Ha. apply Hl. right; exact Ha.
    + eapply same_trans; [apply same_sym; exact Q|exact E4].
Qed.

Theorem sequential_ok : forall (s : seq_state Mod (list A)), (forall m, In m (map snd (s_mods s)) -> steady rep n (run m)) -> forall x, shaped rep n x -> defined_at rep g (fst x) ->
  throughout run (fun m u => shaped rep n u /\ defined_at rep g (fst u) /\ commutes rep half affine base g (run m) u) (map snd (s_mods s)) x -> commutes rep half affine base g (forward run fst teqb s) x.
Proof.
  intros s Hl x Sx Dfx Al y Hy. unfold forward in Hy. apply assert_Ret in Hy as (Q1 & Hy). apply bind_Ret in Hy as (v & Ev & Hy). apply assert_Ret in Hy as (Q2 & Hy). apply Ret_inj in Hy. subst v.
  destruct (move_normal rep half affine base g H0 H1 Hm n M Eb SM) as (W & t & Re). destruct (move_ok rep half affine base g n W t Re x Sx Dfx) as (x' & Ex & Tx & _).
  destruct (run_all _ Hl x Al y x' x' Ex (same_refl _) Ev) as (y' & z & E1 & E2 & E3). exists x', y', z. split; [exact Ex|]. split; [|auto].
  unfold forward. rewrite Tx, Q1. cbn [assert_ bind]. rewrite E1. cbn [bind].
  assert (Tz : fst z = fst y). { unfold moved_by in E2. apply bind_Ret in E2 as (q & _ & E2). apply Ret_inj in E2. subst z. reflexivity. }
  rewrite (proj1 E3), Tz, Q2. reflexivity.
Qed.
Lemma run_all_steady : forall l : list Mod, (forall m, In m l -> steady rep n (run m) /\ forall x y, run m x = Ret y -> shaped rep n x -> shaped rep n y) ->
  forall x x', shaped rep n x -> same_tensor x x' -> same_tensors (fold_left (fun r m => x <- r ;; run m x) l (Ret x)) (fold_left (fun r m => x <- r ;; run m x) l (Ret x')).
Proof.
  induction l as [|m l IH]; intros Hl x x' Sx S; [exact S|]. cbn [fold_left bind]. destruct (Hl m (or_introl eq_refl)) as (St & Sh). pose proof (St x x' Sx S) as Q.
  destruct (run m x) as [|y] eqn:Ey, (run m x') as [|y'] eqn:Ey'; try contradiction; [rewrite fold_raise; exact I|]. apply IH; [intros; apply Hl; right; assumption|exact (Sh x y Ey Sx)|exact Q].
Qed.
(** Sequences can be put in sequences. *)
Theorem sequential_steady : forall (s : seq_state Mod (list A)), (forall m, In m (map snd (s_mods s)) -> steady rep n (run m) /\ forall x y, run m x = Ret y -> shaped rep n x -> shaped rep n y) ->
  steady rep n (forward run fst teqb s).
Proof.
  intros s Hl x x' Sx S. unfold forward. rewrite <- (proj1 S). destruct (opt_eqb teqb (fst x) (s_in s)); [|exact I]. cbn [assert_ bind].
  pose proof (run_all_steady _ Hl x x' Sx S) as Q. destruct (fold_left _ _ (Ret x)) as [|y], (fold_left _ _ (Ret x')) as [|y']; try contradiction; [exact I|]. cbn [bind].
  rewrite <- (proj1 Q). destruct (opt_eqb teqb (fst y) (s_out s)); [exact Q|exact I].
Qed.
End Sequence.

(** ** Sums, multiples, direct sums *)
Lemma combine_ok : forall f, (exists u v, forall a b, f a b = u * a + v * b) -> forall teqb, (forall a b, teqb a b = true <-> a = b) ->
  forall x y z, shaped rep n x -> defined_at rep g (fst x) -> pointwise teqb f x y = Ret z ->
  exists x' y' z' w, move x = Ret x' /\ move y = Ret y' /\ pointwise teqb f x' y' = Ret z' /\ move z = Ret w /\ same_tensor z' w.
Proof.
  intros f (u & v & Ef) teqb teqb_ok x y z (B & ws & Ex & Ln) Dx Ez. unfold pointwise in Ez. apply assert_Ret in Ez as (Q1 & Ez). apply assert_Ret in Ez as (Q2 & Ez). apply Ret_inj in Ez.
  apply teqb_ok in Q1. apply shape_eqb_spec in Q2. pose proof (eq_trans (eq_sym Q2) Ex) as Ey. 
  destruct (move_normal rep half affine base g H0 H1 Hm n M Eb SM) as (W & t & Re). destruct (Re ws Ln) as (_ & Vt & On & H).
  assert (Ey' : shape (snd y) = B :: type_size size (fst y) :: ws) by (rewrite <- Q1; exact Ey).
  assert (Ezs : shape (snd z) = B :: type_size size (fst z) :: ws) by (subst z; exact Ex).
  destruct (H x B Dx Ex) as (x' & E1 & S1 & F1). destruct (H y B ltac:(rewrite <- Q1; exact Dx) Ey') as (y' & E2 & S2 & F2). destruct (H z B ltac:(subst z; exact Dx) Ezs) as (w & E3 & S3 & F3).
  exists (fst x, x'), (fst y, y'). eexists. exists (fst z, w). split; [exact E1|]. split; [exact E2|]. unfold pointwise. cbn [fst snd]. rewrite (proj2 (teqb_ok _ _) Q1). cbn [assert_ bind].
  rewrite S1, S2, <- Q1, shape_eqb_refl. cbn [assert_ bind]. split; [reflexivity|]. split; [exact E3|]. split; [subst z; reflexivity|]. cbn [snd fst].
  apply (same_image _ _ B (type_size size (fst x)) (W ws)); [reflexivity|subst z; exact S3|]. intros b k p Hb Hk Vp. destruct (On p Vp) as (i & Vi & <-).
  assert (Tz : fst z = fst x) by (subst z; reflexivity). cbn [entry]. rewrite F1 by assumption. rewrite F2 by (rewrite <- ?Q1; assumption). rewrite F3 by (rewrite ?Tz; assumption). rewrite Tz, <- Q1, Ef.
  rewrite <- !sumn_scal_l, <- sumn_plus. apply sumn_ext. intros j _. subst z. cbn [snd entry]. rewrite Ef. ring.
Qed.

Theorem sum_ok : forall teqb, (forall a b, teqb a b = true <-> a = b) -> forall x y, shaped rep n x -> defined_at rep g (fst x) ->
  (forall z, t_add teqb x y = Ret z -> exists x' y' z' w, move x = Ret x' /\ move y = Ret y' /\ t_add teqb x' y' = Ret z' /\ move z = Ret w /\ same_tensor z' w) /\
  (forall z, t_sub teqb x y = Ret z -> exists x' y' z' w, move x = Ret x' /\ move y = Ret y' /\ t_sub teqb x' y' = Ret z' /\ move z = Ret w /\ same_tensor z' w) /\
  forall c, exists x' w, move x = Ret x' /\ move (t_scale c x) = Ret w /\ same_tensor (t_scale c x') w.
Proof.
  intros teqb teqb_ok x y Sx Dx. split; [|split].
  - intros z. apply combine_ok; try assumption. exists 1, 1. intros; ring.
  - intros z. apply combine_ok; try assumption. exists 1, (-1). intros; ring.
  - intros c. destruct Sx as (B & ws & Ex & Ln). destruct (move_normal rep half affine base g H0 H1 Hm n M Eb SM) as (W & t & Re). destruct (Re ws Ln) as (_ & Vt & On & H).
    destruct (H x B Dx Ex) as (x' & E1 & S1 & F1). destruct (H (t_scale c x) B Dx Ex) as (w & E2 & S2 & F2). exists (fst x, x'), (fst x, w). split; [exact E1|]. split; [exact E2|]. split; [reflexivity|].
    apply (same_image _ _ B (type_size size (fst x)) (W ws)); [exact S1|exact S2|]. intros b k p Hb Hk Vp. destruct (On p Vp) as (i & Vi & <-). cbn [t_scale snd fst entry].
    rewrite F1 by assumption. rewrite F2 by assumption. rewrite <- sumn_scal_r. apply sumn_ext. intros j _. cbn [t_scale snd fst entry]. ring.
Qed.

Lemma tchans_length : forall x : tensor A, length (tchans x) = nth 1 (shape (snd x)) 0%nat.
Proof. intros x. unfold tchans. rewrite map_length, seq_length. reflexivity. Qed.
Lemma tchans_nth : forall (x : tensor A) k b p, (k < nth 1 (shape (snd x)) 0%nat)%nat -> nth k (tchans x) (fun _ _ => 0) b p = entry (snd x) (b :: k :: p).
Proof.
  intros x k b p Hk. unfold tchans. set (F := fun (o bt : nat) (q : list nat) => entry (snd x) (bt :: o :: q)).
  rewrite (nth_indep (map F _) (fun _ _ => 0) (F 0%nat)) by (rewrite map_length, seq_length; exact Hk). rewrite map_nth, seq_nth by exact Hk. reflexivity.
Qed.
Lemma flat_length : forall ts : list (tensor A), Forall (fun q => nth 1 (shape (snd q)) 0%nat = type_size size (fst q)) ts -> length (flat_map tchans ts) = type_size size (flat_map fst ts).
Proof. intros ts H. induction H as [|q l Hq H IH]; [reflexivity|]. cbn [flat_map]. rewrite app_length, size_app, tchans_length, IH, Hq. reflexivity. Qed.
Lemma flat_nth : forall pre q post k b p, Forall (fun q => nth 1 (shape (snd q)) 0%nat = type_size size (fst q)) (pre ++ q :: post) -> (k < type_size size (fst q))%nat ->
  nth (type_size size (flat_map fst pre) + k) (flat_map tchans (pre ++ q :: post)) (fun _ _ => 0) b p = entry (snd q) (b :: k :: p).
Proof.
  intros pre q post k b p H Hk. rewrite flat_map_app. cbn [flat_map]. apply Forall_app in H as (H & H'). inversion H' as [|? ? Hq _]; subst. rewrite <- (flat_length pre H).
  rewrite app_nth2_plus. rewrite app_nth1 by (rewrite tchans_length, Hq; exact Hk). apply tchans_nth. rewrite Hq. exact Hk.
Qed.
Lemma join_value : forall ts B ws c, ts <> [] -> Forall (fun q => shape (snd q) = B :: type_size size (fst q) :: ws) ts -> joins rep ts (flat_map fst ts, of_chans (B :: c :: ws) (flat_map tchans ts)).
Proof.
  intros ts B ws c Ne Sp. assert (Sp' : Forall (fun q => nth 1 (shape (snd q)) 0%nat = type_size size (fst q)) ts) by (revert Sp; apply Forall_impl; intros q ->; reflexivity).
  split; [reflexivity|]. cbn [fst snd]. split.
  - exists B, ws. split; [|exact Sp]. cbn [of_chans shape nth skipn]. rewrite flat_length by exact Sp'. reflexivity.
  - intros pre q post k b p -> Hk. cbn [of_chans entry]. apply flat_nth; assumption.
Qed.

Theorem directsum_ok : forall ts y, Forall (shaped rep n) ts -> Forall (fun x => defined_at rep g (fst x)) ts -> t_directsum size ts = Ret y ->
  joins rep ts y /\ exists ts' y' z, mapM move ts = Ret ts' /\ t_directsum size ts' = Ret y' /\ move y = Ret z /\ same_tensor y' z.
Proof.
  intros ts y Sh Df Ey. destruct (move_normal rep half affine base g H0 H1 Hm n M Eb SM) as (W & t & Re). unfold t_directsum in Ey. destruct ts as [|t0 ts0] eqn:Ets; [discriminate|].
  rewrite <- Ets in *. apply assert_Ret in Ey as (Q & Ey). apply bind_Ret in Ey as (ft & Ef & Ey). apply assert_Ret in Ey as (Ql & Ey). apply Ret_inj in Ey. unfold mk_type in Ef. apply assert_Ret in Ef as (Qn & Ef). apply Ret_inj in Ef. subst ft.
  assert (Ne : ts <> []) by (rewrite Ets; discriminate).
  assert (exists B ws, length ws = n /\ Forall (fun q => shape (snd q) = B :: type_size size (fst q) :: ws) ts /\ shape (snd t0) = B :: type_size size (fst t0) :: ws) as (B & ws & Ln & Sp & S0).
  { rewrite Ets in Sh |- *. destruct (Forall_inv Sh) as (B & ws & E0 & Ln). pose proof (Forall_inv_tail Sh) as Sh0. exists B, ws. split; [exact Ln|]. split; [|exact E0]. constructor; [exact E0|]. rewrite Forall_forall in *. intros q Hq. rewrite forallb_forall in Q. specialize (Q q Hq).
    apply andb_prop in Q as (Q & Q3). apply andb_prop in Q as (Q1 & Q2). apply Nat.eqb_eq in Q1, Q2. apply shape_eqb_spec in Q3. destruct (Sh0 q Hq) as (B' & ws' & E' & _). rewrite E0, E' in *. cbn in Q2, Q3. congruence. }
  rewrite S0 in Ey. pose proof (join_value ts B ws (type_size size (fst t0)) Ne Sp) as J. rewrite Ey in J. split; [exact J|].
  destruct (Re ws Ln) as (Lw & Vt & On & H).
  set (mv := fun q => match move q with Ret q' => q' | Raise => q end).
  assert (Hmv : forall q, In q ts -> move q = Ret (mv q) /\ fst (mv q) = fst q /\ shape (snd (mv q)) = B :: type_size size (fst q) :: W ws).
  { intros q Hq. rewrite Forall_forall in Sp, Df. destruct (H q B (Df q Hq) (Sp q Hq)) as (z & Ez & Sz & _). unfold mv. rewrite Ez. auto. }
  assert (Em : mapM move ts = Ret (map mv ts)) by (apply mapM_Ret_map; intros q Hq; apply Hmv, Hq). exists (map mv ts).
  assert (Sp' : Forall (fun q => shape (snd q) = B :: type_size size (fst q) :: W ws) (map mv ts)). { apply Forall_map, Forall_forall. intros q Hq. destruct (Hmv q Hq) as (_ & -> & ->). reflexivity. }
  assert (Ne' : map mv ts <> []) by (rewrite Ets; discriminate).
  pose proof (join_value (map mv ts) B (W ws) (type_size size (fst t0)) Ne' Sp') as J'.
  assert (Ft : flat_map fst (map mv ts) = flat_map fst ts). { clear - Hmv. induction ts as [|q l IH]; [reflexivity|]. cbn [map flat_map]. rewrite (proj1 (proj2 (Hmv q (or_introl eq_refl)))), IH by (intros; apply Hmv; right; assumption). reflexivity. }
  assert (Shy : shaped rep n y).
  { destruct J as (_ & (B' & ws' & Sy & _) & _). exists B', ws'. split; [exact Sy|]. rewrite <- Ey in Sy. cbn in Sy. injection Sy as _ _ <-. exact Ln. }
  assert (Dfy : defined_at rep g (fst y)) by (rewrite <- Ey; cbn [fst]; unfold defined_at; apply Forall_flat_map; exact Df).
  destruct (joins_move rep half affine base g n W t Re ts y (map mv ts) _ J Shy Dfy Em Ne J') as (z & Ez & Sz).
  - eexists. exists z. split; [exact Em|]. split; [|split; [exact Ez|exact Sz]].
    assert (Sm0 : shape (snd (mv t0)) = B :: type_size size (fst t0) :: W ws) by (apply Hmv; rewrite Ets; left; reflexivity).
    assert (Fb : forallb (fun q => let s := shape (snd q) in Nat.eqb (length (shape (snd (mv t0)))) (length s) && Nat.eqb (nth 0 (shape (snd (mv t0))) 0%nat) (nth 0 s 0%nat) && shape_eqb (skipn 2 (shape (snd (mv t0)))) (skipn 2 s)) (map mv ts0) = true).
    { apply forallb_forall. intros q Hq. rewrite Forall_forall in Sp'. rewrite Sm0. rewrite (Sp' q) by (rewrite Ets; right; exact Hq). cbn [length nth skipn]. rewrite !Nat.eqb_refl, shape_eqb_refl. reflexivity. }
    unfold t_directsum. rewrite Ets. cbn [map]. cbv zeta. cbv zeta in Fb. rewrite Fb. cbn [assert_ bind]. change (mv t0 :: map mv ts0) with (map mv (t0 :: ts0)). rewrite <- Ets. rewrite Ft. unfold mk_type. rewrite Qn. cbn [assert_ bind].
    assert (Lf : length (flat_map tchans (map mv ts)) = type_size size (flat_map fst ts)).
    { rewrite flat_length, Ft; [reflexivity|]. revert Sp'. apply Forall_impl. intros q ->. reflexivity. }
    rewrite Lf, Nat.eqb_refl, Sm0. cbn [assert_ bind]. reflexivity.
Qed.
End Thms.
