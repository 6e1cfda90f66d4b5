(** Norm nonlinearities: what they compute, and equivariance. *)
From Coq Require Import Reals String List ZArith Arith Bool Lia Lra Permutation.
From Verif Require Import LibRes LibPy LibMat ParamModel ParamProofs FieldModel SpecField FieldProofs BranchProofs LabelThms MergeThms GroupedModel GroupedProofs
  NonlinModel SpecNonlin NonlinProofs.
Import ListNotations.
Open Scope R_scope.
Notation length := List.length.

(** *** imap and zip_with *)
Lemma imap_map : forall {X Y Z} (f : nat -> Y -> Z) (g : X -> Y) l k, imap f k (map g l) = imap (fun k x => f k (g x)) k l.
Proof. intros X Y Z f g l; induction l as [|a l IH]; intros k; cbn; [|rewrite IH]; reflexivity. Qed.
Lemma map_imap : forall {X Y Z} (f : nat -> X -> Y) (g : Y -> Z) l k, map g (imap f k l) = imap (fun k x => g (f k x)) k l.
Proof. intros X Y Z f g l; induction l as [|a l IH]; intros k; cbn; [|rewrite IH]; reflexivity. Qed.
Lemma imap_ext : forall {X Y} (f g : nat -> X -> Y) l k, (forall j x, In x l -> f j x = g j x) -> imap f k l = imap g k l.
Proof. intros X Y f g l; induction l as [|a l IH]; intros k H; cbn; [reflexivity|]. rewrite H by (left; reflexivity). rewrite IH; [reflexivity|]. intros; apply H; right; assumption. Qed.
Lemma imap_const : forall {X Y} (f : X -> Y) l k, imap (fun _ x => f x) k l = map f l.
Proof. intros X Y f l; induction l as [|a l IH]; intros k; cbn; [|rewrite IH]; reflexivity. Qed.
Lemma zip_imap : forall {X Y Z} (g : X -> Y -> Z) (f : nat -> X -> Y) l k, zip_with g l (imap f k l) = Ret (imap (fun k x => g x (f k x)) k l).
Proof.
  intros X Y Z g f l k. rewrite zip_with_ok by (rewrite imap_length; reflexivity). f_equal. revert k. induction l as [|a l IH]; intros k; cbn; [reflexivity|].
  rewrite IH. reflexivity.
Qed.
Lemma slice_at_S : forall {X} (b : list X) next n d, (next < length b)%nat -> slice_at next (S n) b = nth next b d :: slice_at (S next) n b.
Proof.
  intros X b; induction b as [|c b IH]; intros next n d H; [cbn in H; lia|]. destruct next as [|next]; [reflexivity|].
  change (slice_at (S next) (S n) (c :: b)) with (slice_at next (S n) b). rewrite (IH next n d) by (cbn in H; lia). reflexivity.
Qed.
Lemma slice_imap : forall {X Y} (b : list Y) (d : Y) (l : list X) next, (next + length l <= length b)%nat ->
  slice_at next (length l) b = imap (fun k _ => nth k b d) next l.
Proof.
  intros X Y b d l; induction l as [|a l IH]; intros next H; [reflexivity|]. cbn [length imap] in *.
  rewrite (slice_at_S b next (length l) d) by lia. rewrite IH by lia. reflexivity.
Qed.
Lemma zip_slice : forall {X Y Z} (g : X -> Y -> Z) l (b : list Y) d next, (next + length l <= length b)%nat ->
  zip_with g l (slice_at next (length l) b) = Ret (imap (fun k x => g x (nth k b d)) next l).
Proof. intros X Y Z g l b d next H. rewrite (slice_imap b d l next H). apply zip_imap. Qed.

(** *** the functions *)
Lemma norm_function_named : forall sp name bias f, norm_function sp name bias = Ret f -> named name f.
Proof.
  intros sp name bias f. unfold norm_function, named.
  destruct (String.eqb_spec name "n_relu") as [E|_]; [intros H; apply Ret_inj in H; subst f; left; split; [exact E|reflexivity]|].
  destruct (String.eqb_spec name "n_sigmoid") as [E|_].
  { intros H; apply Ret_inj in H; subst f; right; left; split; [exact E|]. intros t. unfold sigmoid, Rdiv. ring. }
  destruct (sp && String.eqb name "n_softplus") eqn:E.
  { apply andb_prop in E. destruct E as [_ E]. apply String.eqb_eq in E. intros H; apply Ret_inj in H; subst f; right; right; left. split; [exact E|].
    unfold softplus. split; intros t Ht; unfold Rleb; destruct (Rle_dec t 20) as [K|K]; try reflexivity; exfalso; lra. }
  destruct (String.eqb_spec name "squash") as [E'|_]; [|discriminate].
  destruct (sp && bias); [discriminate|]. intros H; apply Ret_inj in H; subst f; right; right; right. split; [exact E'|reflexivity].
Qed.
Lemma enorm_nonneg : forall v, 0 <= enorm v.
Proof. intros v. apply sqrt_pos. Qed.
Definition bias_of (biases : option (list R)) (k : nat) : R := match biases with Some b => nth k b 0 | None => 0 end.
Lemma multiplier_factor : forall fn b v, multiplier (vnorm v) (fn (vnorm v - b)) = norm_factor fn b (enorm v).
Proof.
  intros fn b v. rewrite vnorm_enorm. unfold multiplier, norm_factor, eps, Rleb.
  replace (1 / 10 ^ 10) with (/ 10 ^ 10) by (unfold Rdiv; ring). destruct (Rle_dec (enorm v) (/ 10 ^ 10)) as [H|H]; [reflexivity|].
  rewrite Rmax_left by lra. reflexivity.
Qed.

Lemma combine_app2 : forall {X Y} (l l' : list X) (m m' : list Y), length l = length m -> List.combine (l ++ l') (m ++ m') = (List.combine l m ++ List.combine l' m')%list.
Proof. intros X Y l; induction l as [|a l IH]; intros l' [|b m] m' E; cbn in *; try discriminate; [reflexivity|]. rewrite IH by lia. reflexivity. Qed.
Lemma flat_imap_length : forall {X Y Z} (g : X -> list Y) (q : nat) (e : nat -> X -> Z) l next, (forall x, In x l -> length (g x) = q) ->
  length (flat_map g l) = length (flat_map (fun c => repeat c q) (imap e next l)).
Proof.
  intros X Y Z g q e l; induction l as [|a l IH]; intros next H; [reflexivity|]. cbn [flat_map imap]. rewrite !app_length, repeat_length.
  rewrite (H a) by (left; reflexivity). f_equal. apply IH. intros; apply H; right; assumption.
Qed.
Lemma zip_blocks : forall {X Y} (g : X -> list Y) (q : nat) (h : Y -> R -> R) (b : list R) (l : list X) next,
  (forall x, In x l -> length (g x) = q) -> (next + length l <= length b)%nat ->
  zip_with h (flat_map g l) (flat_map (fun c => repeat c q) (slice_at next (length l) b)) =
  Ret (concat (imap (fun k x => map (fun a => h a (nth k b 0)) (g x)) next l)).
Proof.
  intros X Y g q h b l next H B. rewrite (slice_imap b 0 l next B). rewrite zip_with_ok.
  - f_equal. clear B. revert next. induction l as [|a l IH]; intros next; [reflexivity|]. cbn [flat_map imap concat].
    rewrite combine_app2 by (rewrite repeat_length; apply H; left; reflexivity). rewrite map_app. rewrite IH by (intros; apply H; right; assumption). f_equal.
    rewrite combine_repeat by (apply H; left; reflexivity). rewrite map_map. reflexivity.
  - apply flat_imap_length, H.
Qed.
Lemma zip_flat : forall {X Y Z} (g : X -> list Y) (h : Y -> R -> Z) (e : nat -> X -> Y -> R) (l : list X) next,
  zip_with h (flat_map g l) (concat (imap (fun k x => map (e k x) (g x)) next l)) =
  Ret (concat (imap (fun k x => map (fun a => h a (e k x a)) (g x)) next l)).
Proof.
  intros X Y Z g h e l next. rewrite zip_with_ok.
  - f_equal. revert next. induction l as [|a l IH]; intros next; [reflexivity|]. cbn [flat_map imap concat].
    rewrite combine_app2 by (rewrite map_length; reflexivity). rewrite map_app, IH. f_equal. clear.
    induction (g a) as [|b m IH]; cbn; [|rewrite IH]; reflexivity.
  - revert next. induction l as [|a l IH]; intros next; [reflexivity|]. cbn [flat_map imap concat]. rewrite !app_length, map_length. f_equal. apply IH.
Qed.

(** *** NormNonLinearity *)
Section Norm.
Context {A : Type}.
Variable size : A -> nat.
Variable supported : A -> list nonlin.
Variable teqb : list A -> list A -> bool.
Notation forward := (norm_forward size teqb).
Notation pos_sizes ft := (Forall (fun r => (0 < size r)%nat) ft).

Lemma nat_eqb_ok : forall a b, Nat.eqb a b = true <-> a = b.
Proof. exact Nat.eqb_eq. Qed.

Lemma norm_group_ok : forall f biases nf s next (bs : list (list R)), (0 < s)%nat -> Forall (fun b => length b = s) bs -> nf s = length bs ->
  (forall b, biases = Some b -> (next + length bs <= length b)%nat) ->
  norm_group f biases nf s next (concat bs) = Ret (concat (imap (fun k v => repeat (norm_factor f (bias_of biases k) (enorm v)) s) next bs)).
Proof.
  intros f biases nf s next bs Ps F En Hb. unfold norm_group. rewrite (view_concat s bs Ps F). cbn [bind].
  assert (multipliers f (option_map (slice_at next (nf s)) biases) (map vnorm bs) = Ret (imap (fun k v => norm_factor f (bias_of biases k) (enorm v)) next bs)) as ->.
  { unfold multipliers. destruct biases as [b|]; cbn [option_map].
    - rewrite En, <- (map_length vnorm bs). rewrite (zip_slice Rminus _ b 0) by (rewrite map_length; apply Hb; reflexivity). cbn [bind].
      rewrite imap_map, map_imap. rewrite <- (imap_map (fun k n => f (n - nth k b 0)) vnorm). rewrite zip_imap, imap_map. f_equal.
      apply imap_ext. intros j v _. apply multiplier_factor.
    - cbn [bind]. rewrite map_map, <- (imap_const vnorm bs next) at 1. rewrite zip_with_ok by (rewrite imap_length, map_length; reflexivity). f_equal.
      clear. revert next. induction bs as [|v bs IH]; intros next; [reflexivity|]. cbn [imap map List.combine fst snd]. rewrite IH. f_equal.
      rewrite <- multiplier_factor. cbn [bias_of]. rewrite Rminus_0_r. reflexivity. }
  cbn [bind]. f_equal. rewrite flat_map_concat_map, map_imap. reflexivity.
Qed.

Theorem norm_value : forall ft name bias m, pos_sizes ft -> mk_norm size supported ft name bias = Ret m ->
  exists fn sel, named name fn /\ Permutation sel (seq 0 (length ft)) /\
  forall x log_bias junk, g_type x = ft -> good size x -> teqb ft ft = true -> length log_bias = length ft -> length junk = type_size size ft ->
  exists y, forward m log_bias junk x = Ret y /\ g_type y = ft /\ good size y /\
    forall k i, nth_error sel k = Some i -> field_chans size ft (g_chans y) i =
      scaled (norm_factor fn (bias_at bias log_bias k) (enorm (field_chans size ft (g_chans x) i))) (field_chans size ft (g_chans x) i).
Proof.
  intros ft name bias m P Em. unfold mk_norm in Em. apply bind_Ret in Em. destruct Em as (u0 & _ & Em). clear u0. apply bind_Ret in Em. destruct Em as (f & Ef & Em).
  apply bind_Ret in Em. destruct Em as (bufs & Eb & Em). apply Ret_inj in Em; subst m.
  exists f, (flat_map (labelled Nat.eqb (map size ft)) (sort_by Nat.leb (map fst bufs))). split; [eapply norm_function_named; exact Ef|].
  assert (Permutation (sort_by Nat.leb (map fst bufs)) (map fst bufs)) as Po by apply sort_perm.
  pose (core := fun (bs : option (list R)) (Hb : forall b, bs = Some b -> length b = length ft) (x junk : list R) (Lx : length x = type_size size ft)
     (Lj : length junk = type_size size ft) =>
    in_place size Nat.eqb nat_eqb_ok (fun s => s) ft (map size ft) bufs (sort_by Nat.leb (map fst bufs))
      (norm_group f bs (nfields Nat.eqb (map size ft))) (fun s k v => repeat (norm_factor f (bias_of bs k) (enorm v)) s) x junk
      (map_length size ft) P
      ltac:(intros i r s E1 E2; rewrite nth_error_map, E2 in E1; injection E1 as <-; reflexivity) Eb Po Lx Lj
      ltac:(intros s next B _ L1 L2 F Ps _; apply norm_group_ok; [exact Ps|exact F|symmetry; exact L1|intros b E; rewrite (Hb b E); exact L2])
      ltac:(intros s k b _ _; apply repeat_length)).
  split.
  - apply (core None ltac:(discriminate) (repeat 0 (type_size size ft)) (repeat 0 (type_size size ft)) (repeat_length _ _) (repeat_length _ _)).
  - intros x log_bias junk Ex Gx Et Lb Lj. unfold norm_forward. cbn [nm_type nm_bias nm_buffers nm_order nm_function].
    rewrite Ex, Et. cbn [assert_ bind].
    set (bs := if bias then Some (map exp log_bias) else None).
    assert (forall b, bs = Some b -> length b = length ft) as Hb.
    { unfold bs. destruct bias; intros b E; [|discriminate]. injection E as <-. rewrite map_length. exact Lb. }
    assert (length (g_chans x) = type_size size ft) as Lx by (rewrite <- Ex; exact Gx).
    destruct (core bs Hb (g_chans x) junk Lx Lj) as (Ps & out & El & Lo & Ho). rewrite El. cbn [bind].
    rewrite zip_with_ok by lia. cbn [bind]. unfold mk_gtensor. rewrite map_length, combine_length, Lx, Lo, Nat.min_id, Nat.eqb_refl. cbn [assert_ bind].
    eexists. split; [reflexivity|]. split; [reflexivity|]. split; [red; cbn [g_chans g_type]; rewrite map_length, combine_length; lia|].
    intros k i Ek. cbn [g_chans].
    assert (i < length ft)%nat as Hi.
    { assert (In i (seq 0 (length ft))) as H by (apply (Permutation_in _ Ps), (nth_error_In _ _ Ek)). apply in_seq in H. lia. }
    destruct (nth_error ft i) as [r|] eqn:Er; [|apply nth_error_None in Er; lia].
    rewrite field_map, field_combine by lia. rewrite (Ho k i (size r) Ek) by (rewrite nth_error_map, Er; reflexivity).
    rewrite combine_repeat by (apply field_chans_length; assumption). rewrite map_map. unfold scaled. apply map_ext. intros a. cbn [fst snd].
    assert (bias_of bs k = bias_at bias log_bias k) as ->.
    { unfold bs, bias_of, bias_at. destruct bias; [|reflexivity]. assert (k < length log_bias)%nat as Hk.
      { rewrite Lb, <- (seq_length (length ft) 0), <- (Permutation_length Ps). apply nth_error_Some. congruence. }
      rewrite (nth_indep _ 0 (exp 0)) by (rewrite map_length; exact Hk). apply map_nth. }
    ring.
Qed.

(** a field-wise rescaling by a factor that the action keeps commutes with the action *)
Lemma scaling_commutes : forall ft (rho : A -> mat) x x' y y' (sel : list nat) (c : nat -> list R -> R), Permutation sel (seq 0 (length ft)) ->
  length x = type_size size ft -> length y = type_size size ft -> length y' = type_size size ft ->
  (forall k i, nth_error sel k = Some i -> field_chans size ft y i = scaled (c k (field_chans size ft x i)) (field_chans size ft x i)) ->
  (forall k i, nth_error sel k = Some i -> field_chans size ft y' i = scaled (c k (field_chans size ft x' i)) (field_chans size ft x' i)) ->
  (forall i r k, nth_error ft i = Some r -> c k (mv (size r) (rho r) (field_chans size ft x i)) = c k (field_chans size ft x i)) ->
  acts size ft rho x x' -> acts size ft rho y y'.
Proof.
  intros ft rho x x' y y' sel c Ps Lx Ly Ly' Hy Hy' Hc [Lx' Hx]. split; [exact Ly'|]. intros i r Er.
  assert (In i sel) as Hi. { apply (Permutation_in _ (Permutation_sym Ps)), in_seq. assert (i < length ft)%nat by (apply nth_error_Some; congruence). lia. }
  apply In_nth_error in Hi. destruct Hi as [k Ek]. rewrite (Hy k i Ek), (Hy' k i Ek), (Hx i r Er), (Hc i r k Er).
  symmetry. apply scaled_mv. apply field_chans_length; assumption.
Qed.

Theorem norm_equivariant : forall ft name bias m, pos_sizes ft -> mk_norm size supported ft name bias = Ret m ->
  forall (rho : A -> mat) x x' log_bias junk junk', g_type x = ft -> g_type x' = ft -> good size x -> teqb ft ft = true ->
  length log_bias = length ft -> length junk = type_size size ft -> length junk' = type_size size ft ->
  Forall (fun r => orthogonal (size r) (rho r)) ft -> acts size ft rho (g_chans x) (g_chans x') ->
  exists y y', forward m log_bias junk x = Ret y /\ forward m log_bias junk' x' = Ret y' /\
    g_type y = ft /\ g_type y' = ft /\ acts size ft rho (g_chans y) (g_chans y').
Proof.
  intros ft name bias m P Em rho x x' lb junk junk' Ex Ex' Gx Et Lb Lj Lj' O Ha.
  destruct (norm_value ft name bias m P Em) as (fn & sel & _ & Ps & H).
  assert (good size x') as Gx' by (red; rewrite Ex'; apply (proj1 Ha)).
  destruct (H x lb junk Ex Gx Et Lb Lj) as (y & Ey & Ty & Gy & Hy). destruct (H x' lb junk' Ex' Gx' Et Lb Lj') as (y' & Ey' & Ty' & Gy' & Hy').
  exists y, y'. repeat split; try assumption; [red in Gy'; rewrite Ty' in Gy'; exact Gy'|].
  red in Gx, Gy, Gy'. rewrite Ex in Gx. rewrite Ty in Gy. rewrite Ty' in Gy'.
  refine (proj2 (scaling_commutes ft rho (g_chans x) (g_chans x') _ _ sel (fun k v => norm_factor fn (bias_at bias lb k) (enorm v)) Ps Gx Gy Gy' Hy Hy' _ Ha)).
  intros i r k Er. cbn beta. rewrite enorm_orth; [reflexivity| |]; [apply field_chans_length; assumption|].
  rewrite Forall_forall in O. apply O. apply nth_error_In in Er. exact Er.
Qed.
(** when the constructor accepts *)
Theorem norm_built : forall ft name bias, pos_sizes ft ->
  ((exists m, mk_norm size supported ft name bias = Ret m) <->
   Forall (fun r => In NL_norm (supported r)) ft /\ (In name ["n_relu"; "n_sigmoid"; "n_softplus"]%string \/ (name = "squash"%string /\ bias = false))).
Proof.
  intros ft name bias P. destruct (buffers_ok size Nat.eqb nat_eqb_ok ft (map size ft) (map_length _ _) P) as (bufs & Eb & _).
  assert (forallb (supports supported NL_norm) ft = true <-> Forall (fun r => In NL_norm (supported r)) ft) as Hs.
  { rewrite forallb_forall, Forall_forall. split; intros H r Hr; specialize (H r Hr).
    - unfold supports in H. apply existsb_exists in H. destruct H as (nl & Hn & E). destruct nl; cbn in E; try discriminate. exact Hn.
    - unfold supports. apply existsb_exists. exists NL_norm. split; [exact H|reflexivity]. }
  split.
  - intros [m Em]. unfold mk_norm in Em. apply bind_Ret in Em. destruct Em as (? & Ea & Em). apply bind_Ret in Em. destruct Em as (f & Ef & Em). split.
    + apply Hs. destruct (forallb (supports supported NL_norm) ft); [reflexivity|discriminate].
    + revert Ef. clear. unfold norm_function. cbn [andb].
      destruct (String.eqb_spec name "n_relu"); [subst; intros _; left; cbn; auto|].
      destruct (String.eqb_spec name "n_sigmoid"); [subst; intros _; left; cbn; auto|].
      destruct (String.eqb_spec name "n_softplus"); [subst; intros _; left; cbn; auto|].
      destruct (String.eqb_spec name "squash"); [|discriminate]. destruct bias; [discriminate|]. intros _; right; auto.
  - intros [H1 H2]. unfold mk_norm. apply Hs in H1. rewrite H1. cbn [assert_ bind].
    assert (exists f, norm_function true name bias = Ret f) as [f Ef].
    { destruct H2 as [[<-|[<-|[<-|[]]]]|[-> ->]]; cbn; eexists; reflexivity. }
    rewrite Ef. cbn [bind]. rewrite Eb. cbn [bind]. eexists. reflexivity.
Qed.
End Norm.
