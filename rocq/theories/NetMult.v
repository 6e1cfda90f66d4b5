(** Reordering of fields, and modules in parallel on labelled fields. *)
From Coq Require Import String Ascii.
From Coq Require Import Reals ZArith Lia Lra Bool List Arith Permutation.
From Verif Require Import LibRes LibPy LibMat LibMatS FieldModel SpecField FieldProofs BranchProofs LabelThms MergeThms RepModel
  GridModel SpecGrid GridProofs GridThms ImageModel SpecImage ImageProofs MaskThms RdConvModel SpecBlocks RdConvProofs RdConvThms BlocksFwd FieldMapModel FieldMapProofs SpecFieldMap FieldMapThms SeqModel NetModel SpecNet NetProofs NetThms.
Import ListNotations.
Open Scope R_scope.

Section Mult.
Context {A T : Type}.
Variable rep : A -> repr T.
Notation size := (asize rep).
Variable teqb : list A -> list A -> bool.
Hypothesis teqb_ok : forall a b, teqb a b = true <-> a = b.

Lemma shaped_good : forall n (x : tensor A), shaped rep n x -> length (tchans x) = type_size size (fst x).
Proof. intros n x (B & ws & Ex & _). rewrite tchans_length, Ex. reflexivity. Qed.

Lemma on_chans_chooses : forall n sel (x : tensor A) (y : gtensor A chan), shaped rep n x -> length (g_chans y) = type_size size (g_type y) ->
  picks size (fst x) (tchans x) sel (g_type y) (g_chans y) -> chooses rep sel x (g_type y, of_chans (shape (snd x)) (g_chans y)).
Proof.
  intros n sel x y Sx Ly P. pose proof (shaped_good n x Sx) as Lx. destruct Sx as (B & ws & Ex & _). pose proof P as (E & _). split; [exact E|]. cbn [fst snd]. split.
  - exists B, ws. split; [exact Ex|]. cbn [of_chans shape]. rewrite Ex, Ly. reflexivity.
  - intros i s a o b p Es Ea Ho. cbn [of_chans entry]. pose proof (map_some_nth _ _ _ _ _ E Es) as Exs. rewrite Ea in Exs. symmetry in Exs.
    pose proof (picks_field size (fst x) (tchans x) sel (g_type y) (g_chans y) i s Lx P Es) as F. rewrite (field_chans_at size (g_type y) _ i a Ea), (field_chans_at size (fst x) _ s a Exs) in F.
    apply (f_equal (fun l => nth o l (fun _ _ => 0) b p)) in F. rewrite !nth_firstn_lt, !nth_skipn_add in F by exact Ho. refine (eq_trans F _).
    pose proof (start_bound size (fst x) s a Exs) as Bd. apply tchans_nth. rewrite Ex. cbn [nth]. lia.
Qed.

Section At.
Variables (half : R -> R) (affine : array R -> mat -> nat -> res (array R)) (base : T -> res (nat * mat)) (g : T).
Hypothesis H0 : half 0 = 0.
Hypothesis H1 : half 1 = 1.
Hypothesis Hm : half (-1) = -1.
Variables (n : nat) (M : mat).
Hypothesis Eb : base g = Ret (n, M).
Hypothesis SM : signed_perm n M.
Notation move := (moved_by rep half affine base g).

(** ** Maps that choose fields *)
Lemma chooser_ok : forall ft sel F, (forall x, shaped rep n x -> fst x = ft -> exists y, F x = Ret y /\ chooses rep sel x y) ->
  (forall x, shaped rep n x -> fst x <> ft -> F x = Raise) -> 
  steady rep n F /\ forall x, shaped rep n x -> defined_at rep g (fst x) -> commutes rep half affine base g F x.
Proof.
  intros ft sel F HF HN. assert (Sh : forall x x', same_tensor x x' -> shaped rep n x -> shaped rep n x').
  { intros x x' (Et & Es & _) (B & ws & Ex & Ln). exists B, ws. rewrite <- Es, <- Et. auto. }
  assert (Dec : forall x : tensor A, fst x = ft \/ fst x <> ft). { intros x. destruct (teqb (fst x) ft) eqn:E; [left; apply teqb_ok; exact E|right; intros K; apply teqb_ok in K; congruence]. }
  split.
  - intros x x' Sx S. destruct (Dec x) as [Tx|Nx].
    + destruct (HF x Sx Tx) as (y & Ey & C). destruct (HF x' (Sh x x' S Sx)) as (y' & Ey' & C'); [rewrite <- (proj1 S); exact Tx|]. rewrite Ey, Ey'. exact (chooses_same rep sel x y x' y' C C' S).
    + rewrite (HN x Sx Nx), (HN x' (Sh x x' S Sx)); [exact I|]. rewrite <- (proj1 S). exact Nx.
  - intros x Sx Dx y Ey. destruct (Dec x) as [Tx|Nx]; [|rewrite (HN x Sx Nx) in Ey; discriminate]. destruct (HF x Sx Tx) as (y0 & Ey0 & C). rewrite Ey in Ey0. apply Ret_inj in Ey0. subst y0.
    destruct (move_normal rep half affine base g H0 H1 Hm n M Eb SM) as (W & t & Re). destruct (move_ok rep half affine base g n W t Re x Sx Dx) as (x' & Ex & Tx' & Sx').
    destruct (HF x' Sx') as (y' & Ey' & C'); [congruence|]. destruct (chooses_move rep half affine base g n W t Re sel x y x' y' C Sx Dx Ex C') as (z & Ez & Sz). exists x', y', z. auto.
Qed.

Theorem reshuffle_ok : forall ft perm m, ft <> [] -> mk_reshuffle size ft perm = Ret m -> exists sel, perm = map Z.of_nat sel /\ (forall i, In i sel <-> (i < length ft)%nat) /\
  map (nth_error ft) sel = map Some (rs_out m) /\
  steady rep n (t_reshuffle size teqb m) /\ forall x, shaped rep n x -> fst x = ft ->
    (exists y, t_reshuffle size teqb m x = Ret y /\ fst y = rs_out m /\ forall i s a o b p, nth_error sel i = Some s -> nth_error ft s = Some a -> (o < size a)%nat ->
       entry (snd y) (b :: (field_start size (rs_out m) i + o)%nat :: p) = entry (snd x) (b :: (field_start size ft s + o)%nat :: p)) /\
    (defined_at rep g ft -> commutes rep half affine base g (t_reshuffle size teqb m) x).
Proof.
  intros ft perm m Nft Em. pose proof Em as Em0. unfold mk_reshuffle in Em0. apply assert_Ret in Em0 as (Q & Em0). apply andb_prop in Q as (Q1 & Q2). rewrite forallb_forall in Q1, Q2.
  set (sel := map Z.to_nat perm). assert (Ep : perm = map Z.of_nat sel).
  { unfold sel. rewrite map_map. rewrite <- (map_id perm) at 1. apply map_ext_in. intros z Hz. specialize (Q1 z Hz). apply andb_prop in Q1 as (Q1 & _). apply Z.leb_le in Q1. lia. }
  assert (Hs : forall i, In i sel <-> (i < length ft)%nat).
  { intros i. split.
    - intros Hi. apply in_map_iff in Hi as (z & <- & Hz). specialize (Q1 z Hz). apply andb_prop in Q1 as (Q1 & Q3). apply Z.leb_le in Q1. apply Z.ltb_lt in Q3. lia.
    - intros Hi. specialize (Q2 i). rewrite in_seq in Q2. specialize (Q2 ltac:(lia)). apply existsb_exists in Q2 as (z & Hz & Ez). apply Z.eqb_eq in Ez. apply in_map_iff. exists z. split; [lia|exact Hz]. }
  exists sel. split; [exact Ep|]. split; [exact Hs|]. rewrite Ep in Em.
  assert (Ne : sel <> []). { intros K. destruct ft as [|a l]; [congruence|]. assert (I0 : In 0%nat sel) by (apply Hs; cbn; lia). rewrite K in I0. destruct I0. }
  assert (Fs : Forall (fun i => (i < length ft)%nat) sel) by (apply Forall_forall; intros i; apply Hs).
  destruct (mk_reshuffle_ok size ft sel Fs (fun i => proj2 (Hs i)) Ne) as (out & Eo & Em'). rewrite Em in Em'. apply Ret_inj in Em'. 
  split; [rewrite Em'; exact Eo|].
  assert (HF : forall x, shaped rep n x -> fst x = ft -> exists y, t_reshuffle size teqb m x = Ret y /\ fst y = rs_out m /\ chooses rep sel x y).
  { intros x Sx Tx. destruct (reshuffle_forward_ok size teqb {| g_type := fst x; g_chans := tchans x |} m sel) as (y & Ro & Ey & Gy & Py); cbn [g_type g_chans]; rewrite ?Tx; try assumption.
    - unfold good. cbn [g_type g_chans]. rewrite <- Tx. apply (shaped_good n x Sx).
    - apply teqb_ok. reflexivity.
    - intros i Hi. apply Hs, Hi.
    - exists (g_type y, of_chans (shape (snd x)) (g_chans y)). rewrite Tx in Ey. split; [unfold t_reshuffle, on_chans; rewrite Tx, Ey; reflexivity|]. split; [cbn [fst]; congruence|]. apply (on_chans_chooses n sel x y Sx Gy). cbn [g_type g_chans] in Py. rewrite Tx in Py |- *. exact Py. }
  assert (HN : forall x, shaped rep n x -> fst x <> ft -> t_reshuffle size teqb m x = Raise).
  { intros x _ Nx. unfold t_reshuffle, on_chans, reshuffle_forward. cbn [g_type]. rewrite Em'. cbn [rs_in]. destruct (teqb (fst x) ft) eqn:E; [apply teqb_ok in E; congruence|reflexivity]. }
  destruct (chooser_ok ft sel (t_reshuffle size teqb m)) as (St & Co); [intros x Sx Tx; destruct (HF x Sx Tx) as (y & E1 & _ & E2); eauto|exact HN|].
  split; [exact St|]. intros x Sx Tx. split; [|intros Dx; apply Co; [exact Sx|rewrite Tx; exact Dx]].
  destruct (HF x Sx Tx) as (y & Ey & Ty & C). exists y. split; [exact Ey|]. split; [exact Ty|]. intros i s a o b p Es Ea Ho. destruct C as (E & _ & V). rewrite Tx in *. pose proof (map_some_nth _ _ _ _ _ E Es) as K. rewrite <- Ty. apply (V i s a); congruence.
Qed.
End At.
End Mult.
