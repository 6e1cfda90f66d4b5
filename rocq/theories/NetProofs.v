(** How a transform acts on the entries, and maps that select and join fields. *)
From Coq Require Import String Ascii.
From Coq Require Import Reals ZArith Lia Lra Bool List Arith Permutation.
From Verif Require Import LibRes LibPy LibMat LibMatS FieldModel SpecField FieldProofs BranchProofs LabelThms MergeThms RepModel
  GridModel SpecGrid GridProofs GridThms ImageModel SpecImage ImageProofs MaskThms RdConvModel SpecBlocks RdConvProofs RdConvThms BlocksFwd FieldMapModel FieldMapProofs NetModel SpecNet.
Import ListNotations.
Open Scope R_scope.

Lemma same_array_refl : forall {X} (x : array X), same_array x x.
Proof. intros X x. split; reflexivity. Qed.
Lemma same_array_sym : forall {X} (x y : array X), same_array x y -> same_array y x.
Proof. intros X x y (S & E). split; [symmetry; exact S|]. intros idx V. symmetry. apply E. rewrite S. exact V. Qed.
Lemma same_array_trans : forall {X} (x y z : array X), same_array x y -> same_array y z -> same_array x z.
Proof. intros X x y z (S & E) (S' & E'). split; [congruence|]. intros idx V. rewrite E by exact V. apply E'. rewrite <- S. exact V. Qed.
Lemma same_refl : forall {A} (x : tensor A), same_tensor x x.
Proof. intros A x. split; [reflexivity|apply same_array_refl]. Qed.
Lemma same_sym : forall {A} (x y : tensor A), same_tensor x y -> same_tensor y x.
Proof. intros A x y (E & S). split; [auto|apply same_array_sym, S]. Qed.
Lemma same_trans : forall {A} (x y z : tensor A), same_tensor x y -> same_tensor y z -> same_tensor x z.
Proof. intros A x y z (E & S) (E' & S'). split; [congruence|]. eapply same_array_trans; eassumption. Qed.

(** the entries of an image: batch, channel, position *)
Lemma same_image : forall (x y : array R) B c ws, shape x = B :: c :: ws -> shape y = B :: c :: ws ->
  (forall b k p, (b < B)%nat -> (k < c)%nat -> valid ws p -> entry x (b :: k :: p) = entry y (b :: k :: p)) -> same_array x y.
Proof.
  intros x y B c ws Sx Sy H. split; [congruence|]. intros idx V. rewrite Sx in V. inversion V as [|b ? i1 ? Hb V1]; subst. inversion V1 as [|k ? p ? Hk V2]; subst. apply H; assumption.
Qed.
Lemma same_entry : forall (x y : array R) B c ws b k p, same_array x y -> shape x = B :: c :: ws -> (b < B)%nat -> (k < c)%nat -> valid ws p -> entry x (b :: k :: p) = entry y (b :: k :: p).
Proof. intros x y B c ws b k p (_ & E) Sx Hb Hk V. apply E. rewrite Sx. constructor; [exact Hb|]. constructor; [exact Hk|exact V]. Qed.

(** ** Transforms *)
Section Move.
Context {A T : Type}.
Variables (rep : A -> repr T) (half : R -> R) (affine : array R -> mat -> nat -> res (array R)) (base : T -> res (nat * mat)) (g : T).
Hypothesis H0 : half 0 = 0.
Hypothesis H1 : half 1 = 1.
Hypothesis Hm : half (-1) = -1.
Variables (n : nat) (M : mat).
Hypothesis Eb : base g = Ret (n, M).
Hypothesis SM : signed_perm n M.
Notation size := (asize rep).
Notation rho := (dg size (fun a => value_at g (rep a))).
Notation move := (moved_by rep half affine base g).

(** A reordering of the positions of an image of sizes [ws] *)
Definition relocates (W : list nat -> list nat) (t : list nat -> list nat -> list nat) : Prop := forall ws, length ws = n ->
  length (W ws) = n /\ (forall i, valid ws i -> valid (W ws) (t ws i)) /\ (forall p, valid (W ws) p -> exists i, valid ws i /\ t ws i = p) /\
  forall (x : tensor A) B, defined_at rep g (fst x) -> shape (snd x) = B :: type_size size (fst x) :: ws ->
  exists y, move x = Ret (fst x, y) /\ shape y = B :: type_size size (fst x) :: W ws /\
    forall b k i, (b < B)%nat -> (k < type_size size (fst x))%nat -> valid ws i ->
      entry y (b :: k :: t ws i) = sumn (type_size size (fst x)) (fun j => rho (fst x) k j * entry (snd x) (b :: j :: i)).

Lemma move_normal : exists W t, relocates W t.
Proof.
  destruct (signed_perm_does n M SM) as (p & s & D). pose proof (proj1 D) as P.
  exists (pshape n p), (act n p s). intros ws Ln. split; [apply pshape_length|]. split; [intros i V; apply act_valid; assumption|].
  split; [intros q V; apply act_onto; assumption|]. intros x B Hd Ex. set (c := type_size size (fst x)) in *.
  destruct (transform_ok half H0 H1 Hm affine c (rho (fst x)) n M (snd x) B ws SM Ex Ln) as (x1 & y & E1 & Ey & S1 & F1 & M1). rewrite Ex in S1.
  apply (moved_iff _ x1 y 2 n M p s [B; c] ws D S1 eq_refl Ln) in M1 as (Sy & G). cbn [app] in Sy. exists y. split.
  - unfold moved_by, field_transform. rewrite (fiber_matrix_ok rep (fst x) g Hd). cbn [bind]. rewrite Eb. cbn [bind fst snd]. change (type_size (asize rep) (fst x)) with c. rewrite Ey. reflexivity.
  - split; [exact Sy|]. intros b k i Hb Hk Vi. rewrite <- F1. apply (G [b; k] i); [|exact Vi]. apply valid_nth. split; [reflexivity|]. intros [|[|?]] Hq; cbn in *; lia.
Qed.

(** *** selecting fields *)
Notation chooses := (SpecNet.chooses rep).
Lemma chosen_at : forall sel x y k, chooses sel x y -> (k < type_size size (fst y))%nat -> exists i s a o, nth_error sel i = Some s /\ nth_error (fst y) i = Some a /\
  nth_error (fst x) s = Some a /\ (o < size a)%nat /\ k = (field_start size (fst y) i + o)%nat /\ (field_start size (fst x) s + o < type_size size (fst x))%nat.
Proof.
  intros sel x y k (E & _ & _) Hk. destruct (in_field size (fst y) k Hk) as (i & a & Ea & Hi).
  assert (Li : (i < length sel)%nat). { rewrite <- (map_some_length _ _ _ E). apply nth_error_Some. congruence. }
  destruct (nth_error sel i) as [s|] eqn:Es; [|apply nth_error_None in Es; lia]. pose proof (map_some_nth _ _ _ _ _ E Es) as Ex. rewrite Ea in Ex.
  exists i, s, a, (k - field_start size (fst y) i)%nat. pose proof (start_bound size (fst x) s a (eq_sym Ex)) as Bd. repeat split; try assumption; try lia. symmetry; exact Ex.
Qed.

Lemma chooses_same : forall sel x y x' y', chooses sel x y -> chooses sel x' y' -> same_tensor x x' -> same_tensor y y'.
Proof.
  intros sel x y x' y' C C' (Et & S). pose proof C as (E & (B & ws & Sx & Sy) & V). pose proof C' as (E' & (B' & ws' & Sx' & Sy') & V').
  assert (Ey : fst y = fst y'). { rewrite <- Et in E'. rewrite E in E'. clear - E'. revert E'. generalize (fst y'). induction (fst y) as [|a l IH]; intros [|b m] H; try discriminate; [reflexivity|]. injection H as -> H. f_equal. apply IH, H. }
  split; [exact Ey|]. assert (B' = B /\ ws' = ws) as (-> & ->) by (destruct S as (S & _); rewrite Sx, Sx' in S; injection S as -> _ ->; auto).
  apply (same_image _ _ B (type_size size (fst y)) ws Sy); [rewrite Ey; exact Sy'|]. intros b k p Hb Hk Vp.
  destruct (chosen_at sel x y k C Hk) as (i & s & a & o & Es & Ea & Ex & Ho & -> & Bd). rewrite (V i s a o) by assumption. rewrite Ey in *. rewrite (V' i s a o) by assumption. rewrite <- Et.
  apply (same_entry _ _ B (type_size size (fst x)) ws); assumption.
Qed.

Lemma dg_sum' : forall (l : list A) i a o (v : nat -> R), nth_error l i = Some a -> (o < size a)%nat ->
  sumn (type_size size l) (fun j => rho l (field_start size l i + o)%nat j * v j) = sumn (size a) (fun j => value_at g (rep a) o j * v (field_start size l i + j)%nat).
Proof. intros l i a o v Ea Ho. exact (dg_sum rep (fun a => value_at g (rep a)) l i a o v Ea Ho). Qed.

Lemma chosen_defined : forall sel x y, chooses sel x y -> defined_at rep g (fst x) -> defined_at rep g (fst y).
Proof.
  intros sel x y (E & _) D. unfold defined_at in *. rewrite Forall_forall in *. intros a Ha. apply D. clear - E Ha. revert E Ha. generalize (fst y). induction sel as [|s l IH]; intros [|b m] E Ha; try discriminate; [destruct Ha|].
  injection E as E1 E2. destruct Ha as [->|Ha]; [eapply nth_error_In; eassumption|eauto].
Qed.

Section Placed.
Variables (W : list nat -> list nat) (t : list nat -> list nat -> list nat).
Hypothesis Re : relocates W t.

Lemma move_ok : forall x, shaped rep n x -> defined_at rep g (fst x) -> exists x', move x = Ret x' /\ fst x' = fst x /\ shaped rep n x'.
Proof.
  intros x (B & ws & Ex & Ln) Hd. destruct (Re ws Ln) as (Lw & _ & _ & H). destruct (H x B Hd Ex) as (y & Ey & Sy & _).
  exists (fst x, y). split; [exact Ey|]. split; [reflexivity|]. exists B, (W ws). auto.
Qed.

Lemma chooses_move : forall sel x y x' y', chooses sel x y -> shaped rep n x -> defined_at rep g (fst x) -> move x = Ret x' -> chooses sel x' y' ->
  exists z, move y = Ret z /\ same_tensor y' z.
Proof.
  intros sel x y x' y' C (B0 & ws0 & Ex0 & Ln) Hd Em C'. pose proof C as (E & (B & ws & Sx & Sy) & V). pose proof C' as (E' & (B' & ws' & Sx' & Sy') & V').
  rewrite Sx in Ex0. injection Ex0 as <- <-. destruct (Re ws Ln) as (Lw & Vt & On & H).
  destruct (H x B Hd Sx) as (x2 & Ex2 & S2 & F2). rewrite Em in Ex2. apply Ret_inj in Ex2. subst x'. cbn [fst snd] in *.
  destruct (H y B (chosen_defined sel x y C Hd) Sy) as (z & Ez & Sz & Fz). exists (fst y, z). split; [exact Ez|].
  assert (Ey : fst y' = fst y). { rewrite E in E'. clear - E'. revert E'. generalize (fst y'). induction (fst y) as [|a l IH]; intros [|b m] K; try discriminate; [reflexivity|]. injection K as -> K. f_equal. apply IH, K. }
  split; [exact Ey|]. cbn [snd]. rewrite S2 in Sx'. injection Sx' as <- <-. rewrite Ey in *.
  apply (same_image _ _ B (type_size size (fst y)) (W ws) Sy' Sz). intros b k p Hb Hk Vp. destruct (On p Vp) as (i & Vi & <-).
  rewrite Fz by assumption. destruct (chosen_at sel x y k C Hk) as (f & s & a & o & Es & Ea & Exs & Ho & -> & Bd).
  rewrite (V' f s a o) by assumption. rewrite F2 by assumption. rewrite (dg_sum' (fst x) s a o) by assumption. rewrite (dg_sum' (fst y) f a o) by assumption.
  apply sumn_ext. intros j Hj. rewrite (V f s a j) by assumption. reflexivity.
Qed.
End Placed.

(** *** joining tensors *)
Notation joins := (SpecNet.joins rep).
Lemma size_app : forall l m : list A, type_size size (l ++ m) = (type_size size l + type_size size m)%nat.
Proof. intros l m. unfold type_size. rewrite map_app, list_sum_app. reflexivity. Qed.
Lemma joined_at : forall (parts : list (tensor A)) k, (k < type_size size (flat_map fst parts))%nat -> exists pre q post j, parts = pre ++ q :: post /\ (j < type_size size (fst q))%nat /\
  k = (type_size size (flat_map fst pre) + j)%nat.
Proof.
  induction parts as [|q l IH]; intros k Hk; [cbn in Hk; lia|]. cbn [flat_map] in Hk. rewrite size_app in Hk. destruct (Nat.lt_ge_cases k (type_size size (fst q))) as [L|L].
  - exists [], q, l, k. auto.
  - destruct (IH (k - type_size size (fst q))%nat) as (pre & r & post & j & -> & Hj & Ek); [lia|]. exists (q :: pre), r, post, j. split; [reflexivity|]. split; [exact Hj|]. cbn [flat_map]. rewrite size_app. lia.
Qed.
Lemma start_app : forall (l m : list A) i, field_start size (l ++ m) (length l + i) = (type_size size l + field_start size m i)%nat.
Proof. intros l m i. unfold field_start. rewrite firstn_app_2, map_app, list_sum_app. reflexivity. Qed.
Lemma start_pre : forall (m l : list A) i, (i < length m)%nat -> field_start size (m ++ l) i = field_start size m i.
Proof. intros m l i H. unfold field_start. rewrite firstn_app. replace (i - length m)%nat with 0%nat by lia. rewrite firstn_O, app_nil_r. reflexivity. Qed.

Lemma joins_same : forall parts parts' y y', joins parts y -> joins parts' y' -> Forall2 same_tensor parts parts' -> parts <> [] -> same_tensor y y'.
Proof.
  intros parts parts' y y' (E & (B & ws & Sy & Sp) & V) (E' & (B' & ws' & Sy' & Sp') & V') F Ne.
  assert (Et : flat_map fst parts = flat_map fst parts') by (clear - F; induction F as [|a b l m (H & _) F IH]; [reflexivity|]; cbn [flat_map]; congruence).
  assert (B' = B /\ ws' = ws) as (-> & ->).
  { clear - F Ne Sp Sp'. destruct F as [|q q' l l' (Hq & Hs & _) F]; [congruence|]. inversion Sp as [|? ? K1 _]; subst. inversion Sp' as [|? ? K2 _]; subst. rewrite K1, K2 in Hs. injection Hs as -> _ ->. auto. }
  split; [congruence|]. apply (same_image _ _ B (type_size size (fst y)) ws Sy); [rewrite E, Et, <- E'; exact Sy'|]. intros b k p Hb Hk Vp. rewrite E in Hk.
  destruct (joined_at parts k Hk) as (pre & q & post & j & Ep & Hj & ->). subst parts. apply Forall2_app_inv_l in F as (pre' & l' & F1 & F2 & Ep'). inversion F2 as [|? q' ? post' Sq F3]; subst.
  rewrite (V pre q post j) by auto. assert (flat_map fst pre = flat_map fst pre') as -> by (clear - F1; induction F1 as [|a b l m (H & _) F IH]; [reflexivity|]; cbn [flat_map]; congruence).
  rewrite (V' pre' q' post' j); [|reflexivity|rewrite <- (proj1 Sq); exact Hj]. rewrite Forall_forall in Sp. apply (same_entry _ _ B (type_size size (fst q)) ws); try assumption; [apply Sq|]. apply Sp, in_elt.
Qed.

Lemma joins_move : forall W t, relocates W t -> forall parts y parts' y', joins parts y -> shaped rep n y -> defined_at rep g (fst y) -> mapM move parts = Ret parts' -> parts <> [] ->
  joins parts' y' -> exists z, move y = Ret z /\ same_tensor y' z.
Proof.
  intros W t Re parts y parts' y' (E & (B & ws & Sy & Sp) & V) (B0 & ws0 & Ey0 & Ln) Hd Em Ne (E' & (B' & ws' & Sy' & Sp') & V').
  rewrite Sy in Ey0. injection Ey0 as <- <-. destruct (Re ws Ln) as (Lw & Vt & On & H).
  destruct (H y B Hd Sy) as (z & Ez & Sz & Fz). exists (fst y, z). split; [exact Ez|].
  assert (Dp : forall q, In q parts -> defined_at rep g (fst q)).
  { intros q Hq. unfold defined_at in *. rewrite Forall_forall in *. intros a Ha. apply Hd. rewrite E. apply in_flat_map. eauto. }
  assert (F : Forall2 (fun q q' => fst q' = fst q /\ shape (snd q') = B :: type_size size (fst q) :: W ws /\
     forall b k i, (b < B)%nat -> (k < type_size size (fst q))%nat -> valid ws i -> entry (snd q') (b :: k :: t ws i) = sumn (type_size size (fst q)) (fun j => rho (fst q) k j * entry (snd q) (b :: j :: i))) parts parts').
  { apply mapM_Ret_inv in Em. clear - Em H Sp Dp. induction Em as [|q q' l l' Eq Em IH]; [constructor|]. inversion Sp as [|? ? K1 K2]; subst. constructor; [|apply IH; [exact K2|intros; apply Dp; right; assumption]].
    destruct (H q B (Dp q (or_introl eq_refl)) K1) as (y & Ey & S & F). rewrite Ey in Eq. apply Ret_inj in Eq. subst q'. auto. }
  assert (Et : flat_map fst parts' = flat_map fst parts) by (clear - F; induction F as [|a b l m (K & _) F IH]; [reflexivity|]; cbn [flat_map]; congruence).
  assert (B' = B /\ ws' = W ws) as (-> & ->).
  { clear - F Ne Sp'. destruct F as [|q q' l l' (Hq & Hs & _) F]; [exfalso; apply Ne; reflexivity|]. inversion Sp' as [|? ? K1 _]; subst. rewrite K1 in Hs. injection Hs as -> _ ->. auto. }
  assert (Ey : fst y' = fst y) by congruence. split; [exact Ey|]. cbn [snd]. rewrite Ey in Sy'.
  apply (same_image _ _ B (type_size size (fst y)) (W ws) Sy' Sz). intros b k p Hb Hk Vp. destruct (On p Vp) as (i & Vi & <-). rewrite Fz by assumption.
  rewrite E in Hk. destruct (joined_at parts k Hk) as (pre & q & post & j & Ep & Hj & ->). rewrite Ep in F. apply Forall2_app_inv_l in F as (pre' & l' & F1 & F2 & Ep'). inversion F2 as [|? q' ? post' (Q1 & Q2 & Q3) F3]; subst l'.
  assert (Epre : flat_map fst pre' = flat_map fst pre) by (clear - F1; induction F1 as [|c d l m (K & _) F IH]; [reflexivity|]; cbn [flat_map]; congruence).
  rewrite <- Epre at 1. rewrite (V' pre' q' post' j _ _ Ep') by (rewrite Q1; exact Hj). rewrite Q3 by assumption.
  destruct (in_field size (fst q) j Hj) as (f & a & Ea & Hf). assert (Lf : (f < length (fst q))%nat) by (apply nth_error_Some; congruence).
  assert (exists o, j = (field_start size (fst q) f + o)%nat /\ (o < size a)%nat) as (o & -> & Ho) by (exists (j - field_start size (fst q) f)%nat; lia).
  assert (Efy : fst y = flat_map fst pre ++ fst q ++ flat_map fst post) by (rewrite E, Ep, flat_map_app; reflexivity).
  assert (Ef : nth_error (fst y) (length (flat_map fst pre) + f) = Some a). { rewrite Efy. rewrite nth_error_app2 by lia. replace (_ - _)%nat with f by lia. rewrite nth_error_app1 by exact Lf. exact Ea. }
  assert (Es : field_start size (fst y) (length (flat_map fst pre) + f) = (type_size size (flat_map fst pre) + field_start size (fst q) f)%nat) by (rewrite Efy, start_app, start_pre by exact Lf; reflexivity).
  replace (type_size size (flat_map fst pre) + (field_start size (fst q) f + o))%nat with (field_start size (fst y) (length (flat_map fst pre) + f) + o)%nat by (rewrite Es; lia).
  rewrite (dg_sum' (fst q) f a o) by assumption. rewrite (dg_sum' (fst y) _ a o) by assumption. apply sumn_ext. intros c Hc. rewrite Es. f_equal. symmetry.
  pose proof (start_bound size (fst q) f a Ea) as Bd. rewrite <- Nat.add_assoc. apply (V pre q post); [exact Ep|lia].
Qed.
End Move.
