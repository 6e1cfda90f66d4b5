(** The tensor product of two representations takes the tensor products of their
    values. *)
From Coq Require Import Reals ZArith Bool List Arith Lia Lra.
From Verif Require Import LibRes LibMat LibMatS IrrepModel SpecIrrep RepModel SpecRepr RepProofs RestrictProofs TensorModel SpecTensor TensorProofs.
Import ListNotations.
Open Scope R_scope.

(** the matrix of the coefficients of copy [s] *)
Definition slice (a : arr4) (s : nat) : mat := fun r c => a_at a (r / a_d1 a)%nat (r mod a_d1 a)%nat s c.

Lemma sumn_pairs : forall n m f, (0 < m)%nat -> sumn (n * m) (fun r => f (r / m)%nat (r mod m)%nat) = sumn n (fun x => sumn m (fun y => f x y)).
Proof.
  intros n m f Hm. rewrite sumn_mul. apply sumn_ext; intros x _. apply sumn_ext; intros y Hy.
  replace ((x * m + y) / m)%nat with x by (rewrite Nat.add_comm, Nat.div_add by lia; rewrite Nat.div_small by lia; lia).
  replace ((x * m + y) mod m)%nat with y by (rewrite Nat.add_comm, Nat.mod_add by lia; rewrite Nat.mod_small by lia; lia). reflexivity.
Qed.

Lemma slice_meets : forall a A B D s, (0 < a_d1 a)%nat -> (s < a_d2 a)%nat -> cg_intertwines a A B D ->
  meq (a_d0 a * a_d1 a) (a_d3 a) (mmul (a_d0 a * a_d1 a) (kron (a_d1 a) (a_d1 a) A B) (slice a s)) (mmul (a_d3 a) (slice a s) D).
Proof.
  intros a A B D s H1 Hs I r c Hr Hc. unfold mmul at 1. unfold slice at 1, kron.
  rewrite (sumn_pairs (a_d0 a) (a_d1 a) (fun x y => A (r / a_d1 a)%nat x * B (r mod a_d1 a)%nat y * a_at a x y s c)) by exact H1.
  rewrite (I (r / a_d1 a)%nat (r mod a_d1 a)%nat s c); [reflexivity| | |exact Hs|exact Hc].
  - apply Nat.div_lt_upper_bound; lia.
  - apply Nat.mod_upper_bound; lia.
Qed.
Lemma slice_columns : forall a b s s' i i', a_d1 b = a_d1 a -> (0 < a_d1 a)%nat ->
  mmul (a_d0 a * a_d1 a) (mtr (slice a s)) (slice b s') i i' = sumn (a_d0 a) (fun x => sumn (a_d1 a) (fun y => a_at a x y s i * a_at b x y s' i')).
Proof.
  intros a b s s' i i' E H. unfold mmul, mtr, slice. rewrite E.
  apply (sumn_pairs (a_d0 a) (a_d1 a) (fun x y => a_at a x y s i * a_at b x y s' i')); exact H.
Qed.

(** `reshape(-1, d3 * d2)` puts the copies side by side *)
Lemma reshape2_slices : forall a, (0 < a_d1 a)%nat -> (0 < a_d2 a)%nat -> (0 < a_d3 a)%nat -> exists B,
  reshape2 a (a_d3 a * a_d2 a) = Ret ((a_d0 a * a_d1 a)%nat, B) /\
  meq (a_d0 a * a_d1 a) (a_d3 a * a_d2 a) B (hcat (map (fun s => (a_d3 a, slice a s)) (seq 0 (a_d2 a)))).
Proof.
  intros a H1 H2 H3. unfold reshape2.
  assert (T : (a_d0 a * a_d1 a * a_d2 a * a_d3 a = (a_d0 a * a_d1 a) * (a_d3 a * a_d2 a))%nat) by lia. rewrite T.
  destruct (Nat.ltb_spec 0 (a_d3 a * a_d2 a)); [|nia]. rewrite Nat.mod_mul by lia. rewrite Nat.div_mul by lia. cbn [assert_ bind Nat.eqb].
  eexists. split; [reflexivity|]. intros r c Hr Hc. cbv beta zeta.
  assert (Hs : forall n k x, (x < n * a_d3 a)%nat -> hcat (map (fun s => (a_d3 a, slice a s)) (seq k n)) r x = slice a (k + x / a_d3 a)%nat r (x mod a_d3 a)%nat).
  { induction n as [|n IH]; intros k x Hx; [lia|]. cbn [seq map hcat]. destruct (Nat.ltb_spec x (a_d3 a)).
    - rewrite Nat.div_small, Nat.mod_small, Nat.add_0_r by lia. reflexivity.
    - rewrite IH by nia. replace x with ((x - a_d3 a) + 1 * a_d3 a)%nat at 3 4 by lia. rewrite Nat.div_add, Nat.mod_add by lia. f_equal; lia. }
  rewrite Hs by lia. unfold slice. cbn [Nat.add].
  pose proof (Nat.div_mod c (a_d3 a) ltac:(lia)) as Dc. pose proof (Nat.mod_upper_bound c (a_d3 a) ltac:(lia)) as Mc.
  pose proof (Nat.div_lt_upper_bound c (a_d3 a) (a_d2 a) ltac:(lia) Hc) as Lc.
  set (x := (c / a_d3 a)%nat) in *. set (y := (c mod a_d3 a)%nat) in *.
  set (p := (r * (a_d3 a * a_d2 a) + c)%nat).
  assert (E1 : (p / a_d3 a = r * a_d2 a + x)%nat) by (symmetry; apply (Nat.div_unique p (a_d3 a) (r * a_d2 a + x) y); unfold p; lia).
  assert (E2 : (p mod a_d3 a = y)%nat) by (symmetry; apply (Nat.mod_unique p (a_d3 a) (r * a_d2 a + x) y); unfold p; lia).
  assert (E3 : ((p / a_d3 a) mod a_d2 a = x)%nat) by (rewrite E1; symmetry; apply (Nat.mod_unique _ (a_d2 a) r x); lia).
  assert (E4 : (p / (a_d2 a * a_d3 a) = r)%nat).
  { rewrite (Nat.mul_comm (a_d2 a)), <- Nat.div_div by lia. rewrite E1. symmetry; apply (Nat.div_unique _ (a_d2 a) r x); lia. }
  assert (E5 : (p / (a_d1 a * a_d2 a * a_d3 a) = r / a_d1 a)%nat).
  { rewrite <- (Nat.mul_assoc (a_d1 a)), (Nat.mul_comm (a_d1 a)), <- Nat.div_div by lia. rewrite E4. reflexivity. }
  rewrite E2, E3, E4, E5. reflexivity.
Qed.

(** ** Entries of assembled matrices *)
Definition entries (E : R -> Prop) (n : nat) (Y : mat) : Prop := forall i j, (i < n)%nat -> (j < n)%nat -> E (Y i j).
Lemma bdiag_entries : forall (E : R -> Prop) l, E 0 -> Forall (fun p => entries E (fst p) (snd p)) l -> forall i j, E (bdiag l i j).
Proof.
  intros E l E0 F. induction F as [|[n A] l H F IH]; intros i j; [exact E0|]. cbn [bdiag fst snd] in *.
  destruct (Nat.ltb_spec i n); destruct (Nat.ltb_spec j n); try exact E0; [apply H; assumption|apply IH].
Qed.
Lemma hcat_entries : forall (E : R -> Prop) N l, E 0 -> Forall (fun u => forall i j, (i < N)%nat -> (j < fst u)%nat -> E (snd u i j)) l -> forall i j, (i < N)%nat -> E (hcat l i j).
Proof.
  intros E N l E0 F. induction F as [|[n A] l H F IH]; intros i j Hi; [exact E0|]. cbn [hcat fst snd] in *.
  destruct (Nat.ltb_spec j n); [apply H; assumption|apply IH; exact Hi].
Qed.
Lemma sum_pick : forall n p m, (forall c, (c < n)%nat -> p c = 0 \/ p c = 1) -> sumn n (fun c => p c * p c) = 1 -> exists c, (c < n)%nat /\ sumn n (fun c => p c * m c) = m c.
Proof.
  induction n as [|n IH]; intros p m H S1; cbn [sumn] in *; [lra|]. destruct (H n ltac:(lia)) as [Z|Z]; rewrite Z in *.
  - destruct (IH p m) as (c & Hc & Ec); [intros c Hc; apply H; lia|lra|]. exists c. split; [lia|]. rewrite Ec. ring.
  - exists n. split; [lia|]. rewrite sumn_0; [ring|]. intros c Hc.
    assert (Z0 : p c = 0) by (apply (sumn_sq_zero n p); [lra|exact Hc]). rewrite Z0. ring.
Qed.

Section Tensor.
Context {T : Type}.
Variable irr : list Z -> res (girrep T).
Variable linv : nat -> mat -> res mat.
Variable tensor : list Z -> list Z -> res (list (list Z * nat)).
Variable cg : list Z -> list Z -> list Z -> res arr4.
Variable mem : T -> Prop.
Variable ok : list Z -> Prop.
Hypothesis Total : forall j, ok j -> exists r, irr j = Ret r /\ gi_id r = j /\ (0 < gi_size r)%nat /\
  forall g, mem g -> exists D, gi_rep r g = Ret (gi_size r, D).
Hypothesis Sound : forall m n, ok m -> ok n -> sound_pair irr mem ok tensor cg m n.
Variable coef : R -> Prop.
Hypothesis coef0 : coef 0.
Hypothesis Coeffs : forall m n l j k a, ok m -> ok n -> tensor m n = Ret l -> In (j, k) l -> cg m n j = Ret a ->
  forall x y s z, (x < a_d0 a)%nat -> (y < a_d1 a)%nat -> (s < a_d2 a)%nat -> (z < a_d3 a)%nat -> coef (a_at a x y s z).

(** what the loop over the second irreps leaves for one pair *)
Definition pair_ok (r1 : girrep T) (id2 : list Z) (x : (nat * mat) * list (list Z)) : Prop :=
  exists r2, irr id2 = Ret r2 /\ fst (fst x) = (gi_size r1 * gi_size r2)%nat /\ (orthogonal (fst (fst x)) (snd (fst x)) /\ entries coef (fst (fst x)) (snd (fst x))) /\
  Forall ok (snd x) /\ total_size irr (snd x) (fst (fst x)) /\
  forall g A B, mem g -> gi_rep r1 g = Ret (gi_size r1, A) -> gi_rep r2 g = Ret (gi_size r2, B) ->
    exists V, values irr (snd x) g = Ret V /\ bsize V = fst (fst x) /\
      meq (fst (fst x)) (fst (fst x)) (mmul (fst (fst x)) (kron (gi_size r2) (gi_size r2) A B) (snd (fst x))) (mmul (fst (fst x)) (snd (fst x)) (bdiag V)).

Lemma FOP_app : forall X (Q : X -> X -> Prop) l m, ForallOrdPairs Q l -> ForallOrdPairs Q m -> (forall x y, In x l -> In y m -> Q x y) -> ForallOrdPairs Q (l ++ m).
Proof.
  intros X Q l m Fl Fm C. induction Fl as [|x l Fx Fl IH]; [exact Fm|]. cbn. constructor.
  - apply Forall_app. split; [exact Fx|]. apply Forall_forall. intros y Hy. apply C; [left; reflexivity|exact Hy].
  - apply IH. intros a b Ha Hb. apply C; [right; exact Ha|exact Hb].
Qed.
Lemma total_app : forall l m a b, total_size irr l a -> total_size irr m b -> total_size irr (l ++ m) (a + b).
Proof.
  intros l m a b (x & Ex & Sx) (y & Ey & Sy). exists (x ++ y). split; [|rewrite map_app, list_sum_app; lia].
  revert x Ex Sx. induction l as [|i l IH]; intros x Ex Sx; cbn [mapM app] in *.
  - apply Ret_inj in Ex. subst x. exact Ey.
  - apply bind_Ret in Ex as (r & Er & Ex). apply bind_Ret in Ex as (x' & Ex' & Ex). apply Ret_inj in Ex. subst x. rewrite Er. cbn [bind].
    assert (Q : mapM irr (l ++ m) = Ret (x' ++ y)).
    { clear - Ex' Ey. revert x' Ex'. induction l as [|j l IH]; intros x' Ex'; cbn [mapM app] in *; [apply Ret_inj in Ex'; subst x'; exact Ey|].
      apply bind_Ret in Ex' as (q & Eq & Ex'). apply bind_Ret in Ex' as (z & Ez & Ex'). apply Ret_inj in Ex'. subst x'. rewrite Eq, (IH z Ez). reflexivity. }
    rewrite Q. reflexivity.
Qed.
Lemma values_app' : forall l m g x y, values irr l g = Ret x -> values irr m g = Ret y -> values irr (l ++ m) g = Ret (x ++ y).
Proof.
  intros l m g x y Ex Ey. revert x Ex. induction l as [|i l IH]; intros x Ex; unfold values in *; cbn [mapM app] in *; [apply Ret_inj in Ex; subst x; exact Ey|].
  apply bind_Ret in Ex as (q & Eq & Ex). apply bind_Ret in Ex as (z & Ez & Ex). apply Ret_inj in Ex. subst x. rewrite Eq. cbn [bind]. rewrite (IH z Ez). reflexivity.
Qed.

Section Pair.
Variables (m n : list Z) (rm rn : girrep T) (l : list (list Z * nat)).
Hypothesis Em : irr m = Ret rm.
Hypothesis En : irr n = Ret rn.
Hypothesis Pos : (0 < gi_size rn)%nat.
Hypothesis Each : forall j k, In (j, k) l -> (0 < k)%nat /\ ok j /\ exists r a, irr j = Ret r /\ gi_id r = j /\ cg m n j = Ret a /\
     (0 < gi_size r)%nat /\ a_d0 a = gi_size rm /\ a_d1 a = gi_size rn /\ a_d2 a = k /\ a_d3 a = gi_size r /\ cg_orthonormal a /\
     forall g A B D, mem g -> gi_rep rm g = Ret (gi_size rm, A) -> gi_rep rn g = Ret (gi_size rn, B) -> gi_rep r g = Ret (gi_size r, D) ->
       cg_intertwines a A B D.
Hypothesis Cross : forall j k j' k' a b, In (j, k) l -> In (j', k') l -> j <> j' -> cg m n j = Ret a -> cg m n j' = Ret b -> cg_separated a b.
Let N := (gi_size rm * gi_size rn)%nat.
(** a part of the matrix comes from copy [s] of the summand [j] *)
Definition part_of (l' : list (list Z * nat)) (u : nat * mat) : Prop :=
  exists j k a s, In (j, k) l' /\ cg m n j = Ret a /\ (s < k)%nat /\ u = (a_d3 a, slice a s).

Lemma pair_loop : forall l', incl l' l -> NoDup (map fst l') -> exists U ids,
  (forall size irreps, summands irr l' size irreps = Ret ((size + bsize U)%nat, irreps ++ ids)) /\
  (forall p i cob, exists cob', columns irr cg m n l' p N i cob = Ret ((i + bsize U)%nat, cob') /\
     forall a b, cob' a b = fill cob p N (p + i) (bsize U) (hcat U) a b) /\
  Forall (part_of l') U /\
  Forall (fun u => meq (fst u) (fst u) (mmul N (mtr (snd u)) (snd u)) mid) U /\
  ForallOrdPairs (fun u v => meq (fst u) (fst v) (mmul N (mtr (snd u)) (snd v)) mzero) U /\
  Forall ok ids /\ total_size irr ids (bsize U) /\
  (forall g A B, mem g -> gi_rep rm g = Ret (gi_size rm, A) -> gi_rep rn g = Ret (gi_size rn, B) ->
     exists V, values irr ids g = Ret V /\
       Forall2 (fun u b => fst u = fst b /\ meq N (fst u) (mmul N (kron (gi_size rn) (gi_size rn) A B) (snd u)) (mmul (fst u) (snd u) (snd b))) U V).
Proof.
  induction l' as [|[j k] l' IH]; intros I ND.
  - exists [], []. split; [intros; cbn; rewrite Nat.add_0_r, app_nil_r; reflexivity|]. split.
    { intros p i cob. exists cob. cbn. rewrite Nat.add_0_r. split; [reflexivity|]. intros a b. unfold fill.
      destruct (Nat.leb_spec (p + i) b); destruct (Nat.ltb_spec b (p + i + 0)); try lia; rewrite ?andb_false_r; cbn [andb]; reflexivity. }
    split; [constructor|]. split; [constructor|]. split; [constructor|]. split; [constructor|]. split; [exists []; split; reflexivity|].
    intros. exists []. split; [reflexivity|constructor].
  - inversion ND as [|? ? Nj ND']; subst. destruct (IH (fun x H => I x (or_intror H)) ND') as (U & ids & S1 & C1 & P1 & O1 & X1 & K1 & T1 & V1). clear IH.
    destruct (Each j k (I (j, k) (or_introl eq_refl))) as (Hk & Oj & r & a & Er & Idr & Ea & Hr & D0 & D1 & D2 & D3 & Or & Int).
    set (W := map (fun s => (a_d3 a, slice a s)) (seq 0 k)).
    assert (SW : bsize W = (gi_size r * k)%nat).
    { unfold W. rewrite D3. clear. generalize 0%nat. induction k as [|k IH]; intros b; cbn [seq map bsize]; [lia|]. rewrite IH. lia. }
    destruct (reshape2_slices a) as (B & EB & MB); try lia. assert (MB' : meq N (gi_size r * k) B (hcat W)) by (unfold N, W; rewrite <- D0, <- D1, <- D2, <- D3; exact MB). clear MB. rename MB' into MB. rewrite D0, D1, D2, D3 in EB. fold N in EB.
    exists (W ++ U), (repeat j k ++ ids).
    split; [intros; cbn [summands]; rewrite Er; cbn [bind]; rewrite Idr, S1, bsize_app, SW; rewrite <- app_assoc; do 2 f_equal; lia|].
    split.
    { intros p i cob. destruct (C1 p (i + gi_size r * k)%nat (fill cob p N (p + i) (gi_size r * k) B)) as (cob' & E' & F'). exists cob'.
      cbn [columns]. rewrite Er. cbn [bind]. rewrite Idr, Ea. cbn [bind]. rewrite EB. cbn [bind fst snd]. rewrite Nat.eqb_refl. cbn [assert_ bind].
      rewrite E', bsize_app, SW. split; [do 2 f_equal; lia|]. intros x y. rewrite F', Nat.add_assoc, fill_columns.
      apply fill_ext; [reflexivity|]. intros u v Hu Hv. rewrite hcat_app, SW. destruct (Nat.ltb_spec v (gi_size r * k)); [apply MB; lia|reflexivity]. }
    assert (PW : Forall (part_of ((j, k) :: l')) W).
    { unfold W. apply Forall_map. apply Forall_forall. intros s Hs. apply in_seq in Hs. exists j, k, a, s. split; [left; reflexivity|]. split; [exact Ea|]. split; [lia|reflexivity]. }
    split; [apply Forall_app; split; [exact PW|]; eapply Forall_impl; [|exact P1]; intros u (j' & k' & a' & s' & H1 & H2); exists j', k', a', s'; split; [right; exact H1|exact H2]|].
    assert (NN : N = (a_d0 a * a_d1 a)%nat) by (unfold N; lia).
    split.
    { apply Forall_app. split; [|exact O1]. unfold W. apply Forall_map. apply Forall_forall. intros s Hs. apply in_seq in Hs. cbn [fst snd]. intros x y Hx Hy.
      rewrite NN, slice_columns by lia. rewrite (Or s x s y) by lia. rewrite Nat.eqb_refl. reflexivity. }
    split.
    { apply FOP_app; [|exact X1|].
      - unfold W. clear - Or D1 D2 Hk NN Pos. assert (G : forall len b, (b + len <= k)%nat -> ForallOrdPairs (fun u v : nat * mat => meq (fst u) (fst v) (mmul N (mtr (snd u)) (snd v)) mzero) (map (fun s => (a_d3 a, slice a s)) (seq b len))).
        { induction len as [|len IH]; intros b L; cbn [seq map]; constructor; [|apply IH; lia].
          apply Forall_map. apply Forall_forall. intros s Hs. apply in_seq in Hs. cbn [fst snd]. intros x y Hx Hy. rewrite NN, slice_columns by lia.
          rewrite (Or b x s y) by lia. destruct (Nat.eqb_spec b s); [lia|reflexivity]. }
        apply G. lia.
      - intros u v Hu Hv. rewrite Forall_forall in P1. destruct (P1 v Hv) as (j' & k' & a' & s' & H1 & H2 & H3 & ->).
        unfold W in Hu. apply in_map_iff in Hu. destruct Hu as (s & <- & Hs). apply in_seq in Hs. cbn [fst snd]. intros x y Hx Hy.
        destruct (Each j' k' (I (j', k') (or_intror H1))) as (_ & _ & r' & a'' & _ & _ & Ea'' & _ & _ & D1' & D2' & _ & _). rewrite H2 in Ea''. apply Ret_inj in Ea''. subst a''.
        assert (Nq : j <> j') by (intros ->; apply Nj; exact (in_map fst _ _ H1)).
        rewrite NN, slice_columns by lia.
        exact (Cross j k j' k' a a' (I (j, k) (or_introl eq_refl)) (I (j', k') (or_intror H1)) Nq Ea H2 s x s' y ltac:(lia) Hx ltac:(lia) Hy). }
    split; [apply Forall_app; split; [apply Forall_forall; intros z Hz; apply repeat_spec in Hz; subst z; exact Oj|exact K1]|].
    split.
    { rewrite bsize_app. apply total_app; [|exact T1]. rewrite SW. exists (repeat r k). split.
      - clear - Er. induction k as [|k IH]; [reflexivity|]. cbn [repeat mapM]. rewrite Er. cbn [bind]. rewrite IH. reflexivity.
      - clear. induction k as [|k IH]; cbn [repeat map list_sum fold_right]; [lia|]. fold (list_sum (map gi_size (repeat r k))). rewrite IH. lia. }
    intros g A B' Hg EA EB'. destruct (V1 g A B' Hg EA EB') as (V & EV & FV).
    destruct (Total j Oj) as (r0 & Er0 & _ & _ & Vr). rewrite Er in Er0. apply Ret_inj in Er0. subst r0. destruct (Vr g Hg) as (D & ED).
    exists (repeat (gi_size r, D) k ++ V). split.
    { apply values_app'; [|exact EV]. clear - Er ED. unfold values. induction k as [|k IH]; [reflexivity|]. cbn [repeat mapM]. rewrite Er. cbn [bind]. rewrite ED. cbn [bind]. rewrite IH. reflexivity. }
    apply Forall2_app; [|exact FV]. unfold W.
    assert (One : forall s, (s < k)%nat -> meq N (gi_size r) (mmul N (kron (gi_size rn) (gi_size rn) A B') (slice a s)) (mmul (gi_size r) (slice a s) D)).
    { intros s Hs. rewrite NN, <- D1, <- D3. apply slice_meets; [lia|lia|]. exact (Int g A B' D Hg EA EB' ED). }
    clear - One D3. assert (G : forall len b, (b + len <= k)%nat -> Forall2 (fun u b : nat * mat => fst u = fst b /\ meq N (fst u) (mmul N (kron (gi_size rn) (gi_size rn) A B') (snd u)) (mmul (fst u) (snd u) (snd b)))
      (map (fun s => (a_d3 a, slice a s)) (seq b len)) (repeat (gi_size r, D) len)).
    { induction len as [|len IH]; intros b L; cbn [seq map repeat]; constructor; [|apply IH; lia]. cbn [fst snd]. rewrite D3. split; [reflexivity|]. apply One. lia. }
    apply G. lia.
Qed.
End Pair.

Lemma summands_size : forall l ds, mapM (fun p => r <- irr (fst p) ;; Ret (gi_size r * snd p)%nat) l = Ret ds ->
  forall size irreps x, summands irr l size irreps = Ret x -> fst x = (size + list_sum ds)%nat.
Proof.
  induction l as [|[j k] l IH]; intros ds E size irreps x Ex; cbn [mapM summands] in *.
  - apply Ret_inj in E. apply Ret_inj in Ex. subst. cbn. lia.
  - apply bind_Ret in E as (d & Ed & E). apply bind_Ret in Ed as (r & Er & Ed). apply Ret_inj in Ed. apply bind_Ret in E as (ds' & Eds & E). apply Ret_inj in E. subst d ds.
    cbn [fst snd] in *. rewrite Er in Ex. cbn [bind] in Ex. rewrite (IH ds' Eds _ _ _ Ex). cbn [list_sum fold_right]. fold (list_sum ds'). lia.
Qed.

(** one pair of irreps *)
Lemma pair_step : forall id1 id2 r1 r2, ok id1 -> ok id2 -> irr id1 = Ret r1 -> irr id2 = Ret r2 -> exists l x,
  tensor id1 id2 = Ret l /\ pair_ok r1 id2 x /\
  (forall irreps, summands irr l 0 irreps = Ret ((gi_size r1 * gi_size r2)%nat, irreps ++ snd x)) /\
  (forall L, exists cob', forall cob, (forall a b, cob a b = bdiag L a b) -> columns irr cg id1 id2 l (bsize L) (gi_size r1 * gi_size r2) 0 cob = Ret ((gi_size r1 * gi_size r2)%nat, cob' cob) /\
     forall a b, cob' cob a b = bdiag (L ++ [fst x]) a b).
Proof.
  intros id1 id2 r1 r2 O1 O2 E1 E2. destruct (Sound id1 id2 O1 O2) as (rm & rn & l & Em & En & El & ND & Each & Cross & ds & Ed & Sd).
  rewrite E1 in Em. apply Ret_inj in Em. subst rm. rewrite E2 in En. apply Ret_inj in En. subst rn.
  destruct (Total id2 O2) as (r2' & E2' & _ & P2 & _). rewrite E2 in E2'. apply Ret_inj in E2'. subst r2'.
  destruct (pair_loop id1 id2 r1 r2 l P2 Each Cross l (fun x H => H) ND) as (U & ids & S1 & C1 & Pt & Or & Xr & K1 & T1 & V1).
  set (N := (gi_size r1 * gi_size r2)%nat) in *.
  assert (SU : bsize U = N) by (pose proof (summands_size l ds Ed 0%nat [] _ (S1 0%nat [])) as Q; cbn [fst Nat.add] in Q; lia).
  exists l, ((N, hcat U), ids). split; [exact El|]. split; [|split].
  - exists r2. cbn [fst snd]. split; [exact E2|]. split; [reflexivity|]. split.
    { split; [apply orthogonal_columns; rewrite <- SU at 1 2; apply hcat_orthonormal; assumption|]. intros i j Hi _. apply (hcat_entries coef N); [exact coef0| |exact Hi].
      eapply Forall_impl; [|exact Pt]. intros u (j' & k & a & s & Ij & Ea & Hs & ->) i' z Hi' Hz. cbn [fst snd] in *. unfold slice.
      destruct (Each j' k Ij) as (_ & _ & r & a' & _ & _ & Ea' & _ & D0 & D1 & D2' & D3 & _). rewrite Ea in Ea'. apply Ret_inj in Ea'. subst a'.
      apply (Coeffs id1 id2 l j' k a O1 O2 El Ij Ea); [rewrite D0, D1; apply Nat.div_lt_upper_bound; unfold N in Hi'; lia|apply Nat.mod_upper_bound; lia|lia|exact Hz]. }
    split; [exact K1|]. split; [rewrite <- SU; exact T1|]. intros g A B Hg EA EB. destruct (V1 g A B Hg EA EB) as (V & EV & FV). exists V. split; [exact EV|]. split.
    + rewrite <- SU. clear - FV. induction FV as [|[? ?] [? ?] U V [H _] F IH]; [reflexivity|]. cbn in *. congruence.
    + pose proof (hcat_meets N _ U V FV) as M. rewrite SU in M. exact M.
  - intros irreps. rewrite S1. cbn [snd Nat.add]. rewrite SU. reflexivity.
  - intros L.
    exists (fun cob => match columns irr cg id1 id2 l (bsize L) N 0 cob with Ret y => snd y | Raise => cob end). intros cob HL.
    destruct (C1 (bsize L) 0%nat cob) as (cob' & E' & F'). rewrite SU in E'. cbn [Nat.add] in E'. rewrite E'. cbn [snd]. split; [reflexivity|].
    intros a b. rewrite F', SU, Nat.add_0_r. cbn [fst]. rewrite <- fill_append. apply fill_ext; [exact HL|reflexivity].
Qed.

Lemma second_loop : forall id1 r1 D2, ok id1 -> irr id1 = Ret r1 -> forall ids2, Forall ok ids2 -> forall s L ds,
  (forall a b, ts_cob s a b = bdiag L a b) -> ts_p s = bsize L -> ts_q s = list_sum ds ->
  (forall r c, ts_perm s r c = if Nat.ltb c (gi_size r1 * list_sum ds) then (if Nat.eqb r (row_of (gi_size r1) D2 ds 0 c) then 1 else 0) else 0) ->
  exists Rs es s', second irr tensor cg r1 D2 ids2 s = Ret s' /\ Forall2 (pair_ok r1) ids2 Rs /\
    Forall2 (fun id e => exists r, irr id = Ret r /\ gi_size r = e) ids2 es /\
    (forall a b, ts_cob s' a b = bdiag (L ++ map fst Rs) a b) /\ ts_irreps s' = ts_irreps s ++ concat (map snd Rs) /\ ts_p s' = bsize (L ++ map fst Rs) /\
    (forall r c, ts_perm s' r c = if Nat.ltb c (gi_size r1 * list_sum (ds ++ es)) then (if Nat.eqb r (row_of (gi_size r1) D2 (ds ++ es) 0 c) then 1 else 0) else 0).
Proof.
  intros id1 r1 D2 O1 E1 ids2 F2. destruct (Total id1 O1) as (r1' & E1' & I1 & _ & _). rewrite E1 in E1'. apply Ret_inj in E1'. subst r1'.
  induction F2 as [|id2 ids2 O2 F2 IH]; intros s L ds HL Hp Hq HP.
  - exists [], [], s. cbn [second map concat]. rewrite !app_nil_r. split; [reflexivity|]. split; [constructor|]. split; [constructor|]. split; [exact HL|]. split; [reflexivity|]. split; [exact Hp|exact HP].
  - destruct (Total id2 O2) as (r2 & E2 & I2 & P2 & _). destruct (pair_step id1 id2 r1 r2 O1 O2 E1 E2) as (l & x & El & Px & Sx & Cx). destruct (Cx L) as (cob' & HC). destruct (HC (ts_cob s) HL) as (Ec & Fc).
    destruct (IH {| ts_cob := cob' (ts_cob s); ts_irreps := ts_irreps s ++ snd x; ts_perm := permute (gi_size r1) (gi_size r2) D2 (ts_q s) (ts_perm s);
                    ts_p := ts_p s + gi_size r1 * gi_size r2; ts_q := ts_q s + gi_size r2 |} (L ++ [fst x]) (ds ++ [gi_size r2])) as (Rs & es & s' & Es & FR & FE & H1 & H2 & H3 & H4).
    + exact Fc.
    + cbn [ts_p]. rewrite bsize_app, Hp. destruct Px as (r2' & Er2 & Q & _). rewrite E2 in Er2. apply Ret_inj in Er2. subst r2'. destruct x as [[nx X] idx]. cbn [fst snd bsize] in *. lia.
    + cbn [ts_q]. rewrite list_sum_app, Hq. cbn. lia.
    + cbn [ts_perm]. rewrite Hq. apply permute_row; [exact P2|exact HP].
    + exists (x :: Rs), (gi_size r2 :: es), s'. cbn [second]. rewrite E2. cbn [bind]. rewrite I1, I2, El. cbn [bind]. rewrite Sx. cbn [bind fst snd]. rewrite Nat.eqb_refl. cbn [assert_ bind].
      rewrite Hp, Ec. cbn [bind fst snd]. rewrite Nat.eqb_refl. cbn [assert_ bind]. rewrite <- Hp. rewrite Es. split; [reflexivity|].
      split; [constructor; assumption|]. split; [constructor; [exists r2; auto|exact FE]|]. cbn [map concat].
      rewrite <- !app_assoc in *. cbn [app] in *. split; [exact H1|]. split; [rewrite H2; cbn [ts_irreps]; rewrite <- app_assoc; reflexivity|]. split; [exact H3|exact H4].
Qed.

(** one irrep of the first representation, against all of the second *)
Definition line_ok (D2 : nat) (ids2 : list (list Z)) (id1 : list Z) (y : (nat * mat) * list (list Z)) : Prop :=
  exists r1, irr id1 = Ret r1 /\ fst (fst y) = (gi_size r1 * D2)%nat /\ (orthogonal (fst (fst y)) (snd (fst y)) /\ entries coef (fst (fst y)) (snd (fst y))) /\
  Forall ok (snd y) /\ total_size irr (snd y) (fst (fst y)) /\
  forall g A Bs, mem g -> gi_rep r1 g = Ret (gi_size r1, A) -> values irr ids2 g = Ret Bs ->
    exists V, values irr (snd y) g = Ret V /\ bsize V = fst (fst y) /\
      meq (fst (fst y)) (fst (fst y)) (mmul (fst (fst y)) (kron D2 D2 A (bdiag Bs)) (snd (fst y))) (mmul (fst (fst y)) (snd (fst y)) (bdiag V)).

Lemma values_blocks : forall ids g Bs, Forall ok ids -> mem g -> values irr ids g = Ret Bs ->
  Forall2 (fun id b => exists r, irr id = Ret r /\ fst b = gi_size r /\ gi_rep r g = Ret b) ids Bs.
Proof.
  intros ids g Bs F Hg E. unfold values in E. apply mapM_Ret_inv in E. induction E as [|id b ids Bs H _ IH]; [constructor|]. inversion F as [|? ? Oi F']; subst.
  constructor; [|exact (IH F')]. destruct (Total id Oi) as (r & Er & _ & _ & Vr). rewrite Er in H. cbn [bind] in H. destruct (Vr g Hg) as (D & ED). exists r. split; [exact Er|].
  rewrite ED in H. apply Ret_inj in H. subst b. split; [reflexivity|exact ED].
Qed.

Lemma use_meets : forall (l : list meeting) Ks Ys,
  Forall (fun t : meeting => let '(n, K, Y, V) := t in bsize V = n /\ meq n n (mmul n K Y) (mmul n Y (bdiag V))) l ->
  map (fun t : meeting => let '(n, K, Y, V) := t in (n, K)) l = Ks -> map (fun t : meeting => let '(n, K, Y, V) := t in (n, Y)) l = Ys ->
  bsize (concat (map snd l)) = bsize Ks /\ meq (bsize Ks) (bsize Ks) (mmul (bsize Ks) (bdiag Ks) (bdiag Ys)) (mmul (bsize Ks) (bdiag Ys) (bdiag (concat (map snd l)))).
Proof. intros l Ks Ys F <- <-. destruct (bdiag_meets l F) as (S1 & _ & M). split; [exact S1|exact M]. Qed.

Lemma line_meets : forall r1 g A, mem g -> gi_rep r1 g = Ret (gi_size r1, A) -> forall ids2 Rs Bs,
  Forall2 (pair_ok r1) ids2 Rs -> Forall2 (fun id b => exists r, irr id = Ret r /\ fst b = gi_size r /\ gi_rep r g = Ret b) ids2 Bs ->
  exists l : list meeting, map (fun t : meeting => let '(n, K, Y, V) := t in (n, K)) l = krons (gi_size r1) A Bs /\
    map (fun t : meeting => let '(n, K, Y, V) := t in (n, Y)) l = map fst Rs /\
    values irr (concat (map snd Rs)) g = Ret (concat (map snd l)) /\
    Forall (fun t : meeting => let '(n, K, Y, V) := t in bsize V = n /\ meq n n (mmul n K Y) (mmul n Y (bdiag V))) l.
Proof.
  intros r1 g A Hg EA ids2 Rs Bs FR. revert Bs. induction FR as [|id2 x ids2 Rs Px FR IH]; intros Bs FB; inversion FB as [|? b ? Bs' Hb FB']; subst.
  - exists []. repeat split; constructor.
  - destruct (IH Bs' FB') as (l & K1 & Y1 & V1 & M1). destruct Px as (r2 & E2 & Sx & _ & _ & _ & Mx). destruct Hb as (r & Er & Sb & Vb). rewrite E2 in Er. apply Ret_inj in Er. subst r.
    destruct b as [d B]. cbn [fst] in Sb. subst d. destruct (Mx g A B Hg EA Vb) as (V & EV & SV & MV). destruct x as [[n Y] ids]. cbn [fst snd] in *. subst n.
    exists ((((gi_size r1 * gi_size r2)%nat, kron (gi_size r2) (gi_size r2) A B), Y, V) :: l). cbn [map krons fst snd concat]. fold (krons (gi_size r1) A Bs'). rewrite K1, Y1.
    split; [reflexivity|]. split; [reflexivity|]. split; [apply values_app'; assumption|]. constructor; [split; assumption|exact M1].
Qed.

Lemma pairs_flat : forall r1 ids2 Rs es, Forall2 (pair_ok r1) ids2 Rs -> Forall2 (fun id e => exists r, irr id = Ret r /\ gi_size r = e) ids2 es ->
  bsize (map fst Rs) = (gi_size r1 * list_sum es)%nat /\ Forall (fun p => orthogonal (fst p) (snd p) /\ entries coef (fst p) (snd p)) (map fst Rs) /\ Forall ok (concat (map snd Rs)) /\
  total_size irr (concat (map snd Rs)) (gi_size r1 * list_sum es).
Proof.
  intros r1 ids2 Rs es FR. revert es. induction FR as [|id2 x ids2 Rs Px FR IH]; intros es FE; inversion FE as [|? e ? es' He FE']; subst.
  - cbn. rewrite Nat.mul_0_r. split; [reflexivity|]. split; [constructor|]. split; [constructor|]. exists []. split; reflexivity.
  - destruct (IH es' FE') as (B1 & O1 & K1 & T1). destruct Px as (r2 & E2 & Sx & Ox & Kx & Tx & _). destruct He as (r & Er & <-). rewrite E2 in Er. apply Ret_inj in Er. subst r.
    destruct x as [[n Y] ids]. cbn [fst snd] in *. cbn [map concat fst snd bsize list_sum fold_right]. fold (list_sum es'). rewrite Nat.mul_add_distr_l. split; [lia|]. split; [constructor; assumption|].
    split; [apply Forall_app; split; assumption|]. rewrite <- Sx. apply total_app; assumption.
Qed.

Lemma line_step : forall D2 ids2 id1, ok id1 -> Forall ok ids2 -> total_size irr ids2 D2 -> forall L cob irreps, (forall a b, cob a b = bdiag L a b) -> exists y cob',
  line_ok D2 ids2 id1 y /\ (forall a b, cob' a b = bdiag (L ++ [fst y]) a b) /\
  forall ids1, first irr tensor cg D2 ids2 (id1 :: ids1) cob irreps (bsize L) = first irr tensor cg D2 ids2 ids1 cob' (irreps ++ snd y) (bsize (L ++ [fst y])).
Proof.
  intros D2 ids2 id1 O1 F2 TS L cob irreps HL. destruct (Total id1 O1) as (r1 & E1 & I1 & P1 & _).
  destruct (second_loop id1 r1 D2 O1 E1 ids2 F2 {| ts_cob := cob; ts_irreps := irreps; ts_perm := mzero; ts_p := bsize L; ts_q := 0 |} L [] HL eq_refl eq_refl) as (Rs & es & s & Es & FR & FE & H1 & H2 & H3 & H4).
  { intros r c. cbn [list_sum fold_right]. rewrite Nat.mul_0_r. destruct (Nat.ltb_spec c 0); [lia|reflexivity]. }
  cbn [app ts_irreps] in *. destruct (pairs_flat r1 ids2 Rs es FR FE) as (B1 & O & K & TT).
  assert (SE : list_sum es = D2).
  { destruct TS as (l & El & <-). apply mapM_Ret_inv in El. clear - El FE. revert es FE. induction El as [|id r ids l H _ IH]; intros es FE; inversion FE as [|? e ? es' He FE']; subst; [reflexivity|].
    destruct He as (r' & Er & <-). rewrite H in Er. apply Ret_inj in Er. subst r'. cbn [map list_sum fold_right]. f_equal. exact (IH es' FE'). }
  rewrite SE in *. set (n := (gi_size r1 * D2)%nat) in *. set (P := ts_perm s) in *.
  assert (PE : Forall (fun e => (0 < e)%nat) es).
  { clear - FE F2 Total. induction FE as [|id e ids es (r & Er & <-) _ IH]; [constructor|]. inversion F2; subst. constructor; [|auto]. destruct (Total id) as (r' & Er' & _ & Pr & _); [assumption|]. rewrite Er in Er'. apply Ret_inj in Er'. subst r'. exact Pr. }
  assert (HP : forall r c, (c < n)%nat -> P r c = if Nat.eqb r (row_of (gi_size r1) D2 es 0 c) then 1 else 0).
  { intros r c Hc. unfold P. rewrite H4. fold n. destruct (Nat.ltb_spec c n); [reflexivity|lia]. }
  assert (OP : orthogonal n P).
  { destruct (reorder (gi_size r1) D2 mid (map (fun e => (e, mid)) es) P) as [Q _].
    - apply Forall_map. exact PE.
    - rewrite <- SE. clear. induction es as [|e es IH]; [reflexivity|]. cbn [map bsize list_sum fold_right]. f_equal. exact IH.
    - intros r c Hc. rewrite map_map. cbn [fst]. rewrite map_id. apply HP. exact Hc.
    - exact Q. }
  assert (A : (ts_p s - n)%nat = bsize L) by (rewrite H3, bsize_app, B1; lia).
  set (Y := mmul n P (fun i j => ts_cob s (bsize L + i)%nat (bsize L + j)%nat)).
  assert (MY : meq n n Y (mmul n P (bdiag (map fst Rs)))).
  { intros i j Hi Hj. unfold Y, mmul. apply sumn_ext. intros k Hk. rewrite H1, bdiag_app_end. reflexivity. }
  assert (OB : orthogonal n (bdiag (map fst Rs))) by (rewrite <- B1; apply bdiag_orthogonal; eapply Forall_impl; [|exact O]; cbv beta; tauto).
  exists ((n, Y), concat (map snd Rs)), (fill (ts_cob s) (bsize L) n (bsize L) n Y). cbn [fst snd]. split; [|split].
  - exists r1. cbn [fst snd]. split; [exact E1|]. split; [reflexivity|]. split; [|split; [exact K|split; [exact TT|]]].
    { split; [|intros i j Hi Hj; rewrite MY by assumption; destruct (sum_pick n (P i) (fun c => bdiag (map fst Rs) c j)) as (c & Hc & Ec);
        [intros c Hc; rewrite HP by exact Hc; destruct (Nat.eqb_spec i (row_of (gi_size r1) D2 es 0 c)); auto
        |destruct OP as [OP _]; specialize (OP i i Hi Hi); unfold mmul, mtr in OP; rewrite OP; unfold mid; rewrite Nat.eqb_refl; reflexivity
        |unfold mmul; rewrite Ec; apply bdiag_entries; [exact coef0|eapply Forall_impl; [|exact O]; cbv beta; tauto]]].
      destruct (orth_mul n P (bdiag (map fst Rs)) OP OB) as [_ Q]. apply orthogonal_columns. intros i j Hi Hj. rewrite <- (Q i j Hi Hj). unfold mmul at 1 3, mtr. apply sumn_ext. intros k Hk. rewrite !MY by assumption. reflexivity. }
    intros g A' Bs Hg EA EB. pose proof (values_blocks ids2 g Bs F2 Hg EB) as FB. destruct (line_meets r1 g A' Hg EA ids2 Rs Bs FR FB) as (l & K1 & Y1 & V1 & M1).
    assert (MB : map fst Bs = es).
    { clear - FB FE. revert es FE. induction FB as [|id b ids Bs (r & Er & Sb & _) _ IH]; intros es FE; inversion FE as [|? e ? es' He FE']; subst; [reflexivity|].
      destruct He as (r' & Er' & <-). rewrite Er in Er'. apply Ret_inj in Er'. subst r'. cbn [map]. f_equal; [exact Sb|exact (IH es' FE')]. }
    assert (SB : bsize Bs = D2).
    { rewrite <- SE, <- MB. clear. induction Bs as [|[? ?] l IH]; [reflexivity|]. cbn [bsize map list_sum fold_right fst]. f_equal. exact IH. }
    destruct (use_meets l _ _ M1 K1 Y1) as [S1 M2]. rewrite krons_size, SB in S1, M2. fold n in S1, M2.
    destruct (reorder (gi_size r1) D2 A' Bs P) as [_ RO]; [apply Forall_forall; intros b Hb; rewrite Forall_forall in PE; apply PE; rewrite <- MB; apply in_map; exact Hb|exact SB|rewrite MB; exact HP|]. fold n in RO.
    exists (concat (map snd l)). split; [exact V1|]. split; [exact S1|].
    set (KK := kron D2 D2 A' (bdiag Bs)) in *.
    transitivity (mmul n KK (mmul n P (bdiag (map fst Rs)))); [apply mmul_ext; [reflexivity|exact MY]|]. rewrite <- mmul_assoc_eq.
    transitivity (mmul n (mmul n P (bdiag (krons (gi_size r1) A' Bs))) (bdiag (map fst Rs))); [apply mmul_ext; [exact RO|reflexivity]|]. rewrite mmul_assoc_eq.
    transitivity (mmul n P (mmul n (bdiag (map fst Rs)) (bdiag (concat (map snd l))))); [apply mmul_ext; [reflexivity|exact M2]|]. rewrite <- mmul_assoc_eq.
    apply mmul_ext; [symmetry; exact MY|reflexivity].
  - intros a b. rewrite <- (fill_replace L (map fst Rs) n Y a b B1). apply fill_ext; [exact H1|reflexivity].
  - intros ids1. cbn [first]. rewrite E1. cbn [bind]. rewrite Es. cbn [bind]. fold P n. destruct OP as [Q1 Q2].
    rewrite (allclose_meq n n _ _ Q1), (allclose_meq n n _ _ Q2). cbn [assert_ bind]. rewrite A. fold Y. rewrite H2. f_equal. rewrite H3, !bsize_app, B1. cbn [bsize]. lia.
Qed.

Lemma first_loop : forall D2 ids2, Forall ok ids2 -> total_size irr ids2 D2 -> forall ids1, Forall ok ids1 -> forall L cob irreps, (forall a b, cob a b = bdiag L a b) -> exists Ys cob',
  first irr tensor cg D2 ids2 ids1 cob irreps (bsize L) = Ret (cob', irreps ++ concat (map snd Ys), bsize (L ++ map fst Ys)) /\
  Forall2 (line_ok D2 ids2) ids1 Ys /\ forall a b, cob' a b = bdiag (L ++ map fst Ys) a b.
Proof.
  intros D2 ids2 F2 TS ids1 F1. induction F1 as [|id1 ids1 O1 F1 IH]; intros L cob irreps HL.
  - exists [], cob. cbn [map concat first]. rewrite !app_nil_r. split; [reflexivity|]. split; [constructor|exact HL].
  - destruct (line_step D2 ids2 id1 O1 F2 TS L cob irreps HL) as (y & cob1 & Ly & Hy & Ey). destruct (IH (L ++ [fst y]) cob1 (irreps ++ snd y) Hy) as (Ys & cob' & E' & FY & H').
    exists (y :: Ys), cob'. rewrite Ey, E'. cbn [map concat]. rewrite <- !app_assoc in *. cbn [app] in *. split; [reflexivity|]. split; [constructor; assumption|exact H'].
Qed.

Lemma lines_flat : forall D2 ids2 ids1 Ys l, Forall2 (line_ok D2 ids2) ids1 Ys -> mapM irr ids1 = Ret l ->
  bsize (map fst Ys) = (list_sum (map gi_size l) * D2)%nat /\ Forall (fun p => orthogonal (fst p) (snd p) /\ entries coef (fst p) (snd p)) (map fst Ys) /\ Forall ok (concat (map snd Ys)) /\
  total_size irr (concat (map snd Ys)) (list_sum (map gi_size l) * D2).
Proof.
  intros D2 ids2 ids1 Ys l FY El. apply mapM_Ret_inv in El. revert l El. induction FY as [|id1 y ids1 Ys Ly FY IH]; intros l El; inversion El as [|? r1 ? l' Hr El']; subst.
  - cbn. split; [reflexivity|]. split; [constructor|]. split; [constructor|]. exists []. split; reflexivity.
  - destruct (IH l' El') as (B1 & O1 & K1 & T1). destruct Ly as (r & Er & Sy & Oy & Ky & Ty & _). rewrite Hr in Er. apply Ret_inj in Er. subst r.
    destruct y as [[n Y] ids]. cbn [fst snd] in *. cbn [map concat fst snd bsize list_sum fold_right]. fold (list_sum (map gi_size l')). rewrite Nat.mul_add_distr_r. split; [lia|]. split; [constructor; assumption|].
    split; [apply Forall_app; split; assumption|]. rewrite <- Sy. apply total_app; assumption.
Qed.

Lemma lines_meet : forall D2 ids2 g Bs, mem g -> values irr ids2 g = Ret Bs -> forall ids1 Ys As,
  Forall2 (line_ok D2 ids2) ids1 Ys -> Forall2 (fun id b => exists r, irr id = Ret r /\ fst b = gi_size r /\ gi_rep r g = Ret b) ids1 As ->
  exists l : list meeting, map (fun t : meeting => let '(n, K, Y, V) := t in (n, K)) l = map (fun a => ((fst a * D2)%nat, kron D2 D2 (snd a) (bdiag Bs))) As /\
    map (fun t : meeting => let '(n, K, Y, V) := t in (n, Y)) l = map fst Ys /\
    values irr (concat (map snd Ys)) g = Ret (concat (map snd l)) /\
    Forall (fun t : meeting => let '(n, K, Y, V) := t in bsize V = n /\ meq n n (mmul n K Y) (mmul n Y (bdiag V))) l.
Proof.
  intros D2 ids2 g Bs Hg EB ids1 Ys As FY. revert As. induction FY as [|id1 y ids1 Ys Ly FY IH]; intros As FA; inversion FA as [|? a ? As' Ha FA']; subst.
  - exists []. repeat split; constructor.
  - destruct (IH As' FA') as (l & K1 & Y1 & V1 & M1). destruct Ly as (r1 & E1 & Sy & _ & _ & _ & My). destruct Ha as (r & Er & Sa & Va). rewrite E1 in Er. apply Ret_inj in Er. subst r.
    destruct a as [d A]. cbn [fst] in Sa. subst d. destruct (My g A Bs Hg Va EB) as (V & EV & SV & MV). destruct y as [[n Y] ids]. cbn [fst snd] in *. subst n.
    exists ((((gi_size r1 * D2)%nat, kron D2 D2 A (bdiag Bs)), Y, V) :: l). cbn [map fst snd concat]. rewrite K1, Y1.
    split; [reflexivity|]. split; [reflexivity|]. split; [apply values_app'; assumption|]. constructor; [split; assumption|exact M1].
Qed.

Lemma inverse_of_mul : forall n A B A' B', inverse_of n A A' -> inverse_of n B B' -> inverse_of n (mmul n A B) (mmul n B' A').
Proof.
  intros n A B A' B' [H1 H2] [H3 H4]. split.
  - rewrite mmul_assoc_eq. rewrite <- (mmul_assoc_eq n n n n B B' A'). rewrite H3, mid_l. exact H1.
  - rewrite mmul_assoc_eq. rewrite <- (mmul_assoc_eq n n n n A' A B). rewrite H2, mid_l. exact H4.
Qed.
Lemma inverse_of_kron : forall n m A B A' B', (0 < m)%nat -> inverse_of n A A' -> inverse_of m B B' -> inverse_of (n * m) (kron m m A B) (kron m m A' B').
Proof.
  intros n m A B A' B' Hm [H1 H2] [H3 H4]. split.
  - intros i j Hi Hj. rewrite kron_mmul by exact Hm. rewrite <- (kron_mid n m i j Hm Hi Hj). exact (kron_ext n n m m _ _ _ _ Hm Hm H1 H3 i j Hi Hj).
  - intros i j Hi Hj. rewrite kron_mmul by exact Hm. rewrite <- (kron_mid n m i j Hm Hi Hj). exact (kron_ext n n m m _ _ _ _ Hm Hm H2 H4 i j Hi Hj).
Qed.
Lemma orthogonal_inverse : forall n A, orthogonal n A <-> inverse_of n A (mtr A).
Proof. intros. reflexivity. Qed.

Theorem tensor_product_ok : correct_inverse linv -> forall rho1 rho2,
  Forall ok (r_irreps rho1) -> Forall ok (r_irreps rho2) ->
  total_size irr (r_irreps rho1) (r_size rho1) -> total_size irr (r_irreps rho2) (r_size rho2) ->
  (0 < r_size rho1)%nat -> (0 < r_size rho2)%nat ->
  reproduces irr mem rho1 -> reproduces irr mem rho2 ->
  exists r, tensor_product irr linv tensor cg rho1 rho2 = Ret r /\ r_size r = (r_size rho1 * r_size rho2)%nat /\
    Forall ok (r_irreps r) /\ total_size irr (r_irreps r) (r_size r) /\
    (orthogonal (r_size rho1) (r_cob rho1) -> orthogonal (r_size rho2) (r_cob rho2) -> orthogonal (r_size r) (r_cob r)) /\
    (exists X, entries coef (r_size r) X /\ meq (r_size r) (r_size r) (r_cob r) (mmul (r_size r) (kron (r_size rho2) (r_size rho2) (r_cob rho1) (r_cob rho2)) X)) /\
    (sharp (r_size r) (r_cob r) -> reproduces irr mem r /\
       forall g A B, mem g -> r_fun rho1 g = Ret (r_size rho1, A) -> r_fun rho2 g = Ret (r_size rho2, B) ->
       exists C, r_fun r g = Ret (r_size r, C) /\ is_tensor (r_size rho1) (r_size rho2) A B C).
Proof.
  intros Hinv rho1 rho2 F1 F2 TS1 TS2 P1 P2 [I1 R1] [I2 R2]. set (D1 := r_size rho1) in *. set (D2 := r_size rho2) in *.
  destruct (first_loop D2 (r_irreps rho2) F2 TS2 (r_irreps rho1) F1 [] mzero []) as (Ys & cob & Ec & FY & HY); [reflexivity|]. cbn [app bsize] in *.
  destruct TS1 as (l1 & El1 & Sl1). destruct (lines_flat D2 (r_irreps rho2) (r_irreps rho1) Ys l1 FY El1) as (SB & OB & KY & TY). rewrite Sl1 in SB, TY.
  set (D := (D1 * D2)%nat) in *. set (ids := concat (map snd Ys)) in *. set (K := kron D2 D2 (r_cob rho1) (r_cob rho2)). set (Ki := kron D2 D2 (r_inv rho1) (r_inv rho2)).
  assert (OC : orthogonal D cob).
  { pose proof (bdiag_orthogonal (map fst Ys) ltac:(eapply Forall_impl; [|exact OB]; cbv beta; tauto)) as Q. rewrite SB in Q. apply orthogonal_columns. intros i j Hi Hj. destruct Q as [_ Q]. rewrite <- (Q i j Hi Hj). unfold mmul, mtr. apply sumn_ext. intros k Hk. rewrite !HY. reflexivity. }
  assert (IK : inverse_of D K Ki) by (apply inverse_of_kron; assumption).
  assert (IC : inverse_of D (mmul D K cob) (mmul D (mtr cob) Ki)) by (apply inverse_of_mul; [exact IK|exact OC]).
  assert (HD : (0 < D)%nat) by (unfold D; nia).
  assert (Val : forall g, mem g -> exists As Bs V, values irr (r_irreps rho1) g = Ret As /\ values irr (r_irreps rho2) g = Ret Bs /\ bsize As = D1 /\ bsize Bs = D2 /\
    values irr ids g = Ret V /\ bsize V = D /\ meq D D (mmul D (kron D2 D2 (bdiag As) (bdiag Bs)) cob) (mmul D cob (bdiag V))).
  { intros g Hg. destruct (R1 g Hg) as (As & A & EA & SA & _). destruct (R2 g Hg) as (Bs & B & EB & SB' & _). exists As, Bs.
    destruct (lines_meet D2 (r_irreps rho2) g Bs Hg EB (r_irreps rho1) Ys As FY (values_blocks _ g As F1 Hg EA)) as (l & K1 & Y1 & V1 & M1).
    destruct (use_meets l _ _ M1 K1 Y1) as [S1 M2].
    assert (SK : bsize (map (fun a : nat * mat => ((fst a * D2)%nat, kron D2 D2 (snd a) (bdiag Bs))) As) = D).
    { unfold D. rewrite <- SA. clear. induction As as [|[d A] As IH]; [reflexivity|]. cbn [map bsize fst]. rewrite IH. lia. }
    rewrite SK in S1, M2. exists (concat (map snd l)). split; [exact EA|]. split; [exact EB|]. split; [exact SA|]. split; [exact SB'|]. split; [exact V1|]. split; [exact S1|].
    intros i j Hi Hj. transitivity (mmul D (bdiag (map (fun a : nat * mat => ((fst a * D2)%nat, kron D2 D2 (snd a) (bdiag Bs))) As)) (bdiag (map fst Ys)) i j).
    { unfold mmul. apply sumn_ext. intros k Hk. rewrite HY. f_equal. apply kron_bdiag; [exact P2| |]; rewrite SA; assumption. }
    rewrite (M2 i j Hi Hj). unfold mmul. apply sumn_ext. intros k Hk. rewrite HY. reflexivity. }
  (* the representation is built from these irreps and this change of basis *)
  assert (Built : exists r Q i, tensor_product irr linv tensor cg rho1 rho2 = Ret r /\ inverse_of D Q i /\ meq D D Q (mmul D K cob) /\
     r = {| r_size := D; r_irreps := ids; r_cob := Q; r_inv := i;
         r_fun := fun g => bs <- values irr ids g ;;
                    match bs with
                    | [] => Raise
                    | _ => if allclose D D Q mid then Ret (bsize bs, bdiag bs)
                           else assert (Nat.eqb (bsize bs) D) ;; Ret (D, mmul D (mmul D Q (bdiag bs)) i)
                    end |}).
  { destruct TY as (l & El & Sl). unfold tensor_product. fold D1 D2. fold D. change (map gi_size) with (map (@gi_size T)) in Sl. rewrite Ec. cbn [bind fst snd]. fold K ids.
    unfold irreps_size. rewrite El. cbn [bind]. rewrite Sl, SB. fold D. rewrite !Nat.eqb_refl. cbn [assert_ bind]. destruct (Nat.ltb_spec 1 (length ids)) as [Len|Len].
    - destruct (mk_repr_eq irr linv Hinv ids D (mmul D K cob) None l El Sl HD) as (i & Hi & _ & E); [exists (mmul D (mtr cob) Ki); exact IC|].
      rewrite E. eexists. exists (mmul D K cob), i. split; [reflexivity|]. split; [exact Hi|]. split; [reflexivity|reflexivity].
    - destruct ids as [|id [|? ?]] eqn:Ei; [cbn in El; apply Ret_inj in El; subst l; cbn in Sl; lia| |cbn in Len; lia].
      cbn [mapM] in El. apply bind_Ret in El as (r & Er & El). cbn [bind] in El. apply Ret_inj in El. subst l. cbn [map list_sum fold_right] in Sl. rewrite Nat.add_0_r in Sl.
      rewrite Er. cbn [bind]. unfold change_basis. cbn [repr_of_irrep r_size r_irreps r_cob r_inv fst snd]. rewrite Sl, Nat.eqb_refl. cbn [assert_ bind].
      destruct (Hinv D (mmul D K cob)) as [H1 H2]. destruct H2 as (qi & Eq); [exists (mmul D (mtr cob) Ki); exact IC|]. rewrite Eq. cbn [bind].
      assert (Id : gi_id r = id). { rewrite Forall_forall in KY. destruct (Total id (KY id (or_introl eq_refl))) as (r' & Er' & Ir & _). rewrite Er in Er'. apply Ret_inj in Er'. subst r'. exact Ir. }
      rewrite Id.
      destruct (mk_repr_eq irr linv Hinv [id] D (mmul D (mmul D K cob) mid) (Some (mmul D mid qi)) [r]) as (i & Hi & Ei' & E).
      + cbn [mapM]. rewrite Er. reflexivity.
      + cbn [map list_sum fold_right]. lia.
      + exact HD.
      + cbn [good_inv]. apply inverse_of_mul; [apply H1; exact Eq|]. split; apply mid_l.
      + rewrite E. eexists. exists (mmul D (mmul D K cob) mid), i. split; [reflexivity|]. split; [exact Hi|]. split; [apply mid_r|reflexivity]. }
  destruct Built as (r & Q & i & Er & Hi & MQ & ->). exists {| r_size := D; r_irreps := ids; r_cob := Q; r_inv := i;
         r_fun := fun g => bs <- values irr ids g ;;
                    match bs with
                    | [] => Raise
                    | _ => if allclose D D Q mid then Ret (bsize bs, bdiag bs)
                           else assert (Nat.eqb (bsize bs) D) ;; Ret (D, mmul D (mmul D Q (bdiag bs)) i)
                    end |}.
  split; [exact Er|]. cbn [r_size r_irreps r_cob r_inv r_fun]. split; [reflexivity|]. split; [exact KY|]. split; [exact TY|]. split.
  { intros OK1 OK2. apply orthogonal_columns. assert (OQ : orthogonal D (mmul D K cob)).
    { apply orth_mul; [|exact OC]. exact (inverse_of_kron D1 D2 (r_cob rho1) (r_cob rho2) (mtr (r_cob rho1)) (mtr (r_cob rho2)) P2 OK1 OK2). }
    destruct OQ as [_ OQ]. intros a b Ha Hb. rewrite <- (OQ a b Ha Hb). unfold mmul at 1 3, mtr. apply sumn_ext. intros k Hk. rewrite !MQ by assumption. reflexivity. }
  split.
  { exists cob. split; [|exact MQ]. intros a b _ _. rewrite HY. apply bdiag_entries; [exact coef0|]. eapply Forall_impl; [|exact OB]; cbv beta; tauto. }
  intros Sh. assert (Fun : forall g, mem g -> exists V C, values irr ids g = Ret V /\ bsize V = D /\ 
     (bs <- values irr ids g ;; match bs with | [] => Raise | _ => if allclose D D Q mid then Ret (bsize bs, bdiag bs) else assert (Nat.eqb (bsize bs) D) ;; Ret (D, mmul D (mmul D Q (bdiag bs)) i) end) = Ret (D, C) /\
     meq D D C (mmul D (mmul D Q (bdiag V)) i)).
  { intros g Hg. destruct (Val g Hg) as (As & Bs & V & _ & _ & _ & _ & EV & SV & _). exists V. rewrite EV. cbn [bind]. destruct V as [|v V'] eqn:EqV; [cbn in SV; lia|]. rewrite <- EqV in *.
    destruct (allclose D D Q mid) eqn:AC.
    - exists (bdiag V). split; [reflexivity|]. split; [exact SV|]. split; [subst V; rewrite SV; reflexivity|]. destruct Sh as [Sh|Sh]; [|congruence].
      assert (Mi : meq D D i mid) by (apply (inverse_unique D Q); [exact Hi|]; split; rewrite Sh; apply mid_l).
      rewrite Sh, Mi, mid_l, mid_r. reflexivity.
    - exists (mmul D (mmul D Q (bdiag V)) i). split; [reflexivity|]. split; [exact SV|]. rewrite SV, Nat.eqb_refl. cbn [assert_ bind]. subst V. split; reflexivity. }
  split.
  - split; [exact Hi|]. cbn [r_size r_irreps r_cob r_inv r_fun]. intros g Hg. destruct (Fun g Hg) as (V & C & EV & SV & EC & MC). exists V, C. auto.
  - intros g A B Hg EA EB. destruct (Fun g Hg) as (V & C & EV & SV & EC & MC). exists C. split; [exact EC|].
    destruct (Val g Hg) as (As & Bs & V' & EAs & EBs & SA & SBs & EV' & _ & MV). rewrite EV in EV'. apply Ret_inj in EV'. subst V'.
    destruct (R1 g Hg) as (As' & A' & EAs' & _ & EA' & MA). rewrite EAs in EAs'. apply Ret_inj in EAs'. subst As'. fold D1 in EA', MA. rewrite EA in EA'. apply Ret_inj in EA'. injection EA' as <-.
    destruct (R2 g Hg) as (Bs' & B' & EBs' & _ & EB' & MB). rewrite EBs in EBs'. apply Ret_inj in EBs'. subst Bs'. fold D2 in EB', MB. rewrite EB in EB'. apply Ret_inj in EB'. injection EB' as <-.
    assert (MK : meq D D C (kron D2 D2 A B)).
    { rewrite MC. assert (Mi : meq D D i (mmul D (mtr cob) Ki)). { apply (inverse_unique D (mmul D K cob)); [|exact IC]. destruct Hi as [X1 X2]. split; rewrite <- MQ; assumption. }
      rewrite MQ, Mi. set (BV := bdiag V) in *. set (KK := kron D2 D2 (bdiag As) (bdiag Bs)) in *.
      transitivity (mmul D (mmul D K KK) Ki).
      - rewrite (mmul_assoc_eq D D D D K cob BV), <- MV. rewrite <- (mmul_assoc_eq D D D D K KK cob). rewrite (mmul_assoc_eq D D D D (mmul D K KK) cob). rewrite <- (mmul_assoc_eq D D D D cob (mtr cob) Ki).
        destruct OC as [OC _]. rewrite OC, mid_l. reflexivity.
      - transitivity (kron D2 D2 (mmul D1 (mmul D1 (r_cob rho1) (bdiag As)) (r_inv rho1)) (mmul D2 (mmul D2 (r_cob rho2) (bdiag Bs)) (r_inv rho2))).
        + intros a b Ha Hb. rewrite <- kron_mmul by exact P2. unfold D at 1. fold D. unfold mmul at 1 3. apply sumn_ext. intros k Hk. f_equal. unfold K, KK, D. rewrite kron_mmul by exact P2. reflexivity.
        + apply kron_ext; [exact P2|exact P2|symmetry; exact MA|symmetry; exact MB]. }
    intros a b c d Ha Hb Hc Hd. rewrite MK by (unfold D; nia). unfold kron. rewrite !Nat.div_add_l, !(Nat.add_comm (_ * D2)), !Nat.mod_add, !Nat.mod_small, !Nat.div_small, !Nat.add_0_r by lia. reflexivity.
Qed.
End Tensor.
