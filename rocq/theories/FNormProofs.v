(** Proofs about normalisations of generic representations: channels, trivial
    irreps, and batches that are transformed. *)
From Coq Require Import Reals List ZArith Arith Bool Lia Lra Permutation.
From Verif Require Import LibRes LibPy LibMat LibMatS FieldModel SpecField FieldProofs BranchProofs LabelThms MergeThms GroupedModel GroupedProofs NonlinModel SpecNonlin NonlinProofs PoolModel ImageModel BatchNormModel SpecBatch BatchNormProofs BatchThms FNormModel SpecFNorm KeyedProofs.
Import ListNotations.
Open Scope R_scope.

(** *** rectangular lists of channels *)
Definition rect (n N : nat) (v : list chan) : Prop := length v = n /\ Forall (fun c => length c = N) v.
Lemma rect_chan : forall n N v c, rect n N v -> (c < n)%nat -> length (nth c v []) = N.
Proof. intros n N v c [L F] H. rewrite Forall_forall in F. apply F, nth_In. lia. Qed.
Lemma rect_ext : forall n N v w, rect n N v -> rect n N w -> (forall c p, (c < n)%nat -> (p < N)%nat -> ent v c p = ent w c p) -> v = w.
Proof.
  intros n N v w Rv Rw H. apply nth_ext with (d := []) (d' := []); [destruct Rv, Rw; lia|]. intros c Hc.
  assert (c < n)%nat as Hc' by (destruct Rv; lia).
  apply list_ext; [rewrite (rect_chan n N v), (rect_chan n N w) by assumption; reflexivity|]. intros p Hp. rewrite (rect_chan n N v) in Hp by assumption. apply H; assumption.
Qed.
Lemma combine_nth' : forall {X Y} (a : list X) (b : list Y) c d e, length a = length b -> nth c (List.combine a b) (d, e) = (nth c a d, nth c b e).
Proof. intros. apply combine_nth. assumption. Qed.
Lemma zip_rect : forall (f : R -> R -> R) n N mu v, length mu = n -> rect n N v ->
  rect n N (map (fun p => map (fun a => f a (fst p)) (snd p)) (List.combine mu v)) /\
  forall c p, (c < n)%nat -> (p < N)%nat -> ent (map (fun p => map (fun a => f a (fst p)) (snd p)) (List.combine mu v)) c p = f (ent v c p) (nth c mu 0).
Proof.
  intros f n N mu v Lm [Lv Fv]. split.
  - split; [rewrite map_length, combine_length; lia|]. apply Forall_forall. intros c Hc. apply in_map_iff in Hc. destruct Hc as ((a & d) & <- & Hin). cbn [fst snd]. rewrite map_length.
    apply in_combine_r in Hin. rewrite Forall_forall in Fv. apply Fv, Hin.
  - intros c p Hc Hp. unfold ent. set (F := fun p0 : R * chan => map (fun a => f a (fst p0)) (snd p0)).
    rewrite (nth_indep (map F (List.combine mu v)) [] (F (0, []))) by (rewrite map_length, combine_length; lia). rewrite map_nth, combine_nth' by lia. unfold F. cbn [fst snd].
    assert (length (nth c v []) = N) as Lc by (apply (rect_chan n N v c); [split; assumption|exact Hc]).
    rewrite (nth_indep _ 0 (f 0 (nth c mu 0))) by (rewrite map_length, Lc; exact Hp). exact (map_nth (fun a => f a (nth c mu 0)) (nth c v []) 0 p).
Qed.
Lemma shift_rect : forall n N mu v, length mu = n -> rect n N v -> rect n N (shift mu v) /\
  forall c p, (c < n)%nat -> (p < N)%nat -> ent (shift mu v) c p = ent v c p + nth c mu 0.
Proof. intros n N mu v. exact (zip_rect Rplus n N mu v). Qed.
Lemma unshift_rect : forall n N mu v, length mu = n -> rect n N v -> rect n N (unshift mu v) /\
  forall c p, (c < n)%nat -> (p < N)%nat -> ent (unshift mu v) c p = ent v c p - nth c mu 0.
Proof. intros n N mu v. exact (zip_rect Rminus n N mu v). Qed.
Lemma mul_rect : forall n N k v, length k = n -> rect n N v -> rect n N (map (fun p => map (fun a => a * fst p) (snd p)) (List.combine k v)) /\
  forall c p, (c < n)%nat -> (p < N)%nat -> ent (map (fun p => map (fun a => a * fst p) (snd p)) (List.combine k v)) c p = ent v c p * nth c k 0.
Proof. intros n N k v. exact (zip_rect Rmult n N k v). Qed.
Lemma scale_rect : forall n N k v, rect n N v -> rect n N (scale k v) /\ forall c p, (c < n)%nat -> (p < N)%nat -> ent (scale k v) c p = ent v c p * k.
Proof.
  intros n N k v R. destruct R as [Lv Fv]. split.
  - split; [unfold scale; rewrite map_length; exact Lv|]. apply Forall_forall. intros c Hc. apply in_map_iff in Hc. destruct Hc as (d & <- & Hd). rewrite map_length.
    rewrite Forall_forall in Fv. apply Fv, Hd.
  - intros c p Hc Hp. unfold ent, scale. rewrite (nth_indep _ [] (map (fun a => a * k) [])) by (rewrite map_length; lia). rewrite (map_nth (map (fun a => a * k))).
    assert (length (nth c v []) = N) as Lc by (apply (rect_chan n N v c); [split; assumption|exact Hc]).
    rewrite (nth_indep _ 0 (0 * k)) by (rewrite map_length, Lc; exact Hp). exact (map_nth (fun a => a * k) (nth c v []) 0 p).
Qed.
Lemma nth_seq_map : forall {X} (f : nat -> X) n i d, (i < n)%nat -> nth i (map f (seq 0 n)) d = f i.
Proof.
  intros X f n i d H. rewrite (nth_indep _ d (f 0%nat)) by (rewrite map_length, seq_length; exact H). rewrite (map_nth f), seq_nth by exact H. reflexivity.
Qed.
Lemma mix_rect : forall n N M v, rect n N (mix n N M v) /\ forall c p, (c < n)%nat -> (p < N)%nat -> ent (mix n N M v) c p = sumn n (fun d => M c d * ent v d p).
Proof.
  intros n N M v. split.
  - split; [unfold mix; rewrite map_length, seq_length; reflexivity|]. apply Forall_forall. intros c Hc. apply in_map_iff in Hc. destruct Hc as (i & <- & _). rewrite map_length, seq_length. reflexivity.
  - intros c p Hc Hp. unfold ent at 1, mix. rewrite (nth_seq_map _ n c []) by exact Hc. rewrite (nth_seq_map _ N p 0) by exact Hp. apply rsum_seq.
Qed.
Lemma minus_rect : forall n N v w, rect n N v -> rect n N w -> rect n N (minus v w) /\
  forall c p, (c < n)%nat -> (p < N)%nat -> ent (minus v w) c p = ent v c p - ent w c p.
Proof.
  intros n N v w Rv Rw. assert (length v = length w) as L by (destruct Rv, Rw; lia). set (F := fun p : chan * chan => map (fun q => fst q - snd q) (List.combine (fst p) (snd p))). split.
  - split; [unfold minus; rewrite map_length, combine_length; destruct Rv; lia|]. apply Forall_forall. intros c Hc. apply in_map_iff in Hc. destruct Hc as ((a & b) & <- & Hin). cbn [fst snd].
    rewrite map_length, combine_length. pose proof (in_combine_l _ _ _ _ Hin) as H1. pose proof (in_combine_r _ _ _ _ Hin) as H2.
    destruct Rv as [_ Fv], Rw as [_ Fw]. rewrite Forall_forall in Fv, Fw. rewrite (Fv a H1), (Fw b H2). lia.
  - intros c p Hc Hp. unfold ent, minus. fold F. rewrite (nth_indep (map F (List.combine v w)) [] (F ([], []))) by (rewrite map_length, combine_length; destruct Rv, Rw; lia).
    rewrite map_nth, combine_nth' by exact L. unfold F. cbn [fst snd]. pose proof (rect_chan n N v c Rv Hc) as L1. pose proof (rect_chan n N w c Rw Hc) as L2.
    rewrite (nth_indep _ 0 ((fun q => fst q - snd q) (0, 0))) by (rewrite map_length, combine_length; lia). rewrite (map_nth (fun q => fst q - snd q)), combine_nth by lia. reflexivity.
Qed.
Lemma lin_length : forall r c M v, length (lin r c M v) = r.
Proof. intros. unfold lin. rewrite map_length, seq_length. reflexivity. Qed.
Lemma lin_nth : forall r c M v i, (i < r)%nat -> nth i (lin r c M v) 0 = sumn c (fun j => M i j * nth j v 0).
Proof. intros r c M v i H. unfold lin. rewrite nth_seq_map by exact H. apply rsum_seq. Qed.
Lemma mean_avg : forall n N v c, rect n N v -> (c < n)%nat -> mean (nth c v []) = avg N v c.
Proof.
  intros n N v c R H. unfold mean, avg, ent. pose proof (rect_chan n N v c R H) as L. rewrite L. f_equal.
  rewrite <- (map_id (nth c v [])) at 1. rewrite (rsum_list (fun a => a) 0), L. reflexivity.
Qed.
Lemma means_nth : forall n N v c, rect n N v -> (c < n)%nat -> nth c (map mean v) 0 = avg N v c.
Proof.
  intros n N v c R H. rewrite (nth_indep _ 0 (mean [])) by (rewrite map_length; destruct R; lia). rewrite map_nth. apply (mean_avg n N); assumption.
Qed.

Lemma sum_delta : forall n t (a : R), (t < n)%nat -> sumn n (fun k => if Nat.eqb k t then a else 0) = a.
Proof. intros n t a H. rewrite (sumn_single n t); [rewrite Nat.eqb_refl; reflexivity|exact H|]. intros i _ Ne. destruct (Nat.eqb_spec i t); [lia|reflexivity]. Qed.

(** *** trivial irreps *)
Lemma trivials_shift : forall l k p, trivials (k + p) l = map (fun t => (k + t)%nat) (trivials p l).
Proof.
  induction l as [|[s b] l IH]; intros k p; cbn [trivials]; [reflexivity|]. rewrite <- Nat.add_assoc, IH. destruct b; reflexivity.
Qed.
Lemma triv_bound : forall l n t, irreps_ok l n -> triv l t = true -> (t < n)%nat.
Proof.
  induction l as [|[s b] l IH]; intros n t [L F] H; cbn [triv] in H; [discriminate|]. cbn [map fst list_sum] in L. change (s + list_sum (map fst l) = n)%nat in L.
  destruct (Nat.ltb_spec t s) as [K|K]; [lia|]. inversion F as [|? ? _ F']; subst. pose proof (IH (list_sum (map fst l)) (t - s)%nat (conj eq_refl F') H). lia.
Qed.
Lemma filter_map_comm : forall {X Y} (f : X -> Y) (q : Y -> bool) l, filter q (map f l) = map f (filter (fun x => q (f x)) l).
Proof. intros X Y f q l. induction l as [|x l IH]; cbn; [reflexivity|]. destruct (q (f x)); cbn; rewrite IH; reflexivity. Qed.
Lemma trivials_filter : forall l n, irreps_ok l n -> trivials 0 l = trivial_channels l n.
Proof.
  unfold trivial_channels. induction l as [|[s b] l IH]; intros n [L F].
  - cbn in L. subst n. reflexivity.
  - cbn [map fst list_sum] in L. change (s + list_sum (map fst l) = n)%nat in L. subst n. inversion F as [|? ? [Ps Pb] F']; subst. cbn [fst snd] in Ps, Pb.
    rewrite seq_app, filter_app. cbn [Nat.add trivials].
    assert (filter (triv ((s, b) :: l)) (seq s (list_sum (map fst l))) = map (fun t => (s + t)%nat) (filter (triv l) (seq 0 (list_sum (map fst l))))) as E.
    { replace (seq s (list_sum (map fst l))) with (map (fun t => (s + t)%nat) (seq 0 (list_sum (map fst l)))).
      2:{ clear. transitivity (seq (s + 0) (list_sum (map fst l))); [|rewrite Nat.add_0_r; reflexivity]. generalize 0%nat as k. induction (list_sum (map fst l)) as [|m IHm]; intros k; cbn [seq map]; [reflexivity|].
          f_equal. rewrite IHm, Nat.add_succ_r. reflexivity. }
      rewrite filter_map_comm. f_equal. apply filter_ext. intros t. cbn [triv]. destruct (Nat.ltb_spec (s + t) s); [lia|]. f_equal. lia. }
    rewrite E, <- (IH _ (conj eq_refl F')).
    replace (trivials s l) with (trivials (s + 0) l) by (f_equal; lia). rewrite trivials_shift. destruct b.
    + rewrite (Pb eq_refl). cbn [seq filter triv Nat.ltb Nat.leb]. reflexivity.
    + replace (filter (triv ((s, false) :: l)) (seq 0 s)) with (@nil nat); [reflexivity|].
      symmetry. assert (forall k m, (k + m <= s)%nat -> filter (triv ((s, false) :: l)) (seq k m) = []) as K; [|apply K; lia].
      intros k m; revert k; induction m as [|m IHm]; intros k H; cbn [seq filter]; [reflexivity|]. cbn [triv]. destruct (Nat.ltb_spec k s); [|lia]. apply IHm. lia.
Qed.
Lemma trivial_in : forall l n t, irreps_ok l n -> (In t (trivial_channels l n) <-> triv l t = true).
Proof.
  intros l n t H. unfold trivial_channels. rewrite filter_In, in_seq. split; [tauto|]. intros K. split; [|exact K]. pose proof (triv_bound l n t H K). lia.
Qed.
Lemma existsb_triv : forall l n t, irreps_ok l n -> existsb (Nat.eqb t) (trivial_channels l n) = triv l t.
Proof.
  intros l n t H. destruct (triv l t) eqn:E.
  - apply existsb_exists. exists t. split; [apply trivial_in; assumption|apply Nat.eqb_refl].
  - destruct (existsb _ _) eqn:K; [|reflexivity]. apply existsb_exists in K. destruct K as (u & Hu & Eu). apply Nat.eqb_eq in Eu. subst u. apply (trivial_in l n t H) in Hu. congruence.
Qed.
(** a trivial channel is alone in its irrep *)
Lemma triv_alone : forall l n i j, irreps_ok l n -> triv l i = true -> irrep_of l i = irrep_of l j -> i = j.
Proof.
  induction l as [|[s b] l IH]; intros n i j [L F] H E; cbn [triv irrep_of] in *; [discriminate|]. inversion F as [|? ? [Ps Pb] F']; subst. cbn [fst snd] in Ps, Pb.
  destruct (Nat.ltb_spec i s) as [Ki|Ki], (Nat.ltb_spec j s) as [Kj|Kj]; try discriminate.
  - specialize (Pb H). lia.
  - injection E as E. pose proof (IH (list_sum (map fst l)) (i - s)%nat (j - s)%nat (conj eq_refl F') H E). lia.
Qed.
Lemma filter_sum : forall (q : nat -> bool) (f : nat -> R) n, sumn n (fun t => if q t then f t else 0) = rsum (map f (filter q (seq 0 n))).
Proof.
  intros q f n. rewrite sumn_list. unfold rsum. generalize 0%nat as k. induction n as [|n IH]; intros k; cbn [seq map filter fold_right]; [reflexivity|].
  rewrite IH. destruct (q k); cbn [map fold_right]; lra.
Qed.

(** *** the matrices of group elements *)
Section Rep.
Variable irreps : list (nat * bool).
Variable cob inv : mat.
Variable n : nat.
Hypothesis Iok : irreps_ok irreps n.
Hypothesis Inv : inverse_of n cob inv.
Variable M : mat.
Variable D : mat.
Hypothesis HM : meq n n M (mmul n (mmul n cob D) inv).
Hypothesis Dorth : orthogonal n D.
Hypothesis Dblock : forall i j, (i < n)%nat -> (j < n)%nat -> irrep_of irreps i <> irrep_of irreps j -> D i j = 0.
Hypothesis Dtriv : forall i, (i < n)%nat -> triv irreps i = true -> D i i = 1.

Lemma D_col : forall t i, triv irreps t = true -> (i < n)%nat -> D i t = if Nat.eqb i t then 1 else 0.
Proof.
  intros t i Ht Hi. pose proof (triv_bound irreps n t Iok Ht) as Bt. destruct (Nat.eqb_spec i t) as [->|Ne]; [apply Dtriv; assumption|].
  apply Dblock; try assumption. intros E. apply Ne. symmetry. apply (triv_alone irreps n t i Iok Ht). symmetry; exact E.
Qed.
Lemma D_row : forall t i, triv irreps t = true -> (i < n)%nat -> D t i = if Nat.eqb t i then 1 else 0.
Proof.
  intros t i Ht Hi. pose proof (triv_bound irreps n t Iok Ht) as Bt. destruct (Nat.eqb_spec t i) as [<-|Ne]; [apply Dtriv; assumption|].
  apply Dblock; try assumption. intros E. apply Ne. apply (triv_alone irreps n t i Iok Ht E).
Qed.
Lemma M_cob : meq n n (mmul n M cob) (mmul n cob D).
Proof.
  intros i j Hi Hj. destruct Inv as [_ I2]. transitivity (mmul n (mmul n (mmul n cob D) inv) cob i j).
  - unfold mmul at 1. unfold mmul at 1. apply sumn_ext. intros k Hk. rewrite (HM i k Hi Hk). reflexivity.
  - rewrite mmul_assoc. transitivity (mmul n (mmul n cob D) mid i j); [apply (mmul_ext n n n); [apply meq_refl|exact I2|exact Hi|exact Hj]|]. apply (mid_r n n); assumption.
Qed.
Lemma inv_M : meq n n (mmul n inv M) (mmul n D inv).
Proof.
  intros i j Hi Hj. destruct Inv as [_ I2]. transitivity (mmul n inv (mmul n (mmul n cob D) inv) i j).
  - unfold mmul at 1. unfold mmul at 1. apply sumn_ext. intros k Hk. rewrite (HM k j Hk Hj). reflexivity.
  - rewrite <- mmul_assoc. apply (mmul_ext n n n); [|apply meq_refl|exact Hi|exact Hj]. intros a b Ha Hb. rewrite <- mmul_assoc.
    transitivity (mmul n mid D a b); [apply (mmul_ext n n n); [exact I2|apply meq_refl|exact Ha|exact Hb]|]. apply (mid_l n n); assumption.
Qed.
(** vectors along the trivial irreps are fixed *)
Lemma M_fixes : forall t c, triv irreps t = true -> (c < n)%nat -> sumn n (fun d => M c d * cob d t) = cob c t.
Proof.
  intros t c Ht Hc. pose proof (triv_bound irreps n t Iok Ht) as Bt. pose proof (M_cob c t Hc Bt) as E. unfold mmul in E. rewrite E.
  rewrite (sumn_ext n (fun l => cob c l * D l t) (fun l => if Nat.eqb l t then cob c t else 0)).
  - apply sum_delta. exact Bt.
  - intros l Hl. rewrite D_col by assumption. destruct (Nat.eqb_spec l t) as [->|]; ring.
Qed.
Lemma inv_fixed : forall t d, triv irreps t = true -> (d < n)%nat -> sumn n (fun c => inv t c * M c d) = inv t d.
Proof.
  intros t d Ht Hd. pose proof (triv_bound irreps n t Iok Ht) as Bt. pose proof (inv_M t d Bt Hd) as E. unfold mmul in E. rewrite E.
  rewrite (sumn_ext n (fun l => D t l * inv l d) (fun l => if Nat.eqb l t then inv t d else 0)).
  - apply sum_delta. exact Bt.
  - intros l Hl. rewrite D_row by assumption. rewrite Nat.eqb_sym. destruct (Nat.eqb_spec l t) as [->|]; ring.
Qed.
Lemma along_fixed : forall b c, (c < n)%nat -> sumn n (fun d => M c d * along irreps cob n b d) = along irreps cob n b c.
Proof.
  intros b c Hc. unfold along. set (l := trivial_channels irreps n).
  rewrite (sumn_ext n _ (fun d => sumn (length l) (fun k => M c d * (cob d (nth k l 0%nat) * nth k b 0)))) by (intros; rewrite sumn_scal_l; reflexivity).
  rewrite sumn_swap. apply sumn_ext. intros k Hk.
  rewrite (sumn_ext n _ (fun d => (M c d * cob d (nth k l 0%nat)) * nth k b 0)) by (intros; ring). rewrite sumn_scal_r, M_fixes; [reflexivity| |exact Hc].
  apply (trivial_in irreps n _ Iok), nth_In, Hk.
Qed.
Lemma fixed_part_along : forall a c, fixed_part irreps cob inv n a c =
  along irreps cob n (map (fun t => sumn n (fun d => inv t d * a d)) (trivial_channels irreps n)) c.
Proof.
  intros a c. unfold fixed_part, along. rewrite (filter_sum (triv irreps) (fun t => cob c t * sumn n (fun d => inv t d * a d)) n). fold (trivial_channels irreps n).
  rewrite (rsum_list _ 0%nat). apply sumn_ext. intros k Hk. f_equal.
  rewrite (nth_indep _ 0 ((fun t => sumn n (fun d => inv t d * a d)) 0%nat)) by (rewrite map_length; exact Hk). symmetry. exact (map_nth (fun t => sumn n (fun d => inv t d * a d)) _ 0%nat k).
Qed.
(** the part of a vector in the trivial irreps does not change *)
Lemma fixed_part_moved : forall a a' c, (forall d, (d < n)%nat -> a' d = sumn n (fun e => M d e * a e)) -> fixed_part irreps cob inv n a' c = fixed_part irreps cob inv n a c.
Proof.
  intros a a' c H. unfold fixed_part. apply sumn_ext. intros t Ht. destruct (triv irreps t) eqn:E; [|reflexivity]. f_equal.
  rewrite (sumn_ext n (fun d => inv t d * a' d) (fun d => sumn n (fun e => inv t d * (M d e * a e)))) by (intros d Hd; rewrite H, sumn_scal_l by exact Hd; reflexivity).
  rewrite sumn_swap. apply sumn_ext. intros e He. rewrite (sumn_ext n _ (fun d => (inv t d * M d e) * a e)) by (intros; ring). rewrite sumn_scal_r, inv_fixed by assumption. reflexivity.
Qed.
End Rep.

(** the projection kept by the modules *)
Lemma avg_matrix : forall l n cob inv a c, irreps_ok l n -> (c < n)%nat ->
  sumn n (fun d => mmul n (mmul n cob (mask (trivials 0 l))) inv c d * a d) = fixed_part l cob inv n a c.
Proof.
  intros l n cob inv a c H Hc. rewrite (trivials_filter l n H). unfold fixed_part, mmul at 1.
  rewrite (sumn_ext n _ (fun d => sumn n (fun t => mmul n cob (mask (trivial_channels l n)) c t * inv t d * a d))) by (intros; rewrite sumn_scal_r; reflexivity).
  rewrite sumn_swap. apply sumn_ext. intros t Ht.
  assert (mmul n cob (mask (trivial_channels l n)) c t = if triv l t then cob c t else 0) as E.
  { unfold mmul, mask. rewrite (sumn_ext n _ (fun k => if Nat.eqb k t then (if triv l t then cob c t else 0) else 0)).
    - apply sum_delta. exact Ht.
    - intros k Hk. rewrite (existsb_triv l n k H). destruct (Nat.eqb_spec k t) as [->|]; cbn [andb]; [destruct (triv l t); ring|ring]. }
  rewrite E. rewrite (sumn_ext n _ (fun d => (if triv l t then cob c t else 0) * (inv t d * a d))) by (intros; ring). rewrite sumn_scal_l. destruct (triv l t); [reflexivity|ring].
Qed.
Lemma bias_matrix : forall l n cob b c, irreps_ok l n ->
  sumn (length (trivials 0 l)) (fun k => columns (trivials 0 l) cob c k * nth k b 0) = along l cob n b c.
Proof. intros l n cob b c H. rewrite (trivials_filter l n H). reflexivity. Qed.
