(** Proofs about PointConvModel: rows, means, steerable kernels and messages. *)
From Coq Require Import String Ascii.
From Coq Require Import Reals ZArith Bool List Arith Lia Lra Permutation.
From Verif Require Import LibRes LibPy LibMat LibMatS FieldModel SpecField FieldProofs RepModel SpecRepr BlocksModel SpecBlocks SamplerModel SpecSampler SamplerCor LayerModel SpecLayer SpecNonlin NonlinProofs BiasThms BiasCor
  GridModel SpecGrid ImageModel SpecImage RdConvModel RdConvProofs RdConvThms SpecPointConv PointConvModel.
Import ListNotations.
Open Scope R_scope.

(** ** Rows *)
Lemma map_seq_nth : forall (f : nat -> R) n k, (k < n)%nat -> nth k (map f (seq 0 n)) 0 = f k.
Proof. intros f n k H. rewrite (nth_indep _ 0 (f 0%nat)) by (rewrite map_length, seq_length; exact H). rewrite map_nth, seq_nth by exact H. reflexivity. Qed.
Lemma row_map_length : forall m n M v, length (row_map m n M v) = m.
Proof. intros. unfold row_map. rewrite map_length, seq_length. reflexivity. Qed.
Lemma row_map_nth : forall m n M v o, (o < m)%nat -> nth o (row_map m n M v) 0 = sumn n (fun i => M o i * nth i v 0).
Proof. intros m n M v o H. unfold row_map. apply map_seq_nth. exact H. Qed.
Lemma row_map_turned : forall d M p, row_map d d M p = turned d M p.
Proof. reflexivity. Qed.
Lemma row_ext : forall (u v : list R), length u = length v -> (forall k, (k < length u)%nat -> nth k u 0 = nth k v 0) -> u = v.
Proof. intros u v L H. apply (nth_ext _ _ 0 0); assumption. Qed.
Lemma row_sub_offset : forall d p q, length p = d -> length q = d -> row_sub p q = offset d p q.
Proof.
  induction d as [|d IH]; intros [|a p] [|b q] Lp Lq; try discriminate; [reflexivity|]. cbn in Lp, Lq. injection Lp as Lp. injection Lq as Lq.
  unfold row_sub, offset. cbn [List.combine map seq nth fst snd]. f_equal. rewrite <- seq_shift, map_map. exact (IH p q Lp Lq).
Qed.
Lemma row_add_nth : forall p q k, length p = length q -> nth k (row_add p q) 0 = nth k p 0 + nth k q 0.
Proof.
  induction p as [|a p IH]; intros [|b q] k L; try discriminate; [destruct k; cbn; ring|]. cbn in L. injection L as L. destruct k as [|k]; [reflexivity|]. exact (IH q k L).
Qed.
Lemma row_add_length : forall p q, length p = length q -> length (row_add p q) = length p.
Proof. intros p q L. unfold row_add. rewrite map_length, combine_length, L, Nat.min_id. reflexivity. Qed.
Lemma offset_length : forall d p q, length (offset d p q) = d.
Proof. intros. unfold offset. rewrite map_length, seq_length. reflexivity. Qed.
Lemma turned_length : forall d M p, length (turned d M p) = d.
Proof. intros. unfold turned. rewrite map_length, seq_length. reflexivity. Qed.
Lemma offset_turned : forall d M p q, offset d (turned d M p) (turned d M q) = turned d M (offset d p q).
Proof.
  intros d M p q. unfold offset at 1, turned at 3. apply map_ext_in. intros k Hk. apply in_seq in Hk.
  unfold turned. rewrite !map_seq_nth by lia. transitivity (sumn d (fun i => M k i * nth i p 0 + - 1 * (M k i * nth i q 0))).
  - rewrite sumn_plus, sumn_scal_l. ring.
  - apply sumn_ext. intros i Hi. unfold offset. rewrite map_seq_nth by exact Hi. ring.
Qed.
Lemma shifted_length : forall t p, length (shifted t p) = length p.
Proof. intros. unfold shifted. rewrite map_length, seq_length. reflexivity. Qed.
Lemma offset_shifted : forall d t p q, length p = d -> length q = d -> offset d (shifted t p) (shifted t q) = offset d p q.
Proof.
  intros d t p q Lp Lq. unfold offset. apply map_ext_in. intros k Hk. apply in_seq in Hk. unfold shifted. rewrite !map_seq_nth by lia. ring.
Qed.
Lemma rows_of_ok : forall n l, rows_of n l = true <-> Forall (fun v => length v = n) l.
Proof.
  intros n l. unfold rows_of. rewrite forallb_forall, Forall_forall. split; intros H v Hv; specialize (H v Hv); apply Nat.eqb_eq; exact H.
Qed.

(** ** Means *)
Definition mean_rows (m : nat) (l : list (list R)) : list R := map (fun o => mean (map (fun v => nth o v 0) l)) (seq 0 m).
Lemma mean_at_ok : forall m i targets messages, mean_at m i targets messages = mean_rows m (reaching i targets messages).
Proof.
  intros. unfold mean_at, mean_rows, mean. apply map_ext. intros o. rewrite map_length. f_equal.
  induction (reaching i targets messages) as [|v l IH]; [reflexivity|]. cbn [fold_right map]. rewrite IH. reflexivity.
Qed.
Lemma mean_rows_length : forall m l, length (mean_rows m l) = m.
Proof. intros. unfold mean_rows. rewrite map_length, seq_length. reflexivity. Qed.
Lemma mean_linear : forall n (B : nat -> R) (l : list (list R)), mean (map (fun v => sumn n (fun j => B j * nth j v 0)) l) = sumn n (fun j => B j * mean (map (fun v => nth j v 0) l)).
Proof.
  intros n B l. unfold mean. rewrite map_length.
  rewrite (sumn_ext n (fun j => B j * (fold_right Rplus 0 (map (fun v => nth j v 0) l) / INR (Nat.max 1 (length (map (fun v => nth j v 0) l))))) (fun j => / INR (Nat.max 1 (length l)) * (B j * fold_right Rplus 0 (map (fun v => nth j v 0) l)))).
  2:{ intros j _. rewrite map_length. unfold Rdiv. ring. }
  rewrite sumn_scal_l. unfold Rdiv. rewrite Rmult_comm. f_equal.
  induction l as [|v l IH]; cbn [map fold_right]; [symmetry; apply sumn_0; intros; ring|].
  rewrite IH, <- sumn_plus. apply sumn_ext. intros j _. ring.
Qed.
Lemma mean_rows_linear : forall m B l, Forall (fun v => length v = m) l -> mean_rows m (map (row_map m m B) l) = row_map m m B (mean_rows m l).
Proof.
  intros m B l _. unfold mean_rows at 1, row_map at 2. apply map_ext_in. intros o Ho. apply in_seq in Ho. rewrite map_map.
  rewrite (map_ext (fun v => nth o (row_map m m B v) 0) (fun v => sumn m (fun j => B o j * nth j v 0))) by (intros v; apply row_map_nth; lia).
  rewrite mean_linear. apply sumn_ext. intros j Hj. unfold mean_rows. rewrite map_seq_nth by exact Hj. reflexivity.
Qed.
Lemma mean_perm : forall l l', Permutation l l' -> mean l = mean l'.
Proof.
  intros l l' P. unfold mean. rewrite (Permutation_length P). f_equal. clear - P. induction P; cbn [fold_right]; [reflexivity|rewrite IHP; reflexivity|ring|congruence].
Qed.
Lemma mean_rows_perm : forall m l l', Permutation l l' -> mean_rows m l = mean_rows m l'.
Proof. intros m l l' P. unfold mean_rows. apply map_ext. intros o. apply mean_perm, Permutation_map, P. Qed.

(** ** Steerable kernels *)
Section Steer.
Variables d cout cin : nat.
Variables M Bi Bo : mat.
Notation st := (steerable_on d cout cin M Bi Bo).
Lemma st_ext : forall f g, (forall o i p, (o < cout)%nat -> (i < cin)%nat -> f o i p = g o i p) -> st f -> st g.
Proof.
  intros f g E H p Lp o i Ho Hi. specialize (H p Lp o i Ho Hi).
  rewrite (sumn_ext cin _ (fun j => f o j (turned d M p) * Bi j i)) by (intros j Hj; rewrite E by assumption; reflexivity).
  rewrite (sumn_ext cout _ (fun j => Bo o j * f j i p)) by (intros j Hj; rewrite E by assumption; reflexivity). exact H.
Qed.
Lemma st_lin : forall f g w, st f -> st g -> st (fun o i p => f o i p + w * g o i p).
Proof.
  intros f g w Hf Hg p Lp o i Ho Hi.
  rewrite (sumn_ext cin _ (fun j => f o j (turned d M p) * Bi j i + w * (g o j (turned d M p) * Bi j i))) by (intros; ring).
  rewrite (sumn_ext cout _ (fun j => Bo o j * f j i p + w * (Bo o j * g j i p))) by (intros; ring).
  rewrite !sumn_plus, !sumn_scal_l, Hf, Hg by assumption. reflexivity.
Qed.
Lemma st_0 : st (fun _ _ _ => 0).
Proof. intros p _ o i _ _. rewrite !sumn_0; [reflexivity|..]; intros; ring. Qed.
Lemma st_sum : forall m (w : nat -> R) F, (forall j, (j < m)%nat -> st (F j)) -> st (fun o i p => sumn m (fun j => w j * F j o i p)).
Proof. induction m as [|m IH]; intros w F H; cbn [sumn]; [exact st_0|]. apply st_lin; [apply IH; intros; apply H; lia|apply H; lia]. Qed.
End Steer.

Section Place.
Context {A : Type}.
Variable size : A -> nat.
Variable d : nat.
Variable M : mat.
Variable rho : A -> mat.
Variables ins outs : list A.
Lemma st_block : forall i o ri ro s, nth_error ins i = Some ri -> nth_error outs o = Some ro ->
  steerable_on d (size ro) (size ri) M (rho ri) (rho ro) s ->
  steerable_on d (type_size size outs) (type_size size ins) M (dg size rho ins) (dg size rho outs)
    (fun r c p => if (Nat.leb (field_start size outs o) r && Nat.ltb r (field_start size outs o + size ro)%nat) &&
                     (Nat.leb (field_start size ins i) c && Nat.ltb c (field_start size ins i + size ri)%nat)
                  then s (r - field_start size outs o)%nat (c - field_start size ins i)%nat p else 0).
Proof.
  intros i o ri ro s Ei Eo HS.
  pose proof (start_bound size ins i ri Ei) as Li. pose proof (start_bound size outs o ro Eo) as Lo.
  set (r0 := field_start size outs o) in *. set (c0 := field_start size ins i) in *.
  assert (IN : forall a b m, reflect (a <= m < a + b)%nat (Nat.leb a m && Nat.ltb m (a + b)%nat)).
  { intros a b m. apply iff_reflect. rewrite andb_true_iff, Nat.leb_le, Nat.ltb_lt. reflexivity. }
  intros p Lp r c Hr Hc.
  rewrite (sum_window _ c0 (size ri)); [|lia|].
  2:{ intros j Hj Out. destruct (IN r0 (size ro) r), (IN c0 (size ri) j); cbn [andb]; try lia; ring. }
  rewrite (sum_window (type_size size outs) r0 (size ro)); [|lia|].
  2:{ intros j Hj Out. destruct (IN r0 (size ro) j), (IN c0 (size ri) c); cbn [andb]; try lia; ring. }
  destruct (IN r0 (size ro) r) as [Ir|Ir]; cbn [andb].
  - destruct (IN c0 (size ri) c) as [Ic|Ic].
    + specialize (HS p Lp (r - r0)%nat (c - c0)%nat ltac:(lia) ltac:(lia)).
      transitivity (sumn (size ri) (fun j => s (r - r0)%nat j (turned d M p) * rho ri j (c - c0)%nat)).
      { apply sumn_ext. intros j Hj. destruct (IN c0 (size ri) (c0 + j)%nat); [|lia].
        pose proof (dg_row size rho ins i ri j c Ei Hj) as D; fold c0 in D; rewrite D; clear D. destruct (IN c0 (size ri) c); [|lia]. f_equal. f_equal. lia. }
      rewrite HS. apply sumn_ext. intros j Hj. destruct (IN r0 (size ro) (r0 + j)%nat); [|lia]. cbn [andb].
      pose proof (dg_col size rho outs o ro r j Eo Hj) as D; fold r0 in D; rewrite D; clear D. destruct (IN r0 (size ro) r); [|lia]. f_equal. f_equal; lia.
    + rewrite !sumn_0; [reflexivity|..]; intros j Hj.
      * rewrite andb_false_r. ring.
      * pose proof (dg_row size rho ins i ri j c Ei Hj) as D; fold c0 in D; rewrite D; clear D. destruct (IN c0 (size ri) c); [lia|]. ring.
  - rewrite !sumn_0; [reflexivity|..]; intros j Hj; [|ring].
    pose proof (dg_col size rho outs o ro r j Eo Hj) as D; fold r0 in D; rewrite D; clear D. destruct (IN r0 (size ro) r); [lia|]. ring.
Qed.
End Place.

(** ** A row of the filter on a group of moved features *)
Lemma group_entry : forall groups n rho B (x : list R) g c, repeats groups n rho B -> (g < groups)%nat -> (c < n)%nat ->
  nth (g * n + c) (row_map (groups * n) (groups * n) rho x) 0 = sumn n (fun j => B c j * nth (g * n + j) x 0).
Proof.
  intros groups n rho B x g c H Hg Hc. assert (Lg : (g * n + n <= groups * n)%nat) by (change (g * n + n)%nat with (g * n + n)%nat; replace (g * n + n)%nat with (S g * n)%nat by (cbn; lia); apply Nat.mul_le_mono_r; lia).
  rewrite row_map_nth by lia. rewrite (sum_window (groups * n) (g * n) n); [|exact Lg|].
  - apply sumn_ext. intros j Hj. rewrite H by lia. rewrite !(Nat.add_comm (g * n)), !Nat.div_add, !Nat.mod_add by lia.
    rewrite !Nat.div_small, !Nat.mod_small, Nat.eqb_refl by lia. reflexivity.
  - intros j Hj Out. rewrite H by lia. rewrite (Nat.add_comm (g * n) c), Nat.div_add, Nat.div_small by lia.
    destruct (Nat.eqb_spec (0 + g) (j / n)) as [E|_]; [|ring]. exfalso.
    pose proof (Nat.div_mod j n ltac:(lia)) as D. pose proof (Nat.mod_upper_bound j n ltac:(lia)) as U. rewrite <- E in D. cbn [Nat.add] in D. rewrite (Nat.mul_comm n g) in D. lia.
Qed.

Lemma message_moves : forall d groups n m K M Bi Bo Ri (x p : list R),
  (0 < groups)%nat -> (m mod groups = 0)%nat -> repeats groups n Ri Bi -> in_blocks groups m Bo -> steerable_on d m n M Bi Bo K -> length p = d ->
  map (fun r => row_message n (fun o i => K o i (turned d M p)) (row_map (groups * n) (groups * n) Ri x) r (r / (m / groups))) (seq 0 m) =
  row_map m m Bo (map (fun r => row_message n (fun o i => K o i p) x r (r / (m / groups))) (seq 0 m)).
Proof.
  intros d groups n m K M Bi Bo Ri x p Gp Dm HR HB HS Lp. unfold row_map at 2. apply map_ext_in. intros r Hr. apply in_seq in Hr.
  assert (Em : m = (groups * (m / groups))%nat) by (apply Nat.div_exact; lia). set (q := (m / groups)%nat) in *.
  assert (Gr : forall r, (r < m)%nat -> (r / q < groups)%nat) by (intros k Hk; apply Nat.div_lt_upper_bound; [intros ->; lia|rewrite Nat.mul_comm; lia]).
  set (g := (r / q)%nat). assert (Hg : (g < groups)%nat) by (apply Gr; lia). unfold row_message at 1.
  rewrite (sumn_ext n _ (fun c => sumn n (fun c' => K r c (turned d M p) * Bi c c' * nth (g * n + c') x 0))).
  2:{ intros c Hc. rewrite (group_entry groups n Ri Bi x g c HR Hg Hc), <- sumn_scal_l. apply sumn_ext. intros; ring. }
  rewrite sumn_swap.
  rewrite (sumn_ext n _ (fun c' => sumn m (fun j => Bo r j * K j c' p * nth (g * n + c') x 0))).
  2:{ intros c' Hc'. rewrite !sumn_scal_r. f_equal. apply HS; [exact Lp|lia|exact Hc']. }
  rewrite sumn_swap. apply sumn_ext. intros j Hj. rewrite map_seq_nth by exact Hj.
  destruct (Nat.eq_dec g (j / q)) as [E|N].
  - rewrite <- E. unfold row_message. rewrite <- sumn_scal_l. apply sumn_ext. intros c _. ring.
  - rewrite (HB r j ltac:(lia) Hj N). rewrite sumn_0 by (intros; ring). ring.
Qed.
