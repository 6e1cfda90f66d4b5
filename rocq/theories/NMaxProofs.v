(** Max pooling by norms: what it computes and with what it commutes. *)
From Coq Require Import Reals ZArith Lia Lra Bool List Arith Permutation.
From Verif Require Import LibRes LibMat FieldModel SpecField FieldProofs BranchProofs GroupedModel GroupedProofs SpecNonlin NonlinModel NonlinProofs BatchNormProofs
  GridModel SpecGrid GridProofs GridThms ImageModel SpecImage ImageProofs MaskThms ShapeModel ShapeThms ConvThms SPoolModel SpecSPool SPoolProofs SPoolThms SPoolCor NMaxModel SpecNMax.
Import ListNotations.
Open Scope R_scope.

Lemma nat_ok : forall a b, Nat.eqb a b = true <-> a = b.
Proof. intros; apply Nat.eqb_eq. Qed.

(** ** The point that is read *)
Lemma first_largest_spec : forall f l, l <> [] -> In (first_largest f l) l /\ forall q, In q l -> f q <= f (first_largest f l).
Proof.
  intros f [|a l] N; [congruence|]. clear N. unfold first_largest. revert a; induction l as [|b l IH]; intros a; cbn [fold_left].
  - split; [left; reflexivity|]. intros q [->|[]]; lra.
  - destruct (Rlt_dec (f a) (f b)) as [H|H].
    + destruct (IH b) as (I1 & I2). split; [right; exact I1|]. pose proof (I2 b (or_introl eq_refl)). intros q [->|Hq]; [lra|apply I2; exact Hq].
    + destruct (IH a) as (I1 & I2). split; [destruct I1 as [I1|I1]; [left; exact I1|right; right; exact I1]|]. pose proof (I2 a (or_introl eq_refl)).
      intros q [->|[->|Hq]]; [assumption|lra|apply I2; right; exact Hq].
Qed.
Lemma norm2_pos : forall v, 0 <= norm2 v.
Proof. induction v as [|a v IH]; unfold norm2 in *; cbn; [lra|pose proof (Rle_0_sqr a); unfold Rsqr in *; lra]. Qed.
Lemma nm_norm_at : forall v bt q, nm_norm v bt q = sqrt (norm2 (map (fun ch => ch bt q) v)).
Proof. intros v bt q; unfold nm_norm, norm2, rsum; rewrite map_map. f_equal. f_equal. apply map_ext; intros ch; ring. Qed.

Section M.
Context {A : Type}.
Variable size : A -> nat.
Variable teqb : list A -> list A -> bool.
Variable ft : list A.
Hypothesis Pz : Forall (fun r => (0 < size r)%nat) ft.
Hypothesis Te : teqb ft ft = true.
Variables (dim : nat) (l : max_layer) (m : @nm_module A).
Hypothesis Em : mk_nm size dim ft l = Ret m.
Let c := type_size size ft.
Let k := m_kernel l.
Let s := m_stride l.
Let p := m_padding l.
Let d := m_dilation l.
Let chs (x : array R) : list channel := map (fun o bt q => entry x (bt :: o :: q)) (seq 0 c).

Lemma field_at_chs : forall x i bt q, field_at size ft x i bt q = map (fun ch => ch bt q) (field_chans size ft (chs x) i).
Proof. intros x i bt q; unfold field_at, chs. rewrite <- (field_map size (fun ch : channel => ch bt q)), map_map. reflexivity. Qed.
Lemma field_at_out : forall y out i bt q, length out = c -> (forall o, (o < c)%nat -> entry y (bt :: o :: q) = nth o out (fun _ _ => 0) bt q) ->
  field_at size ft y i bt q = map (fun ch => ch bt q) (field_chans size ft out i).
Proof.
  intros y out i bt q Lo H. unfold field_at. rewrite <- (field_map size (fun ch : channel => ch bt q)). f_equal.
  apply (nth_ext _ _ 0 0); [rewrite !map_length, seq_length; symmetry; exact Lo|]. intros o Ho. rewrite map_length, seq_length in Ho. fold (type_size size ft) in Ho; fold c in Ho.
  rewrite (nth_indep _ 0 (entry y (bt :: 0%nat :: q))) by (rewrite map_length, seq_length; exact Ho).
  rewrite (map_nth (fun o => entry y (bt :: o :: q))), seq_nth by exact Ho. rewrite Nat.add_0_l, H by exact Ho.
  symmetry; exact (map_nth (fun ch : channel => ch bt q) out (fun _ _ => 0) o).
Qed.

Lemma mk_facts : nm_type m = ft /\ nm_layer m = l /\ dim = 2%nat /\ NoDup (nm_order m) /\ (forall s, In s (nm_order m) <-> In s (map size ft)) /\
  forall s, In s (map size ft) -> exists c, lookup Nat.eqb (nm_buffers m) s = Ret c /\ positions (type_size size ft) c = Ret (chan_list size ft (labelled Nat.eqb (map size ft) s)).
Proof.
  unfold mk_nm in Em. apply assert_Ret in Em as (D & E). apply bind_Ret in E as (b & Eb & E). apply Ret_inj in E; subst m. cbn [nm_type nm_layer nm_order nm_buffers].
  destruct (buffers_keys size Nat.eqb nat_ok ft (map size ft) b Eb) as [ND Ib].
  destruct (buffers_ok size Nat.eqb nat_ok ft (map size ft) (map_length size ft) Pz) as (b' & Eb' & Hb). assert (b' = b) by congruence; subst b'.
  apply Nat.eqb_eq in D. repeat split; try assumption; try apply Ib. intros s0 Hs; apply Hb; [exact Hs|lia].
Qed.

Lemma loop_ok : forall x ws junk, length junk = c ->
  exists out, grouped_loop Nat.eqb (nfields Nat.eqb (map size ft)) (nm_buffers m) (nm_buffers m) (nm_group l ws) (chs x) (nm_order m) 0 junk = Ret out /\ length out = c /\
    forall i, (i < length ft)%nat -> field_chans size ft out i = nm_pick l ws (field_chans size ft (chs x) i).
Proof.
  intros x ws junk Lj. destruct mk_facts as (_ & _ & _ & ND & Io & Hb).
  assert (Lx : length (chs x) = type_size size ft) by (unfold chs; rewrite map_length, seq_length; reflexivity).
  assert (Ls : forall i r s, nth_error (map size ft) i = Some s -> nth_error ft i = Some r -> size r = s).
  { intros i r s0 H1 H2; rewrite (map_nth_error size i ft H2) in H1; congruence. }
  destruct (local_loop size Nat.eqb nat_ok ft (map size ft) (fun s => s) (map_length size ft) Ls (nm_buffers m) (nm_order m) ND Io Hb
    (fun s fm => nm_group l ws s 0 fm) (fun s j v => nm_pick l ws v) (chs x) junk Lx Lj) as (out & El & Lo & Ho).
  - intros s0 Hs. unfold nm_group. rewrite view_concat.
    + cbn [bind]. do 2 f_equal. clear. generalize 0%nat. induction (map (field_chans size ft (chs x)) (labelled Nat.eqb (map size ft) s0)) as [|a L IH]; intros n; [reflexivity|cbn; f_equal; apply IH].
    + apply in_map_iff in Hs as (r & <- & Hr). rewrite Forall_forall in Pz; apply Pz; exact Hr.
    + apply (group_fields size Nat.eqb nat_ok ft (map size ft) (fun s => s) (map_length size ft) Ls); exact Lx.
  - intros s0 j b _ Lb. unfold nm_pick; rewrite map_length; exact Lb.
  - exists out; split; [exact El|split; [exact Lo|]]. intros i Hi. destruct (nth_error ft i) as [r|] eqn:Ei; [|apply nth_error_None in Ei; lia].
    assert (In i (labelled Nat.eqb (map size ft) (size r))) as Hl by (apply (labelled_In Nat.eqb nat_ok); apply map_nth_error; exact Ei).
    apply In_nth_error in Hl as (j & Hj). exact (Ho (size r) j i Hj).
Qed.

Let win := pool_window k s p d.
Let groups := map (fun s => (Z.of_nat (nfields Nat.eqb (map size ft) s), Z.of_nat s)) (nm_order m).
Let shaped (x : array R) := norm_max_forward_shape (Z.of_nat c) win win (m_ceil l) groups (map Z.of_nat (shape x)).

Lemma forward_inv : forall junk x y, length junk = c -> nm_forward size teqb m ft junk x = Ret y ->
  exists o, shaped x = Ret o /\ let os := map Z.to_nat (skipn 2 o) in let ws := skipn 2 (shape x) in
    shape y = firstn 2 (shape x) ++ os /\ (forall pos, valid os pos -> window_points k s p d ws pos <> []) /\
    forall i bt pos, (i < length ft)%nat -> field_at size ft y i bt pos =
      field_at size ft x i bt (first_largest (fun q => sqrt (norm2 (field_at size ft x i bt q))) (window_points k s p d ws pos)).
Proof.
  intros junk x y Lj H. destruct mk_facts as (Tm & Lm & _). unfold nm_forward in H; rewrite Tm, Lm in H. apply assert_Ret in H as (_ & H).
  apply bind_Ret in H as (o & Eo & H). exists o; split; [exact Eo|]. apply assert_Ret in H as (N & H). apply bind_Ret in H as (out & El & H). apply Ret_inj in H; subst y.
  cbv zeta. cbn [shape]. split; [reflexivity|split].
  - intros pos V E; rewrite forallb_forall in N; specialize (N pos (proj2 (all_indices_In _ pos) V)). unfold k, s, p, d in E. rewrite E in N; discriminate N.
  - intros i bt pos Hi. destruct (loop_ok x (skipn 2 (shape x)) junk Lj) as (out' & El' & Lo & Ho). assert (out' = out) by (unfold chs, c in El'; congruence); subst out'.
    rewrite (field_at_out _ out i bt pos Lo) by reflexivity. rewrite Ho by exact Hi. unfold nm_pick. rewrite map_map, field_at_chs. apply map_ext; intros ch.
    f_equal. unfold k, s, p, d. generalize (window_points (m_kernel l) (m_stride l) (m_padding l) (m_dilation l) (skipn 2 (shape x)) pos) as W; intros [|a L]; [reflexivity|]. unfold first_largest.
    assert (E : forall q, nm_norm (field_chans size ft (chs x) i) bt q = sqrt (norm2 (field_at size ft x i bt q))) by (intros q; rewrite nm_norm_at, field_at_chs; reflexivity).
    clear - E. revert a; induction L as [|b L IH]; intros a; cbn [fold_left]; [reflexivity|]. rewrite (E a), (E b). destruct (Rlt_dec _ _); apply IH.
Qed.
Lemma forward_go : forall junk x o, length junk = c -> shaped x = Ret o ->
  (forall pos, valid (map Z.to_nat (skipn 2 o)) pos -> window_points k s p d (skipn 2 (shape x)) pos <> []) -> exists y, nm_forward size teqb m ft junk x = Ret y.
Proof.
  intros junk x o Lj Eo N. destruct mk_facts as (Tm & Lm & _). unfold nm_forward; rewrite Tm, Lm, Te. cbn [assert_ bind].
  unfold shaped, win, groups, k, s, p, d, c in Eo. rewrite Eo. cbn [bind].
  replace (forallb _ (all_indices (map Z.to_nat (skipn 2 o)))) with true.
  - cbn [assert_ bind]. destruct (loop_ok x (skipn 2 (shape x)) junk Lj) as (out & El & _). unfold chs, c in El. rewrite El. cbn [bind]. eexists; reflexivity.
  - symmetry; apply forallb_forall; intros pos Hp; apply all_indices_In in Hp. specialize (N pos Hp). unfold k, s, p, d in N. destruct (window_points _ _ _ _ _ _); [congruence|reflexivity].
Qed.

(** ** Value *)
Lemma picked : forall x i bt ws pos, length pos = length ws -> window_points k s p d ws pos <> [] ->
  longest_at (under k s p d ws pos) (field_at size ft x i bt) (first_largest (fun q => sqrt (norm2 (field_at size ft x i bt q))) (window_points k s p d ws pos)).
Proof.
  intros x i bt ws pos L N. destruct (first_largest_spec (fun q => sqrt (norm2 (field_at size ft x i bt q))) _ N) as (I1 & I2). split.
  - apply window_points_In; assumption.
  - intros q' H. apply (window_points_In k s p d ws pos q' L) in H. apply I2 in H. apply sqrt_le_0 in H; auto using norm2_pos.
Qed.
End M.
