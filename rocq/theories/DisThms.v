(** disentangle: the main theorem. *)
From Coq Require Import Reals ZArith Bool List Lia Lra Setoid Morphisms Arith Permutation Relations.
From Verif Require Import LibRes LibList LibMat LibMatS LibTrig SpecGroup ParamModel ParamProofs IrrepModel SpecRep
  RepModel SpecRepr RepProofs DisModel SpecDis DisProofs.
Import ListNotations.
Open Scope R_scope.

Definition pick {A} (l : list A) (i : nat) : list A := match nth_error l i with Some a => [a] | None => [] end.

Lemma pick_map : forall {A B} (f : A -> B) l ii, flat_map (fun i => match nth_error l i with Some s => [f s] | None => [] end) ii =
  map f (flat_map (pick l) ii).
Proof.
  intros A B f l ii; induction ii as [|i ii IH]; [reflexivity|]; cbn [flat_map]; rewrite IH, map_app; f_equal.
  unfold pick; destruct (nth_error l i); reflexivity.
Qed.

Lemma pick_In : forall {A} (l : list A) ii s, In s (flat_map (pick l) ii) -> In s l.
Proof.
  intros A l ii s I; apply in_flat_map in I as (i & _ & I); unfold pick in I.
  destruct (nth_error l i) eqn:E; [|destruct I]; destruct I as [<-|[]]; exact (nth_error_In _ _ E).
Qed.

Lemma pick_mapM : forall {A B} (f : A -> res B) l bs ii, mapM f l = Ret bs ->
  mapM f (flat_map (pick l) ii) = Ret (flat_map (pick bs) ii).
Proof.
  intros A B f l bs ii H; apply mapM_Ret_inv in H; induction ii as [|i ii IH]; [reflexivity|]; cbn [flat_map].
  assert (X : match nth_error l i, nth_error bs i with
              | Some a, Some b => f a = Ret b | None, None => True | _, _ => False end).
  { clear IH; revert i; induction H as [|a b l bs E _ IH]; intros [|i]; cbn; auto; apply IH. }
  unfold pick at 1 3; destruct (nth_error l i), (nth_error bs i); try contradiction; cbn [app].
  - cbn [mapM]; rewrite X; cbn [bind]; rewrite IH; reflexivity.
  - exact IH.
Qed.

Lemma pick_nth : forall {A} (d : A) l ii, (forall i, In i ii -> (i < length l)%nat) -> flat_map (pick l) ii = map (fun i => nth i l d) ii.
Proof.
  intros A d l; induction ii as [|i ii IH]; intros H; [reflexivity|]; cbn [flat_map map].
  rewrite IH by (intros; apply H; right; assumption).
  unfold pick; rewrite (nth_error_nth' l d) by (apply H; left; reflexivity); reflexivity.
Qed.

Lemma mapM_build : forall {A B} (f : A -> res B) (Q : A -> B -> Prop) l, (forall a, In a l -> exists b, f a = Ret b /\ Q a b) ->
  exists bs, mapM f l = Ret bs /\ Forall2 Q l bs.
Proof.
  intros A B f Q; induction l as [|a l IH]; intros H; [exists []; split; [reflexivity|constructor]|].
  destruct (H a (or_introl eq_refl)) as (b & E & Hb); destruct IH as (bs & Es & Hs); [intros; apply H; right; assumption|].
  exists (b :: bs); cbn; rewrite E; cbn [bind]; rewrite Es; split; [reflexivity|constructor; assumption].
Qed.

Lemma ls_cons : forall a l, list_sum (a :: l) = (a + list_sum l)%nat.
Proof. reflexivity. Qed.

Lemma firstn_S_sum : forall sizes i, (i < length sizes)%nat ->
  list_sum (firstn (S i) sizes) = (ipos sizes i + nth i sizes 0)%nat.
Proof.
  unfold ipos; induction sizes as [|s ss IH]; intros i H; [cbn in H; lia|].
  rewrite firstn_cons, ls_cons; destruct i as [|i]; [cbn; lia|].
  rewrite firstn_cons, ls_cons; cbn [nth]; rewrite IH by (cbn in H; lia); lia.
Qed.

Lemma flat_length : forall {A B} (f : A -> list B) l, length (flat_map f l) = list_sum (map (fun a => length (f a)) l).
Proof. intros A B f; induction l as [|a l IH]; [reflexivity|]; cbn [flat_map map]; rewrite app_length, IH; reflexivity. Qed.

Lemma irr_ids : forall {T} (irr : list Z -> res (girrep T)) ids l, mapM irr ids = Ret l -> map gi_id l = ids ->
  Forall (fun s => irr (gi_id s) = Ret s) l.
Proof.
  intros T irr ids l El; apply mapM_Ret_inv in El; induction El as [|id s ids l' E _ IH]; intros Q; constructor.
  - cbn in Q; injection Q as <- _; exact E.
  - apply IH; cbn in Q; injection Q as _ Q; exact Q.
Qed.

Lemma tolpos : 0 < / 10 ^ 8.
Proof. apply Rinv_0_lt_compat, pow_lt; lra. Qed.

Section Main.
Context {T : Type}.
Variables (irr : list Z -> res (girrep T)) (mem : T -> Prop) (op : T -> T -> res T) (e : T).
Variable linv : nat -> mat -> res mat.
Variable components : nat -> (nat -> nat -> bool) -> nat * (nat -> nat).
Hypothesis Hinv : correct_inverse linv.
Hypothesis Hcomp : correct_components components.
Variable r : repr T.
Hypothesis Hr : proper irr mem op e r.
Hypothesis Hcut : clear_cut (r_size r) (r_cob r).

Let n := r_size r.
Let A := r_cob r.
Let Ai := r_inv r.
Variable l : list (girrep T).
Hypothesis El : mapM irr (r_irreps r) = Ret l.
Hypothesis Il : map gi_id l = r_irreps r.
Hypothesis Sl : list_sum (map gi_size l) = n.
Let m := length l.
Let sizes := map gi_size l.
Let g := dis_graph m n A sizes.
Let k := fst (components (m + n)%nat g).
Let lab := snd (components (m + n)%nat g).
Let rl j := lab (m + j)%nat.
Let cl c := lab (owner sizes c).

Lemma len_sizes : length sizes = m.
Proof. apply map_length. Qed.

Lemma nonzero_mask : forall i j, (i < n)%nat -> (j < n)%nat ->
  (np_isclose (/ 10 ^ 8) (A i j) 0 = false <-> A i j <> 0).
Proof.
  intros i j Hi Hj; split.
  - intros H E; rewrite E, np_isclose_refl in H by apply tolpos; discriminate H.
  - intros H; destruct (np_isclose (/ 10 ^ 8) (A i j) 0) eqn:E; [|reflexivity].
    exfalso; apply H; apply (proj1 (Hcut i j Hi Hj)); apply Rleb_true in E.
    rewrite Rabs_R0 in E; replace (A i j - 0) with (A i j) in E by ring; fold A; lra.
Qed.

Lemma mask_spec : forall a i, (a < m)%nat -> (i < n)%nat -> (irrep_mask n A sizes a i = true <->
  exists c, (c < n)%nat /\ owner sizes c = a /\ A i c <> 0).
Proof.
  intros a i Ha Hi; unfold irrep_mask; rewrite existsb_exists; split.
  - intros (c & I & H); apply andb_prop in H as [Hc H]; apply Nat.ltb_lt in Hc; apply negb_true_iff in H.
    exists c; split; [exact Hc|split; [|apply nonzero_mask; assumption]].
    apply in_seq in I; apply owner_spec; [unfold sizes; rewrite Sl; exact Hc|].
    rewrite len_sizes, firstn_S_sum by (rewrite len_sizes; exact Ha); unfold ipos in *; lia.
  - intros (c & Hc & Ho & Hne); exists c; split.
    + apply owner_spec in Ho; [|unfold sizes; rewrite Sl; exact Hc]; destruct Ho as (Hl & H).
      rewrite firstn_S_sum in H by exact Hl; apply in_seq; unfold ipos in *; lia.
    + apply andb_true_intro; split; [apply Nat.ltb_lt; exact Hc|].
      apply negb_true_iff, nonzero_mask; assumption.
Qed.

Lemma owner_m : forall c, (c < n)%nat -> (owner sizes c < m)%nat.
Proof. intros c Hc; rewrite <- len_sizes; apply owner_lt; unfold sizes; rewrite Sl; exact Hc. Qed.

Lemma lab_eq : forall a b, (a < m + n)%nat -> (b < m + n)%nat -> (lab a = lab b <-> connected (m + n) g a b).
Proof. intros a b Ha Hb; apply (proj2 (proj2 (Hcomp (m + n)%nat g)) a b Ha Hb). Qed.

Lemma lab_lt : forall a, (a < m + n)%nat -> (lab a < k)%nat.
Proof. intros a Ha; apply (proj1 (Hcomp (m + n)%nat g) a Ha). Qed.

Lemma zero_across : forall i c, (i < n)%nat -> (c < n)%nat -> rl i <> cl c -> A i c = 0.
Proof.
  intros i c Hi Hc D; destruct (Req_dec (A i c) 0) as [E|E]; [exact E|]; exfalso; apply D.
  pose proof (owner_m c Hc) as Ho; unfold rl, cl; apply lab_eq; [lia|lia|].
  apply rst_step; split; [lia|split; [lia|]]; unfold g, dis_graph.
  rewrite (proj2 (Nat.ltb_ge (m + i) m)), (proj2 (Nat.ltb_lt _ m) Ho) by lia; replace (m + i - m)%nat with i by lia.
  apply mask_spec; [exact Ho|exact Hi|exists c; auto].
Qed.

(** the rows of a block are those linked to one another *)
Lemma linked_lab : forall i j, (i < n)%nat -> (j < n)%nat -> (rl i = rl j <-> linked n A sizes i j).
Proof.
  intros i j Hi Hj; split.
  - intros E; apply lab_eq in E; [|lia|lia]; apply clos_rst_rstn1 in E.
    assert (X : forall b, clos_refl_sym_trans_n1 nat (fun a b => (a < m + n)%nat /\ (b < m + n)%nat /\ g a b = true) (m + i)%nat b ->
      ((m <= b)%nat -> linked n A sizes i (b - m)) /\
      ((b < m)%nat -> forall q, (q < n)%nat -> irrep_mask n A sizes b q = true -> linked n A sizes i q)).
    { intros b Hb; induction Hb as [|b b' Hst Hb IH].
      - split; [intros _; replace (m + i - m)%nat with i by lia; apply rst_refl|lia].
      - assert (Hg : (b < m + n)%nat /\ (b' < m + n)%nat /\ g b b' = true).
        { destruct Hst as [X|X]; [exact X|]; destruct X as (X1 & X2 & X3); split; [exact X2|split; [exact X1|]].
          unfold g, dis_graph in *; destruct (Nat.ltb b m), (Nat.ltb b' m); auto. }
        destruct Hg as (L1 & L2 & G); unfold g, dis_graph in G; destruct IH as [IH1 IH2].
        destruct (Nat.ltb_spec b m) as [Q|Q], (Nat.ltb_spec b' m) as [Q'|Q']; try discriminate G.
        + split; [intros _; apply IH2; auto; lia|lia].
        + split; [lia|intros _ q Hq Mq]; eapply rst_trans; [apply IH1; exact Q|apply rst_step].
          apply mask_spec in G as (c & Hc & Oc & Nc); [|exact Q'|lia].
          apply mask_spec in Mq as (c' & Hc' & Oc' & Nc'); [|exact Q'|exact Hq].
          split; [lia|split; [exact Hq|]]; exists c, c'; split; [exact Hc|split; [exact Hc'|split; [|split; assumption]]].
          apply owner_spec in Oc; [|unfold sizes; rewrite Sl; exact Hc]; apply owner_spec in Oc'; [|unfold sizes; rewrite Sl; exact Hc'].
          exists b'; split; [apply Oc|split; [apply Oc|apply Oc']]. }
    pose proof (proj1 (X _ E)) as Y; replace (m + j - m)%nat with j in Y by lia; apply Y; lia.
  - intros L; induction L as [a b (Ha & Hb & c & c' & Hc & Hc' & (q & Q1 & Q2 & Q3) & N1 & N2)|a|a b L IH|a b c L1 IH1 L2 IH2].
    + assert (O1 : owner sizes c = q) by (apply owner_spec; [unfold sizes; rewrite Sl; exact Hc|auto]).
      assert (O2 : owner sizes c' = q) by (apply owner_spec; [unfold sizes; rewrite Sl; exact Hc'|auto]).
      transitivity (lab q).
      * destruct (Nat.eq_dec (rl a) (cl c)) as [E|E]; [rewrite E; unfold cl; rewrite O1; reflexivity|].
        exfalso; apply N1, zero_across; assumption.
      * destruct (Nat.eq_dec (rl b) (cl c')) as [E|E]; [rewrite E; unfold cl; rewrite O2; reflexivity|].
        exfalso; apply N2, zero_across; assumption.
    + reflexivity.
    + symmetry; apply IH; assumption.
    + assert (Hb : (b < n)%nat).
      { clear - L1 Hi; assert (Y : (a < n)%nat <-> (b < n)%nat); [|apply Y; exact Hi].
        clear Hi; induction L1 as [a b (Y1 & Y2 & _)|a|a b _ IH|a b c _ IH1 _ IH2]; tauto. }
      rewrite (IH1 Hi Hb); apply IH2; assumption.
Qed.

(** ** one block *)
Let ii b := filter (fun i => Nat.eqb (lab i) b) (seq 0 m).
Let rr b := rows_of n rl b.
Let cc b := cols_of n cl b.

Lemma cc_eq : forall b, flat_map (fun i => seq (ipos sizes i) (nth i sizes 0%nat)) (ii b) = cc b.
Proof.
  intros b; unfold ii; rewrite flat_map_filter.
  etransitivity; [|etransitivity; [exact (cols_filter (fun i => Nat.eqb (lab i) b) sizes 0)|]].
  - rewrite len_sizes; reflexivity.
  - rewrite map_id; unfold cc, cols_of, cl, sizes; rewrite Sl; reflexivity.
Qed.

Lemma HinvA : inverse_of n A Ai.
Proof. exact (proj1 (proj2 (proj2 (proj2 Hr)))). Qed.

Lemma rr_cc : forall b, length (rr b) = length (cc b).
Proof. intros b; apply (block_square n A Ai rl cl HinvA zero_across). Qed.

Lemma sizes_ii : forall b, list_sum (map (fun i => nth i sizes 0%nat) (ii b)) = length (rr b).
Proof.
  intros b; rewrite rr_cc, <- cc_eq, flat_length; f_equal; apply map_ext; intros; rewrite seq_length; reflexivity.
Qed.

Lemma goods : Forall (fun s => irr (gi_id s) = Ret s) l /\ Forall (sound_irrep irr mem op e) (r_irreps r).
Proof.
  destruct Hr as (_ & Hs & _); split; [|exact Hs].
  exact (irr_ids irr _ _ El Il).
Qed.

Let ls b := flat_map (pick l) (ii b).

Lemma ls_irr : forall b, mapM irr (map gi_id (ls b)) = Ret (ls b).
Proof.
  intros b; pose proof (proj1 goods) as H; rewrite Forall_forall in H.
  assert (X : forall q, (forall s, In s q -> irr (gi_id s) = Ret s) -> mapM irr (map gi_id q) = Ret q).
  { induction q as [|s q IH]; intros Y; [reflexivity|]; cbn; rewrite (Y s (or_introl eq_refl)); cbn [bind].
    rewrite IH by (intros; apply Y; right; assumption); reflexivity. }
  apply X; intros s I; apply H; exact (pick_In _ _ _ I).
Qed.

Lemma ii_lt : forall b i, In i (ii b) -> (i < m)%nat /\ lab i = b.
Proof. intros b i I; apply filter_In in I as [I E]; apply in_seq in I; split; [lia|apply Nat.eqb_eq; exact E]. Qed.

Lemma ls_sizes : forall b, map gi_size (ls b) = map (fun i => nth i sizes 0%nat) (ii b).
Proof.
  intros b; unfold ls; rewrite <- pick_map; assert (X : forall i, In i (ii b) -> (i < m)%nat) by (intros i I; apply (ii_lt b i I)).
  induction (ii b) as [|i q IH]; [reflexivity|]; cbn [flat_map map].
  rewrite IH by (intros; apply X; right; assumption).
  assert (L : (i < m)%nat) by (apply X; left; reflexivity); unfold m in L; apply nth_error_Some in L.
  destruct (nth_error l i) as [s|] eqn:E; [|congruence]; cbn [app]; f_equal.
  symmetry; apply nth_error_nth; unfold sizes; rewrite nth_error_map, E; reflexivity.
Qed.

Let D (bs : list (nat * mat)) := bdiag bs.

Lemma owner_seq : forall i x, (i < m)%nat -> In x (seq (ipos sizes i) (nth i sizes 0%nat)) -> (x < n)%nat /\ owner sizes x = i.
Proof.
  intros i x Hi I; apply in_seq in I.
  assert (X : (x < list_sum (firstn (S i) sizes))%nat) by (rewrite firstn_S_sum by (rewrite len_sizes; exact Hi); lia).
  assert (Y : (list_sum (firstn (S i) sizes) <= list_sum sizes)%nat).
  { rewrite <- (firstn_skipn (S i) sizes) at 2; rewrite list_sum_app; lia. }
  assert (Z : (x < list_sum sizes)%nat) by lia; split; [unfold sizes in Z; rewrite Sl in Z; exact Z|].
  apply owner_spec; [exact Z|]; rewrite len_sizes; unfold ipos in I; lia.
Qed.

Lemma block_D : forall b bs, map fst bs = sizes -> bsize (flat_map (pick bs) (ii b)) = length (rr b) /\
  meq (length (rr b)) (length (rr b)) (bdiag (flat_map (pick bs) (ii b)))
    (fun x y => D bs (nth x (cc b) 0%nat) (nth y (cc b) 0%nat)).
Proof.
  intros b bs Hbs.
  assert (Lbs : length bs = m) by (rewrite <- len_sizes, <- Hbs, map_length; reflexivity).
  rewrite (pick_nth (0%nat, mzero)) by (intros i I; rewrite Lbs; apply (ii_lt b i I)).
  destruct (bdiag_gather (D bs) (map (fun i => seq (ipos sizes i) (nth i sizes 0%nat)) (ii b))
    (map (fun i => nth i bs (0%nat, mzero)) (ii b))) as [E1 E2].
  - assert (N : NoDup (ii b)) by (apply NoDup_filter, seq_NoDup).
    assert (X : forall i, In i (ii b) -> (i < m)%nat) by (intros i I; apply (ii_lt b i I)).
    revert N X; generalize (ii b) as q; induction q as [|i q IH]; intros N X; [exact I|].
    inversion N as [|? ? Ni Nq]; subst; cbn [map apart]; split; [|apply IH; [exact Nq|intros; apply X; right; assumption]].
    intros x y Ix Iy; rewrite <- flat_map_concat_map in Iy; apply in_flat_map in Iy as (j & Ij & Iy).
    assert (Dij : i <> j) by (intros ->; contradiction).
    destruct (owner_seq i x) as [_ Ox]; [apply X; left; reflexivity|exact Ix|].
    destruct (owner_seq j y) as [_ Oy]; [apply X; right; exact Ij|exact Iy|].
    split; unfold D; apply bdiag_off; rewrite Hbs, Ox, Oy; congruence.
  - assert (X : forall i, In i (ii b) -> (i < m)%nat) by (intros i I; apply (ii_lt b i I)).
    revert X; generalize (ii b) as q; induction q as [|i q IH]; intros X; constructor; [|apply IH; intros; apply X; right; assumption].
    assert (Li : (i < m)%nat) by (apply X; left; reflexivity).
    assert (Ei : nth_error bs i = Some (nth i bs (0%nat, mzero))) by (apply nth_error_nth'; lia).
    assert (Si : fst (nth i bs (0%nat, mzero)) = nth i sizes 0%nat).
    { rewrite <- Hbs; symmetry; apply nth_error_nth; rewrite nth_error_map, Ei; reflexivity. }
    rewrite seq_length; split; [exact Si|]; intros x y Hx Hy; rewrite !seq_nth by assumption.
    unfold D, ipos; rewrite <- Hbs, (bdiag_at bs i i _ _ x y Ei Ei), Nat.eqb_refl; [reflexivity|rewrite Si; exact Hx|rewrite Si; exact Hy].
  - rewrite <- flat_map_concat_map, cc_eq in E1, E2; rewrite rr_cc; split; [exact E1|].
    intros x y Hx Hy; apply E2; assumption.
Qed.

Lemma D_across : forall bs c c', map fst bs = sizes -> cl c <> cl c' -> D bs c c' = 0.
Proof. intros bs c c' E H; apply bdiag_off; rewrite E; intros X; apply H; unfold cl; rewrite X; reflexivity. Qed.

Lemma sharp_block : forall s (u v : nat -> nat), (forall x, (x < s)%nat -> (u x < n)%nat) -> (forall x, (x < s)%nat -> (v x < n)%nat) ->
  sharp s (fun x y => A (u x) (v y)).
Proof.
  intros s u v Hu Hv; destruct (allclose s s (fun x y => A (u x) (v y)) mid) eqn:E; [left|right; exact E].
  intros x y Hx Hy; rewrite allclose_true in E; specialize (E x y Hx Hy); apply Rleb_true in E.
  destruct (Hcut (u x) (v y) (Hu x Hx) (Hv y Hy)) as [C0 C1]; fold A in C0, C1; unfold mid in *.
  destruct (Nat.eqb x y); [apply C1|apply C0].
  - rewrite Rabs_R1 in E; lra.
  - rewrite Rabs_R0 in E; replace (A (u x) (v y) - 0) with (A (u x) (v y)) in E by ring; lra.
Qed.

Lemma block_ok : forall b, (b < k)%nat -> exists s, dis_block irr linv r l lab b = Ret s /\
  r_size s = length (rr b) /\ proper irr mem op e s /\
  forall x bs, mem x -> mapM (fun s => gi_rep s x) l = Ret bs -> map fst bs = sizes ->
    exists X, r_fun s x = Ret (length (rr b), X) /\
      meq (length (rr b)) (length (rr b)) X
        (fun i j => mmul n (mmul n A (D bs)) Ai (nth i (rr b) 0%nat) (nth j (rr b) 0%nat)).
Proof.
  intros b Hb; unfold dis_block; fold m n sizes A.
  change (filter (fun i => Nat.eqb (lab i) b) (seq 0 m)) with (ii b).
  change (filter (fun j => Nat.eqb (lab (m + j)%nat) b) (seq 0 n)) with (rr b).
  rewrite sizes_ii, Nat.eqb_refl; cbn [bind assert_]; rewrite cc_eq, <- rr_cc, Nat.eqb_refl; cbn [bind assert_].
  rewrite pick_map; fold (ls b).
  assert (Hs : Forall (sound_irrep irr mem op e) (map gi_id (ls b))).
  { apply Forall_forall; intros id I; apply in_map_iff in I as (s & <- & I); apply pick_In in I.
    pose proof (proj2 goods) as G; rewrite Forall_forall in G; apply G; rewrite <- Il; apply in_map; exact I. }
  assert (Ht : total_size irr (map gi_id (ls b)) (length (rr b))).
  { exists (ls b); split; [apply ls_irr|rewrite ls_sizes; apply sizes_ii]. }
  assert (Hne : map gi_id (ls b) <> []).
  { intros E; apply map_eq_nil in E.
    assert (E0 : length (rr b) = 0%nat) by (rewrite <- sizes_ii, <- ls_sizes, E; reflexivity).
    destruct (proj1 (proj2 (Hcomp (m + n)%nat g)) b Hb) as (a & Ha & Ea); fold lab in Ea.
    destruct (Nat.lt_ge_cases a m) as [L|L].
    - assert (I : In a (ii b)) by (apply filter_In; split; [apply in_seq; lia|apply Nat.eqb_eq; exact Ea]).
      unfold m in L; apply nth_error_Some in L; destruct (nth_error l a) as [s|] eqn:En; [|congruence].
      assert (J : In s (ls b)) by (apply in_flat_map; exists a; split; [exact I|unfold pick; rewrite En; left; reflexivity]).
      rewrite E in J; destruct J.
    - assert (I : In (a - m)%nat (rr b)).
      { apply filter_In; split; [apply in_seq; lia|]; apply Nat.eqb_eq; unfold rl; replace (m + (a - m))%nat with a by lia; exact Ea. }
      destruct (rr b); [destruct I|discriminate E0]. }
  pose proof (block_inverse n A Ai rl cl HinvA zero_across b) as HB; fold (rr b) (cc b) in HB.
  destruct (mk_repr_reproduces irr mem op e linv Hinv (map gi_id (ls b)) (length (rr b))
    (fun x y => A (nth x (rr b) 0%nat) (nth y (cc b) 0%nat)) None) as (s & Es & Ss & Is & Cs & _ & Rs).
  - exact Hs.
  - exact Hne.
  - exact Ht.
  - eexists; exact HB.
  - apply sharp_block; [intros x Hx; apply (rows_lt n rl b x Hx)|intros x Hx; rewrite rr_cc in Hx; apply (cols_lt n cl b x Hx)].
  - exists s; split; [exact Es|split; [exact Ss|split]].
    + split; [rewrite Is; exact Hne|split; [rewrite Is; exact Hs|split; [rewrite Is, Ss; exact Ht|exact Rs]]].
    + intros x bs Mx Eb Fb; destruct Rs as [Ri Rv]; destruct (Rv x Mx) as (bs' & X & E1 & E2 & E3 & E4).
      rewrite Ss in *; rewrite Is in E1; rewrite Cs in Ri, E4; unfold values in E1.
      rewrite (mapM_irr irr (fun s => gi_rep s x) _ _ (ls_irr b)) in E1.
      pose proof (pick_mapM (fun s => gi_rep s x) l bs (ii b) Eb) as P; fold (ls b) in P; rewrite P in E1; apply Ret_inj in E1.
      exists X; split; [exact E3|].
      destruct (block_D b bs Fb) as [_ BD].
      eapply meq_trans; [exact E4|].
      eapply meq_trans; [apply mmul_ext; [apply mmul_ext; [apply meq_refl|rewrite <- E1; exact BD]|exact (inverse_unique _ _ _ _ Ri HB)]|].
      intros i j Hi Hj; apply (conj_within n A Ai rl cl HinvA zero_across (D bs)); assumption.
Qed.

Let blocks := map rr (seq 0 k).

Lemma blocks_perm : Permutation (concat blocks) (seq 0 n).
Proof.
  apply NoDup_Permutation; [|apply seq_NoDup|].
  - unfold blocks; assert (N : NoDup (seq 0 k)) by apply seq_NoDup.
    induction (seq 0 k) as [|b q IH]; [constructor|]; inversion N as [|? ? Nb Nq]; subst; cbn [map concat].
    apply NoDup_app_intro; [apply rows_NoDup|apply IH; exact Nq|].
    intros x I J; rewrite <- flat_map_concat_map in J; apply in_flat_map in J as (b' & Ib & J).
    apply filter_In in I as [_ I]; apply filter_In in J as [_ J]; apply Nat.eqb_eq in I, J; subst; contradiction.
  - intros x; unfold blocks; rewrite <- flat_map_concat_map, in_flat_map; split.
    + intros (b & _ & J); apply filter_In in J as [J _]; exact J.
    + intros I; exists (rl x); pose proof I as J; apply in_seq in J; split.
      * apply in_seq; split; [lia|]; apply lab_lt; lia.
      * apply filter_In; split; [exact I|apply Nat.eqb_refl].
Qed.

Definition perm_mat (order : list nat) : mat :=
  fun i j => match nth_error order i with Some k => if Nat.eqb k j then 1 else 0 | None => 0 end.

Lemma perm_conj : forall order X i j, Permutation order (seq 0 n) -> (i < n)%nat -> (j < n)%nat ->
  mmul n (mmul n (perm_mat order) X) (mtr (perm_mat order)) i j = X (nth i order 0%nat) (nth j order 0%nat).
Proof.
  intros order X i j P Hi Hj; assert (L : length order = n) by (rewrite (Permutation_length P), seq_length; reflexivity).
  assert (B : forall q, (q < n)%nat -> (nth q order 0%nat < n)%nat).
  { intros q Hq; assert (I : In (nth q order 0%nat) (seq 0 n)) by (apply (Permutation_in _ P), nth_In; lia); apply in_seq in I; lia. }
  assert (V : forall q c, (q < n)%nat -> perm_mat order q c = if Nat.eqb (nth q order 0%nat) c then 1 else 0).
  { intros q c Hq; unfold perm_mat; rewrite (nth_error_nth' order 0%nat) by lia; reflexivity. }
  unfold mmul, mtr; rewrite (sumn_single n (nth j order 0%nat)); [|apply B; exact Hj|].
  - rewrite (sumn_single n (nth i order 0%nat)); [|apply B; exact Hi|].
    + rewrite !V, !Nat.eqb_refl by assumption; ring.
    + intros c Hc Dc; rewrite V, (proj2 (Nat.eqb_neq _ c)) by (auto; congruence); ring.
  - intros c Hc Dc; rewrite (V j), (proj2 (Nat.eqb_neq _ c)) by (auto; congruence); ring.
Qed.

Lemma dis_ok : exists rs, disentangle irr linv components r = Ret (perm_mat (concat blocks), rs) /\
  Forall (proper irr mem op e) rs /\ map (@length nat) blocks = map r_size rs /\
  forall x, mem x -> exists X bs, r_fun r x = Ret (n, X) /\ mapM (fun s => r_fun s x) rs = Ret bs /\ bsize bs = n /\
    meq n n (mmul n (mmul n (perm_mat (concat blocks)) X) (mtr (perm_mat (concat blocks)))) (bdiag bs).
Proof.
  destruct (mapM_build (dis_block irr linv r l lab) (fun b s => r_size s = length (rr b) /\ proper irr mem op e s /\
    forall x bs, mem x -> mapM (fun s => gi_rep s x) l = Ret bs -> map fst bs = sizes ->
    exists X, r_fun s x = Ret (length (rr b), X) /\
      meq (length (rr b)) (length (rr b)) X
        (fun i j => mmul n (mmul n A (D bs)) Ai (nth i (rr b) 0%nat) (nth j (rr b) 0%nat))) (seq 0 k)) as (rs & Ers & Hrs).
  { intros b I; apply in_seq in I; apply block_ok; lia. }
  exists rs; split; [|split; [|split]].
  - unfold disentangle; rewrite El; cbn [bind]; fold m n A sizes g k lab; rewrite Ers; cbn [bind].
    unfold perm_mat, blocks; rewrite <- flat_map_concat_map; reflexivity.
  - clear -Hrs; induction Hrs as [|b s q rs (_ & H & _) _ IH]; constructor; assumption.
  - unfold blocks; rewrite map_map; clear -Hrs; induction Hrs as [|b s q rs (H & _ & _) _ IH]; [reflexivity|]; cbn; rewrite H, IH; reflexivity.
  - intros x Mx; destruct (proj2 (proj2 (proj2 (proj2 Hr))) x Mx) as (bs & X & E1 & E2 & E3 & E4); fold n A Ai in E2, E3, E4.
    unfold values in E1; rewrite (mapM_irr irr (fun s => gi_rep s x) _ _ El) in E1.
    assert (Fb : map fst bs = sizes).
    { destruct (sound_list irr mem op e (r_irreps r) (proj2 goods)) as (l' & El' & _ & Hl').
      rewrite El in El'; apply Ret_inj in El'; subst l'; destruct (vals_total mem op e l x Mx Hl') as (bs' & Eb & Fb & _).
      rewrite E1 in Eb; apply Ret_inj in Eb; subst bs'; exact Fb. }
    set (R0 := mmul n (mmul n A (D bs)) Ai).
    assert (Y : exists cs, mapM (fun s => r_fun s x) rs = Ret cs /\
      Forall2 (fun l b => fst b = length l /\ forall i j, (i < length l)%nat -> (j < length l)%nat ->
        snd b i j = R0 (nth i l 0%nat) (nth j l 0%nat)) blocks cs).
    { unfold blocks; clear Ers; induction Hrs as [|b s q rs (_ & _ & H) _ IH]; [exists []; split; [reflexivity|constructor]|].
      destruct (H x bs Mx E1 Fb) as (Xb & EX & MX); destruct IH as (cs & Ec & Fc).
      exists ((length (rr b), Xb) :: cs); cbn [mapM map]; rewrite EX; cbn [bind]; rewrite Ec; split; [reflexivity|].
      constructor; [split; [reflexivity|exact MX]|exact Fc]. }
    destruct Y as (cs & Ec & Fc).
    destruct (bdiag_gather R0 blocks cs) as [S1 B1]; [|exact Fc|].
    { unfold blocks; cut (forall q, NoDup q -> apart R0 (map rr q)); [intros Y; apply Y, seq_NoDup|].
      induction q as [|b q IH]; intros N; [exact I|]; inversion N as [|? ? Nb Nq]; subst; cbn [map apart]; split; [|apply IH; exact Nq].
      intros u v Iu Iv; rewrite <- flat_map_concat_map in Iv; apply in_flat_map in Iv as (b' & Ib & Iv).
      apply filter_In in Iu as [Lu Iu]; apply filter_In in Iv as [Lv Iv]; apply Nat.eqb_eq in Iu, Iv; apply in_seq in Lu, Lv.
      assert (Db : b <> b') by (intros ->; contradiction).
      split; apply (conj_across n A Ai rl cl HinvA zero_across (D bs)); try lia; try congruence;
        intros c c' _ _; apply D_across; exact Fb. }
    pose proof blocks_perm as PB; assert (LB : length (concat blocks) = n) by (rewrite (Permutation_length PB), seq_length; reflexivity).
    exists X, cs; split; [exact E3|split; [exact Ec|split; [rewrite S1; exact LB|]]].
    intros i j Hi Hj; rewrite perm_conj by assumption; rewrite B1 by lia.
    apply E4; [assert (I : In (nth i (concat blocks) 0%nat) (seq 0 n)) by (apply (Permutation_in _ PB), nth_In; lia)
              |assert (I : In (nth j (concat blocks) 0%nat) (seq 0 n)) by (apply (Permutation_in _ PB), nth_In; lia)]; apply in_seq in I; lia.
Qed.

Lemma blocks_linked : forall i j, (i < n)%nat -> (j < n)%nat ->
  ((exists b, In b blocks /\ In i b /\ In j b) <-> linked n A sizes i j).
Proof.
  intros i j Hi Hj; rewrite <- linked_lab by assumption; split.
  - intros (b & I & Ii & Ij); apply in_map_iff in I as (q & <- & _).
    apply filter_In in Ii as [_ Ii]; apply filter_In in Ij as [_ Ij]; apply Nat.eqb_eq in Ii, Ij; congruence.
  - intros E; exists (rr (rl i)); split; [apply in_map, in_seq; split; [lia|]; apply lab_lt; lia|].
    split; apply filter_In; (split; [apply in_seq; lia|apply Nat.eqb_eq; congruence]).
Qed.
End Main.

Theorem disentangle_ok : forall T irr (mem : T -> Prop) op e linv components,
  correct_inverse linv -> correct_components components -> forall r, proper irr mem op e r -> clear_cut (r_size r) (r_cob r) ->
  let n := r_size r in exists ss P rs blocks,
  mapM irr (r_irreps r) = Ret ss /\ disentangle irr linv components r = Ret (P, rs) /\
  Permutation (concat blocks) (seq 0 n) /\ map (@length nat) blocks = map r_size rs /\
  (forall i j, (i < n)%nat -> P i j = if Nat.eqb (nth i (concat blocks) 0%nat) j then 1 else 0) /\
  (forall i j, (i < n)%nat -> (j < n)%nat ->
     ((exists b, In b blocks /\ In i b /\ In j b) <-> linked n (r_cob r) (map gi_size ss) i j)) /\
  Forall (proper irr mem op e) rs /\
  forall x, mem x -> exists X bs, r_fun r x = Ret (n, X) /\ mapM (fun s => r_fun s x) rs = Ret bs /\ bsize bs = n /\
    meq n n (mmul n (mmul n P X) (mtr P)) (bdiag bs).
Proof.
  intros T irr mem op e linv components Hinv Hcomp r Hr Hcut n.
  destruct (sound_list irr mem op e (r_irreps r) (proj1 (proj2 Hr))) as (l & El & Il & _).
  assert (Sl : list_sum (map gi_size l) = n).
  { destruct Hr as (_ & _ & (l' & El' & Sl') & _); rewrite El in El'; apply Ret_inj in El'; subst l'; exact Sl'. }
  destruct (dis_ok irr mem op e linv components Hinv Hcomp r Hr Hcut l El Il Sl) as (rs & E & F & L & H).
  pose proof (blocks_perm components Hcomp r l Sl) as PB.
  exists l; do 2 eexists; eexists; split; [exact El|split; [exact E|split; [exact PB|split; [exact L|split; [|split; [|split; [exact F|exact H]]]]]]].
  - intros i j Hi; unfold perm_mat; rewrite (nth_error_nth' _ 0%nat); [reflexivity|].
    rewrite (Permutation_length PB), seq_length; exact Hi.
  - intros i j Hi Hj; apply (blocks_linked components Hcomp r Hcut l Sl); assumption.
Qed.
