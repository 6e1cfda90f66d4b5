(** Facts about windows and about operations that treat the channels alike. *)
From Coq Require Import Reals ZArith Lia Lra Bool List Arith Permutation.
From Verif Require Import LibRes LibMat GridModel SpecGrid GridThms ImageModel SpecImage ImageProofs MaskThms ShapeModel ConvThms SPoolModel SpecSPool SpecPool.
Import ListNotations.
Open Scope R_scope.

(** ** Operations on windows, channel by channel *)
Section windows.
  Variables (c : nat) (rho : mat) (n : nat) (pi : nat -> nat) (b : nat -> bool) (B : nat).
  Hypothesis P : ImageProofs.permutes n pi.

  (** [x'] is [x] with its fibers transformed and its grid moved. *)
  Definition turned (ws : list nat) (x x' : array R) : Prop :=
    shape x = B :: c :: ws /\ shape x' = B :: c :: pshape n pi ws /\
    forall bt o q, (bt < B)%nat -> (o < c)%nat -> valid ws q ->
      entry x' (bt :: o :: act n pi b ws q) = sumn c (fun j => rho o j * entry x (bt :: j :: q)).

  Definition commutes (f : list (R * R) -> R) : Prop :=
    forall (l : list (R * list nat)) (v : nat -> list nat -> R) o, l <> [] -> (o < c)%nat ->
      f (map (fun wq => (fst wq, sumn c (fun j => rho o j * v j (snd wq)))) l) = sumn c (fun j => rho o j * f (map (fun wq => (fst wq, v j (snd wq))) l)).
  Definition symmetric (f : list (R * R) -> R) : Prop := forall l m, Permutation l m -> f l = f m.

  Lemma windows_turned : forall f ws os (win win' : list nat -> list (R * list nat)) x x' y y',
    symmetric f -> commutes f -> turned ws x x' ->
    shape y = B :: c :: os -> shape y' = B :: c :: pshape n pi os ->
    (forall bt o pos, (bt < B)%nat -> (o < c)%nat -> valid os pos -> entry y (bt :: o :: pos) = f (map (fun wq => (fst wq, entry x (bt :: o :: snd wq))) (win pos))) ->
    (forall bt o pos, (bt < B)%nat -> (o < c)%nat -> valid os pos -> entry y' (bt :: o :: act n pi b os pos) = f (map (fun wq => (fst wq, entry x' (bt :: o :: snd wq))) (win' (act n pi b os pos)))) ->
    (forall pos, valid os pos -> win pos <> [] \/ f [] = 0) ->
    (forall pos w q, valid os pos -> In (w, q) (win pos) -> valid ws q) ->
    (forall pos, valid os pos -> Permutation (win' (act n pi b os pos)) (map (fun wq => (fst wq, act n pi b ws (snd wq))) (win pos))) ->
    turned os y y'.
  Proof.
    intros f ws os win win' x x' y y' Sf Cf (Ex & Ex' & T) Ey Ey' Vy Vy' NE Vw Pw; split; [exact Ey|split; [exact Ey'|]].
    intros bt o pos Hb Ho V. rewrite Vy' by assumption.
    rewrite (Sf _ _ (Permutation_map _ (Pw pos V))), map_map; cbn [fst snd].
    rewrite (map_ext_in _ (fun wq => (fst wq, sumn c (fun j => rho o j * entry x (bt :: j :: snd wq))))).
    - destruct (NE pos V) as [N|N].
      + rewrite (Cf _ (fun j q => entry x (bt :: j :: q))) by assumption. apply sumn_ext; intros j Hj; rewrite Vy by assumption; reflexivity.
      + destruct (win pos) as [|a l] eqn:E.
        * cbn [map]; rewrite N; symmetry; apply sumn_0; intros j Hj; rewrite Vy by assumption; rewrite E; cbn [map]; rewrite N; ring.
        * rewrite (Cf _ (fun j q => entry x (bt :: j :: q))) by (assumption || discriminate). apply sumn_ext; intros j Hj; rewrite Vy by assumption; rewrite E; reflexivity.
    - intros (w & q) Hq; cbn [fst snd]; f_equal; apply T; auto. apply (Vw pos w); assumption.
  Qed.

  (** moving is what [transform] does *)
  Lemma turned_transform : forall half, half 0 = 0 -> half 1 = 1 -> half (-1) = -1 -> forall affine M ws x, signed_perm n M -> does n M pi b -> length ws = n ->
    shape x = B :: c :: ws ->
    exists x', transform half affine c rho n M x = Ret x' /\ turned ws x x' /\ forall z, turned ws x z -> same_array z x'.
  Proof.
    intros half H0 H1 Hm affine M ws x HM D Ln Ex.
    destruct (transform_ok half H0 H1 Hm affine c rho n M x B ws HM Ex Ln) as (x1 & x' & _ & E & Ex1 & F1 & M1).
    rewrite Ex in Ex1. pose proof M1 as M2.
    apply (moved_iff _ x1 x' 2 n M pi b [B; c] ws D Ex1 eq_refl Ln) in M1; destruct M1 as (Sx' & G).
    exists x'; split; [exact E|split].
    - split; [exact Ex|split; [exact Sx'|]]. intros bt o q Hb Ho V. rewrite <- F1.
      apply (G [bt; o] q); [constructor; [exact Hb|constructor; [exact Ho|constructor]]|exact V].
    - intros z (_ & Sz & Tz). apply (moved_unique R x1 z x' 2 n M); [rewrite Ex1; cbn; lia|exact HM| |exact M2].
      apply (moved_iff _ x1 z 2 n M pi b [B; c] ws D Ex1 eq_refl Ln); split; [exact Sz|].
      intros l i Vl Vi. inversion Vl as [|bt ? l1 ? Hb V1]; subst; inversion V1 as [|o ? l2 ? Ho V2]; subst; inversion V2; subst; cbn [app].
      rewrite F1; apply Tz; assumption.
  Qed.
End windows.

(** ** Functions of a window *)
Lemma sums_commute : forall c rho (g : R -> R), commutes c rho (fun l => rsum (map (fun wv => fst wv * snd wv) l)).
Proof.
  intros c rho _ l v o _ Ho; rewrite map_map; cbn [fst snd].
  transitivity (rsum (map (fun wq => sumn c (fun j => rho o j * (fst wq * v j (snd wq)))) l)).
  - apply rsum_ext; intros wq _; rewrite <- sumn_scal_l; apply sumn_ext; intros; ring.
  - rewrite rsum_sumn; apply sumn_ext; intros j Hj; rewrite rsum_scal, map_map; reflexivity.
Qed.
Lemma sums_symmetric : symmetric (fun l => rsum (map (fun wv => fst wv * snd wv) l)).
Proof. intros l m H; apply rsum_perm, Permutation_map; exact H. Qed.

Lemma rmax_max : forall l, l <> [] -> is_max (rmax l) l.
Proof.
  intros [|a l] H; [congruence|clear H]; cbn [rmax]. revert a; induction l as [|a' l IH]; intros a; cbn [fold_left].
  - split; [left; reflexivity|intros x [<-|[]]; lra].
  - destruct (IH (Rmax a a')) as (G & G'); split.
    + destruct G as [<-|G]; [unfold Rmax; destruct (Rle_dec a a'); cbn; auto|right; right; exact G].
    + intros x [<-|[<-|H]]; [|pose proof (Rmax_r a a')|apply G'; right; exact H].
      * pose proof (Rmax_l a a'); pose proof (G' _ (or_introl eq_refl)); lra.
      * pose proof (G' _ (or_introl eq_refl)); lra.
Qed.
Lemma is_max_unique : forall l u v, is_max u l -> is_max v l -> u = v.
Proof. intros l u v (Hu & Gu) (Hv & Gv); apply Rle_antisym; auto. Qed.
Lemma rmax_perm : forall l m, Permutation l m -> rmax l = rmax m.
Proof.
  intros [|a l] m H; [apply Permutation_nil in H; subst; reflexivity|].
  apply (is_max_unique (a :: l)); [apply rmax_max; discriminate|].
  destruct m as [|a' m]; [apply Permutation_sym, Permutation_nil in H; discriminate|].
  destruct (rmax_max (a' :: m) ltac:(discriminate)) as (G & G'); split.
  - apply (Permutation_in _ (Permutation_sym H)); exact G.
  - intros x Hx; apply G', (Permutation_in _ H), Hx.
Qed.
Lemma max_symmetric : symmetric (fun l => rmax (map snd l)).
Proof. intros l m H; apply rmax_perm, Permutation_map; exact H. Qed.

Lemma permutes_rows : forall c rho, SpecPool.permutes c rho -> forall o, (o < c)%nat -> exists j, (j < c)%nat /\ forall u, sumn c (fun i => rho o i * u i) = u j.
Proof.
  intros c rho (p & Hp & Hi & E) o Ho.
  destruct (permutes_onto c p (conj Hp Hi) o Ho) as (j & Hj & Ej). exists j; split; [exact Hj|]; intros u.
  rewrite (sumn_single c j) by (first [exact Hj|intros i Hi' Ni; rewrite E by assumption; destruct (Nat.eqb_spec o (p i)) as [Eo|Eo]; [exfalso; apply Ni, Hi; congruence|ring]]).
  rewrite E, Ej, Nat.eqb_refl by assumption; ring.
Qed.
Lemma max_commutes : forall c rho, SpecPool.permutes c rho -> commutes c rho (fun l => rmax (map snd l)).
Proof.
  intros c rho HP l v o _ Ho. destruct (permutes_rows c rho HP o Ho) as (j & Hj & E). rewrite E, !map_map; cbn [snd].
  f_equal; apply map_ext; intros wq; apply E.
Qed.

(** ** Sizes *)
Lemma pool_size_ok : forall ceil k s p d w o, pool_size ceil k s p d w = Ret o ->
  (0 < k /\ 0 < s /\ 0 < d /\ p <= k / 2 /\ 0 < o)%nat.
Proof.
  intros ceil k s p d w o H; unfold pool_size in H; apply bind_Ret in H as (z & H & E); apply Ret_inj in E; subst o.
  unfold torch_pool_size in H; cbn [w_kernel w_stride w_padding w_dilation pool_window] in H.
  apply assert_Ret in H as (H1 & H); apply assert_Ret in H as (H2 & H); cbv zeta in H; apply assert_Ret in H as (H3 & H); apply Ret_inj in H.
  rewrite !andb_true_iff, !Z.ltb_lt in H1; rewrite andb_true_iff, !Z.leb_le in H2; rewrite Z.leb_le in H3.
  rewrite H in H3. assert (Z.of_nat (k / 2) = (Z.of_nat k / 2)%Z) by (rewrite Nat2Z.inj_div; reflexivity). lia.
Qed.

(** a window that fits: no difference between the modes, and the size is the one of
    a convolution *)
Lemma fits_conv : forall k s p d w, (0 < s)%nat -> fits k s p d w ->
  (d * (k - 1) + 1 <= w + 2 * p)%nat /\ ((w + 2 * p - (d * (k - 1) + 1)) mod s = 0)%nat.
Proof.
  intros k s p d w Hs (q & Q); split; [lia|]. rewrite Q. replace (d * (k - 1) + 1 + s * q - (d * (k - 1) + 1))%nat with (q * s)%nat by lia.
  apply Nat.mod_mul; lia.
Qed.
Lemma pool_size_fits : forall ceil k s p d w, (0 < k)%nat -> (0 < s)%nat -> (0 < d)%nat -> (p <= k / 2)%nat -> fits k s p d w ->
  pool_size ceil k s p d w = Ret (conv_size k s d (w + 2 * p)).
Proof.
  intros ceil k s p d w Hk Hs Hd Hp (q & Q).
  unfold pool_size, torch_pool_size; cbn [w_kernel w_stride w_padding w_dilation pool_window].
  assert (Z.of_nat (k / 2) = (Z.of_nat k / 2)%Z) by (rewrite Nat2Z.inj_div; reflexivity).
  replace ((0 <? Z.of_nat k)%Z && (0 <? Z.of_nat s)%Z && (0 <? Z.of_nat d)%Z) with true by (symmetry; rewrite !andb_true_iff, !Z.ltb_lt; lia).
  replace ((0 <=? Z.of_nat p)%Z && (Z.of_nat p <=? Z.of_nat k / 2)%Z) with true by (symmetry; rewrite !andb_true_iff, !Z.leb_le; lia).
  cbn [assert_ bind]; cbv zeta. unfold conv_size.
  replace (w + 2 * p - (d * (k - 1) + 1))%nat with (s * q)%nat by lia. replace (s * q / s)%nat with q by (rewrite Nat.mul_comm, Nat.div_mul; lia).
  assert (E : (Z.of_nat w + 2 * Z.of_nat p - Z.of_nat d * (Z.of_nat k - 1) - 1 = Z.of_nat s * Z.of_nat q)%Z).
  { rewrite <- Nat2Z.inj_mul. apply (f_equal Z.of_nat) in Q; rewrite !Nat2Z.inj_add, !Nat2Z.inj_mul, Nat2Z.inj_sub in Q by lia.
    change (Z.of_nat 1) with 1%Z in Q; change (Z.of_nat 2) with 2%Z in Q. rewrite Nat2Z.inj_mul; lia. }
  rewrite E.
  replace ((Z.of_nat s * Z.of_nat q + (if ceil then Z.of_nat s - 1 else 0)) / Z.of_nat s)%Z with (Z.of_nat q).
  2:{ destruct ceil; rewrite Z.add_comm, Z.mul_comm, Z.div_add by lia; [rewrite Z.div_small by lia|rewrite Z.div_0_l by lia]; lia. }
  replace ((Z.of_nat q + 1 - 1) * Z.of_nat s >=? Z.of_nat w + Z.of_nat p)%Z with false.
  2:{ symmetry; rewrite Z.geb_leb, Z.leb_gt. replace ((Z.of_nat q + 1 - 1) * Z.of_nat s)%Z with (Z.of_nat (s * q)) by (rewrite Nat2Z.inj_mul; ring).
      assert (p <= d * (k - 1))%nat; [|lia]. transitivity (k - 1)%nat; [|rewrite <- (Nat.mul_1_l (k - 1)) at 1; apply Nat.mul_le_mono_r; lia].
      destruct k as [|[|k]]; [lia|cbn in Hp; lia|]. assert (S (S k) / 2 < S (S k))%nat by (apply Nat.div_lt; lia). lia. }
  rewrite andb_false_r. replace (1 <=? Z.of_nat q + 1)%Z with true by (symmetry; apply Z.leb_le; lia). cbn [assert_ bind]. f_equal; lia.
Qed.

(** ** The points under a window *)
Lemma window_points_reads : forall k s p d ws pos,
  window_points k s p d ws pos = flat_map (fun t => match reads PadZeros p ws (place s d pos t) with Some q => [q] | None => [] end) (all_indices (repeat k (length ws))).
Proof. reflexivity. Qed.

Lemma flat_map_perm : forall {A C} (f : A -> list C) l m, Permutation l m -> Permutation (flat_map f l) (flat_map f m).
Proof.
  intros A C f l m H; induction H; cbn [flat_map]; [constructor|apply Permutation_app_head; assumption| |etransitivity; eassumption].
  rewrite !app_assoc; apply Permutation_app_tail, Permutation_app_comm.
Qed.
Lemma flat_map_map : forall {A C D} (f : C -> list D) (g : A -> C) l, flat_map f (map g l) = flat_map (fun a => f (g a)) l.
Proof. intros A C D f g l; induction l as [|a l IH]; cbn; [reflexivity|rewrite IH; reflexivity]. Qed.
Lemma map_flat_map : forall {A C D} (f : C -> D) (g : A -> list C) l, map f (flat_map g l) = flat_map (fun a => map f (g a)) l.
Proof. intros A C D f g l; induction l as [|a l IH]; cbn; [reflexivity|rewrite map_app, IH; reflexivity]. Qed.
Lemma flat_map_ext_in : forall {A C} (f g : A -> list C) l, (forall a, In a l -> f a = g a) -> flat_map f l = flat_map g l.
Proof. intros A C f g l H; induction l as [|a l IH]; cbn; [reflexivity|rewrite H, IH by (intros; try apply H; cbn; auto); reflexivity]. Qed.

Lemma zeros_ok : forall p ws, forallb (pad_ok PadZeros p) ws = true.
Proof. intros p ws; apply forallb_forall; reflexivity. Qed.

Section fitting.
  Variables (n : nat) (pi : nat -> nat) (b : nat -> bool) (k s p d : nat) (ws : list nat).
  Hypotheses (P : ImageProofs.permutes n pi) (L : length ws = n) (Hs : (0 < s)%nat) (Hf : Forall (fits k s p d) ws).
  Let wp := map (fun w => w + 2 * p)%nat ws.
  Let os := osize k s d wp.

  Lemma Lwp : length wp = n.
  Proof. unfold wp; rewrite map_length; exact L. Qed.
  Lemma Hwp : Forall (fun w => d * (k - 1) + 1 <= w /\ (w - (d * (k - 1) + 1)) mod s = 0)%nat wp.
  Proof.
    unfold wp; apply Forall_forall; intros w Hw; apply in_map_iff in Hw as (w0 & <- & Hw). rewrite Forall_forall in Hf. apply (fits_conv k s p d w0 Hs (Hf w0 Hw)).
  Qed.
  Lemma Hwp1 : Forall (fun w => d * (k - 1) + 1 <= w)%nat wp.
  Proof. eapply Forall_impl; [|apply Hwp]; intros w (H & _); exact H. Qed.

  Lemma tap_valid : forall pos t, valid os pos -> valid (repeat k n) t -> valid wp (place s d pos t).
  Proof. intros pos t V Vt; apply (place_valid k); [exact Hs|exact Hwp1|exact V|rewrite Lwp; exact Vt]. Qed.

  Lemma tap_act : forall pos t, valid os pos -> valid (repeat k n) t ->
    reads PadZeros p (pshape n pi ws) (place s d (act n pi b os pos) (act n pi b (repeat k n) t)) = option_map (act n pi b ws) (reads PadZeros p ws (place s d pos t)).
  Proof.
    intros pos t V Vt. unfold os; rewrite (place_act n pi b k s d wp pos t P Lwp Hs Hwp V Vt). apply (reads_act PadZeros p n pi b ws); auto using zeros_ok, tap_valid.
  Qed.

  Lemma window_points_act : forall pos, valid os pos ->
    Permutation (window_points k s p d (pshape n pi ws) (act n pi b os pos)) (map (act n pi b ws) (window_points k s p d ws pos)).
  Proof.
    intros pos V; rewrite !window_points_reads, pshape_length, L.
    pose proof (act_perm n pi b (repeat k n) P (repeat_length _ _)) as Pm. rewrite repeat_pshape in Pm by exact P.
    etransitivity; [apply flat_map_perm, Permutation_sym, Pm|]. rewrite flat_map_map, map_flat_map.
    apply Permutation_refl', flat_map_ext_in; intros t Ht; apply all_indices_In in Ht. rewrite tap_act by assumption.
    destruct (reads PadZeros p ws (place s d pos t)); reflexivity.
  Qed.

  Lemma window_points_valid : forall pos q, valid os pos -> In q (window_points k s p d ws pos) -> valid ws q.
  Proof.
    intros pos q V H; rewrite window_points_reads, L in H; apply in_flat_map in H as (t & Ht & H); apply all_indices_In in Ht.
    destruct (reads PadZeros p ws (place s d pos t)) as [q'|] eqn:E; cbn in H; [destruct H as [<-|[]]|destruct H].
    apply (reads_valid PadZeros p ws (place s d pos t)); [apply zeros_ok|apply tap_valid; assumption|exact E].
  Qed.

  Lemma sizes_fit : forall ceil, (n = 0%nat \/ (0 < k)%nat) -> (0 < d)%nat -> (p <= k / 2)%nat -> mapM (pool_size ceil k s p d) ws = Ret os.
  Proof.
    intros ceil Hk Hd Hp. unfold os, osize, wp. rewrite map_length. clear - L Hs Hf Hk Hd Hp. revert n L Hk; induction ws as [|w l IH]; intros n L Hk; [reflexivity|].
    cbn in L; destruct n as [|m]; [discriminate|]. inversion Hf as [|? ? H1 H2]; subst. cbn [mapM length repeat map combine fst snd].
    rewrite pool_size_fits by (auto; lia). cbn [bind]. rewrite (IH H2 m) by lia. reflexivity.
  Qed.
End fitting.
