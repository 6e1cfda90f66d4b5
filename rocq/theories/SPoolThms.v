(** Max and average pooling: what they compute and with what they commute. *)
From Coq Require Import Reals ZArith Lia Lra Bool List Arith Permutation.
From Verif Require Import LibRes LibMat GridModel SpecGrid GridProofs GridThms ImageModel SpecImage ImageProofs MaskThms ShapeModel ConvThms SPoolModel SpecSPool SpecPool SPoolProofs.
Import ListNotations.
Open Scope R_scope.

Lemma params_ok : forall ceil k s p d ws os, mapM (pool_size ceil k s p d) ws = Ret os -> ws <> [] ->
  (0 < k /\ 0 < s /\ 0 < d /\ p <= k / 2)%nat.
Proof.
  intros ceil k s p d [|w ws] os H N; [congruence|]. apply mapM_Ret_inv in H; inversion H as [|? ? ? ? H1 H2]; subst. apply pool_size_ok in H1; tauto.
Qed.
Lemma max_pool_inv : forall ceil k s p d x y B c ws, shape x = B :: c :: ws -> max_pool ceil k s p d x = Ret y ->
  exists os, mapM (pool_size ceil k s p d) ws = Ret os /\ shape y = B :: c :: os /\
    (forall pos, valid os pos -> window_points k s p d ws pos <> []) /\
    forall bt o pos, entry y (bt :: o :: pos) = rmax (map (fun q => entry x (bt :: o :: q)) (window_points k s p d ws pos)).
Proof.
  intros ceil k s p d x y B c ws Ex H; unfold max_pool in H; rewrite Ex in H; cbn [length Nat.leb skipn firstn] in H; apply assert_Ret in H as (_ & H).
  apply bind_Ret in H as (os & Eo & H); apply assert_Ret in H as (N & H); apply Ret_inj in H; subst y. exists os; split; [exact Eo|split; [reflexivity|split; [|reflexivity]]].
  intros pos V E; rewrite forallb_forall in N; specialize (N pos (proj2 (all_indices_In os pos) V)); rewrite E in N; discriminate N.
Qed.
Lemma max_pool_go : forall ceil k s p d x B c ws os, shape x = B :: c :: ws -> mapM (pool_size ceil k s p d) ws = Ret os ->
  (forall pos, valid os pos -> window_points k s p d ws pos <> []) -> exists y, max_pool ceil k s p d x = Ret y.
Proof.
  intros ceil k s p d x B c ws os Ex Eo N; unfold max_pool; rewrite Ex; cbn [length Nat.leb assert_ skipn firstn]; rewrite Eo; cbn [bind].
  replace (forallb _ (all_indices os)) with true; [eexists; reflexivity|]. symmetry; apply forallb_forall; intros pos Hp; apply all_indices_In in Hp.
  specialize (N pos Hp). destruct (window_points k s p d ws pos); [congruence|reflexivity].
Qed.

Lemma max_turned : forall c rho n pi b B ceil k s p d ws x x' y, (0 < n)%nat -> ImageProofs.permutes n pi -> SpecPool.permutes c rho -> length ws = n ->
  Forall (fits k s p d) ws -> turned c rho n pi b B ws x x' -> max_pool ceil k s p d x = Ret y ->
  exists os y', length os = n /\ max_pool ceil k s p d x' = Ret y' /\ turned c rho n pi b B os y y'.
Proof.
  intros c rho n pi b B ceil k s p d ws x x' y Hn P HP L Hf T H. pose proof T as (Ex & Ex' & _).
  destruct (max_pool_inv _ _ _ _ _ _ _ _ _ _ Ex H) as (os & Eo & Sy & N & Vy).
  destruct (params_ok _ _ _ _ _ _ _ Eo ltac:(intros ->; cbn in L; lia)) as (Hk & Hs & Hd & Hp).
  pose proof Eo as Eo2; rewrite (sizes_fit n k s p d ws L Hs Hf ceil) in Eo2 by auto. apply Ret_inj in Eo2. set (wp := map (fun w => w + 2 * p)%nat ws) in *.
  assert (Los : length os = n) by (rewrite <- Eo2, osize_length; apply Lwp; exact L).
  pose proof (Forall_pshape n pi (fits k s p d) ws P L Hf) as Hf'.
  pose proof (sizes_fit n k s p d (pshape n pi ws) (pshape_length _ _ _) Hs Hf' ceil (or_intror Hk) Hd Hp) as Eo'.
  rewrite map_pshape, osize_pshape in Eo' by (try apply Lwp; assumption). fold wp in Eo'; rewrite Eo2 in Eo'.
  assert (PW : forall pos, valid os pos -> Permutation (window_points k s p d (pshape n pi ws) (act n pi b os pos)) (map (act n pi b ws) (window_points k s p d ws pos))).
  { rewrite <- Eo2; intros pos V; apply window_points_act; assumption. }
  destruct (max_pool_go ceil k s p d x' B c (pshape n pi ws) _ Ex' Eo') as (y' & H').
  { intros pos' V'; destruct (act_onto n pi b os pos' P Los V') as (pos & V & <-). intros E; pose proof (PW pos V) as Q; rewrite E in Q; apply Permutation_nil in Q.
    apply map_eq_nil in Q; apply (N pos V Q). }
  exists os, y'; split; [exact Los|split; [exact H'|]].
  destruct (max_pool_inv _ _ _ _ _ _ _ _ _ _ Ex' H') as (os' & Eos' & Sy' & N' & Vy'). rewrite Eo' in Eos'; apply Ret_inj in Eos'; subst os'.
  apply (windows_turned c rho n pi b B (fun l => rmax (map snd l)) ws os (fun pos => map (pair 1) (window_points k s p d ws pos))
    (fun pos => map (pair 1) (window_points k s p d (pshape n pi ws) pos)) x x' y y'); auto using max_symmetric, max_commutes.
  - intros bt o pos _ _ _; rewrite Vy, !map_map; reflexivity.
  - intros bt o pos _ _ _; rewrite Vy', !map_map; reflexivity.
  - intros pos w q V Hq; apply in_map_iff in Hq as (q' & E & Hq); injection E as _ <-. rewrite <- Eo2 in V. apply (window_points_valid n k s p d ws L Hs Hf pos); assumption.
  - intros pos V; rewrite map_map; cbn [fst snd]. rewrite <- (map_map (act n pi b ws) (pair 1)). apply Permutation_map, PW; exact V.
Qed.

(** ** Averages *)
Lemma avg_pool_inv : forall ceil k s p x y B c ws, shape x = B :: c :: ws -> avg_pool ceil k s p x = Ret y ->
  exists os, mapM (pool_size ceil k s p 1) ws = Ret os /\ shape y = B :: c :: os /\
    forall bt o pos, entry y (bt :: o :: pos) = rsum (map (fun q => entry x (bt :: o :: q)) (window_points k s p 1 ws pos)) / INR (divisor k s p ws pos).
Proof.
  intros ceil k s p x y B c ws Ex H; unfold avg_pool in H; rewrite Ex in H; cbn [length Nat.leb skipn firstn] in H; apply assert_Ret in H as (_ & H).
  apply bind_Ret in H as (os & Eo & H); apply Ret_inj in H; subst y. exists os; split; [exact Eo|split; reflexivity].
Qed.
Lemma avg_pool_go : forall ceil k s p x B c ws os, shape x = B :: c :: ws -> mapM (pool_size ceil k s p 1) ws = Ret os -> exists y, avg_pool ceil k s p x = Ret y.
Proof.
  intros ceil k s p x B c ws os Ex Eo; unfold avg_pool; rewrite Ex; cbn [length Nat.leb assert_ skipn firstn]; rewrite Eo; eexists; reflexivity.
Qed.

Lemma divisor_fits : forall k s p ws pos, (0 < k)%nat -> (0 < s)%nat -> Forall (fits k s p 1) ws -> valid (osize k s 1 (map (fun w => w + 2 * p)%nat ws)) pos ->
  divisor k s p ws pos = (k ^ length ws)%nat.
Proof.
  intros k s p ws; induction ws as [|w ws IH]; intros pos Hk Hs Hf V; [reflexivity|].
  unfold osize in V; cbn [map length repeat combine fst snd] in V; inversion V as [|i ? pos' ? Hi V']; subst. inversion Hf as [|? ? Hw Hf']; subst.
  unfold divisor; cbn [combine map fst snd fold_right length Nat.pow]. fold (divisor k s p ws pos'). rewrite (IH pos' Hk Hs Hf') by exact V'. f_equal.
  destruct Hw as (q & Q). unfold taps_inside.
  assert (E : conv_size k s 1 (w + 2 * p) = (q + 1)%nat).
  { unfold conv_size; replace (w + 2 * p - (1 * (k - 1) + 1))%nat with (q * s)%nat by lia. rewrite Nat.div_mul by lia; reflexivity. }
  change (w + (p + (p + 0)))%nat with (w + 2 * p)%nat in Hi; rewrite E in Hi.
  assert (s * i <= s * q)%nat by (apply Nat.mul_le_mono_l; lia). rewrite Nat.min_l by lia. lia.
Qed.

Lemma avg_turned : forall c rho n pi b B ceil k s p ws x x' y, (0 < n)%nat -> ImageProofs.permutes n pi -> length ws = n ->
  Forall (fits k s p 1) ws -> turned c rho n pi b B ws x x' -> avg_pool ceil k s p x = Ret y ->
  exists os y', length os = n /\ avg_pool ceil k s p x' = Ret y' /\ turned c rho n pi b B os y y'.
Proof.
  intros c rho n pi b B ceil k s p ws x x' y Hn P L Hf T H. pose proof T as (Ex & Ex' & _).
  destruct (avg_pool_inv _ _ _ _ _ _ _ _ _ Ex H) as (os & Eo & Sy & Vy).
  destruct (params_ok _ _ _ _ _ _ _ Eo ltac:(intros ->; cbn in L; lia)) as (Hk & Hs & Hd & Hp).
  pose proof Eo as Eo2; rewrite (sizes_fit n k s p 1 ws L Hs Hf ceil) in Eo2 by auto. apply Ret_inj in Eo2. set (wp := map (fun w => w + 2 * p)%nat ws) in *.
  assert (Los : length os = n) by (rewrite <- Eo2, osize_length; apply Lwp; exact L).
  pose proof (Forall_pshape n pi (fits k s p 1) ws P L Hf) as Hf'.
  pose proof (sizes_fit n k s p 1 (pshape n pi ws) (pshape_length _ _ _) Hs Hf' ceil (or_intror Hk) Hd Hp) as Eo1.
  assert (Eo' : mapM (pool_size ceil k s p 1) (pshape n pi ws) = Ret (pshape n pi os)).
  { rewrite Eo1, map_pshape, osize_pshape by (try apply Lwp; assumption). fold wp; rewrite Eo2; reflexivity. }
  assert (PW : forall pos, valid os pos -> Permutation (window_points k s p 1 (pshape n pi ws) (act n pi b os pos)) (map (act n pi b ws) (window_points k s p 1 ws pos))).
  { rewrite <- Eo2; intros pos V; apply window_points_act; assumption. }
  destruct (avg_pool_go ceil k s p x' B c (pshape n pi ws) _ Ex' Eo') as (y' & H').
  exists os, y'; split; [exact Los|split; [exact H'|]].
  destruct (avg_pool_inv _ _ _ _ _ _ _ _ _ Ex' H') as (os' & Eos' & Sy' & Vy'). rewrite Eo' in Eos'; apply Ret_inj in Eos'; subst os'.
  apply (windows_turned c rho n pi b B (fun l => rsum (map (fun wv => fst wv * snd wv) l)) ws os (fun pos => map (pair (/ INR (k ^ n))) (window_points k s p 1 ws pos))
    (fun pos => map (pair (/ INR (k ^ n))) (window_points k s p 1 (pshape n pi ws) pos)) x x' y y'); auto using sums_symmetric.
  - apply sums_commute; exact (fun r => r).
  - intros bt o pos _ _ V; rewrite Vy, !map_map; cbn [fst snd]. rewrite rsum_scal, (divisor_fits k s p ws pos), L by (auto; fold wp; rewrite Eo2; exact V). unfold Rdiv; ring.
  - intros bt o pos _ _ V; rewrite Vy', !map_map; cbn [fst snd].
    rewrite rsum_scal, (divisor_fits k s p (pshape n pi ws)), pshape_length by (auto; rewrite Eo1 in Eo'; apply Ret_inj in Eo'; rewrite Eo'; apply act_valid; assumption).
    unfold Rdiv; ring.
  - intros pos w q V Hq; apply in_map_iff in Hq as (q' & E & Hq); injection E as _ <-. rewrite <- Eo2 in V. apply (window_points_valid n k s p 1 ws L Hs Hf pos); assumption.
  - intros pos V; rewrite map_map; cbn [fst snd]. rewrite <- (map_map (act n pi b ws) (pair _)). apply Permutation_map, PW; exact V.
Qed.

(** ** With [transform] *)
Section images.
  Variables (half : R -> R).
  Hypotheses (H0 : half 0 = 0) (H1 : half 1 = 1) (Hm : half (-1) = -1).
  Variables (affine : array R -> mat -> nat -> res (array R)) (c : nat) (rho : mat) (n : nat) (M : mat).
  Hypotheses (HM : signed_perm n M).

  Definition commutes_with (F : array R -> res (array R)) (x y : array R) : Prop :=
    exists x' y' z, transform half affine c rho n M x = Ret x' /\ F x' = Ret y' /\ transform half affine c rho n M y = Ret z /\ same_array y' z.

  Lemma turned_commutes : forall F x y B ws, shape x = B :: c :: ws -> length ws = n ->
    (forall pi b x', ImageProofs.permutes n pi -> turned c rho n pi b B ws x x' -> exists os y', length os = n /\ F x' = Ret y' /\ turned c rho n pi b B os y y') ->
    commutes_with F x y.
  Proof.
    intros F x y B ws Ex Ln HF. destruct (signed_perm_does n M HM) as (pi & b & D). pose proof (proj1 D) as P.
    destruct (turned_transform c rho n pi b B P half H0 H1 Hm affine M ws x HM D Ln Ex) as (x' & E & T & _).
    destruct (HF pi b x' P T) as (os & y' & Lo & Hy' & Ty). pose proof Ty as (Ey & _).
    destruct (turned_transform c rho n pi b B P half H0 H1 Hm affine M os y HM D Lo Ey) as (z & Ez & _ & U).
    exists x', y', z; split; [exact E|split; [exact Hy'|split; [exact Ez|apply U; exact Ty]]].
  Qed.
End images.

(** ** Values *)
Lemma window_points_In : forall k s p d ws pos q, length pos = length ws -> (In q (window_points k s p d ws pos) <-> under k s p d ws pos q).
Proof.
  intros k s p d ws pos q L; rewrite window_points_reads, in_flat_map. unfold under. split.
  - intros (t & Ht & H); apply all_indices_In, valid_nth in Ht as (Lt & Vt); rewrite repeat_length in *.
    assert (Lp : length (place s d pos t) = length ws) by (unfold place; rewrite map_length, combine_length; lia).
    destruct (reads PadZeros p ws (place s d pos t)) as [q'|] eqn:E; cbn in H; [destruct H as [->|[]]|destruct H].
    apply reads_Some in E as (Lq & E); [|exact Lp].
    assert (G : forall a, (a < length ws)%nat -> (nth a q 0 < nth a ws 0 /\ nth a t 0 < k /\ nth a q 0 + p = s * nth a pos 0 + d * nth a t 0)%nat).
    { intros a Ha; specialize (E a Ha); specialize (Vt a Ha); rewrite nth_repeat_lt in Vt by exact Ha. unfold place in E; rewrite combine_nth_map in E by lia; cbn [fst snd] in E.
      unfold pad_read in E. destruct (Nat.leb_spec p (s * nth a pos 0 + d * nth a t 0)%nat), (Nat.ltb_spec (s * nth a pos 0 + d * nth a t 0)%nat (p + nth a ws 0)%nat); cbn [andb] in E; try discriminate.
      injection E as <-. lia. }
    split; [apply valid_nth; split; [exact Lq|intros a Ha; apply G; exact Ha]|].
    exists t; split; [lia|split; [lia|]]; intros a Ha; apply G; lia.
  - intros (V & t & Lt & Lpos & G). apply valid_nth in V as (Lq & V). exists t; split.
    + apply all_indices_In, valid_nth; rewrite repeat_length; split; [lia|]; intros a Ha; rewrite nth_repeat_lt by exact Ha; apply G; lia.
    + assert (Lp : length (place s d pos t) = length ws) by (unfold place; rewrite map_length, combine_length; lia).
      replace (reads PadZeros p ws (place s d pos t)) with (Some q); [left; reflexivity|]. symmetry; apply reads_Some; [exact Lp|]; split; [exact Lq|].
      intros a Ha; unfold place; rewrite combine_nth_map by lia; cbn [fst snd]. destruct (G a ltac:(lia)) as (Ht & E). rewrite <- E. specialize (V a Ha). unfold pad_read.
      replace (p <=? nth a q 0 + p)%nat with true by (symmetry; apply Nat.leb_le; lia). replace (nth a q 0 + p <? p + nth a ws 0)%nat with true by (symmetry; apply Nat.ltb_lt; lia).
      cbn [andb]; f_equal; lia.
Qed.

Lemma flat_map_NoDup : forall {A C} (f : A -> list C) l, NoDup l -> (forall a, In a l -> NoDup (f a)) -> (forall a a' c, In a l -> In a' l -> In c (f a) -> In c (f a') -> a = a') -> NoDup (flat_map f l).
Proof.
  intros A C f l; induction l as [|a l IH]; intros N F D; cbn [flat_map]; [constructor|]. inversion N as [|? ? Na Nl]; subst.
  assert (G : forall u v, NoDup u -> NoDup v -> (forall c : C, In c u -> ~ In c v) -> NoDup (u ++ v)).
  { clear; intros u; induction u as [|c u IH]; intros v Nu Nv D; [exact Nv|]; cbn; inversion Nu; subst; constructor.
    - rewrite in_app_iff; intros [H|H]; [contradiction|apply (D c); cbn; auto].
    - apply IH; auto; intros e He; apply D; cbn; auto. }
  apply G; [apply F; left; reflexivity|apply IH; [exact Nl|intros; apply F; cbn; auto|intros a1 a2 e H1 H2; apply D; cbn; auto]|].
  intros e He H; apply in_flat_map in H as (a' & Ha' & He'). rewrite (D a a' e) in Na; cbn; auto.
Qed.
Lemma window_points_NoDup : forall k s p d ws pos, (0 < d)%nat -> length pos = length ws -> NoDup (window_points k s p d ws pos).
Proof.
  intros k s p d ws pos Hd L; rewrite window_points_reads; apply flat_map_NoDup; [apply all_indices_NoDup| |].
  - intros t _; destruct (reads _ _ _ _); constructor; [intros []|constructor].
  - intros t t' q Ht Ht' Hq Hq'; apply all_indices_In, valid_nth in Ht as (Lt & _), Ht' as (Lt' & _); rewrite repeat_length in *.
    assert (Lp : forall u, length u = length ws -> length (place s d pos u) = length ws) by (intros u Lu; unfold place; rewrite map_length, combine_length; lia).
    destruct (reads PadZeros p ws (place s d pos t)) as [q1|] eqn:E1; cbn in Hq; [destruct Hq as [->|[]]|destruct Hq].
    destruct (reads PadZeros p ws (place s d pos t')) as [q2|] eqn:E2; cbn in Hq'; [destruct Hq' as [->|[]]|destruct Hq'].
    apply reads_Some in E1 as (_ & E1); [|auto]; apply reads_Some in E2 as (_ & E2); [|auto].
    apply (nth_ext _ _ 0%nat 0%nat); [lia|]; intros a Ha. specialize (E1 a ltac:(lia)); specialize (E2 a ltac:(lia)).
    unfold place in E1, E2; rewrite combine_nth_map in E1, E2 by lia; cbn [fst snd] in E1, E2. unfold pad_read in E1, E2.
    destruct (Nat.leb_spec p (s * nth a pos 0 + d * nth a t 0)%nat), (Nat.ltb_spec (s * nth a pos 0 + d * nth a t 0)%nat (p + nth a ws 0)%nat); cbn [andb] in E1; try discriminate.
    destruct (Nat.leb_spec p (s * nth a pos 0 + d * nth a t' 0)%nat), (Nat.ltb_spec (s * nth a pos 0 + d * nth a t' 0)%nat (p + nth a ws 0)%nat); cbn [andb] in E2; try discriminate.
    injection E1 as E1; injection E2 as E2. assert (d * nth a t 0 = d * nth a t' 0)%nat by lia. apply Nat.mul_cancel_l in H3; lia.
Qed.

Lemma rmax_largest : forall (P : list nat -> Prop) f l, l <> [] -> (forall q, In q l <-> P q) -> largest P f (rmax (map f l)).
Proof.
  intros P f l N E. destruct (rmax_max (map f l)) as (G & G'); [intros Q; apply map_eq_nil in Q; contradiction|].
  split; [apply in_map_iff in G as (q & Eq & Hq); exists q; split; [apply E; exact Hq|exact Eq]|].
  intros q Hq; apply G', in_map, E, Hq.
Qed.

Lemma mapM_length : forall A C (f : A -> res C) l m, mapM f l = Ret m -> length m = length l.
Proof. intros A C f l m H; apply mapM_Ret_inv in H; induction H; cbn; congruence. Qed.

Lemma max_value : forall l x y B c ws, shape x = B :: c :: ws -> max_forward l x = Ret y ->
  exists os, shape y = B :: c :: os /\ length os = length ws /\ forall bt o pos, valid os pos ->
    largest (under (m_kernel l) (m_stride l) (m_padding l) (m_dilation l) ws pos) (fun q => entry x (bt :: o :: q)) (entry y (bt :: o :: pos)).
Proof.
  intros l x y B c ws Ex H; unfold max_forward in H. destruct (max_pool_inv _ _ _ _ _ _ _ _ _ _ Ex H) as (os & Eo & Sy & N & Vy).
  apply mapM_length in Eo. exists os; split; [exact Sy|split; [exact Eo|]]; intros bt o pos V. rewrite Vy.
  apply rmax_largest; [apply N; exact V|]; intros q; apply window_points_In; apply valid_nth in V as (Lp & _); lia.
Qed.

(** [m] taps of the window at [pos] fall on the padded input *)
Lemma all_indices_length : forall sh, length (all_indices sh) = fold_right Nat.mul 1%nat sh.
Proof.
  intros sh; induction sh as [|s sh IH]; [reflexivity|]; cbn [all_indices fold_right]. rewrite <- IH. generalize (all_indices sh) as l; intros l.
  generalize 0%nat; induction s as [|s IHs]; intros a; [reflexivity|]; cbn [seq flat_map]; rewrite app_length, map_length, IHs; reflexivity.
Qed.
Lemma divisor_counts : forall k s p ws pos, length pos = length ws ->
  exists l, NoDup l /\ length l = divisor k s p ws pos /\
    forall t, In t l <-> length t = length ws /\ forall a, (a < length ws)%nat -> (nth a t 0 < k /\ s * nth a pos 0 + nth a t 0 < nth a ws 0 + 2 * p)%nat.
Proof.
  intros k s p ws pos L. exists (all_indices (map (fun wi => taps_inside k s p (fst wi) (snd wi)) (combine ws pos))).
  split; [apply all_indices_NoDup|split; [apply all_indices_length|]]; intros t. rewrite all_indices_In, valid_nth, map_length, combine_length, L, Nat.min_id.
  split; intros (Lt & G); (split; [exact Lt|]); intros a Ha; specialize (G a Ha); rewrite combine_nth_map in * by lia; cbn [fst snd] in *; unfold taps_inside in *.
  - lia.
  - destruct (Nat.min_spec (s * nth a pos 0 + k)%nat (nth a ws 0 + 2 * p)%nat); lia.
Qed.
