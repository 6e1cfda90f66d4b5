(** The transformation of grids moves samples, respects composition and the identity. *)
From Coq Require Import Reals ZArith Bool List Lia Lra.
From Verif Require Import LibRes LibMat LibTrig LibList ParamModel RepModel GridModel SpecGrid GridProofs.
Import ListNotations.
Open Scope R_scope.

Lemma mirror_eqb : forall n a b, (a < n)%nat -> (b < n)%nat -> Nat.eqb (n - 1 - a) b = Nat.eqb a (n - 1 - b).
Proof. intros n a b Ha Hb; destruct (Nat.eqb_spec (n - 1 - a) b), (Nat.eqb_spec a (n - 1 - b)); try reflexivity; lia. Qed.

Definition esign (n i : nat) : Z := if Nat.ltb i (n - 1) then (-1)%Z else 1%Z.
Lemma esign_IZR : forall n i, (if Nat.ltb i (n - 1) then -1 else 1) = IZR (esign n i).
Proof. intros; unfold esign; destruct (Nat.ltb i (n - 1)); reflexivity. Qed.
Lemma esign_sq : forall n i, (esign n i * esign n i = 1)%Z.
Proof. intros; unfold esign; destruct (Nat.ltb i (n - 1)); reflexivity. Qed.

Lemma coord_cen : forall d n sh idx k, (k < n)%nat ->
  coord d n sh idx k = IZR (esign n (n - 1 - k)) * cen sh idx (axis d n k).
Proof.
  intros d n sh idx k Hk; unfold coord, cen, esign; destruct (Nat.eqb_spec k 0), (Nat.ltb_spec (n - 1 - k) (n - 1)); try lia; lra.
Qed.

Lemma moves : forall (half : R -> R), half 0 = 0 -> half 1 = 1 -> half (-1) = -1 ->
  forall A affine (x : array A) n M, signed_perm n M -> (n <= length (shape x))%nat ->
  exists y, linear_transform half affine x n n M true = Ret y /\ moved (length (shape x) - n) n M x y.
Proof.
  intros half H0 H1 Hm A affine x n M (p & s & Pp & Pi & Ps & PM) Hn.
  set (d := (length (shape x) - n)%nat).
  assert (Hx : length (shape x) = (d + n)%nat) by (unfold d; lia).
  set (p' := fun i => (n - 1 - p (n - 1 - i))%nat).
  set (zs := fun i => if Rlt_dec (s i) 0 then (-1)%Z else 1%Z).
  assert (Zs : forall i, (i < n)%nat -> s i = IZR (zs i)).
  { intros i Hi; unfold zs; destruct (Ps i Hi) as [E|E]; rewrite E; destruct (Rlt_dec _ _); try reflexivity; exfalso; lra. }
  set (z := fun i => (esign n i * esign n (p' i) * zs (n - 1 - i)%nat)%Z).
  set (T := fun i j => half (flip_axes n M i j)).
  assert (Hp : forall i, (i < n)%nat -> (p' i < n)%nat) by (intros; unfold p'; lia).
  assert (Hi : forall i j, (i < n)%nat -> (j < n)%nat -> p' i = p' j -> i = j).
  { intros i j Li Lj E; unfold p' in E.
    pose proof (Pp (n - 1 - i)%nat ltac:(lia)); pose proof (Pp (n - 1 - j)%nat ltac:(lia)).
    assert (n - 1 - i = n - 1 - j)%nat by (apply Pi; lia); lia. }
  assert (Hz : forall i, (i < n)%nat -> z i = 1%Z \/ z i = (-1)%Z).
  { intros i _; unfold z, esign, zs; destruct (Nat.ltb i (n - 1)), (Nat.ltb (p' i) (n - 1)), (Rlt_dec _ _); auto. }
  assert (HT : forall i j, (i < n)%nat -> (j < n)%nat -> T i j = if Nat.eqb j (p' i) then IZR (z i) else 0).
  { intros i j Li Lj; unfold T, flip_axes; rewrite PM by lia; rewrite !esign_IZR.
    pose proof (Pp (n - 1 - i)%nat ltac:(lia)); rewrite mirror_eqb by lia; fold (p' i).
    destruct (Nat.eqb_spec j (p' i)) as [->|_]; [|rewrite !Rmult_0_r; exact H0].
    rewrite Zs by lia; rewrite <- !mult_IZR. unfold z in *.
    replace (esign n (p' i) * (esign n i * zs (n - 1 - i)%nat))%Z with (esign n i * esign n (p' i) * zs (n - 1 - i)%nat)%Z by lia.
    destruct (Hz i Li) as [E|E]; rewrite E; auto. }
  exists (y n d p' z x); split.
  - unfold linear_transform; rewrite Nat.eqb_refl; cbn [assert_ bind].
    replace (Nat.leb n (length (shape x))) with true by (symmetry; apply Nat.leb_le; exact Hn); cbn [assert_ bind andb].
    fold T; rewrite (exact_ok n p' z T Hp Hi Hz HT); fold d.
    rewrite (axes_ok n p' z T Hp HT).
    replace (map (fun a => (d + Z.to_nat (Z.abs a) - 1)%nat) (map (fun i => (z i * Z.of_nat (p' i + 1))%Z) (seq 0 n)))
      with (map (fun i => d + p' i)%nat (seq 0 n)).
    2:{ rewrite map_map; apply map_ext_in; intros i Hin; apply in_seq in Hin; destruct (Hz i ltac:(lia)) as [E|E]; rewrite E; lia. }
    change (seq 0 d ++ map (fun i => d + p' i)%nat (seq 0 n)) with (axs n d p').
    rewrite (transpose_ok n d p' Hp Hi x Hx); cbn [bind].
    replace (map Z.sgn (map (fun i => (z i * Z.of_nat (p' i + 1))%Z) (seq 0 n))) with (map z (seq 0 n)).
    2:{ rewrite map_map; apply map_ext_in; intros i Hin; apply in_seq in Hin; destruct (Hz i ltac:(lia)) as [E|E]; rewrite E; lia. }
    replace (forallb _ (map z (seq 0 n))) with true; [reflexivity|].
    symmetry; apply forallb_forall; intros w Hw; apply in_map_iff in Hw as (i & <- & Hin); apply in_seq in Hin.
    destruct (Hz i ltac:(lia)) as [E|E]; rewrite E; reflexivity.
  - assert (Im : forall idx idx', valid (shape x) idx -> valid (shape (y n d p' z x)) idx' -> related n d p' z x idx idx' ->
      image d n M (shape x) idx (shape (y n d p' z x)) idx').
    { intros idx idx' V V' Rl; split; [exact (related_firstn n d p' z x Hx idx idx' Rl)|].
      intros k Hk. pose proof (Pp k Hk) as Hpk. rewrite (sumn_single n (p k)); [|exact Hpk|].
      - rewrite PM by lia; rewrite Nat.eqb_refl, Zs, !coord_cen by lia; unfold axis.
        rewrite (related_cen n d p' z Hz x Hx idx idx' V V' Rl) by lia.
        assert (Ep : p' (n - 1 - k)%nat = (n - 1 - p k)%nat) by (unfold p'; replace (n - 1 - (n - 1 - k))%nat with k by lia; reflexivity).
        rewrite Ep; unfold z; rewrite Ep; replace (n - 1 - (n - 1 - k))%nat with k by lia.
        rewrite <- !Rmult_assoc, <- !mult_IZR; f_equal; f_equal.
        transitivity (esign n (n - 1 - k) * esign n (n - 1 - k) * (esign n (n - 1 - p k) * zs k))%Z; [ring|].
        rewrite esign_sq; ring.
      - intros j Hj Nj; rewrite PM by lia; destruct (Nat.eqb_spec j (p k)); [congruence|ring]. }
    split; [rewrite (shape_y_length n d p' z x); lia|split; [|split; [|split]]].
    + apply (nth_ext _ _ 0%nat 0%nat); [rewrite !firstn_length, (shape_y_length n d p' z x); lia|].
      intros a Ha; rewrite firstn_length, (shape_y_length n d p' z x) in Ha.
      assert (F : forall l : list nat, length l = (d + n)%nat -> nth a (firstn d l) 0%nat = nth a l 0%nat).
      { intros l L; rewrite <- (firstn_skipn d l) at 2; rewrite app_nth1; [reflexivity|rewrite firstn_length; lia]. }
      rewrite !F by (try apply shape_y_length; exact Hx). apply shape_low; [exact Hx|lia].
    + intros k j Hk Hj NM; rewrite PM in NM by assumption; destruct (Nat.eqb_spec j (p k)) as [->|_]; [|lra].
      unfold axis; rewrite (shape_high n d p' z x Hx) by lia; f_equal; unfold p'.
      replace (n - 1 - (n - 1 - k))%nat with k by lia; reflexivity.
    + intros idx V. destruct (forth_related n d p' z Hp x Hx idx V) as (V' & Rl).
      exists (forth n d p' z x idx); split; [exact V'|split; [apply Im; assumption|]].
      rewrite (entry_y n d p' z x Hx). f_equal.
      apply (related_unique n d p' z Hp Hi x Hx _ _ (forth n d p' z x idx)); [|exact Rl].
      apply (back_related n d p' z Hp Hi x Hx); apply valid_nth in V' as (L & _); rewrite L; apply shape_y_length.
    + intros idx' V'; destruct (back_valid n d p' z Hp Hi x Hx idx' V') as (V & Rl).
      exists (back n d p' z x idx'); split; [exact V|split; [apply Im; assumption|apply entry_y; exact Hx]].
Qed.

(** ** Consequences of [moved] *)

Lemma coord_inj : forall d n sh i j, length sh = (d + n)%nat -> valid sh i -> valid sh j -> firstn d i = firstn d j ->
  (forall k, (k < n)%nat -> coord d n sh i k = coord d n sh j k) -> i = j.
Proof.
  intros d n sh i j L Vi Vj F C; apply valid_nth in Vi as (Li & _), Vj as (Lj & _).
  apply (nth_ext _ _ 0%nat 0%nat); [congruence|]; intros a Ha.
  destruct (Nat.lt_ge_cases a d) as [H|H].
  - rewrite <- (firstn_skipn d i), <- (firstn_skipn d j), F. rewrite !app_nth1; [reflexivity| |]; rewrite firstn_length; lia.
  - specialize (C (n - 1 - (a - d))%nat ltac:(lia)); unfold coord, axis in C.
    replace (d + (n - 1 - (n - 1 - (a - d))))%nat with a in C by lia.
    apply INR_eq; destruct (Nat.eqb _ 0); lra.
Qed.

Lemma row_nonzero : forall n M k, signed_perm n M -> (k < n)%nat -> exists j, (j < n)%nat /\ M k j <> 0.
Proof.
  intros n M k (p & s & Pp & _ & Ps & PM) Hk; exists (p k); split; [auto|].
  rewrite PM, Nat.eqb_refl by auto; destruct (Ps k Hk) as [-> | ->]; lra.
Qed.

Lemma moved_unique : forall A (x y w : array A) d n M, length (shape x) = (d + n)%nat -> signed_perm n M ->
  moved d n M x y -> moved d n M x w -> same_array y w.
Proof.
  intros A x y w d n M L HM (Ly & Fy & Sy & _ & By) (Lw & Fw & Sw & Aw & _).
  assert (E : shape y = shape w).
  { apply (nth_ext _ _ 0%nat 0%nat); [congruence|]; intros a Ha.
    destruct (Nat.lt_ge_cases a d) as [H|H].
    - rewrite <- (firstn_skipn d (shape y)), <- (firstn_skipn d (shape w)), Fy, Fw.
      rewrite !app_nth1; [reflexivity| |]; rewrite firstn_length; lia.
    - destruct (row_nonzero n M (n - 1 - (a - d))%nat HM ltac:(lia)) as (j & Hj & NZ).
      pose proof (Sy (n - 1 - (a - d))%nat j ltac:(lia) Hj NZ) as E1; pose proof (Sw (n - 1 - (a - d))%nat j ltac:(lia) Hj NZ) as E2.
      unfold axis in *; replace (d + (n - 1 - (n - 1 - (a - d))))%nat with a in * by lia; congruence. }
  split; [exact E|]; intros idx V; destruct (By idx V) as (i & Vi & (F1 & C1) & ->).
  destruct (Aw i Vi) as (j & Vj & (F2 & C2) & <-); f_equal.
  apply (coord_inj d n (shape w)); [congruence|exact Vj|rewrite <- E; exact V|congruence|].
  intros k Hk; rewrite <- E at 2; rewrite C1, C2; auto.
Qed.

Lemma moved_trans : forall A (x y w : array A) d n M N, length (shape x) = (d + n)%nat -> signed_perm n N ->
  moved d n M x y -> moved d n N y w -> moved d n (mmul n N M) x w.
Proof.
  intros A x y w d n M N L HN (Ly & Fy & Sy & Ay & By) (Lw & Fw & Sw & Aw & Bw).
  assert (Im : forall i j k, image d n M (shape x) i (shape y) j -> image d n N (shape y) j (shape w) k ->
    image d n (mmul n N M) (shape x) i (shape w) k).
  { intros i j k (F1 & C1) (F2 & C2); split; [congruence|]; intros a Ha; rewrite C2 by exact Ha.
    rewrite (sumn_ext n _ (fun b => sumn n (fun c => N a b * (M b c * coord d n (shape x) i c)))).
    - rewrite sumn_swap; apply sumn_ext; intros c Hc; unfold mmul; rewrite <- sumn_scal_r; apply sumn_ext; intros; ring.
    - intros b Hb; rewrite C1, <- sumn_scal_l by exact Hb; reflexivity. }
  split; [congruence|split; [congruence|split; [|split]]].
  - intros k j Hk Hj NZ; destruct HN as (p & s & Pp & _ & Ps & PN).
    assert (E : mmul n N M k j = s k * M (p k) j).
    { unfold mmul; rewrite (sumn_single n (p k)); [|auto|].
      - rewrite PN, Nat.eqb_refl by auto; reflexivity.
      - intros b Hb Nb; rewrite PN by assumption; destruct (Nat.eqb_spec b (p k)); [congruence|ring]. }
    rewrite E in NZ. rewrite (Sw k (p k)); [apply Sy; auto| | |]; auto.
    + intros Z0; apply NZ; rewrite Z0; ring.
    + rewrite PN, Nat.eqb_refl by auto; destruct (Ps k Hk) as [-> | ->]; lra.
  - intros i Vi; destruct (Ay i Vi) as (j & Vj & I1 & E1), (Aw j Vj) as (k & Vk & I2 & E2).
    exists k; split; [exact Vk|split; [exact (Im _ _ _ I1 I2)|congruence]].
  - intros k Vk; destruct (Bw k Vk) as (j & Vj & I2 & E2), (By j Vj) as (i & Vi & I1 & E1).
    exists i; split; [exact Vi|split; [exact (Im _ _ _ I1 I2)|congruence]].
Qed.

Lemma moved_id : forall A (x : array A) d n, length (shape x) = (d + n)%nat -> moved d n mid x x.
Proof.
  intros A x d n L.
  assert (Im : forall i, image d n mid (shape x) i (shape x) i).
  { intros i; split; [reflexivity|]; intros k Hk; rewrite (sumn_single n k); [|exact Hk|].
    - unfold mid; rewrite Nat.eqb_refl; ring.
    - intros j Hj Nj; unfold mid; destruct (Nat.eqb_spec k j); [congruence|ring]. }
  split; [reflexivity|split; [reflexivity|split; [|split]]].
  - intros k j Hk Hj NZ; unfold mid in NZ; destruct (Nat.eqb_spec k j); [subst; reflexivity|lra].
  - intros i V; exists i; auto.
  - intros i V; exists i; auto.
Qed.

Lemma signed_perm_mid : forall n, signed_perm n mid.
Proof.
  intros n; exists (fun i => i), (fun _ => 1); repeat split; auto.
  intros i j _ _; unfold mid; rewrite Nat.eqb_sym; reflexivity.
Qed.

Lemma signed_perm_mul : forall n M N, signed_perm n M -> signed_perm n N -> signed_perm n (mmul n M N).
Proof.
  intros n M N (p & s & Pp & Pi & Ps & PM) (q & t & Qp & Qi & Qs & QM).
  exists (fun i => q (p i)), (fun i => s i * t (p i)); repeat split; auto.
  - intros i Hi; destruct (Ps i Hi) as [-> | ->], (Qs (p i) (Pp i Hi)) as [-> | ->]; [left|right|right|left]; lra.
  - intros i j Hi Hj; unfold mmul; rewrite (sumn_single n (p i)); [|auto|].
    + rewrite PM, Nat.eqb_refl, QM by auto; destruct (Nat.eqb j (q (p i))); ring.
    + intros k Hk Nk; rewrite PM by assumption; destruct (Nat.eqb_spec k (p i)); [congruence|ring].
Qed.

Lemma composes : forall (half : R -> R), half 0 = 0 -> half 1 = 1 -> half (-1) = -1 ->
  forall A affine (x : array A) n M N, signed_perm n M -> signed_perm n N -> (n <= length (shape x))%nat ->
  exists y z w, linear_transform half affine x n n M true = Ret y /\ linear_transform half affine y n n N true = Ret z /\
    linear_transform half affine x n n (mmul n N M) true = Ret w /\ same_array z w.
Proof.
  intros half H0 H1 Hm A affine x n M N HM HN L.
  destruct (moves half H0 H1 Hm A affine x n M HM L) as (y & Ey & My).
  assert (Ly : length (shape y) = length (shape x)) by apply My.
  destruct (moves half H0 H1 Hm A affine y n N HN ltac:(lia)) as (z & Ez & Mz); rewrite Ly in Mz.
  destruct (moves half H0 H1 Hm A affine x n (mmul n N M) (signed_perm_mul n N M HN HM) L) as (w & Ew & Mw).
  exists y, z, w; split; [exact Ey|split; [exact Ez|split; [exact Ew|]]].
  apply (moved_unique A x z w (length (shape x) - n) n (mmul n N M)); [lia|apply signed_perm_mul; assumption| |exact Mw].
  apply (moved_trans A x y z); auto; lia.
Qed.

Lemma identity_ok : forall (half : R -> R), half 0 = 0 -> half 1 = 1 -> half (-1) = -1 ->
  forall A affine (x : array A) n, (n <= length (shape x))%nat ->
  exists y, linear_transform half affine x n n mid true = Ret y /\ same_array x y.
Proof.
  intros half H0 H1 Hm A affine x n L.
  destruct (moves half H0 H1 Hm A affine x n mid (signed_perm_mid n) L) as (y & Ey & My); exists y; split; [exact Ey|].
  apply (moved_unique A x x y (length (shape x) - n) n mid); [lia|apply signed_perm_mid|apply moved_id; lia|exact My].
Qed.
