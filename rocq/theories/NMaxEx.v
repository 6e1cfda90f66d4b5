(** Examples for NormMaxPool. *)
From Coq Require Import Reals List ZArith Lia Lra Bool Arith.
From Verif Require Import LibRes LibMat FieldModel SpecField GroupedModel NonlinModel GridModel SpecGrid GridProofs GridThms ImageModel SpecImage ImageProofs MaskThms ConvThms ShapeModel SPoolModel SpecSPool SPoolProofs SPoolThms SPoolCor ImageEx SPoolEx NMaxModel SpecNMax NMaxProofs NMaxThms.
Import ListNotations.
Open Scope R_scope.

Definition halfturn_signed : signed_perm 2 mirror.
Proof. exists (fun i => i), (fun _ => -1); repeat split; auto. intros i j _ _; unfold mirror; rewrite Nat.eqb_sym; reflexivity. Qed.

(** one scalar field, windows of 2 x 2 pixels *)
Definition idn (n : nat) : nat := n.
Definition one_type : list nat := [1%nat].
Definition two_layer : max_layer := max_init 2 None 0 1 false.
Definition same (a b : list nat) : bool := if list_eq_dec Nat.eq_dec a b then true else false.
Definition opposite : array R := {| shape := [1; 1; 2; 2]%nat; entry := fun idx => 1 - INR (nth 2 idx 0%nat) - INR (nth 3 idx 0%nat) |}.
Definition nothing : list channel := [fun _ _ => 0].

Lemma one_module : exists m, mk_nm idn 2 one_type two_layer = Ret m.
Proof. eexists; reflexivity. Qed.

Lemma first_stays : forall f a l, (forall q, In q l -> f q <= f a) -> first_largest f (a :: l) = a.
Proof.
  intros f a l; unfold first_largest; induction l as [|b l IH]; intros H; [reflexivity|]. cbn [fold_left]. destruct (Rlt_dec (f a) (f b)) as [N|_].
  - exfalso. specialize (H b (or_introl eq_refl)). lra.
  - apply IH. intros q Hq; apply H; right; exact Hq.
Qed.
(** an image whose four pixels are at most as long as the first *)
Lemma corner_value : forall m x y, mk_nm idn 2 one_type two_layer = Ret m -> shape x = [1; 1; 2; 2]%nat -> nm_forward idn same m one_type nothing x = Ret y ->
  (forall q, valid [2; 2]%nat q -> Rabs (entry x (0 :: 0 :: q)%nat) <= Rabs (entry x [0; 0; 0; 0]%nat)) ->
  shape y = [1; 1; 1; 1]%nat /\ entry y [0; 0; 0; 0]%nat = entry x [0; 0; 0; 0]%nat.
Proof.
  intros m x y Em Ex H Hx.
  assert (Pz : Forall (fun r => (0 < idn r)%nat) one_type) by (repeat constructor).
  destruct (nm_inv idn same one_type Pz ltac:(discriminate) 2 two_layer m Em nothing eq_refl x y 1 2 2 Ex H) as (os & Eo & _ & Sy & _ & _ & V).
  cbn in Eo. apply Ret_inj in Eo; subst os. split; [exact Sy|].
  specialize (V 0%nat 0%nat [0; 0]%nat (le_n 1)). cbn [two_layer max_init m_kernel m_stride m_padding m_dilation] in V.
  change (window_points 2 2 0 1 [2; 2]%nat [0; 0]%nat) with [[0; 0]; [0; 1]; [1; 0]; [1; 1]]%nat in V. rewrite first_stays in V.
  - unfold field_at in V; cbn in V. injection V as V. exact V.
  - intros q Hq. apply sqrt_le_1_alt. unfold field_at; cbn. rewrite !Rplus_0_r. apply Rsqr_le_abs_1. apply Hx.
    destruct Hq as [<-|[<-|[<-|[]]]]; repeat constructor.
Qed.
Lemma corner_runs : forall m x, mk_nm idn 2 one_type two_layer = Ret m -> shape x = [1; 1; 2; 2]%nat -> exists y, nm_forward idn same m one_type nothing x = Ret y.
Proof.
  intros m x Em Ex. assert (Pz : Forall (fun r => (0 < idn r)%nat) one_type) by (repeat constructor).
  assert (Nt : one_type <> []) by discriminate.
  apply (forward_go idn same one_type Pz eq_refl 2 two_layer m Em nothing x (map Z.of_nat [1; 1; 1; 1]%nat) eq_refl).
  - rewrite Ex. apply (shape_iff idn one_type Pz Nt 2 two_layer m Em). exists [1; 1]%nat. split; [reflexivity|split; [reflexivity|]].
    unfold norm_max_eval_shape. apply (eval_floor 2 2 0 1 1 2 1 [2; 2]%nat); [lia|lia|reflexivity|repeat constructor].
  - intros pos V. cbn in V. rewrite Ex. inversion V as [|a ? p1 ? Ha V1]; subst; inversion V1 as [|a' ? p2 ? Ha' V2]; subst; inversion V2; subst.
    assert (a = 0%nat) as -> by lia. assert (a' = 0%nat) as -> by lia. discriminate.
Qed.

Lemma ties_break : forall half, half 0 = 0 -> half 1 = 1 -> half (-1) = -1 -> forall affine,
  exists m x y x' y' z, mk_nm idn 2 one_type two_layer = Ret m /\ shape x = [1; 1; 2; 2]%nat /\ nm_forward idn same m one_type nothing x = Ret y /\
    transform half affine 1 mid 2 mirror x = Ret x' /\ nm_forward idn same m one_type nothing x' = Ret y' /\ transform half affine 1 mid 2 mirror y = Ret z /\ ~ same_array y' z.
Proof.
  intros half H0 H1 Hm affine. destruct one_module as (m & Em). exists m, opposite.
  destruct (corner_runs m opposite Em eq_refl) as (y & Hy).
  destruct (corner_value m opposite y Em eq_refl Hy) as (Sy & Vy).
  { intros q V. inversion V as [|a ? p1 ? Ha V1]; subst; inversion V1 as [|a' ? p2 ? Ha' V2]; subst; inversion V2; subst. cbn [opposite entry nth].
    assert (Ba : INR a = 0 \/ INR a = 1) by (destruct a as [|[|a]]; [left; reflexivity|right; reflexivity|lia]).
    assert (Ba' : INR a' = 0 \/ INR a' = 1) by (destruct a' as [|[|a']]; [left; reflexivity|right; reflexivity|lia]).
    change (INR 0) with 0. unfold Rabs. destruct (Rcase_abs (1 - INR a - INR a')), (Rcase_abs (1 - 0 - 0)); lra. }
  destruct (transform_ok half H0 H1 Hm affine 1 mid 2 mirror opposite 1 [2; 2]%nat halfturn_signed eq_refl eq_refl) as (x1 & x' & _ & Ex' & Sx1 & F1 & M1).
  destruct M1 as (Lx' & Fx' & Hx' & _ & Hb). rewrite Sx1 in *. cbn [opposite shape] in *.
  assert (Sx' : shape x' = [1; 1; 2; 2]%nat).
  { cbn in Lx', Fx'. destruct (shape x') as [|a [|c [|e [|g [|? ?]]]]] eqn:E; cbn in Lx'; try discriminate. cbn in Fx'; injection Fx' as -> ->.
    pose proof (Hx' 0%nat 0%nat ltac:(lia) ltac:(lia)) as K0; pose proof (Hx' 1%nat 1%nat ltac:(lia) ltac:(lia)) as K1. cbn in K0, K1.
    rewrite K0, K1 by (unfold mirror; cbn; lra). reflexivity. }
  assert (Ent : forall a b, (a < 2)%nat -> (b < 2)%nat -> entry x' [0; 0; a; b]%nat = INR a + INR b - 1).
  { intros a b La Lb. destruct (Hb [0; 0; a; b]%nat) as (idx & Vi & (Fi & Ci) & Ei); [rewrite Sx'; constructor; [lia|constructor; [lia|constructor; [exact La|constructor; [exact Lb|constructor]]]]|].
    inversion Vi as [|i0 ? r0 ? G0 V0]; subst; inversion V0 as [|i1 ? r1 ? G1 V1]; subst; inversion V1 as [|i2 ? r2 ? G2 V2]; subst; inversion V2 as [|i3 ? r3 ? G3 V3]; subst; inversion V3; subst.
    cbn in Fi. injection Fi as <- <-. rewrite Ei, F1. cbn [sumn opposite entry nth]. unfold mid; cbn [Nat.eqb].
    pose proof (Ci 0%nat ltac:(lia)) as C0; pose proof (Ci 1%nat ltac:(lia)) as C1. rewrite Sx' in C0, C1. unfold coord, axis, mirror in C0, C1. cbn [Nat.add Nat.sub nth Nat.eqb sumn] in C0, C1.
    change (INR 2) with 2 in C0, C1. lra. }
  destruct (corner_runs m x' Em Sx') as (y' & Hy').
  destruct (corner_value m x' y' Em Sx' Hy') as (Sy' & Vy').
  { intros q V. inversion V as [|a ? p1 ? Ha V1]; subst; inversion V1 as [|a' ? p2 ? Ha' V2]; subst; inversion V2; subst. rewrite !Ent by lia.
    assert (Ba : INR a = 0 \/ INR a = 1) by (destruct a as [|[|a]]; [left; reflexivity|right; reflexivity|lia]).
    assert (Ba' : INR a' = 0 \/ INR a' = 1) by (destruct a' as [|[|a']]; [left; reflexivity|right; reflexivity|lia]).
    change (INR 0) with 0. unfold Rabs. destruct (Rcase_abs (INR a + INR a' - 1)), (Rcase_abs (0 + 0 - 1)); lra. }
  rewrite Ent in Vy' by lia.
  destruct (transform_ok half H0 H1 Hm affine 1 mid 2 mirror y 1 [1; 1]%nat halfturn_signed Sy eq_refl) as (y1 & z & _ & Ez & Sy1 & F2 & M2).
  exists y, x', y', z. split; [exact Em|split; [reflexivity|split; [exact Hy|split; [exact Ex'|split; [exact Hy'|split; [exact Ez|]]]]]].
  intros (Es & Eq). destruct M2 as (_ & _ & _ & _ & Hb2). specialize (Eq [0; 0; 0; 0]%nat ltac:(rewrite Sy'; repeat constructor)).
  destruct (Hb2 [0; 0; 0; 0]%nat) as (idx & Vi & _ & Ei); [rewrite <- Es, Sy'; repeat constructor|]. rewrite Sy1, Sy in Vi.
  inversion Vi as [|i0 ? r0 ? G0 V0]; subst; inversion V0 as [|i1 ? r1 ? G1 V1]; subst; inversion V1 as [|i2 ? r2 ? G2 V2]; subst; inversion V2 as [|i3 ? r3 ? G3 V3]; subst; inversion V3; subst.
  assert (i0 = 0 /\ i1 = 0 /\ i2 = 0 /\ i3 = 0)%nat as (-> & -> & -> & ->) by lia.
  rewrite Ei, F2 in Eq. cbn [sumn] in Eq. unfold mid in Eq; cbn [Nat.eqb] in Eq. rewrite Vy, Vy' in Eq. cbn [opposite entry nth] in Eq. change (INR 0) with 0 in Eq. lra.
Qed.

(** a vector and a scalar field on 4 x 6 pixels, without ties *)
Definition mixed : list nat := [2; 1]%nat.
Definition rising : array R := {| shape := [1; 3; 4; 6]%nat; entry := fun idx => match idx with [_; _; a; b] => 1 + INR (6 * a + b) | _ => 0 end |}.
Definition turn_of (n : nat) : mat := if Nat.eqb n 2 then quarter else mid.
Lemma quarter_orthogonal : orthogonal 2 quarter.
Proof. split; intros i j Hi Hj; destruct i as [|[|i]], j as [|[|j]]; try lia; unfold mmul, mtr, quarter, mid; cbn; lra. Qed.
Lemma rising_field : forall i bt a b, (i < 2)%nat -> field_at idn mixed rising i bt [a; b] = repeat (1 + INR (6 * a + b)) (nth i mixed 0%nat).
Proof. intros i bt a b Hi. destruct i as [|[|i]]; [reflexivity|reflexivity|lia]. Qed.
Lemma nm_example : exists m y, mk_nm idn 2 mixed two_layer = Ret m /\ nm_forward idn same m mixed (repeat (fun _ _ => 0) 3) rising = Ret y /\
  signed_perm 2 quarter /\ Forall (fun r => orthogonal (idn r) (turn_of r)) mixed /\ Forall (fits 2 2 0 1) [4; 6]%nat /\
  forall i bt pos, (i < 2)%nat -> (bt < 1)%nat -> valid (skipn 2 (shape y)) pos -> no_ties (under 2 2 0 1 [4; 6]%nat pos) (field_at idn mixed rising i bt).
Proof.
  assert (Em : exists m, mk_nm idn 2 mixed two_layer = Ret m) by (eexists; reflexivity). destruct Em as (m & Em). exists m.
  assert (Pz : Forall (fun r => (0 < idn r)%nat) mixed) by (repeat constructor). assert (Nt : mixed <> []) by discriminate.
  destruct (forward_go idn same mixed Pz eq_refl 2 two_layer m Em (repeat (fun _ _ => 0) 3) rising (map Z.of_nat [1; 3; 2; 3]%nat) eq_refl) as (y & Hy).
  - cbn [rising shape]. apply (shape_iff idn mixed Pz Nt 2 two_layer m Em). exists [2; 3]%nat. split; [reflexivity|split; [reflexivity|]].
    unfold norm_max_eval_shape. apply (eval_floor 2 2 0 1 3 2 1 [4; 6]%nat); [lia|lia|reflexivity|repeat constructor; cbn; lia].
  - cbn [map skipn rising shape Z.to_nat Z.of_nat two_layer max_init m_kernel m_stride m_padding m_dilation]. intros pos V.
    assert (G : forallb (fun pos => negb (Nat.eqb (length (window_points 2 2 0 1 [4; 6]%nat pos)) 0)) (all_indices [2; 3]%nat) = true) by reflexivity.
    rewrite forallb_forall in G. specialize (G pos (proj2 (all_indices_In [2; 3]%nat pos) V)). intros E; rewrite E in G; discriminate.
  - exists y. split; [exact Em|split; [exact Hy|split; [apply quarter_signed|split; [|split]]]].
    + constructor; [exact quarter_orthogonal|constructor; [|constructor]]. split; intros i j Hi Hj; unfold idn in Hi, Hj; assert (i = 0%nat) as -> by lia; assert (j = 0%nat) as -> by lia; unfold mmul, mtr, turn_of, mid; cbn; lra.
    + constructor; [exists 1%nat; reflexivity|constructor; [exists 2%nat; reflexivity|constructor]].
    + intros i bt pos Hi _ _ q q' (U & M) (U' & M').
      assert (S : forall g, under 2 2 0 1 [4; 6]%nat pos g -> exists a b, g = [a; b]).
      { intros g (V & _). inversion V as [|a ? p1 ? Ha V1]; subst; inversion V1 as [|b ? p2 ? Hb V2]; subst; inversion V2; subst. eauto. }
      pose proof (M' q U) as L1. pose proof (M q' U') as L2.
      destruct (S q U) as (a & b & ->), (S q' U') as (a' & b' & ->). rewrite !rising_field in * by exact Hi.
      pose proof (pos_INR (6 * a + b)) as P1; pose proof (pos_INR (6 * a' + b')) as P2. set (u := INR (6 * a + b)) in *. set (v := INR (6 * a' + b')) in *. clearbody u v.
      assert (E : (1 + u) * (1 + u) = (1 + v) * (1 + v)) by (destruct i as [|[|i]]; [| |lia]; unfold norm2 in L1, L2; cbn in L1, L2; lra).
      assert (E2 : (u - v) * (2 + u + v) = 0) by (replace ((u - v) * (2 + u + v)) with ((1 + u) * (1 + u) - (1 + v) * (1 + v)) by ring; lra). apply Rmult_integral in E2 as [E2|E2]; [|lra]. replace v with u by lra. reflexivity.
Qed.
