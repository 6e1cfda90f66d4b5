(** The kernels on a point of C_N and SO(2) are a basis of the equivariant maps. *)
From Coq Require Import Reals List ZArith Arith Bool Lia Lra.
From Verif Require Import LibRes LibMat LibMatS LibTrig SpecComplete SpecGroup SpecFinGroup FinGroupModel PlanarModel SpecPlanar PlanarProofs
  IrrepModel SpecRep SpecIrrep IrrepProofs IrrepThms EndoProofs CGProofs CGThms RepModel SpecRepr RepThms SpecSchur IndPlanar
  KernelModel SpecKernel KernelProofs KernelThms KernelSThms KernelPlanar KernelPoint PolarModel CompleteThms.
Import ListNotations.
Open Scope R_scope.

(** Two orthonormal matrices span the rotations and scalings of the plane. *)
Lemma two_units : forall a0 b0 a1 b1 : R, 2 * (a0 * a0 + b0 * b0) = 1 -> 2 * (a1 * a1 + b1 * b1) = 1 -> a0 * a1 + b0 * b1 = 0 ->
  2 * (a0 * a0 + a1 * a1) = 1 /\ 2 * (b0 * b0 + b1 * b1) = 1 /\ a0 * b0 + a1 * b1 = 0.
Proof.
  intros a0 b0 a1 b1 H0 H1 H.
  assert (a1 * a1 = b0 * b0) as E.
  { assert (a1 * a1 * (2 * (a0 * a0 + b0 * b0)) = b0 * b0 * (2 * (a1 * a1 + b1 * b1))) as Q.
    { replace (a1 * a1 * (2 * (a0 * a0 + b0 * b0))) with (2 * ((a0 * a1) * (a0 * a1)) + 2 * (a1 * a1 * (b0 * b0))) by ring.
      replace (a0 * a1) with (- (b0 * b1)) by lra. ring. }
    rewrite H0, H1 in Q. lra. }
  split; [rewrite E; lra|]. split; [rewrite <- E; lra|].
  assert ((a0 * b0 + a1 * b1) * a1 = 0) as Z1.
  { replace ((a0 * b0 + a1 * b1) * a1) with (b0 * (a0 * a1) + b1 * (a1 * a1)) by ring. rewrite E.
    replace (a0 * a1) with (- (b0 * b1)) by lra. ring. }
  destruct (Rmult_integral _ _ Z1) as [Z|Z]; [exact Z|].
  rewrite Z in *. assert (b0 * b0 = 0) as Y by lra. apply Rmult_integral in Y. assert (b0 = 0) as -> by tauto. ring.
Qed.

Section Rotations.
Variable G : pgrp.
Hypothesis HG : pvalid G.
Hypothesis HR : rotations G.

Definition rot_tensor (m n : Z) : list (list Z * nat) :=
  match G with Fin (Cyc N) => cn_tensor_irreps N m n | _ => so2_tensor_irreps m n end.
Definition rot_cg (m n j : Z) : res arr4 := match G with Fin (Cyc N) => cn_cg N m n j | _ => so2_cg m n j end.

Lemma rot_correct : cg_correct G rot_cg rot_tensor.
Proof.
  unfold rot_cg, rot_tensor. destruct G as [[N|N]| |]; try contradiction HR.
  - apply cn_cg_correct. cbn in HG. apply Z.ltb_lt; exact HG.
  - apply so2_cg_correct.
Qed.
Lemma rot_p_tensor : forall a b, p_tensor G [a] [b] = Ret (rot_tensor a b).
Proof. unfold rot_tensor; intros; destruct G as [[N|N]| |]; try contradiction HR; reflexivity. Qed.
Lemma rot_p_cg : forall a b c, p_cg G [a] [b] [c] = rot_cg a b c.
Proof. unfold rot_cg; intros; destruct G as [[N|N]| |]; try contradiction HR; reflexivity. Qed.
Lemma rot_sym : forall a b, rot_tensor a b = rot_tensor b a.
Proof. intros; unfold rot_tensor; destruct G as [[N|N]| |]; try contradiction HR; [apply cn_tensor_sym|apply so2_tensor_sym]. Qed.
Lemma rot_id : forall j, irrep_ok G j -> exists a, j = [a].
Proof. intros [|a [|]] H; destruct G as [[N|N]| |]; try contradiction HR; cbn in H; try contradiction; eauto. Qed.

(** how often the trivial irrep occurs *)
Lemma rot_listed : forall m n, irrep_ok G [m] -> irrep_ok G [n] ->
  listed 0 (rot_tensor m n) = (if (m =? n)%Z then rdim G m else 0)%nat.
Proof.
  intros m n Hm Hn. unfold rot_tensor. destruct G as [[N|N]| |]; try contradiction HR; cbn [irrep_ok] in Hm, Hn.
  - cbn in HG. apply Z.ltb_lt in HG. rewrite rdim_cn. unfold cn_tensor_irreps.
    rewrite andb_orb_distrib_r, !half_eq. pose proof (half_le N (m + n)).
    destruct (Z.leb_spec (m + n) (N / 2)); unfold listed; cbn [filter fst map snd];
      destruct (Z.eqb_spec m 0), (Z.eqb_spec n 0), (Z.eqb_spec (2 * m) N), (Z.eqb_spec (2 * n) N); cbn [orb filter fst];
      destruct (Z.eqb_spec n m), (Z.eqb_spec m n); try lia; cbn [filter fst]; zb; try lia; reflexivity.
  - rewrite rdim_so2. unfold so2_tensor_irreps, listed.
    destruct (Z.eqb_spec m 0), (Z.eqb_spec n 0); cbn [filter fst];
      destruct (Z.eqb_spec n m), (Z.eqb_spec m n); try lia; cbn [filter fst]; zb; try lia; reflexivity.
Qed.

Definition F0 (P : Type) := point_filters P [0%Z].
Lemma mult0 : forall P j, multiplicity (F0 P) j = if id_eqb [0%Z] j then 1%nat else 0%nat.
Proof.
  intros P j. unfold multiplicity, get_or, F0; cbn [point_filters f_js last_of]. destruct (id_eqb [0%Z] j); reflexivity.
Qed.
Lemma kept0 : forall P (l : list (list Z * nat)), NoDup (map fst l) ->
  (forall c, In ([0%Z], c) l -> filter (fun p => Nat.ltb 0 (multiplicity (F0 P) (fst p))) l = [([0%Z], c)]) /\
  (~ In [0%Z] (map fst l) -> filter (fun p => Nat.ltb 0 (multiplicity (F0 P) (fst p))) l = []).
Proof.
  intros P; induction l as [|[j d] l IH]; intros N; [split; [intros c []|reflexivity]|].
  cbn [map] in N. inversion N as [|? ? N1 N2]; subst. specialize (IH N2). cbn [filter]. rewrite mult0; cbn [fst] in *.
  destruct (id_eqb [0%Z] j) eqn:E; cbn [Nat.ltb Nat.leb].
  - apply id_eqb_true in E; subst j. split.
    + intros c [Ec|Ic]; [injection Ec as <-; f_equal; apply IH; exact N1|].
      exfalso; apply N1. apply (in_map fst _ _ Ic).
    + intros H; exfalso; apply H; left; reflexivity.
  - apply id_eqb_false in E. split.
    + intros c [Ec|Ic]; [injection Ec as -> _; congruence|]. apply IH; exact Ic.
    + intros H. apply IH. intros I; apply H; right; exact I.
Qed.

Lemma trivial_data : exists r, p_irrep G [0%Z] = Ret r /\ ir_size r = 1%nat /\ ir_complex r = false /\
  forall g D, pmember G g -> ir_rep r g = Ret (1%nat, D) -> D 0%nat 0%nat = 1.
Proof.
  assert (irrep_ok G [0%Z]) as O0.
  { destruct G as [[N|N]| |]; try contradiction HR; cbn; [|lia]. cbn in HG. apply Z.ltb_lt in HG. lia. }
  destruct (p_irrep_kind G [0%Z] HG O0) as (r & E & A).
  assert (irrep_kind G [0%Z] = K1 0 0) as K by (destruct G as [[N|N]| |]; try contradiction HR; reflexivity).
  rewrite K in A. destruct A as (_ & _ & Sz & _ & Cx & _ & V). exists r. split; [exact E|]. split; [exact Sz|].
  split; [rewrite Cx; destruct G as [[N|N]| |]; reflexivity|].
  intros g D Hg ED. destruct (V g Hg) as (D' & ED' & MD & _). cbn [kdim] in *. rewrite ED in ED'; injection ED' as <-.
  rewrite (MD 0%nat 0%nat) by lia. cbn [kmat]. unfold mat1. rewrite Z.mul_0_l, Rmult_0_l, cos_0. unfold rsign; cbn. ring.
Qed.

(** the coefficients for the trivial irrep are a basis of the commutant *)
Lemma slices_basis : forall m r C, irrep_ok G [m] -> p_irrep G [m] = Ret r -> rot_cg m m 0 = Ret C ->
  a_d0 C = ir_size r -> a_d1 C = ir_size r -> a_d2 C = rdim G m -> a_d3 C = 1%nat -> cg_orthonormal C ->
  (forall g A B, pmember G g -> ir_rep r g = Ret (ir_size r, A) -> ir_rep r g = Ret (ir_size r, B) ->
     exists D, D 0%nat 0%nat = 1 /\ cg_intertwines C A B D) ->
  basis_of (intertwiner (pmember G) (ir_size r) (ir_rep r) (ir_size r) (ir_rep r)) (ir_size r) (ir_size r) (rdim G m)
    (fun t p q => a_at C p q t 0%nat).
Proof.
  intros m r C Hm Er EC D0 D1 D2 D3 Or Int. destruct (p_irrep_kind G [m] HG Hm) as (r' & Er' & K).
  rewrite Er in Er'; apply Ret_inj in Er'; subst r'. pose proof K as (_ & _ & Sz & _).
  destruct (irrep_is_rep G [m] HG Hm) as (r' & Er' & _ & O & _). rewrite Er in Er'; apply Ret_inj in Er'; subst r'.
  set (n := ir_size r) in *.
  assert (forall t, (t < rdim G m)%nat ->
    intertwiner (pmember G) n (ir_rep r) n (ir_rep r) (fun p q => a_at C p q t 0%nat)) as Mem.
  { intros t Lt g A B Hg EA EB. destruct (Int g A B Hg EA EB) as (D & D00 & I).
    destruct (or_total _ _ _ _ _ _ O g Hg) as (B' & EB' & OB). fold n in EB', OB. rewrite EB in EB'; injection EB' as <-.
    set (X := fun p q => a_at C p q t 0%nat) in *.
    assert (meq n n (mmul n (mmul n A X) (mtr B)) X) as H.
    { intros x y Lx Ly. specialize (I x y t 0%nat). rewrite D0, D1, D2, D3 in I. specialize (I Lx Ly Lt Nat.lt_0_1).
      cbn [sumn] in I. rewrite D00 in I. transitivity (0 + a_at C x y t 0%nat * 1); [|unfold X; ring]. rewrite <- I.
      unfold mmul, mtr, X. rewrite (sumn_ext n (fun x' => sumn n (fun y' => A x x' * B y y' * a_at C x' y' t 0%nat))
        (fun x' => sumn n (fun y' => A x x' * a_at C x' y' t 0%nat * B y y'))) by (intros; apply sumn_ext; intros; ring).
      rewrite sumn_swap. apply sumn_ext; intros k _. rewrite sumn_scal_r. reflexivity. }
    destruct OB as [OB1 OB2]. rewrite <- H at 2. rewrite (mul_assoc n n n n (mmul n A X)).
    first [rewrite OB1|rewrite OB2]. rewrite mid_r. reflexivity. }
  assert (forall w, meq n n (combination (rdim G m) w (fun t p q => a_at C p q t 0%nat)) mzero ->
    forall t, (t < rdim G m)%nat -> w t = 0) as Free.
  { intros w Hw t Lt.
    assert (sumn n (fun x => sumn n (fun y => combination (rdim G m) w (fun t p q => a_at C p q t 0%nat) x y * a_at C x y t 0%nat)) = w t) as E.
    { unfold combination.
      transitivity (sumn (rdim G m) (fun s => w s * sumn n (fun x => sumn n (fun y => a_at C x y s 0%nat * a_at C x y t 0%nat)))).
      - rewrite (sumn_ext n _ (fun x => sumn (rdim G m) (fun s => w s * sumn n (fun y => a_at C x y s 0%nat * a_at C x y t 0%nat)))).
        + rewrite sumn_swap. apply sumn_ext; intros s _. rewrite sumn_scal_l. reflexivity.
        + intros x _. rewrite (sumn_ext n _ (fun y => sumn (rdim G m) (fun s => w s * (a_at C x y s 0%nat * a_at C x y t 0%nat)))).
          * rewrite sumn_swap. apply sumn_ext; intros s _. rewrite sumn_scal_l. reflexivity.
          * intros y _. rewrite <- sumn_scal_r. apply sumn_ext; intros; ring.
      - rewrite (sumn_single _ t _ Lt).
        + specialize (Or t 0%nat t 0%nat). rewrite D0, D1, D2, D3 in Or. rewrite Or by lia. rewrite !Nat.eqb_refl; cbn [andb]. ring.
        + intros s Ls Ns. specialize (Or s 0%nat t 0%nat). rewrite D0, D1, D2, D3 in Or. rewrite Or by lia.
          rewrite (proj2 (Nat.eqb_neq s t) Ns); cbn [andb]. ring. }
    rewrite <- E. apply sumn_0; intros x Lx. apply sumn_0; intros y Ly. rewrite (Hw x y Lx Ly). unfold mzero. ring. }
  split; [exact Mem|]. split; [|exact Free]. intros X HX.
  assert (n = rdim G m) as En by exact Sz.
  assert (forall s t, (s < rdim G m)%nat -> (t < rdim G m)%nat ->
    sumn n (fun x => sumn n (fun y => a_at C x y s 0%nat * a_at C x y t 0%nat)) = if Nat.eqb s t then 1 else 0) as Or'.
  { intros s t Ls Lt. specialize (Or s 0%nat t 0%nat). rewrite D0, D1, D2, D3 in Or. rewrite Or by lia.
    destruct (Nat.eqb s t); reflexivity. }
  destruct (irrep_kind G [m]) as [f k|k] eqn:EK.
  - assert (rdim G m = 1%nat) as R1 by (unfold rdim; rewrite EK; reflexivity). rewrite R1 in *. rewrite En in *.
    pose proof (Or' 0%nat 0%nat ltac:(lia) ltac:(lia)) as O1. cbn [sumn Nat.eqb] in O1.
    exists (fun _ => X 0%nat 0%nat * a_at C 0%nat 0%nat 0%nat 0%nat). intros x y Lx Ly.
    assert (x = 0%nat) as -> by lia. assert (y = 0%nat) as -> by lia. unfold combination; cbn [sumn].
    set (c := a_at C 0%nat 0%nat 0%nat 0%nat) in *. assert (c * c = 1) as Q by lra.
    transitivity (X 0%nat 0%nat * (c * c)); [rewrite Q; ring|ring].
  - assert (rdim G m = 2%nat) as R2 by (unfold rdim; rewrite EK; reflexivity). rewrite R2 in *.
    assert (forall Y, intertwiner (pmember G) n (ir_rep r) n (ir_rep r) Y ->
      Y 1%nat 1%nat = Y 0%nat 0%nat /\ Y 0%nat 1%nat = - Y 1%nat 0%nat) as Cm.
    { intros Y HY. destruct (commuting2 G [m] r k Y HG Hm EK K) as (E1 & E2 & _); [|split; assumption].
      intros g A Hg EA. rewrite En in HY. apply (HY g A A Hg EA EA). }
    rewrite En in *.
    destruct (Cm _ (Mem 0%nat ltac:(lia))) as [P0 Q0]. destruct (Cm _ (Mem 1%nat ltac:(lia))) as [P1 Q1].
    destruct (Cm _ HX) as [PX QX]. cbv beta in P0, Q0, P1, Q1.
    pose proof (Or' 0%nat 0%nat ltac:(lia) ltac:(lia)) as O00. pose proof (Or' 1%nat 1%nat ltac:(lia) ltac:(lia)) as O11.
    pose proof (Or' 0%nat 1%nat ltac:(lia) ltac:(lia)) as O01. cbn [sumn Nat.eqb] in O00, O11, O01.
    rewrite P0, Q0 in O00. rewrite P1, Q1 in O11. rewrite P0, Q0, P1, Q1 in O01.
    set (a0 := a_at C 0%nat 0%nat 0%nat 0%nat) in *. set (b0 := a_at C 1%nat 0%nat 0%nat 0%nat) in *.
    set (a1 := a_at C 0%nat 0%nat 1%nat 0%nat) in *. set (b1 := a_at C 1%nat 0%nat 1%nat 0%nat) in *.
    destruct (two_units a0 b0 a1 b1) as (U1 & U2 & U3); [lra|lra|lra|].
    set (a := X 0%nat 0%nat) in *. set (b := X 1%nat 0%nat) in *.
    exists (fun t => if Nat.eqb t 0 then 2 * (a * a0 + b * b0) else 2 * (a * a1 + b * b1)).
    assert (2 * (a * a0 + b * b0) * a0 + 2 * (a * a1 + b * b1) * a1 = a) as Ea.
    { transitivity (a * (2 * (a0 * a0 + a1 * a1)) + 2 * b * (a0 * b0 + a1 * b1)); [ring|]. rewrite U1, U3; ring. }
    assert (2 * (a * a0 + b * b0) * b0 + 2 * (a * a1 + b * b1) * b1 = b) as Eb.
    { transitivity (b * (2 * (b0 * b0 + b1 * b1)) + 2 * a * (a0 * b0 + a1 * b1)); [ring|]. rewrite U2, U3; ring. }
    intros x y Lx Ly. unfold combination; cbn [sumn Nat.eqb].
    destruct x as [|[|x]]; [| |lia]; destruct y as [|[|y]]; try lia.
    + fold a a0 a1. lra.
    + rewrite QX, Q0, Q1. fold b b0 b1. lra.
    + fold b b0 b1. lra.
    + rewrite PX, P0, P1. fold a a0 a1. lra.
Qed.

Lemma rot_pair : forall P i o, irrep_ok G i -> irrep_ok G o ->
  pair_full (pmember G) (p_irr G) (mk_we (p_irr G) (p_tensor G) (p_cg G) (F0 P)) [0%Z] i o.
Proof.
  intros P i o Hi Ho. destruct (rot_id i Hi) as [m ->], (rot_id o Ho) as [n ->].
  destruct (rot_correct n m Ho Hi) as (rn & rm & En & Em & Fo & Nd & _ & Tg & _).
  rewrite (rot_sym n m) in Fo, Nd.
  assert (p_irr G [m] = Ret (girrep_of rm)) as Ei by (unfold p_irr; rewrite Em; reflexivity).
  assert (p_irr G [n] = Ret (girrep_of rn)) as Eo by (unfold p_irr; rewrite En; reflexivity).
  destruct trivial_data as (r0 & E0 & S0 & X0 & V0).
  assert (p_irr G [0%Z] = Ret (girrep_of r0)) as Et by (unfold p_irr; rewrite E0; reflexivity).
  assert (irrep_ok G [0%Z]) as O0.
  { destruct G as [[N|N]| |]; try contradiction HR; cbn; [|lia]. cbn in HG. apply Z.ltb_lt in HG. lia. }
  destruct (kept0 P (rot_tensor m n) Nd) as [K1 K2].
  pose proof (rot_listed m n Hi Ho) as Li.
  unfold pair_full, mk_we. rewrite Ei, Eo, rot_p_tensor. cbn [bind].
  exists (girrep_of rm), (girrep_of rn).
  destruct (Z.eqb_spec m n) as [<-|Nmn].
  2:{ assert (~ In [0%Z] (map fst (rot_tensor m n))) as No.
      { intros I. apply in_map_iff in I. destruct I as ([j c] & Ej & I). cbn in Ej; subst j.
        rewrite (listed_once _ 0 c Nd I) in Li. rewrite Forall_forall in Fo. destruct (Fo _ I) as [_ Pc]. cbn in Pc. lia. }
      rewrite (K2 No). cbn [mapM bind map list_sum fold_right Nat.eqb].
      exists None. do 3 (split; [reflexivity|]). intros X HX.
      refine (planar_disjoint G [n] [m] _ _ HG Ho Hi _ Eo Ei X _); [congruence|].
      intros g A B Hg EA EB. exact (HX (girrep_of rm) (girrep_of rn) Ei Eo g A B Hg EA EB). }
  rewrite Em in En; apply Ret_inj in En; subst rn. clear Eo Ho.
  assert (In ([0%Z], rdim G m) (rot_tensor m m)) as I0.
  { destruct (in_dec (list_eq_dec Z.eq_dec) [0%Z] (map fst (rot_tensor m m))) as [I|I].
    - apply in_map_iff in I. destruct I as ([j c] & Ej & I). cbn in Ej; subst j.
      rewrite (listed_once _ 0 c Nd I) in Li. rewrite <- Li. exact I.
    - exfalso. assert (listed 0 (rot_tensor m m) = 0%nat) as Z.
      { clear - I. unfold listed. induction (rot_tensor m m) as [|[j d] l IH]; [reflexivity|]. cbn [filter fst].
        assert (match j with [x] => (x =? 0)%Z | _ => false end = false) as ->.
        { destruct j as [|x [|]]; try reflexivity. apply Z.eqb_neq. intros ->. apply I; left; reflexivity. }
        apply IH. intros H; apply I; right; exact H. }
      rewrite Z in Li. destruct (rdim_cases G m); lia. }
  rewrite (K1 _ I0). cbn [mapM]. cbn [fst snd]. rewrite Et; cbn [bind]. rewrite mult0, id_eqb_refl.
  assert (gi_sosc (girrep_of r0) = 1%nat) as So by (cbn [girrep_of gi_sosc]; unfold ir_sosc; rewrite X0; reflexivity).
  rewrite So. cbn [map fst snd list_sum fold_right].
  assert ((1 * rdim G m * 1 + 0)%nat = rdim G m) as -> by lia.
  assert (rdim G m <> 0)%nat as Nz by (destruct (rdim_cases G m); lia).
  rewrite (proj2 (Nat.eqb_neq _ _) Nz).
  assert (forall x, keep_js [] [[0%Z]] (f_js (F0 x)) = [[0%Z]]) as KJ by reflexivity. rewrite KJ.
  destruct (Tg 0%Z O0) as (rj & C & Erj & EC & D0 & D1 & D3 & D2 & Or & Int).
  rewrite E0 in Erj; apply Ret_inj in Erj; subst rj. rewrite S0 in *. rewrite Li in D2.
  cbn [mapM]. rewrite rot_p_cg, EC, Et; cbn [bind]. cbn [girrep_of gi_size]. rewrite D3, S0; cbn [Nat.eqb assert_ bind].
  assert (get_or 0%nat [([0%Z], rdim G m)] [0%Z] = rdim G m) as G0 by (unfold get_or; cbn [last_of]; rewrite id_eqb_refl; reflexivity).
  rewrite G0, D2, Nat.eqb_refl; cbn [assert_ bind].
  eexists; do 3 (split; [reflexivity|]). cbv iota.
  cbn [b_in b_out b_dim b_js b_dimh b_harm girrep_of gi_size]. do 2 (split; [reflexivity|]). split; [lia|]. split; [reflexivity|].
  split; [unfold get_or; cbn [last_of]; rewrite id_eqb_refl; lia|].
  assert (forall t, (t < rdim G m)%nat -> exists M, we_harm (girrep_of rm) (girrep_of rm) (multiplicity (F0 P) [0%Z]) C (girrep_of r0) t (fun _ _ => 1) = Ret M /\
    forall p q, M p q = a_at C p q t 0%nat) as Hs.
  { intros t Lt. unfold we_harm. cbn [girrep_of gi_size gi_endo gi_sosc]. rewrite D0, D1, !Nat.eqb_refl.
    unfold ir_sosc, endomorphism_basis. rewrite X0. cbn [length Nat.eqb andb assert_ bind].
    eexists; split; [reflexivity|]. intros p q. rewrite mult0, id_eqb_refl, D2. cbn [girrep_of gi_size]. rewrite S0. cbn [sumn].
    unfold we_coeff. cbn [girrep_of gi_size gi_endo]. rewrite S0. unfold endomorphism_basis; rewrite X0. cbn [sumn].
    rewrite Nat.div_1_r, (Nat.mod_small t), Nat.mul_1_l, (Nat.div_small t) by exact Lt. cbn [nth].
    unfold mid; cbn [Nat.eqb]. ring. }
  unfold lookup; cbn [last_of]. rewrite id_eqb_refl; cbn [bind fst snd].
  split.
  { intros t Lt. destruct (Hs t Lt) as (M & -> & _). discriminate. }
  destruct (slices_basis m rm C Hi Em EC D0 D1 D2 D3 Or) as (B1 & B2 & B3).
  { intros g A B Hg EA EB. destruct (Int g Hg) as (A' & B' & D & EA' & EB' & ED & I).
    rewrite EA in EA'; injection EA' as <-. rewrite EB in EB'; injection EB' as <-.
    exists D; split; [apply (V0 g D Hg ED)|exact I]. }
  assert (forall X, hom (pmember G) (p_irr G) [m] [m] X <-> intertwiner (pmember G) (ir_size rm) (ir_rep rm) (ir_size rm) (ir_rep rm) X) as Hh.
  { intros X; unfold hom; split.
    - intros H. exact (H _ _ Ei Ei).
    - intros H ri ro E1 E2. rewrite Ei in E1, E2. apply Ret_inj in E1; apply Ret_inj in E2; subst. exact H. }
  match goal with |- context [basis_of _ _ _ _ ?s] => set (Sm := s) end.
  assert (forall t, (t < rdim G m)%nat -> forall p q, Sm t p q = a_at C p q t 0%nat) as ES.
  { intros t Lt p q. unfold Sm, sample. cbn [b_harm last_of]. rewrite id_eqb_refl; cbn [bind fst snd].
    destruct (Hs t Lt) as (M & -> & HM). apply HM. }
  split.
  { intros t Lt. transitivity (square_sum (ir_size rm) (ir_size rm) (fun p q => a_at C p q t 0%nat));
      [apply square_sum_ext; intros p q _ _; apply ES; exact Lt|].
    unfold square_sum. pose proof (Or t 0%nat t 0%nat) as O1. rewrite D0, D1, D2, D3, !Nat.eqb_refl in O1. exact (O1 Lt Nat.lt_0_1 Lt Nat.lt_0_1). }
  split; [|split].
  - intros t Lt. apply Hh. intros g A B Hg EA EB a b La Lb.
    pose proof (B1 t Lt g A B Hg EA EB a b La Lb) as Q. unfold mmul in *.
    erewrite sumn_ext; [rewrite Q|]; [|intros; cbv beta; rewrite ES by exact Lt; reflexivity].
    apply sumn_ext; intros; rewrite ES by exact Lt; reflexivity.
  - intros X HX. destruct (B2 X (proj1 (Hh X) HX)) as (w & Hw). exists w. rewrite Hw. intros a b _ _.
    apply combination_ext; intros t Lt. rewrite ES by exact Lt. reflexivity.
  - intros w Hw. apply B3. intros a b La Lb. rewrite <- (Hw a b La Lb).
    apply combination_ext; intros t Lt. rewrite ES by exact Lt. reflexivity.
Qed.

(** For C_N and SO(2) the kernels on a point are a basis of all equivariant maps. *)
Theorem rotations_point_basis : forall P rin rout, planar_repr G rin -> planar_repr G rout ->
  sharp (r_size rin) (r_inv rin) -> sharp (r_size rout) (r_cob rout) ->
  exists o, kernels_on_point P (p_irr G) (p_tensor G) (p_cg G) [0%Z] rin rout = Ret o /\
  let maps := intertwiner (pmember G) (r_size rout) (r_fun rout) (r_size rin) (r_fun rin) in
  match o with
  | None => forall X, maps X -> meq (r_size rout) (r_size rin) X mzero
  | Some k => forall x, exists S, (forall t, (t < sk_dim k)%nat -> sk_sample (p_irr G) (point_filters P [0%Z]) k x t = Ret (S t)) /\
      basis_of maps (r_size rout) (r_size rin) (sk_dim k) S /\
      exists E, forall t, (t < sk_dim k)%nat -> square_sum (r_size rout) (r_size rin) (E t) = 1 /\
        meq (r_size rout) (r_size rin) (S t) (mmul (r_size rin) (mmul (r_size rout) (r_cob rout) (E t)) (r_inv rin))
  end.
Proof.
  intros P rin rout (_ & Oin & _ & Rin) (_ & Oout & _ & Rout) Sin Sout.
  destruct trivial_data as (r0 & E0 & _).
  apply (point_basis (pmember G) (p_irr G) _ [0%Z] (irrep_ok G)); try assumption.
  - intros j Hj. destruct (planar_irr_data G j HG Hj) as (r & Er & _ & _ & _ & Hr). exists r; split; [exact Er|].
    intros g Hg. destruct (Hr g Hg) as (D & ED & _). eauto.
  - intros i o. apply (rot_pair P).
  - reflexivity.
  - reflexivity.
  - exists (girrep_of r0). unfold p_irr; rewrite E0; reflexivity.
  - exists (pid G). apply pid_member; exact HG.
Qed.
End Rotations.
