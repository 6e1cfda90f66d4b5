(** Tensor products of representations of C_N and SO(2). *)
From Coq Require Import Reals ZArith Bool List Arith Lia Lra.
From Verif Require Import LibRes LibMat LibMatS ParamModel ParamProofs FinGroupModel PlanarModel IrrepModel SpecPlanar SpecIrrep RepModel SpecRepr RepProofs
  PolarModel SpecRep IrrepThms EndoProofs CGProofs KernelPlanar CompleteCor ProdIrrepProofs ProdIrrepThms TensorModel SpecTensor TensorProofs TensorThms.
Import ListNotations.
Open Scope R_scope.

(** ** The entries of the coefficients *)
Definition coefficient (v : R) : Prop := v = 0 \/ v = 1 \/ v = -1 \/ v = / sqrt 2 \/ v = - / sqrt 2.
Lemma coefficient0 : coefficient 0.
Proof. left; reflexivity. Qed.
Lemma mid_coefficient : forall i j, coefficient (mid i j).
Proof. intros i j. unfold mid, coefficient. destruct (Nat.eqb i j); auto. Qed.
Lemma eye_coefficient : forall i j, coefficient (eye_conj i j).
Proof.
  intros i j. unfold eye_conj, mid, coefficient. destruct (Nat.eqb j 1), (Nat.eqb i j); [right; right; left; ring|left; ring|right; left; ring|left; ring].
Qed.
Lemma flip_coefficient : forall b : bool, forall i j, coefficient ((if b then eye_conj else mid) i j).
Proof. intros [|]; [exact eye_coefficient|exact mid_coefficient]. Qed.
Lemma cols_coefficient : forall f b i j, coefficient (cg_cols f b i j).
Proof.
  intros f b i j. unfold cg_cols.
  assert (G : forall r c, cg_table r c = 0 \/ cg_table r c = / sqrt 2 \/ cg_table r c = - / sqrt 2).
  { intros r c. unfold cg_table. destruct r as [|[|[|[|r]]]]; destruct c as [|[|[|[|c]]]]; cbn; unfold Rdiv; rewrite ?Rmult_0_l, ?Rmult_1_l; auto;
      right; right; ring. }
  unfold coefficient. destruct (G i (f + j)%nat) as [H|[H|H]]; rewrite H; destruct (b && Nat.eqb j 1); rewrite ?Rmult_0_r, ?Rmult_1_l; auto 6.
  - right; right; right; right. ring.
  - right; right; right; left. ring.
Qed.
Lemma reshape_coefficient : forall h w c d0 d1 d2 d3 a, (forall i j, coefficient (c i j)) -> reshape4 h w c d0 d1 d2 d3 = Ret a -> forall x y s z, coefficient (a_at a x y s z).
Proof. intros h w c d0 d1 d2 d3 a H E x y s z. unfold reshape4 in E. apply assert_Ret in E as (_ & E). apply Ret_inj in E. subst a. cbn [a_at]. apply H. Qed.
Lemma finish_coefficient : forall sm sn sj c a, (forall i j, coefficient (c i j)) -> cg_finish sm sn sj c = Ret a -> forall x y s z, coefficient (a_at a x y s z).
Proof.
  intros sm sn sj c a H E x y s z. unfold cg_finish in E. apply bind_Ret in E as (b & Eb & E). apply Ret_inj in E. subst a. cbn [transpose1023 a_at].
  exact (reshape_coefficient _ _ _ _ _ _ _ b H Eb y x s z).
Qed.
Lemma zeros_coefficient : forall a b c x y s z, coefficient (a_at (zeros4 a b c) x y s z).
Proof. intros. apply coefficient0. Qed.
Ltac coeff := match goal with
  | E : reshape4 _ _ mid _ _ _ _ = Ret _ |- _ => exact (reshape_coefficient _ _ _ _ _ _ _ _ mid_coefficient E)
  | E : reshape4 _ _ (if ?b then _ else _) _ _ _ _ = Ret _ |- _ => exact (reshape_coefficient _ _ _ _ _ _ _ _ (flip_coefficient b) E)
  | E : cg_finish _ _ _ _ = Ret _ |- _ => exact (finish_coefficient _ _ _ _ _ (cols_coefficient _ _) E)
  | E : Ret (zeros4 _ _ _) = Ret _ |- _ => apply Ret_inj in E; subst; exact (zeros_coefficient _ _ _)
  end.
Lemma cn_coefficient : forall N m n j a, cn_cg N m n j = Ret a -> forall x y s z, coefficient (a_at a x y s z).
Proof.
  intros N m n j a E. unfold cn_cg in E. apply bind_Ret in E as (rm & _ & E). apply bind_Ret in E as (rn & _ & E). apply bind_Ret in E as (rj & _ & E). cbv zeta in E.
  destruct ((m =? 0) || (n =? 0))%Z; [destruct (j =? m + n)%Z; coeff|].
  destruct ((N mod 2 =? 0) && ((m =? N / 2) || (n =? N / 2)))%Z; [destruct (j =? m + n)%Z; [coeff|]; destruct (j =? N - m - n)%Z; coeff|].
  destruct (j =? m + n)%Z; [coeff|]. destruct (j =? N - m - n)%Z; [coeff|]. destruct (j =? m - n)%Z; [coeff|]. destruct (j =? n - m)%Z; coeff.
Qed.
Lemma so2_coefficient : forall m n j a, so2_cg m n j = Ret a -> forall x y s z, coefficient (a_at a x y s z).
Proof.
  intros m n j a E. unfold so2_cg in E. apply bind_Ret in E as (rm & _ & E). apply bind_Ret in E as (rn & _ & E). apply bind_Ret in E as (rj & _ & E). cbv zeta in E.
  destruct ((m =? 0) || (n =? 0))%Z; [destruct (j =? m + n)%Z; coeff|].
  destruct (j =? m + n)%Z; [coeff|]. destruct (j =? m - n)%Z; [coeff|]. destruct (j =? n - m)%Z; coeff.
Qed.

(** a matrix of such entries is close to the identity only if it is the identity *)
Lemma coefficient_sharp : forall n Q, entries coefficient n Q -> sharp n Q.
Proof.
  intros n Q H. unfold sharp. destruct (allclose n n Q mid) eqn:A; [left|right; reflexivity]. rewrite allclose_true in A. intros i j Hi Hj. specialize (A i j Hi Hj). specialize (H i j Hi Hj).
  unfold np_isclose in A. apply Rleb_true in A.
  assert (S2 : 0.7 < / sqrt 2 < 0.72).
  { assert (P : 0 < / sqrt 2) by (apply Rinv_0_lt_compat, sqrt_lt_R0; lra). pose proof sqrt2_sq as Sq. split; nra. }
  assert (T8 : / 10 ^ 8 < 0.01) by (apply Rmult_lt_reg_l with (10 ^ 8); [lra|]; rewrite Rinv_r by lra; lra).
  assert (T5 : / 10 ^ 5 < 0.01) by (apply Rmult_lt_reg_l with (10 ^ 5); [lra|]; rewrite Rinv_r by lra; lra).
  pose proof (tol_pos 8). pose proof (tol_pos 5).
  unfold mid in *. destruct (Nat.eqb i j).
  - rewrite Rabs_R1 in A. destruct H as [H|[H|[H|[H|H]]]]; [|exact H| | |]; rewrite H in A; exfalso.
    all: revert A; unfold Rabs; destruct (Rcase_abs _); lra.
  - rewrite Rabs_R0 in A. destruct H as [H|[H|[H|[H|H]]]]; [exact H| | | |]; rewrite H in A; exfalso.
    all: revert A; unfold Rabs; destruct (Rcase_abs _); lra.
Qed.

Lemma mapM_same : forall A C (f g : A -> res C) l, (forall a, In a l -> f a = g a) -> mapM f l = mapM g l.
Proof. intros A C f g l; induction l as [|a l IH]; intros H; [reflexivity|]. cbn [mapM]. rewrite (H a (or_introl eq_refl)), IH; [reflexivity|]. intros b Hb; apply H; right; exact Hb. Qed.

(** ** Rotations *)
Section Rotations.
Variable G : pgrp.
Hypothesis HG : pvalid G.
Hypothesis HR : rotations G.

Lemma rot_total : forall j, irrep_ok G j -> exists r, p_irr G j = Ret r /\ gi_id r = j /\ (0 < gi_size r)%nat /\
  forall g, pmember G g -> exists D, gi_rep r g = Ret (gi_size r, D).
Proof using HG.
  intros j Hj. destruct (irrep_is_rep G j HG Hj) as (r & Er & I & O & _). exists (girrep_of r). unfold p_irr. rewrite Er. cbn [bind girrep_of gi_id gi_size gi_rep].
  destruct (endomorphisms G j r HG Hj Er) as [_ [Pos _]]. split; [reflexivity|]. split; [exact I|]. split; [exact Pos|].
  intros g Hg. destruct (or_total _ _ _ _ _ _ O g Hg) as (D & ED & _). exists D. exact ED.
Qed.

Lemma rot_sound : forall m n, irrep_ok G m -> irrep_ok G n -> sound_pair (p_irr G) (pmember G) (irrep_ok G) (p_tensor G) (p_cg G) m n.
Proof using HG HR.
  intros m n Hm Hn. destruct (rot_id G HG HR m Hm) as [a ->]. destruct (rot_id G HG HR n Hn) as [b ->].
  destruct (rot_correct G HG HR a b Hm Hn) as (rm & rn & Em & En & F & ND & (ds & Ed & Sd) & One & Two).
  exists (girrep_of rm), (girrep_of rn), (rot_tensor G a b). unfold p_irr. rewrite Em, En. split; [reflexivity|]. split; [reflexivity|]. split; [apply rot_p_tensor; assumption|]. split; [exact ND|].
  rewrite Forall_forall in F. split; [|split].
  - intros j k Hj. destruct (F (j, k) Hj) as [Oj Kj]. cbn [fst snd] in Oj, Kj. split; [exact Kj|]. split; [exact Oj|]. destruct (rot_id G HG HR j Oj) as [d ->].
    destruct (One d Oj) as (rj & X & Ej & EX & D0 & D1 & D3 & D2 & Or & I). exists (girrep_of rj), X. rewrite Ej. cbn [bind girrep_of gi_id gi_size gi_rep].
    destruct (endomorphisms G [d] rj HG Oj Ej) as [_ [Pos _]]. destruct (irrep_is_rep G [d] HG Oj) as (r' & Er' & Id & _). rewrite Ej in Er'. apply Ret_inj in Er'. subst r'.
    split; [reflexivity|]. split; [exact Id|]. rewrite rot_p_cg by assumption. split; [exact EX|]. split; [exact Pos|]. split; [exact D0|]. split; [exact D1|]. split; [rewrite D2; apply listed_once; assumption|]. split; [exact D3|]. split; [exact Or|].
    intros g A B D Hg EA EB ED. destruct (I g Hg) as (A' & B' & D' & EA' & EB' & ED' & J).
    rewrite EA in EA'; rewrite EB in EB'; rewrite ED in ED'. injection EA' as <-. injection EB' as <-. injection ED' as <-. exact J.
  - intros j k j' k' x y Hj Hj' Nq Ex Ey. destruct (F _ Hj) as [Oj _]. destruct (F _ Hj') as [Oj' _]. cbn [fst] in *. destruct (rot_id G HG HR j Oj) as [d ->]. destruct (rot_id G HG HR j' Oj') as [d' ->].
    rewrite rot_p_cg in Ex, Ey by assumption. apply (Two d d'); auto; congruence.
  - exists ds. split; [|exact Sd]. rewrite <- Ed. apply mapM_same. intros p _. destruct (p_irrep G (fst p)); [reflexivity|]. cbn [bind girrep_of gi_size]. f_equal. apply Nat.mul_comm.
Qed.

Lemma rot_coeffs : forall m n l j k a, irrep_ok G m -> irrep_ok G n -> p_tensor G m n = Ret l -> In (j, k) l -> p_cg G m n j = Ret a ->
  forall x y s z, (x < a_d0 a)%nat -> (y < a_d1 a)%nat -> (s < a_d2 a)%nat -> (z < a_d3 a)%nat -> coefficient (a_at a x y s z).
Proof using HG HR.
  intros m n l j k a _ _ _ _ E x y s z _ _ _ _. unfold p_cg in E. destruct m as [|m [|]]; try discriminate E. destruct n as [|n [|]]; try discriminate E. destruct j as [|j [|]]; try discriminate E.
  destruct G as [[N|N]| |]; try discriminate E; [exact (cn_coefficient _ _ _ _ _ E x y s z)|exact (so2_coefficient _ _ _ _ E x y s z)].
Qed.

Variable linv : nat -> mat -> res mat.
Hypothesis Hinv : correct_inverse linv.

Theorem rot_tensor_product : forall rho1 rho2, planar_repr G rho1 -> planar_repr G rho2 ->
  exists r, tensor_product (p_irr G) linv (p_tensor G) (p_cg G) rho1 rho2 = Ret r /\ r_size r = (r_size rho1 * r_size rho2)%nat /\
    (orthogonal (r_size rho1) (r_cob rho1) -> orthogonal (r_size rho2) (r_cob rho2) -> orthogonal (r_size r) (r_cob r)) /\
    (meq (r_size rho1) (r_size rho1) (r_cob rho1) mid -> meq (r_size rho2) (r_size rho2) (r_cob rho2) mid -> sharp (r_size r) (r_cob r)) /\
    (sharp (r_size r) (r_cob r) -> planar_repr G r /\
       forall g A B, pmember G g -> r_fun rho1 g = Ret (r_size rho1, A) -> r_fun rho2 g = Ret (r_size rho2, B) ->
       exists C, r_fun r g = Ret (r_size r, C) /\ is_tensor (r_size rho1) (r_size rho2) A B C).
Proof using HG HR Hinv.
  intros rho1 rho2 (N1 & F1 & T1 & R1) (N2 & F2 & T2 & R2).
  assert (Pos : forall rho : repr pval, r_irreps rho <> [] -> Forall (irrep_ok G) (r_irreps rho) -> total_size (p_irr G) (r_irreps rho) (r_size rho) -> (0 < r_size rho)%nat).
  { intros rho N F (l & El & <-). destruct (r_irreps rho) as [|j ids]; [congruence|]. inversion F; subst. cbn [mapM] in El. destruct (rot_total j) as (r & Er & _ & P & _); [assumption|].
    rewrite Er in El. cbn [bind] in El. apply bind_Ret in El as (l' & _ & El). apply Ret_inj in El. subst l. cbn. lia. }
  pose proof (Pos rho1 N1 F1 T1) as P1. pose proof (Pos rho2 N2 F2 T2) as P2.
  destruct (tensor_product_ok (p_irr G) linv (p_tensor G) (p_cg G) (pmember G) (irrep_ok G) rot_total rot_sound coefficient coefficient0 rot_coeffs Hinv rho1 rho2 F1 F2 T1 T2 P1 P2 R1 R2)
    as (r & Er & Sr & Fr & Tr & Or & (X & EX & MX) & Sh).
  exists r. split; [exact Er|]. split; [exact Sr|]. split; [exact Or|]. split.
  - intros M1 M2. assert (MQ : meq (r_size r) (r_size r) (r_cob r) X).
    { rewrite MX. transitivity (mmul (r_size r) mid X); [|apply mid_l]. apply mmul_ext; [|reflexivity]. rewrite Sr. intros i j Hi Hj.
      rewrite (kron_ext _ _ _ _ _ _ _ _ P2 P2 M1 M2 i j Hi Hj). apply (kron_mid (r_size rho1)); assumption. }
    apply coefficient_sharp. intros i j Hi Hj. rewrite MQ by assumption. apply EX; assumption.
  - intros S. destruct (Sh S) as [Rr V]. split; [|exact V]. split; [|split; [exact Fr|split; [exact Tr|exact Rr]]].
    intros Z. rewrite Z in Tr. destruct Tr as (l & El & Q). cbn in El. apply Ret_inj in El. subst l. cbn in Q. rewrite Sr in Q. nia.
Qed.

(** the character that the new representation is given *)
Theorem rot_tensor_character : forall rho1 rho2 r, planar_repr G rho1 -> planar_repr G rho2 -> tensor_product (p_irr G) linv (p_tensor G) (p_cg G) rho1 rho2 = Ret r ->
  sharp (r_size r) (r_cob r) -> forall g, pmember G g -> exists v, tensor_character rho1 rho2 g = Ret v /\ r_character r g = Ret v.
Proof using HG HR Hinv.
  intros rho1 rho2 r P1 P2 E S g Hg. destruct (rot_tensor_product rho1 rho2 P1 P2) as (r' & E' & Sr & _ & _ & V). rewrite E in E'. apply Ret_inj in E'. subst r'. destruct (V S) as [_ W].
  destruct P1 as (_ & _ & _ & _ & R1). destruct P2 as (_ & _ & _ & _ & R2). destruct (R1 g Hg) as (_ & A & _ & _ & EA & _). destruct (R2 g Hg) as (_ & B & _ & _ & EB & _).
  destruct (W g A B Hg EA EB) as (C & EC & M). exists (trace (r_size rho1) A * trace (r_size rho2) B). unfold tensor_character, r_character. rewrite EA, EB, EC. cbn [bind fst snd]. split; [reflexivity|].
  f_equal. rewrite Sr. unfold trace. rewrite sumn_mul, <- sumn_scal_r. apply sumn_ext. intros i Hi. rewrite <- sumn_scal_l. apply sumn_ext. intros k Hk. apply M; assumption.
Qed.
End Rotations.

(** ** Any group *)
Theorem tensor_any : forall T (irr : list Z -> res (girrep T)) linv tensor cg (mem : T -> Prop) (ok : list Z -> Prop),
  (forall j, ok j -> exists r, irr j = Ret r /\ gi_id r = j /\ (0 < gi_size r)%nat /\ forall g, mem g -> exists D, gi_rep r g = Ret (gi_size r, D)) ->
  (forall m n, ok m -> ok n -> sound_pair irr mem ok tensor cg m n) -> correct_inverse linv ->
  forall rho1 rho2, Forall ok (r_irreps rho1) -> Forall ok (r_irreps rho2) ->
  total_size irr (r_irreps rho1) (r_size rho1) -> total_size irr (r_irreps rho2) (r_size rho2) -> (0 < r_size rho1)%nat -> (0 < r_size rho2)%nat ->
  reproduces irr mem rho1 -> reproduces irr mem rho2 ->
  exists r, tensor_product irr linv tensor cg rho1 rho2 = Ret r /\ r_size r = (r_size rho1 * r_size rho2)%nat /\
    Forall ok (r_irreps r) /\ total_size irr (r_irreps r) (r_size r) /\
    (orthogonal (r_size rho1) (r_cob rho1) -> orthogonal (r_size rho2) (r_cob rho2) -> orthogonal (r_size r) (r_cob r)) /\
    (sharp (r_size r) (r_cob r) -> reproduces irr mem r /\
       forall g A B, mem g -> r_fun rho1 g = Ret (r_size rho1, A) -> r_fun rho2 g = Ret (r_size rho2, B) ->
       exists C, r_fun r g = Ret (r_size r, C) /\ is_tensor (r_size rho1) (r_size rho2) A B C).
Proof.
  intros T irr linv tensor cg mem ok Total Sound Hinv rho1 rho2 F1 F2 T1 T2 P1 P2 R1 R2.
  destruct (tensor_product_ok irr linv tensor cg mem ok Total Sound (fun _ => True) I (fun _ _ _ _ _ _ _ _ _ _ _ _ _ _ _ _ _ _ _ => I) Hinv rho1 rho2 F1 F2 T1 T2 P1 P2 R1 R2) as (r & E & S & F & T' & O & _ & V).
  exists r. auto 10.
Qed.
