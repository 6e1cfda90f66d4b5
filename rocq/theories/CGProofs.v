(** Proofs about the Clebsch-Gordan coefficients of C_N and SO(2). *)
From Coq Require Import Reals ZArith Bool List Lia Lra Setoid Morphisms.
From Verif Require Import LibRes LibMat LibTrig SpecGroup FinGroupModel SpecFinGroup FinGroupProofs
  ParamModel ParamProofs PlanarModel SpecPlanar PlanarProofs IrrepModel SpecRep SpecIrrep IrrepProofs.
Import ListNotations.
Open Scope R_scope.

(** The shape of a one- or two-dimensional irrep of a rotation group at [t]. *)
Definition shape (d : nat) (k : Z) (t : R) (A : mat) : Prop :=
  (d = 1%nat /\ A 0%nat 0%nat = cos (IZR k * t) /\ sin (IZR k * t) = 0) \/
  (d = 2%nat /\ A 0%nat 0%nat = cos (IZR k * t) /\ A 0%nat 1%nat = - sin (IZR k * t) /\
   A 1%nat 0%nat = sin (IZR k * t) /\ A 1%nat 1%nat = cos (IZR k * t)).

(** the coefficients are right at every angle in [T] *)
Definition cg_right (T : R -> Prop) (sm sn sj : nat) (m n j : Z) (a : arr4) : Prop :=
  a_d0 a = sm /\ a_d1 a = sn /\ a_d3 a = sj /\ cg_orthonormal a /\
  forall t A B D, T t -> shape sm m t A -> shape sn n t B -> shape sj j t D -> cg_intertwines a A B D.

Lemma zeros_right : forall T sm sn sj m n j, cg_right T sm sn sj m n j (zeros4 sm sn sj).
Proof.
  intros; split; [|split; [|split; [|split]]]; try reflexivity.
  - intros s i s' i' H; cbn in H; lia.
  - intros t A B D _ _ _ _ x y s i _ _ H; cbn in H; lia.
Qed.

Lemma sqrt2_sq : / sqrt 2 * / sqrt 2 = / 2.
Proof. rewrite <- Rinv_mult, sqrt_sqrt by lra; reflexivity. Qed.

Ltac idx :=
  repeat match goal with
  | H : (?i < 1)%nat |- _ => is_var i; destruct i as [|i]; [clear H|exfalso; lia]
  | H : (?i < 2)%nat |- _ => is_var i; destruct i as [|[|i]]; [clear H|clear H|exfalso; lia]
  end.

(** One factor is a sign. *)
Lemma sign_left : forall (T : R -> Prop) sn m n j c E,
  (sn = 1%nat \/ sn = 2%nat) ->
  (E = mid /\ forall t, T t -> sin (IZR m * t) = 0 ->
     cos (IZR j * t) = cos (IZR m * t) * cos (IZR n * t) /\
     (sn = 2%nat -> sin (IZR j * t) = cos (IZR m * t) * sin (IZR n * t))) \/
  (E = eye_conj /\ sn = 2%nat /\ forall t, T t -> sin (IZR m * t) = 0 ->
     cos (IZR j * t) = cos (IZR m * t) * cos (IZR n * t) /\
     sin (IZR j * t) = - (cos (IZR m * t) * sin (IZR n * t))) ->
  reshape4 sn sn E 1 sn 1 sn = Ret c -> cg_right T 1 sn sn m n j c.
Proof.
  intros T sn m n j c E Hs HE H.
  destruct Hs as [-> | ->]; unfold reshape4 in H; cbn in H; apply Ret_inj in H; subst c;
    (split; [|split; [|split; [|split]]]; try reflexivity).
  - intros s i s' i' H1 H2 H3 H4; cbn [a_d0 a_d1 a_d2 a_d3] in *; idx.
    destruct HE as [[-> _]|[-> [D _]]]; [cbn; unfold mid; cbn; ring|discriminate D].
  - intros t A B D Ht HA HB HD x y s i H1 H2 H3 H4; cbn [a_d0 a_d1 a_d2 a_d3] in *; idx.
    destruct HE as [[-> HE]|[-> [X _]]]; [|discriminate X].
    destruct HA as [(_ & A0 & As)|(X & _)]; [|discriminate X].
    destruct HB as [(_ & B0 & _)|(X & _)]; [|discriminate X].
    destruct HD as [(_ & D0 & _)|(X & _)]; [|discriminate X].
    destruct (HE t Ht As) as [Ec _]; cbn [sumn a_at]; rewrite A0, B0, D0, Ec; ring.
  - intros s i s' i' H1 H2 H3 H4; cbn [a_d0 a_d1 a_d2 a_d3] in *; idx;
      destruct HE as [[-> _]|[-> _]]; cbn; unfold eye_conj, mid; cbn; ring.
  - intros t A B D Ht HA HB HD x y s i H1 H2 H3 H4; cbn [a_d0 a_d1 a_d2 a_d3] in *.
    destruct HA as [(_ & A0 & As)|(X & _)]; [|discriminate X].
    destruct HB as [(X & _)|(_ & B0 & B1 & B2 & B3)]; [discriminate X|].
    destruct HD as [(X & _)|(_ & D0 & D1 & D2 & D3)]; [discriminate X|].
    assert (HE' : (E = mid /\ cos (IZR j * t) = cos (IZR m * t) * cos (IZR n * t) /\
        sin (IZR j * t) = cos (IZR m * t) * sin (IZR n * t)) \/
      (E = eye_conj /\ cos (IZR j * t) = cos (IZR m * t) * cos (IZR n * t) /\
        sin (IZR j * t) = - (cos (IZR m * t) * sin (IZR n * t)))).
    { destruct HE as [[-> HE]|[-> [_ HE]]]; destruct (HE t Ht As) as [E1 E2]; [left|right]; auto. }
    destruct HE' as [(-> & Ec & Es)|(-> & Ec & Es)]; idx; cbn [sumn a_at]; cbn;
      rewrite ?A0, ?B0, ?B1, ?B2, ?B3, ?D0, ?D1, ?D2, ?D3, ?Ec, ?Es;
      unfold eye_conj, mid; cbn; ring.
Qed.

Lemma sign_right : forall (T : R -> Prop) sm m n j c E,
  (sm = 1%nat \/ sm = 2%nat) ->
  (E = mid /\ forall t, T t -> sin (IZR n * t) = 0 ->
     cos (IZR j * t) = cos (IZR m * t) * cos (IZR n * t) /\
     (sm = 2%nat -> sin (IZR j * t) = sin (IZR m * t) * cos (IZR n * t))) \/
  (E = eye_conj /\ sm = 2%nat /\ forall t, T t -> sin (IZR n * t) = 0 ->
     cos (IZR j * t) = cos (IZR m * t) * cos (IZR n * t) /\
     sin (IZR j * t) = - (sin (IZR m * t) * cos (IZR n * t))) ->
  reshape4 sm sm E sm 1 1 sm = Ret c -> cg_right T sm 1 sm m n j c.
Proof.
  intros T sm m n j c E Hs HE H.
  destruct Hs as [-> | ->]; unfold reshape4 in H; cbn in H; apply Ret_inj in H; subst c;
    (split; [|split; [|split; [|split]]]; try reflexivity).
  - intros s i s' i' H1 H2 H3 H4; cbn [a_d0 a_d1 a_d2 a_d3] in *; idx.
    destruct HE as [[-> _]|[-> [D _]]]; [cbn; unfold mid; cbn; ring|discriminate D].
  - intros t A B D Ht HA HB HD x y s i H1 H2 H3 H4; cbn [a_d0 a_d1 a_d2 a_d3] in *; idx.
    destruct HE as [[-> HE]|[-> [X _]]]; [|discriminate X].
    destruct HA as [(_ & A0 & As)|(X & _)]; [|discriminate X].
    destruct HB as [(_ & B0 & Bs)|(X & _)]; [|discriminate X].
    destruct HD as [(_ & D0 & _)|(X & _)]; [|discriminate X].
    destruct (HE t Ht Bs) as [Ec _]; cbn [sumn a_at]; rewrite A0, B0, D0, Ec; ring.
  - intros s i s' i' H1 H2 H3 H4; cbn [a_d0 a_d1 a_d2 a_d3] in *; idx;
      destruct HE as [[-> _]|[-> _]]; cbn; unfold eye_conj, mid; cbn; ring.
  - intros t A B D Ht HA HB HD x y s i H1 H2 H3 H4; cbn [a_d0 a_d1 a_d2 a_d3] in *.
    destruct HB as [(_ & B0 & Bs)|(X & _)]; [|discriminate X].
    destruct HA as [(X & _)|(_ & A0 & A1 & A2 & A3)]; [discriminate X|].
    destruct HD as [(X & _)|(_ & D0 & D1 & D2 & D3)]; [discriminate X|].
    assert (HE' : (E = mid /\ cos (IZR j * t) = cos (IZR m * t) * cos (IZR n * t) /\
        sin (IZR j * t) = sin (IZR m * t) * cos (IZR n * t)) \/
      (E = eye_conj /\ cos (IZR j * t) = cos (IZR m * t) * cos (IZR n * t) /\
        sin (IZR j * t) = - (sin (IZR m * t) * cos (IZR n * t)))).
    { destruct HE as [[-> HE]|[-> [_ HE]]]; destruct (HE t Ht Bs) as [E1 E2]; [left|right]; auto. }
    destruct HE' as [(-> & Ec & Es)|(-> & Ec & Es)]; idx; cbn [sumn a_at]; cbn;
      rewrite ?B0, ?A0, ?A1, ?A2, ?A3, ?D0, ?D1, ?D2, ?D3, ?Ec, ?Es;
      unfold eye_conj, mid; cbn; ring.
Qed.

(** Both factors are rotations. *)
Lemma pair_right : forall (T : R -> Prop) sj m n j from (cj : bool) c,
  (sj = 1%nat \/ sj = 2%nat) -> (from = 0 \/ from = 2)%nat ->
  (forall t, T t ->
     cos (IZR j * t) = cos (IZR m * t) * cos (IZR n * t) +
       (if Nat.eqb from 0 then 1 else -1) * (sin (IZR m * t) * sin (IZR n * t)) /\
     sin (IZR j * t) = (if cj then -1 else 1) * (sin (IZR m * t) * cos (IZR n * t) -
       (if Nat.eqb from 0 then 1 else -1) * (cos (IZR m * t) * sin (IZR n * t)))) ->
  cg_finish 2 2 sj (cg_cols from cj) = Ret c -> cg_right T 2 2 sj m n j c.
Proof.
  intros T sj m n j from cj c Hs Hf Htr H; pose proof sqrt2_sq as Hq.
  destruct Hs as [-> | ->]; cbn in H; apply Ret_inj in H; subst c;
    (split; [|split; [|split; [|split]]]; try reflexivity).
  1,3: intros s i s' i' H1 H2 H3 H4; cbn [a_d0 a_d1 a_d2 a_d3 transpose1023] in *; idx;
      cbn [sumn a_at transpose1023];
      destruct Hf as [-> | ->]; destruct cj; cbn; unfold cg_cols, cg_table, Rdiv; cbn;
      set (q := / sqrt 2) in *; lra.
  - intros t A B D Ht HA HB HD x y s i H1 H2 H3 H4; cbn [a_d0 a_d1 a_d2 a_d3 transpose1023] in *.
    destruct HA as [(X & _)|(_ & A0 & A1 & A2 & A3)]; [discriminate X|].
    destruct HB as [(X & _)|(_ & B0 & B1 & B2 & B3)]; [discriminate X|].
    destruct HD as [(_ & D0 & Ds)|(X & _)]; [|discriminate X].
    destruct (Htr t Ht) as [Ec Es]; rewrite Ds in Es; rewrite Ec in D0; clear Ds Ec.
    cbn [sumn a_at transpose1023]; idx; rewrite ?A0, ?A1, ?A2, ?A3, ?B0, ?B1, ?B2, ?B3, ?D0;
    set (cm := cos (IZR m * t)) in *; set (cn := cos (IZR n * t)) in *;
    set (um := sin (IZR m * t)) in *; set (un := sin (IZR n * t)) in *;
    destruct Hf as [-> | ->]; destruct cj; cbn in *; unfold cg_cols, cg_table, Rdiv in *; cbn;
    set (q := / sqrt 2) in *; apply (f_equal (Rmult q)) in Es; lra.
  - intros t A B D Ht HA HB HD x y s i H1 H2 H3 H4; cbn [a_d0 a_d1 a_d2 a_d3 transpose1023] in *.
    destruct HA as [(X & _)|(_ & A0 & A1 & A2 & A3)]; [discriminate X|].
    destruct HB as [(X & _)|(_ & B0 & B1 & B2 & B3)]; [discriminate X|].
    destruct HD as [(X & _)|(_ & D0 & D1 & D2 & D3)]; [discriminate X|].
    destruct (Htr t Ht) as [Ec Es]; rewrite Ec, Es in *; clear Ec Es Htr.
    cbn [sumn a_at transpose1023]; idx;
      rewrite ?A0, ?A1, ?A2, ?A3, ?B0, ?B1, ?B2, ?B3, ?D0, ?D1, ?D2, ?D3;
    destruct Hf as [-> | ->]; destruct cj; cbn in *; unfold cg_cols, cg_table, Rdiv in *; cbn; ring.
Qed.

Lemma pair_sep : forall sj sj' (c1 c2 : bool) a b,
  (sj = 1%nat \/ sj = 2%nat) -> (sj' = 1%nat \/ sj' = 2%nat) ->
  cg_finish 2 2 sj (cg_cols 2 c1) = Ret a -> cg_finish 2 2 sj' (cg_cols 0 c2) = Ret b ->
  cg_separated a b /\ cg_separated b a.
Proof.
  intros sj sj' c1 c2 a b H1 H2 Ha Hb.
  destruct H1 as [-> | ->], H2 as [-> | ->]; cbn in Ha, Hb; apply Ret_inj in Ha, Hb; subst a b;
    (split; intros s i s' i' I1 I2 I3 I4; cbn [a_d0 a_d1 a_d2 a_d3 transpose1023] in *; idx;
      cbn [sumn a_at transpose1023]; destruct c1, c2; cbn; unfold cg_cols, cg_table, Rdiv; cbn; ring).
Qed.

Lemma zeros_sep : forall a b, (a_d2 a = 0 \/ a_d2 b = 0)%nat -> cg_separated a b.
Proof. intros a b H s i s' i' H1 _ H2; lia. Qed.

Definition rdim (G : pgrp) (k : Z) : nat := kdim (irrep_kind G [k]).

Lemma rdim_cases : forall G k, rdim G k = 1%nat \/ rdim G k = 2%nat.
Proof. intros G k; unfold rdim; destruct (irrep_kind G [k]); auto. Qed.

(** what the assembly below needs of a rotation group *)
Definition is_rot (G : pgrp) : Prop := match G with Fin (Cyc _) | SO2 => True | _ => False end.

Lemma irrep_shape : forall G k r g, pvalid G -> is_rot G -> irrep_as G [k] r (irrep_kind G [k]) ->
  kok (irrep_kind G [k]) G -> pmember G g ->
  exists A, ir_rep r g = Ret (ir_size r, A) /\ shape (ir_size r) k (th G g) A.
Proof.
  intros G k r g HG HR (_ & _ & Es & _ & _ & _ & Hr) Hk Hg; destruct (Hr g Hg) as (A & EA & MA & _).
  rewrite Es in *; exists A; split; [exact EA|].
  assert (Hf : fl G g = 0%Z) by (destruct G as [[N|N]| |]; try contradiction; unpack; reflexivity).
  rewrite Hf in MA.
  assert (X : irrep_kind G [k] = K1 0 k \/ irrep_kind G [k] = K2 k).
  { destruct G as [[N|N]| |]; try contradiction; cbn [irrep_kind]; destruct (_ : bool); auto. }
  destruct X as [X|X]; rewrite X in *; cbn [kdim kmat] in *.
  - left; split; [reflexivity|]; destruct Hk as [_ Hk]; split; [|apply Hk; exact Hg].
    rewrite MA by lia; unfold mat1, rsign; cbn; ring.
  - right; split; [reflexivity|]; rewrite !MA by lia; unfold mat2, rsign; cbn; repeat split; ring.
Qed.
