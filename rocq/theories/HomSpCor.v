(** homomorphism_space for C_N, D_N, SO(2), O(2), and the number of its matrices. *)
From Coq Require Import Reals List ZArith Arith Bool Lia Lra.
From Verif Require Import LibRes LibMat LibMatS ParamProofs FinGroupModel ParamModel PlanarModel SpecPlanar IrrepModel SpecRep SpecIrrep IrrepProofs RepModel SpecRepr RepProofs RepThms SpecInd SpecSchur IndPlanar
  HomSpModel SpecHomSp HomSpProofs HomSpThms.
Import ListNotations.
Open Scope R_scope.

Lemma planar_ids : forall G id x, pvalid G -> irrep_ok G id -> p_irr G id = Ret x -> gi_id x = id.
Proof. intros G id x HG Hi E. destruct (p_irr_kind G id x HG Hi E) as (r & _ & -> & A). apply A. Qed.
Lemma planar_valued : forall G id x, pvalid G -> irrep_ok G id -> p_irr G id = Ret x -> valued (pmember G) x.
Proof.
  intros G id x HG Hi E g M. destruct (p_irr_kind G id x HG Hi E) as (r & _ & -> & A). destruct (or_total _ _ _ _ _ _ (proj1 (kind_orth_rep G id r _ HG A)) g M) as (D & ED & _). exists D. exact ED.
Qed.
Theorem planar_hom_basis : forall G r1 r2, pvalid G -> planar_repr G r1 -> planar_repr G r2 ->
  exists l, homomorphism_space (p_irr G) r1 r2 = Ret l /\
    basis_of (r_size r2) (r_size r1) (intertwines (pmember G) (r_size r1) (r_size r2) (r_fun r1) (r_fun r2)) l.
Proof.
  intros G r1 r2 HG (_ & A1 & B1 & C1) (_ & A2 & B2 & C2).
  apply (hom_basis (p_irr G) (pmember G) (irrep_ok G)).
  - intros id x. apply planar_ids, HG.
  - intros id x Hi E. exact (planar_described G id x HG Hi E).
  - intros id id' x y Hi Hi' N E E'. exact (planar_disjoint G id id' x y HG Hi Hi' N E E').
  - intros id x. apply planar_valued, HG.
  - split; [|split]; assumption.
  - split; [|split]; assumption.
Qed.
Theorem planar_endo_basis : forall G r, pvalid G -> planar_repr G r ->
  exists l, repr_endomorphisms (p_irr G) r = Ret l /\ spans_commutant (pmember G) (r_size r) (r_fun r) l.
Proof.
  intros G r HG Hr. rewrite endo_hom. destruct (planar_hom_basis G r r HG Hr Hr) as (l & E & S & I). exists l. split; [exact E|]. split; [|exact I]. intros X. rewrite <- S. split.
  - intros H g A B M EA EB. rewrite EA in EB. apply Ret_inj in EB. injection EB as <-. apply (H g A M EA).
  - intros H g A M EA. apply (H g A A M EA EA).
Qed.

Section Count.
Context {T : Type}.
Variable irr : list Z -> res (girrep T).
Definition matches (x : girrep T) (outs : list (girrep T)) : nat := list_sum (map (fun y => if list_eq_dec Z.eq_dec (gi_id y) (gi_id x) then gi_sosc x else 0%nat) outs).
Lemma out_count : forall x i outs j l, hom_out x i outs j = Ret l -> length l = matches x outs.
Proof.
  intros x i outs. induction outs as [|y outs IH]; intros j l E; cbn [hom_out] in E; [apply Ret_inj in E; subst; reflexivity|]. unfold matches. cbn [map list_sum fold_right]. fold (list_sum (map (fun y => if list_eq_dec Z.eq_dec (gi_id y) (gi_id x) then gi_sosc x else 0%nat) outs)). fold (matches x outs).
  destruct (list_eq_dec Z.eq_dec (gi_id y) (gi_id x)).
  - destruct (Nat.eqb_spec (length (gi_endo x)) (gi_sosc x)) as [Q|Q]; [|discriminate]. cbn [assert_ bind] in E. destruct (hom_out x i outs (j + gi_size y)) as [|l'] eqn:E'; [discriminate|]. cbn [bind] in E. apply Ret_inj in E. subst l.
    rewrite app_length, map_length, Q, (IH _ _ E'). reflexivity.
  - cbn [bind] in E. destruct (hom_out x i outs (j + gi_size y)) as [|l'] eqn:E'; [discriminate|]. cbn [bind app] in E. apply Ret_inj in E. subst l. exact (IH _ _ E').
Qed.
Lemma in_count : forall outs ins i l, hom_in ins i outs = Ret l -> length l = list_sum (map (fun x => matches x outs) ins).
Proof.
  intros outs. induction ins as [|x ins IH]; intros i l E; cbn [hom_in] in E; [apply Ret_inj in E; subst; reflexivity|].
  destruct (hom_out x i outs 0) as [|l1] eqn:E1; [discriminate|]. cbn [bind] in E. destruct (hom_in ins (i + gi_size x) outs) as [|l2] eqn:E2; [discriminate|]. cbn [bind] in E. apply Ret_inj in E. subst l.
  rewrite app_length, (out_count _ _ _ _ _ E1), (IH _ _ E2). reflexivity.
Qed.
Theorem hom_count : forall r1 r2 l ins outs, mapM irr (r_irreps r1) = Ret ins -> mapM irr (r_irreps r2) = Ret outs -> homomorphism_space irr r1 r2 = Ret l ->
  length l = list_sum (map (fun x => list_sum (map (fun y => if list_eq_dec Z.eq_dec (gi_id y) (gi_id x) then gi_sosc x else 0%nat) outs)) ins).
Proof.
  intros r1 r2 l ins outs E1 E2 E. unfold homomorphism_space in E. rewrite E1, E2 in E. cbn [bind] in E. destruct (hom_in ins 0 outs) as [|l'] eqn:E'; [discriminate|]. cbn [bind] in E. apply Ret_inj in E. subst l.
  rewrite map_length. exact (in_count _ _ _ _ E').
Qed.
End Count.

(** disjoint representations have no intertwiners *)
Theorem planar_no_hom : forall G r1 r2, pvalid G -> planar_repr G r1 -> planar_repr G r2 -> (forall id, In id (r_irreps r1) -> In id (r_irreps r2) -> False) ->
  homomorphism_space (p_irr G) r1 r2 = Ret [] /\ forall X, intertwines (pmember G) (r_size r1) (r_size r2) (r_fun r1) (r_fun r2) X -> meq (r_size r2) (r_size r1) X mzero.
Proof.
  intros G r1 r2 HG H1 H2 D. destruct (planar_hom_basis G r1 r2 HG H1 H2) as (l & E & S & _). destruct H1 as (_ & A1 & (ins & Ei & _) & _), H2 as (_ & A2 & (outs & Eo & _) & _).
  pose proof (hom_count _ _ _ _ _ _ Ei Eo E) as L.
  assert (forall ids xs, Forall (irrep_ok G) ids -> mapM (p_irr G) ids = Ret xs -> forall x, In x xs -> In (gi_id x) ids) as K.
  { clear -HG. induction ids as [|id ids IH]; intros xs F E x Hx; cbn [mapM] in E; [apply Ret_inj in E; subst; destruct Hx|]. inversion F as [|? ? O F']; subst.
    destruct (p_irr G id) as [|y] eqn:Ey; [discriminate|]. cbn [bind] in E. destruct (mapM (p_irr G) ids) as [|ys] eqn:Es; [discriminate|]. cbn [bind] in E. apply Ret_inj in E. subst xs.
    destruct Hx as [<-|Hx]; [left; symmetry; exact (planar_ids G id y HG O Ey)|right; exact (IH ys F' eq_refl x Hx)]. }
  assert (length l = 0%nat) as Z.
  { rewrite L. clear L. assert (forall (f : girrep pval -> nat) xs, (forall x, In x xs -> f x = 0%nat) -> list_sum (map f xs) = 0%nat) as Zs.
    { clear. intros f. induction xs as [|x xs IH]; intros H; [reflexivity|]. cbn [map list_sum fold_right]. rewrite (H x (or_introl eq_refl)). apply IH. intros y Hy. apply H. right; exact Hy. }
    apply Zs. intros x Hx. apply Zs. intros y Hy. destruct (list_eq_dec Z.eq_dec (gi_id y) (gi_id x)) as [Q|Q]; [|reflexivity]. exfalso. apply (D (gi_id x)); [exact (K _ _ A1 Ei x Hx)|]. rewrite <- Q. exact (K _ _ A2 Eo y Hy). }
  destruct l; [|discriminate]. split; [exact E|]. intros X HX. apply S in HX. destruct HX as ([|c cs] & Lc & M); [exact M|discriminate].
Qed.

(** *** a representation of C_4 with a repeated irrep of complex type, in another basis *)
Definition skew : mat := fun i j => if Nat.eqb i j then 1 else if Nat.eqb i 0 && Nat.eqb j 3 then 1 else 0.
Definition unskew : mat := fun i j => if Nat.eqb i j then 1 else if Nat.eqb i 0 && Nat.eqb j 3 then -1 else 0.
Lemma skew_inverse : inverse_of 5 skew unskew.
Proof. split; intros i j Hi Hj; do 5 (destruct i as [|i]; [do 5 (destruct j as [|j]; [unfold mmul, skew, unskew, mid; cbn; ring|]); lia|]); lia. Qed.
Lemma twice : forall linv, correct_inverse linv -> exists r, mk_repr (p_irr (Fin (Cyc 4))) linv [[0%Z]; [1%Z]; [1%Z]] 5 skew (Some unskew) = Ret r /\ planar_repr (Fin (Cyc 4)) r /\ r_cob r = skew /\
  exists l, repr_endomorphisms (p_irr (Fin (Cyc 4))) r = Ret l /\ length l = 9%nat.
Proof.
  intros linv Hl. assert (Forall (irrep_ok (Fin (Cyc 4))) [[0%Z]; [1%Z]; [1%Z]]) as F by (repeat apply Forall_cons; cbn; try lia; constructor).
  assert (total_size (p_irr (Fin (Cyc 4))) [[0%Z]; [1%Z]; [1%Z]] 5) as Ts by (eexists; split; [reflexivity|reflexivity]).
  destruct (mk_repr_reproduces (p_irr (Fin (Cyc 4))) (pmember (Fin (Cyc 4))) (pmul (Fin (Cyc 4))) (pid (Fin (Cyc 4))) linv Hl [[0%Z]; [1%Z]; [1%Z]] 5 skew (Some unskew)) as (r & E & Sr & Ir & Cr & _ & Rr).
  1: exact (p_irr_list (Fin (Cyc 4)) _ eq_refl F).
  1: discriminate.
  1: exact Ts.
  1: exact skew_inverse.
  1: { right. destruct (allclose 5 5 skew mid) eqn:Q; [|reflexivity]. exfalso. apply allclose_true with (i := 0%nat) (j := 3%nat) in Q; [|lia|lia].
       unfold np_isclose, skew, mid in Q. cbn [Nat.eqb andb] in Q. apply Rleb_true in Q. rewrite Rminus_0_r, Rabs_R1, Rabs_R0 in Q. lra. }
  exists r. split; [exact E|].
  assert (planar_repr (Fin (Cyc 4)) r) as Pr by (split; [rewrite Ir; discriminate|split; [rewrite Ir; exact F|split; [rewrite Ir, Sr; exact Ts|exact Rr]]]).
  split; [exact Pr|]. split; [exact Cr|]. destruct (planar_endo_basis (Fin (Cyc 4)) r eq_refl Pr) as (l & El & _). exists l. split; [exact El|]. rewrite endo_hom in El.
  assert (exists ins, mapM (p_irr (Fin (Cyc 4))) (r_irreps r) = Ret ins) as (ins & Ei) by (rewrite Ir; eexists; reflexivity).
  rewrite (hom_count _ _ _ _ _ _ Ei Ei El). rewrite Ir in Ei. cbn in Ei. apply Ret_inj in Ei. subst ins. reflexivity.
Qed.
Lemma apart : exists x y, p_irr O2 [0%Z; 0%Z] = Ret x /\ p_irr O2 [1%Z; 2%Z] = Ret y /\ planar_repr O2 (repr_of_irrep x) /\ planar_repr O2 (repr_of_irrep y) /\
  (forall id, In id (r_irreps (repr_of_irrep x)) -> In id (r_irreps (repr_of_irrep y)) -> False).
Proof.
  destruct (p_irr O2 [0%Z; 0%Z]) as [|x] eqn:Ex; [discriminate|]. destruct (p_irr O2 [1%Z; 2%Z]) as [|y] eqn:Ey; [discriminate|]. exists x, y. split; [reflexivity|]. split; [reflexivity|].
  assert (irrep_ok O2 [0%Z; 0%Z]) as I1 by (cbn; lia). assert (irrep_ok O2 [1%Z; 2%Z]) as I2 by (cbn; lia).
  split; [exact (planar_irrep_repr O2 _ x I I1 Ex)|]. split; [exact (planar_irrep_repr O2 _ y I I2 Ey)|]. cbn [repr_of_irrep r_irreps]. rewrite (planar_ids O2 _ x I I1 Ex), (planar_ids O2 _ y I I2 Ey). intros id [<-|[]] [Q|[]]. discriminate Q.
Qed.
