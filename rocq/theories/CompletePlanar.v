(** Linear layers for C_N and SO(2) reach every equivariant matrix. *)
From Coq Require Import String.
From Coq Require Import Reals ZArith Bool List Arith Lia Lra Permutation.
From Verif Require Import LibRes LibMat LibMatS FieldModel FinGroupModel PlanarModel SpecPlanar PlanarProofs IrrepModel SpecRep SpecIrrep IrrepProofs IrrepThms RepModel SpecRepr KernelModel SpecKernel KernelPlanar KernelPoint
  IndPlanar PolarModel BlocksModel SpecBlocks LayerModel SpecLayer GridModel ImageModel SpecRdConv RdConvModel RdConvThms SeqModel ExportModel LinearModel StateThms StateCor SpecComplete SpecLinear CompleteThms CompleteCor CompleteLinear.
Import ListNotations.
Open Scope R_scope.

(** ** The shapes of the attributes *)
Section Shapes.
Context {T B P : Type}.
Variable irr : list Z -> res (girrep T).
Variable gen : list Z -> list Z -> res (option (ibasis T B)).
Lemma out_pairs_from : forall i ii ip os oo op l, out_pairs irr gen ii ip i oo op os = Ret l ->
  Forall (fun q => exists o, In o os /\ gen i o = Ret (Some (sp_b q))) l.
Proof.
  intros i ii ip. induction os as [|o os IH]; intros oo op l H; cbn [out_pairs] in H; [apply Ret_inj in H; subst l; constructor|].
  apply bind_Ret in H as (b & Eb & H). apply bind_Ret in H as (ro & Er & H). apply bind_Ret in H as (l' & El & H). apply Ret_inj in H.
  assert (Forall (fun q => exists o', In o' (o :: os) /\ gen i o' = Ret (Some (sp_b q))) l') as Fl.
  { eapply Forall_impl; [|exact (IH _ _ _ El)]. intros q (o' & I & E). exists o'. split; [right; exact I|exact E]. }
  subst l. destruct b as [b|]; [|exact Fl]. constructor; [|exact Fl]. exists o. split; [left; reflexivity|exact Eb].
Qed.
Lemma in_pairs_from : forall os is ii ip l, in_pairs irr gen ii ip is os = Ret l ->
  Forall (fun q => exists i o, In o os /\ gen i o = Ret (Some (sp_b q))) l.
Proof.
  intros os. induction is as [|i is IH]; intros ii ip l H; cbn [in_pairs] in H; [apply Ret_inj in H; subst l; constructor|].
  apply bind_Ret in H as (l1 & E1 & H). apply bind_Ret in H as (ri & Er & H). apply bind_Ret in H as (l2 & E2 & H). apply Ret_inj in H. subst l.
  apply Forall_app. split; [|exact (IH _ _ _ E2)]. eapply Forall_impl; [|exact (out_pairs_from _ _ _ _ _ _ _ E1)]. intros q H. exists i. exact H.
Qed.
End Shapes.
Lemma we_out : forall {T P B} (irr : list Z -> res (girrep T)) tpi cg (F : filters P B) i o b, mk_we irr tpi cg F i o = Ret (Some b) -> irr o = Ret (b_out b).
Proof.
  intros T P B irr tpi cg F i o b H. unfold mk_we in H. apply bind_Ret in H as (ri & _ & H). apply bind_Ret in H as (ro & Eo & H). apply bind_Ret in H as (tj & _ & H). cbv zeta in H.
  apply bind_Ret in H as (dh & _ & H). destruct (Nat.eqb _ 0); [discriminate|]. apply bind_Ret in H as (co & _ & H). apply Ret_inj in H. injection H as <-. exact Eo.
Qed.
Lemma concatM_In : forall {A B} (f : A -> res (list B)) l out y, concatM f l = Ret out -> In y out -> exists a r, In a l /\ f a = Ret r /\ In y r.
Proof.
  intros A B f. induction l as [|a l IH]; intros out y H I; cbn [concatM] in H; [apply Ret_inj in H; subst out; destruct I|].
  apply bind_Ret in H as (x & Ex & H). apply bind_Ret in H as (z & Ez & H). apply Ret_inj in H. subst out. apply in_app_iff in I. destruct I as [I|I].
  - exists a, x. split; [left; reflexivity|]. auto.
  - destruct (IH z y Ez I) as (a' & r & J & E & K). exists a', r. split; [right; exact J|]. auto.
Qed.
Lemma enumerate_snd : forall {A} (l : list A) x, In x (enumerate l) -> In (snd x) l.
Proof. intros A l [n a] H. unfold enumerate in H. apply in_combine_r in H. exact H. Qed.
Lemma iter_pair : forall {T B} (k : skbasis T B) attrs a, sk_iter k = Ret attrs -> In a attrs -> exists q, In q (sk_pairs k) /\ fst (sa_shape a) = gi_size (b_out (sp_b q)).
Proof.
  intros T B k attrs a H I. unfold sk_iter in H. apply bind_Ret in H as (l & El & H). apply assert_Ret in H as (_ & H). apply Ret_inj in H. subst attrs.
  apply in_map_iff in I. destruct I as ([idx [j [ji [q x]]]] & <- & I). apply enumerate_snd in I. cbn [snd] in I.
  destruct (concatM_In _ _ _ _ El I) as (j' & r & _ & Er & J). cbv beta in Er. apply bind_Ret in Er as (l2 & E2 & Er). apply Ret_inj in Er. subst r.
  apply in_map_iff in J. destruct J as ([ji' [q' x']] & E & J). injection E as -> -> -> ->. apply enumerate_snd in J. cbn [snd] in J.
  destruct (concatM_In _ _ _ _ E2 J) as (q2 & r2 & Iq & Er2 & J2). cbv beta in Er2. apply bind_Ret in Er2 as (xs & _ & Er2). apply Ret_inj in Er2. subst r2.
  apply in_map_iff in J2. destruct J2 as (x2 & E & _). injection E as -> ->. exists q. split; [exact Iq|reflexivity].
Qed.

Lemma filter_all : forall {Y} (f : Y -> bool) l, (forall y, In y l -> f y = true) -> filter f l = l.
Proof. intros Y f l. induction l as [|y l IH]; intros H; [reflexivity|]. cbn [filter]. rewrite (H y (or_introl eq_refl)), IH; [reflexivity|]. intros z Iz. apply H. right. exact Iz. Qed.

(** ** Scaling the elements of a basis *)
Lemma basis_scaled : forall V no ni d S S' (c : nat -> R), basis_of V no ni d S -> (forall X Y, meq no ni X Y -> V X -> V Y) ->
  (forall X s, V X -> V (fun a b => X a b * s)) ->
  (forall t, (t < d)%nat -> c t <> 0 /\ meq no ni (S' t) (fun a b => S t a b * c t)) -> basis_of V no ni d S'.
Proof.
  intros V no ni d S S' c (B1 & B2 & B3) Ve Vs H. split; [|split].
  - intros t Lt. destruct (H t Lt) as (_ & E). apply (Ve (fun a b => S t a b * c t)); [symmetry; exact E|]. apply Vs, B1, Lt.
  - intros X HX. destruct (B2 X HX) as (w & Hw). exists (fun t => w t / c t). intros a b La Lb. rewrite (Hw a b La Lb). unfold combination. apply sumn_ext; intros t Lt.
    destruct (H t Lt) as (Nz & E). rewrite (E a b La Lb). field. exact Nz.
  - intros w Hw t Lt. assert (w t * c t = 0) as Z.
    { apply (B3 (fun t => w t * c t)); [|exact Lt]. intros a b La Lb. rewrite <- (Hw a b La Lb). unfold combination. apply sumn_ext; intros s Ls.
      destruct (H s Ls) as (_ & E). rewrite (E a b La Lb). ring. }
    destruct (H t Lt) as (Nz & _). apply Rmult_integral in Z. tauto.
Qed.
Lemma intertwiner_ext : forall {T} (mem : T -> Prop) no rout ni rin X Y, meq no ni X Y -> intertwiner mem no rout ni rin X -> intertwiner mem no rout ni rin Y.
Proof. intros T mem no rout ni rin X Y E H g A B Hg EA EB. rewrite <- E. exact (H g A B Hg EA EB). Qed.
Lemma intertwiner_scal : forall {T} (mem : T -> Prop) no rout ni rin X s, intertwiner mem no rout ni rin X -> intertwiner mem no rout ni rin (fun a b => X a b * s).
Proof.
  intros T mem no rout ni rin X s H g A B Hg EA EB a b La Lb. pose proof (H g A B Hg EA EB a b La Lb) as E. unfold mmul in *.
  rewrite (sumn_ext no _ (fun k => A a k * X k b * s)) by (intros; ring). rewrite (sumn_ext ni _ (fun k => X a k * B k b * s)) by (intros; ring).
  rewrite !sumn_scal_r, E. reflexivity.
Qed.
Lemma inverse_orthogonal : forall n Q Qi, inverse_of n Q Qi -> orthogonal n Q -> orthogonal n Qi.
Proof.
  intros n Q Qi [I1 I2] [O1 O2]. assert (meq n n Qi (mtr Q)) as E.
  { transitivity (mmul n Qi (mmul n Q (mtr Q))); [rewrite O1, mid_r; reflexivity|]. rewrite <- (mul_assoc n n n n), I2, mid_l. reflexivity. }
  assert (meq n n (mtr Qi) Q) as E' by (intros a b La Lb; unfold mtr; rewrite (E b a Lb La); reflexivity).
  split; rewrite E'; [exact I2|exact I1].
Qed.

Section Rotations.
Context {A : Type}.
Variable rep : A -> repr pval.
Variable name : A -> string.
Variable aeqb : A -> A -> bool.
Variable order : list A -> list A.
Variable sort : list (string * string) -> list (string * string).
Hypothesis aeqb_ok : forall a b, aeqb a b = true <-> a = b.
Hypothesis order_ok : forall l, Permutation (order l) l.
Hypothesis sort_ok : forall l, Permutation (sort l) l.
Variable G : pgrp.
Hypothesis HG : pvalid G.
Hypothesis HR : rotations G.
Notation gen := (point_generator rep (p_irr G) (p_tensor G) (p_cg G) (p_trivial_id G)).
Notation els := (elements_of 1 gen None).

Lemma point_kb : forall i o, planar_repr G (rep i) -> planar_repr G (rep o) -> sharp (r_size (rep i)) (r_inv (rep i)) -> sharp (r_size (rep o)) (r_cob (rep o)) ->
  let no := r_size (rep o) in let ni := r_size (rep i) in
  let V := intertwiner (pmember G) no (r_fun (rep o)) ni (r_fun (rep i)) in
  exists r, gen i o = Ret r /\ match r with
  | None => forall X, V X -> meq no ni X mzero
  | Some kb => kb_out kb = no /\ kb_in kb = ni /\ exists S E, basis_of V no ni (length (kb_elements kb)) S /\
      forall t el, nth_error (kb_elements kb) t = Some el -> el_sample el = (fun a b q => nth q [S t] mzero a b) /\ (el_dim el = 1%nat \/ el_dim el = 2%nat) /\
        square_sum no ni (E t) = 1 /\ meq no ni (S t) (mmul ni (mmul no (r_cob (rep o)) (E t)) (r_inv (rep i)))
  end.
Proof.
  intros i o Pi Po Si So no ni V.
  destruct (rotations_point_basis G HG HR point (rep i) (rep o) Pi Po Si So) as (ob & Eo & H). fold no ni in H. cbv zeta in H.
  destruct (rotations_on_point point G (rep i) (rep o) HG HR Pi Po Si So) as (ob' & Eo' & Hat). rewrite Eo in Eo'. apply Ret_inj in Eo'. subst ob'.
  fold V in H. destruct ob as [k|].
  2:{ exists None. split; [unfold point_generator; rewrite triv0, Eo by assumption; reflexivity|exact H]. }
  destruct (Hat k eq_refl) as (_ & attrs & Eit & La & _). destruct (H (0, 0)) as (S & ES & Ba & E0 & HE).
  assert (Sz : sk_size_out k = no /\ sk_size_in k = ni).
  { unfold kernels_on_point, mk_skb in Eo. apply bind_Ret in Eo as (ps & _ & Eo). destruct (Nat.eqb _ 0); [discriminate|]. apply Ret_inj in Eo. injection Eo as <-. split; reflexivity. }
  assert (Sh : forall a, In a attrs -> fst (sa_shape a) = 1%nat \/ fst (sa_shape a) = 2%nat).
  { intros a Ia. destruct (iter_pair k attrs a Eit Ia) as (q & Iq & ->).
    assert (exists i' o', In o' (r_irreps (rep o)) /\ mk_we (p_irr G) (p_tensor G) (p_cg G) (point_filters point [0%Z]) i' o' = Ret (Some (sp_b q))) as (i' & o' & Io & Eq).
    { unfold kernels_on_point, mk_skb in Eo. apply bind_Ret in Eo as (ps & Ep & Eo). destruct (Nat.eqb _ 0); [discriminate|]. apply Ret_inj in Eo. injection Eo as <-.
      cbn [sk_pairs] in Iq. pose proof (in_pairs_from _ _ _ _ _ _ _ Ep) as F. rewrite Forall_forall in F. exact (F q Iq). }
    apply we_out in Eq. destruct Po as (_ & Ok & _). rewrite Forall_forall in Ok. destruct (p_irr_kind G o' _ HG (Ok o' Io) Eq) as (r & _ & -> & (_ & _ & Es & _)).
    cbn [girrep_of gi_size]. rewrite Es. destruct (irrep_kind G o'); [left|right]; reflexivity. }
  set (F := point_filters point [0%Z]) in *.
  set (mk := fun av : sattr unit * list mat => {| el_attr := {| at_in := sa_ii (fst av); at_out := sa_oo (fst av); at_id := sa_idx (fst av); at_rest := fst av |};
     el_dim := fst (sa_shape (fst av)); el_sample := fun o i q => nth q (snd av) mzero o i |}).
  set (kb := {| kb_out := no; kb_in := ni; kb_elements := map mk (List.combine attrs (map (fun t => [S t]) (seq 0 (sk_dim k)))) |}).
  assert (gen i o = Ret (Some kb)) as Eg.
  { unfold point_generator. rewrite triv0 by assumption. rewrite Eo. cbn [bind]. unfold sampled. rewrite Eit. cbn [bind].
    rewrite (mapM_Ret_map _ _ _ (fun t => [S t]) (seq 0 (sk_dim k))).
    - cbn [bind]. destruct Sz as [-> ->]. reflexivity.
    - intros t It. apply in_seq in It. cbn [mapM]. fold F. rewrite (ES t ltac:(lia)). reflexivity. }
  assert (length (kb_elements kb) = sk_dim k) as Lk.
  { cbn [kb kb_elements]. rewrite map_length, combine_length, map_length, seq_length, La. apply Nat.min_id. }
  exists (Some kb). split; [exact Eg|]. split; [reflexivity|]. split; [reflexivity|]. exists S, E0. rewrite Lk. split; [exact Ba|].
  intros t el Et. assert (Lt : (t < sk_dim k)%nat) by (rewrite <- Lk; apply nth_error_Some; congruence).
  cbn [kb kb_elements] in Et. rewrite nth_error_map in Et. destruct (nth_error (List.combine attrs (map (fun t => [S t]) (seq 0 (sk_dim k)))) t) as [av|] eqn:Ec; [|discriminate].
  injection Et as <-. destruct (HE t Lt) as (U & ME). split; [|split; [|split; [exact U|exact ME]]].
  - cbn [mk el_sample]. assert (snd av = [S t]) as ->; [|reflexivity].
    apply nth_error_nth with (d := (fst av, [S 0%nat])) in Ec. rewrite combine_nth in Ec by (rewrite map_length, seq_length; exact La).
    rewrite <- Ec. cbn [snd]. rewrite (map_nth (fun t => [S t]) (seq 0 (sk_dim k)) 0%nat t), seq_nth by exact Lt. reflexivity.
  - cbn [mk el_dim]. apply Sh. apply nth_error_In in Ec. destruct av as [a v]. exact (in_combine_l _ _ _ _ Ec).
Qed.
Lemma sample_energy : forall no ni (X : mat), energy 1 no ni (fun a b q => nth q [X] mzero a b) = square_sum no ni X.
Proof. intros no ni X. unfold energy, square_sum. apply sumn_ext; intros a _. apply sumn_ext; intros b _. cbn [sumn nth]. ring. Qed.

Lemma point_full : forall i o, planar_repr G (rep i) -> planar_repr G (rep o) -> sharp (r_size (rep i)) (r_inv (rep i)) -> sharp (r_size (rep o)) (r_cob (rep o)) ->
  orthogonal (r_size (rep i)) (r_cob (rep i)) -> orthogonal (r_size (rep o)) (r_cob (rep o)) ->
  basis_of (intertwiner (pmember G) (asize rep o) (r_fun (rep o)) (asize rep i) (r_fun (rep i))) (asize rep o) (asize rep i) (length (els i o)) (nth_sample gen i o).
Proof.
  intros i o Pi Po Si So Qi Qo. unfold asize.
  assert (orthogonal (r_size (rep i)) (r_inv (rep i))) as Qi'.
  { destruct Pi as (_ & _ & _ & (I & _)). exact (inverse_orthogonal _ _ _ I Qi). }
  destruct (point_kb i o Pi Po Si So) as (r & Eg & H). cbv zeta in H. set (no := r_size (rep o)) in *. set (ni := r_size (rep i)) in *.
  set (V := intertwiner (pmember G) no (r_fun (rep o)) ni (r_fun (rep i))) in *.
  destruct r as [kb|].
  2:{ assert (els i o = []) as -> by (unfold elements_of; rewrite Eg; reflexivity). cbn [length].
      split; [intros t L; lia|]. split; [|intros w _ t L; lia]. intros X HX. exists (fun _ => 0). rewrite (H X HX). intros a b _ _. reflexivity. }
  destruct H as (Ko & Ki & S & E & Ba & HS).
  assert (forall t el, nth_error (kb_elements kb) t = Some el -> accepted 1 None kb el = true /\ unit_scale 1 no ni (el_dim el) (el_sample el) <> 0) as Acc.
  { intros t el Et. destruct (HS t el Et) as (Es & Ed & U & ME).
    assert (En : energy 1 no ni (el_sample el) = 1).
    { rewrite Es, sample_energy, (square_sum_ext no ni _ _ ME), square_sum_orth_r, square_sum_orth_l by assumption. exact U. }
    assert (Pd : 0 < INR (el_dim el)) by (destruct Ed as [-> | ->]; cbn; lra).
    assert (Us : unit_scale 1 no ni (el_dim el) (el_sample el) = sqrt (/ INR (el_dim el))).
    { unfold unit_scale. rewrite En. replace (1 / INR (el_dim el)) with (/ INR (el_dim el)) by (unfold Rdiv; ring).
      destruct (Rlt_dec (/ INR (el_dim el)) (1 / 10 ^ 12)) as [Q|Q]; [exfalso; revert Q; destruct Ed as [-> | ->]; cbn; lra|reflexivity]. }
    assert (Ps : 0 < sqrt (/ INR (el_dim el))) by (apply sqrt_lt_R0, Rinv_0_lt_compat, Pd).
    split; [|rewrite Us; lra]. unfold accepted. cbn [andb].
    assert (energy 1 (kb_out kb) (kb_in kb) (unit_sample 1 kb el) = INR (el_dim el)) as ->.
    { unfold energy, unit_sample. rewrite Ko, Ki, Us.
      transitivity (energy 1 no ni (el_sample el) * INR (el_dim el)).
      - unfold energy. rewrite <- sumn_scal_r. apply sumn_ext; intros a _. rewrite <- sumn_scal_r. apply sumn_ext; intros b _. rewrite <- sumn_scal_r. apply sumn_ext; intros q _.
        set (x := el_sample el a b q). set (s := sqrt (/ INR (el_dim el))) in *. assert (s * s = / INR (el_dim el)) as SS by (apply sqrt_sqrt; left; apply Rinv_0_lt_compat, Pd).
        assert (INR (el_dim el) = / (s * s)) as -> by (rewrite SS, Rinv_inv; reflexivity). field. lra.
      - rewrite En. ring. }
    destruct (Rlt_dec (1 / 100) (INR (el_dim el))) as [Q|Q]; [reflexivity|exfalso; apply Q; destruct Ed as [-> | ->]; cbn; lra]. }
  assert (els i o = map (fun el => (el_attr el, unit_sample 1 kb el)) (kb_elements kb)) as Ee.
  { unfold elements_of. rewrite Eg. unfold kept. f_equal. apply filter_all. intros el Iel. apply In_nth_error in Iel. destruct Iel as (t & Et). exact (proj1 (Acc t el Et)). }
  rewrite Ee, map_length.
  apply (basis_scaled V no ni _ S _ (fun t => match nth_error (kb_elements kb) t with Some el => / unit_scale 1 no ni (el_dim el) (el_sample el) | None => 0 end) Ba).
  - intros X Y. apply intertwiner_ext.
  - intros X s. apply intertwiner_scal.
  - intros t Lt. destruct (nth_error (kb_elements kb) t) as [el|] eqn:El; [|apply nth_error_None in El; lia].
    destruct (Acc t el El) as (_ & Nz). split; [apply Rinv_neq_0_compat; exact Nz|].
    intros a b _ _. unfold nth_sample. rewrite Ee, nth_error_map, El. cbn [option_map]. unfold unit_sample. rewrite Ko, Ki.
    destruct (HS t el El) as (Es & _). unfold Rdiv. f_equal. rewrite Es. reflexivity.
Qed.
Variables ins outs : list A.
Hypothesis Pin : Forall (fun a => planar_repr G (rep a) /\ sharp (r_size (rep a)) (r_inv (rep a)) /\ orthogonal (r_size (rep a)) (r_cob (rep a))) ins.
Hypothesis Pout : Forall (fun a => planar_repr G (rep a) /\ sharp (r_size (rep a)) (r_cob (rep a)) /\ orthogonal (r_size (rep a)) (r_cob (rep a))) outs.
Hypothesis Nin : told_apart name ins.
Hypothesis Nout : told_apart name outs.

Theorem rotations_linear_complete : forall bias c, mk_linear rep name aeqb order sort (p_irr G) (p_trivial_id G) gen ins outs bias = Ret c ->
  (forall w f, length (fst w) = bb_dim (ll_expansion c) -> linear_expand rep name c w = Ret f -> equivariant_matrix rep (pmember G) ins outs (fun r q => entry (fst f) [r; q])) /\
  (forall W, equivariant_matrix rep (pmember G) ins outs W -> exists w, length w = bb_dim (ll_expansion c) /\
     (forall v f, linear_expand rep name c (w, v) = Ret f ->
        forall r q, (r < type_size (asize rep) outs)%nat -> (q < type_size (asize rep) ins)%nat -> entry (fst f) [r; q] = W r q) /\
     (bb_dim (ll_expansion c) = 0%nat -> meq (type_size (asize rep) outs) (type_size (asize rep) ins) W mzero)) /\
  (forall w w' f f', length (fst w) = bb_dim (ll_expansion c) -> length (fst w') = bb_dim (ll_expansion c) ->
     linear_expand rep name c w = Ret f -> linear_expand rep name c w' = Ret f' ->
     (forall r q, (r < type_size (asize rep) outs)%nat -> (q < type_size (asize rep) ins)%nat -> entry (fst f) [r; q] = entry (fst f') [r; q]) -> fst w = fst w').
Proof.
  intros bias c Ec.
  assert (Pin' : Forall (fun a => planar_repr G (rep a) /\ sharp (r_size (rep a)) (r_inv (rep a))) ins) by (eapply Forall_impl; [|exact Pin]; intros a (H1 & H2 & _); auto).
  assert (Pout' : Forall (fun a => planar_repr G (rep a) /\ sharp (r_size (rep a)) (r_cob (rep a))) outs) by (eapply Forall_impl; [|exact Pout]; intros a (H1 & H2 & _); auto).
  pose proof (proper_fields0 rep G HG ins outs Pin' Pout') as Pr.
  pose proof (point_shapes rep G HG HR ins outs Pin' Pout') as Gen.
  split.
  - intros w f Lw Ew g P Q Hg EP EQ. unfold mk_linear in Ec. apply bind_Ret in Ec as (mb & Em & Ec). apply bind_Ret in Ec as (bl & Ebl & Ec). apply Ret_inj in Ec. subst c. cbn [ll_expansion] in *.
    unfold linear_expand in Ew. cbn [ll_expansion ll_bias ll_in ll_out] in Ew. apply bind_Ret in Ew as (F & EF & Ew). apply Ret_inj in Ew. subst f. cbn [fst].
    rewrite (fiber_matrix_ok rep outs g (values rep (p_irr G) (pmember G) (pmul G) (pid G) ins outs Pr g Hg outs (fun x H => in_or_app _ _ _ (or_intror H)))) in EP.
    rewrite (fiber_matrix_ok rep ins g (values rep (p_irr G) (pmember G) (pmul G) (pid G) ins outs Pr g Hg ins (fun x H => in_or_app _ _ _ (or_introl H)))) in EQ.
    apply Ret_inj in EP. apply Ret_inj in EQ. subst P Q. symmetry.
    refine (linear_filter rep name aeqb order sort gen aeqb_ok order_ok sort_ok (p_irr G) (pmember G) (pmul G) (pid G) ins outs Pr Nin Nout Gen g no_info Hg _ bl (fst w) F Ebl Lw EF).
    intros i o kb el Bi Bo Hi Ho Eg He Ei Eo. rewrite Forall_forall in Pin', Pout'. destruct (Pin' i Hi) as [Pi Si]. destruct (Pout' o Ho) as [Po So].
    destruct (point_works rep G HG HR i o Pi Po Si So) as (r & Er & H). rewrite Eg in Er. apply Ret_inj in Er. subst r. destruct (H kb eq_refl) as (_ & _ & K).
    destruct (K el He g Hg) as (Bi' & Bo' & E1 & E2 & MK). rewrite Ei in E1. rewrite Eo in E2. apply Ret_inj in E1. apply Ret_inj in E2. injection E1 as <-. injection E2 as <-. exact MK.
  - revert bias c Ec. apply (linear_complete rep name aeqb order sort gen aeqb_ok order_ok sort_ok (p_irr G) (pmember G) (pmul G) (pid G) (p_trivial_id G) ins outs); try assumption.
    + intros i o Hi Ho. rewrite Forall_forall in Pin, Pout. destruct (Pin i Hi) as (P1 & P2 & P3). destruct (Pout o Ho) as (Q1 & Q2 & Q3).
      apply (point_full i o); assumption.
    + exact no_info.
Qed.
End Rotations.
