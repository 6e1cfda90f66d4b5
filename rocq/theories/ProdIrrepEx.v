(** The list of irreps of a product, and products of planar groups. *)
From Coq Require Import Reals ZArith List Lia Lra Bool Arith.
From Verif Require Import LibRes LibList LibMat LibMatS SpecGroup SpecRep FinGroupModel SpecFinGroup FinGroupProofs ProdModel ProdProofs SpecProd
  ParamModel PlanarModel SpecPlanar PlanarProofs IrrepModel SpecIrrep IrrepProofs IrrepThms EndoProofs ExhaustProofs RepModel RegThms SpecSchur SchurProofs IndPlanar
  ProdIrrepModel SpecProdIrrep ProdIrrepProofs ProdIrrepThms ProdIrrepCor ProdIrrepFin ProdIrrepDis.
Import ListNotations.
Open Scope R_scope.

Section List.
Context {V1 V2 : Type} (G1 : gobj V1) (G2 : gobj V2).
Let P := prod_grp G1 G2.
Hypothesis HG1 : is_group (el_mem G1) (el_mul G1) (el_inv G1) (el_one G1).
Hypothesis HG2 : is_group (el_mem G2) (el_mul G2) (el_inv G2) (el_one G2).

Definition both_TC (psi1 : oirrep V1) (psi2 : oirrep V2) : bool := is_TC (oi_type psi1) && is_TC (oi_type psi2).

Definition cells (psi1 : oirrep V1) (psi2 : oirrep V2) : list (oirrep (V1 * V2)) :=
  build G1 G2 (oi_id psi1) (oi_id psi2) psi1 psi2 0 ::
  (if both_TC psi1 psi2 then [build G1 G2 (oi_id psi1) (oi_id psi2) psi1 psi2 1] else []).

Definition table (l1 : list (oirrep V1)) (l2 : list (oirrep V2)) := flat_map (fun psi1 => flat_map (cells psi1) l2) l1.

Lemma not_TH : forall V (G : gobj V) r, good_irrep G r -> oi_type r <> TH.
Proof. intros V G r [_ _ F _ _] E; rewrite E in F; exact F. Qed.

Lemma mapM_app_Ret : forall A B (f : A -> res B) l m u v, mapM f l = Ret u -> mapM f m = Ret v -> mapM f (l ++ m) = Ret (u ++ v).
Proof.
  intros A B f l; induction l as [|x l IH]; intros m u v E F; cbn [app mapM] in *; [injection E as <-; exact F|].
  destruct (f x) as [|y]; cbn [bind] in *; [discriminate|]; destruct (mapM f l) as [|ys] eqn:Ey; cbn [bind] in E; [discriminate|].
  injection E as <-; rewrite (IH m ys v eq_refl F); reflexivity.
Qed.

Lemma mapM_flat_map : forall A B C (f : B -> res C) (g : A -> list B) (h : A -> list C) l,
  (forall x, In x l -> mapM f (g x) = Ret (h x)) -> mapM f (flat_map g l) = Ret (flat_map h l).
Proof.
  intros A B C f g h l; induction l as [|x l IH]; intros H; cbn [flat_map]; [reflexivity|].
  apply mapM_app_Ret; [apply H; left; reflexivity|apply IH; intros y Hy; apply H; right; exact Hy].
Qed.

Section Lists.
Variables (irr1 : iid -> res (oirrep V1)) (irr2 : iid -> res (oirrep V2)) (l1 : list (oirrep V1)) (l2 : list (oirrep V2)).
Hypothesis L1 : irrep_list G1 irr1 l1.
Hypothesis L2 : irrep_list G2 irr2 l2.

Lemma good1 : forall psi, In psi l1 -> good_irrep G1 psi /\ irr1 (oi_id psi) = Ret psi.
Proof. intros psi H; exact (proj1 (Forall_forall _ _) (proj1 L1) psi H). Qed.
Lemma good2 : forall psi, In psi l2 -> good_irrep G2 psi /\ irr2 (oi_id psi) = Ret psi.
Proof. intros psi H; exact (proj1 (Forall_forall _ _) (proj1 L2) psi H). Qed.

Lemma table_ok : prod_irreps G1 G2 irr1 irr2 l1 l2 = Ret (table l1 l2).
Proof.
  unfold prod_irreps, prod_ids, table; apply mapM_flat_map; intros psi1 I1; apply mapM_flat_map; intros psi2 I2.
  destruct (good1 psi1 I1) as [H1 E1], (good2 psi2 I2) as [H2 E2]; unfold cells, both_TC.
  destruct (is_TC (oi_type psi1) && is_TC (oi_type psi2)) eqn:T; cbn [mapM fst snd];
    rewrite (prod_irrep_build G1 G2 irr1 irr2 (oi_id psi1) (oi_id psi2) 0 psi1 psi2 E1 E2 (not_TH _ _ _ H1) (not_TH _ _ _ H2))
      by (unfold index_ok; rewrite T; auto); cbn [bind]; [|reflexivity].
  rewrite (prod_irrep_build G1 G2 irr1 irr2 (oi_id psi1) (oi_id psi2) 1 psi1 psi2 E1 E2 (not_TH _ _ _ H1) (not_TH _ _ _ H2))
      by (unfold index_ok; rewrite T; auto); reflexivity.
Qed.

Lemma in_cells : forall psi1 psi2 r, In r (cells psi1 psi2) -> exists i, index_ok psi1 psi2 i /\
  r = build G1 G2 (oi_id psi1) (oi_id psi2) psi1 psi2 i.
Proof.
  intros psi1 psi2 r; unfold cells, both_TC, index_ok; destruct (is_TC (oi_type psi1) && is_TC (oi_type psi2)).
  - intros [<-|[<-|[]]]; [exists 0%Z|exists 1%Z]; auto.
  - intros [<-|[]]; exists 0%Z; auto.
Qed.

Lemma table_list : irrep_list P (prod_irr G1 G2 irr1 irr2) (table l1 l2).
Proof.
  split.
  - apply Forall_forall; intros r Hr; apply in_flat_map in Hr as (psi1 & I1 & Hr); apply in_flat_map in Hr as (psi2 & I2 & Hr).
    destruct (good1 psi1 I1) as [H1 E1], (good2 psi2 I2) as [H2 E2]; apply in_cells in Hr as (i & Hi & ->).
    split; [apply (good_build G1 G2 HG1 HG2); assumption|]; cbn [build oi_id prod_irr].
    apply prod_irrep_build; try assumption; eapply not_TH; eassumption.
  - apply fop_flat_map.
    + intros psi1 I1; destruct (good1 psi1 I1) as [H1 _]; apply fop_flat_map.
      * intros psi2 I2; destruct (good2 psi2 I2) as [H2 _]; unfold cells, both_TC.
        destruct (oi_type psi1) eqn:T1, (oi_type psi2) eqn:T2; cbn [is_TC andb]; repeat constructor.
        apply (disjoint_conj G1 G2 HG1 HG2); assumption.
      * apply (fop_impl _ (disjoint_objs G2)); [exact (proj2 L2)|].
        intros x y Hx Hy D u v Hu Hv; apply in_cells in Hu as (i & _ & ->); apply in_cells in Hv as (j & _ & ->).
        apply (disjoint_second G1 G2 HG1); try assumption; try (apply good2; assumption).
    + apply (fop_impl _ (disjoint_objs G1)); [exact (proj2 L1)|].
      intros x y Hx Hy D u v Hu Hv; apply in_flat_map in Hu as (a & Ia & Hu); apply in_flat_map in Hv as (b & Ib & Hv).
      apply in_cells in Hu as (i & _ & ->); apply in_cells in Hv as (j & _ & ->).
      apply (disjoint_first G1 G2 HG2); try assumption; try (apply good2; assumption); try (apply good1; assumption).
Qed.

Lemma algebra_app : forall V (l m : list (oirrep V)), algebra_dim (l ++ m) = (algebra_dim l + algebra_dim m)%nat.
Proof. intros V l m; unfold algebra_dim; induction l as [|x l IH]; cbn [app map fold_right]; [reflexivity|rewrite IH; lia]. Qed.

Definition share {V} (r : oirrep V) : nat := (oi_size r * (oi_size r / oi_sosc r))%nat.

Lemma cells_dim : forall psi1 psi2, good_irrep G1 psi1 -> good_irrep G2 psi2 ->
  algebra_dim (cells psi1 psi2) = (share psi1 * share psi2)%nat.
Proof.
  intros psi1 psi2 H1 H2; unfold algebra_dim, cells, both_TC, share, oi_sosc, build.
  pose proof (not_TH _ _ _ H1) as N1; pose proof (not_TH _ _ _ H2) as N2.
  destruct (oi_type psi1) eqn:T1, (oi_type psi2) eqn:T2; try congruence; cbn [is_TR is_TC andb map fold_right oi_size oi_type].
  - rewrite !Nat.div_1_r; lia.
  - destruct (good_h _ _ _ H2 T2) as (h & _ & -> & _); rewrite half_prod, half2, !Nat.div_1_r; lia.
  - destruct (good_h _ _ _ H1 T1) as (h & _ & -> & _).
    replace (2 * h * oi_size psi2)%nat with (2 * (h * oi_size psi2))%nat by lia; rewrite !half2, !Nat.div_1_r; lia.
  - destruct (good_h _ _ _ H1 T1) as (h & _ & -> & _), (good_h _ _ _ H2 T2) as (k & _ & -> & _).
    rewrite half_prod; replace (2 * h * k)%nat with (2 * (h * k))%nat by lia; rewrite !half2; lia.
Qed.

Lemma table_dim : algebra_dim (table l1 l2) = (algebra_dim l1 * algebra_dim l2)%nat.
Proof.
  assert (R : forall psi1, good_irrep G1 psi1 -> forall l, (forall x, In x l -> good_irrep G2 x) ->
    algebra_dim (flat_map (cells psi1) l) = (share psi1 * algebra_dim l)%nat).
  { intros psi1 H1 l; induction l as [|x l IH]; intros H; cbn [flat_map]; [unfold algebra_dim; cbn; lia|].
    rewrite algebra_app, cells_dim, IH by (try assumption; try (apply H; left; reflexivity); intros y Hy; apply H; right; exact Hy).
    unfold algebra_dim; cbn [map fold_right]; unfold share; lia. }
  assert (Q : forall l, (forall x, In x l -> good_irrep G1 x) -> algebra_dim (table l l2) = (algebra_dim l * algebra_dim l2)%nat).
  { intros l; induction l as [|x l IH]; intros H; unfold table; cbn [flat_map]; [reflexivity|].
    rewrite algebra_app; fold (table l l2); rewrite IH by (intros y Hy; apply H; right; exact Hy).
    rewrite R by (try (intros y Hy; apply good2; exact Hy); apply H; left; reflexivity).
    unfold algebra_dim; cbn [map fold_right]; unfold share; lia. }
  apply Q; intros x Hx; apply good1; exact Hx.
Qed.

Theorem product_irreps : exists l, prod_irreps G1 G2 irr1 irr2 l1 l2 = Ret l /\
  irrep_list P (prod_irr G1 G2 irr1 irr2) l /\ algebra_dim l = (algebra_dim l1 * algebra_dim l2)%nat.
Proof. exists (table l1 l2); split; [exact table_ok|split; [exact table_list|exact table_dim]]. Qed.
End Lists.

Theorem product_irrep : forall irr1 irr2 id1 id2 i psi1 psi2,
  irr1 id1 = Ret psi1 -> irr2 id2 = Ret psi2 -> good_irrep G1 psi1 -> good_irrep G2 psi2 ->
  (if is_TC (oi_type psi1) && is_TC (oi_type psi2) then (i = 0 \/ i = 1)%Z else i = 0%Z) ->
  exists r, prod_irrep G1 G2 irr1 irr2 id1 id2 i = Ret r /\ good_irrep P r /\ oi_id r = Pair id1 id2 i.
Proof.
  intros irr1 irr2 id1 id2 i psi1 psi2 E1 E2 H1 H2 Hi; exists (build G1 G2 id1 id2 psi1 psi2 i).
  split; [apply prod_irrep_build; try assumption; eapply not_TH; eassumption|].
  split; [apply (good_build G1 G2 HG1 HG2); assumption|reflexivity].
Qed.

Lemma trace_form : forall h A, realified h A -> trace (2 * h) A = 2 * trace h A.
Proof.
  intros h A H; unfold trace; replace (2 * h)%nat with (h + h)%nat by lia; rewrite sumn_app.
  replace (2 * sumn h (fun i => A i i)) with (sumn h (fun i => A i i) + sumn h (fun i => A i i)) by ring; f_equal.
  apply sumn_ext; intros i Hi; apply (H i i Hi Hi).
Qed.

Theorem product_character : forall irr1 irr2 id1 id2 psi1 psi2 a b g c1 c2,
  irr1 id1 = Ret psi1 -> irr2 id2 = Ret psi2 -> good_irrep G1 psi1 -> good_irrep G2 psi2 ->
  el_mem G1 a -> el_mem G2 b -> pair_elements G1 G2 a b = Ret g -> oi_chi psi1 a = Ret c1 -> oi_chi psi2 b = Ret c2 ->
  (is_TC (oi_type psi1) && is_TC (oi_type psi2) = false ->
     exists r, prod_irrep G1 G2 irr1 irr2 id1 id2 0 = Ret r /\ oi_chi r g = Ret (c1 * c2)) /\
  (is_TC (oi_type psi1) && is_TC (oi_type psi2) = true ->
     exists r r' x x', prod_irrep G1 G2 irr1 irr2 id1 id2 0 = Ret r /\ prod_irrep G1 G2 irr1 irr2 id1 id2 1 = Ret r' /\
       oi_chi r g = Ret x /\ oi_chi r' g = Ret x' /\ x + x' = c1 * c2).
Proof.
  intros irr1 irr2 id1 id2 psi1 psi2 a b g c1 c2 E1 E2 H1 H2 Ha Hb Eg C1 C2; rewrite pair_ok in Eg by assumption; apply Ret_inj in Eg; subst g.
  pose proof (not_TH _ _ _ H1) as N1; pose proof (not_TH _ _ _ H2) as N2; split; intros T.
  - exists (build G1 G2 id1 id2 psi1 psi2 0); split; [apply prod_irrep_build; try assumption; unfold index_ok; rewrite T; reflexivity|].
    unfold build; rewrite T; cbn [oi_chi]; unfold tensor_char; rewrite split_pr by assumption; cbn [bind fst snd].
    rewrite !ochar_ok, C1, C2 by assumption; reflexivity.
  - assert (I : forall i, (i = 0 \/ i = 1)%Z -> index_ok psi1 psi2 i) by (intros i Hi; unfold index_ok; rewrite T; exact Hi).
    apply andb_prop in T as [T1 T2].
    destruct (oi_type psi1) eqn:Y1; try discriminate T1; destruct (oi_type psi2) eqn:Y2; try discriminate T2.
    destruct (good_h _ _ _ H1 Y1) as (h & _ & S1 & D1 & F1 & _), (good_h _ _ _ H2 Y2) as (k & _ & S2 & D2 & F2 & _).
    destruct (gi_trace _ _ H1 a Ha) as (A & EA & CA), (gi_trace _ _ H2 b Hb) as (B & EB & CB).
    rewrite C1 in CA; apply Ret_inj in CA; rewrite C2 in CB; apply Ret_inj in CB.
    assert (K : forall i, oi_chi (build G1 G2 id1 id2 psi1 psi2 i) (pr G1 G2 a b) =
      Ret (2 * (trace h A * trace k B - trace h (lower h A) * trace k (conj_imag i (lower k B))))).
    { intros i; unfold build; rewrite Y1, Y2; cbn [is_TC andb oi_chi]; unfold complex_char; rewrite split_pr by assumption; cbn [bind fst snd].
      rewrite !ocall_ok, EA, EB by assumption; cbn [bind snd]; rewrite D1, D2; reflexivity. }
    exists (build G1 G2 id1 id2 psi1 psi2 0), (build G1 G2 id1 id2 psi1 psi2 1); do 2 eexists.
    split; [apply prod_irrep_build; try assumption; try congruence; apply I; auto|].
    split; [apply prod_irrep_build; try assumption; try congruence; apply I; auto|].
    split; [apply K|split; [apply K|]].
    rewrite CA, CB, S1, S2, (trace_form h A), (trace_form k B) by (first [eapply F1; eassumption|eapply F2; eassumption]).
    cbn [conj_imag Z.eqb]; replace (trace k (conj_imag 1 (lower k B))) with (- trace k (lower k B)); [unfold conj_imag; cbn [Z.eqb]; ring|].
    unfold conj_imag; cbn [Z.eqb]; unfold trace, mopp; rewrite <- sumn_opp; reflexivity.
Qed.
End List.

(** ** C_N, D_N, SO(2), O(2) *)
Lemma in_turn_iff : forall t, in_turn t = true <-> 0 <= t < 2 * PI.
Proof.
  intros t; unfold in_turn; destruct (Rle_dec 0 t), (Rlt_dec t (2 * PI)); split; intros H; try discriminate; try reflexivity; try lra.
Qed.

Lemma planar_is : forall G v, g_is (planar_obj G) v = true <-> pmember G v.
Proof.
  intros [G| |] [v|t|f t]; cbn [planar_obj g_is pmember]; try (split; [discriminate|contradiction]).
  - apply is_element_member.
  - apply in_turn_iff.
  - rewrite andb_true_iff, orb_true_iff, in_turn_iff, !Z.eqb_eq; reflexivity.
Qed.

Lemma planar_mem : forall G g, el_mem (planar_obj G) g <-> el_grp g = g_name (planar_obj G) /\ pmember G (el_val g).
Proof. intros G g; unfold el_mem; rewrite planar_is; reflexivity. Qed.

Lemma pgroup : forall G, pvalid G -> is_group (pmember G) (pmul G) (pinv G) (pid G).
Proof.
  intros [G| |] HG; [apply pfin_group; exact HG|apply so2_group|apply o2_group].
Qed.

Section Planar.
Variable G : pgrp.
Hypothesis HG : pvalid G.
Let O := planar_obj G.
Let W (v : pval) : gel pval := El (g_name O) v.

Lemma W_mem : forall v, pmember G v -> el_mem O (W v).
Proof. intros v H; apply planar_mem; split; [reflexivity|exact H]. Qed.

Lemma W_of : forall g, el_mem O g -> g = W (el_val g) /\ pmember G (el_val g).
Proof. intros [n v] H; apply planar_mem in H as [E H]; cbn in *; subst n; split; [reflexivity|exact H]. Qed.

Lemma W_mk : forall v, pmember G v -> mkel O v = Ret (W v).
Proof. intros v H; pose proof (proj2 (planar_is G v) H) as E; fold O in E; unfold mkel; rewrite E; reflexivity. Qed.

Lemma W_mul : forall v w u, pmul G v w = Ret u -> pmember G u -> el_mul O (W v) (W w) = Ret (W u).
Proof. intros v w u E Hu; unfold el_mul; cbn [W el_grp el_val]; rewrite gname_eqb_refl; cbn [O planar_obj g_comb]; rewrite E; cbn [bind]; apply W_mk, Hu. Qed.

Lemma W_inv : forall v u, pinv G v = Ret u -> pmember G u -> el_inv O (W v) = Ret (W u).
Proof. intros v u E Hu; unfold el_inv; cbn [W el_val O planar_obj g_inv]; rewrite E; cbn [bind]; apply W_mk, Hu. Qed.

Lemma planar_obj_group : is_group (el_mem O) (el_mul O) (el_inv O) (el_one O).
Proof.
  pose proof (pgroup G HG) as [i o n a l r il ir].
  assert (M : forall g h, el_mem O g -> el_mem O h -> exists u, pmul G (el_val g) (el_val h) = Ret u /\ pmember G u /\ el_mul O g h = Ret (W u)).
  { intros g h Hg Hh; destruct (W_of g Hg) as [Eg Mg], (W_of h Hh) as [Eh Mh]; destruct (o _ _ Mg Mh) as (u & Eu & Mu).
    exists u; repeat split; try assumption; rewrite Eg, Eh; apply W_mul; assumption. }
  assert (N : forall g, el_mem O g -> exists u, pinv G (el_val g) = Ret u /\ pmember G u /\ el_inv O g = Ret (W u)).
  { intros g Hg; destruct (W_of g Hg) as [Eg Mg]; destruct (n _ Mg) as (u & Eu & Mu).
    exists u; repeat split; try assumption; rewrite Eg; apply W_inv; assumption. }
  assert (V : forall g, el_mem O g -> pmember G (el_val g)) by (intros g Hg; apply W_of; exact Hg).
  assert (B : forall x y, pmul G x y = Ret y -> pmember G x -> pmember G y -> el_mul O (W x) (W y) = Ret (W y)) by (intros; apply W_mul; assumption).
  constructor.
  - apply W_mem; exact i.
  - intros g h Hg Hh; destruct (M g h Hg Hh) as (u & _ & Hu & E); exists (W u); split; [exact E|apply W_mem; exact Hu].
  - intros g Hg; destruct (N g Hg) as (u & _ & Hu & E); exists (W u); split; [exact E|apply W_mem; exact Hu].
  - intros x y z xy yz Hx Hy Hz Exy Eyz.
    destruct (M x y Hx Hy) as (u & Eu & Hu & Eu'), (M y z Hy Hz) as (v & Ev & Hv & Ev').
    rewrite Exy in Eu'; apply Ret_inj in Eu'; subst xy; rewrite Eyz in Ev'; apply Ret_inj in Ev'; subst yz.
    pose proof (a _ _ _ _ _ (V x Hx) (V y Hy) (V z Hz) Eu Ev) as A.
    destruct (M (W u) z (W_mem u Hu) Hz) as (t & Et & _ & Et'), (M x (W v) Hx (W_mem v Hv)) as (t' & Es & _ & Es').
    cbn [W el_val] in Et, Es; rewrite Et, Es in A; apply Ret_inj in A; subst t'; rewrite Et', Es'; reflexivity.
  - intros x Hx; destruct (W_of x Hx) as [E Hv]; rewrite E at 1 2 || rewrite E; apply W_mul; [apply l; exact Hv|exact Hv].
  - intros x Hx; destruct (W_of x Hx) as [E Hv]; rewrite E at 1 2 || rewrite E; apply W_mul; [apply r; exact Hv|exact Hv].
  - intros x y Hx Ey; destruct (N x Hx) as (u & Eu & Hu & Eu'); rewrite Ey in Eu'; apply Ret_inj in Eu'; subst y.
    destruct (W_of x Hx) as [E Hv]; rewrite E; apply W_mul; [apply (il (el_val x)); assumption|exact i].
  - intros x y Hx Ey; destruct (N x Hx) as (u & Eu & Hu & Eu'); rewrite Ey in Eu'; apply Ret_inj in Eu'; subst y.
    destruct (W_of x Hx) as [E Hv]; rewrite E; apply W_mul; [apply (ir (el_val x)); assumption|exact i].
Qed.

Lemma planar_good : forall id, irrep_ok G id -> exists r, p_irrep G id = Ret r /\ ir_id r = id /\
  good_irrep O (planar_oirrep r) /\ planar_irr G (Leaf id) = Ret (planar_oirrep r).
Proof.
  intros id Hid; destruct (p_irrep_kind G id HG Hid) as (r & Er & A); exists r; split; [exact Er|].
  pose proof A as (_ & Ei & Es & _ & Ec & _ & Hr); split; [exact Ei|].
  destruct (kind_orth_rep G id r _ HG A) as [[t u m n] CH]; destruct (endomorphisms G id r HG Hid Er) as [[Sp1 Sp2] [Ir0 Ir]].
  assert (V : forall g, el_mem O g -> pmember G (el_val g)) by (intros g Hg; apply W_of; exact Hg).
  pose proof (pgroup G HG) as [ge go gi _ _ _ _ _].
  split; [|unfold planar_irr; rewrite Er; reflexivity].
  assert (EE : oi_endo (planar_oirrep r) = endomorphism_basis r).
  { unfold oi_endo, endomorphism_basis; cbn [planar_oirrep oi_type oi_size]; destruct (ir_complex r); reflexivity. }
  assert (CM : forall X, (forall g B, el_mem O g -> oi_fun (planar_oirrep r) g = Ret (ir_size r, B) -> meq (ir_size r) (ir_size r) (mmul (ir_size r) B X) (mmul (ir_size r) X B)) <->
    (forall v B, pmember G v -> ir_rep r v = Ret (ir_size r, B) -> meq (ir_size r) (ir_size r) (mmul (ir_size r) B X) (mmul (ir_size r) X B))).
  { intros X; split; intros H.
    - intros v B Hv; exact (H (W v) B (W_mem v Hv)).
    - intros g B Hg; exact (H (el_val g) B (V g Hg)). }
  constructor; cbn [planar_oirrep oi_size oi_fun oi_chi oi_type].
  - constructor.
    + intros g Hg; apply t, V, Hg.
    + exact u.
    + intros g h Hg Hh; destruct (m _ _ (V g Hg) (V h Hh)) as (x & B1 & B2 & B3 & Ex & E1 & E2 & E3 & M).
      destruct (W_of g Hg) as [Eg Mg], (W_of h Hh) as [Eh Mh]; destruct (go _ _ Mg Mh) as (y & Ey & My); rewrite Ex in Ey; apply Ret_inj in Ey; subst y.
      exists (W x), B1, B2, B3; split; [rewrite Eg, Eh; apply W_mul; assumption|]; auto.
    + intros g Hg; destruct (n _ (V g Hg)) as (x & B1 & B2 & Ex & E1 & E2 & M).
      destruct (W_of g Hg) as [Eg Mg]; destruct (gi _ Mg) as (y & Ey & My); rewrite Ex in Ey; apply Ret_inj in Ey; subst y.
      exists (W x), B1, B2; split; [rewrite Eg; apply W_inv; assumption|]; auto.
  - intros g Hg; apply CH, V, Hg.
  - destruct (ir_complex r) eqn:C; [|exact I].
    assert (K : exists k, irrep_kind G id = K2 k /\ has_flips G = false) by (destruct G as [[?|?]| |], (irrep_kind _ id); try discriminate Ec; eauto).
    destruct K as (k & K & NF); rewrite K in *; cbn [kdim kmat] in *; exists 1%nat; rewrite Es; split; [reflexivity|].
    intros g B Hg EB; destruct (Hr _ (V g Hg)) as (B' & EB' & MB & _); rewrite EB in EB'; apply Ret_inj in EB'; injection EB' as <-.
    assert (F : rsign (fl G (el_val g)) = 1).
    { pose proof (V g Hg) as Vg; destruct G as [[?|?]| |]; try discriminate NF; destruct (el_val g) as [[?|? ?]|?|? ?]; try contradiction; reflexivity. }
    intros i j Hi Hj; assert (i = 0%nat) by lia; assert (j = 0%nat) by lia; subst i j; cbn [Nat.add].
    rewrite !MB by lia; unfold mat2; rewrite F; split; ring.
  - rewrite EE; split; [|exact Sp2]; intros X; rewrite <- Sp1; apply CM.
  - split; [exact Ir0|]; intros Y HY1 HY2 HY3; apply Ir; try assumption; apply CM; exact HY3.
Qed.

Lemma planar_irrep_list : forall ids, Forall (irrep_ok G) ids -> NoDup ids -> exists l,
  mapM (fun id => planar_irr G (Leaf id)) ids = Ret l /\ irrep_list O (planar_irr G) l /\ map oi_id l = map Leaf ids /\
  (forall r, In r l -> exists id x, In id ids /\ p_irrep G id = Ret x /\ r = planar_oirrep x).
Proof.
  intros ids F N; induction N as [|id ids Ni N IH]; [exists []; repeat split; try constructor; intros r []|].
  inversion F as [|? ? Hid F']; subst; destruct (IH F') as (l & El & [LG LD] & Em & Lx).
  destruct (planar_good id Hid) as (r & Er & Ei & Gr & Pr).
  exists (planar_oirrep r :: l); cbn [mapM]; rewrite Pr; cbn [bind]; rewrite El; cbn [bind]; split; [reflexivity|]; split; [split|split].
  - constructor; [|exact LG]; split; [exact Gr|]; cbn [planar_oirrep oi_id]; rewrite Ei; exact Pr.
  - constructor; [|exact LD]; apply Forall_forall; intros r' I'; destruct (Lx r' I') as (id' & x & Ii & Ex & ->).
    intros X HX; cbn [planar_oirrep oi_size oi_fun] in *.
    assert (P1 : p_irr G id = Ret (girrep_of r)) by (unfold p_irr; rewrite Er; reflexivity).
    assert (P2 : p_irr G id' = Ret (girrep_of x)) by (unfold p_irr; rewrite Ex; reflexivity).
    apply (planar_disjoint G id id' (girrep_of r) (girrep_of x) HG Hid (proj1 (Forall_forall _ _) F' id' Ii)); try assumption.
    + intros ->; contradiction.
    + intros v A B Hv EA EB; exact (HX (W v) A B (W_mem v Hv) EA EB).
  - cbn [map planar_oirrep oi_id]; rewrite Ei, Em; reflexivity.
  - intros r' [<-|I']; [exists id, r; repeat split; try assumption; left; reflexivity|].
    destruct (Lx r' I') as (id' & x & Ii & Ex & E); exists id', x; repeat split; try assumption; right; exact Ii.
Qed.
End Planar.

(** all irreps of a finite planar group *)
Lemma planar_built : forall G, valid_grp G = true -> exists l n, order G = Ret n /\
  mapM (fun id => planar_irr (Fin G) (Leaf id)) (built_irreps G) = Ret l /\
  irrep_list (planar_obj (Fin G)) (planar_irr (Fin G)) l /\ Z.of_nat (algebra_dim l) = n.
Proof.
  intros G HG; destruct (built_irreps_exact G HG) as [Nd Hb].
  assert (F : Forall (irrep_ok (Fin G)) (built_irreps G)) by (apply Forall_forall; intros id I; apply Hb; exact I).
  destruct (planar_irrep_list (Fin G) HG (built_irreps G) F Nd) as (l & El & L & _ & _).
  destruct (dimensions_sum G HG) as (ds & n & En & Eds & S); exists l, n; split; [exact En|split; [exact El|split; [exact L|]]].
  rewrite <- S; clear S En L F Hb Nd; revert l ds El Eds; induction (built_irreps G) as [|id ids IH]; intros l ds El Eds; cbn [mapM] in *.
  - injection El as <-; injection Eds as <-; reflexivity.
  - apply bind_Ret in El as (r0 & Er & El); apply bind_Ret in El as (l' & E1 & El); apply Ret_inj in El; subst l.
    apply bind_Ret in Eds as (d & Ed & Eds); apply bind_Ret in Eds as (ds' & E2 & Eds); apply Ret_inj in Eds; subst ds.
    cbn [fold_right]; rewrite <- (IH l' ds' E1 E2); unfold planar_irr in Er.
    destruct (p_irrep (Fin G) id) as [|r]; cbn [bind] in Er, Ed; [discriminate|]; apply Ret_inj in Er; apply Ret_inj in Ed; subst r0 d.
    unfold algebra_dim; cbn [map fold_right]; rewrite Nat2Z.inj_add; f_equal.
    cbn [planar_oirrep oi_size]; unfold oi_sosc, ir_sosc; cbn [planar_oirrep oi_type]; destruct (ir_complex r); reflexivity.
Qed.

Theorem planar_product : forall G H, valid_grp G = true -> valid_grp H = true -> exists l1 l2 l n m,
  order G = Ret n /\ order H = Ret m /\
  mapM (fun id => planar_irr (Fin G) (Leaf id)) (built_irreps G) = Ret l1 /\
  mapM (fun id => planar_irr (Fin H) (Leaf id)) (built_irreps H) = Ret l2 /\
  let P := prod_grp (planar_obj (Fin G)) (planar_obj (Fin H)) in
  prod_irreps (planar_obj (Fin G)) (planar_obj (Fin H)) (planar_irr (Fin G)) (planar_irr (Fin H)) l1 l2 = Ret l /\
  irrep_list P (prod_irr (planar_obj (Fin G)) (planar_obj (Fin H)) (planar_irr (Fin G)) (planar_irr (Fin H))) l /\
  Z.of_nat (algebra_dim l) = (n * m)%Z.
Proof.
  intros G H HG HH; destruct (planar_built G HG) as (l1 & n & En & E1 & L1 & D1), (planar_built H HH) as (l2 & m & Em & E2 & L2 & D2).
  destruct (product_irreps (planar_obj (Fin G)) (planar_obj (Fin H)) (planar_obj_group (Fin G) HG) (planar_obj_group (Fin H) HH) _ _ l1 l2 L1 L2) as (l & El & L & D).
  exists l1, l2, l, n, m; split; [exact En|split; [exact Em|split; [exact E1|split; [exact E2|split; [exact El|split; [exact L|]]]]]].
  rewrite D, Nat2Z.inj_mul, D1, D2; reflexivity.
Qed.

Theorem planar_factors : forall G, pvalid G ->
  is_group (el_mem (planar_obj G)) (el_mul (planar_obj G)) (el_inv (planar_obj G)) (el_one (planar_obj G)) /\
  forall ids, Forall (irrep_ok G) ids -> NoDup ids -> exists l,
    mapM (fun id => planar_irr G (Leaf id)) ids = Ret l /\ irrep_list (planar_obj G) (planar_irr G) l /\ map oi_id l = map Leaf ids.
Proof.
  intros G HG; split; [exact (planar_obj_group G HG)|].
  intros ids F N; destruct (planar_irrep_list G HG ids F N) as (l & E & L & M & _); exists l; auto.
Qed.

Lemma planar_cell : forall G H id1 id2 i r1 r2, pvalid G -> pvalid H -> irrep_ok G id1 -> irrep_ok H id2 ->
  p_irrep G id1 = Ret r1 -> p_irrep H id2 = Ret r2 ->
  (if ir_complex r1 && ir_complex r2 then (i = 0 \/ i = 1)%Z else i = 0%Z) ->
  exists r, prod_irrep (planar_obj G) (planar_obj H) (planar_irr G) (planar_irr H) (Leaf id1) (Leaf id2) i = Ret r /\
    good_irrep (prod_grp (planar_obj G) (planar_obj H)) r /\
    oi_size r = (if ir_complex r1 && ir_complex r2 then ir_size r1 * ir_size r2 / 2 else ir_size r1 * ir_size r2)%nat /\
    oi_type r = (if ir_complex r1 || ir_complex r2 then TC else TR).
Proof.
  intros G H id1 id2 i r1 r2 HG HH O1 O2 E1 E2 Hi.
  destruct (planar_good G HG id1 O1) as (r & E & _ & G1 & P1); rewrite E1 in E; apply Ret_inj in E; subst r.
  destruct (planar_good H HH id2 O2) as (r & E & _ & G2 & P2); rewrite E2 in E; apply Ret_inj in E; subst r.
  assert (Ok : index_ok (planar_oirrep r1) (planar_oirrep r2) i).
  { unfold index_ok; cbn [planar_oirrep oi_type]; destruct (ir_complex r1), (ir_complex r2); exact Hi. }
  exists (build (planar_obj G) (planar_obj H) (Leaf id1) (Leaf id2) (planar_oirrep r1) (planar_oirrep r2) i).
  split; [apply prod_irrep_build; try assumption; eapply not_TH; eassumption|].
  split; [apply (good_build _ _ (planar_obj_group G HG) (planar_obj_group H HH)); assumption|].
  unfold build; cbn [oi_size oi_type planar_oirrep]; destruct (ir_complex r1), (ir_complex r2); cbn [is_TC is_TR andb orb]; split; reflexivity.
Qed.

Lemma so2_c3 : exists r, prod_irrep (planar_obj SO2) (planar_obj (Fin (Cyc 3))) (planar_irr SO2) (planar_irr (Fin (Cyc 3)))
    (Leaf [2%Z]) (Leaf [1%Z]) 1 = Ret r /\
  good_irrep (prod_grp (planar_obj SO2) (planar_obj (Fin (Cyc 3)))) r /\ oi_size r = 2%nat /\ oi_type r = TC.
Proof.
  assert (A : exists r, p_irrep SO2 [2%Z] = Ret r /\ ir_size r = 2%nat /\ ir_complex r = true) by (eexists; repeat split).
  assert (B : exists r, p_irrep (Fin (Cyc 3)) [1%Z] = Ret r /\ ir_size r = 2%nat /\ ir_complex r = true) by (eexists; repeat split).
  destruct A as (r1 & E1 & S1 & C1), B as (r2 & E2 & S2 & C2).
  destruct (planar_cell SO2 (Fin (Cyc 3)) [2%Z] [1%Z] 1 r1 r2 I eq_refl) as (r & Er & Gr & Sr & Tr); try assumption; try (cbn; lia).
  - rewrite C1, C2; cbn [andb]; auto.
  - exists r; rewrite S1, S2, C1, C2 in *; auto.
Qed.

Lemma d4_c3 : exists r, prod_irrep (planar_obj (Fin (Dih 4))) (planar_obj (Fin (Cyc 3))) (planar_irr (Fin (Dih 4))) (planar_irr (Fin (Cyc 3)))
    (Leaf [1%Z; 1%Z]) (Leaf [1%Z]) 0 = Ret r /\
  good_irrep (prod_grp (planar_obj (Fin (Dih 4))) (planar_obj (Fin (Cyc 3)))) r /\ oi_size r = 4%nat /\ oi_type r = TC.
Proof.
  assert (A : exists r, p_irrep (Fin (Dih 4)) [1%Z; 1%Z] = Ret r /\ ir_size r = 2%nat /\ ir_complex r = false) by (eexists; repeat split).
  assert (B : exists r, p_irrep (Fin (Cyc 3)) [1%Z] = Ret r /\ ir_size r = 2%nat /\ ir_complex r = true) by (eexists; repeat split).
  destruct A as (r1 & E1 & S1 & C1), B as (r2 & E2 & S2 & C2).
  destruct (planar_cell (Fin (Dih 4)) (Fin (Cyc 3)) [1%Z; 1%Z] [1%Z] 0 r1 r2 eq_refl eq_refl) as (r & Er & Gr & Sr & Tr); try assumption; try (cbn; lia).
  - rewrite C1, C2; cbn [andb]; auto.
  - exists r; rewrite S1, S2, C1, C2 in *; auto.
Qed.
