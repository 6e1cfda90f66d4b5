(** The breadth-first generation of irrep matrices. *)
From Coq Require Import Reals ZArith Bool List Lia Lra Arith Permutation.
From Verif Require Import LibRes LibList LibMat LibMatS LibTrig SpecGroup ParamModel ParamProofs IrrepModel SpecRep RepModel RepProofs
  RegModel SpecReg GenModel.
Import ListNotations.
Open Scope R_scope.

Section Gen.
Context {T : Type}.
Variables (mem : T -> Prop) (eqb : T -> T -> bool) (op : T -> T -> res T) (inv : T -> res T) (e : T).
Variables (els : list T) (order : list T -> list T).
Hypothesis HG : is_group mem op inv e.
Hypothesis He : enumerates mem els.
Hypothesis Hd : decides mem eqb.
Hypothesis Hord : forall l, Permutation l (order l).

Lemma smem_In : forall x l, mem x -> Forall mem l -> (smem eqb x l = true <-> In x l).
Proof.
  intros x l Hx Hl; unfold smem; rewrite existsb_exists; split.
  - intros (y & I & E); rewrite Forall_forall in Hl; apply Hd in E; auto; subst; exact I.
  - intros I; exists x; split; [exact I|apply Hd; auto].
Qed.

Lemma sadd_In : forall x l, mem x -> Forall mem l -> Forall mem (sadd eqb l x) /\
  (NoDup l -> NoDup (sadd eqb l x)) /\ forall y, In y (sadd eqb l x) <-> In y l \/ y = x.
Proof.
  intros x l Hx Hl; unfold sadd; destruct (smem eqb x l) eqn:E.
  - apply smem_In in E; auto; split; [exact Hl|split; [auto|]]; intros y; split; [auto|intros [H| ->]; assumption].
  - split; [apply Forall_app; split; [exact Hl|repeat constructor; exact Hx]|split].
    + intros Nd; apply NoDup_app_intro; [exact Nd|repeat constructor; intros []|].
      intros z I [<-|[]]; apply smem_In in I; auto; congruence.
    + intros y; rewrite in_app_iff; cbn; intuition.
Qed.

Definition keys (rho : list (T * mat)) := map fst rho.

Lemma dset_keys : forall x A rho, mem x -> Forall mem (keys rho) ->
  Forall mem (keys (dset eqb rho x A)) /\ forall y, In y (keys (dset eqb rho x A)) <-> In y (keys rho) \/ y = x.
Proof.
  intros x A; induction rho as [|[y B] rho IH]; intros Hx Hl; cbn.
  - split; [repeat constructor; exact Hx|intros y; intuition].
  - inversion Hl as [|? ? My Ml]; subst; cbn in My; destruct (eqb x y) eqn:E.
    + apply Hd in E; auto; subst; cbn; split; [constructor; assumption|intros z; intuition].
    + destruct (IH Hx Ml) as [F K]; cbn; split; [constructor; assumption|].
      intros z; specialize (K z); unfold keys in K; rewrite K; intuition.
Qed.

Lemma dget_dset : forall x A rho y, mem x -> mem y -> Forall mem (keys rho) ->
  (y = x -> dget eqb (dset eqb rho x A) y = Ret A) /\
  (y <> x -> dget eqb (dset eqb rho x A) y = dget eqb rho y).
Proof.
  intros x A; induction rho as [|[z B] rho IH]; intros y Hx Hy Hl; cbn.
  - split; intros E; destruct (eqb y x) eqn:F; try reflexivity; [|apply Hd in F; auto; contradiction].
    assert (eqb y x = true) by (apply Hd; auto); congruence.
  - inversion Hl as [|? ? Mz Ml]; subst; cbn in Mz; destruct (eqb x z) eqn:E; cbn.
    + apply Hd in E; auto; subst z; split; intros F; destruct (eqb y x) eqn:G; try reflexivity.
      * assert (eqb y x = true) by (apply Hd; auto); congruence.
      * apply Hd in G; auto; contradiction.
    + destruct (IH y Hx Hy Ml) as [P Q]; split; intros F; destruct (eqb y z) eqn:G; try reflexivity; auto.
      subst y; congruence.
Qed.

Lemma dget_some : forall rho x, mem x -> Forall mem (keys rho) -> (In x (keys rho) <-> exists A, dget eqb rho x = Ret A).
Proof.
  induction rho as [|[y B] rho IH]; intros x Hx Hl; cbn.
  - split; [intros []|intros (A & H); discriminate H].
  - inversion Hl as [|? ? My Ml]; subst; cbn in My; destruct (eqb x y) eqn:E.
    + apply Hd in E; auto; subst; split; [eexists; reflexivity|auto].
    + specialize (IH x Hx Ml); unfold keys in IH; rewrite <- IH; split; [|auto].
      intros [->|H]; [|exact H]; assert (eqb x x = true) by (apply Hd; auto); congruence.
Qed.

Lemma dmem_key : forall rho x, mem x -> Forall mem (keys rho) -> (dmem eqb rho x = true <-> In x (keys rho)).
Proof. intros; apply smem_In; assumption. Qed.

(** everything that is true of the values, abstractly *)
Variable d : nat.
Variable V : T -> mat -> Prop.

Definition good (rho : list (T * mat)) : Prop :=
  Forall mem (keys rho) /\ forall x A, mem x -> dget eqb rho x = Ret A -> V x A.

Variable gens : list T.
Hypothesis Hgens : Forall mem gens.
Hypothesis HV1 : forall g x gx A B, In g gens -> mem x -> op g x = Ret gx -> V g A -> V x B -> V gx (mmul d A B).
Hypothesis HV2 : forall g gi x gx A B, In g gens -> mem x -> inv g = Ret gi -> op gi x = Ret gx -> V g A -> V x B ->
  V gx (mmul d (mtr A) B).

Lemma good_set : forall rho x A, good rho -> mem x -> V x A -> good (dset eqb rho x A).
Proof.
  intros rho x A [F G] Hx HA; split; [apply dset_keys; assumption|].
  intros y B Hy E; destruct (eqb y x) eqn:K.
  - apply Hd in K; auto; subst y; rewrite (proj1 (dget_dset x A rho x Hx Hx F) eq_refl) in E; apply Ret_inj in E; subst; exact HA.
  - rewrite (proj2 (dget_dset x A rho y Hx Hy F)) in E; [exact (G y B Hy E)|intros ->; assert (eqb x x = true) by (apply Hd; auto); congruence].
Qed.

Definition sub_keys (a b : list (T * mat)) := forall y, In y (keys a) -> In y (keys b).

(** one conditional assignment *)
Lemma set_step : forall rho g x y (M : mat -> mat), good rho -> mem g -> mem x -> mem y ->
  In g (keys rho) -> In x (keys rho) -> (forall A B, V g A -> V x B -> V y (mmul d (M A) B)) ->
  exists rho', (if dmem eqb rho y then Ret rho
    else A <- dget eqb rho g ;; B <- dget eqb rho x ;; Ret (dset eqb rho y (mmul d (M A) B))) = Ret rho' /\
    good rho' /\ sub_keys rho rho' /\ In y (keys rho').
Proof.
  intros rho g x y M G Mg Mx My Kg Kx HM; destruct (dmem eqb rho y) eqn:E.
  - apply dmem_key in E; [|exact My|apply G]; exists rho; split; [reflexivity|split; [exact G|split; [intros z; auto|exact E]]].
  - destruct (proj1 (dget_some rho g Mg (proj1 G)) Kg) as (A & EA); destruct (proj1 (dget_some rho x Mx (proj1 G)) Kx) as (B & EB).
    rewrite EA, EB; cbn [bind]; eexists; split; [reflexivity|].
    pose proof (dset_keys y (mmul d (M A) B) rho My (proj1 G)) as [F K].
    split; [apply good_set; [exact G|exact My|]|split; [intros z I; apply K; auto|apply K; auto]].
    apply HM; [exact (proj2 G g A Mg EA)|exact (proj2 G x B Mx EB)].
Qed.

Lemma visit_ok : forall g x rho new, In g gens -> mem x -> good rho -> In g (keys rho) -> In x (keys rho) ->
  Forall mem new -> NoDup new -> (forall y, In y new -> In y (keys rho)) ->
  exists gx gi gix rho' new', op g x = Ret gx /\ inv g = Ret gi /\ op gi x = Ret gix /\
    visit eqb op inv d g (rho, new) x = Ret (rho', new') /\ good rho' /\ sub_keys rho rho' /\
    Forall mem new' /\ NoDup new' /\ (forall y, In y new' -> In y (keys rho')) /\
    forall y, In y new' <-> In y new \/ y = gx \/ y = gix.
Proof.
  intros g x rho new Ig Mx G Kg Kx Fn Nn Kn.
  pose proof (proj1 (Forall_forall _ _) Hgens g Ig) as Mg.
  destruct (grp_op _ _ _ _ HG g x Mg Mx) as (gx & Egx & Mgx).
  destruct (grp_inv _ _ _ _ HG g Mg) as (gi & Egi & Mgi).
  destruct (grp_op _ _ _ _ HG gi x Mgi Mx) as (gix & Egix & Mgix).
  destruct (set_step rho g x gx (fun A => A) G Mg Mx Mgx Kg Kx) as (r1 & E1 & G1 & S1 & K1).
  { intros A B HA HB; exact (HV1 g x gx A B Ig Mx Egx HA HB). }
  destruct (set_step r1 g x gix mtr G1 Mg Mx Mgix (S1 _ Kg) (S1 _ Kx)) as (r2 & E2 & G2 & S2 & K2).
  { intros A B HA HB; exact (HV2 g gi x gix A B Ig Mx Egi Egix HA HB). }
  destruct (sadd_In gx new Mgx Fn) as (F1 & N1 & I1).
  destruct (sadd_In gix _ Mgix F1) as (F2 & N2 & I2).
  assert (IN : forall y, In y (sadd eqb (sadd eqb new gx) gix) <-> In y new \/ y = gx \/ y = gix).
  { intros y; rewrite I2, I1; tauto. }
  exists gx, gi, gix, r2, (sadd eqb (sadd eqb new gx) gix).
  split; [exact Egx|split; [exact Egi|split; [exact Egix|split]]].
  - unfold visit; rewrite Egx; cbn [bind]; cbv beta in E1; rewrite E1; cbn [bind]; rewrite Egi; cbn [bind]; rewrite Egix; cbn [bind].
    rewrite E2; reflexivity.
  - split; [exact G2|split; [intros z I; apply S2, S1, I|split; [exact F2|split; [apply N2, N1, Nn|split; [|exact IN]]]]].
    intros y I; apply IN in I as [I|[-> | ->]]; [apply S2, S1, Kn, I|apply S2, K1|exact K2].
Qed.

(** all elements for one generator *)
Lemma visits_ok : forall g, In g gens -> forall l rho new, Forall mem l -> good rho -> In g (keys rho) ->
  (forall x, In x l -> In x (keys rho)) ->
  Forall mem new -> NoDup new -> (forall y, In y new -> In y (keys rho)) ->
  exists rho' new', foldM (visit eqb op inv d g) l (rho, new) = Ret (rho', new') /\ good rho' /\ sub_keys rho rho' /\
    Forall mem new' /\ NoDup new' /\ (forall y, In y new' -> In y (keys rho')) /\
    (forall y, In y new -> In y new') /\
    (forall x gx, In x l -> op g x = Ret gx -> In gx new') /\
    (forall x gi gx, In x l -> inv g = Ret gi -> op gi x = Ret gx -> In gx new') .
Proof.
  intros g Ig; induction l as [|x l IH]; intros rho new Fl G Kg Kl Fn Nn Kn; cbn [foldM].
  - exists rho, new; split; [reflexivity|]; split; [exact G|]; split; [intros y; auto|]; split; [exact Fn|]; split; [exact Nn|].
    split; [exact Kn|]; split; [auto|]; split; [intros ? ? []|intros ? ? ? []].
  - inversion Fl as [|? ? Mx Ml]; subst.
    destruct (visit_ok g x rho new Ig Mx G Kg (Kl x (or_introl eq_refl)) Fn Nn Kn)
      as (gx & gi & gix & r1 & n1 & E1 & E2 & E3 & EV & G1 & S1 & F1 & N1 & K1 & I1).
    rewrite EV; cbn [bind].
    destruct (IH r1 n1 Ml G1 (S1 _ Kg) (fun y I => S1 _ (Kl y (or_intror I))) F1 N1 K1)
      as (r2 & n2 & E & G2 & S2 & F2 & N2 & K2 & M2 & P2 & Q2).
    exists r2, n2; split; [exact E|]; split; [exact G2|]; split; [intros y I; apply S2, S1, I|]; split; [exact F2|]; split; [exact N2|].
    split; [exact K2|]; split; [intros y I; apply M2, I1; auto|]; split.
    + intros z gz [<-|I] Ez; [apply M2, I1; right; left; congruence|eapply P2; eassumption].
    + intros z zi gz [<-|I] Ei Ez; [apply M2, I1; right; right; congruence|eapply Q2; eassumption].
Qed.

Lemma round_ok : forall l, Forall mem l -> forall gs rho new, incl gs gens -> good rho ->
  (forall g, In g gs -> In g (keys rho)) -> (forall x, In x l -> In x (keys rho)) ->
  Forall mem new -> NoDup new -> (forall y, In y new -> In y (keys rho)) ->
  exists rho' new', foldM (fun st g => foldM (visit eqb op inv d g) l st) gs (rho, new) = Ret (rho', new') /\ good rho' /\ sub_keys rho rho' /\
    Forall mem new' /\ NoDup new' /\ (forall y, In y new' -> In y (keys rho')) /\
    (forall y, In y new -> In y new') /\
    (forall g x gx, In g gs -> In x l -> op g x = Ret gx -> In gx new') /\
    (forall g x gi gx, In g gs -> In x l -> inv g = Ret gi -> op gi x = Ret gx -> In gx new').
Proof.
  intros l Fl; induction gs as [|g gs IH]; intros rho new Sg G Kg Kl Fn Nn Kn; cbn [foldM].
  - exists rho, new; split; [reflexivity|]; split; [exact G|]; split; [intros y; auto|]; split; [exact Fn|]; split; [exact Nn|].
    split; [exact Kn|]; split; [auto|]; split; [intros ? ? ? []|intros ? ? ? ? []].
  - destruct (visits_ok g (Sg g (or_introl eq_refl)) l rho new Fl G (Kg g (or_introl eq_refl)) Kl Fn Nn Kn)
      as (r1 & n1 & E1 & G1 & S1 & F1 & N1 & K1 & M1 & P1 & Q1).
    rewrite E1; cbn [bind].
    destruct (IH r1 n1) as (r2 & n2 & E & G2 & S2 & F2 & N2 & K2 & M2 & P2 & Q2); auto.
    { intros z I; apply Sg; right; exact I. }
    { intros z I; apply S1, Kg; right; exact I. }
    exists r2, n2; split; [exact E|]; split; [exact G2|]; split; [intros y I; apply S2, S1, I|]; split; [exact F2|]; split; [exact N2|].
    split; [exact K2|]; split; [intros y I; apply M2, M1, I|]; split.
    + intros h x gx [<-|I] Ix Ex; [apply M2; eapply P1; eassumption|eapply P2; eassumption].
    + intros h x hi gx [<-|I] Ix Ei Ex; [apply M2; eapply Q1; eassumption|eapply Q2; eassumption].
Qed.

(** the loop *)
Lemma bfs_ok : forall fuel rho elements added,
  good rho -> (forall g, In g gens -> In g (keys rho)) -> Forall mem elements -> NoDup elements ->
  (forall x, In x elements -> In x (keys rho)) -> incl added elements ->
  (forall g x gx, In g gens -> In x elements -> op g x = Ret gx -> In x added \/ In gx elements) ->
  (length els - length elements < fuel)%nat -> (added = [] \/ 1 < fuel)%nat \/ True ->
  (added <> [] -> length els - length elements + 1 < fuel)%nat ->
  exists rho' elements', bfs eqb op inv order fuel d gens rho elements added = Ret (rho', elements') /\
    good rho' /\ Forall mem elements' /\ NoDup elements' /\ incl elements elements' /\
    (forall x, In x elements' -> In x (keys rho')) /\
    (forall g x gx, In g gens -> In x elements' -> op g x = Ret gx -> In gx elements').
Proof.
  induction fuel as [|fuel IH]; intros rho elements added G Kg Fe Ne Ke Ia Hc Hf _ Hf2; [lia|cbn [bfs]].
  destruct added as [|a0 added0] eqn:Ea.
  - exists rho, elements; split; [reflexivity|]; split; [exact G|]; split; [exact Fe|]; split; [exact Ne|]; split; [intros x; auto|].
    split; [exact Ke|]; intros g x gx Ig Ix Ex; destruct (Hc g x gx Ig Ix Ex) as [[]|H]; exact H.
  - rewrite <- Ea in *; specialize (Hf2 ltac:(rewrite Ea; discriminate)).
    assert (Fa : Forall mem (order added)).
    { apply Forall_forall; intros x I; apply Permutation_in with (l' := added) in I; [|apply Permutation_sym, Hord].
      rewrite Forall_forall in Fe; apply Fe, Ia, I. }
    destruct (round_ok (order added) Fa gens rho []) as (r1 & n1 & E1 & G1 & S1 & F1 & N1 & K1 & _ & P1 & Q1); auto.
    { intros z; auto. }
    { intros x I; apply Ke, Ia; apply Permutation_in with (l := order added); [apply Permutation_sym, Hord|exact I]. }
    { constructor. }
    { intros y []. }
    rewrite E1; cbn [bind snd fst]; set (ad := filter (fun x => negb (smem eqb x elements)) n1).
    assert (Iad : forall x, In x ad <-> In x n1 /\ ~ In x elements).
    { intros x; unfold ad; rewrite filter_In, negb_true_iff; split; intros [I H]; split; auto.
      - intros J; apply smem_In in J; [congruence|rewrite Forall_forall in F1; auto|exact Fe].
      - destruct (smem eqb x elements) eqn:S; [|reflexivity]; apply smem_In in S; [contradiction|rewrite Forall_forall in F1; auto|exact Fe]. }
    assert (Fad : Forall mem ad).
    { apply Forall_forall; intros x I; apply Iad in I; rewrite Forall_forall in F1; apply F1, I. }
    assert (Nad : NoDup (elements ++ ad)).
    { apply NoDup_app_intro; [exact Ne|apply NoDup_filter; exact N1|]; intros x I J; apply Iad in J as [_ J]; contradiction. }
    assert (Le : (length (elements ++ ad) <= length els)%nat).
    { apply NoDup_incl_length; [exact Nad|]; intros x I; apply He; apply in_app_iff in I as [I|I];
      [rewrite Forall_forall in Fe; auto|rewrite Forall_forall in Fad; auto]. }
    rewrite app_length in Le.
    destruct (IH r1 (elements ++ ad) ad) as (r2 & e2 & E2 & G2 & F2 & N2 & I2 & K2 & C2); auto.
    + apply Forall_app; split; assumption.
    + intros x I; apply in_app_iff in I as [I|I]; [apply S1, Ke, I|apply K1; apply Iad in I; apply I].
    + intros x I; apply in_app_iff; right; exact I.
    + intros g x gx Ig Ix Ex; apply in_app_iff in Ix as [Ix|Ix]; [|left; exact Ix].
      destruct (Hc g x gx Ig Ix Ex) as [J|J]; [|right; apply in_app_iff; left; exact J].
      assert (J' : In gx n1).
      { eapply P1; [exact Ig| |exact Ex]; apply Permutation_in with (l := added); [apply Hord|exact J]. }
      right; apply in_app_iff; destruct (smem eqb gx elements) eqn:S.
      * left; apply smem_In in S; [exact S|rewrite Forall_forall in F1; auto|exact Fe].
      * right; apply Iad; split; [exact J'|]; intros K; apply smem_In in K; [congruence|rewrite Forall_forall in F1; auto|exact Fe].
    + rewrite app_length; lia.
    + intros Nn; rewrite app_length; destruct ad as [|z ad']; [congruence|cbn [length] in *; lia].
    + exists r2, e2; split; [exact E2|]; split; [exact G2|]; split; [exact F2|]; split; [exact N2|].
      split; [intros x I; apply I2, in_app_iff; left; exact I|]; split; [exact K2|exact C2].
Qed.

End Gen.

Section Main.
Context {T : Type}.
Variables (mem : T -> Prop) (eqb : T -> T -> bool) (op : T -> T -> res T) (inv : T -> res T) (e : T).
Variables (els : list T) (order : list T -> list T).
Hypothesis HG : is_group mem op inv e.
Hypothesis He : enumerates mem els.
Hypothesis Hd : decides mem eqb.
Hypothesis Hord : forall l, Permutation l (order l).

Lemma init_keys : forall (V : T -> mat -> Prop) (gens : list (T * (nat * mat))) rho, Forall mem (map fst gens) ->
  (forall g A, In (g, A) gens -> V g (snd A)) -> good mem eqb V rho ->
  let rho' := fold_left (fun rho ga => dset eqb rho (fst ga) (snd (snd ga))) gens rho in
  good mem eqb V rho' /\ (forall x, In x (keys rho) \/ In x (map fst gens) -> In x (keys rho')).
Proof.
  intros V; induction gens as [|[g A] gens IH]; intros rho Fg HV G; cbn [fold_left map].
  - split; [exact G|intros x [H|[]]; exact H].
  - inversion Fg as [|? ? Mg Fg']; subst; cbn [fst snd] in *.
    destruct (IH (dset eqb rho g (snd A)) Fg') as [G' K'].
    { intros h B I; apply (HV h B); right; exact I. }
    { apply good_set; auto; apply (HV g A); left; reflexivity. }
    split; [exact G'|]; intros x [H|[<-|H]]; apply K'; [left|left|right; exact H];
      apply (dset_keys mem eqb Hd g (snd A) rho Mg (proj1 G)); auto.
Qed.

Lemma check_ok : forall d rho elements, check_all eqb op inv order d rho elements = Ret tt <->
  (forall a, In a elements -> exists ai Ai A, inv a = Ret ai /\ smem eqb ai elements = true /\
    dget eqb rho ai = Ret Ai /\ dget eqb rho a = Ret A /\ allclose d d Ai (mtr A) = true /\
    forall b, In b elements -> exists ab B AB, op a b = Ret ab /\ smem eqb ab elements = true /\
      dget eqb rho b = Ret B /\ dget eqb rho ab = Ret AB /\ allclose d d (mmul d A B) AB = true).
Proof.
  assert (MM : forall A (f : A -> res unit) l, (_ <- mapM f l ;; Ret tt) = Ret tt <-> forall a, In a l -> f a = Ret tt).
  { intros A f; induction l as [|a l IH]; cbn; [split; [intros _ ? []|reflexivity]|].
    split.
    - intros H; apply bind_Ret in H as (x & H & _); apply bind_Ret in H as ([] & Ha & H); apply bind_Ret in H as (y & Hy & H).
      intros b [<-|I]; [exact Ha|]; apply (proj1 IH); [rewrite Hy; reflexivity|exact I].
    - intros H; rewrite (H a (or_introl eq_refl)); cbn [bind].
      assert (K := proj2 IH (fun b I => H b (or_intror I))); apply bind_Ret in K as (y & Hy & _); rewrite Hy; reflexivity. }
  assert (PI : forall l (x : T), In x (order l) <-> In x l).
  { intros l x; split; apply Permutation_in; [apply Permutation_sym, Hord|apply Hord]. }
  intros d rho elements; unfold check_all; rewrite MM; split.
  - intros H a Ia; specialize (H a (proj2 (PI _ _) Ia)).
    apply bind_Ret in H as (ai & E1 & H); apply assert_Ret in H as [E2 H]; apply bind_Ret in H as (Ai & E3 & H);
    apply bind_Ret in H as (A & E4 & H); apply assert_Ret in H as [E5 H].
    exists ai, Ai, A; do 5 (split; [assumption|]); intros b Ib.
    pose proof (proj1 (MM _ _ _) H b (proj2 (PI _ _) Ib)) as K; cbv beta in K.
    apply bind_Ret in K as (ab & F1 & K); apply assert_Ret in K as [F2 K]; apply bind_Ret in K as (B & F3 & K);
    apply bind_Ret in K as (AB & F4 & K); apply assert_Ret in K as [F5 K].
    exists ab, B, AB; do 4 (split; [assumption|]); exact F5.
  - intros H a Ia; destruct (H a (proj1 (PI _ _) Ia)) as (ai & Ai & A & E1 & E2 & E3 & E4 & E5 & K).
    rewrite E1; cbn [bind]; rewrite E2; cbn [bind assert_]; rewrite E3; cbn [bind]; rewrite E4; cbn [bind]; rewrite E5; cbn [bind assert_].
    apply MM; intros b Ib; destruct (K b (proj1 (PI _ _) Ib)) as (ab & B & AB & F1 & F2 & F3 & F4 & F5).
    rewrite F1; cbn [bind]; rewrite F2; cbn [bind assert_]; rewrite F3; cbn [bind]; rewrite F4; cbn [bind]; rewrite F5; reflexivity.
Qed.

Variable gens : list (T * (nat * mat)).
Hypothesis Hgens : Forall mem (map fst gens).

Theorem generate_ok : forall d F, gens <> [] ->
  orth_rep mem op inv e d F ->
  (forall g A, In (g, A) gens -> exists B, F g = Ret (d, B) /\ fst A = d /\ meq d d (snd A) B) ->
  (forall x, mem x -> generated op e (map fst gens) x) ->
  forall fuel, (length els < fuel)%nat ->
  exists rho, generate eqb op inv e els order fuel gens = Ret rho /\
    forall x, mem x -> exists A B, dget eqb rho x = Ret A /\ F x = Ret (d, B) /\ meq d d A B.
Proof.
  intros d F Hne HF HA Hgen fuel Hfuel.
  set (V := fun x (A : mat) => exists B, F x = Ret (d, B) /\ meq d d A B).
  assert (HV1 : forall g x gx A B, In g (map fst gens) -> mem x -> op g x = Ret gx -> V g A -> V x B -> V gx (mmul d A B)).
  { intros g x gx A B Ig Mx E (A' & EA & HAA) (B' & EB & HBB); pose proof (proj1 (Forall_forall _ _) Hgens g Ig) as Mg.
    destruct (or_mul _ _ _ _ _ _ HF g x Mg Mx) as (gx' & A1 & B1 & C & E1 & E2 & E3 & E4 & E5).
    rewrite E in E1; apply Ret_inj in E1; subst gx'; rewrite EA in E2; rewrite EB in E3; apply Ret_inj in E2, E3.
    injection E2 as <-; injection E3 as <-; exists C; split; [exact E4|].
    eapply meq_trans; [apply mmul_ext; eassumption|apply meq_sym; exact E5]. }
  assert (HV2 : forall g gi x gx A B, In g (map fst gens) -> mem x -> inv g = Ret gi -> op gi x = Ret gx -> V g A -> V x B -> V gx (mmul d (mtr A) B)).
  { intros g gi x gx A B Ig Mx Ei E (A' & EA & HAA) (B' & EB & HBB); pose proof (proj1 (Forall_forall _ _) Hgens g Ig) as Mg.
    destruct (grp_inv _ _ _ _ HG g Mg) as (gi' & Ei' & Mgi); rewrite Ei in Ei'; apply Ret_inj in Ei'; subst gi'.
    destruct (or_inv _ _ _ _ _ _ HF g Mg) as (gi' & A1 & Ai & X1 & X2 & X3 & X4).
    rewrite Ei in X1; apply Ret_inj in X1; subst gi'; rewrite EA in X2; apply Ret_inj in X2; injection X2 as <-.
    destruct (or_mul _ _ _ _ _ _ HF gi x Mgi Mx) as (gx' & A2 & B1 & C & E1 & E2 & E3 & E4 & E5).
    rewrite E in E1; apply Ret_inj in E1; subst gx'; rewrite X3 in E2; rewrite EB in E3; apply Ret_inj in E2, E3.
    injection E2 as <-; injection E3 as <-; exists C; split; [exact E4|].
    eapply meq_trans; [|apply meq_sym; exact E5]; apply mmul_ext; [|exact HBB].
    eapply meq_trans; [apply mtr_ext; exact HAA|apply meq_sym; exact X4]. }
  pose proof (grp_id _ _ _ _ HG) as Me.
  assert (Ve : V e mid) by (destruct (or_unit _ _ _ _ _ _ HF) as (A & EA & HAA); exists A; split; [exact EA|apply meq_sym; exact HAA]).
  destruct (init_keys V gens [] Hgens) as [G0 K0].
  { intros g A I; destruct (HA g A I) as (B & EB & _ & M); exists B; split; assumption. }
  { split; [constructor|intros x A _ H; discriminate H]. }
  assert (G1 : good mem eqb V (init_rho eqb e gens)) by (apply good_set; assumption).
  assert (K1 : forall x, In x (map fst gens) \/ x = e -> In x (keys (init_rho eqb e gens))).
  { intros x H; apply (dset_keys mem eqb Hd e mid _ Me (proj1 G0)); destruct H as [H|H]; [left; apply K0; right; exact H|right; exact H]. }
  assert (Le : (1 <= length els)%nat).
  { destruct els as [|z l] eqn:X; [exfalso; apply (proj2 He e) in Me; destruct Me|cbn; lia]. }
  destruct (bfs_ok mem eqb op inv e els order HG He Hd Hord d V (map fst gens) Hgens HV1 HV2 fuel (init_rho eqb e gens) [e] [e])
    as (rho & elements & Eb & G2 & F2 & N2 & I2 & K2 & C2); auto.
  { repeat constructor; intros []. }
  { intros x [<-|[]]; apply K1; auto. }
  { intros x; auto. }
  { cbn; lia. }
  { intros _; cbn; lia. }
  assert (All : forall x, mem x -> In x elements).
  { intros x Mx; pose proof (Hgen x Mx) as Gx; clear Mx; induction Gx as [|g x y Ig Gx IH Ey]; [apply I2; left; reflexivity|].
    eapply C2; eassumption. }
  assert (Len : length elements = length els).
  { apply Nat.le_antisymm; apply NoDup_incl_length; try assumption; try apply He.
    - intros x I; apply He; rewrite Forall_forall in F2; apply F2, I.
    - intros x I; apply All, He, I. }
  assert (Val : forall x, mem x -> exists A B, dget eqb rho x = Ret A /\ F x = Ret (d, B) /\ meq d d A B).
  { intros x Mx; destruct (proj1 (dget_some mem eqb Hd rho x Mx (proj1 G2)) (K2 x (All x Mx))) as (A & EA).
    destruct (proj2 G2 x A Mx EA) as (B & EB & M); exists A, B; auto. }
  exists rho; split; [|exact Val].
  unfold generate; rewrite (proj2 (Nat.ltb_lt _ _)) by lia; cbn [bind assert_].
  destruct gens as [|[g0 [d0 A0]] gs] eqn:Eg; [congruence|rewrite <- Eg in *].
  assert (d0 = d) by (destruct (HA g0 (d0, A0)) as (B & _ & Y & _); [rewrite Eg; left; reflexivity|exact Y]); subst d0.
  assert (X : exists u, mapM (fun ga => assert Nat.eqb (fst (snd ga)) d ;; Ret tt) gens = Ret u).
  { exists (map (fun _ => tt) gens); apply mapM_Ret_map; intros [g A] I; destruct (HA g A I) as (_ & _ & Y & _); cbn [snd]; rewrite Y, Nat.eqb_refl; reflexivity. }
  destruct X as (u & X); rewrite X; cbn [bind]; rewrite Eb; cbn [bind]; rewrite Len, Nat.eqb_refl; cbn [bind assert_].
  assert (CH : check_all eqb op inv order d rho elements = Ret tt).
  { apply check_ok; intros a Ia; pose proof (proj1 (Forall_forall _ _) F2 a Ia) as Ma.
    destruct (or_inv _ _ _ _ _ _ HF a Ma) as (ai & A & B & E1 & E2 & E3 & E4).
    destruct (grp_inv _ _ _ _ HG a Ma) as (z & Ez & Mai); rewrite E1 in Ez; apply Ret_inj in Ez; subst z.
    destruct (Val ai Mai) as (Ai' & Y & D1 & D2 & D3); rewrite E3 in D2; apply Ret_inj in D2; injection D2 as <-.
    destruct (Val a Ma) as (A' & Y & D4 & D5 & D6); rewrite E2 in D5; apply Ret_inj in D5; injection D5 as <-.
    exists ai, Ai', A'; split; [exact E1|]; split; [apply (smem_In mem eqb Hd); auto|]; split; [exact D1|]; split; [exact D4|]; split.
    - apply allclose_meq; eapply meq_trans; [exact D3|]; eapply meq_trans; [exact E4|apply mtr_ext, meq_sym, D6].
    - intros b Ib; pose proof (proj1 (Forall_forall _ _) F2 b Ib) as Mb.
      destruct (or_mul _ _ _ _ _ _ HF a b Ma Mb) as (ab & A1 & B1 & C & X1 & X2 & X3 & X4 & X5).
      destruct (grp_op _ _ _ _ HG a b Ma Mb) as (z & Ez & Mab); rewrite X1 in Ez; apply Ret_inj in Ez; subst z.
      rewrite E2 in X2; apply Ret_inj in X2; injection X2 as <-.
      destruct (Val b Mb) as (B' & Y & H1 & H2 & H3); rewrite X3 in H2; apply Ret_inj in H2; injection H2 as <-.
      destruct (Val ab Mab) as (C' & Y & H4 & H5 & H6); rewrite X4 in H5; apply Ret_inj in H5; injection H5 as <-.
      exists ab, B', C'; split; [exact X1|]; split; [apply (smem_In mem eqb Hd); auto|]; split; [exact H1|]; split; [exact H4|].
      apply allclose_meq; eapply meq_trans; [apply mmul_ext; eassumption|]; eapply meq_trans; [apply meq_sym; exact X5|apply meq_sym; exact H6]. }
  rewrite CH; reflexivity.
Qed.

(** What a returned dictionary satisfies, whatever the matrices were. *)
Theorem generate_checked : forall fuel rho, (length els < fuel)%nat ->
  generate eqb op inv e els order fuel gens = Ret rho -> exists g0 d A0 gs, gens = (g0, (d, A0)) :: gs /\
  forall a b, mem a -> mem b -> exists ai ab Ai A B AB,
    inv a = Ret ai /\ op a b = Ret ab /\ dget eqb rho ai = Ret Ai /\ dget eqb rho a = Ret A /\ dget eqb rho b = Ret B /\
    dget eqb rho ab = Ret AB /\
    (forall i j, (i < d)%nat -> (j < d)%nat -> Rabs (Ai i j - A j i) <= / 10 ^ 8 + / 10 ^ 5 * Rabs (A j i)) /\
    (forall i j, (i < d)%nat -> (j < d)%nat -> Rabs (mmul d A B i j - AB i j) <= / 10 ^ 8 + / 10 ^ 5 * Rabs (AB i j)).
Proof.
  intros fuel rho Hfuel H; unfold generate in H; apply assert_Ret in H as [_ H].
  destruct gens as [|[g0 [d A0]] gs] eqn:Eg; [discriminate H|rewrite <- Eg in *].
  apply bind_Ret in H as (u & _ & H); apply bind_Ret in H as ([rho' elements] & Eb & H); cbv beta iota zeta in H.
  apply assert_Ret in H as [El H]; apply bind_Ret in H as ([] & Ec & H); apply Ret_inj in H; subst rho'.
  apply Nat.eqb_eq in El; exists g0, d, A0, gs; split; [exact Eg|].
  pose proof (grp_id _ _ _ _ HG) as Me.
  destruct (init_keys (fun _ _ => True) gens [] Hgens) as [G0 K0]; [auto|split; [constructor|auto]|].
  assert (G1 : good mem eqb (fun _ _ => True) (init_rho eqb e gens)) by (apply good_set; auto).
  assert (K1 : forall x, In x (map fst gens) \/ x = e -> In x (keys (init_rho eqb e gens))).
  { intros x H; apply (dset_keys mem eqb Hd e mid _ Me (proj1 G0)); destruct H as [H|H]; [left; apply K0; right; exact H|right; exact H]. }
  assert (Le : (1 <= length els)%nat).
  { destruct els as [|z l] eqn:X; [exfalso; apply (proj2 He e) in Me; destruct Me|cbn; lia]. }
  destruct (bfs_ok mem eqb op inv e els order HG He Hd Hord d (fun _ _ => True) (map fst gens) Hgens
    ltac:(auto) ltac:(auto) fuel (init_rho eqb e gens) [e] [e]) as (r2 & e2 & Eb2 & _ & F2 & N2 & _); auto.
  { repeat constructor; intros []. }
  { intros x [<-|[]]; apply K1; auto. }
  { intros x; auto. }
  { cbn; lia. }
  { intros _; cbn; lia. }
  rewrite Eb in Eb2; apply Ret_inj in Eb2; injection Eb2 as <- <-.
  assert (All : forall x, mem x -> In x elements).
  { intros x Mx; apply (NoDup_length_incl N2 (l' := els)); [lia| |apply He; exact Mx].
    intros y I; apply He; rewrite Forall_forall in F2; apply F2, I. }
  intros a b Ma Mb; destruct (proj1 (check_ok d rho elements) Ec a (All a Ma)) as (ai & Ai & A & E1 & _ & E3 & E4 & E5 & K).
  destruct (K b (All b Mb)) as (ab & B & AB & F1 & _ & F3 & F4 & F5).
  exists ai, ab, Ai, A, B, AB; do 6 (split; [assumption|]).
  split; intros i j Hi Hj; apply Rleb_true; [exact (proj1 (allclose_true _ _ _ _) E5 i j Hi Hj)|exact (proj1 (allclose_true _ _ _ _) F5 i j Hi Hj)].
Qed.
End Main.
