(** The breadth-first generation of irrep matrices when several values stand for
    the same element, as the two quaternions of a rotation do: [c] is the
    element behind a value. *)
From Coq Require Import Reals ZArith Bool List Lia Lra Arith Permutation.
From Verif Require Import LibRes LibList LibMat LibMatS LibTrig SpecGroup ParamModel ParamProofs IrrepModel SpecRep RepModel RepProofs
  RegModel SpecReg GenModel SpecGen GenProofs.
Import ListNotations.
Open Scope R_scope.

Section Gen.
Context {T U : Type}.
Variable c : T -> U.
Variables (mem : T -> Prop) (eqb : T -> T -> bool) (op : T -> T -> res T) (inv : T -> res T) (e : T).
Variables (els : list T) (order : list T -> list T).
Hypothesis HG : is_group mem op inv e.
Hypothesis He : enumerates_by c mem els.
Hypothesis Hd : decides_by c mem eqb.
Hypothesis Hord : forall l, Permutation l (order l).

Lemma csmem_In : forall x l, mem x -> Forall mem l -> (smem eqb x l = true <-> In (c x) (map c l)).
Proof.
  intros x l Hx Hl; unfold smem; rewrite existsb_exists, in_map_iff; rewrite Forall_forall in Hl; split.
  - intros (y & I & E); exists y; split; [symmetry; apply Hd; auto|exact I].
  - intros (y & E & I); exists y; split; [exact I|apply Hd; auto].
Qed.

Lemma csadd_In : forall x l, mem x -> Forall mem l -> Forall mem (sadd eqb l x) /\
  (NoDup (map c l) -> NoDup (map c (sadd eqb l x))) /\ forall u, In u (map c (sadd eqb l x)) <-> In u (map c l) \/ u = c x.
Proof.
  intros x l Hx Hl; unfold sadd; destruct (smem eqb x l) eqn:E.
  - apply csmem_In in E; auto; split; [exact Hl|split; [auto|]]; intros y; split; [auto|intros [H| ->]; assumption].
  - rewrite map_app; cbn [map]; split; [apply Forall_app; split; [exact Hl|repeat constructor; exact Hx]|split].
    + intros Nd; apply NoDup_app_intro; [exact Nd|repeat constructor; intros []|].
      intros z I [<-|[]]; apply csmem_In in I; auto; congruence.
    + intros y; rewrite in_app_iff; cbn; intuition.
Qed.

Definition ckeys (rho : list (T * mat)) := map c (map fst rho).

Lemma cdset_keys : forall x A rho, mem x -> Forall mem (keys rho) ->
  Forall mem (keys (dset eqb rho x A)) /\ forall u, In u (ckeys (dset eqb rho x A)) <-> In u (ckeys rho) \/ u = c x.
Proof.
  intros x A; induction rho as [|[y B] rho IH]; intros Hx Hl; cbn.
  - split; [repeat constructor; exact Hx|intros y; intuition].
  - inversion Hl as [|? ? My Ml]; subst; cbn in My; destruct (eqb x y) eqn:E.
    + apply Hd in E; auto; cbn; split; [constructor; assumption|intros z; rewrite E; intuition].
    + destruct (IH Hx Ml) as [F K]; cbn; split; [constructor; assumption|].
      intros z; specialize (K z); unfold ckeys in K; rewrite K; intuition.
Qed.

Lemma cdget_dset : forall x A rho y, mem x -> mem y -> Forall mem (keys rho) ->
  (c y = c x -> dget eqb (dset eqb rho x A) y = Ret A) /\
  (c y <> c x -> dget eqb (dset eqb rho x A) y = dget eqb rho y).
Proof.
  intros x A; induction rho as [|[z B] rho IH]; intros y Hx Hy Hl; cbn.
  - split; intros E; destruct (eqb y x) eqn:F; try reflexivity; [|apply Hd in F; auto; contradiction].
    assert (eqb y x = true) by (apply Hd; auto); congruence.
  - inversion Hl as [|? ? Mz Ml]; subst; cbn in Mz; destruct (eqb x z) eqn:E; cbn.
    + apply Hd in E; auto; split; intros F; destruct (eqb y z) eqn:G; try reflexivity.
      * assert (eqb y z = true) by (apply Hd; auto; congruence); congruence.
      * apply Hd in G; auto; congruence.
    + destruct (IH y Hx Hy Ml) as [P Q]; split; intros F; destruct (eqb y z) eqn:G; try reflexivity; auto.
      apply Hd in G; auto; assert (eqb x z = true) by (apply Hd; auto; congruence); congruence.
Qed.

Lemma cdget_some : forall rho x, mem x -> Forall mem (keys rho) -> (In (c x) (ckeys rho) <-> exists A, dget eqb rho x = Ret A).
Proof.
  induction rho as [|[y B] rho IH]; intros x Hx Hl; cbn.
  - split; [intros []|intros (A & H); discriminate H].
  - inversion Hl as [|? ? My Ml]; subst; cbn in My; destruct (eqb x y) eqn:E.
    + apply Hd in E; auto; split; [eexists; reflexivity|auto].
    + specialize (IH x Hx Ml); unfold ckeys in IH; rewrite <- IH; split; [|auto].
      intros [K|H]; [|exact H]; assert (eqb x y = true) by (apply Hd; auto); congruence.
Qed.

Lemma cdmem_key : forall rho x, mem x -> Forall mem (keys rho) -> (dmem eqb rho x = true <-> In (c x) (ckeys rho)).
Proof. intros; apply csmem_In; assumption. Qed.

(** everything that is true of the values, abstractly *)
Variable d : nat.
Variable V : T -> mat -> Prop.
Hypothesis HVc : forall x y A, mem x -> mem y -> c x = c y -> V x A -> V y A.

Variable gens : list T.
Hypothesis Hgens : Forall mem gens.
Hypothesis HV1 : forall g x gx A B, In g gens -> mem x -> op g x = Ret gx -> V g A -> V x B -> V gx (mmul d A B).
Hypothesis HV2 : forall g gi x gx A B, In g gens -> mem x -> inv g = Ret gi -> op gi x = Ret gx -> V g A -> V x B ->
  V gx (mmul d (mtr A) B).

(** every entry of the dictionary *)
Definition cgood (rho : list (T * mat)) : Prop := Forall (fun kv => mem (fst kv) /\ V (fst kv) (snd kv)) rho.

Lemma cg_mem : forall rho, cgood rho -> Forall mem (keys rho).
Proof. intros rho H; unfold keys; rewrite Forall_map; eapply Forall_impl; [|exact H]; cbn; tauto. Qed.

Lemma cg_val : forall rho, cgood rho -> forall x A, mem x -> dget eqb rho x = Ret A -> V x A.
Proof.
  induction rho as [|[y B] rho IH]; intros H x A Mx E; [discriminate E|].
  inversion H as [|? ? [My Vy] Hr]; subst; cbn in E, My, Vy; destruct (eqb x y) eqn:K; [|apply IH; assumption].
  apply Ret_inj in E; subst; apply Hd in K; auto; apply (HVc y x); auto.
Qed.

Lemma cgood_set : forall rho x A, cgood rho -> mem x -> V x A -> cgood (dset eqb rho x A).
Proof.
  induction rho as [|[y B] rho IH]; intros x A H Mx HA; cbn; [repeat constructor; assumption|].
  inversion H as [|? ? [My Vy] Hr]; subst; cbn in My, Vy; destruct (eqb x y) eqn:K.
  - constructor; [cbn; split; [exact My|]|exact Hr]; apply Hd in K; auto; apply (HVc x y); auto.
  - constructor; [cbn; split; assumption|apply IH; assumption].
Qed.

Definition csub_keys (a b : list (T * mat)) := forall u, In u (ckeys a) -> In u (ckeys b).

(** one conditional assignment *)
Lemma cset_step : forall rho g x y (M : mat -> mat), cgood rho -> mem g -> mem x -> mem y ->
  In (c g) (ckeys rho) -> In (c x) (ckeys rho) -> (forall A B, V g A -> V x B -> V y (mmul d (M A) B)) ->
  exists rho', (if dmem eqb rho y then Ret rho
    else A <- dget eqb rho g ;; B <- dget eqb rho x ;; Ret (dset eqb rho y (mmul d (M A) B))) = Ret rho' /\
    cgood rho' /\ csub_keys rho rho' /\ In (c y) (ckeys rho').
Proof.
  intros rho g x y M G Mg Mx My Kg Kx HM; destruct (dmem eqb rho y) eqn:E.
  - apply cdmem_key in E; [|exact My|apply (cg_mem _ G)]; exists rho; split; [reflexivity|split; [exact G|split; [intros z; auto|exact E]]].
  - destruct (proj1 (cdget_some rho g Mg (cg_mem _ G)) Kg) as (A & EA); destruct (proj1 (cdget_some rho x Mx (cg_mem _ G)) Kx) as (B & EB).
    rewrite EA, EB; cbn [bind]; eexists; split; [reflexivity|].
    pose proof (cdset_keys y (mmul d (M A) B) rho My (cg_mem _ G)) as [F K].
    split; [apply cgood_set; [exact G|exact My|]|split; [intros z I; apply K; auto|apply K; auto]].
    apply HM; [exact (cg_val _ G g A Mg EA)|exact (cg_val _ G x B Mx EB)].
Qed.

Lemma cvisit_ok : forall g x rho new, In g gens -> mem x -> cgood rho -> In (c g) (ckeys rho) -> In (c x) (ckeys rho) ->
  Forall mem new -> NoDup (map c new) -> (forall u, In u (map c new) -> In u (ckeys rho)) ->
  exists gx gi gix rho' new', op g x = Ret gx /\ inv g = Ret gi /\ op gi x = Ret gix /\
    visit eqb op inv d g (rho, new) x = Ret (rho', new') /\ cgood rho' /\ csub_keys rho rho' /\
    Forall mem new' /\ NoDup (map c new') /\ (forall u, In u (map c new') -> In u (ckeys rho')) /\
    forall u, In u (map c new') <-> In u (map c new) \/ u = c gx \/ u = c gix.
Proof.
  intros g x rho new Ig Mx G Kg Kx Fn Nn Kn.
  pose proof (proj1 (Forall_forall _ _) Hgens g Ig) as Mg.
  destruct (grp_op _ _ _ _ HG g x Mg Mx) as (gx & Egx & Mgx).
  destruct (grp_inv _ _ _ _ HG g Mg) as (gi & Egi & Mgi).
  destruct (grp_op _ _ _ _ HG gi x Mgi Mx) as (gix & Egix & Mgix).
  destruct (cset_step rho g x gx (fun A => A) G Mg Mx Mgx Kg Kx) as (r1 & E1 & G1 & S1 & K1).
  { intros A B HA HB; exact (HV1 g x gx A B Ig Mx Egx HA HB). }
  destruct (cset_step r1 g x gix mtr G1 Mg Mx Mgix (S1 _ Kg) (S1 _ Kx)) as (r2 & E2 & G2 & S2 & K2).
  { intros A B HA HB; exact (HV2 g gi x gix A B Ig Mx Egi Egix HA HB). }
  destruct (csadd_In gx new Mgx Fn) as (F1 & N1 & I1).
  destruct (csadd_In gix _ Mgix F1) as (F2 & N2 & I2).
  assert (IN : forall u, In u (map c (sadd eqb (sadd eqb new gx) gix)) <-> In u (map c new) \/ u = c gx \/ u = c gix).
  { intros y; rewrite I2, I1; tauto. }
  exists gx, gi, gix, r2, (sadd eqb (sadd eqb new gx) gix).
  split; [exact Egx|split; [exact Egi|split; [exact Egix|split]]].
  - unfold visit; rewrite Egx; cbn [bind]; cbv beta in E1; rewrite E1; cbn [bind]; rewrite Egi; cbn [bind]; rewrite Egix; cbn [bind].
    rewrite E2; reflexivity.
  - split; [exact G2|split; [intros z I; apply S2, S1, I|split; [exact F2|split; [apply N2, N1, Nn|split; [|exact IN]]]]].
    intros y I; apply IN in I as [I|[-> | ->]]; [apply S2, S1, Kn, I|apply S2, K1|exact K2].
Qed.

(** all elements for one generator *)
Lemma cvisits_ok : forall g, In g gens -> forall l rho new, Forall mem l -> cgood rho -> In (c g) (ckeys rho) ->
  (forall x, In x l -> In (c x) (ckeys rho)) ->
  Forall mem new -> NoDup (map c new) -> (forall u, In u (map c new) -> In u (ckeys rho)) ->
  exists rho' new', foldM (visit eqb op inv d g) l (rho, new) = Ret (rho', new') /\ cgood rho' /\ csub_keys rho rho' /\
    Forall mem new' /\ NoDup (map c new') /\ (forall u, In u (map c new') -> In u (ckeys rho')) /\
    (forall u, In u (map c new) -> In u (map c new')) /\
    (forall x gx, In x l -> op g x = Ret gx -> In (c gx) (map c new')).
Proof.
  intros g Ig; induction l as [|x l IH]; intros rho new Fl G Kg Kl Fn Nn Kn; cbn [foldM].
  - exists rho, new; split; [reflexivity|]; split; [exact G|]; split; [intros y; auto|]; split; [exact Fn|]; split; [exact Nn|].
    split; [exact Kn|]; split; [auto|intros ? ? []].
  - inversion Fl as [|? ? Mx Ml]; subst.
    destruct (cvisit_ok g x rho new Ig Mx G Kg (Kl x (or_introl eq_refl)) Fn Nn Kn)
      as (gx & gi & gix & r1 & n1 & E1 & E2 & E3 & EV & G1 & S1 & F1 & N1 & K1 & I1).
    rewrite EV; cbn [bind].
    destruct (IH r1 n1 Ml G1 (S1 _ Kg) (fun y I => S1 _ (Kl y (or_intror I))) F1 N1 K1)
      as (r2 & n2 & E & G2 & S2 & F2 & N2 & K2 & M2 & P2).
    exists r2, n2; split; [exact E|]; split; [exact G2|]; split; [intros y I; apply S2, S1, I|]; split; [exact F2|]; split; [exact N2|].
    split; [exact K2|]; split; [intros y I; apply M2, I1; auto|].
    intros z gz [<-|I] Ez; [apply M2, I1; right; left; congruence|eapply P2; eassumption].
Qed.

Lemma cround_ok : forall l, Forall mem l -> forall gs rho new, incl gs gens -> cgood rho ->
  (forall g, In g gs -> In (c g) (ckeys rho)) -> (forall x, In x l -> In (c x) (ckeys rho)) ->
  Forall mem new -> NoDup (map c new) -> (forall u, In u (map c new) -> In u (ckeys rho)) ->
  exists rho' new', foldM (fun st g => foldM (visit eqb op inv d g) l st) gs (rho, new) = Ret (rho', new') /\ cgood rho' /\ csub_keys rho rho' /\
    Forall mem new' /\ NoDup (map c new') /\ (forall u, In u (map c new') -> In u (ckeys rho')) /\
    (forall u, In u (map c new) -> In u (map c new')) /\
    (forall g x gx, In g gs -> In x l -> op g x = Ret gx -> In (c gx) (map c new')).
Proof.
  intros l Fl; induction gs as [|g gs IH]; intros rho new Sg G Kg Kl Fn Nn Kn; cbn [foldM].
  - exists rho, new; split; [reflexivity|]; split; [exact G|]; split; [intros y; auto|]; split; [exact Fn|]; split; [exact Nn|].
    split; [exact Kn|]; split; [auto|intros ? ? ? []].
  - destruct (cvisits_ok g (Sg g (or_introl eq_refl)) l rho new Fl G (Kg g (or_introl eq_refl)) Kl Fn Nn Kn)
      as (r1 & n1 & E1 & G1 & S1 & F1 & N1 & K1 & M1 & P1).
    rewrite E1; cbn [bind].
    destruct (IH r1 n1) as (r2 & n2 & E & G2 & S2 & F2 & N2 & K2 & M2 & P2); auto.
    { intros z I; apply Sg; right; exact I. }
    { intros z I; apply S1, Kg; right; exact I. }
    exists r2, n2; split; [exact E|]; split; [exact G2|]; split; [intros y I; apply S2, S1, I|]; split; [exact F2|]; split; [exact N2|].
    split; [exact K2|]; split; [intros y I; apply M2, M1, I|].
    intros h x gx [<-|I] Ix Ex; [apply M2; eapply P1; eassumption|eapply P2; eassumption].
Qed.

(** the loop *)
Lemma cbfs_ok : forall fuel rho elements added,
  cgood rho -> (forall g, In g gens -> In (c g) (ckeys rho)) -> Forall mem elements -> NoDup (map c elements) ->
  (forall x, In x elements -> In (c x) (ckeys rho)) -> incl added elements ->
  (forall g x gx, In g gens -> In x elements -> op g x = Ret gx -> In x added \/ In (c gx) (map c elements)) ->
  (length els - length elements < fuel)%nat ->
  (added <> [] -> length els - length elements + 1 < fuel)%nat ->
  exists rho' elements', bfs eqb op inv order fuel d gens rho elements added = Ret (rho', elements') /\
    cgood rho' /\ Forall mem elements' /\ NoDup (map c elements') /\ incl elements elements' /\
    (forall x, In x elements' -> In (c x) (ckeys rho')) /\
    (forall g x gx, In g gens -> In x elements' -> op g x = Ret gx -> In (c gx) (map c elements')).
Proof.
  induction fuel as [|fuel IH]; intros rho elements added G Kg Fe Ne Ke Ia Hc Hf Hf2; [lia|cbn [bfs]].
  destruct added as [|a0 added0] eqn:Ea.
  - exists rho, elements; split; [reflexivity|]; split; [exact G|]; split; [exact Fe|]; split; [exact Ne|]; split; [intros x; auto|].
    split; [exact Ke|]; intros g x gx Ig Ix Ex; destruct (Hc g x gx Ig Ix Ex) as [[]|H]; exact H.
  - rewrite <- Ea in *; specialize (Hf2 ltac:(rewrite Ea; discriminate)).
    assert (Fa : Forall mem (order added)).
    { apply Forall_forall; intros x I; apply Permutation_in with (l' := added) in I; [|apply Permutation_sym, Hord].
      rewrite Forall_forall in Fe; apply Fe, Ia, I. }
    destruct (cround_ok (order added) Fa gens rho []) as (r1 & n1 & E1 & G1 & S1 & F1 & N1 & K1 & _ & P1); auto.
    { intros z; auto. }
    { intros x I; apply Ke, Ia; apply Permutation_in with (l := order added); [apply Permutation_sym, Hord|exact I]. }
    { constructor. }
    { intros y []. }
    rewrite E1; cbn [bind snd fst]; set (ad := filter (fun x => negb (smem eqb x elements)) n1).
    assert (Iad : forall x, In x ad <-> In x n1 /\ ~ In (c x) (map c elements)).
    { intros x; unfold ad; rewrite filter_In, negb_true_iff; split; intros [I H]; split; auto.
      - intros J; apply csmem_In in J; [congruence|rewrite Forall_forall in F1; auto|exact Fe].
      - destruct (smem eqb x elements) eqn:S; [|reflexivity]; apply csmem_In in S; [contradiction|rewrite Forall_forall in F1; auto|exact Fe]. }
    assert (Fad : Forall mem ad).
    { apply Forall_forall; intros x I; apply Iad in I; rewrite Forall_forall in F1; apply F1, I. }
    assert (Nad : NoDup (map c (elements ++ ad))).
    { rewrite map_app; apply NoDup_app_intro; [exact Ne| |].
      - clear - N1; unfold ad; induction n1 as [|z n1 IHn]; cbn; [constructor|]; inversion N1 as [|? ? Hz Hn]; subst.
        destruct (negb (smem eqb z elements)); cbn; [|auto]; constructor; [|auto].
        rewrite in_map_iff in *; intros (y & E & I); apply Hz; apply filter_In in I; exists y; tauto.
      - intros u I J; apply in_map_iff in J as (x & <- & J); apply Iad in J as [_ J]; contradiction. }
    assert (Le : (length (elements ++ ad) <= length els)%nat).
    { rewrite <- (map_length c (elements ++ ad)), <- (map_length c els); apply NoDup_incl_length; [exact Nad|].
      intros u I; apply in_map_iff in I as (x & <- & I); apply (eb_all _ _ _ He); apply in_app_iff in I as [I|I];
      [rewrite Forall_forall in Fe; auto|rewrite Forall_forall in Fad; auto]. }
    rewrite app_length in Le.
    destruct (IH r1 (elements ++ ad) ad) as (r2 & e2 & E2 & G2 & F2 & N2 & I2 & K2 & C2); auto.
    + apply Forall_app; split; assumption.
    + intros x I; apply in_app_iff in I as [I|I]; [apply S1, Ke, I|apply K1, in_map; apply Iad in I; apply I].
    + intros x I; apply in_app_iff; right; exact I.
    + intros g x gx Ig Ix Ex; rewrite map_app; apply in_app_iff in Ix as [Ix|Ix]; [|left; exact Ix].
      destruct (Hc g x gx Ig Ix Ex) as [J|J]; [|right; apply in_app_iff; left; exact J].
      assert (J' : In (c gx) (map c n1)).
      { eapply P1; [exact Ig| |exact Ex]; apply Permutation_in with (l := added); [apply Hord|exact J]. }
      right; apply in_app_iff; apply in_map_iff in J' as (y & Ey & Iy); rewrite <- Ey; destruct (smem eqb y elements) eqn:S.
      * left; apply csmem_In in S; [exact S|rewrite Forall_forall in F1; auto|exact Fe].
      * right; apply in_map, Iad; split; [exact Iy|]; intros K; apply csmem_In in K; [congruence|rewrite Forall_forall in F1; auto|exact Fe].
    + rewrite app_length; lia.
    + intros Nn; rewrite app_length; destruct ad as [|z ad']; [congruence|cbn [length] in *; lia].
    + exists r2, e2; split; [exact E2|]; split; [exact G2|]; split; [exact F2|]; split; [exact N2|].
      split; [intros x I; apply I2, in_app_iff; left; exact I|]; split; [exact K2|exact C2].
Qed.

End Gen.

Section Main.
Context {T U : Type}.
Variable c : T -> U.
Variables (mem : T -> Prop) (eqb : T -> T -> bool) (op : T -> T -> res T) (inv : T -> res T) (e : T).
Variables (els : list T) (order : list T -> list T).
Hypothesis HG : is_group mem op inv e.
Hypothesis Hc : forall g x y a b, mem g -> mem x -> mem y -> c x = c y -> op g x = Ret a -> op g y = Ret b -> c a = c b.
Hypothesis He : enumerates_by c mem els.
Hypothesis Hd : decides_by c mem eqb.
Hypothesis Hord : forall l, Permutation l (order l).

Lemma cinit_keys : forall (V : T -> mat -> Prop) (gens : list (T * (nat * mat))) rho,
  (forall x y A, mem x -> mem y -> c x = c y -> V x A -> V y A) -> Forall mem (map fst gens) ->
  (forall g A, In (g, A) gens -> V g (snd A)) -> cgood mem V rho ->
  let rho' := fold_left (fun rho ga => dset eqb rho (fst ga) (snd (snd ga))) gens rho in
  cgood mem V rho' /\ (forall u, In u (ckeys c rho) \/ In u (map c (map fst gens)) -> In u (ckeys c rho')).
Proof.
  intros V gens rho HVc; revert rho; induction gens as [|[g A] gens IH]; intros rho Fg HV G; cbn [fold_left map].
  - split; [exact G|intros x [H|[]]; exact H].
  - inversion Fg as [|? ? Mg Fg']; subst; cbn [fst snd] in *.
    destruct (IH (dset eqb rho g (snd A)) Fg') as [G' K'].
    { intros h B I; apply (HV h B); right; exact I. }
    { apply (cgood_set c mem eqb Hd); auto; apply (HV g A); left; reflexivity. }
    split; [exact G'|]; intros x [H|[<-|H]]; apply K'; [left|left|right; exact H];
      apply (cdset_keys c mem eqb Hd g (snd A) rho Mg (cg_mem mem V _ G)); auto.
Qed.

Variable gens : list (T * (nat * mat)).
Hypothesis Hgens : Forall mem (map fst gens).

Theorem generate_by : forall d F, gens <> [] ->
  orth_rep mem op inv e d F -> (forall x y, mem x -> mem y -> c x = c y -> F x = F y) ->
  (forall g A, In (g, A) gens -> exists B, F g = Ret (d, B) /\ fst A = d /\ meq d d (snd A) B) ->
  (forall x, mem x -> exists y, generated op e (map fst gens) y /\ c y = c x) ->
  forall fuel, (length els < fuel)%nat ->
  exists rho, generate eqb op inv e els order fuel gens = Ret rho /\
    Forall (fun kv => mem (fst kv) /\ exists B, F (fst kv) = Ret (d, B) /\ meq d d (snd kv) B) rho /\
    forall x, mem x -> exists A B, dget eqb rho x = Ret A /\ F x = Ret (d, B) /\ meq d d A B.
Proof.
  intros d F Hne HF HFc HA Hgen fuel Hfuel.
  set (V := fun x (A : mat) => exists B, F x = Ret (d, B) /\ meq d d A B).
  assert (HVc : forall x y A, mem x -> mem y -> c x = c y -> V x A -> V y A).
  { intros x y A Mx My E (B & EB & M); exists B; split; [rewrite <- (HFc x y Mx My E); exact EB|exact M]. }
  assert (HV1 : forall g x gx A B, In g (map fst gens) -> mem x -> op g x = Ret gx -> V g A -> V x B -> V gx (mmul d A B)).
  { intros g x gx A B Ig Mx E (A' & EA & HAA) (B' & EB & HBB); pose proof (proj1 (Forall_forall _ _) Hgens g Ig) as Mg.
    destruct (or_mul _ _ _ _ _ _ HF g x Mg Mx) as (gx' & A1 & B1 & C & E1 & E2 & E3 & E4 & E5).
    rewrite E in E1; apply Ret_inj in E1; subst gx'; rewrite EA in E2; rewrite EB in E3; apply Ret_inj in E2, E3.
    injection E2 as <-; injection E3 as <-; exists C; split; [exact E4|].
    eapply meq_trans; [apply mmul_ext; eassumption|apply meq_sym; exact E5]. }
  assert (HV2 : forall g gi x gx A B, In g (map fst gens) -> mem x -> inv g = Ret gi -> op gi x = Ret gx -> V g A -> V x B -> V gx (mmul d (mtr A) B)).
  { intros g gi x gx A B Ig Mx Ei E (A' & EA & HAA) (B' & EB & HBB); pose proof (proj1 (Forall_forall _ _) Hgens g Ig) as Mg.
    destruct (grp_inv _ _ _ _ HG g Mg) as (gi' & Ei' & Mgi); rewrite Ei in Ei'; apply Ret_inj in Ei'; subst gi'.
    destruct (or_inv _ _ _ _ _ _ HF g Mg) as (gi' & A1 & Ai & X1 & X2 & X3 & X4).
    rewrite Ei in X1; apply Ret_inj in X1; subst gi'; rewrite EA in X2; apply Ret_inj in X2; injection X2 as <-.
    destruct (or_mul _ _ _ _ _ _ HF gi x Mgi Mx) as (gx' & A2 & B1 & C & E1 & E2 & E3 & E4 & E5).
    rewrite E in E1; apply Ret_inj in E1; subst gx'; rewrite X3 in E2; rewrite EB in E3; apply Ret_inj in E2, E3.
    injection E2 as <-; injection E3 as <-; exists C; split; [exact E4|].
    eapply meq_trans; [|apply meq_sym; exact E5]; apply mmul_ext; [|exact HBB].
    eapply meq_trans; [apply mtr_ext; exact HAA|apply meq_sym; exact X4]. }
  pose proof (grp_id _ _ _ _ HG) as Me.
  assert (Ve : V e mid) by (destruct (or_unit _ _ _ _ _ _ HF) as (A & EA & HAA); exists A; split; [exact EA|apply meq_sym; exact HAA]).
  destruct (cinit_keys V gens [] HVc Hgens) as [G0 K0].
  { intros g A I; destruct (HA g A I) as (B & EB & _ & M); exists B; split; assumption. }
  { constructor. }
  assert (G1 : cgood mem V (init_rho eqb e gens)) by (apply (cgood_set c mem eqb Hd); assumption).
  assert (K1 : forall u, In u (map c (map fst gens)) \/ u = c e -> In u (ckeys c (init_rho eqb e gens))).
  { intros x H; apply (cdset_keys c mem eqb Hd e mid _ Me (cg_mem mem V _ G0)); destruct H as [H|H]; [left; apply K0; right; exact H|right; exact H]. }
  assert (Le : (1 <= length els)%nat).
  { pose proof (eb_all _ _ _ He e Me) as I; destruct els as [|z l]; [destruct I|cbn; lia]. }
  destruct (cbfs_ok c mem eqb op inv e els order HG He Hd Hord d V HVc (map fst gens) Hgens HV1 HV2 fuel (init_rho eqb e gens) [e] [e])
    as (rho & elements & Eb & G2 & F2 & N2 & I2 & K2 & C2); auto.
  { intros g I; apply K1; left; apply in_map; exact I. }
  { repeat constructor; intros []. }
  { intros x [<-|[]]; apply K1; auto. }
  { intros x; auto. }
  { cbn; lia. }
  { intros _; cbn; lia. }
  assert (MG : forall y, generated op e (map fst gens) y -> mem y).
  { intros y Gy; induction Gy as [|g x y Ig Gx IH Ey]; [exact Me|].
    pose proof (proj1 (Forall_forall _ _) Hgens g Ig) as Mg; destruct (grp_op _ _ _ _ HG g x Mg IH) as (z & Ez & Mz); congruence. }
  assert (All : forall x, mem x -> In (c x) (map c elements)).
  { intros x Mx; destruct (Hgen x Mx) as (y & Gy & <-); clear Mx; induction Gy as [|g z y Ig Gx IH Ey]; [apply in_map, I2; left; reflexivity|].
    pose proof (proj1 (Forall_forall _ _) Hgens g Ig) as Mg; pose proof (MG z Gx) as Mz.
    apply in_map_iff in IH as (w & Ew & Iw); pose proof (proj1 (Forall_forall _ _) F2 w Iw) as Mw.
    destruct (grp_op _ _ _ _ HG g w Mg Mw) as (gw & Egw & _).
    rewrite (Hc g z w y gw Mg Mz Mw (eq_sym Ew) Ey Egw); eapply C2; eassumption. }
  assert (Len : length elements = length els).
  { rewrite <- (map_length c elements), <- (map_length c els); apply Nat.le_antisymm; apply NoDup_incl_length; try assumption; try apply He.
    - intros u I; apply in_map_iff in I as (x & <- & I); apply (eb_all _ _ _ He); rewrite Forall_forall in F2; apply F2, I.
    - intros u I; apply in_map_iff in I as (x & <- & I); apply All; pose proof (eb_mem _ _ _ He) as Q; rewrite Forall_forall in Q; auto. }
  assert (Key : forall x, mem x -> In (c x) (ckeys c rho)).
  { intros x Mx; pose proof (All x Mx) as I; apply in_map_iff in I as (y & <- & I); apply K2, I. }
  assert (Val : forall x, mem x -> exists A B, dget eqb rho x = Ret A /\ F x = Ret (d, B) /\ meq d d A B).
  { intros x Mx; destruct (proj1 (cdget_some c mem eqb Hd rho x Mx (cg_mem mem V _ G2)) (Key x Mx)) as (A & EA).
    destruct (cg_val c mem eqb Hd V HVc _ G2 x A Mx EA) as (B & EB & M); exists A, B; auto. }
  exists rho; split; [|split; [exact G2|exact Val]].
  unfold generate; rewrite (proj2 (Nat.ltb_lt _ _)) by lia; cbn [bind assert_].
  destruct gens as [|[g0 [d0 A0]] gs] eqn:Eg; [congruence|rewrite <- Eg in *].
  assert (d0 = d) by (destruct (HA g0 (d0, A0)) as (B & _ & Y & _); [rewrite Eg; left; reflexivity|exact Y]); subst d0.
  assert (X : exists u, mapM (fun ga => assert Nat.eqb (fst (snd ga)) d ;; Ret tt) gens = Ret u).
  { exists (map (fun _ => tt) gens); apply mapM_Ret_map; intros [g A] I; destruct (HA g A I) as (_ & _ & Y & _); cbn [snd]; rewrite Y, Nat.eqb_refl; reflexivity. }
  destruct X as (u & X); rewrite X; cbn [bind]; rewrite Eb; cbn [bind]; rewrite Len, Nat.eqb_refl; cbn [bind assert_].
  assert (CH : check_all eqb op inv order d rho elements = Ret tt).
  { apply (check_ok eqb op inv order Hord); intros a Ia; pose proof (proj1 (Forall_forall _ _) F2 a Ia) as Ma.
    destruct (or_inv _ _ _ _ _ _ HF a Ma) as (ai & A & B & E1 & E2 & E3 & E4).
    destruct (grp_inv _ _ _ _ HG a Ma) as (z & Ez & Mai); rewrite E1 in Ez; apply Ret_inj in Ez; subst z.
    destruct (Val ai Mai) as (Ai' & Y & D1 & D2 & D3); rewrite E3 in D2; apply Ret_inj in D2; injection D2 as <-.
    destruct (Val a Ma) as (A' & Y & D4 & D5 & D6); rewrite E2 in D5; apply Ret_inj in D5; injection D5 as <-.
    exists ai, Ai', A'; split; [exact E1|]; split; [apply (csmem_In c mem eqb Hd); auto|]; split; [exact D1|]; split; [exact D4|]; split.
    - apply allclose_meq; eapply meq_trans; [exact D3|]; eapply meq_trans; [exact E4|apply mtr_ext, meq_sym, D6].
    - intros b Ib; pose proof (proj1 (Forall_forall _ _) F2 b Ib) as Mb.
      destruct (or_mul _ _ _ _ _ _ HF a b Ma Mb) as (ab & A1 & B1 & C & X1 & X2 & X3 & X4 & X5).
      destruct (grp_op _ _ _ _ HG a b Ma Mb) as (z & Ez & Mab); rewrite X1 in Ez; apply Ret_inj in Ez; subst z.
      rewrite E2 in X2; apply Ret_inj in X2; injection X2 as <-.
      destruct (Val b Mb) as (B' & Y & H1 & H2 & H3); rewrite X3 in H2; apply Ret_inj in H2; injection H2 as <-.
      destruct (Val ab Mab) as (C' & Y & H4 & H5 & H6); rewrite X4 in H5; apply Ret_inj in H5; injection H5 as <-.
      exists ab, B', C'; split; [exact X1|]; split; [apply (csmem_In c mem eqb Hd); auto|]; split; [exact H1|]; split; [exact H4|].
      apply allclose_meq; eapply meq_trans; [apply mmul_ext; eassumption|]; eapply meq_trans; [apply meq_sym; exact X5|apply meq_sym; exact H6]. }
  rewrite CH; reflexivity.
Qed.
End Main.
