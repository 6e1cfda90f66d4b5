(** Kernel bases remembered by the names of the representations. *)
From Coq Require Import Reals Bool List String ZArith Ascii Lia Lra.
From Verif Require Import LibRes LibMat FinGroupModel ParamModel PlanarModel IrrepModel RepModel SpecIrrep SpecRep SpecRepr RepProofs RepThms SpecCache CacheModel CacheProofs.
Import ListNotations.
Open Scope string_scope.

Section GSpace.
Context {Rep Basis Arg : Type}.
Variables (rname : Rep -> string) (ours : Rep -> bool) (arg_eqb : Arg -> Arg -> bool).
Variable on_point : Rep -> Rep -> res Basis.
Variable generator : Rep -> Rep -> list R -> list R -> list (string * Arg) -> res Basis.
Hypothesis arg_eq : forall x y, arg_eqb x y = true -> x = y.

Lemma pair_eq : forall a b, pair_eqb a b = true -> a = b.
Proof.
  intros [a b] [c d] H; unfold pair_eqb in H; cbn in H; apply andb_true_iff in H as [H1 H2].
  apply String.eqb_eq in H1, H2; subst; reflexivity.
Qed.

Lemma list_eq : forall A (eqb : A -> A -> bool), (forall x y, eqb x y = true -> x = y) ->
  forall l m, list_eqb eqb l m = true -> l = m.
Proof.
  intros A eqb He l; induction l as [|a l IH]; intros [|b m] H; cbn in H; try discriminate; [reflexivity|].
  apply andb_true_iff in H as [H1 H2]; f_equal; auto.
Qed.

Lemma Reqb_eq : forall x y, Reqb x y = true -> x = y.
Proof. intros x y; unfold Reqb; destruct (Req_EM_T x y); [auto|discriminate]. Qed.

Lemma kkey_eq : forall a b : @kkey Arg, kkey_eqb arg_eqb a b = true -> a = b.
Proof.
  intros [[[s r] k] n] [[[s' r'] k'] n'] H; unfold kkey_eqb in H.
  apply andb_true_iff in H as [H H4]; apply andb_true_iff in H as [H H3]; apply andb_true_iff in H as [H1 H2].
  apply (list_eq _ _ Reqb_eq) in H1, H2; apply pair_eq in H4; subst.
  apply list_eq in H3; [subst; reflexivity|].
  intros [x y] [x' y'] E; cbn in E; apply andb_true_iff in E as [E1 E2]; apply String.eqb_eq in E1; apply arg_eq in E2; subst; reflexivity.
Qed.

Definition identified (l : list Rep) : Prop := forall r r', In r l -> In r' l -> rname r = rname r' -> r = r'.

Lemma fiber_ok : forall h i o,
  identified (i :: o :: flat_map (fun q => [fst q; snd q]) h) -> ours i = true -> ours o = true ->
  fst (fiber_basis rname ours on_point i o (after_fiber rname ours on_point h)) = on_point i o.
Proof.
  intros h i o Hn Hi Ho.
  set (L := (i :: o :: flat_map (fun q => [fst q; snd q]) h)) in *.
  set (P := fun q : Rep * Rep => In (fst q) L /\ In (snd q) L).
  set (key := fun q : Rep * Rep => (rname (fst q), rname (snd q))).
  set (build := fun q : Rep * Rep => on_point (fst q) (snd q)).
  assert (Hc : forall p q, P p -> P q -> key p = key q -> build p = build q).
  { intros [a b] [c d] (P1 & P2) (P3 & P4) E; unfold key in E; cbn in *; injection E as E1 E2.
    unfold build; cbn; rewrite (Hn _ _ P1 P3 E1), (Hn _ _ P2 P4 E2); reflexivity. }
  assert (I : forall k v, In (k, v) (after_fiber rname ours on_point h) -> exists p, P p /\ key p = k /\ build p = Ret v).
  { assert (HP : Forall P h).
    { apply Forall_forall; intros [a b] Hq; split; right; right; apply in_flat_map; exists (a, b); cbn; auto. }
    unfold after_fiber.
    assert (I0 : forall k v, In (k, v) (@nil (string * string * Basis)) -> exists p, P p /\ key p = k /\ build p = Ret v) by (cbn; intros; contradiction).
    revert I0; generalize (@nil (string * string * Basis)); clear Hn; clearbody L; induction HP as [|q h Pq _ IH]; intros d I0; cbn [fold_left]; [exact I0|].
    apply IH. unfold fiber_basis; destruct (ours (fst q) && ours (snd q)); [|exact I0].
    apply (memo_sound _ _ _ pair_eqb key build P d q); auto; exact pair_eq. }
  unfold fiber_basis; rewrite Hi, Ho; cbn [andb].
  apply (memo_sound _ _ _ pair_eqb key build P _ (i, o)); auto.
  - exact pair_eq.
  - intros p Pp; apply Hc; [exact Pp|]; split; cbn; auto.
  - split; cbn; auto.
Qed.

Lemma kernels_ok : forall h i o p,
  identified (i :: o :: flat_map (fun q => [fst (fst q); snd (fst q)]) h) -> ours i = true -> ours o = true ->
  Forall (fun s => 0 < s)%R (sigmas p) -> List.length (sigmas p) = List.length (k_rings p) ->
  fst (kernel_basis rname ours arg_eqb generator i o p (after_kernels rname ours arg_eqb generator h)) =
    generator i o (k_rings p) (sigmas p) (k_args p).
Proof.
  intros h i o p0 Hn Hi Ho Hpos Hlen.
  set (L := (i :: o :: flat_map (fun q => [fst (fst q); snd (fst q)]) h)) in *.
  set (P := fun q : Rep * Rep * @params Arg => In (fst (fst q)) L /\ In (snd (fst q)) L).
  set (key := fun q : Rep * Rep * @params Arg => (sigmas (snd q), k_rings (snd q), k_args (snd q), (rname (fst (fst q)), rname (snd (fst q)))) : kkey).
  set (build := fun q : Rep * Rep * params => generator (fst (fst q)) (snd (fst q)) (k_rings (snd q)) (sigmas (snd q)) (k_args (snd q))).
  assert (Hc : forall p q, P p -> P q -> key p = key q -> build p = build q).
  { intros [[a b] p] [[c d] q] (P1 & P2) (P3 & P4) E; unfold key in E; cbn [fst snd] in *; injection E as E1 E2 E3 E4 E5.
    unfold build; cbn [fst snd]; rewrite (Hn _ _ P1 P3 E4), (Hn _ _ P2 P4 E5), E1, E2, E3; reflexivity. }
  assert (I : forall k v, In (k, v) (after_kernels rname ours arg_eqb generator h) -> exists p, P p /\ key p = k /\ build p = Ret v).
  { assert (HP : Forall P h).
    { apply Forall_forall; intros [[a b] p] Hq; split; right; right; apply in_flat_map; exists ((a, b), p); cbn; auto. }
    unfold after_kernels.
    assert (I0 : forall k v, In (k, v) (@nil (@kkey Arg * Basis)) -> exists p, P p /\ key p = k /\ build p = Ret v) by (cbn; intros; contradiction).
    revert I0; generalize (@nil (@kkey Arg * Basis)); clear Hn; clearbody L; induction HP as [|q h Pq _ IH]; intros d I0; cbn [fold_left]; [exact I0|].
    apply IH. unfold kernel_basis; destruct (_ && _); [|exact I0].
    apply (memo_sound _ _ _ (kkey_eqb arg_eqb) key build P d q); auto; exact kkey_eq. }
  unfold kernel_basis; rewrite Hi, Ho; cbn [andb].
  replace (forallb _ (sigmas p0)) with true.
  2: { symmetry; apply forallb_forall; intros s Hs; rewrite Forall_forall in Hpos; destruct (Rlt_dec 0 s) as [_|N]; [reflexivity|exfalso; apply N; auto]. }
  rewrite Hlen, Nat.eqb_refl; cbn [andb].
  apply (memo_sound _ _ _ (kkey_eqb arg_eqb) key build P _ (i, o, p0)); auto.
  - exact kkey_eq.
  - intros p Pp; apply Hc; [exact Pp|]; split; cbn; auto.
  - split; cbn; auto.
Qed.
End GSpace.

(** ** The restrictions of one irrep to two subgroups have the same name *)
Open Scope R_scope.

(** irrep (0, 1) of D_2: 1 at the reflections, -1 at the rotation by pi *)
Definition d2_irrep : repr pval :=
  match p_irr (Fin (Dih 2)) [0; 1]%Z with
  | Ret s => repr_of_irrep s
  | Raise => {| r_size := 0; r_irreps := []; r_cob := mid; r_inv := mid; r_fun := fun _ => Raise |}
  end.
(** its restriction to the reflection about axis [a] *)
Definition d2_flip (linv : nat -> mat -> res mat) (a : Z) : res (repr pval) :=
  restrict_representation (p_irr (Fin (Dih 2))) (p_irr (Fin (Cyc 2))) linv
    (fun id => fin_restrict_irrep (Dih 2) id (IdD (Some a) 1)) d2_irrep.
Definition c2_trivial : repr pval :=
  match p_irr (Fin (Cyc 2)) [0]%Z with Ret s => repr_of_irrep s | Raise => d2_irrep end.

Lemma mul1 : forall A B : mat, mmul 1 A B 0%nat 0%nat = A 0%nat 0%nat * B 0%nat 0%nat.
Proof. intros; unfold mmul; cbn [sumn]; lra. Qed.

Lemma flip_value : forall linv, correct_inverse linv -> forall a, (a = 0 \/ a = 1)%Z ->
  exists r, d2_flip linv a = Ret r /\ r_size r = 1%nat /\
    forall k, (k = 0 \/ k = 1)%Z -> exists A, r_fun r (VF (VC k)) = Ret (1%nat, A) /\
      A 0%nat 0%nat = (if (a * k =? 0)%Z then 1 else -1).
Proof.
  intros linv Hl a Ha.
  assert (Hr : planar_repr (Fin (Dih 2)) d2_irrep).
  { apply (planar_irrep_repr (Fin (Dih 2)) [0; 1]%Z); [reflexivity|cbn; lia|reflexivity]. }
  destruct (fin_restrict_repr linv Hl (Dih 2) (IdD (Some a) 1) d2_irrep eq_refl) as (sg & d & Es & Ed & Sd & Hd).
  - cbn; repeat split; try lia; exists 2%Z; lia.
  - exact Hr.
  - intros parts E. assert (Ep : exists m, parts = [((1%nat, mid), m)]) by (destruct Ha as [-> | ->]; vm_compute in E; apply Ret_inj in E; subst parts; eexists; reflexivity).
    destruct Ep as (m & ->); left; change (r_cob d2_irrep) with mid. cbn [map fst]; rewrite mid_l.
    apply (bdiag_mid [(1%nat, mid)]); repeat constructor; cbn; intros i j _ _; reflexivity.
  - assert (Eg : sg_group sg = Cyc 2 /\ sg_incl sg = flip_to_dn a 2).
    { destruct Ha as [-> | ->]; cbn in Es; apply Ret_inj in Es; subst sg; auto. }
    destruct Eg as (Eg & Ei); rewrite Eg in *.
    exists d; split; [exact Ed|split; [rewrite Sd; reflexivity|]]; intros k Hk.
    destruct (Hd (VC k)) as (g & A & B & E1 & E2 & E3 & E4); [cbn; lia|].
    exists B; split; [exact E3|].
    rewrite (E4 0%nat 0%nat); [|cbn; lia|cbn; lia].
    rewrite Ei in E1.
    destruct Ha as [-> | ->], Hk as [-> | ->]; vm_compute in E1; apply Ret_inj in E1; subst g;
      cbn in E2; apply Ret_inj in E2; injection E2 as <-; unfold mat1; cbn;
      first [replace (1 * (0 * (2 * PI) / 2)) with 0 by lra; apply cos_0
            |replace (1 * (1 * (2 * PI) / 2)) with PI by lra; apply cos_PI].
Qed.

Definition c2_member (g : pval) : Prop := g = VF (VC 0) \/ g = VF (VC 1).

Lemma trivial_value : forall k, (k = 0 \/ k = 1)%Z -> exists A, r_fun c2_trivial (VF (VC k)) = Ret (1%nat, A) /\ A 0%nat 0%nat = 1.
Proof.
  intros k [-> | ->]; eexists; (split; [reflexivity|]); unfold mat1; cbn;
    first [reflexivity|lra].
Qed.

Lemma clash : forall linv on_point, correct_inverse linv ->
  let n := restricted_name "D2" "irrep_0,1" in
  forall r0 B, d2_flip linv 0 = Ret r0 ->
    on_point ("irrep_0"%string, c2_trivial) (n, r0) = Ret B -> kernel_basis_of c2_member c2_trivial r0 B ->
  exists r1, d2_flip linv 1 = Ret r1 /\
    fst (fiber_basis fst (fun _ => true) on_point ("irrep_0"%string, c2_trivial) (n, r1)
      (after_fiber fst (fun _ => true) on_point [(("irrep_0"%string, c2_trivial), (n, r0))])) = Ret B /\
    ~ kernel_basis_of c2_member c2_trivial r1 B.
Proof.
  intros linv op Hl n r0 B E0 Eb (HB & HK).
  destruct (flip_value linv Hl 0%Z) as (r & E & S0 & V0); [auto|]; rewrite E0 in E; apply Ret_inj in E; subst r.
  destruct (flip_value linv Hl 1%Z) as (r1 & E1 & S1 & V1); [auto|].
  exists r1; split; [exact E1|split].
  - unfold after_fiber; cbn [fold_left fst snd]; unfold fiber_basis; cbn [andb fst snd].
    unfold memo at 2; cbn [dfind]; rewrite Eb; cbn [snd app].
    unfold memo; cbn [dfind]. unfold pair_eqb; cbn [fst snd]; rewrite !String.eqb_refl; reflexivity.
  - intros (HB1 & _).
    assert (St : r_size c2_trivial = 1%nat) by reflexivity.
    destruct (HK mid) as (cs & Lc & Ec).
    { intros g Hg; assert (K : exists k, (k = 0 \/ k = 1)%Z /\ g = VF (VC k)) by (destruct Hg as [-> | ->]; eauto).
      destruct K as (k & Hk & ->); destruct (trivial_value k Hk) as (A & EA & VA); destruct (V0 k Hk) as (A' & EA' & VA').
      exists A, A'; rewrite St, S0; split; [exact EA|split; [exact EA'|]].
      intros i j Hi Hj; replace i with 0%nat by lia; replace j with 0%nat by lia; rewrite !mul1, VA, VA'; cbn; lra. }
    assert (Z : Forall (fun M : mat => M 0%nat 0%nat = 0) B).
    { revert HB1; apply Forall_impl; intros M HM; destruct (HM (VF (VC 1))) as (A & A' & EA & EA' & EM); [right; reflexivity|].
      destruct (trivial_value 1) as (A2 & EA2 & VA); [auto|]; destruct (V1 1%Z) as (A3 & EA3 & VA'); [auto|].
      rewrite St in EA; rewrite S1 in EA'; rewrite EA in EA2; rewrite EA' in EA3; apply Ret_inj in EA2, EA3; injection EA2 as <-; injection EA3 as <-.
      specialize (EM 0%nat 0%nat); rewrite St, S1, !mul1, VA, VA' in EM; cbn in EM; specialize (EM ltac:(lia) ltac:(lia)); lra. }
    specialize (Ec 0%nat 0%nat); rewrite St, S0 in Ec; specialize (Ec ltac:(lia) ltac:(lia)).
    assert (Q : forall (cs : list R) (B : list mat), Forall (fun M : mat => M 0%nat 0%nat = 0) B ->
      fold_right Rplus 0 (map (fun cM : R * mat => fst cM * snd cM 0%nat 0%nat) (List.combine cs B)) = 0).
    { clear; intros cs; induction cs as [|c cs IH]; intros [|M B] H; cbn; try reflexivity.
      inversion H; subst; rewrite IH by assumption; rewrite H2; lra. }
    pose proof (eq_trans Ec (Q cs B Z)) as F; unfold mid in F; cbn in F; lra.
Qed.

(** The hypotheses of [clash] hold with the basis made of the 1 x 1 identity. *)
Lemma clash_ex : forall linv, correct_inverse linv -> exists r0, d2_flip linv 0 = Ret r0 /\ kernel_basis_of c2_member c2_trivial r0 [mid].
Proof.
  intros linv Hl; destruct (flip_value linv Hl 0%Z) as (r & E & S0 & V0); [auto|]; exists r; split; [exact E|].
  split.
  - constructor; [|constructor]; intros g Hg; assert (K : exists k, (k = 0 \/ k = 1)%Z /\ g = VF (VC k)) by (destruct Hg as [-> | ->]; eauto).
    destruct K as (k & Hk & ->); destruct (trivial_value k Hk) as (A & EA & VA); destruct (V0 k Hk) as (A' & EA' & VA').
    exists A, A'; rewrite S0; split; [exact EA|split; [exact EA'|]].
    intros i j Hi Hj; change (r_size c2_trivial) with 1%nat in *; replace i with 0%nat by lia; replace j with 0%nat by lia; rewrite !mul1, VA, VA'; cbn; lra.
  - intros K _; exists [K 0%nat 0%nat]; split; [reflexivity|]; rewrite S0; change (r_size c2_trivial) with 1%nat.
    intros i j Hi Hj; replace i with 0%nat by lia; replace j with 0%nat by lia; cbn; lra.
Qed.

(** ** A rendering of numbers for the examples *)
Open Scope string_scope.

Definition tally (n : nat) : string := String.concat "" (List.repeat "1" (S n)).

Lemma tally_length : forall n, String.length (tally n) = S n.
Proof.
  unfold tally; intros n; induction n as [|n IH]; [reflexivity|].
  change (List.repeat "1" (S (S n))) with ("1" :: List.repeat "1" (S n)).
  change (String.concat "" ("1" :: List.repeat "1" (S n))) with ("1" ++ "" ++ String.concat "" (List.repeat "1" (S n))).
  cbn [append String.length]; rewrite IH; reflexivity.
Qed.

Lemma tally_plain : plain tally.
Proof.
  split.
  - intros x y H; apply (f_equal String.length) in H; rewrite !tally_length in H; lia.
  - assert (A : forall n c, c <> "1"%char -> ~ occurs c (tally n)).
    { unfold tally; intros n c Hc; induction n as [|n IH]; [cbn; intuition congruence|].
      change (String.concat "" (List.repeat "1" (S (S n)))) with (String ("1"%char) (String.concat "" (List.repeat "1" (S n)))).
      intros [H|H]; [congruence|exact (IH H)]. }
    intros n; split; [|split; apply A; discriminate].
    intros H; apply (f_equal String.length) in H; rewrite tally_length in H; discriminate.
Qed.
