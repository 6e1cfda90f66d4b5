(** Instances for disentangle: the contract of connected_components can be met,
    a representation whose axes are swapped, and one whose basis has an entry
    below the tolerance. *)
From Coq Require Import Reals ZArith Bool List Lia Lra Arith Permutation Relations Classical ClassicalChoice.
From Verif Require Import LibRes LibMat LibMatS LibTrig SpecGroup ParamModel ParamProofs IrrepModel SpecRep
  RepModel SpecRepr RepProofs RepThms IndProofs IndThms DisModel SpecDis DisProofs DisThms.
Import ListNotations.
Open Scope R_scope.

Lemma classes : forall (E : nat -> nat -> Prop), equivalence nat E -> forall n, exists c : nat * (nat -> nat),
  (forall a, (a < n)%nat -> (snd c a < fst c)%nat) /\ (forall b, (b < fst c)%nat -> exists a, (a < n)%nat /\ snd c a = b) /\
  forall a b, (a < n)%nat -> (b < n)%nat -> (snd c a = snd c b <-> E a b).
Proof.
  intros E [Er Et Es]; induction n as [|n ((k & lab) & H1 & H2 & H3)]; cbn [fst snd] in *.
  - exists (0%nat, fun _ => 0%nat); cbn; repeat split; intros; lia.
  - destruct (classic (exists a, (a < n)%nat /\ E a n)) as [(a & La & Ea)|N].
    + exists (k, fun x => if Nat.eqb x n then lab a else lab x); cbn [fst snd]; split; [|split].
      * intros x Hx; destruct (Nat.eqb_spec x n); apply H1; lia.
      * intros b Hb; destruct (H2 b Hb) as (x & Lx & Ex); exists x; split; [lia|].
        rewrite (proj2 (Nat.eqb_neq x n)) by lia; exact Ex.
      * intros x y Hx Hy; destruct (Nat.eqb_spec x n) as [->|Nx], (Nat.eqb_spec y n) as [->|Ny].
        -- split; [intros _; apply Er|reflexivity].
        -- rewrite H3 by lia; split; intros X; [exact (Et _ _ _ (Es _ _ Ea) X)|exact (Et _ _ _ Ea X)].
        -- rewrite H3 by lia; split; intros X; [exact (Et _ _ _ X Ea)|exact (Et _ _ _ X (Es _ _ Ea))].
        -- apply H3; lia.
    + exists (S k, fun x => if Nat.eqb x n then k else lab x); cbn [fst snd]; split; [|split].
      * intros x Hx; destruct (Nat.eqb_spec x n); [lia|]; assert (lab x < k)%nat by (apply H1; lia); lia.
      * intros b Hb; destruct (Nat.eq_dec b k) as [->|D].
        -- exists n; split; [lia|]; rewrite Nat.eqb_refl; reflexivity.
        -- destruct (H2 b) as (x & Lx & Ex); [lia|]; exists x; split; [lia|]; rewrite (proj2 (Nat.eqb_neq x n)) by lia; exact Ex.
      * intros x y Hx Hy; destruct (Nat.eqb_spec x n) as [->|Nx], (Nat.eqb_spec y n) as [->|Ny].
        -- split; [intros _; apply Er|reflexivity].
        -- assert (lab y < k)%nat by (apply H1; lia); split; [lia|]; intros X; exfalso; apply N; exists y; split; [lia|exact (Es _ _ X)].
        -- assert (lab x < k)%nat by (apply H1; lia); split; [lia|]; intros X; exfalso; apply N; exists x; split; [lia|exact X].
        -- apply H3; lia.
Qed.

Lemma components_exist : exists c, correct_components c.
Proof.
  destruct (choice (fun (x : nat * (nat -> nat -> bool)) (c : nat * (nat -> nat)) =>
    (forall a, (a < fst x)%nat -> (snd c a < fst c)%nat) /\ (forall b, (b < fst c)%nat -> exists a, (a < fst x)%nat /\ snd c a = b) /\
    forall a b, (a < fst x)%nat -> (b < fst x)%nat -> (snd c a = snd c b <-> connected (fst x) (snd x) a b))) as [f Hf].
  - intros [n g]; apply classes; split.
    + intros a; apply rst_refl.
    + intros a b c; apply rst_trans.
    + intros a b; apply rst_sym.
  - exists (fun n g => f (n, g)); intros n g; exact (Hf (n, g)).
Qed.

(** trivial + sign in the basis [Q] *)
Definition toy_blocks (g : bool) : list (nat * mat) := [(1%nat, fun _ _ => toy_sign 0 g); (1%nat, fun _ _ => toy_sign 1 g)].
Definition toy_repr (Q Qi : mat) : repr bool :=
  {| r_size := 2; r_irreps := [[0%Z]; [1%Z]]; r_cob := Q; r_inv := Qi;
     r_fun := fun g => Ret (2%nat, mmul 2 (mmul 2 Q (bdiag (toy_blocks g))) Qi) |}.

Lemma toy_proper : forall Q Qi, inverse_of 2 Q Qi -> proper toy_irrG (fun _ => True) toy_op false (toy_repr Q Qi).
Proof.
  intros Q Qi H; split; [discriminate|split; [|split]]; cbn [r_irreps toy_repr r_size].
  - assert (X : forall k, sound_irrep toy_irrG (fun _ => True) toy_op false [k]).
    { intros k; exists (toy_g k); split; [reflexivity|split; [reflexivity|split; [cbn; lia|split]]].
      + exact (orth_lin _ _ _ _ _ _ _ (toy_orth k)).
      + intros g _; eexists; split; [reflexivity|]; cbn; f_equal; unfold trace; cbn; lra. }
    repeat constructor; apply X.
  - exists [toy_g 0; toy_g 1]; split; reflexivity.
  - split; [exact H|]; intros g _; exists (toy_blocks g); eexists; split; [reflexivity|split; [reflexivity|split; [reflexivity|apply meq_refl]]].
Qed.

Definition swap2 : mat := fun i j => if Nat.eqb i j then 0 else 1.

Lemma swap2_ok : inverse_of 2 swap2 swap2 /\ clear_cut 2 swap2.
Proof.
  split; [split; intros [|[|i]] [|[|j]] Hi Hj; try lia; unfold mmul, swap2, mid; cbn; lra|].
  assert (P : 0 < / 10 ^ 8) by apply tolpos.
  assert (B : / 10 ^ 8 + / 10 ^ 5 < 1) by lra.
  intros i j _ _; unfold swap2; destruct (Nat.eqb i j); split; intros H; try reflexivity; exfalso.
  - replace (0 - 1) with (- (1)) in H by ring; rewrite Rabs_Ropp, Rabs_R1 in H; lra.
  - rewrite Rabs_R1 in H; lra.
Qed.

(** ** an entry below the tolerance *)
Definition eps : R := / 10 ^ 9.
Definition skew : mat := fun i j => match i, j with 0%nat, 0%nat => 2 | 0%nat, 1%nat => eps | 1%nat, 1%nat => 1 | _, _ => 0 end.
Definition skewi : mat := fun i j => match i, j with 0%nat, 0%nat => / 2 | 0%nat, 1%nat => - eps / 2 | 1%nat, 1%nat => 1 | _, _ => 0 end.

Lemma skew_inverse : inverse_of 2 skew skewi.
Proof. split; intros [|[|i]] [|[|j]] Hi Hj; try lia; unfold mmul, mid; cbn; field. Qed.

Lemma one_value : forall linv k Q s, mk_repr toy_irrG linv [[k]] 1 Q None = Ret s -> forall g, exists V, r_fun s g = Ret (1%nat, V).
Proof.
  intros linv k Q s H g; unfold mk_repr in H; apply assert_Ret in H as [_ H]; apply bind_Ret in H as (Qi & _ & H).
  apply assert_Ret in H as [_ H]; apply assert_Ret in H as [_ H]; apply bind_Ret in H as (u & _ & H).
  apply bind_Ret in H as (f & Ef & H); apply Ret_inj in H; subst s; cbn [r_fun].
  unfold direct_sum_factory in Ef; destruct (allclose 1 1 Q mid); cbn -[allclose] in Ef.
  - apply Ret_inj in Ef; subst f; cbn; eexists; reflexivity.
  - apply assert_Ret in Ef as [_ Ef]; apply assert_Ret in Ef as [_ Ef]; apply Ret_inj in Ef; subst f; cbn.
    eexists; reflexivity.
Qed.

Lemma skew_mask : forall i j, (i < 2)%nat -> (j < 2)%nat -> irrep_mask 2 skew [1%nat; 1%nat] i j = Nat.eqb i j.
Proof.
  assert (P8 : 0 < / 10 ^ 8) by apply tolpos.
  assert (E8 : eps <= / 10 ^ 8) by (unfold eps; lra).
  assert (E0 : 0 <= eps) by (unfold eps; lra).
  assert (X : forall x, 0 <= x -> np_isclose (/ 10 ^ 8) x 0 = Rleb x (/ 10 ^ 8)).
  { intros x Hx; unfold np_isclose; rewrite Rabs_R0; replace (x - 0) with x by ring; rewrite Rabs_pos_eq by exact Hx.
    f_equal; ring. }
  intros [|[|i]] [|[|j]] Hi Hj; try lia; unfold irrep_mask, ipos; cbn [nth seq firstn list_sum fold_right existsb plus skew Nat.eqb Nat.ltb Nat.leb andb orb];
    rewrite X by lra; rewrite orb_false_r.
  - apply negb_true_iff, Rleb_false; lra.
  - apply negb_false_iff, Rleb_true; lra.
  - apply negb_false_iff, Rleb_true; lra.
  - apply negb_true_iff, Rleb_false; lra.
Qed.

Lemma skew_labels : forall comp, correct_components comp ->
  let c := comp 4%nat (dis_graph 2 2 skew [1%nat; 1%nat]) in
  fst c = 2%nat /\ ((snd c 0 = 0 /\ snd c 1 = 1 /\ snd c 2 = 0 /\ snd c 3 = 1) \/ (snd c 0 = 1 /\ snd c 1 = 0 /\ snd c 2 = 1 /\ snd c 3 = 0))%nat.
Proof.
  intros comp H c; destruct (H 4%nat (dis_graph 2 2 skew [1%nat; 1%nat])) as (H1 & H2 & H3); fold c in H1, H2, H3.
  assert (D : forall a b, connected 4 (dis_graph 2 2 skew [1%nat; 1%nat]) a b -> Nat.odd a = Nat.odd b).
  { intros a b C; induction C as [a b (La & Lb & G)|a|a b _ IH|a b d _ IH1 _ IH2]; [|reflexivity|symmetry; exact IH|congruence].
    unfold dis_graph in G; destruct (Nat.ltb_spec a 2), (Nat.ltb_spec b 2); try discriminate G.
    - rewrite skew_mask in G by lia; apply Nat.eqb_eq in G; replace b with (a + 2)%nat by lia; rewrite Nat.odd_add; cbn; rewrite xorb_false_r; reflexivity.
    - rewrite skew_mask in G by lia; apply Nat.eqb_eq in G; replace a with (b + 2)%nat by lia; rewrite Nat.odd_add; cbn; rewrite xorb_false_r; reflexivity. }
  assert (E02 : snd c 0%nat = snd c 2%nat).
  { apply H3; [lia|lia|]; apply rst_step; split; [lia|split; [lia|]]; unfold dis_graph; cbn [Nat.ltb Nat.leb]; rewrite skew_mask by (cbn; lia); reflexivity. }
  assert (E13 : snd c 1%nat = snd c 3%nat).
  { apply H3; [lia|lia|]; apply rst_step; split; [lia|split; [lia|]]; unfold dis_graph; cbn [Nat.ltb Nat.leb]; rewrite skew_mask by (cbn; lia); reflexivity. }
  assert (N01 : snd c 0%nat <> snd c 1%nat).
  { intros E; apply H3 in E; [|lia|lia]; apply D in E; discriminate E. }
  pose proof (H1 0%nat ltac:(lia)) as B0; pose proof (H1 1%nat ltac:(lia)) as B1.
  assert (K : (fst c <= 2)%nat).
  { destruct (le_lt_dec (fst c) 2) as [L|L]; [exact L|exfalso].
    assert (Y : forall b, (b < fst c)%nat -> b = snd c 0%nat \/ b = snd c 1%nat).
    { intros b Hb; destruct (H2 b Hb) as (a & La & <-); destruct a as [|[|[|[|a]]]]; auto; lia. }
    pose proof (Y 0%nat ltac:(lia)); pose proof (Y 1%nat ltac:(lia)); pose proof (Y 2%nat ltac:(lia)); lia. }
  split; lia.
Qed.

Lemma skew_disentangled : forall linv comp P rs, correct_inverse linv -> correct_components comp ->
  disentangle toy_irrG linv comp (toy_repr skew skewi) = Ret (P, rs) ->
  ~ (forall x, exists X bs, r_fun (toy_repr skew skewi) x = Ret (2%nat, X) /\ mapM (fun s => r_fun s x) rs = Ret bs /\ bsize bs = 2%nat /\
       meq 2 2 (mmul 2 (mmul 2 P X) (mtr P)) (bdiag bs)).
Proof.
  intros linv comp P rs Hl Hc H HX; destruct (skew_labels comp Hc) as [K L].
  unfold disentangle in H; cbn [toy_repr r_irreps mapM toy_irrG bind length r_size r_cob map toy_g gi_size] in H.
  change (2 + 2)%nat with 4%nat in H; set (c := comp 4%nat (dis_graph 2 2 skew [1%nat; 1%nat])) in *.
  rewrite K in H; cbn [seq mapM] in H.
  apply bind_Ret in H as (rs' & Er & H); apply Ret_inj in H; injection H as HP ->.
  apply bind_Ret in Er as (s0 & E0 & Er); apply bind_Ret in Er as (q & Eq & Er); apply Ret_inj in Er; subst rs.
  apply bind_Ret in Eq as (s1 & E1 & Eq); apply Ret_inj in Eq; subst q.
  destruct (HX true) as (X & bs & EX & Eb & Sb & M); cbn [toy_repr r_fun] in EX; apply Ret_inj in EX; injection EX as <-.
  unfold dis_block in E0, E1; cbn [length seq map gi_size toy_g r_size toy_repr filter plus] in E0, E1, HP.
  assert (V : forall b, In b bs -> fst b = 1%nat).
  { cbn [mapM] in Eb; apply bind_Ret in Eb as (b0 & F0 & Eb); apply bind_Ret in Eb as (q & Eb & Eq); apply Ret_inj in Eq; subst bs.
    apply bind_Ret in Eb as (b1 & F1 & Eb); apply Ret_inj in Eb; subst q.
    destruct L as [(L0 & L1 & L2 & L3)|(L0 & L1 & L2 & L3)]; rewrite L0, L1, L2, L3 in E0, E1;
    cbn [Nat.eqb filter length map nth list_sum fold_right plus flat_map seq ipos firstn app nth_error toy_g gi_id assert_ bind] in E0, E1;
    destruct (one_value _ _ _ _ E0 true) as (V0 & G0); destruct (one_value _ _ _ _ E1 true) as (V1 & G1);
    rewrite F0 in G0; rewrite F1 in G1; apply Ret_inj in G0, G1; subst; intros b [<-|[<-|[]]]; reflexivity. }
  assert (Z : bdiag bs 0%nat 1%nat = 0 /\ bdiag bs 1%nat 0%nat = 0).
  { cbn [mapM] in Eb; apply bind_Ret in Eb as (b0 & F0 & Eb); apply bind_Ret in Eb as (q & Eb & Eq); apply Ret_inj in Eq; subst bs.
    apply bind_Ret in Eb as (b1 & F1 & Eb); apply Ret_inj in Eb; subst q.
    pose proof (V b0 (or_introl eq_refl)) as S0; destruct b0 as [k0 B0]; cbn in S0; subst k0; split; reflexivity. }
  destruct Z as [Z1 Z2]; pose proof (M 0%nat 1%nat ltac:(lia) ltac:(lia)) as M1; pose proof (M 1%nat 0%nat ltac:(lia) ltac:(lia)) as M2.
  rewrite Z1 in M1; rewrite Z2 in M2; assert (E9 : 0 < eps) by (unfold eps; apply Rinv_0_lt_compat, pow_lt; lra).
  destruct L as [(L0 & L1 & L2 & L3)|(L0 & L1 & L2 & L3)]; rewrite L2, L3 in HP; cbn [Nat.eqb filter app flat_map seq] in HP; subst P;
    unfold mmul, mtr in M1, M2; cbn [sumn nth_error app Nat.eqb skew skewi bdiag toy_blocks Nat.ltb Nat.leb toy_sign Z.eqb] in M1, M2; cbn in M1, M2; lra.
Qed.
