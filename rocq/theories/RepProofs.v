(** Representations built from irreps: homomorphism, direct sums, restriction. *)
From Coq Require Import Reals ZArith Bool List Lia Lra Setoid Morphisms Arith.
From Verif Require Import LibRes LibList LibMat LibMatS LibTrig ParamModel ParamProofs IrrepModel SpecRep
  RepModel SpecRepr.
Import ListNotations.
Open Scope R_scope.

Lemma forallb_n_true : forall n f, forallb_n n f = true <-> forall i, (i < n)%nat -> f i = true.
Proof.
  induction n as [|n IH]; intros f; cbn [forallb_n].
  - split; [intros _ i H; lia|reflexivity].
  - rewrite andb_true_iff, IH; split.
    + intros [H K] i Hi; destruct (Nat.eq_dec i n) as [->|]; [exact K|apply H; lia].
    + intros H; split; [intros i Hi|]; apply H; lia.
Qed.

Lemma allclose_true : forall r c A B, allclose r c A B = true <->
  forall i j, (i < r)%nat -> (j < c)%nat -> np_isclose (/ 10 ^ 8) (A i j) (B i j) = true.
Proof.
  intros r c A B; unfold allclose; rewrite forallb_n_true; split.
  - intros H i j Hi Hj; exact (proj1 (forallb_n_true _ _) (H i Hi) j Hj).
  - intros H i Hi; apply forallb_n_true; intros j Hj; apply H; assumption.
Qed.

Lemma allclose_meq : forall r c A B, meq r c A B -> allclose r c A B = true.
Proof.
  intros r c A B H; apply allclose_true; intros i j Hi Hj; rewrite H by assumption.
  apply np_isclose_refl, tol_pos.
Qed.

Section Lists.
Context {T : Type}.
Variables (irr : list Z -> res (girrep T)) (mem : T -> Prop) (op : T -> T -> res T) (e : T).

Lemma sound_list : forall ids, Forall (sound_irrep irr mem op e) ids ->
  exists l, mapM irr ids = Ret l /\ map gi_id l = ids /\
    Forall (fun r => (0 < gi_size r)%nat /\ lin_rep mem op e (gi_size r) (gi_rep r) /\
                     is_character mem (gi_size r) (gi_rep r) (gi_char r)) l.
Proof.
  induction 1 as [|id ids (r & E & I & S & H) _ (l & El & Il & Hl)].
  - exists []; repeat split; constructor.
  - exists (r :: l); cbn; rewrite E, El; cbn; rewrite I, Il; repeat split; constructor; [split; assumption|assumption].
Qed.

Lemma mapM_irr : forall {B} (f : girrep T -> res B) ids l, mapM irr ids = Ret l ->
  mapM (fun id => r <- irr id ;; f r) ids = mapM f l.
Proof.
  intros B f; induction ids as [|id ids IH]; intros l H; cbn in H; [apply Ret_inj in H; subst; reflexivity|].
  apply bind_Ret in H as (r & E & H); apply bind_Ret in H as (l' & El & H); apply Ret_inj in H; subst l.
  cbn; rewrite E; cbn; rewrite (IH l' El); reflexivity.
Qed.

(** values of a list of sound irreps *)
Lemma vals_total : forall l g, mem g ->
  Forall (fun r => (0 < gi_size r)%nat /\ lin_rep mem op e (gi_size r) (gi_rep r) /\
                   is_character mem (gi_size r) (gi_rep r) (gi_char r)) l ->
  exists bs, mapM (fun r => gi_rep r g) l = Ret bs /\ map fst bs = map gi_size l /\
    mapM (fun r => gi_char r g) l = Ret (map (fun p => trace (fst p) (snd p)) bs).
Proof.
  intros l g Hg; induction 1 as [|r l (S & H & C) _ (bs & E & F & K)].
  - exists []; repeat split.
  - destruct (C g Hg) as (A & EA & EC).
    exists ((gi_size r, A) :: bs); cbn; rewrite EA, E, EC; cbn; rewrite F, K; repeat split.
Qed.

Lemma vals_unit : forall l,
  Forall (fun r => (0 < gi_size r)%nat /\ lin_rep mem op e (gi_size r) (gi_rep r) /\
                   is_character mem (gi_size r) (gi_rep r) (gi_char r)) l ->
  exists bs, mapM (fun r => gi_rep r e) l = Ret bs /\ map fst bs = map gi_size l /\
    meq (bsize bs) (bsize bs) (bdiag bs) mid.
Proof.
  intros l H; assert (X : exists bs, mapM (fun r => gi_rep r e) l = Ret bs /\ map fst bs = map gi_size l /\
    Forall (fun p => meq (fst p) (fst p) (snd p) mid) bs).
  { induction H as [|r l (S & H & C) _ (bs & E & F & K)]; [exists []; repeat split; constructor|].
    destruct (lr_unit _ _ _ _ _ H) as (A & EA & MA).
    exists ((gi_size r, A) :: bs); cbn; rewrite EA, E; cbn; rewrite F; repeat split; constructor; assumption. }
  destruct X as (bs & E & F & K); exists bs; repeat split; try assumption; apply bdiag_mid, K.
Qed.

Lemma vals_mul : forall l g h, mem g -> mem h -> forall gh, op g h = Ret gh ->
  Forall (fun r => (0 < gi_size r)%nat /\ lin_rep mem op e (gi_size r) (gi_rep r) /\
                   is_character mem (gi_size r) (gi_rep r) (gi_char r)) l ->
  exists a b c, mapM (fun r => gi_rep r g) l = Ret a /\ mapM (fun r => gi_rep r h) l = Ret b /\
    mapM (fun r => gi_rep r gh) l = Ret c /\ map fst a = map gi_size l /\ map fst b = map gi_size l /\
    map fst c = map gi_size l /\
    meq (bsize c) (bsize c) (bdiag c) (mmul (bsize c) (bdiag a) (bdiag b)).
Proof.
  intros l g h Hg Hh gh Egh H.
  assert (X : exists a b c, mapM (fun r => gi_rep r g) l = Ret a /\ mapM (fun r => gi_rep r h) l = Ret b /\
    mapM (fun r => gi_rep r gh) l = Ret c /\ map fst a = map gi_size l /\ map fst b = map gi_size l /\
    map fst c = map gi_size l /\
    Forall2 (fun p q => fst p = fst q /\ meq (fst p) (fst p) (snd p) (snd q)) c
      (map (fun p => (fst (fst p), mmul (fst (fst p)) (snd (fst p)) (snd (snd p)))) (combine a b))).
  { induction H as [|r l (S & H & C) _ (a & b & c & Ea & Eb & Ec & Fa & Fb & Fc & K)].
    - exists [], [], []; repeat split; constructor.
    - destruct (lr_mul _ _ _ _ _ H g h Hg Hh) as (gh' & A & B & D & E1 & E2 & E3 & E4 & M).
      rewrite Egh in E1; apply Ret_inj in E1; subst gh'.
      exists ((gi_size r, A) :: a), ((gi_size r, B) :: b), ((gi_size r, D) :: c).
      cbn; rewrite E2, E3, E4, Ea, Eb, Ec; cbn; rewrite Fa, Fb, Fc; repeat split.
      constructor; [cbn; split; [reflexivity|exact M]|exact K]. }
  destruct X as (a & b & c & Ea & Eb & Ec & Fa & Fb & Fc & K); exists a, b, c; repeat split; try assumption.
  destruct (bdiag_ext _ _ K) as [M _]; rewrite M.
  assert (Sz : bsize c = bsize a) by (rewrite !bsize_map, Fa, Fc; reflexivity).
  rewrite Sz; symmetry; apply bdiag_mmul; congruence.
Qed.
End Lists.

Section Mk.
Context {T : Type}.
Variables (irr : list Z -> res (girrep T)) (mem : T -> Prop) (op : T -> T -> res T) (e : T).
Variable linv : nat -> mat -> res mat.
Hypothesis Hinv : correct_inverse linv.

Lemma good_inv_get : forall n cob inv, good_inv n cob inv ->
  exists i, match inv with None => linv n cob | Some i => Ret i end = Ret i /\ inverse_of n cob i.
Proof.
  intros n cob [i|] H; cbn in *; [exists i; auto|].
  destruct (Hinv n cob) as [H1 H2]; destruct (H2 H) as [B EB]; exists B; auto.
Qed.

Lemma mk_repr_eq : forall ids n cob inv l, mapM irr ids = Ret l -> list_sum (map gi_size l) = n ->
  (0 < n)%nat -> good_inv n cob inv -> exists i, inverse_of n cob i /\
  (match inv with None => linv n cob | Some i => Ret i end) = Ret i /\
  mk_repr irr linv ids n cob inv =
  Ret {| r_size := n; r_irreps := ids; r_cob := cob; r_inv := i;
         r_fun := fun g => bs <- values irr ids g ;;
                    match bs with
                    | [] => Raise
                    | _ => if allclose n n cob mid then Ret (bsize bs, bdiag bs)
                           else assert (Nat.eqb (bsize bs) n) ;; Ret (n, mmul n (mmul n cob (bdiag bs)) i)
                    end |}.
Proof.
  intros ids n cob inv l El Sl Hn Hi; destruct (good_inv_get n cob inv Hi) as (i & Ei & Mi).
  exists i; split; [exact Mi|split; [exact Ei|]]; unfold mk_repr.
  rewrite (proj2 (Nat.ltb_lt 0 n) Hn); cbn [assert_ bind].
  rewrite Ei; cbn [bind].
  rewrite (allclose_meq _ _ _ _ (proj1 Mi)), (allclose_meq _ _ _ _ (proj2 Mi)); cbn [assert_ bind].
  unfold irreps_size; rewrite El; cbn [bind]; rewrite Sl, Nat.eqb_refl.
  assert (X : (if Nat.ltb 1 (length ids) then (assert true ;; Ret tt) else Ret tt) = Ret tt)
    by (destruct (Nat.ltb 1 (length ids)); reflexivity).
  rewrite X; cbn [bind]; unfold direct_sum_factory, irreps_size; rewrite El; cbn [bind].
  destruct (allclose n n cob mid); [reflexivity|]; cbn [bind].
  rewrite Sl, Nat.eqb_refl; cbn [assert_ bind].
  rewrite (allclose_meq _ _ _ _ (proj1 Mi)), (allclose_meq _ _ _ _ (proj2 Mi)); reflexivity.
Qed.

Lemma total_pos : forall ids n, Forall (sound_irrep irr mem op e) ids -> ids <> [] -> total_size irr ids n -> (0 < n)%nat.
Proof.
  intros [|id ids] n H N (l & El & Sl); [congruence|].
  inversion H as [|? ? (r & Er & _ & P & _) _]; subst; cbn in El; rewrite Er in El; cbn in El.
  apply bind_Ret in El as (l' & _ & El); apply Ret_inj in El; subst l; cbn; lia.
Qed.

Theorem mk_repr_homomorphism : forall ids n cob inv,
  Forall (sound_irrep irr mem op e) ids -> ids <> [] -> total_size irr ids n -> good_inv n cob inv ->
  exists r, mk_repr irr linv ids n cob inv = Ret r /\ r_size r = n /\
    lin_rep mem op e n (r_fun r) /\
    forall g, mem g -> exists cs, mapM (fun id => x <- irr id ;; gi_char x g) ids = Ret cs /\
      r_character r g = Ret (fold_right Rplus 0 cs).
Proof.
  intros ids n cob inv Hs Hne Ht Hi; pose proof (total_pos ids n Hs Hne Ht) as Hn.
  destruct Ht as (l & El & Sl); destruct (mk_repr_eq ids n cob inv l El Sl Hn Hi) as (i & Mi & _ & E).
  rewrite E; eexists; split; [reflexivity|split; [reflexivity|]]; cbn [r_fun r_size].
  destruct (sound_list irr mem op e ids Hs) as (l' & El' & _ & Hl); rewrite El in El'; apply Ret_inj in El'; subst l'.
  assert (Nl : map gi_size l <> []).
  { destruct l; [|discriminate]; destruct ids as [|id ids]; [congruence|]; cbn in El.
    apply bind_Ret in El as (? & _ & El); apply bind_Ret in El as (? & _ & El); discriminate El. }
  assert (V : forall g, values irr ids g = mapM (fun r => gi_rep r g) l).
  { intros g; unfold values; apply mapM_irr; exact El. }
  set (F := fun bs : list sqmat => if allclose n n cob mid then bdiag bs else mmul n (mmul n cob (bdiag bs)) i).
  assert (FE : forall g bs, mapM (fun r => gi_rep r g) l = Ret bs -> map fst bs = map gi_size l ->
    bsize bs = n /\
    (bs <- values irr ids g ;;
     match bs with [] => Raise
     | _ => if allclose n n cob mid then Ret (bsize bs, bdiag bs)
            else assert (Nat.eqb (bsize bs) n) ;; Ret (n, mmul n (mmul n cob (bdiag bs)) i) end) = Ret (n, F bs)).
  { intros g bs Eb Fb; assert (Sb : bsize bs = n) by (rewrite bsize_map, Fb; exact Sl).
    split; [exact Sb|]; rewrite V, Eb; cbn [bind]; unfold F; rewrite Sb.
    destruct bs; [exfalso; apply Nl; symmetry; exact Fb|]; destruct (allclose n n cob mid); [reflexivity|].
    rewrite Nat.eqb_refl; reflexivity. }
  split; [split|].
  - intros g Hg; destruct (vals_total mem op e l g Hg Hl) as (bs & Eb & Fb & _).
    exists (F bs); apply (FE g bs Eb Fb).
  - destruct (vals_unit mem op e l Hl) as (bs & Eb & Fb & Mb); destruct (FE e bs Eb Fb) as [Sb EF].
    exists (F bs); split; [exact EF|]; unfold F; rewrite Sb in Mb; destruct (allclose n n cob mid); [exact Mb|].
    rewrite Mb; apply conj_mid, Mi.
  - intros g h Hg Hh.
    assert (Eop : exists gh, op g h = Ret gh).
    { destruct l as [|r l]; [exfalso; apply Nl; reflexivity|]; inversion Hl as [|? ? (_ & L & _) _]; subst.
      destruct (lr_mul _ _ _ _ _ L g h Hg Hh) as (gh & _ & _ & _ & X & _); exists gh; exact X. }
    destruct Eop as (gh & Egh).
    destruct (vals_mul mem op e l g h Hg Hh gh Egh Hl) as (a & b & c & Ea & Eb & Ec & Fa & Fb & Fc & M).
    destruct (FE g a Ea Fa) as [Sa EFa], (FE h b Eb Fb) as [Sb EFb], (FE gh c Ec Fc) as [Sc EFc].
    exists gh, (F a), (F b), (F c); repeat split; try assumption; rewrite Sc in M.
    unfold F; destruct (allclose n n cob mid); [exact M|].
    rewrite M; symmetry; apply conj_mul, Mi.
  - intros g Hg; destruct (vals_total mem op e l g Hg Hl) as (bs & Eb & Fb & Cb).
    exists (map (fun p => trace (fst p) (snd p)) bs); split.
    { rewrite (mapM_irr irr (fun x => gi_char x g) ids l El); exact Cb. }
    destruct (FE g bs Eb Fb) as [Sb EF]; unfold r_character; cbn [r_fun]; rewrite EF; cbn [bind fst snd].
    f_equal; unfold F; rewrite <- bdiag_trace, Sb; destruct (allclose n n cob mid); [reflexivity|].
    apply conj_trace, Mi.
Qed.

Theorem mk_repr_reproduces : forall ids n cob inv,
  Forall (sound_irrep irr mem op e) ids -> ids <> [] -> total_size irr ids n -> good_inv n cob inv -> sharp n cob ->
  exists r, mk_repr irr linv ids n cob inv = Ret r /\ r_size r = n /\ r_irreps r = ids /\ r_cob r = cob /\
    (forall i, inv = Some i -> r_inv r = i) /\ reproduces irr mem r.
Proof.
  intros ids n cob inv Hs Hne Ht Hi Hsh; pose proof (total_pos ids n Hs Hne Ht) as Hn.
  destruct Ht as (l & El & Sl); destruct (mk_repr_eq ids n cob inv l El Sl Hn Hi) as (i & Mi & Ei & E).
  rewrite E; eexists; split; [reflexivity|]; cbn [r_size r_irreps r_cob r_inv]; repeat split; try apply Mi.
  { intros i' ->; apply Ret_inj in Ei; symmetry; exact Ei. }
  intros g Hg; cbn [r_irreps r_size r_cob r_inv r_fun].
  destruct (sound_list irr mem op e ids Hs) as (l' & El' & _ & Hl); rewrite El in El'; apply Ret_inj in El'; subst l'.
  destruct (vals_total mem op e l g Hg Hl) as (bs & Eb & Fb & _).
  assert (Sb : bsize bs = n) by (rewrite bsize_map, Fb; exact Sl).
  assert (V : values irr ids g = Ret bs) by (unfold values; rewrite (mapM_irr irr (fun x => gi_rep x g) ids l El); exact Eb).
  assert (Nb : bs <> []).
  { intros ->; cbn in Sb; lia. }
  exists bs; rewrite V; cbn [bind]; rewrite Sb.
  destruct bs as [|b bs]; [congruence|].
  destruct (allclose n n cob mid) eqn:AC.
  - eexists; repeat split; destruct Hsh as [Hm|Hm]; [|congruence].
    assert (Mi' : meq n n i mid).
    { destruct Mi as [Mi _]; rewrite Hm, mid_l in Mi; exact Mi. }
    rewrite Hm, Mi', mid_l, mid_r; reflexivity.
  - rewrite Nat.eqb_refl; cbn [assert_ bind]; eexists; repeat split; reflexivity.
Qed.
End Mk.

Lemma mapM_app : forall A B (f : A -> res B) l m a b, mapM f l = Ret a -> mapM f m = Ret b ->
  mapM f (l ++ m) = Ret (a ++ b).
Proof.
  intros A B f; induction l as [|x l IH]; intros m a b Ea Eb; cbn in Ea; [apply Ret_inj in Ea; subst; exact Eb|].
  apply bind_Ret in Ea as (y & Ey & Ea); apply bind_Ret in Ea as (a' & Ea' & Ea); apply Ret_inj in Ea; subst a.
  cbn; rewrite Ey; cbn; rewrite (IH m a' b Ea' Eb); reflexivity.
Qed.

Lemma mapM_flat : forall A B C (f : A -> res B) (ids : C -> list A) (out : C -> list B) cs,
  Forall (fun c => mapM f (ids c) = Ret (out c)) cs ->
  mapM f (flat_map ids cs) = Ret (flat_map out cs).
Proof.
  intros A B C f ids out cs; induction 1 as [|c cs H _ IH]; [reflexivity|]; cbn [flat_map].
  apply mapM_app; assumption.
Qed.

Lemma Forall_pick : forall A B (P : A -> B -> Prop) l, Forall (fun a => exists b, P a b) l ->
  exists zs, map fst zs = l /\ Forall (fun z => P (fst z) (snd z)) zs.
Proof.
  intros A B P l; induction 1 as [|a l (b & H) _ (zs & E & F)]; [exists []; split; constructor|].
  exists ((a, b) :: zs); split; [cbn; rewrite E; reflexivity|constructor; assumption].
Qed.

Section Sum.
Context {T : Type}.
Variables (irr : list Z -> res (girrep T)) (mem : T -> Prop) (op : T -> T -> res T) (e : T).
Variable linv : nat -> mat -> res mat.
Hypothesis Hinv : correct_inverse linv.

Local Notation proper := (proper irr mem op e).

Lemma total_size_flat : forall {C} (ids : C -> list (list Z)) (n : C -> nat) cs,
  Forall (fun c => total_size irr (ids c) (n c)) cs ->
  total_size irr (flat_map ids cs) (list_sum (map n cs)).
Proof.
  intros C ids n cs; induction 1 as [|c cs (l & El & Sl) _ (l' & El' & Sl')]; [exists []; split; reflexivity|].
  exists (l ++ l'); split; [apply mapM_app; assumption|].
  rewrite map_app, list_sum_app, Sl, Sl'; reflexivity.
Qed.

(** cob @ blockdiag @ inv computed block by block *)
Lemma block_conj : forall {C} (cs : list C) (n : C -> nat) (P B Pi : C -> mat),
  let b F := bdiag (map (fun c => (n c, F c)) cs) in
  let s := list_sum (map n cs) in
  meq s s (mmul s (mmul s (b P) (b B)) (b Pi))
    (b (fun c => mmul (n c) (mmul (n c) (P c) (B c)) (Pi c))).
Proof.
  intros C cs n P B Pi b s.
  assert (S : forall F : C -> mat, bsize (map (fun c => (n c, F c)) cs) = s).
  { intros F; rewrite bsize_map, map_map; reflexivity. }
  unfold b; pose proof (bdiag_mul2 cs n P B) as H1; cbv beta zeta in H1; rewrite (S P) in H1; rewrite H1.
  pose proof (bdiag_mul2 cs n (fun c => mmul (n c) (P c) (B c)) Pi) as H2; cbv beta zeta in H2; rewrite S in H2; rewrite H2.
  reflexivity.
Qed.

Lemma bdiag_ext_map : forall {C} (cs : list C) (n : C -> nat) (F G : C -> mat),
  (forall c, In c cs -> meq (n c) (n c) (F c) (G c)) ->
  let s := list_sum (map n cs) in
  meq s s (bdiag (map (fun c => (n c, F c)) cs)) (bdiag (map (fun c => (n c, G c)) cs)).
Proof.
  intros C cs n F G H s.
  assert (X : Forall2 (fun p q => fst p = fst q /\ meq (fst p) (fst p) (snd p) (snd q))
     (map (fun c => (n c, F c)) cs) (map (fun c => (n c, G c)) cs)).
  { unfold s in *; clear s; induction cs as [|c cs IH]; constructor;
      [split; [reflexivity|apply H; left; reflexivity]|apply IH; intros; apply H; right; assumption]. }
  apply bdiag_ext in X as [X _]; rewrite bsize_map, map_map in X; exact X.
Qed.

Theorem directsum_ok : forall rs (Q : option mat) q Qi,
  rs <> [] -> Forall proper rs ->
  let n := list_sum (map r_size rs) in
  q = match Q with None => mid | Some m => m end -> inverse_of n q Qi ->
  sharp n (match Q with None => bdiag (map (fun r => (r_size r, r_cob r)) rs)
                      | Some m => mmul n m (bdiag (map (fun r => (r_size r, r_cob r)) rs)) end) ->
  exists d, directsum irr linv rs (option_map (fun m => (n, m)) Q) = Ret d /\ r_size d = n /\ proper d /\
    r_irreps d = flat_map r_irreps rs /\
    forall g, mem g -> exists vs A,
      mapM (fun r => r_fun r g) rs = Ret vs /\ r_fun d g = Ret (n, A) /\
      meq n n A (mmul n (mmul n q (bdiag vs)) Qi).
Proof.
  intros rs Q q Qi Hne Hrs n Eq HQ Hsh.
  set (C := bdiag (map (fun r => (r_size r, r_cob r)) rs)) in *.
  set (Ci := bdiag (map (fun r => (r_size r, r_inv r)) rs)).
  assert (HC : inverse_of n C Ci).
  { apply bdiag_inverse; intros r Hr; rewrite Forall_forall in Hrs; apply (Hrs r Hr). }
  assert (Hids : Forall (sound_irrep irr mem op e) (flat_map r_irreps rs)).
  { apply Forall_flat_map, Forall_forall; intros r Hr; rewrite Forall_forall in Hrs; apply (Hrs r Hr). }
  assert (Hids0 : flat_map r_irreps rs <> []).
  { destruct rs as [|r rs]; [congruence|]; inversion Hrs as [|? ? (N0 & _) _]; subst; cbn.
    destruct (r_irreps r); [congruence|discriminate]. }
  assert (Hts : total_size irr (flat_map r_irreps rs) n).
  { apply total_size_flat; eapply Forall_impl; [|exact Hrs]; intros r Hr; apply Hr. }
  assert (X : exists d, directsum irr linv rs (option_map (fun m => (n, m)) Q) = Ret d /\ r_size d = n /\
     r_irreps d = flat_map r_irreps rs /\ meq n n (r_cob d) (mmul n q C) /\ meq n n (r_inv d) (mmul n Ci Qi) /\
     reproduces irr mem d).
  { destruct Q as [m|]; cbn [option_map].
    - subst q; destruct (Hinv n (mmul n m C)) as [H1 H2].
      assert (HI : inverse_of n (mmul n m C) (mmul n Ci Qi)) by (apply inverse_of_mul; assumption).
      destruct H2 as [ci Eci]; [eexists; exact HI|]; specialize (H1 ci Eci).
      destruct (mk_repr_reproduces irr mem op e linv Hinv (flat_map r_irreps rs) n (mmul n m C) (Some ci)
        Hids Hids0 Hts H1 Hsh) as (d & Ed & Sd & Id & Cd & Vd & Rd).
      exists d; split; [|repeat split; try assumption].
      + unfold directsum; destruct rs as [|r0 rs0]; [congruence|].
        change (list_sum (map r_size (r0 :: rs0))) with n; rewrite Nat.eqb_refl; cbn [assert_ bind].
        fold C; rewrite Eci; exact Ed.
      + rewrite Cd; reflexivity.
      + rewrite (Vd ci eq_refl); exact (inverse_unique _ _ _ _ H1 HI).
      + apply Rd.
      + apply Rd.
      + apply Rd.
    - subst q; assert (HQ' : meq n n Qi mid).
      { destruct HQ as [HQ _]; rewrite mid_l in HQ; exact HQ. }
      destruct (mk_repr_reproduces irr mem op e linv Hinv (flat_map r_irreps rs) n C (Some Ci)
        Hids Hids0 Hts HC Hsh) as (d & Ed & Sd & Id & Cd & Vd & Rd).
      exists d; split; [|repeat split; try assumption].
      + unfold directsum; destruct rs as [|r0 rs0]; [congruence|]; exact Ed.
      + rewrite Cd, mid_l; reflexivity.
      + rewrite (Vd Ci eq_refl), HQ', mid_r; reflexivity.
      + apply Rd.
      + apply Rd.
      + apply Rd. }
  destruct X as (d & Ed & Sd & Id & Cd & Vd & Rd); exists d; split; [exact Ed|split; [exact Sd|split; [|split; [exact Id|]]]].
  { unfold proper; rewrite Id, Sd; repeat split; try assumption; apply Rd. }
  intros g Hg.
  assert (P : Forall (fun r => exists z : list sqmat * mat, values irr (r_irreps r) g = Ret (fst z) /\
     bsize (fst z) = r_size r /\ r_fun r g = Ret (r_size r, snd z) /\
     meq (r_size r) (r_size r) (snd z) (mmul (r_size r) (mmul (r_size r) (r_cob r) (bdiag (fst z))) (r_inv r))) rs).
  { eapply Forall_impl; [|exact Hrs]; intros r (_ & _ & _ & _ & Hr); destruct (Hr g Hg) as (bs & A & X); exists (bs, A); exact X. }
  apply Forall_pick in P as (zs & Ez & Hz).
  assert (Fm : forall (B : Type) (f : repr T -> B), map f rs = map (fun z => f (fst z)) zs).
  { intros B f; rewrite <- Ez, map_map; reflexivity. }
  exists (map (fun z => (r_size (fst z), snd (snd z))) zs).
  destruct (proj2 Rd g Hg) as (bs & A & Eb & Sb & EA & MA); rewrite Sd in *; exists A.
  split; [|split; [exact EA|]].
  { rewrite <- Ez; clear - Hz; induction Hz as [|z zs (_ & _ & E & _) _ IH]; [reflexivity|].
    cbn [map mapM]; rewrite E; cbn [bind]; rewrite IH; reflexivity. }
  assert (Ebs : bs = flat_map (fun z => fst (snd z)) zs).
  { rewrite Id in Eb; unfold values in Eb; rewrite <- Ez in Eb.
    assert (FM : flat_map r_irreps (map fst zs) = flat_map (fun z : repr T * (list sqmat * mat) => r_irreps (fst z)) zs).
    { clear; induction zs as [|z zs IH]; cbn; [reflexivity|]; rewrite IH; reflexivity. }
    rewrite FM in Eb.
    assert (FF : Forall (fun z : repr T * (list sqmat * mat) =>
       mapM (fun id => r <- irr id ;; gi_rep r g) (r_irreps (fst z)) = Ret (fst (snd z))) zs).
    { eapply Forall_impl; [|exact Hz]; intros z (X & _); exact X. }
    rewrite (mapM_flat _ _ _ _ _ _ _ FF) in Eb; apply Ret_inj in Eb; symmetry; exact Eb. }
  assert (En : n = list_sum (map (fun z => r_size (fst z)) zs)) by (unfold n; rewrite Fm; reflexivity).
  assert (MB : meq n n (bdiag bs) (bdiag (map (fun z => (r_size (fst z), bdiag (fst (snd z)))) zs))).
  { rewrite Ebs, flat_map_concat_map; intros i j _ _; rewrite bdiag_concat, map_map.
    f_equal; clear - Hz; induction Hz as [|z zs (_ & S & _) _ IH]; [reflexivity|]; cbn; rewrite S, IH; reflexivity. }
  rewrite MA, MB, Cd, Vd, <- conj_comp.
  apply mmul_proper; [apply mmul_proper; [reflexivity|]|reflexivity].
  unfold C, Ci; rewrite !Fm, En.
  rewrite (block_conj zs (fun z => r_size (fst z)) (fun z => r_cob (fst z)) (fun z => bdiag (fst (snd z))) (fun z => r_inv (fst z))).
  apply bdiag_ext_map; intros z Hz'; rewrite Forall_forall in Hz; destruct (Hz z Hz') as (_ & _ & _ & M).
  rewrite M; reflexivity.
Qed.

Theorem change_basis_ok : forall r Q Qi, proper r -> inverse_of (r_size r) Q Qi ->
  sharp (r_size r) (mmul (r_size r) Q (r_cob r)) ->
  exists d, change_basis irr linv r (r_size r, Q) = Ret d /\ r_size d = r_size r /\ proper d /\
    r_irreps d = r_irreps r /\
    forall g, mem g -> exists A B, r_fun r g = Ret (r_size r, A) /\ r_fun d g = Ret (r_size r, B) /\
      meq (r_size r) (r_size r) B (mmul (r_size r) (mmul (r_size r) Q A) Qi).
Proof.
  intros r Q Qi (Hne & Hs & Ht & HI & Hr) HQ Hsh; set (n := r_size r) in *.
  destruct (Hinv n Q) as [H1 H2]; destruct H2 as [qi Eqi]; [eexists; exact HQ|]; specialize (H1 qi Eqi).
  assert (Mq : meq n n qi Qi) by exact (inverse_unique _ _ _ _ H1 HQ).
  assert (HI2 : inverse_of n (mmul n Q (r_cob r)) (mmul n (r_inv r) qi)) by (apply inverse_of_mul; assumption).
  destruct (mk_repr_reproduces irr mem op e linv Hinv (r_irreps r) n (mmul n Q (r_cob r)) (Some (mmul n (r_inv r) qi))
    Hs Hne Ht HI2 Hsh) as (d & Ed & Sd & Id & Cd & Vd & Rd).
  exists d; split.
  { unfold change_basis; cbn [fst snd]; fold n; rewrite Nat.eqb_refl; cbn [assert_ bind]; rewrite Eqi; exact Ed. }
  split; [exact Sd|split; [unfold proper; rewrite Id, Sd; repeat split; try assumption; apply Rd|split; [exact Id|]]].
  intros g Hg; destruct (Hr g Hg) as (bs & A & Eb & Sb & EA & MA).
  destruct (proj2 Rd g Hg) as (bs' & B & Eb' & _ & EB & MB); rewrite Id, Eb in Eb'; apply Ret_inj in Eb'; subst bs'.
  exists A, B; fold n in EA, MA; rewrite Sd in *; split; [exact EA|split; [exact EB|]].
  rewrite MB, Cd, (Vd _ eq_refl), MA, conj_comp, Mq; reflexivity.
Qed.
End Sum.

Section Restrict.
Context {G H : Type}.
Variables (irrG : list Z -> res (girrep G)) (irrH : list Z -> res (girrep H)).
Variables (memG : G -> Prop) (memH : H -> Prop) (opH : H -> H -> res H) (eH : H).
Variables (incl : H -> res G) (restr : list Z -> res (sqmat * list (list Z))).
Variable linv : nat -> mat -> res mat.
Hypothesis Hinv : correct_inverse linv.

Lemma values_flat : forall {C} (f : C -> list (list Z)) (out : C -> list sqmat) cs h,
  Forall (fun c => values irrH (f c) h = Ret (out c)) cs -> values irrH (flat_map f cs) h = Ret (flat_map out cs).
Proof. intros C f out cs h X; unfold values; apply mapM_flat; exact X. Qed.

(** the parts of the restriction *)
Definition part := (list Z * (girrep G * mat * list (list Z)))%type.
Definition p_s (p : part) : girrep G := fst (fst (snd p)).
Definition p_Q (p : part) : mat := snd (fst (snd p)).
Definition p_h (p : part) : list (list Z) := snd (snd p).

Theorem restrict_ok : forall r, r_irreps r <> [] -> reproduces irrG memG r -> total_size irrG (r_irreps r) (r_size r) ->
  Forall (sound_restriction irrG irrH memG memH opH eH incl restr) (r_irreps r) ->
  (forall parts, mapM restr (r_irreps r) = Ret parts ->
     sharp (r_size r) (mmul (r_size r) (r_cob r) (bdiag (map fst parts)))) ->
  exists d, restrict_representation irrG irrH linv restr r = Ret d /\ r_size d = r_size r /\
    proper irrH memH opH eH d /\
    forall h, memH h -> exists g A B, incl h = Ret g /\ r_fun r g = Ret (r_size r, A) /\
      r_fun d h = Ret (r_size r, B) /\ meq (r_size r) (r_size r) B A.
Proof.
  intros r Hne Hrep Hts Hres Hsh; set (n := r_size r) in *.
  assert (P : Forall (fun id => exists z : girrep G * mat * list (list Z),
     irrG id = Ret (fst (fst z)) /\ restr id = Ret ((gi_size (fst (fst z)), snd (fst z)), snd z) /\
     (0 < gi_size (fst (fst z)))%nat /\ orthogonal (gi_size (fst (fst z))) (snd (fst z)) /\
     Forall (sound_irrep irrH memH opH eH) (snd z) /\
     total_size irrH (snd z) (gi_size (fst (fst z))) /\
     forall h, memH h -> exists g A bs, incl h = Ret g /\ memG g /\ gi_rep (fst (fst z)) g = Ret (gi_size (fst (fst z)), A) /\
       values irrH (snd z) h = Ret bs /\ bsize bs = gi_size (fst (fst z)) /\
       meq (gi_size (fst (fst z))) (gi_size (fst (fst z))) A
        (mmul (gi_size (fst (fst z))) (mmul (gi_size (fst (fst z))) (snd (fst z)) (bdiag bs)) (mtr (snd (fst z))))) (r_irreps r)).
  { eapply Forall_impl; [|exact Hres]; intros id (s & Q & hids & X); exists (s, Q, hids); exact X. }
  apply Forall_pick in P as (zs & Ez & Hz).
  set (sz := fun z : part => gi_size (p_s z)).
  assert (Eirr : mapM irrG (r_irreps r) = Ret (map p_s zs)).
  { rewrite <- Ez; clear - Hz; induction Hz as [|z zs (E & _) _ IH]; [reflexivity|].
    cbn [map mapM]; rewrite E; cbn [bind]; rewrite IH; reflexivity. }
  assert (En : list_sum (map sz zs) = n).
  { destruct Hts as (l & El & Sl); rewrite Eirr in El; apply Ret_inj in El; subst l; rewrite map_map in Sl; exact Sl. }
  assert (Eres : mapM restr (r_irreps r) = Ret (map (fun z : part => ((sz z, p_Q z), p_h z)) zs)).
  { rewrite <- Ez; clear - Hz; induction Hz as [|z zs (_ & E & _) _ IH]; [reflexivity|].
    cbn [map mapM]; rewrite E; cbn [bind]; rewrite IH; reflexivity. }
  specialize (Hsh _ Eres); rewrite map_map in Hsh; cbn [fst] in Hsh.
  assert (Eparts : mapM (fun id => x <- restr id ;; s <- irrG id ;;
                           assert (Nat.eqb (fst (fst x)) (gi_size s)) ;; Ret x) (r_irreps r) =
     Ret (map (fun z : part => ((sz z, p_Q z), p_h z)) zs)).
  { rewrite <- Ez; clear - Hz; induction Hz as [|z zs (E1 & E2 & _) _ IH]; [reflexivity|].
    cbn [map mapM]; rewrite E2, E1; cbn [bind fst]; rewrite Nat.eqb_refl; cbn [assert_ bind]; rewrite IH; reflexivity. }
  set (D := bdiag (map (fun z : part => (sz z, p_Q z)) zs)) in *.
  set (Di := bdiag (map (fun z : part => (sz z, mtr (p_Q z))) zs)).
  assert (HD : inverse_of n D Di).
  { rewrite <- En; apply bdiag_inverse; intros z Hz'; rewrite Forall_forall in Hz; apply (Hz z Hz'). }
  destruct Hrep as [HI Hr].
  assert (HCD : inverse_of n (mmul n (r_cob r) D) (mmul n Di (r_inv r))) by (apply inverse_of_mul; assumption).
  set (hids := flat_map p_h zs).
  assert (Hs : Forall (sound_irrep irrH memH opH eH) hids).
  { apply Forall_flat_map; eapply Forall_impl; [|exact Hz]; intros z X; apply X. }
  assert (Ht : total_size irrH hids n).
  { rewrite <- En; apply (total_size_flat irrH (fun z => p_h z) sz); eapply Forall_impl; [|exact Hz]; intros z X; apply X. }
  assert (Hn0 : hids <> []).
  { destruct zs as [|z zs']; [cbn in Ez; congruence|].
    inversion Hz as [|? ? (_ & _ & S0 & _ & _ & (l & El & Sl) & _) _]; subst.
    unfold hids; cbn; change (p_h z) with (snd (snd z)); destruct (snd (snd z)) as [|i l']; [|discriminate].
    cbn in El; apply Ret_inj in El; subst l; cbn in Sl; lia. }
  destruct (mk_repr_reproduces irrH memH opH eH linv Hinv hids n (mmul n (r_cob r) D) None Hs Hn0 Ht) as
    (d & Ed & Sd & Id & Cd & _ & Rd); [eexists; exact HCD|exact Hsh|].
  exists d; split.
  { unfold restrict_representation; rewrite Eparts; cbn [bind]; rewrite map_map; cbn [fst].
    assert (SB : bsize (map (fun z : part => (sz z, p_Q z)) zs) = n) by (rewrite bsize_map, map_map; exact En).
    match goal with |- context [Nat.eqb ?x ?y] =>
      replace (Nat.eqb x y) with true by (symmetry; apply Nat.eqb_eq; exact SB) end.
    cbn [assert_ bind]; match goal with |- context [bdiag ?x] => change (bdiag x) with D end.
    assert (FM : flat_map snd (map (fun z : part => ((sz z, p_Q z), p_h z)) zs) = hids).
    { unfold hids; clear; induction zs as [|z zs IH]; cbn; [reflexivity|]; rewrite IH; reflexivity. }
    etransitivity; [|exact Ed].
    exact (f_equal (fun q => mk_repr irrH linv q n (mmul n (r_cob r) D) None) FM). }
  split; [exact Sd|split; [unfold proper; rewrite Id, Sd; repeat split; try assumption; apply Rd|]].
  intros h Hh.
  assert (Ing : exists g, incl h = Ret g /\ memG g).
  { destruct zs as [|z zs']; [cbn in Ez; congruence|]; inversion Hz as [|? ? (_ & _ & _ & _ & _ & _ & X) _]; subst.
    destruct (X h Hh) as (g & A & bs & Y & Y' & _); exists g; split; assumption. }
  destruct Ing as (g & Eg & Mg).
  assert (P2 : Forall (fun z : part => exists w : mat * list sqmat, gi_rep (p_s z) g = Ret (sz z, fst w) /\
     values irrH (p_h z) h = Ret (snd w) /\ bsize (snd w) = sz z /\
     meq (sz z) (sz z) (fst w) (mmul (sz z) (mmul (sz z) (p_Q z) (bdiag (snd w))) (mtr (p_Q z)))) zs).
  { eapply Forall_impl; [|exact Hz]; intros z (_ & _ & _ & _ & _ & _ & X).
    destruct (X h Hh) as (g' & A & bs & Y & _ & Y'); rewrite Eg in Y; apply Ret_inj in Y; subst g'; exists (A, bs); exact Y'. }
  apply Forall_pick in P2 as (ws & Ew & Hw).
  destruct (Hr g Mg) as (bg & A & Ebg & Sbg & EA & MA); fold n in Sbg, EA, MA.
  destruct (proj2 Rd h Hh) as (bh & B & Ebh & Sbh & EB & MB); rewrite Sd in *.
  exists g, A, B; split; [exact Eg|split; [exact EA|split; [exact EB|]]].
  assert (Fbg : bg = map (fun w => (sz (fst w), fst (snd w))) ws).
  { unfold values in Ebg; rewrite (mapM_irr irrG (fun x => gi_rep x g) _ _ Eirr) in Ebg.
    rewrite <- Ew in Ebg; rewrite !map_map in Ebg.
    assert (X : mapM (fun x => gi_rep x g) (map (fun w : part * (mat * list sqmat) => p_s (fst w)) ws) =
       Ret (map (fun w => (sz (fst w), fst (snd w))) ws)).
    { clear - Hw; induction Hw as [|w ws (E & _) _ IH]; [reflexivity|].
      cbn [map mapM]; rewrite E; cbn [bind]; rewrite IH; reflexivity. }
    rewrite X in Ebg; apply Ret_inj in Ebg; symmetry; exact Ebg. }
  assert (Fbh : bh = flat_map (fun w => snd (snd w)) ws).
  { rewrite Id in Ebh; unfold hids in Ebh; rewrite <- Ew in Ebh.
    assert (FM : flat_map p_h (map fst ws) = flat_map (fun w : part * (mat * list sqmat) => p_h (fst w)) ws).
    { clear; induction ws as [|w ws IH]; cbn; [reflexivity|]; rewrite IH; reflexivity. }
    rewrite FM in Ebh.
    rewrite (values_flat (fun w : part * (mat * list sqmat) => p_h (fst w)) (fun w => snd (snd w)) ws h) in Ebh.
    - apply Ret_inj in Ebh; symmetry; exact Ebh.
    - eapply Forall_impl; [|exact Hw]; intros w (_ & X & _); exact X. }
  assert (En2 : list_sum (map (fun w : part * (mat * list sqmat) => sz (fst w)) ws) = n).
  { rewrite <- En, <- Ew, map_map; reflexivity. }
  assert (MBh : meq n n (bdiag bh) (bdiag (map (fun w => (sz (fst w), bdiag (snd (snd w)))) ws))).
  { rewrite Fbh, flat_map_concat_map; intros i j _ _; rewrite bdiag_concat, map_map.
    f_equal; clear - Hw; induction Hw as [|w ws (_ & _ & S & _) _ IH]; [reflexivity|]; cbn; rewrite S, IH; reflexivity. }
  assert (Mbg : meq n n (bdiag bg) (mmul n (mmul n D (bdiag bh)) Di)).
  { rewrite MBh, Fbg; unfold D, Di; rewrite <- Ew, !map_map, <- En2.
    rewrite (block_conj ws (fun w => sz (fst w)) (fun w => p_Q (fst w)) (fun w => bdiag (snd (snd w))) (fun w => mtr (p_Q (fst w)))).
    apply bdiag_ext_map; intros w Hw'; rewrite Forall_forall in Hw; destruct (Hw w Hw') as (_ & _ & _ & M); exact M. }
  assert (Mi : meq n n (r_inv d) (mmul n Di (r_inv r))).
  { destruct Rd as [Rd _]; rewrite Sd, Cd in Rd; exact (inverse_unique _ _ _ _ Rd HCD). }
  rewrite MB, MA, Cd, Mi, Mbg, conj_comp; reflexivity.
Qed.
End Restrict.
