(** Coset representatives and the regular representation of a finite group. *)
From Coq Require Import Reals ZArith Bool List Lia Lra Setoid Morphisms Arith Permutation.
From Verif Require Import LibRes LibList LibMat LibMatS LibTrig SpecGroup ParamModel ParamProofs IrrepModel SpecRep
  RepModel SpecRepr RepProofs RepThms RegModel SpecReg.
Import ListNotations.
Open Scope R_scope.

(** ** coset representatives *)
Section Cosets.
Context {T S : Type}.
Variables (mem : T -> Prop) (op : T -> T -> res T) (inv : T -> res T) (e : T).
Variables (memH : S -> Prop) (opH : S -> S -> res S) (invH : S -> res S) (eH : S).
Variables (incl : S -> res T) (eqb : T -> T -> bool) (els : list T) (sels : list S).
Hypothesis HG : is_group mem op inv e.
Hypothesis HH : is_group memH opH invH eH.
Hypothesis HI : is_embedding mem op memH opH incl.
Hypothesis He : enumerates mem els.
Hypothesis Hs : enumerates memH sels.
Hypothesis Hd : decides mem eqb.

(** x is in the left coset of r *)
Definition inc (r x : T) : Prop := exists h g, memH h /\ incl h = Ret g /\ op r g = Ret x.

Lemma op_ret : forall a b, mem a -> mem b -> exists c, op a b = Ret c /\ mem c.
Proof. apply HG. Qed.

Lemma op_cancel_l : forall a b c d, mem a -> mem b -> mem c -> op a b = Ret d -> op a c = Ret d -> b = c.
Proof.
  intros a b c d Ha Hb Hc E1 E2; destruct (grp_inv _ _ _ _ HG a Ha) as (i & Ei & Mi).
  pose proof (grp_inv_l _ _ _ _ HG a i Ha Ei) as L.
  pose proof (grp_assoc _ _ _ _ HG i a b e d Mi Ha Hb L E1) as A1.
  pose proof (grp_assoc _ _ _ _ HG i a c e d Mi Ha Hc L E2) as A2.
  rewrite (grp_id_l _ _ _ _ HG b Hb) in A1; rewrite (grp_id_l _ _ _ _ HG c Hc) in A2.
  rewrite <- A2 in A1; apply Ret_inj in A1; exact A1.
Qed.

Lemma incl_id : incl eH = Ret e.
Proof.
  destruct (emb_mem _ _ _ _ _ HI eH (grp_id _ _ _ _ HH)) as (g & E & M); rewrite E; f_equal.
  pose proof (emb_mul _ _ _ _ _ HI eH eH eH g g (grp_id _ _ _ _ HH) (grp_id _ _ _ _ HH)
    (grp_id_l _ _ _ _ HH eH (grp_id _ _ _ _ HH)) E E) as X; rewrite E in X.
  apply (op_cancel_l g g e g M M (grp_id _ _ _ _ HG)); [symmetry; exact X|apply (grp_id_r _ _ _ _ HG); exact M].
Qed.

Lemma inc_refl : forall x, mem x -> inc x x.
Proof. intros x Hx; exists eH, e; split; [apply HH|split; [exact incl_id|apply (grp_id_r _ _ _ _ HG); exact Hx]]. Qed.

Lemma inc_mem : forall r x, mem r -> inc r x -> mem x.
Proof.
  intros r x Hr (h & g & Mh & Eg & E); destruct (emb_mem _ _ _ _ _ HI h Mh) as (g' & Eg' & Mg').
  rewrite Eg in Eg'; apply Ret_inj in Eg'; subst g'.
  destruct (op_ret r g Hr Mg') as (c & Ec & Mc); rewrite E in Ec; apply Ret_inj in Ec; subst; exact Mc.
Qed.

Lemma inc_trans : forall a b c, mem a -> mem b -> inc a b -> inc b c -> inc a c.
Proof.
  intros a b c Ha Hb (h & g & Mh & Eg & E) (h' & g' & Mh' & Eg' & E').
  destruct (grp_op _ _ _ _ HH h h' Mh Mh') as (k & Ek & Mk).
  destruct (emb_mem _ _ _ _ _ HI h Mh) as (x & Ex & Mg); rewrite Eg in Ex; apply Ret_inj in Ex; subst x.
  destruct (emb_mem _ _ _ _ _ HI h' Mh') as (x & Ex & Mg'); rewrite Eg' in Ex; apply Ret_inj in Ex; subst x.
  destruct (op_ret g g' Mg Mg') as (gg & Egg & Mgg).
  exists k, gg; split; [exact Mk|split].
  - rewrite (emb_mul _ _ _ _ _ HI h h' k g g' Mh Mh' Ek Eg Eg'); exact Egg.
  - rewrite <- (grp_assoc _ _ _ _ HG a g g' b gg Ha Mg Mg' E Egg); exact E'.
Qed.

Lemma inc_sym : forall a b, mem a -> inc a b -> inc b a.
Proof.
  intros a b Ha I; pose proof (inc_mem a b Ha I) as Hb; destruct I as (h & g & Mh & Eg & E).
  destruct (grp_inv _ _ _ _ HH h Mh) as (k & Ek & Mk).
  destruct (emb_mem _ _ _ _ _ HI h Mh) as (x & Ex & Mg); rewrite Eg in Ex; apply Ret_inj in Ex; subst x.
  destruct (emb_mem _ _ _ _ _ HI k Mk) as (y & Ey & My).
  exists k, y; split; [exact Mk|split; [exact Ey|]].
  pose proof (emb_mul _ _ _ _ _ HI h k eH g y Mh Mk (grp_inv_r _ _ _ _ HH h k Mh Ek) Eg Ey) as X; rewrite incl_id in X.
  rewrite (grp_assoc _ _ _ _ HG a g y b e Ha Mg My E (eq_sym X)); apply (grp_id_r _ _ _ _ HG); exact Ha.
Qed.

(** the new keys of one step *)
Lemma new_keys : forall x, mem x -> exists new, mapM (fun g => ig <- incl g ;; op x ig) sels = Ret new /\
  length new = length sels /\ NoDup new /\ forall y, In y new <-> inc x y.
Proof.
  intros x Hx; destruct Hs as [Nd Hin].
  assert (X : forall l, (forall h, In h l -> memH h) -> NoDup l ->
    exists new, mapM (fun g => ig <- incl g ;; op x ig) l = Ret new /\ length new = length l /\ NoDup new /\
      forall y, In y new <-> exists h g, In h l /\ incl h = Ret g /\ op x g = Ret y).
  { induction l as [|h l IH]; intros Hl Nl.
    - exists []; repeat split; try constructor; intros []; destruct H as (? & [] & _).
    - inversion Nl as [|? ? Nh Nl']; subst; destruct IH as (new & En & Ln & Nn & Hn); auto.
      { intros; apply Hl; right; assumption. }
      assert (Mh : memH h) by (apply Hl; left; reflexivity).
      destruct (emb_mem _ _ _ _ _ HI h Mh) as (g & Eg & Mg); destruct (op_ret x g Hx Mg) as (y & Ey & My).
      exists (y :: new); cbn; rewrite Eg; cbn; rewrite Ey, En; cbn; repeat split; [lia| | |].
      + constructor; [|exact Nn]; intros I; apply Hn in I as (h' & g' & Ih' & Eg' & Ey').
        assert (Mh' : memH h') by (apply Hl; right; exact Ih').
        destruct (emb_mem _ _ _ _ _ HI h' Mh') as (z & Ez & Mz); rewrite Eg' in Ez; apply Ret_inj in Ez; subst z.
        pose proof (op_cancel_l x g g' y Hx Mg Mz Ey Ey'); subst g'.
        apply Nh; rewrite (emb_inj _ _ _ _ _ HI h h' Mh Mh'); [exact Ih'|congruence].
      + intros [<-|I]; [exists h, g; auto|]; apply Hn in I as (h' & g' & I & X); exists h', g'; auto.
      + intros (h' & g' & [<-|I] & Eg' & Ey'); [left; congruence|right; apply Hn; exists h', g'; auto]. }
  destruct (X sels) as (new & En & Ln & Nn & Hn); [intros h Hh; apply Hin; exact Hh|exact Nd|].
  exists new; repeat split; try assumption; unfold inc.
  - intros I; apply Hn in I as (h & g & I & Y); exists h, g; rewrite <- Hin; auto.
  - intros (h & g & I & Y); apply Hn; exists h, g; rewrite Hin; auto.
Qed.

Lemma memb_In : forall x l, mem x -> Forall mem l -> (memb eqb x l = true <-> In x l).
Proof.
  intros x l Hx Hl; unfold memb; rewrite existsb_exists; split.
  - intros (y & I & E); rewrite Forall_forall in Hl; apply Hd in E; auto; subst; exact I.
  - intros I; exists x; split; [exact I|apply Hd; auto].
Qed.

(** invariant of the loop after the elements [done] *)
Definition cinv (done reps keys : list T) : Prop :=
  NoDup reps /\ Forall mem reps /\ NoDup keys /\ Forall mem keys /\
  length keys = (length reps * length sels)%nat /\
  (forall x, In x keys <-> exists r, In r reps /\ inc r x) /\
  (forall x, In x done -> In x keys) /\
  (forall r r', In r reps -> In r' reps -> inc r r' -> r = r').

Lemma loop_ok : forall es done reps keys, (forall x, In x es -> mem x) -> (forall x, In x done -> mem x) -> cinv done reps keys ->
  exists reps' keys', coset_loop eqb op sels incl es reps keys = Ret (reps', keys') /\ cinv (done ++ es) reps' keys'.
Proof.
  induction es as [|x es IH]; intros done reps keys Hes Hdone I.
  - exists reps, keys; rewrite app_nil_r; split; [reflexivity|exact I].
  - assert (Hx : mem x) by (apply Hes; left; reflexivity).
    destruct I as (Nr & Mr & Nk & Mk & Lk & Ik & Id & Iu); cbn [coset_loop].
    assert (Hdone' : forall y, In y (done ++ [x]) -> mem y).
    { intros y Hy; apply in_app_or in Hy as [Hy|[<-|[]]]; auto. }
    replace (done ++ x :: es) with ((done ++ [x]) ++ es) by (rewrite <- app_assoc; reflexivity).
    destruct (memb eqb x keys) eqn:Em.
    + apply memb_In in Em; auto; apply IH; auto; [intros; apply Hes; right; assumption|].
      repeat split; auto; try apply Ik.
      intros y Hy; apply in_app_or in Hy as [Hy|[<-|[]]]; auto.
    + assert (Nx : ~ In x keys) by (intros X; apply memb_In in X; auto; congruence).
      destruct (new_keys x Hx) as (new & En & Ln & Nn & Hn); rewrite En; cbn [bind].
      apply IH; auto; [intros; apply Hes; right; assumption|].
      assert (Mn : Forall mem new) by (apply Forall_forall; intros y Hy; apply (inc_mem x y Hx), Hn, Hy).
      assert (Sep : forall r, In r reps -> ~ inc r x /\ ~ inc x r).
      { intros r Hr; rewrite Forall_forall in Mr; split; intros X; apply Nx, Ik; exists r; split; auto.
        apply inc_sym; auto. }
      assert (Dis : forall y, In y keys -> ~ In y new).
      { intros y Hy Hy'; apply Ik in Hy as (r & Hr & Hry); apply Hn in Hy'.
        rewrite Forall_forall in Mr; apply (proj1 (Sep r Hr)), (inc_trans r y x); auto; [apply (inc_mem r y); auto|].
        apply inc_sym; auto. }
      unfold cinv; split; [|split; [|split; [|split; [|split; [|split; [|split]]]]]].
      * apply NoDup_app_intro; [exact Nr|repeat constructor; intros []|].
        intros y Hy [<-|[]]; apply (proj1 (Sep x Hy)), inc_refl; exact Hx.
      * apply Forall_app; split; [exact Mr|repeat constructor; exact Hx].
      * apply NoDup_app_intro; [exact Nk|exact Nn|exact Dis].
      * apply Forall_app; split; assumption.
      * rewrite !app_length, Lk, Ln; cbn; ring.
      * intros y; rewrite in_app_iff, Ik, Hn; split.
        -- intros [(r & Hr & X)|X]; [exists r|exists x]; rewrite in_app_iff; cbn; auto.
        -- intros (r & Hr & X); apply in_app_or in Hr as [Hr|[<-|[]]]; eauto.
      * intros y Hy; rewrite in_app_iff; apply in_app_or in Hy as [Hy|[<-|[]]]; [left; auto|right; apply Hn, inc_refl; exact Hx].
      * intros r r' Hr Hr' X; apply in_app_or in Hr as [Hr|[<-|[]]], Hr' as [Hr'|[<-|[]]]; auto.
        -- exfalso; apply (proj1 (Sep r Hr)), X.
        -- exfalso; apply (proj2 (Sep r' Hr')), X.
Qed.

Theorem representatives_ok : exists reps, representatives eqb op els sels incl = Ret reps /\
  transversal mem op memH incl reps /\ length els = (length reps * length sels)%nat.
Proof.
  destruct He as [Ne Ie].
  destruct (loop_ok els [] [] []) as (reps & keys & El & Nr & Mr & Nk & Mk & Lk & Ik & Id & Iu).
  - intros x Hx; apply Ie; exact Hx.
  - intros x [].
  - unfold cinv; cbn [length Nat.mul In]; repeat apply conj; try apply NoDup_nil; try apply Forall_nil; auto.
    intros x; split; [intros []|intros (r & [] & _)].
    intros r r' [].
  - assert (Ln : length els = length keys).
    { apply Nat.le_antisymm.
      - apply NoDup_incl_length; [exact Ne|]; intros x Hx; apply Id; exact Hx.
      - apply NoDup_incl_length; [exact Nk|]; intros x Hx; apply Ie; rewrite Forall_forall in Mk; auto. }
    assert (Ls : (0 < length sels)%nat).
    { destruct sels as [|h l]; [|cbn; lia]; destruct Hs as [_ X]; destruct (proj2 (X eH) (grp_id _ _ _ _ HH)). }
    exists reps; unfold representatives; rewrite El; cbn [bind fst].
    rewrite Ln, Lk, Nat.div_mul, Nat.eqb_refl by lia; cbn [assert_ bind].
    split; [reflexivity|split; [|reflexivity]]; split; [exact Nr|split; [exact Mr|]].
    intros x Hx; destruct (proj1 (Ik x) (Id x (proj2 (Ie x) Hx))) as (r & Hr & X).
    exists r; split; [exact Hr|split; [exact X|]].
    rewrite Forall_forall in Mr; intros r' Hr' X'; apply Iu; auto.
    apply (inc_trans r' x r); auto; apply inc_sym; auto.
Qed.

Theorem same_coset_ok : forall restr, is_restriction mem memH incl restr -> forall g1 g2, mem g1 -> mem g2 ->
  exists b, same_coset op inv restr g1 g2 = Ret b /\
    (b = true <-> exists h g, memH h /\ incl h = Ret g /\ op g1 g = Ret g2).
Proof.
  intros restr HR g1 g2 H1 H2; destruct (grp_inv _ _ _ _ HG g1 H1) as (i & Ei & Mi).
  destruct (op_ret i g2 Mi H2) as (d & Ed & Md); destruct (res_total _ _ _ _ HR d Md) as (o & Eo).
  unfold same_coset; rewrite Ei; cbn [bind]; rewrite Ed; cbn [bind]; rewrite Eo; cbn [bind].
  eexists; split; [reflexivity|].
  assert (Ed2 : op g1 d = Ret g2).
  { rewrite <- (grp_assoc _ _ _ _ HG g1 i g2 e d H1 Mi H2 (grp_inv_r _ _ _ _ HG g1 i H1 Ei) Ed).
    apply (grp_id_l _ _ _ _ HG); exact H2. }
  destruct o as [h|].
  - split; [intros _|reflexivity]; apply (res_some _ _ _ _ HR d h Md) in Eo as [Mh Ih]; exists h, d; auto.
  - split; [discriminate|]; intros (h & g & Mh & Ih & Eg).
    destruct (emb_mem _ _ _ _ _ HI h Mh) as (x & Ex & Mg); rewrite Ih in Ex; apply Ret_inj in Ex; subst x.
    pose proof (op_cancel_l g1 g d g2 H1 Mg Md Eg Ed2); subst g.
    exfalso; apply (proj1 (res_none _ _ _ _ HR d Md) Eo); exists h; auto.
Qed.
End Cosets.

(** ** the regular representation *)

(** v^T A v *)
Definition quad (n : nat) (A : mat) (v : list R) : R :=
  sumn n (fun i => sumn n (fun j => nth i v 0 * A i j * nth j v 0)).

Lemma quad_app : forall b1 b2 v1 v2, length v1 = bsize b1 ->
  quad (bsize (b1 ++ b2)) (bdiag (b1 ++ b2)) (v1 ++ v2) =
  quad (bsize b1) (bdiag b1) v1 + quad (bsize b2) (bdiag b2) v2.
Proof.
  intros b1 b2 v1 v2 L; unfold quad; rewrite bsize_app, sumn_app; f_equal.
  - apply sumn_ext; intros i Hi; rewrite sumn_app.
    rewrite (sumn_0 (bsize b2)).
    + rewrite Rplus_0_r; apply sumn_ext; intros j Hj; rewrite !app_nth1, bdiag_app by lia.
      rewrite !(proj2 (Nat.ltb_lt _ _)) by lia; reflexivity.
    + intros j Hj; rewrite bdiag_app, (proj2 (Nat.ltb_lt i _)), (proj2 (Nat.ltb_ge (bsize b1 + j) _)) by lia; ring.
  - apply sumn_ext; intros i Hi; rewrite sumn_app.
    rewrite (sumn_0 (bsize b1)).
    + rewrite Rplus_0_l; apply sumn_ext; intros j Hj; rewrite !app_nth2, bdiag_app by lia.
      rewrite !(proj2 (Nat.ltb_ge (bsize b1 + _) _)) by lia; rewrite L.
      replace (bsize b1 + i - bsize b1)%nat with i by lia; replace (bsize b1 + j - bsize b1)%nat with j by lia; reflexivity.
    + intros j Hj; rewrite bdiag_app, (proj2 (Nat.ltb_lt j _)), (proj2 (Nat.ltb_ge (bsize b1 + i) _)) by lia; ring.
Qed.

Definition seg (s a : nat) : list R := map (fun b => if Nat.eqb a b then sqrt (INR s) else 0) (seq 0 s).

Lemma seg_nth : forall s a b, (b < s)%nat -> nth b (seg s a) 0 = if Nat.eqb a b then sqrt (INR s) else 0.
Proof.
  intros s a b H; unfold seg.
  rewrite (nth_indep _ 0 ((fun b => if Nat.eqb a b then sqrt (INR s) else 0) 0%nat)) by (rewrite map_length, seq_length; exact H).
  rewrite (map_nth (fun b => if Nat.eqb a b then sqrt (INR s) else 0)), seq_nth by exact H; reflexivity.
Qed.

Lemma seg_length : forall s a, length (seg s a) = s.
Proof. intros; unfold seg; rewrite map_length, seq_length; reflexivity. Qed.

Lemma quad_seg : forall s A a, (a < s)%nat -> quad (bsize [(s, A)]) (bdiag [(s, A)]) (seg s a) = INR s * A a a.
Proof.
  intros s A a Ha; unfold quad; cbn [bsize]; rewrite Nat.add_0_r.
  rewrite (sumn_single s a) by (auto; intros i Hi Hia; apply sumn_0; intros j Hj; rewrite (seg_nth s a i) by exact Hi;
    destruct (Nat.eqb_spec a i); (congruence || ring)).
  rewrite (sumn_single s a) by (auto; intros i Hi Hia; rewrite (seg_nth s a i) by exact Hi;
    destruct (Nat.eqb_spec a i); (congruence || ring)).
  rewrite seg_nth, Nat.eqb_refl by exact Ha; cbn [bdiag]; rewrite (proj2 (Nat.ltb_lt a s) Ha).
  replace (sqrt (INR s) * A a a * sqrt (INR s)) with (sqrt (INR s) * sqrt (INR s) * A a a) by ring.
  rewrite sqrt_sqrt by apply pos_INR; reflexivity.
Qed.

Lemma quad_segs : forall s A l, (forall a, In a l -> (a < s)%nat) ->
  let bs := repeat (s, A) (length l) in let v := flat_map (seg s) l in
  length v = bsize bs /\ quad (bsize bs) (bdiag bs) v = INR s * fold_right Rplus 0 (map (fun a => A a a) l).
Proof.
  intros s A; induction l as [|a l IH]; intros H; cbn zeta.
  - split; [reflexivity|]; cbn; unfold quad; cbn; ring.
  - destruct IH as [L Q]; [intros; apply H; right; assumption|]; cbn zeta in L, Q.
    change (repeat (s, A) (length (a :: l))) with ([(s, A)] ++ repeat (s, A) (length l)).
    change (flat_map (seg s) (a :: l)) with (seg s a ++ flat_map (seg s) l).
    split; [rewrite app_length, bsize_app, L, seg_length; cbn; lia|].
    rewrite quad_app by (rewrite seg_length; cbn; lia).
    rewrite Q, quad_seg by (apply H; left; reflexivity); cbn [map fold_right]; ring.
Qed.

Lemma eye_block_segs : forall m s, eye_block m s = flat_map (seg s) (seq 0 m).
Proof. reflexivity. Qed.

Lemma sumn_fold : forall n f, sumn n f = fold_right Rplus 0 (map f (seq 0 n)).
Proof. exact sumn_list. Qed.

Lemma mapM_repeat : forall A B (f : A -> res B) a b n, f a = Ret b -> mapM f (repeat a n) = Ret (repeat b n).
Proof. intros A B f a b n E; induction n as [|n IH]; cbn; [reflexivity|]; rewrite E; cbn; rewrite IH; reflexivity. Qed.

Lemma mapM_app_inv : forall A B (f : A -> res B) l m c, mapM f (l ++ m) = Ret c ->
  exists a b, mapM f l = Ret a /\ mapM f m = Ret b /\ c = a ++ b.
Proof.
  intros A B f; induction l as [|x l IH]; intros m c H; [exists [], c; repeat split; exact H|].
  cbn [app mapM] in H; apply bind_Ret in H as (y & Ey & H); apply bind_Ret in H as (t & Et & H); apply Ret_inj in H; subst c.
  destruct (IH m t Et) as (a & b & Ea & Eb & ->); exists (y :: a), b; cbn [mapM]; rewrite Ey, Ea; repeat split; exact Eb.
Qed.

Lemma mapM_map : forall A B C (g : A -> B) (f : B -> res C) l, mapM f (map g l) = mapM (fun a => f (g a)) l.
Proof. intros A B C g f; induction l as [|a l IH]; cbn; [reflexivity|]; rewrite IH; reflexivity. Qed.

Section Regular.
Context {T : Type}.
Variables (mem : T -> Prop) (op : T -> T -> res T) (inv : T -> res T) (e : T).
Variables (eqb : T -> T -> bool) (els : list T).
Variables (irr : list Z -> res (girrep T)) (linv : nat -> mat -> res mat).
Variables (ids : list (list Z)) (ss : list (girrep T)).
Hypothesis HG : is_group mem op inv e.
Hypothesis He : enumerates mem els.
Hypothesis Hd : decides mem eqb.
Hypothesis Hinv : correct_inverse linv.
Hypothesis Hss : mapM irr ids = Ret ss.
Hypothesis Hirr : Forall (fun s => irr (gi_id s) = Ret s) ss.
Hypothesis Hty : Forall (typed_irrep mem op inv e) ss.
Hypothesis Hcom : complete_irreps mem e (length els) ss.

Let n := length els.

Lemma n_pos : (0 < n)%nat.
Proof.
  unfold n; destruct els as [|x l]; [|cbn; lia]; destruct He as [_ X]; destruct (proj2 (X e) (grp_id _ _ _ _ HG)).
Qed.

Lemma els_mem : forall i x, nth_error els i = Some x -> mem x.
Proof. intros i x E; apply He; exact (nth_error_In _ _ E). Qed.

Lemma find_index_ok : forall l x, NoDup l -> (forall y, In y l -> mem y) -> mem x ->
  forall i, find_index eqb l x = Ret i <-> nth_error l i = Some x.
Proof.
  induction l as [|y l IH]; intros x Nd Hl Hx i; cbn [find_index].
  - destruct i; split; discriminate.
  - inversion Nd as [|? ? Ny Nl]; subst.
    assert (Hl' : forall z, In z l -> mem z) by (intros; apply Hl; right; assumption).
    destruct (eqb x y) eqn:E.
    + apply Hd in E; [subst y|exact Hx|apply Hl; left; reflexivity]; destruct i as [|i]; cbn.
      * split; [reflexivity|reflexivity].
      * split; [intros X; apply Ret_inj in X; discriminate X|intros X; exfalso; apply Ny, (nth_error_In _ _ X)].
    + assert (Nxy : x <> y) by (intros ->; rewrite (proj2 (Hd y y (Hl y (or_introl eq_refl)) (Hl y (or_introl eq_refl))) eq_refl) in E; discriminate).
      destruct i as [|i]; cbn.
      * split; [intros X; apply bind_Ret in X as (k & _ & X); apply Ret_inj in X; discriminate X|congruence].
      * rewrite <- (IH x Nl Hl' Hx); split.
        -- intros X; apply bind_Ret in X as (k & Ek & X); apply Ret_inj in X; injection X as <-; exact Ek.
        -- intros X; rewrite X; reflexivity.
Qed.

Lemma index_ok : forall x i, mem x -> (index eqb els x = Ret i <-> nth_error els i = Some x).
Proof. intros x i Hx; apply find_index_ok; auto; [apply He|intros y Hy; apply He; exact Hy]. Qed.

Lemma index_total : forall x, mem x -> exists i, index eqb els x = Ret i /\ nth_error els i = Some x.
Proof.
  intros x Hx; destruct (In_nth_error els x (proj2 (proj2 He x) Hx)) as [i E]; exists i; split; [apply index_ok; auto|exact E].
Qed.

Lemma reg_matrix_ok : forall g, mem g -> exists A, reg_matrix eqb op els g = Ret A /\ permutes op els g A.
Proof.
  intros g Hg; unfold reg_matrix.
  assert (X : forall l, (forall y, In y l -> mem y) -> exists pos,
    mapM (fun y => z <- op g y ;; i <- index eqb els y ;; j <- index eqb els z ;; Ret (j, i)) l = Ret pos /\
    forall j i, In (j, i) pos <-> exists y z, In y l /\ nth_error els i = Some y /\ op g y = Ret z /\ nth_error els j = Some z).
  { induction l as [|y l IH]; intros Hl.
    - exists []; split; [reflexivity|]; intros j i; split; [intros []|intros (y & z & [] & _)].
    - destruct IH as (pos & Ep & Hp); [intros; apply Hl; right; assumption|].
      assert (Hy : mem y) by (apply Hl; left; reflexivity).
      destruct (grp_op _ _ _ _ HG g y Hg Hy) as (z & Ez & Mz).
      destruct (index_total y Hy) as (i & Ei & Ni), (index_total z Mz) as (j & Ej & Nj).
      exists ((j, i) :: pos); cbn [mapM]; rewrite Ez; cbn [bind]; rewrite Ei; cbn [bind]; rewrite Ej; cbn [bind].
      rewrite Ep; cbn [bind]; split; [reflexivity|].
      intros j' i'; split.
      + intros [E|I]; [injection E as <- <-; exists y, z; repeat split; auto; left; reflexivity|].
        apply Hp in I as (y' & z' & I & Y); exists y', z'; split; [right; exact I|exact Y].
      + intros (y' & z' & [<-|I] & E1 & E2 & E3); [|right; apply Hp; exists y', z'; auto].
        left; rewrite Ez in E2; apply Ret_inj in E2; subst z'.
        f_equal; [apply index_ok in E3; auto; rewrite Ej in E3|apply index_ok in E1; auto; rewrite Ei in E1];
          [apply Ret_inj in E3; exact E3|apply Ret_inj in E1; exact E1]. }
  destruct (X els) as (pos & Ep & Hp); [intros y Hy; apply He; exact Hy|].
  rewrite Ep; cbn [bind]; eexists; split; [reflexivity|].
  intros i j x y z Ex Ey Ez.
  assert (B : existsb (fun p => Nat.eqb (fst p) i && Nat.eqb (snd p) j) pos = true <-> x = z).
  { rewrite existsb_exists; split.
    - intros ([a b] & I & E); apply andb_true_iff in E as [E1 E2]; apply Nat.eqb_eq in E1, E2; cbn in E1, E2; subst a b.
      apply Hp in I as (y' & z' & _ & E1 & E2 & E3); rewrite Ey in E1; injection E1 as <-; rewrite Ez in E2; apply Ret_inj in E2; subst z'.
      rewrite Ex in E3; injection E3 as <-; reflexivity.
    - intros ->; exists (i, j); split; [|cbn; rewrite !Nat.eqb_refl; reflexivity].
      apply Hp; exists y, z; repeat split; auto; exact (nth_error_In _ _ Ey). }
  destruct (existsb _ pos) eqn:Eb; split; auto.
  - intros N; exfalso; apply N, B; reflexivity.
  - intros E; apply B in E; discriminate E.
Qed.

Lemma reg_char_ok : forall g, mem g -> exists c, reg_char eqb op els g = Ret c /\ (g = e -> c = INR n) /\ (g <> e -> c = 0).
Proof.
  intros g Hg; destruct (reg_matrix_ok g Hg) as (A & EA & PA); unfold reg_char; rewrite EA; cbn [bind].
  eexists; split; [reflexivity|]; unfold trace; split; intros Hge.
  - rewrite (sumn_ext _ _ (fun _ => 1)); [rewrite sumn_const; unfold n; ring|].
    intros i Hi; destruct (nth_error els i) as [x|] eqn:Ex; [|apply nth_error_None in Ex; unfold n in Hi; lia].
    apply (PA i i x x x Ex Ex); [|reflexivity]; subst g; apply (grp_id_l _ _ _ _ HG), (els_mem i x Ex).
  - apply sumn_0; intros i Hi; destruct (nth_error els i) as [x|] eqn:Ex; [|apply nth_error_None in Ex; unfold n in Hi; lia].
    pose proof (els_mem i x Ex) as Hx; destruct (grp_op _ _ _ _ HG g x Hg Hx) as (z & Ez & Mz).
    apply (PA i i x x z Ex Ex Ez); intros ->; apply Hge.
    destruct (grp_inv _ _ _ _ HG z Hx) as (k & Ek & Mk).
    pose proof (grp_inv_r _ _ _ _ HG z k Hx Ek) as R1.
    pose proof (grp_assoc _ _ _ _ HG g z k z e Hg Hx Mk Ez R1) as R2.
    rewrite R1, (grp_id_r _ _ _ _ HG g Hg) in R2; apply Ret_inj in R2; symmetry; exact R2.
Qed.

Lemma char_id : forall s, typed_irrep mem op inv e s -> gi_char s e = Ret (INR (gi_size s)).
Proof.
  intros s (_ & _ & _ & O & C & _); destruct (or_unit _ _ _ _ _ _ O) as (A & EA & MA).
  destruct (C e (grp_id _ _ _ _ HG)) as (B & EB & EC); rewrite EA in EB; apply Ret_inj in EB; injection EB as <-.
  rewrite EC; f_equal; rewrite (trace_ext _ _ _ MA); unfold trace, mid.
  rewrite (sumn_ext _ _ (fun _ => 1)) by (intros i _; rewrite Nat.eqb_refl; reflexivity); rewrite sumn_const; ring.
Qed.

Lemma inv_id : inv e = Ret e.
Proof.
  destruct (grp_inv _ _ _ _ HG e (grp_id _ _ _ _ HG)) as (i & Ei & Mi); rewrite Ei; f_equal.
  pose proof (grp_inv_l _ _ _ _ HG e i (grp_id _ _ _ _ HG) Ei) as X.
  rewrite (grp_id_r _ _ _ _ HG i Mi) in X; apply Ret_inj in X; exact X.
Qed.

Lemma reg_mult_ok : forall s, typed_irrep mem op inv e s -> reg_mult eqb op inv els s = Ret (gi_size s / gi_sosc s)%nat.
Proof.
  intros s Hs; pose proof Hs as (Ps & Pc & (m & Em) & O & C & _); unfold reg_mult.
  assert (X : forall l, NoDup l -> (forall y, In y l -> mem y) -> exists ts,
    mapM (fun x => c <- reg_char eqb op els x ;; xi <- inv x ;; y <- gi_char s xi ;; Ret (c * y)) l = Ret ts /\
    (In e l -> fold_right Rplus 0 ts = INR n * INR (gi_size s)) /\ (~ In e l -> fold_right Rplus 0 ts = 0)).
  { induction l as [|y l IH]; intros Nd Hl.
    - exists []; split; [reflexivity|split; [intros []|reflexivity]].
    - inversion Nd as [|? ? Ny Nl]; subst; destruct IH as (ts & Et & I1 & I2); auto; [intros; apply Hl; right; assumption|].
      assert (Hy : mem y) by (apply Hl; left; reflexivity).
      destruct (reg_char_ok y Hy) as (c & Ec & C1 & C2); destruct (grp_inv _ _ _ _ HG y Hy) as (k & Ek & Mk).
      destruct (C k Mk) as (B & _ & EB).
      exists (c * trace (gi_size s) B :: ts); cbn [mapM]; rewrite Ec; cbn [bind]; rewrite Ek; cbn [bind]; rewrite EB; cbn [bind].
      rewrite Et; cbn [bind fold_right]; split; [reflexivity|].
      assert (Dy : y = e \/ y <> e).
      { destruct (eqb y e) eqn:E; [left; apply Hd in E; auto; apply HG|right].
        intros ->; rewrite (proj2 (Hd e e (grp_id _ _ _ _ HG) (grp_id _ _ _ _ HG)) eq_refl) in E; discriminate E. }
      destruct Dy as [-> |N].
      + rewrite inv_id in Ek; apply Ret_inj in Ek; subst k; rewrite char_id in EB by exact Hs; apply Ret_inj in EB.
        rewrite <- EB, (C1 eq_refl), (I2 Ny); split; [intros _; ring|intros F; exfalso; apply F; left; reflexivity].
      + rewrite (C2 N); split.
        * intros [F|F]; [contradiction|rewrite (I1 F); ring].
        * intros F; rewrite I2; [ring|intros Z; apply F; right; exact Z]. }
  destruct (X els) as (ts & Et & I1 & _); [apply He|intros y Hy; apply He; exact Hy|].
  rewrite Et; cbn [bind]; rewrite (I1 (proj2 (proj2 He e) (grp_id _ _ _ _ HG))).
  assert (Q : INR n * INR (gi_size s) / (INR (length els) * INR (gi_sosc s)) = IZR (Z.of_nat m)).
  { change (length els) with n; rewrite Em, mult_INR, <- INR_IZR_INZ; field.
    split; apply not_0_INR; [lia|pose proof n_pos; lia]. }
  rewrite Q, pyround_IZR, math_isclose_refl by apply tol_pos; cbn [assert_ bind].
  rewrite Nat2Z.id, Em, Nat.div_mul by lia; reflexivity.
Qed.

(** the copies of the irreps and the vector v *)
Let mult (s : girrep T) : nat := (gi_size s / gi_sosc s)%nat.
Let copies (l : list (girrep T)) : list (girrep T) := flat_map (fun s => repeat s (mult s)) l.
Let vec (l : list (girrep T)) : list R := flat_map (fun s => eye_block (mult s) (gi_size s)) l.

Lemma mult_le : forall s, typed_irrep mem op inv e s -> (mult s <= gi_size s)%nat.
Proof.
  intros s (_ & Pc & (m & Em) & _); unfold mult; rewrite Em, Nat.div_mul by lia.
  destruct (gi_sosc s); [lia|]; rewrite Nat.mul_succ_r; lia.
Qed.

Lemma copies_quad : forall l g, mem g -> Forall (typed_irrep mem op inv e) l ->
  exists vs cs, mapM (fun s => gi_rep s g) (copies l) = Ret vs /\
    mapM (fun s => c <- gi_char s g ;; Ret (INR (gi_size s / gi_sosc s) * c)) l = Ret cs /\
    length (vec l) = bsize vs /\ quad (bsize vs) (bdiag vs) (vec l) = fold_right Rplus 0 cs.
Proof.
  intros l g Hg; induction 1 as [|s l Hs _ (vs & cs & Ev & Ec & L & Q)].
  - exists [], []; repeat split; unfold quad; cbn; ring.
  - pose proof Hs as (Ps & Pc & (m & Em) & O & C & Tr).
    destruct (C g Hg) as (A & EA & EC).
    exists (repeat (gi_size s, A) (mult s) ++ vs), (INR (gi_size s / gi_sosc s) * trace (gi_size s) A :: cs).
    split; [|split; [|]].
    + unfold copies; cbn [flat_map]; apply mapM_app; [apply mapM_repeat; exact EA|exact Ev].
    + cbn [mapM]; rewrite EC; cbn [bind]; rewrite Ec; reflexivity.
    + destruct (quad_segs (gi_size s) A (seq 0 (mult s))) as [L1 Q1].
      { intros a Ha; apply in_seq in Ha; pose proof (mult_le s Hs); lia. }
      cbn zeta in L1, Q1; rewrite seq_length in L1, Q1.
      unfold vec; cbn [flat_map]; rewrite eye_block_segs; split.
      * rewrite app_length, bsize_app, L1; f_equal; exact L.
      * rewrite quad_app by exact L1; cbn [fold_right]; rewrite Q1; f_equal; [|exact Q].
        rewrite <- sumn_fold, <- (Tr g A Hg EA); unfold mult; rewrite Em, mult_INR, Nat.div_mul by lia; ring.
Qed.

Lemma vec_length : length (vec ss) = n.
Proof.
  destruct (copies_quad ss e (grp_id _ _ _ _ HG) Hty) as (vs & cs & Ev & Ec & L & Q).
  destruct (Hcom e (grp_id _ _ _ _ HG)) as (cs' & Ec' & C1 & _); rewrite Ec in Ec'; apply Ret_inj in Ec'; subst cs'.
  specialize (C1 eq_refl).
  assert (X : forall l cs, Forall (typed_irrep mem op inv e) l ->
    mapM (fun s => c <- gi_char s e ;; Ret (INR (gi_size s / gi_sosc s) * c)) l = Ret cs ->
    INR (length (vec l)) = fold_right Rplus 0 cs).
  { induction l as [|s l IH]; intros cs0 Hl E; cbn [mapM] in E; [apply Ret_inj in E; subst; reflexivity|].
    inversion Hl as [|? ? Hs Hl']; subst; rewrite char_id in E by exact Hs; cbn [bind] in E.
    apply bind_Ret in E as (cs1 & E1 & E); apply Ret_inj in E; subst cs0.
    unfold vec; cbn [flat_map]; rewrite app_length, plus_INR; cbn [fold_right]; rewrite <- (IH cs1 Hl' E1).
    f_equal; rewrite eye_block_segs, <- mult_INR; f_equal.
    generalize (seq_length (mult s) 0); generalize (seq 0 (mult s)); fold (mult s); intros q; revert q.
    clear; intros q; revert s; generalize dependent (@mult).
    intros m s <-; induction q as [|a q IH]; [reflexivity|]; cbn; rewrite app_length, seg_length, IH; reflexivity. }
  apply INR_eq; rewrite (X ss cs Hty Ec); exact C1.
Qed.

Lemma repeat_In : forall A (a x : A) k, In x (repeat a k) -> x = a.
Proof. intros A a x k H; exact (repeat_spec k a x H). Qed.

Lemma copies_In : forall s, In s (copies ss) -> In s ss.
Proof. intros s H; unfold copies in H; apply in_flat_map in H as (t & It & H); apply repeat_In in H; subst; exact It. Qed.

Lemma ss_sound : forall s, In s ss -> sound_irrep irr mem op e (gi_id s).
Proof.
  intros s I; pose proof (proj1 (Forall_forall _ _) Hirr s I) as E.
  destruct (proj1 (Forall_forall _ _) Hty s I) as (P & _ & _ & O & C & _).
  exists s; repeat split; auto; apply (orth_lin _ _ _ _ _ _ _ O).
Qed.

Lemma copies_lin : Forall (fun r => (0 < gi_size r)%nat /\ lin_rep mem op e (gi_size r) (gi_rep r) /\
                   is_character mem (gi_size r) (gi_rep r) (gi_char r)) (copies ss).
Proof.
  apply Forall_forall; intros s I; apply copies_In in I.
  destruct (proj1 (Forall_forall _ _) Hty s I) as (P & _ & _ & O & C & _).
  split; [exact P|split; [exact (orth_lin _ _ _ _ _ _ _ O)|exact C]].
Qed.

Lemma copies_irr : mapM irr (map gi_id (copies ss)) = Ret (copies ss).
Proof.
  assert (X : forall l, (forall s, In s l -> In s ss) -> mapM irr (map gi_id l) = Ret l).
  { induction l as [|s l IH]; intros H; [reflexivity|]; cbn [map mapM].
    rewrite (proj1 (Forall_forall _ _) Hirr s (H s (or_introl eq_refl))); cbn [bind].
    rewrite IH by (intros; apply H; right; assumption); reflexivity. }
  apply X, copies_In.
Qed.

Definition Dat (g : T) (vs : list sqmat) : Prop := mapM (fun s => gi_rep s g) (copies ss) = Ret vs.

Lemma D_total : forall g, mem g -> exists vs, Dat g vs.
Proof. intros g Hg; destruct (copies_quad ss g Hg Hty) as (vs & cs & Ev & _); exists vs; exact Ev. Qed.

Lemma D_size : forall g vs, mem g -> Dat g vs -> bsize vs = n.
Proof.
  intros g vs Hg E; destruct (copies_quad ss g Hg Hty) as (vs' & cs & Ev & _ & L & _).
  unfold Dat in E; rewrite Ev in E; apply Ret_inj in E; subst vs'; rewrite <- L; apply vec_length.
Qed.

Lemma D_quad : forall g vs, mem g -> Dat g vs ->
  (g = e -> quad n (bdiag vs) (vec ss) = INR n) /\ (g <> e -> quad n (bdiag vs) (vec ss) = 0).
Proof.
  intros g vs Hg E; pose proof (D_size g vs Hg E) as Sz; unfold Dat in E.
  destruct (copies_quad ss g Hg Hty) as (vs' & cs & Ev & Ec & _ & Q).
  rewrite Ev in E; apply Ret_inj in E; subst vs'; rewrite Sz in Q.
  destruct (Hcom g Hg) as (cs' & Ec' & C); rewrite Ec in Ec'; apply Ret_inj in Ec'; subst cs'; rewrite Q; exact C.
Qed.

Lemma D_mul : forall g h k a b c, mem g -> mem h -> op g h = Ret k -> Dat g a -> Dat h b -> Dat k c ->
  meq n n (bdiag c) (mmul n (bdiag a) (bdiag b)).
Proof.
  intros g h k a b c Hg Hh Ek Ea Eb Ec.
  destruct (vals_mul mem op e (copies ss) g h Hg Hh k Ek copies_lin) as (a' & b' & c' & Ea' & Eb' & Ec' & Fa & _ & Fc & M).
  unfold Dat in *; rewrite Ea' in Ea; rewrite Eb' in Eb; rewrite Ec' in Ec; apply Ret_inj in Ea, Eb, Ec; subst.
  assert (Sc : bsize c = n) by (rewrite <- (D_size g a Hg Ea'), !bsize_map, Fa, Fc; reflexivity).
  rewrite Sc in M; exact M.
Qed.

Lemma D_inv : forall g i a b, mem g -> inv g = Ret i -> Dat g a -> Dat i b -> meq n n (bdiag b) (mtr (bdiag a)).
Proof.
  intros g i a b Hg Ei Ea Eb.
  assert (X : forall l, (forall s, In s l -> In s ss) -> exists a b, mapM (fun s => gi_rep s g) l = Ret a /\
    mapM (fun s => gi_rep s i) l = Ret b /\
    Forall2 (fun p q => fst p = fst q /\ meq (fst p) (fst p) (snd p) (snd q)) b (map (fun p => (fst p, mtr (snd p))) a)).
  { induction l as [|s l IH]; intros H; [exists [], []; repeat split; constructor|].
    destruct IH as (a' & b' & Ea' & Eb' & F); [intros; apply H; right; assumption|].
    destruct (proj1 (Forall_forall _ _) Hty s (H s (or_introl eq_refl))) as (_ & _ & _ & O & _).
    destruct (or_inv _ _ _ _ _ _ O g Hg) as (i' & A & B & E1 & E2 & E3 & M); rewrite Ei in E1; apply Ret_inj in E1; subst i'.
    exists ((gi_size s, A) :: a'), ((gi_size s, B) :: b'); cbn [mapM]; rewrite E2, E3; cbn [bind]; rewrite Ea', Eb'; cbn [bind].
    repeat split; constructor; [split; [reflexivity|exact M]|exact F]. }
  destruct (X (copies ss) copies_In) as (a' & b' & Ea' & Eb' & F).
  unfold Dat in *; rewrite Ea in Ea'; rewrite Eb in Eb'; apply Ret_inj in Ea', Eb'; subst a' b'.
  destruct (bdiag_ext _ _ F) as [M _].
  assert (Sz : bsize b = n).
  { apply (D_size i); [destruct (grp_inv _ _ _ _ HG g Hg) as (i' & E' & M'); rewrite Ei in E'; apply Ret_inj in E'; subst; exact M'|exact Eb]. }
  rewrite Sz in M; rewrite M; intros p q _ _; symmetry; apply bdiag_mtr.
Qed.

Lemma D_unit : forall a, Dat e a -> meq n n (bdiag a) mid.
Proof.
  intros a Ea; destruct (vals_unit mem op e (copies ss) copies_lin) as (a' & Ea' & _ & M).
  pose proof (D_size e a (grp_id _ _ _ _ HG) Ea) as Sz; unfold Dat in Ea.
  rewrite Ea in Ea'; apply Ret_inj in Ea'; subst a'; rewrite Sz in M; exact M.
Qed.

Let V : mat := fun i _ => nth i (vec ss) 0.

Lemma quad_mat : forall A, quad n A (vec ss) = mmul n (mmul n (mtr V) A) V 0%nat 0%nat.
Proof.
  intros A; unfold quad, mmul, V, mtr; rewrite sumn_swap; apply sumn_ext; intros j _.
  rewrite <- sumn_scal_r; apply sumn_ext; intros i _; ring.
Qed.

Lemma D_entry : forall x g y, mem x -> mem g -> mem y -> forall z a b c, op g y = Ret z ->
  Dat x a -> Dat g b -> Dat y c ->
  let w := mmul n (mmul n (mtr (mmul n (bdiag a) V)) (bdiag b)) (mmul n (bdiag c) V) 0%nat 0%nat in
  (x = z -> w = INR n) /\ (x <> z -> w = 0).
Proof.
  intros x g y Hx Hg Hy z a b c Ez Da Db Dc w.
  destruct (grp_inv _ _ _ _ HG x Hx) as (i & Ei & Mi).
  destruct (grp_op _ _ _ _ HG g y Hg Hy) as (z' & Ez' & Mz); rewrite Ez in Ez'; apply Ret_inj in Ez'; subst z'.
  destruct (grp_op _ _ _ _ HG i z Mi Mz) as (k & Ek & Mk).
  destruct (D_total i Mi) as (di & Di), (D_total z Mz) as (dz & Dz), (D_total k Mk) as (dk & Dk).
  assert (Ew : w = quad n (bdiag dk) (vec ss)).
  { rewrite quad_mat; unfold w.
    assert (M : meq 1 1 (mmul n (mmul n (mtr (mmul n (bdiag a) V)) (bdiag b)) (mmul n (bdiag c) V))
                        (mmul n (mmul n (mtr V) (bdiag dk)) V)).
    { rewrite (D_mul i z k di dz dk Mi Mz Ek Di Dz Dk), (D_mul g y z b c dz Hg Hy Ez Db Dc Dz), (D_inv x i a di Hx Ei Da Di).
      rewrite mul_tr, !mul_assoc; reflexivity. }
    apply M; lia. }
  rewrite Ew; destruct (D_quad k dk Mk Dk) as [Q1 Q0]; split; intros Hxz.
  - apply Q1; subst z; rewrite (grp_inv_l _ _ _ _ HG x i Hx Ei) in Ek; apply Ret_inj in Ek; symmetry; exact Ek.
  - apply Q0; intros ->; apply Hxz.
    pose proof (grp_assoc _ _ _ _ HG x i z e e Hx Mi Mz (grp_inv_r _ _ _ _ HG x i Hx Ei) Ek) as A.
    rewrite (grp_id_l _ _ _ _ HG z Mz), (grp_id_r _ _ _ _ HG x Hx) in A; apply Ret_inj in A; symmetry; exact A.
Qed.

Definition good_cob (cob : mat) : Prop := forall i x a, nth_error els i = Some x -> Dat x a ->
  forall k, (k < n)%nat -> cob i k = mmul n (bdiag a) V k 0%nat / sqrt (INR n).

Lemma sqrt_n : sqrt (INR n) * sqrt (INR n) = INR n /\ sqrt (INR n) <> 0.
Proof.
  pose proof n_pos as P; pose proof (lt_0_INR n P); split; [apply sqrt_sqrt; lra|].
  apply Rgt_not_eq, sqrt_lt_R0; assumption.
Qed.

Lemma cob_entry : forall cob, good_cob cob -> forall g b, mem g -> Dat g b ->
  forall i j x y z, nth_error els i = Some x -> nth_error els j = Some y -> op g y = Ret z ->
  let w := mmul n (mmul n cob (bdiag b)) (mtr cob) i j in (x = z -> w = 1) /\ (x <> z -> w = 0).
Proof.
  intros cob Hc g b Hg Db i j x y z Ex Ey Ez w.
  pose proof (els_mem i x Ex) as Hx; pose proof (els_mem j y Ey) as Hy.
  destruct (D_total x Hx) as (a & Da), (D_total y Hy) as (c & Dc); destruct sqrt_n as [S1 S2].
  assert (W : w = mmul n (mmul n (mtr (mmul n (bdiag a) V)) (bdiag b)) (mmul n (bdiag c) V) 0%nat 0%nat / INR n).
  { unfold w; change (sumn n (fun l => mmul n cob (bdiag b) i l * mtr cob l j) =
      sumn n (fun l => mmul n (mtr (mmul n (bdiag a) V)) (bdiag b) 0%nat l * mmul n (bdiag c) V l 0%nat) * / INR n).
    rewrite <- sumn_scal_r; apply sumn_ext; intros l Hl.
    unfold mtr at 1; rewrite (Hc j y c Ey Dc l Hl).
    assert (Y : mmul n cob (bdiag b) i l = mmul n (mtr (mmul n (bdiag a) V)) (bdiag b) 0%nat l / sqrt (INR n)).
    { change (sumn n (fun k => cob i k * bdiag b k l) =
        sumn n (fun k => mtr (mmul n (bdiag a) V) 0%nat k * bdiag b k l) * / sqrt (INR n)); rewrite <- sumn_scal_r; apply sumn_ext; intros k Hk.
      rewrite (Hc i x a Ex Da k Hk); unfold mtr; field; exact S2. }
    assert (S3 : / INR n = / sqrt (INR n) * / sqrt (INR n)) by (rewrite <- S1 at 1; field; exact S2).
    rewrite Y, S3; unfold Rdiv; ring. }
  destruct (D_entry x g y Hx Hg Hy z a b c Ez Da Db Dc) as [E1 E0]; cbn zeta in E1, E0; rewrite W.
  assert (N : INR n <> 0) by (apply not_0_INR; pose proof n_pos; lia).
  split; intros X; [rewrite (E1 X); field; exact N|rewrite (E0 X); unfold Rdiv; ring].
Qed.

Lemma cob_orth : forall cob, good_cob cob -> orthogonal n cob.
Proof.
  intros cob Hc; apply rows_orthogonal; destruct (D_total e (grp_id _ _ _ _ HG)) as (b & Db).
  assert (M : meq n n (mmul n cob (mtr cob)) (mmul n (mmul n cob (bdiag b)) (mtr cob))) by (rewrite (D_unit b Db), mid_r; reflexivity).
  rewrite M; intros i j Hi Hj.
  destruct (nth_error els i) as [x|] eqn:Ex; [|apply nth_error_None in Ex; unfold n in Hi; lia].
  destruct (nth_error els j) as [y|] eqn:Ey; [|apply nth_error_None in Ey; unfold n in Hj; lia].
  pose proof (els_mem j y Ey) as Hy; pose proof (grp_id_l _ _ _ _ HG y Hy) as Ez.
  destruct (cob_entry cob Hc e b (grp_id _ _ _ _ HG) Db i j x y y Ex Ey Ez) as [E1 E0].
  unfold mid; destruct (Nat.eqb_spec i j) as [-> |N].
  - apply E1; rewrite Ex in Ey; injection Ey as ->; reflexivity.
  - apply E0; intros ->; apply N.
    apply (proj1 (NoDup_nth_error els) (proj1 He)); [exact Hi|congruence].
Qed.

(** the constant column of the trivial irrep *)
Hypothesis Htriv : has_trivial mem ss.

Lemma triv_split : exists l1 s l2, ss = l1 ++ s :: l2 /\ gi_size s = 1%nat /\ gi_sosc s = 1%nat /\
    forall g A, mem g -> gi_rep s g = Ret (1%nat, A) -> A 0%nat 0%nat = 1.
Proof. destruct Htriv as (s & I & H); apply in_split in I as (l1 & l2 & E); exists l1, s, l2; split; [exact E|exact H]. Qed.

Lemma triv_column : exists k, (k < n)%nat /\ forall g a, mem g -> Dat g a -> mmul n (bdiag a) V k 0%nat = 1.
Proof.
  destruct triv_split as (l1 & s & l2 & Es & S1 & S2 & Hs).
  assert (H1 : Forall (typed_irrep mem op inv e) l1 /\ typed_irrep mem op inv e s).
  { pose proof Hty as X; rewrite Es in X; apply Forall_app in X as [X Y]; inversion Y; auto. }
  destruct H1 as [H1 H2].
  assert (Ev : vec ss = vec l1 ++ 1 :: vec l2).
  { rewrite Es; unfold vec; rewrite flat_map_app; f_equal; cbn [flat_map]; unfold mult; rewrite S1, S2; cbn.
    rewrite sqrt_1; reflexivity. }
  assert (Ec : copies ss = copies l1 ++ s :: copies l2).
  { rewrite Es; unfold copies; rewrite flat_map_app; f_equal; cbn [flat_map]; unfold mult; rewrite S1, S2; reflexivity. }
  exists (length (vec l1)); pose proof vec_length as L; rewrite Ev, app_length in L; cbn [length] in L.
  split; [lia|]; intros g a Hg Da; pose proof (D_size g a Hg Da) as Sz.
  destruct (copies_quad l1 g Hg H1) as (v1 & _ & E1 & _ & L1 & _).
  unfold Dat in Da; rewrite Ec in Da; apply mapM_app_inv in Da as (a1 & a2 & A1 & A2 & ->).
  rewrite E1 in A1; apply Ret_inj in A1; subst a1.
  cbn [mapM] in A2; apply bind_Ret in A2 as ([m A] & B & A2); apply bind_Ret in A2 as (a3 & A3 & A2); apply Ret_inj in A2; subst a2.
  destruct H2 as (_ & _ & _ & O & _); destruct (or_total _ _ _ _ _ _ O g Hg) as (A' & B' & _).
  rewrite S1, B in B'; apply Ret_inj in B'; injection B' as -> ->.
  unfold mmul; rewrite (sumn_single n (length (vec l1))).
  - rewrite bdiag_app, L1, Nat.ltb_irrefl, Nat.sub_diag; cbn [bdiag]; unfold V; rewrite Ev, app_nth2, <- L1, Nat.sub_diag by lia.
    cbn [nth Nat.ltb Nat.leb]; rewrite (Hs g A' Hg B); ring.
  - lia.
  - intros j Hj N; rewrite bdiag_app, L1, Nat.ltb_irrefl; destruct (Nat.ltb_spec j (bsize v1)); [ring|].
    cbn [bdiag]; rewrite Nat.sub_diag; change (Nat.ltb 0 1) with true; cbn iota.
    rewrite (proj2 (Nat.ltb_ge (j - bsize v1) 1)) by (rewrite L1 in N; lia); ring.
Qed.

Lemma cob_sharp : forall cob, good_cob cob -> sharp n cob.
Proof.
  intros cob Hc; destruct triv_column as (k & Hk & Ck).
  assert (X : cob k k = / sqrt (INR n)).
  { destruct (nth_error els k) as [x|] eqn:Ex; [|apply nth_error_None in Ex; unfold n in Hk; lia].
    pose proof (els_mem k x Ex) as Hx; destruct (D_total x Hx) as (a & Da).
    rewrite (Hc k x a Ex Da k Hk), (Ck x a Hx Da); unfold Rdiv; ring. }
  destruct (Nat.eq_dec n 1) as [N1|N1].
  - left; intros i j Hi Hj; replace i with k by lia; replace j with k by lia.
    rewrite X, N1; unfold mid; rewrite Nat.eqb_refl; cbn; rewrite sqrt_1; field.
  - right; destruct (allclose n n cob mid) eqn:E; [|reflexivity]; exfalso.
    rewrite allclose_true in E; specialize (E k k Hk Hk); rewrite X in E.
    unfold mid in E; rewrite Nat.eqb_refl in E; unfold np_isclose in E; apply Rleb_true in E.
    pose proof n_pos as P.
    assert (H2 : sqrt 2 <= sqrt (INR n)) by (apply sqrt_le_1_alt; replace 2 with (INR 2) by (cbn; lra); apply le_INR; lia).
    assert (H3 : 1.4 < sqrt 2) by (replace 1.4 with (sqrt (1.4 * 1.4)) by (apply sqrt_square; lra); apply sqrt_lt_1_alt; lra).
    assert (H4 : / sqrt (INR n) <= / 1.4) by (apply Rinv_le_contravar; lra).
    rewrite Rabs_left1 in E by (apply Rle_trans with (/ 1.4 - 1); lra).
    rewrite Rabs_R1 in E; lra.
Qed.

Theorem build_regular_ok : exists cob, build_regular eqb op inv els irr linv ids =
    Ret (map gi_id (copies ss), cob, mtr cob) /\ good_cob cob.
Proof.
  unfold build_regular; fold n.
  rewrite (proj2 (Nat.ltb_lt 0 n) n_pos); cbn [assert_ bind]; rewrite Hss; cbn [bind].
  assert (Em : mapM (fun s => m <- reg_mult eqb op inv els s ;; Ret (s, m)) ss = Ret (map (fun s => (s, mult s)) ss)).
  { apply mapM_Ret_map; intros s I; rewrite reg_mult_ok; [reflexivity|exact (proj1 (Forall_forall _ _) Hty s I)]. }
  rewrite Em; cbn [bind].
  assert (Ec : flat_map (fun sm : girrep T * nat => repeat (fst sm) (snd sm)) (map (fun s => (s, mult s)) ss) = copies ss)
    by (unfold copies; rewrite !flat_map_concat_map, map_map; reflexivity).
  assert (Ev : flat_map (fun sm : girrep T * nat => eye_block (snd sm) (gi_size (fst sm))) (map (fun s => (s, mult s)) ss) = vec ss)
    by (unfold vec; rewrite !flat_map_concat_map, map_map; reflexivity).
  rewrite Ec, Ev.
  assert (Sz : list_sum (map r_size (map repr_of_irrep (copies ss))) = n).
  { destruct (vals_total mem op e (copies ss) e (grp_id _ _ _ _ HG) copies_lin) as (bs & Eb & Fb & _).
    rewrite <- (D_size e bs (grp_id _ _ _ _ HG) Eb), bsize_map, Fb, map_map; reflexivity. }
  assert (Ne : map (@repr_of_irrep T) (copies ss) <> []).
  { intros X; rewrite X in Sz; cbn in Sz; pose proof n_pos; lia. }
  destruct (directsum_ok irr mem op e linv Hinv (map repr_of_irrep (copies ss)) None mid mid Ne) as (P & EP & _ & _ & _ & HP).
  - apply Forall_map, Forall_forall; intros s I; apply copies_In in I.
    apply (irrep_proper _ _ _ _ _ (gi_id s)); [apply ss_sound; exact I|exact (proj1 (Forall_forall _ _) Hirr s I)].
  - reflexivity.
  - apply inverse_of_mid.
  - left; rewrite Sz.
    assert (B2 : map (fun r : repr T => (r_size r, r_cob r)) (map repr_of_irrep (copies ss)) = map (fun r => (gi_size r, mid)) (copies ss))
      by (rewrite map_map; reflexivity).
    rewrite B2.
    assert (B : bsize (map (fun r : girrep T => (gi_size r, mid)) (copies ss)) = n)
      by (rewrite <- Sz, bsize_map, !map_map; reflexivity).
    rewrite <- B at 1 2; apply bdiag_mid, Forall_map, Forall_forall; intros s _; reflexivity.
  - cbn [option_map] in EP; rewrite EP; cbn [bind].
    assert (Ea : mapM (fun sm : girrep T * nat => assert (Nat.leb (snd sm) (gi_size (fst sm))) ;; Ret tt) (map (fun s => (s, mult s)) ss) = Ret (map (fun _ => tt) (map (fun s => (s, mult s)) ss))).
    { apply mapM_Ret_map; intros sm I; apply in_map_iff in I as (s & <- & I); cbn [fst snd].
      rewrite (proj2 (Nat.leb_le _ _) (mult_le s (proj1 (Forall_forall _ _) Hty s I))); reflexivity. }
    rewrite Ea; cbn [bind]; rewrite vec_length, Nat.eqb_refl; cbn [assert_ bind].
    assert (Er : forall l, (forall x, In x l -> mem x) -> exists rows, mapM (fun e0 : T => A <- r_fun P e0 ;;
                 assert (Nat.eqb (fst A) n) ;;
                 Ret (fun k => mvec n (snd A) (fun j => nth j (vec ss) 0) k / sqrt (INR n))) l = Ret rows /\
               forall i x a, nth_error l i = Some x -> Dat x a -> forall k, (k < n)%nat ->
                 nth i rows (fun _ => 0) k = mmul n (bdiag a) V k 0%nat / sqrt (INR n)).
    { induction l as [|x l IH]; intros Hl; [exists []; split; [reflexivity|intros [|i]; discriminate]|].
      destruct IH as (rows & E & Hr); [intros; apply Hl; right; assumption|].
      pose proof (Hl x (or_introl eq_refl)) as Hx; destruct (HP x Hx) as (vs & A & E1 & E2 & M); rewrite Sz in E2, M.
      exists ((fun k => mvec n A (fun j => nth j (vec ss) 0) k / sqrt (INR n)) :: rows).
      cbn [mapM]; rewrite E2; cbn [bind fst snd]; rewrite Nat.eqb_refl; cbn [assert_ bind]; rewrite E; cbn [bind]; split; [reflexivity|].
      intros [|i] x' a Ex Da k Hk; cbn [nth_error] in Ex; [|exact (Hr i x' a Ex Da k Hk)].
      injection Ex as <-; cbn [nth]; f_equal; unfold mvec, mmul; apply sumn_ext; intros j Hj; f_equal.
      rewrite (M k j Hk Hj).
      assert (Ea' : vs = a).
      { unfold Dat in Da; rewrite mapM_map in E1; cbn [repr_of_irrep r_fun] in E1.
        rewrite Da in E1; apply Ret_inj in E1; symmetry; exact E1. }
      subst vs; assert (M2 : meq n n (mmul n (mmul n mid (bdiag a)) mid) (bdiag a)) by (rewrite mid_r, mid_l; reflexivity).
      apply M2; assumption. }
    destruct (Er els) as (rows & E & Hr); [intros x I; apply He; exact I|].
    rewrite E; cbn [bind]; eexists; split; [reflexivity|exact Hr].
Qed.

Theorem regular_ok : exists r, regular_representation eqb op inv els irr linv ids = Ret r /\ r_size r = n /\
  proper irr mem op e r /\ r_irreps r = map gi_id (copies ss) /\
  forall g, mem g -> exists A, r_fun r g = Ret (n, A) /\ permutes op els g A.
Proof.
  destruct build_regular_ok as (cob & Eb & Hc); pose proof (cob_orth cob Hc) as Ho.
  unfold regular_representation; rewrite Eb; cbn [bind fst snd].
  assert (Hids : Forall (sound_irrep irr mem op e) (map gi_id (copies ss))).
  { apply Forall_map, Forall_forall; intros s I; apply ss_sound, copies_In, I. }
  assert (Ht : total_size irr (map gi_id (copies ss)) n).
  { exists (copies ss); split; [apply copies_irr|].
    destruct (vals_total mem op e (copies ss) e (grp_id _ _ _ _ HG) copies_lin) as (bs & Ebs & Fb & _).
    rewrite <- (D_size e bs (grp_id _ _ _ _ HG) Ebs), bsize_map, Fb; reflexivity. }
  assert (Hne : map gi_id (copies ss) <> []).
  { intros X; destruct Ht as (l & El & Sl); rewrite X in El; apply Ret_inj in El; subst l; cbn in Sl; pose proof n_pos; lia. }
  destruct (mk_repr_reproduces irr mem op e linv Hinv (map gi_id (copies ss)) n cob (Some (mtr cob)) Hids Hne Ht)
    as (r & Er & Sr & Ir & Cr & Iv & Rr); [apply orthogonal_inverse, Ho|apply cob_sharp, Hc|].
  assert (Hp : proper irr mem op e r).
  { split; [rewrite Ir; exact Hne|split; [rewrite Ir; exact Hids|split; [rewrite Ir, Sr; exact Ht|exact Rr]]]. }
  exists r; fold n; rewrite Er; split; [reflexivity|split; [exact Sr|split; [exact Hp|split; [exact Ir|]]]].
  intros g Hg; destruct Rr as [_ Rr]; destruct (Rr g Hg) as (bs & A & Ev & _ & EA & M); rewrite Sr, Cr, (Iv _ eq_refl) in *.
  exists A; split; [exact EA|]; rewrite Ir in Ev; unfold values in Ev; rewrite (mapM_irr irr (fun r => gi_rep r g) _ _ copies_irr) in Ev.
  intros i j x y z Ex Ey Ez.
  assert (Hi : (i < n)%nat) by (apply nth_error_Some; congruence).
  assert (Hj : (j < n)%nat) by (apply nth_error_Some; congruence).
  rewrite (M i j Hi Hj); exact (cob_entry cob Hc g bs Hg Ev i j x y z Ex Ey Ez).
Qed.
End Regular.
