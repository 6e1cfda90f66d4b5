(** Proofs about the remembering constructors. *)
From Coq Require Import Reals Bool List String Ascii Lia.
From Verif Require Import LibRes LibMat RepModel CacheModel SpecCache.
Import ListNotations.
Open Scope string_scope.

(** ** Strings *)

Lemma app_inv_l : forall a b c : string, a ++ b = a ++ c -> b = c.
Proof. induction a; cbn; intros b c H; [exact H|injection H as H; auto]. Qed.

Lemma split_at : forall c s t u v, ~ occurs c s -> ~ occurs c t ->
  s ++ String c u = t ++ String c v -> s = t /\ u = v.
Proof.
  intros c s; induction s as [|a s IH]; intros [|b t] u v Hs Ht H; cbn in *.
  - injection H as H; auto.
  - injection H as <- _; exfalso; auto.
  - injection H as -> _; exfalso; auto.
  - injection H as -> H; apply IH in H as [-> ->]; auto.
Qed.

Lemma occurs_app : forall c s t, occurs c (s ++ t) -> occurs c s \/ occurs c t.
Proof. intros c s t; induction s; cbn; intuition. Qed.

Lemma join_free : forall A (f : A -> string) c sep, (forall x, ~ occurs c (f x)) -> ~ occurs c sep ->
  forall l, ~ occurs c (join sep (map f l)).
Proof.
  intros A f c sep Hf Hs l; induction l as [|a l IH]; cbn; [auto|].
  destruct (map f l) eqn:E; [apply Hf|].
  intros H; apply occurs_app in H as [H|H]; [exact (Hf a H)|].
  apply occurs_app in H as [H|H]; auto.
Qed.

Lemma join_inj : forall A (f : A -> string) , plain f ->
  forall l m, join "|" (map f l) = join "|" (map f m) -> l = m.
Proof.
  intros A f (Hi & Hp).
  assert (C : forall a b l, f a = f b ++ String "|" l -> False).
  { intros a b l H. destruct (Hp a) as (_ & _ & N); apply N; rewrite H.
    clear; induction (f b); cbn; auto. }
  intros l; induction l as [|a l IH]; intros [|b m] H.
  - reflexivity.
  - exfalso; cbn in H; destruct (Hp b) as (N & _). destruct (map f m); [congruence|].
    destruct (f b); [congruence|discriminate].
  - exfalso; cbn in H; destruct (Hp a) as (N & _). destruct (map f l); [congruence|].
    destruct (f a); [congruence|discriminate].
  - cbn [map] in H. destruct l as [|a' l], m as [|b' m]; cbn [map join] in H.
    + apply Hi in H; subst; reflexivity.
    + exfalso; cbn in H; exact (C _ _ _ H).
    + exfalso; symmetry in H; cbn in H; exact (C _ _ _ H).
    + change ("|" ++ ?x) with (String "|" x) in H.
      apply split_at in H as [Ha Hl]; [|apply Hp|apply Hp].
      apply Hi in Ha; subst b; f_equal; apply IH; exact Hl.
Qed.

(** ** Dictionaries *)

Lemma dfind_In : forall K V (eqb : K -> K -> bool) (d : list (K * V)) k v,
  (forall x y, eqb x y = true -> x = y) -> dfind eqb d k = Some v -> In (k, v) d.
Proof.
  intros K V eqb d k v He; induction d as [|(k', v') d IH]; cbn; [discriminate|].
  destruct (eqb k k') eqn:E; intros H; [injection H as <-; rewrite (He _ _ E); auto|auto].
Qed.

Lemma memo_sound : forall K V Q (eqb : K -> K -> bool) (key : Q -> K) (build : Q -> res V) (P : Q -> Prop) d q,
  (forall x y, eqb x y = true -> x = y) ->
  (forall k v, In (k, v) d -> exists p, P p /\ key p = k /\ build p = Ret v) ->
  (forall p, P p -> key p = key q -> build p = build q) -> P q ->
  fst (memo eqb (key q) (build q) d) = build q /\
  (forall k v, In (k, v) (snd (memo eqb (key q) (build q) d)) -> exists p, P p /\ key p = k /\ build p = Ret v).
Proof.
  intros K V Q eqb key build P d q He Hd Hc HP; unfold memo.
  destruct (dfind eqb d (key q)) as [v|] eqn:E.
  - apply dfind_In in E; auto. destruct (Hd _ _ E) as (p & Pp & Kp & Bp).
    rewrite <- (Hc p Pp Kp); split; auto.
  - destruct (build q) as [|v] eqn:B; cbn; split; auto.
    intros k w H; apply in_app_or in H as [H|[H|[]]]; [auto|injection H as <- <-; exists q; auto].
Qed.

(** ** Representations of a group *)

Section Group.
Context {SID IID Psi Reps Rep : Type}.
Variables (str_sid : SID -> string) (str_iid : IID -> string) (psi_name : Psi -> string).
Variables (sid_eqb : SID -> SID -> bool) (norm : SID -> SID) (trivial_id : SID).
Variable irreducible : Psi -> bool.
Variable psi_id : Psi -> IID.
Variable trivial : SID -> res Psi.
Variable make_regular : res Rep.
Variable make_induced : string -> SID -> Psi -> option Reps -> res Rep.
Variable make_spectral : SID -> string -> Psi -> list IID -> res (option Rep).
Hypothesis sid_eq : forall x y, sid_eqb x y = true -> x = y.

Notation request := (@request SID IID Psi Reps).
Notation serve := (serve str_sid str_iid psi_name sid_eqb norm trivial_id irreducible psi_id trivial make_regular make_induced make_spectral).
Notation after := (after str_sid str_iid psi_name sid_eqb norm trivial_id irreducible psi_id trivial make_regular make_induced make_spectral).
Notation name_of := (@name_of SID IID Psi Reps str_sid str_iid psi_name norm psi_id).
Notation wanted := (@wanted SID IID Psi Reps Rep str_sid str_iid psi_name norm trivial_id irreducible psi_id trivial make_regular make_induced make_spectral).
Notation compatible := (@compatible SID IID Psi Reps Rep str_sid str_iid psi_name norm trivial_id irreducible psi_id trivial make_regular make_induced make_spectral).
Notation space := (@space SID IID Psi Reps norm trivial_id).

Definition inv (P : request -> Prop) (t : tables) : Prop :=
  (forall n v, In (n, v) (t_group t) -> exists p, P p /\ of_group p /\ name_of p = n /\ wanted p = Ret v) /\
  (forall s n r, In (s, n, r) (t_hom t) -> exists p, P p /\ space p = Some s /\ name_of p = n /\ wanted p = Ret (Some r)).

Lemma hom_eq : forall a b, hom_eqb sid_eqb a b = true -> a = b.
Proof.
  intros [a b] [c d] H; unfold hom_eqb in H; cbn in H; apply andb_true_iff in H as [H1 H2].
  apply sid_eq in H1; apply String.eqb_eq in H2; subst; reflexivity.
Qed.

Lemma str_eq : forall a b, String.eqb a b = true -> a = b.
Proof. intros a b; apply String.eqb_eq. Qed.

Lemma in_group_ok : forall (P : request -> Prop) t q, inv P t -> of_group q -> P q -> (forall p, P p -> compatible p q) ->
  forall b, b = wanted q ->
  fst (in_group (name_of q) b t) = wanted q /\ inv P (snd (in_group (name_of q) b t)).
Proof.
  intros P t q (I1 & I2) Hq Pq Hc b ->; unfold in_group; cbn [fst snd].
  destruct (memo_sound _ _ request String.eqb name_of wanted (fun p => P p /\ of_group p) (t_group t) q) as (A & B).
  - exact str_eq.
  - intros k v H; destruct (I1 k v H) as (p & ? & ? & ? & ?); exists p; auto.
  - intros p (Pp & Gp) E; apply Hc; auto.
  - auto.
  - split; [exact A|split; cbn; [|exact I2]].
    intros n v H; destruct (B n v H) as (p & (? & ?) & ? & ?); exists p; auto.
Qed.

Lemma in_hom_ok : forall (P : request -> Prop) t q s, inv P t -> space q = Some s -> P q -> (forall p, P p -> compatible p q) ->
  fst (in_hom sid_eqb s (name_of q) (wanted q) t) = wanted q /\ inv P (snd (in_hom sid_eqb s (name_of q) (wanted q) t)) /\
  t_group (snd (in_hom sid_eqb s (name_of q) (wanted q) t)) = t_group t.
Proof.
  intros P t q s (I1 & I2) Hs Pq Hc; unfold in_hom.
  destruct (dfind (hom_eqb sid_eqb) (t_hom t) (s, name_of q)) as [r|] eqn:E.
  - apply dfind_In in E; [|exact hom_eq]. destruct (I2 _ _ _ E) as (p & Pp & Sp & Np & Wp).
    cbn; rewrite <- Wp; split; [apply (Hc p Pp Np); right; split; congruence|split; [split; auto|reflexivity]].
  - destruct (wanted q) as [|[r|]] eqn:W; cbn; (split; [reflexivity|split; [split; auto|reflexivity]]).
    cbn; intros s' n r' H; apply in_app_or in H as [H|[H|[]]]; [auto|].
    injection H as <- <- <-; exists q; auto.
Qed.

Lemma spec_ok : forall (P : request -> Prop) t q sid irreps, inv P t -> of_group q -> space q = Some (norm sid) ->
  wanted q = (match trivial (norm sid) with Raise => Raise | Ret psi => make_spectral (norm sid) (name_of q) psi irreps end) ->
  P q -> (forall p, P p -> compatible p q) ->
  let x := spec_quotient sid_eqb norm trivial make_spectral sid irreps (name_of q) t in
  fst x = wanted q /\ inv P (snd x).
Proof.
  intros P t q sid irreps I Gq Sq Wq Pq Hc x; subst x; unfold spec_quotient.
  destruct (dfind String.eqb (t_group t) (name_of q)) as [r|] eqn:E.
  - apply dfind_In in E; [|exact str_eq]. destruct I as (I1 & I2). destruct (I1 _ _ E) as (p & Pp & Gp & Np & Wp).
    cbn; rewrite <- Wp; split; [apply (Hc p Pp Np); auto|split; auto].
  - destruct (trivial (norm sid)) as [|psi] eqn:T; [rewrite Wq; auto|].
    destruct (in_hom_ok P t q (norm sid) I Sq Pq Hc) as (A & B & C).
    rewrite Wq in A, B, C.
    destruct (in_hom sid_eqb (norm sid) (name_of q) (make_spectral (norm sid) (name_of q) psi irreps) t) as [[|r] t'];
      cbn in *; rewrite Wq; (split; [exact A|]); [exact B|].
    destruct B as (B1 & B2); split; cbn; [|exact B2].
    intros n v H; apply in_app_or in H as [H|[H|[]]]; [auto|].
    injection H as <- <-; exists q; repeat split; auto; rewrite Wq; auto.
Qed.

Lemma serve_ok : forall (P : request -> Prop) t q, inv P t -> P q -> (forall p, P p -> compatible p q) ->
  fst (serve q t) = wanted q /\ inv P (snd (serve q t)).
Proof.
  intros P t q I Pq Hc.
  destruct q as [|sid reps name|sid psi reps name|irreps name|sid irreps name|sid psi irreps name];
    match goal with |- context [serve ?Q _] => set (q := Q) in * end.
  - refine (in_group_ok P t q I Logic.I Pq Hc _ _); cbn; destruct make_regular; reflexivity.
  - replace (serve q t) with (in_group (name_of q) (psi <- trivial sid ;; r <- make_induced (name_of q) sid psi reps ;; Ret (Some r)) t).
    + refine (in_group_ok P t q I Logic.I Pq Hc _ _); unfold wanted; cbn [SpecCache.wanted q].
      destruct (trivial sid) as [|psi]; [reflexivity|]; cbn; destruct make_induced; reflexivity.
    + destruct name; reflexivity.
  - unfold serve; cbn [CacheModel.serve q]; destruct (irreducible psi) eqn:Irr.
    + match goal with |- context [in_group ?n (r <- ?m ;; _) t] => replace (in_group n (r <- m ;; Ret (Some r)) t) with
        (in_group (name_of q) (r <- make_induced (name_of q) sid psi reps ;; Ret (Some r)) t) by (destruct name; reflexivity) end.
      refine (in_group_ok P t q I Logic.I Pq Hc _ _); unfold wanted; cbn [SpecCache.wanted q]; rewrite Irr.
      destruct make_induced; reflexivity.
    + cbn; rewrite Irr; split; [reflexivity|exact I].
  - replace (serve q t) with (spec_quotient sid_eqb norm trivial make_spectral trivial_id irreps (name_of q) t) by (destruct name; reflexivity).
    apply spec_ok; auto; first [exact Logic.I|reflexivity].
  - replace (serve q t) with (spec_quotient sid_eqb norm trivial make_spectral sid irreps (name_of q) t) by (destruct name; reflexivity).
    apply spec_ok; auto; first [exact Logic.I|reflexivity].
  - replace (serve q t) with (in_hom sid_eqb (norm sid) (name_of q) (wanted q) t) by (destruct name; reflexivity).
    destruct (in_hom_ok P t q (norm sid) I eq_refl Pq Hc) as (A & B & _); auto.
Qed.

Lemma history_inv : forall (P : request -> Prop) qs, (forall p q, P p -> P q -> compatible p q) -> Forall P qs ->
  inv P (after qs).
Proof.
  intros P qs Hc Hq; unfold after, CacheModel.after.
  assert (I : inv P {| t_group := []; t_hom := [] |}) by (split; cbn; intros; contradiction).
  revert I; generalize (@Build_tables SID Rep [] []); induction Hq as [|q qs Pq _ IH]; intros t I; cbn [fold_left]; [exact I|].
  apply IH. apply (serve_ok P t q I Pq); auto.
Qed.

Lemma history_ok : forall qs q, (forall p p', In p (q :: qs) -> In p' (q :: qs) -> compatible p p') ->
  fst (serve q (after qs)) = wanted q.
Proof.
  intros qs q Hc; apply (serve_ok (fun p => In p (q :: qs))).
  - apply history_inv; [exact Hc|]; apply Forall_forall; intros p Hp; right; exact Hp.
  - left; reflexivity.
  - intros p Hp; apply Hc; [exact Hp|left; reflexivity].
Qed.

(** ** Default names *)

Variable irrep_of : SID -> Psi -> Prop.
Definition good_request (q : request) : Prop :=
  default_args q /\ match q with
  | Induced sid psi _ _ => irrep_of sid psi
  | OfHomSpace sid psi _ _ => irrep_of (norm sid) psi
  | _ => True
  end.

Hypothesis plain_sid : plain str_sid.
Hypothesis plain_iid : plain str_iid.
Hypothesis psi_by_name : forall s p p', irrep_of s p -> irrep_of s p' -> psi_name p = psi_name p' -> p = p'.
Hypothesis psi_by_id : forall s p p', irrep_of s p -> irrep_of s p' -> psi_id p = psi_id p' -> p = p'.

Lemma sid_then : forall p x y u v, p ++ str_sid x ++ String "]" u = p ++ str_sid y ++ String "]" v -> x = y /\ u = v.
Proof.
  intros p x y u v H; apply app_inv_l in H; destruct plain_sid as (Hi & Hp).
  apply split_at in H as [H ->]; [auto|apply Hp|apply Hp].
Qed.

Lemma list_then : forall p x y u v, p ++ join "|" (map str_iid x) ++ String "]" u = p ++ join "|" (map str_iid y) ++ String "]" v ->
  x = y /\ u = v.
Proof.
  intros p x y u v H; apply app_inv_l in H; destruct plain_iid as (Hi & Hp).
  apply split_at in H as [H ->]; [split; [apply (join_inj _ str_iid plain_iid); exact H|reflexivity]| |];
    (apply join_free; [intros z; apply Hp|cbn; intuition discriminate]).
Qed.

Lemma default_compatible : forall p q, good_request p -> good_request q -> compatible p q.
Proof.
  intros p q (Dp & Vp) (Dq & Vq) N S.
  destruct p as [|s [r|] [n|]|s a [r|] [n|]|l [n|]|s l [n|]|s a l [n|]], q as [|s' [r'|] [n'|]|s' a' [r'|] [n'|]|l' [n'|]|s' l' [n'|]|s' a' l' [n'|]];
    try contradiction; cbn [SpecCache.name_of] in N; try (exfalso; cbn in N; discriminate);
    try (destruct S as [[S1 S2]|[S1 S2]]; [contradiction|cbn in S1; congruence]).
  - reflexivity.
  - apply (sid_then "quotient[" s s' "" "") in N as [-> _]; reflexivity.
  - exfalso. apply (sid_then "quotient[" s s' "") in N as [-> N]; discriminate.
  - apply (sid_then "induced[" s s') in N as [-> N].
    assert (E : psi_name a = psi_name a').
    { injection N as N. revert N; generalize (psi_name a'); generalize (psi_name a); intros x; induction x as [|c x IH]; intros [|d y] H; cbn in H.
      - reflexivity.
      - injection H as _ H; destruct y; discriminate.
      - injection H as _ H; destruct x; discriminate.
      - injection H as -> H; f_equal; auto. }
    rewrite (psi_by_name s' a a' Vp Vq E); reflexivity.
  - apply (list_then "regular_[" l l' "" "") in N as [-> _]; reflexivity.
  - exfalso. apply (sid_then "quotient[" s s' _ "") in N as [-> N]; discriminate.
  - apply (sid_then "quotient[" s s') in N as [-> N]. apply (list_then "_[" l l' "" "") in N as [-> _]; reflexivity.
  - destruct S as [[S1 S2]|[S1 S2]]; [contradiction|]; cbn in S1; injection S1 as S1.
    cbn [SpecCache.wanted SpecCache.name_of]; rewrite <- S1 in *.
    apply app_inv_l, app_inv_l in N.
    change ("]_[" ++ str_iid (psi_id a) ++ ?x) with (("]_[" ++ str_iid (psi_id a)) ++ x) in N.
    apply (app_inv_l "]_[") in N.
    destruct plain_iid as (Hi & Hp).
    change (str_iid (psi_id a) ++ String "]" ("_[" ++ join "|" (map str_iid l) ++ "]") =
            str_iid (psi_id a') ++ String "]" ("_[" ++ join "|" (map str_iid l') ++ "]")) in N.
    apply split_at in N as [N1 N2]; [|apply Hp|apply Hp].
    apply Hi, (psi_by_id (norm s) a a' Vp Vq) in N1; subst a'.
    apply (list_then "_[" l l' "" "") in N2 as [-> _]; reflexivity.
Qed.

Lemma default_ok : forall qs q, Forall good_request (q :: qs) -> fst (serve q (after qs)) = wanted q.
Proof.
  intros qs q H; rewrite Forall_forall in H; apply history_ok; intros p p' Hp Hp'; apply default_compatible; auto.
Qed.

(** ** Requests that differ in an argument that is not part of the name *)

Lemma first_wins : forall p q r, of_group p -> of_group q -> name_of p = name_of q -> 
  wanted p = Ret r -> (forall sid psi reps name, q = Induced sid psi reps name -> irreducible psi = true) ->
  fst (serve q (after [p])) = Ret r.
Proof.
  intros p q r Gp Gq N W Hirr.
  assert (F : dfind String.eqb (t_group (after [p])) (name_of q) = Some r).
  { destruct (serve_ok (fun x => x = p) {| t_group := []; t_hom := [] |} p) as (A & _).
    - split; cbn; intros; contradiction.
    - reflexivity.
    - intros x ->; intros ? ?; reflexivity.
    - rewrite W in A. unfold after, CacheModel.after; cbn [fold_left]. rewrite <- N.
      assert (M : forall n b, fst (memo String.eqb n b []) = Ret r -> dfind String.eqb (snd (memo String.eqb n b (@nil (string * option Rep)))) n = Some r).
      { intros n b; unfold memo; cbn. destruct b; cbn; [discriminate|]. intros E; injection E as <-; rewrite String.eqb_refl; reflexivity. }
      assert (Sp : forall sid irreps n t, t_group t = [] -> fst (spec_quotient sid_eqb norm trivial make_spectral sid irreps n t) = Ret r ->
        dfind String.eqb (t_group (snd (spec_quotient sid_eqb norm trivial make_spectral sid irreps n t))) n = Some r).
      { intros sid irreps n t Et; unfold spec_quotient; rewrite Et; cbn [dfind]. destruct (trivial (norm sid)) as [|psi]; [discriminate|].
        unfold in_hom. destruct (dfind (hom_eqb sid_eqb) (t_hom t) (norm sid, n)).
        - cbn; rewrite Et; cbn; rewrite String.eqb_refl; intros E; injection E as <-; reflexivity.
        - destruct make_spectral as [|[x|]]; cbn; [discriminate| |]; rewrite Et; cbn; rewrite String.eqb_refl; intros E; injection E as <-; reflexivity. }
      destruct p as [|sid reps name|sid psi reps name|irreps name|sid irreps name|sid psi irreps name]; try contradiction.
      + apply M; exact A.
      + destruct name; apply M; exact A.
      + unfold serve in *; cbn [CacheModel.serve] in *; destruct (irreducible psi); [|discriminate]; destruct name; apply M; exact A.
      + destruct name; apply Sp; auto.
      + destruct name; apply Sp; auto. }
  assert (M : forall n b t, dfind String.eqb (t_group t) n = Some r -> fst (@in_group SID Rep n b t) = Ret r).
  { intros n b t E; unfold in_group, memo; rewrite E; reflexivity. }
  assert (Sp : forall sid irreps n t, dfind String.eqb (t_group t) n = Some r -> fst (spec_quotient sid_eqb norm trivial make_spectral sid irreps n t) = Ret r).
  { intros sid irreps n t E; unfold spec_quotient; rewrite E; reflexivity. }
  destruct q as [|sid reps name|sid psi reps name|irreps name|sid irreps name|sid psi irreps name]; try contradiction.
  - apply M; exact F.
  - destruct name; apply M; exact F.
  - unfold serve; cbn [CacheModel.serve]; rewrite (Hirr _ _ _ _ eq_refl); destruct name; apply M; exact F.
  - destruct name; apply Sp; exact F.
  - destruct name; apply Sp; exact F.
Qed.
End Group.
