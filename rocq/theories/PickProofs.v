(** Proofs about the picklable form of subgroup ids. *)
From Coq Require Import String List ZArith Bool Lia.
From Verif Require Import LibRes ProdModel ProdProofs PickModel SpecPick.
Import ListNotations.
Open Scope string_scope.

Lemma each_mapM : forall A B (f : A -> res B) l, each f l = mapM f l.
Proof. intros A B f l; induction l as [|a l IH]; [reflexivity|]; change (each f (a :: l)) with (b <- f a ;; bs <- each f l ;; Ret (b :: bs)); rewrite IH; reflexivity. Qed.

Lemma mapM_pair : forall A B (f : A -> res B) (g : B -> res A) l,
  (forall x, In x l -> exists y, f x = Ret y /\ g y = Ret x) ->
  exists l', each f l = Ret l' /\ each g l' = Ret l.
Proof.
  intros A B f g l; induction l as [|x l IH]; intros H; [exists []; auto|].
  destruct (H x (or_introl eq_refl)) as (y & E & E').
  destruct IH as (l' & F & F'); [intros z Hz; apply H; right; exact Hz|].
  exists (y :: l'); cbn; rewrite E, F; cbn; rewrite E', F'; auto.
Qed.

Lemma mapM_Raise : forall A B (f : A -> res B) l x, In x l -> f x = Raise -> each f l = Raise.
Proof.
  intros A B f l x; induction l as [|a l IH]; intros H E; [destruct H|]; cbn.
  destruct H as [-> |H]; [rewrite E; reflexivity|].
  destruct (f a); cbn; [reflexivity|]; rewrite (IH H E); reflexivity.
Qed.

Section Pick.
  Context {U : Type} (valid : gname -> U -> bool) (param : gname -> string).

  Theorem decode_encode : forall G y, plain valid [G] group_tags y ->
    decode valid G (encode param y) = Ret y.
  Proof.
    intros G; fix IH 2; intros y H; destruct H as [n|b| |s|g Hg Hv|y l Ht Hl]; try reflexivity.
    - cbn in *; destruct Hg as [Hg|[]]; rewrite Hg, Hv; destruct g; cbn; reflexivity.
    - assert (A : forall x, In x (y :: l) -> decode valid G (encode param x) = Ret x)
        by (intros x Hx; apply IH, Hl, Hx).
      clear IH Hl.
      assert (M : each (decode valid G) (map (encode param) (y :: l)) = Ret (y :: l)).
      { clear Ht; induction (y :: l) as [|a r IHr]; [reflexivity|]; cbn.
        rewrite A by (left; reflexivity); cbn; rewrite IHr by (intros; apply A; right; assumption); reflexivity. }
      assert (E : forall s, encode param y = YStr s -> y = YStr s)
        by (intros s; destruct y; cbn; congruence).
      cbn [encode map] in M |- *.
      change (decode valid G (YTup (encode param y :: map (encode param) l)) = Ret (YTup (y :: l))).
      cbn [decode]; destruct (is_str (encode param y) "GROUPELEMENT") eqn:Es; [|rewrite M; reflexivity].
      destruct (encode param y) as [n|b| |s|g|u|l'] eqn:Ey; try discriminate.
      apply String.eqb_eq in Es; subst s; destruct (Ht "GROUPELEMENT" (or_introl eq_refl)); apply E; reflexivity.
  Qed.

  Theorem prod_decode_encode : forall G1 G2 y, plain valid [NProd G1 G2; G1; G2] product_tags y ->
    exists p, prod_encode param G1 G2 y = Ret p /\ prod_decode valid G1 G2 p = Ret y.
  Proof.
    intros G1 G2; fix IH 2; intros y H; destruct H as [n|b| |s|g Hg Hv|y l Ht Hl];
      try (eexists; split; reflexivity).
    - destruct g as [n u]; cbn in Hg, Hv; cbn [prod_encode el_grp el_val].
      destruct (gname_eqb n (NProd G1 G2)) eqn:E0; [|destruct (gname_eqb n G1) eqn:E1; [|destruct (gname_eqb n G2) eqn:E2]].
      + apply gname_eqb_eq in E0; subst n; eexists; split; [reflexivity|]; cbn; rewrite Hv; reflexivity.
      + apply gname_eqb_eq in E1; subst n; eexists; split; [reflexivity|]; cbn; rewrite Hv; reflexivity.
      + apply gname_eqb_eq in E2; subst n; eexists; split; [reflexivity|]; cbn; rewrite Hv; reflexivity.
      + exfalso; destruct Hg as [<-|[<-|[<-|[]]]]; rewrite gname_eqb_refl in *; discriminate.
    - assert (A : forall x, In x (y :: l) -> exists p, prod_encode param G1 G2 x = Ret p /\ prod_decode valid G1 G2 p = Ret x)
        by (intros x Hx; apply IH, Hl, Hx).
      clear IH Hl; apply mapM_pair in A as (l' & E & D).
      exists (YTup l'); split; [cbn [prod_encode]; rewrite E; reflexivity|].
      cbn [each] in E; apply bind_Ret in E as (y' & Ey & E); apply bind_Ret in E as (r & Er & E).
      apply Ret_inj in E; subst l'.
      assert (S : forall s, y' = YStr s -> y = YStr s).
      { intros s ->; destruct y; cbn in Ey; try congruence.
        - destruct (gname_eqb _ _); [discriminate|destruct (gname_eqb _ _); [discriminate|destruct (gname_eqb _ _); discriminate]].
        - apply bind_Ret in Ey as (? & _ & Ey); discriminate. }
      assert (F : forall t, In t product_tags -> is_str y' t = false).
      { intros t Hin; destruct (is_str y' t) eqn:Es; [|reflexivity].
        destruct y' as [n|b| |s|g|u|l']; try discriminate; apply String.eqb_eq in Es; subst s.
        destruct (Ht t Hin); apply S; reflexivity. }
      cbn [prod_decode]; rewrite !F by (cbn; auto); rewrite D; reflexivity.
  Qed.

  (** Different ids have different encodings. *)
  Theorem encode_inj : forall G y z, plain valid [G] group_tags y -> plain valid [G] group_tags z ->
    encode param y = encode param z -> y = z.
  Proof.
    intros G y z Hy Hz E; apply decode_encode in Hy, Hz; rewrite E in Hy; congruence.
  Qed.
  Theorem prod_encode_inj : forall G1 G2 y z, plain valid [NProd G1 G2; G1; G2] product_tags y ->
    plain valid [NProd G1 G2; G1; G2] product_tags z -> prod_encode param G1 G2 y = prod_encode param G1 G2 z -> y = z.
  Proof.
    intros G1 G2 y z Hy Hz E; apply prod_decode_encode in Hy as (p & Ep & Dp), Hz as (q & Eq & Dq); congruence.
  Qed.

  Theorem encode_picklable : forall gs tags y, plain valid gs tags y -> no_elements (encode param y).
  Proof.
    intros gs tags; fix IH 2; intros y H; destruct H as [n|b| |s|g Hg Hv|y l Ht Hl]; try (constructor; fail).
    - cbn; constructor; intros x [<-|[<-|[<-|[]]]]; constructor.
    - cbn [encode]; constructor; intros x Hx; apply in_map_iff in Hx as (z & <- & Hz); apply IH, Hl, Hz.
  Qed.

  Theorem prod_encode_picklable : forall G1 G2 gs tags y p, plain valid gs tags y ->
    prod_encode param G1 G2 y = Ret p -> no_elements p.
  Proof.
    intros G1 G2 gs tags; fix IH 3; intros y p H; destruct H as [n|b| |s|g Hg Hv|y l Ht Hl]; intros E;
      try (apply Ret_inj in E; subst p; constructor; fail).
    - cbn in E; destruct (gname_eqb _ _); [|destruct (gname_eqb _ _); [|destruct (gname_eqb _ _); [|discriminate]]];
        apply Ret_inj in E; subst p; constructor; intros x [<-|[<-|[<-|[]]]]; constructor.
    - cbn [prod_encode] in E; apply bind_Ret in E as (r & Er & E); apply Ret_inj in E; subst p.
      constructor; rewrite each_mapM in Er; apply mapM_Ret_inv in Er.
      assert (B : forall x q, In x (y :: l) -> prod_encode param G1 G2 x = Ret q -> no_elements q)
        by (intros x q Hx; apply (IH x q), Hl, Hx).
      clear IH Hl Ht; induction Er as [|a b u v Hab _ IHr]; intros x Hx; [destruct Hx|].
      destruct Hx as [<-|Hx]; [apply (B a b); [left; reflexivity|exact Hab]|].
      apply IHr; [|exact Hx]; intros c q Hc; apply B; right; exact Hc.
  Qed.

  (** An element of any other group cannot be encoded. *)
  Theorem prod_encode_foreign : forall G1 G2 (g : gel U) y, occurs g y -> ~ In (el_grp g) [NProd G1 G2; G1; G2] ->
    prod_encode param G1 G2 y = Raise.
  Proof.
    intros G1 G2 g y H N; induction H as [|x l Hx _ IH].
    - cbn [prod_encode].
      destruct (gname_eqb (el_grp g) (NProd G1 G2)) eqn:E0; [apply gname_eqb_eq in E0; destruct N; cbn; auto|].
      destruct (gname_eqb (el_grp g) G1) eqn:E1; [apply gname_eqb_eq in E1; destruct N; cbn; auto|].
      destruct (gname_eqb (el_grp g) G2) eqn:E2; [apply gname_eqb_eq in E2; destruct N; cbn; auto|reflexivity].
    - cbn [prod_encode]; rewrite (mapM_Raise _ _ _ _ x Hx IH); reflexivity.
  Qed.

  Fixpoint depth (n : gname) : nat := match n with NProd a b => S (depth a + depth b) | _ => 0 end.

  Theorem nested_fails : forall A B C (g : gel U) y, el_grp g = A -> A <> C -> occurs g y ->
    prod_encode param (NProd A B) C y = Raise.
  Proof.
    intros A B C g y E N H; apply (prod_encode_foreign _ _ g y H); rewrite E.
    intros [X|[X|[X|[]]]]; try congruence; apply (f_equal depth) in X; cbn in X; lia.
  Qed.

  Theorem empty_fails : forall G, decode valid G (encode param (YTup [])) = Raise.
  Proof. reflexivity. Qed.
End Pick.
