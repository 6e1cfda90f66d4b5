(** Generic facts about lists. *)
From Coq Require Import List Arith Lia.
Import ListNotations.

Lemma NoDup_app_intro : forall A (l m : list A), NoDup l -> NoDup m ->
  (forall x, In x l -> In x m -> False) -> NoDup (l ++ m).
Proof.
  intros A l m Hl Hm; induction Hl as [|x l Hx Hl IH]; intros D; cbn; [exact Hm|].
  constructor.
  - rewrite in_app_iff; intros [H|H]; [auto|]; apply (D x); [left; reflexivity|exact H].
  - apply IH; intros y Hy; apply D; right; exact Hy.
Qed.

Lemma NoDup_map_inj_in : forall A B (f : A -> B) l,
  (forall x y, In x l -> In y l -> f x = f y -> x = y) -> NoDup l -> NoDup (map f l).
Proof.
  intros A B f l Hf Hl; induction Hl as [|x l Hx Hl IH]; cbn; constructor.
  - rewrite in_map_iff; intros (y & E & Hy).
    assert (y = x) by (apply Hf; [right; exact Hy|left; reflexivity|exact E]); subst; auto.
  - apply IH; intros a b Ha Hb; apply Hf; right; assumption.
Qed.

Lemma NoDup_list_prod : forall A B (l : list A) (m : list B),
  NoDup l -> NoDup m -> NoDup (list_prod l m).
Proof.
  intros A B l m Hl Hm; induction Hl as [|x l Hx Hl IH]; cbn; [constructor|].
  apply NoDup_app_intro; [|exact IH|].
  - apply NoDup_map_inj_in; [|exact Hm]; intros y z _ _ E; injection E; auto.
  - intros [a b] Ha Hb; apply in_map_iff in Ha as (y & E & _); injection E as -> ->.
    apply in_prod_iff in Hb as [Hb _]; auto.
Qed.

Lemma list_prod_flat_map : forall A B (l : list A) (m : list B),
  list_prod l m = flat_map (fun a => map (fun b => (a, b)) m) l.
Proof. intros A B l m; induction l as [|a l IH]; cbn; [|rewrite IH]; reflexivity. Qed.
