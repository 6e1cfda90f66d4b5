(** Results of Python calls: a value or a raised exception. *)
From Coq Require Import List ZArith Lia Bool.
Import ListNotations.

(** [Raise] stands for any raised exception (AssertionError, ValueError,
    IndexError, TypeError, KeyError...); the kind of exception is not kept. *)
Inductive res (A : Type) : Type :=
| Raise : res A
| Ret : A -> res A.
Arguments Raise {A}.
Arguments Ret {A} _.

Definition bind {A B} (x : res A) (f : A -> res B) : res B :=
  match x with Raise => Raise | Ret a => f a end.

Notation "x <- e ;; k" := (bind e (fun x => k))
  (at level 61, e at next level, right associativity).

(** [assert b] then continue. *)
Definition assert_ (b : bool) : res unit := if b then Ret tt else Raise.
Notation "'assert' b ';;' k" := (bind (assert_ b) (fun _ => k))
  (at level 61, b at next level, right associativity).

(** Left-to-right evaluation of a list comprehension whose body may raise. *)
Fixpoint mapM {A B} (f : A -> res B) (l : list A) : res (list B) :=
  match l with
  | [] => Ret []
  | a :: l' => b <- f a ;; bs <- mapM f l' ;; Ret (b :: bs)
  end.

Lemma Ret_inj : forall A (a b : A), Ret a = Ret b -> a = b.
Proof. intros A a b H; injection H as H; exact H. Qed.

Lemma bind_Ret : forall A B (x : res A) (f : A -> res B) b,
  bind x f = Ret b <-> exists a, x = Ret a /\ f a = Ret b.
Proof.
  intros A B [|a] f b; cbn; split.
  - discriminate.
  - intros (a & H & _); discriminate.
  - intros H; exists a; auto.
  - intros (a' & H & Hf); injection H as <-; exact Hf.
Qed.

Lemma assert_Ret : forall B b (k : res B) r,
  (assert b ;; k) = Ret r <-> b = true /\ k = Ret r.
Proof. intros B [|] k r; cbn; intuition discriminate. Qed.

Lemma mapM_Ret_map : forall A B (f : A -> res B) (g : A -> B) l,
  (forall a, In a l -> f a = Ret (g a)) -> mapM f l = Ret (map g l).
Proof.
  intros A B f g l; induction l as [|a l IH]; intros H; cbn; [reflexivity|].
  rewrite H by (left; reflexivity); cbn.
  rewrite IH by (intros x Hx; apply H; right; exact Hx); reflexivity.
Qed.

Lemma mapM_Ret_inv : forall A B (f : A -> res B) l bs,
  mapM f l = Ret bs -> Forall2 (fun a b => f a = Ret b) l bs.
Proof.
  intros A B f l; induction l as [|a l IH]; intros bs H; cbn in H.
  - injection H as <-; constructor.
  - apply bind_Ret in H as (b & Hb & H).
    apply bind_Ret in H as (bs' & Hbs & H); injection H as <-.
    constructor; auto.
Qed.
