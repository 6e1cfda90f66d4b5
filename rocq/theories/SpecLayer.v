(** What the bias and the two modes of the layers should be. *)
From Coq Require Import Reals ZArith List.
From Verif Require Import LibRes LibMat RepModel SpecRepr SpecNonlin LayerModel.
Import ListNotations.
Open Scope R_scope.

(** [v] is fixed by every value of [rho]. *)
Definition fixed_by {T} (mem : T -> Prop) (n : nat) (rho : T -> res (nat * mat)) (v : list R) : Prop :=
  length v = n /\ forall g A, mem g -> rho g = Ret (n, A) -> mv n A v = v.
(** The trivial representation maps every element to 1. *)
Definition trivial_rep {T} (mem : T -> Prop) (n : nat) (rho : T -> res (nat * mat)) : Prop :=
  n = 1%nat /\ forall g, mem g -> exists A, rho g = Ret (1%nat, A) /\ A 0%nat 0%nat = 1.
(** Zero is the only vector fixed by all the values of [rho]. *)
Definition nothing_fixed {T} (mem : T -> Prop) (n : nat) (rho : T -> res (nat * mat)) : Prop :=
  forall v, fixed_by mem n rho v -> Forall (fun a => a = 0) v.

(** Histories of a layer. *)
Inductive event {W : Type} := Mode (training : bool) | Update (w : W).
Arguments event : clear implicits.
Section History.
Context {W : Type}.
(** current mode, current parameters and parameters at the last `eval()` call *)
Fixpoint hist_mode (h : list (event W)) (mode : bool) : bool :=
  match h with [] => mode | Mode b :: h' => hist_mode h' b | Update _ :: h' => hist_mode h' mode end.
Fixpoint hist_params (h : list (event W)) (w : W) : W :=
  match h with [] => w | Update w' :: h' => hist_params h' w' | Mode _ :: h' => hist_params h' w end.
Fixpoint hist_last_eval (h : list (event W)) (w : W) (at_eval : option W) : option W :=
  match h with
  | [] => at_eval
  | Mode false :: h' => hist_last_eval h' w (Some w)
  | Mode true :: h' => hist_last_eval h' w at_eval
  | Update w' :: h' => hist_last_eval h' w' at_eval
  end.
(** parameters when the layer last went from training to evaluation mode *)
Fixpoint hist_last_switch (h : list (event W)) (mode : bool) (w : W) (at_switch : option W) : option W :=
  match h with
  | [] => at_switch
  | Mode b :: h' => hist_last_switch h' b w (if mode then (if b then at_switch else Some w) else at_switch)
  | Update w' :: h' => hist_last_switch h' mode w' at_switch
  end.
(** no parameter changes while the layer is in evaluation mode *)
Fixpoint frozen_in_eval (h : list (event W)) (mode : bool) : Prop :=
  match h with
  | [] => True
  | Mode b :: h' => frozen_in_eval h' b
  | Update _ :: h' => mode = true /\ frozen_in_eval h' mode
  end.
End History.

(** Running a layer through a history. *)
Section Run.
Context {W F : Type}.
Definition step (train : bool -> @layer W F -> layer) (m : layer) (e : event W) : layer :=
  match e with Mode b => train b m | Update w => set_params w m end.
Definition run (train : bool -> @layer W F -> layer) (h : list (event W)) (w : W) (z : F) : layer := fold_left (step train) h (new_layer w z).
End Run.
