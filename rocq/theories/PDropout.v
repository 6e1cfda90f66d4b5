(** C59: dropout of whole fields. *)
From Coq Require Import Reals List Arith Lia Lra Permutation.
From Verif Require Import LibRes LibMat FieldModel SpecField FieldProofs NonlinModel SpecNonlin DropoutModel SpecDropout DropoutProofs.
Import ListNotations.
Open Scope R_scope.

(** Every field is multiplied by 0 or by 1/(1-p) as its own random number says.
    In place this holds for the sizes whose fields are adjacent; the fields of
    the other sizes are left as they are. *)
Theorem C59_value : forall A (size : A -> nat) teqb ft p b m, Forall (fun r => (0 < size r)%nat) ft ->
  mk_dropout size ft p b = Ret m -> p < 1 ->
  exists sel, Permutation sel (seq 0 (length ft)) /\
  forall (x : gtensor A num) v us junk, g_type x = ft -> good size x -> g_chans x = map Some v -> teqb ft ft = true ->
  length us = length ft -> length junk = type_size size ft ->
  exists y w, dropout_forward size teqb m true us junk x = Ret y /\ g_type y = ft /\ good size y /\ g_chans y = map Some w /\
    forall k i r, nth_error sel k = Some i -> nth_error ft i = Some r ->
      (b = false \/ adjacent size ft (size r) -> field_chans size ft w i = scaled (drop_factor p (nth k us 0)) (field_chans size ft v i)) /\
      (b = true -> ~ adjacent size ft (size r) -> field_chans size ft w i = field_chans size ft v i).
Proof. exact @dropout_value. Qed.
Print Assumptions C59_value.

(** Dropout commutes with the action when the same random numbers are drawn. *)
Theorem C59_equivariant : forall A (size : A -> nat) teqb ft p b m, Forall (fun r => (0 < size r)%nat) ft ->
  mk_dropout size ft p b = Ret m -> p < 1 ->
  forall (rho : A -> mat) (x x' : gtensor A num) v v' us junk junk', g_type x = ft -> g_type x' = ft -> good size x ->
  g_chans x = map Some v -> g_chans x' = map Some v' -> teqb ft ft = true ->
  length us = length ft -> length junk = type_size size ft -> length junk' = type_size size ft -> acts size ft rho v v' ->
  exists y y' w w', dropout_forward size teqb m true us junk x = Ret y /\ dropout_forward size teqb m true us junk' x' = Ret y' /\
    g_chans y = map Some w /\ g_chans y' = map Some w' /\ acts size ft rho w w'.
Proof. exact @dropout_equivariant. Qed.
Print Assumptions C59_equivariant.

Theorem C59_eval : forall A (size : A -> nat) teqb ft p b m, mk_dropout size ft p b = Ret m -> teqb ft ft = true ->
  forall (x : gtensor A num) us junk, g_type x = ft -> dropout_forward size teqb m false us junk x = Ret x.
Proof. exact @dropout_eval. Qed.
Print Assumptions C59_eval.

Theorem C59_accepted : forall A (size : A -> nat) ft p b, Forall (fun r => (0 < size r)%nat) ft ->
  ((exists m, mk_dropout size ft p b = Ret m) <-> 0 <= p <= 1).
Proof. exact (fun A size => @dropout_built A size (fun _ _ => true)). Qed.
Print Assumptions C59_accepted.

(** Working in place should not change the result. *)
Theorem C59_inplace_refuted : exists m m' y y',
  mk_dropout (fun n : nat => n) [1; 2; 1]%nat (/ 2) false = Ret m /\ mk_dropout (fun n : nat => n) [1; 2; 1]%nat (/ 2) true = Ret m' /\
  dropout_forward (fun n : nat => n) (fun _ _ => true) m true [0; 0; 0] (repeat None 4) {| g_type := [1; 2; 1]%nat; g_chans := map Some [1; 1; 1; 1] |} = Ret y /\
  dropout_forward (fun n : nat => n) (fun _ _ => true) m' true [0; 0; 0] (repeat None 4) {| g_type := [1; 2; 1]%nat; g_chans := map Some [1; 1; 1; 1] |} = Ret y' /\
  g_chans y = map Some [0; 0; 0; 0] /\ g_chans y' = map Some [1; 0; 0; 1].
Proof. exact inplace_differs. Qed.
Print Assumptions C59_inplace_refuted.

(** p = 1 is accepted; every output is then 0/0, where PointwiseDropout gives 0. *)
Theorem C59_p_one_refuted : forall A (size : A -> nat) teqb ft m, Forall (fun r => (0 < size r)%nat) ft -> mk_dropout size ft 1 false = Ret m ->
  forall (x : gtensor A num) us junk, g_type x = ft -> good size x -> teqb ft ft = true -> length us = length ft -> length junk = type_size size ft ->
  exists y, dropout_forward size teqb m true us junk x = Ret y /\ g_chans y = repeat None (type_size size ft).
Proof. exact @dropout_one. Qed.
Print Assumptions C59_p_one_refuted.

Theorem C59_pointwise_p_one : forall A (size : A -> nat) teqb supported ft (x : gtensor A num) v us,
  forallb (supports supported NL_pointwise) ft = true -> g_type x = ft -> good size x -> g_chans x = map Some v -> teqb ft ft = true ->
  length us = type_size size ft ->
  exists y, pw_dropout size supported teqb ft 1 true us x = Ret y /\ g_chans y = repeat (Some 0) (type_size size ft).
Proof. exact @pw_dropout_one. Qed.
Print Assumptions C59_pointwise_p_one.

(** Three fields, in place: the premises hold, the field of size 2 has no field of another size inside its run. *)
Example C59_ex : Forall (fun r => (0 < r)%nat) [1; 2; 1]%nat /\ (exists m, mk_dropout (fun n : nat => n) [1; 2; 1]%nat (/ 2) true = Ret m) /\
  adjacent (fun n : nat => n) [2; 2; 1]%nat 2 /\ ~ adjacent (fun n : nat => n) [1; 2; 1]%nat 1 /\
  drop_factor (/ 2) 0 = 0 /\ drop_factor (/ 2) 1 = 2.
Proof.
  split; [repeat constructor|]; split; [apply (dropout_built _ (fun _ _ => true)); [repeat constructor|lra]|]; split; [|split; [|split]].
  - intros i j k q H E1 E2 E3; assert (k < 3)%nat by (apply (nth_error_Some (map (fun n : nat => n) [2; 2; 1]%nat)); rewrite E2; discriminate).
    assert (i = 0 /\ j = 1 /\ k = 2)%nat as (-> & -> & ->) by lia; discriminate E2.
  - intros Ad; specialize (Ad 0%nat 1%nat 2%nat 2%nat ltac:(lia) eq_refl eq_refl eq_refl); discriminate.
  - unfold drop_factor; destruct (Rle_dec 0 (/ 2)); lra.
  - unfold drop_factor; destruct (Rle_dec 1 (/ 2)); [lra|field].
Qed.
