(** C70: InducedNormBatchNorm. *)
From Coq Require Import Reals List ZArith Arith Bool Lia Lra.
From Verif Require Import LibRes LibPy LibMat ParamModel FieldModel SpecField GroupedModel NonlinModel SpecNonlin ImageModel PoolModel BatchNormModel SpecBatch IndBNModel SpecIndBN IndBNThms IndBNCor BatchEx IndBNEx.
Import ListNotations.
Open Scope R_scope.

(** C70. InducedNormBatchNorm after any history of calls, optimiser steps and resets:
    a training step moves the variance of a field towards its energy divided by
    the size of the sub-fields and, in place of their number, one less; the output
    is the field multiplied by its weight over the root of that variance. *)
Theorem C70_value : forall A size sub supported has_trivial teqb (ft : list A) affine eps mom m st0, Forall (fun r => (0 < size r)%nat) ft -> teqb ft ft = true ->
  (forall r, In r ft -> In (NL_induced_norm (sub r)) (supported r)) ->
  mk_inb size supported has_trivial affine eps mom ft = Ret (m, st0) ->
  forall h st ys, (forall t N x, In (Call t N x) h -> (t = true -> 0 < N)%nat /\ g_type x = ft /\ batch size ft N (g_chans x)) ->
  run (inb_forward size teqb m) inb_set inb_reset_running_stats st0 h = Ret (st, ys) ->
  forall (t : bool) N x, (t = true -> 0 < N)%nat -> g_type x = ft -> batch size ft N (g_chans x) ->
  exists st' y, inb_forward size teqb m t N st x = Ret (st', y) /\ g_type y = ft /\ batch size ft N (g_chans y) /\ iv_weights st' = iv_weights st /\
    iv_count st' = (if t then S (iv_count st) else iv_count st) /\
    forall i r j, nth_error ft i = Some r -> rank2 size sub ft i (size r, sub r) j ->
      let s := (size r, sub r) in
      kept2 (iv_vars st') s j =
        (if t then towards (match mom with Some f => f | None => 1 / INR (iv_count st') end) (kept2 (iv_vars st) s j)
                      (energy N (field_chans size ft (g_chans x) i) / (INR (sub r) * INR (Nat.max 1 (N * (size r / sub r) - 1))))
         else kept2 (iv_vars st) s j) /\
      field_chans size ft (g_chans y) i =
        map (map (fun a => a * (match iv_weights st with Some w => kept2 w s j | None => 1 end / sqrt (kept2 (iv_vars st') s j + eps)))) (field_chans size ft (g_chans x) i).
Proof. exact @inb_value. Qed.
Print Assumptions C70_value.

(** If the points of the batches of a history are reordered and transformed by any
    orthogonal matrices, also different ones at different points, then the states
    are the same and every output is transformed alike. *)
Theorem C70_histories : forall A size sub supported has_trivial teqb (ft : list A) affine eps mom m st0, Forall (fun r => (0 < size r)%nat) ft -> teqb ft ft = true ->
  (forall r, In r ft -> In (NL_induced_norm (sub r)) (supported r)) ->
  mk_inb size supported has_trivial affine eps mom ft = Ret (m, st0) ->
  forall (rho : nat -> nat -> A -> mat) (pi : nat -> nat -> nat), (forall k p r, In r ft -> orthogonal (size r) (rho k p r)) ->
  forall h h', length h' = length h ->
  (forall k e, nth_error h k = Some e -> match e with
     | Call t N x => (t = true -> 0 < N)%nat /\ g_type x = ft /\ reorders N (pi k) /\
         exists x', nth_error h' k = Some (Call t N x') /\ g_type x' = ft /\ moved_batch size ft N (rho k) (pi k) (g_chans x) (g_chans x')
     | _ => nth_error h' k = Some e end) ->
  forall st ys, run (inb_forward size teqb m) inb_set inb_reset_running_stats st0 h = Ret (st, ys) ->
  exists ys', run (inb_forward size teqb m) inb_set inb_reset_running_stats st0 h' = Ret (st, ys') /\
    forall k t N x, nth_error h k = Some (Call t N x) -> exists y y', nth_error ys k = Some (Some y) /\ nth_error ys' k = Some (Some y') /\
      g_type y = ft /\ g_type y' = ft /\ moved_batch size ft N (rho k) (pi k) (g_chans y) (g_chans y').
Proof. exact @inb_histories. Qed.
Print Assumptions C70_histories.

(** A field of two sub-fields, which are swapped, and a vector, which is turned, at
    two points, which are swapped. *)
Example C70_ex : exists m st0 st ys,
  mk_inb (fun r => r) (fun _ => [NL_induced_norm 2]) (fun _ => false) true (1 / 100000) (Some (1 / 10)) [4; 2]%nat = Ret (m, st0) /\
  (forall r, In r [4; 2]%nat -> orthogonal r (ind_rho r)) /\ reorders 2 flip /\ moved_batch (fun r => r) [4; 2]%nat 2 (fun _ => ind_rho) flip ind_x ind_x' /\
  run (inb_forward (fun r => r) typ_eqb m) inb_set inb_reset_running_stats st0
    [Call true 2 (ind_tens ind_x); SetWeights [((4, 2)%nat, [3]); ((2, 2)%nat, [4])]; Call false 2 (ind_tens ind_x)] = Ret (st, ys) /\
  rank2 (fun r => r) (fun _ => 2%nat) [4; 2]%nat 0 (4, 2)%nat 0 /\ energy 2 (field_chans (fun r => r) [4; 2]%nat ind_x 0) = 15 /\
  kept2 (iv_vars st) (4, 2)%nat 0 = 23 / 20 /\ iv_weights st = Some [((4, 2)%nat, [3]); ((2, 2)%nat, [4])].
Proof. exact ind_example. Qed.

(** Resets restore the initial statistics, and with weights the initial state. *)
Theorem C70_resets : forall A size supported has_trivial teqb (ft : list A) affine eps mom m st0, mk_inb size supported has_trivial affine eps mom ft = Ret (m, st0) ->
  forall h st ys, run (inb_forward size teqb m) inb_set inb_reset_running_stats st0 h = Ret (st, ys) ->
  iv_vars (inb_reset_running_stats st) = iv_vars st0 /\ iv_count (inb_reset_running_stats st) = iv_count st0 /\ iv_weights (inb_reset_running_stats st) = iv_weights st /\
  (affine = true -> inb_reset_parameters st = Ret st0).
Proof. exact @inb_resets. Qed.
Print Assumptions C70_resets.

(** Without weights reset_parameters raises for every type with a field. *)
Theorem C70_reset_refuted : forall A size supported has_trivial (ft : list A) eps mom m st0, ft <> [] -> mk_inb size supported has_trivial false eps mom ft = Ret (m, st0) ->
  inb_reset_parameters st0 = Raise.
Proof. exact @inb_reset_raises. Qed.
Print Assumptions C70_reset_refuted.
