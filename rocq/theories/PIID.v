(** C67: batch normalisation of generic representations by one variance per field. *)
From Coq Require Import Reals List ZArith Arith Bool Lia Lra.
From Verif Require Import LibRes LibPy LibMat ParamModel FieldModel SpecField GroupedModel NonlinModel SpecNonlin ImageModel PoolModel BatchNormModel SpecBatch FNormModel SpecFNorm IIDCor IIDExport InnerBNCor BatchEx IIDEx.
Import ListNotations.
Open Scope R_scope.

(** C67. IIDBatchNorm1d/2d/3d after any history of training and evaluation calls,
    optimiser steps and resets: a call subtracts a vector in the trivial irreps,
    scales by one number per field and adds the bias along the trivial irreps. In
    training the vector is the fixed part of the averages and the number comes from
    the average variance of the channels, and both move the running statistics. *)
Theorem C67_value : forall A L size name irreps cob inv (leqb : L -> L -> bool), (forall a b, leqb a b = true <-> a = b) -> forall teqb (ft uniq : list A),
  Forall (fun r => (0 < size r)%nat) ft -> listing ft uniq -> named_apart name ft -> (forall r, In r ft -> irreps_ok (irreps r) (size r)) -> teqb ft ft = true ->
  forall affine track eps mom m st0, mk_iid size name irreps cob inv leqb affine track eps mom ft uniq = Ret (m, st0) ->
  forall (junk : gtensor A chan -> list chan), (forall x, length (junk x) = type_size size ft) ->
  forall h st ys, (forall t N x, In (Call t N x) h -> ((t = true \/ track = false) -> 1 < N)%nat /\ g_type x = ft /\ batch size ft N (g_chans x)) ->
  run (fun t N st x => iid_forward size leqb teqb m t N st (junk x) x) (iid_set leqb) iid_reset_running_stats st0 h = Ret (st, ys) ->
  forall (t : bool) N x, ((t = true \/ track = false) -> 1 < N)%nat -> g_type x = ft -> batch size ft N (g_chans x) ->
  exists st' y, iid_forward size leqb teqb m t N st (junk x) x = Ret (st', y) /\ g_type y = ft /\ batch size ft N (g_chans y) /\ is_count st' = (if t then S (is_count st) else is_count st) /\
    forall i r j, nth_error ft i = Some r -> named_rank leqb name ft i (name r) j ->
      let v := field_chans size ft (g_chans x) i in
      let new_mean := fixed_part (irreps r) (cob r) (inv r) (size r) (avg N v) in
      let kept_mean := fun (g : iid_state) c => match is_mean g with Some ms => nth c (nth j ms []) 0 | None => 0 end in
      exists g g' mu var, dget leqb (is_groups st) (name r) = Some g /\ dget leqb (is_groups st') (name r) = Some g' /\ is_weight g' = is_weight g /\ is_bias g' = is_bias g /\
        (forall c p, (c < size r)%nat -> (p < N)%nat -> ent (field_chans size ft (g_chans y) i) c p =
           (ent v c p - mu c) * (match is_weight g with Some w => nth j w 0 | None => 1 end / sqrt (var + eps)) +
           match is_bias g with Some b => along (irreps r) (cob r) (size r) (nth j b []) c | None => 0 end) /\
        (if t || negb track then (forall c, (c < size r)%nat -> mu c = new_mean c) /\ var = variance (size r) N v else (forall c, mu c = kept_mean g c) /\ var = nth j (is_var g) 0) /\
        (if t && track then
           let f := match mom with Some f => f | None => 1 / INR (is_count st') end in
           (forall c, (c < size r)%nat -> kept_mean g' c = towards f (kept_mean g c) (new_mean c)) /\ nth j (is_var g') 0 = towards f (nth j (is_var g) 0) (variance (size r) N v)
         else g' = g).
Proof. exact @iid_value. Qed.
Print Assumptions C67_value.

(** If every batch of a history is transformed by one group element (any elements,
    also different ones at different points, in evaluation mode with statistics) and
    its points are reordered, then the final state is the same and every output is
    transformed alike. *)
Theorem C67_histories : forall A L size name irreps cob inv (leqb : L -> L -> bool), (forall a b, leqb a b = true <-> a = b) -> forall teqb (ft uniq : list A),
  Forall (fun r => (0 < size r)%nat) ft -> listing ft uniq -> named_apart name ft -> (forall r, In r ft -> irreps_ok (irreps r) (size r)) -> teqb ft ft = true ->
  forall affine track eps mom m st0, mk_iid size name irreps cob inv leqb affine track eps mom ft uniq = Ret (m, st0) ->
  forall (junk : gtensor A chan -> list chan), (forall x, length (junk x) = type_size size ft) ->
  (forall r, In r ft -> inverse_of (size r) (cob r) (inv r)) ->
  forall (rho : nat -> nat -> A -> mat) (pi : nat -> nat -> nat), (forall k p r, In r ft -> represents (irreps r) (cob r) (inv r) (size r) (rho k p r)) ->
  forall h h', length h' = length h ->
  (forall k e, nth_error h k = Some e -> match e with
     | Call t N x => g_type x = ft /\ reorders N (pi k) /\
         ((t = true \/ track = false) -> (1 < N)%nat /\ forall r, In r ft -> orthogonal (size r) (rho k 0%nat r) /\ forall p, (p < N)%nat -> meq (size r) (size r) (rho k p r) (rho k 0%nat r)) /\
         exists x', nth_error h' k = Some (Call t N x') /\ g_type x' = ft /\ moved_batch size ft N (rho k) (pi k) (g_chans x) (g_chans x')
     | _ => nth_error h' k = Some e end) ->
  forall st ys, run (fun t N st x => iid_forward size leqb teqb m t N st (junk x) x) (iid_set leqb) iid_reset_running_stats st0 h = Ret (st, ys) ->
  exists ys', run (fun t N st x => iid_forward size leqb teqb m t N st (junk x) x) (iid_set leqb) iid_reset_running_stats st0 h' = Ret (st, ys') /\
    forall k t N x, nth_error h k = Some (Call t N x) -> exists y y', nth_error ys k = Some (Some y) /\ nth_error ys' k = Some (Some y') /\
      g_type y = ft /\ g_type y' = ft /\ moved_batch size ft N (rho k) (pi k) (g_chans y) (g_chans y').
Proof. exact @iid_histories. Qed.
Print Assumptions C67_histories.

(** The regular representation of the group of two elements, whose change of basis
    is not orthogonal, and its sign representation, at two points which are swapped. *)
Example C67_ex : exists m st0 st ys g,
  listing [true; false] [false; true] /\ named_apart (fun r : bool => r) [true; false] /\ (forall r, irreps_ok (two_irreps r) (two_size r)) /\
  mk_iid two_size (fun r => r) two_irreps two_cob two_inv Bool.eqb true true (1 / 100000) (Some (1 / 10)) [true; false] [false; true] = Ret (m, st0) /\
  (forall r, inverse_of (two_size r) (two_cob r) (two_inv r)) /\ (forall r, represents (two_irreps r) (two_cob r) (two_inv r) (two_size r) (two_rho r)) /\
  (forall r, orthogonal (two_size r) (two_rho r)) /\ reorders 2 flip /\ moved_batch two_size [true; false] 2 (fun _ => two_rho) flip (g_chans two_x) (g_chans two_x') /\
  run (fun t N st x => iid_forward two_size Bool.eqb two_teqb m t N st (two_junk x) x) (iid_set Bool.eqb) iid_reset_running_stats st0
    [Call true 2 two_x; SetWeights (true, ([3], Some [[4]])); Call false 2 two_x] = Ret (st, ys) /\
  variance 2 2 [[1; 3]; [5; 7]] = 2 /\ (forall c, (c < 2)%nat -> fixed_part (two_irreps true) (two_cob true) (two_inv true) 2 (avg 2 [[1; 3]; [5; 7]]) c = 4) /\
  dget Bool.eqb (is_groups st) true = Some g /\ (exists a b, is_mean g = Some [[a; b]] /\ a = 4 / 10 /\ b = 4 / 10) /\ (exists a, is_var g = [a] /\ a = 11 / 10) /\
  is_weight g = Some [3] /\ is_bias g = Some [[4]].
Proof. exact iid_example. Qed.

(** The exported torch batch norm computes the same as the module in evaluation
    mode, after any history. Without running statistics the export raises. *)
Theorem C67_export : forall A L size name irreps cob inv (leqb : L -> L -> bool), (forall a b, leqb a b = true <-> a = b) -> forall teqb (ft uniq : list A),
  Forall (fun r => (0 < size r)%nat) ft -> listing ft uniq -> named_apart name ft -> (forall r, In r ft -> irreps_ok (irreps r) (size r)) -> teqb ft ft = true ->
  forall affine track eps mom m st0, mk_iid size name irreps cob inv leqb affine track eps mom ft uniq = Ret (m, st0) ->
  forall (junk : gtensor A chan -> list chan), (forall x, length (junk x) = type_size size ft) ->
  forall h st ys, (forall t N x, In (Call t N x) h -> ((t = true \/ track = false) -> 1 < N)%nat /\ g_type x = ft /\ batch size ft N (g_chans x)) ->
  run (fun t N st x => iid_forward size leqb teqb m t N st (junk x) x) (iid_set leqb) iid_reset_running_stats st0 h = Ret (st, ys) ->
  (track = false -> iid_export size leqb m st = Raise) /\ (track = true -> exists t, iid_export size leqb m st = Ret t /\ (exists ms vs, bn_stats t = Some (ms, vs, is_count st)) /\
  forall N x, g_type x = ft -> batch size ft N (g_chans x) ->
    exists st' y, iid_forward size leqb teqb m false N st (junk x) x = Ret (st', y) /\ g_type y = ft /\
      bn_call eps mom (type_size size ft) false t (map (fun c => [c]) (g_chans x)) = Ret (t, map (fun c => [c]) (g_chans y))).
Proof. exact @iid_export_same. Qed.
Print Assumptions C67_export.

(** Resetting the statistics or the parameters restores the initial ones, after any
    history. *)
Theorem C67_resets : forall A L size name irreps cob inv (leqb : L -> L -> bool), (forall a b, leqb a b = true <-> a = b) -> forall teqb (ft uniq : list A),
  Forall (fun r => (0 < size r)%nat) ft -> listing ft uniq -> named_apart name ft -> (forall r, In r ft -> irreps_ok (irreps r) (size r)) -> teqb ft ft = true ->
  forall affine track eps mom m st0, mk_iid size name irreps cob inv leqb affine track eps mom ft uniq = Ret (m, st0) ->
  forall (junk : gtensor A chan -> list chan), (forall x, length (junk x) = type_size size ft) ->
  forall h st ys, (forall t N x, In (Call t N x) h -> ((t = true \/ track = false) -> 1 < N)%nat /\ g_type x = ft /\ batch size ft N (g_chans x)) ->
  run (fun t N st x => iid_forward size leqb teqb m t N st (junk x) x) (iid_set leqb) iid_reset_running_stats st0 h = Ret (st, ys) ->
  is_count (iid_reset_running_stats st) = 0%nat /\ is_count (iid_reset_parameters st) = 0%nat /\ forall r, In r ft -> exists g g1 g2 g0,
  dget leqb (is_groups st) (name r) = Some g /\ dget leqb (is_groups (iid_reset_running_stats st)) (name r) = Some g1 /\ dget leqb (is_groups (iid_reset_parameters st)) (name r) = Some g2 /\
  dget leqb (is_groups st0) (name r) = Some g0 /\ is_mean g1 = is_mean g0 /\ is_var g1 = is_var g0 /\ is_weight g1 = is_weight g /\ is_bias g1 = is_bias g /\ g2 = g0.
Proof. exact @iid_resets. Qed.
Print Assumptions C67_resets.

(** If the points of a batch are transformed by different elements then training
    gives different running variances. *)
Theorem C67_independent_refuted : exists m st0 st st' ys ys',
  mk_iid sign_size (fun r => r) (fun _ => [(1%nat, false)]) (fun _ => mid) (fun _ => mid) (fun _ _ => true) true true (1 / 100000) (Some (1 / 10)) [tt] [tt] = Ret (m, st0) /\
  (forall p r, represents [(1%nat, false)] mid mid 1 (sign_rho p r)) /\ moved_batch sign_size [tt] 2 sign_rho (fun p => p) (g_chans (sign_in 1)) (g_chans (sign_in (-1))) /\
  run (fun t N st x => iid_forward sign_size (fun _ _ => true) (fun _ _ => true) m t N st [[]] x) (iid_set (fun _ _ => true)) iid_reset_running_stats st0 [Call true 2 (sign_in 1)] = Ret (st, ys) /\
  run (fun t N st x => iid_forward sign_size (fun _ _ => true) (fun _ _ => true) m t N st [[]] x) (iid_set (fun _ _ => true)) iid_reset_running_stats st0 [Call true 2 (sign_in (-1))] = Ret (st', ys') /\
  (exists g g' a a', is_groups st = [(tt, g)] /\ is_groups st' = [(tt, g')] /\ is_var g = [a] /\ is_var g' = [a'] /\ a = 9 / 10 /\ a' = 11 / 10).
Proof. exact iid_independent. Qed.
Print Assumptions C67_independent_refuted.

(** Two representations which share a name but not the change of basis (as direct
    sums with the default name do) get the bias of the last one: the zero input is
    fixed by the group and the output is not. *)
Theorem C67_names_refuted : exists m st0 st y,
  listing [true; false] [true; false] /\ (forall r, In r [true; false] -> irreps_ok [(1%nat, true); (1%nat, false)] 2) /\
  (forall r, inverse_of 2 (alike_cob r) (alike_cob r)) /\ (forall r, represents [(1%nat, true); (1%nat, false)] (alike_cob r) (alike_cob r) 2 (alike_rho r)) /\
  mk_iid (fun _ => 2%nat) (fun _ => tt) (fun _ => [(1%nat, true); (1%nat, false)]) alike_cob alike_cob (fun _ _ => true) true true (1 / 100000) (Some (1 / 10)) [true; false] [true; false] = Ret (m, st0) /\
  run (fun t N st x => iid_forward (fun _ => 2%nat) (fun _ _ => true) two_teqb m t N st (two_junk x) x) (iid_set (fun _ _ => true)) iid_reset_running_stats st0
    [SetWeights (tt, ([1; 1], Some [[1]; [1]])); Call false 1 alike_x] = Ret (st, [None; Some y]) /\
  moved_batch (fun _ => 2%nat) [true; false] 1 (fun _ => alike_rho) (fun p => p) (g_chans alike_x) (g_chans alike_x) /\
  ~ moved_batch (fun _ => 2%nat) [true; false] 1 (fun _ => alike_rho) (fun p => p) (g_chans y) (g_chans y).
Proof. exact iid_names. Qed.
Print Assumptions C67_names_refuted.
