(** C69: FieldNorm. *)
From Coq Require Import Reals List ZArith Arith Bool Lia Lra.
From Verif Require Import LibRes LibPy LibMat ParamModel FieldModel SpecField GroupedModel NonlinModel SpecNonlin ImageModel PoolModel BatchNormModel SpecBatch FNormModel SpecFNorm FieldNormThms InnerBNCor BatchEx IIDEx FieldNormEx.
Import ListNotations.
Open Scope R_scope.

(** C69. FieldNorm after any history of calls, optimiser steps and resets, in both
    modes: at every point a field loses its part in the trivial irreps, is divided
    by the root of the mean square of what is left, and gets the bias along the
    trivial irreps. *)
Theorem C69_value : forall A L size name irreps cob inv (leqb : L -> L -> bool), (forall a b, leqb a b = true <-> a = b) -> forall teqb (ft uniq : list A),
  Forall (fun r => (0 < size r)%nat) ft -> listing ft uniq -> named_apart name ft -> (forall r, In r ft -> irreps_ok (irreps r) (size r)) -> teqb ft ft = true ->
  forall affine eps m st0, mk_fn size name irreps cob inv leqb affine eps ft uniq = Ret (m, st0) ->
  forall (junk : gtensor A chan -> list chan), (forall x, length (junk x) = type_size size ft) ->
  forall h st ys, run (fun t N st x => fn_call size leqb teqb m t N st (junk x) x) (fn_set leqb) fn_reset_parameters st0 h = Ret (st, ys) ->
  forall (t : bool) N x, g_type x = ft -> batch size ft N (g_chans x) ->
  exists y, fn_call size leqb teqb m t N st (junk x) x = Ret (st, y) /\ g_type y = ft /\ batch size ft N (g_chans y) /\
    forall i r j, nth_error ft i = Some r -> named_rank leqb name ft i (name r) j -> exists g, dget leqb st (name r) = Some g /\
      forall c p, (c < size r)%nat -> (p < N)%nat ->
        let u := centred (irreps r) (cob r) (inv r) (size r) (field_chans size ft (g_chans x) i) p in
        ent (field_chans size ft (g_chans y) i) c p =
          u c * (match fp_weight g with Some w => nth j w 0 | None => 1 end / sqrt (mean_square (size r) u + eps)) +
          match fp_bias g with Some b => along (irreps r) (cob r) (size r) (nth j b []) c | None => 0 end.
Proof. exact @fn_value. Qed.
Print Assumptions C69_value.

(** If the points of the batches of a history are reordered and transformed by any
    group elements whose matrices are orthogonal, also different ones at different
    points, then every output is transformed alike. *)
Theorem C69_histories : forall A L size name irreps cob inv (leqb : L -> L -> bool), (forall a b, leqb a b = true <-> a = b) -> forall teqb (ft uniq : list A),
  Forall (fun r => (0 < size r)%nat) ft -> listing ft uniq -> named_apart name ft -> (forall r, In r ft -> irreps_ok (irreps r) (size r)) -> teqb ft ft = true ->
  forall affine eps m st0, mk_fn size name irreps cob inv leqb affine eps ft uniq = Ret (m, st0) ->
  forall (junk : gtensor A chan -> list chan), (forall x, length (junk x) = type_size size ft) ->
  (forall r, In r ft -> inverse_of (size r) (cob r) (inv r)) ->
  forall (rho : nat -> nat -> A -> mat) (pi : nat -> nat -> nat), (forall k p r, In r ft -> represents (irreps r) (cob r) (inv r) (size r) (rho k p r)) ->
  (forall k p r, In r ft -> orthogonal (size r) (rho k p r)) ->
  forall h h', length h' = length h ->
  (forall k e, nth_error h k = Some e -> match e with
     | Call t N x => g_type x = ft /\ reorders N (pi k) /\
         exists x', nth_error h' k = Some (Call t N x') /\ g_type x' = ft /\ moved_batch size ft N (rho k) (pi k) (g_chans x) (g_chans x')
     | _ => nth_error h' k = Some e end) ->
  forall st ys, run (fun t N st x => fn_call size leqb teqb m t N st (junk x) x) (fn_set leqb) fn_reset_parameters st0 h = Ret (st, ys) ->
  exists ys', run (fun t N st x => fn_call size leqb teqb m t N st (junk x) x) (fn_set leqb) fn_reset_parameters st0 h' = Ret (st, ys') /\
    forall k t N x, nth_error h k = Some (Call t N x) -> exists y y', nth_error ys k = Some (Some y) /\ nth_error ys' k = Some (Some y') /\
      g_type y = ft /\ g_type y' = ft /\ moved_batch size ft N (rho k) (pi k) (g_chans y) (g_chans y').
Proof. exact @fn_histories. Qed.
Print Assumptions C69_histories.

(** The regular representation of the group of two elements and its sign
    representation, at two points which are swapped. *)
Example C69_ex : exists m st0 st ys g,
  listing [true; false] [false; true] /\ named_apart (fun r : bool => r) [true; false] /\ (forall r, irreps_ok (two_irreps r) (two_size r)) /\
  mk_fn two_size (fun r => r) two_irreps two_cob two_inv Bool.eqb true (1 / 100000) [true; false] [false; true] = Ret (m, st0) /\
  (forall r, inverse_of (two_size r) (two_cob r) (two_inv r)) /\ (forall r, represents (two_irreps r) (two_cob r) (two_inv r) (two_size r) (two_rho r)) /\
  (forall r, orthogonal (two_size r) (two_rho r)) /\ reorders 2 flip /\ moved_batch two_size [true; false] 2 (fun _ => two_rho) flip (g_chans two_x) (g_chans two_x') /\
  run (fun t N st x => fn_call two_size Bool.eqb two_teqb m t N st (two_junk x) x) (fn_set Bool.eqb) fn_reset_parameters st0
    [Call true 2 two_x; SetWeights (true, ([3], Some [[4]])); Call false 2 two_x] = Ret (st, ys) /\
  dget Bool.eqb st true = Some g /\ fp_weight g = Some [3] /\ fp_bias g = Some [[4]] /\
  (let u := centred (two_irreps true) (two_cob true) (two_inv true) 2 [[1; 3]; [5; 7]] 0 in u 0%nat = -2 /\ u 1%nat = 2 /\ mean_square 2 u = 4).
Proof. exact fn_example. Qed.

(** A field of trivial irreps is replaced by its bias, or by zero. *)
Theorem C69_trivial : forall A L size name irreps cob inv (leqb : L -> L -> bool), (forall a b, leqb a b = true <-> a = b) -> forall teqb (ft uniq : list A),
  Forall (fun r => (0 < size r)%nat) ft -> listing ft uniq -> named_apart name ft -> (forall r, In r ft -> irreps_ok (irreps r) (size r)) -> teqb ft ft = true ->
  forall affine eps m st0, mk_fn size name irreps cob inv leqb affine eps ft uniq = Ret (m, st0) ->
  forall (junk : gtensor A chan -> list chan), (forall x, length (junk x) = type_size size ft) ->
  (forall r, In r ft -> inverse_of (size r) (cob r) (inv r)) ->
  forall h st ys, run (fun t N st x => fn_call size leqb teqb m t N st (junk x) x) (fn_set leqb) fn_reset_parameters st0 h = Ret (st, ys) ->
  forall (t : bool) N x, g_type x = ft -> batch size ft N (g_chans x) ->
  exists y, fn_call size leqb teqb m t N st (junk x) x = Ret (st, y) /\
    forall i r j, nth_error ft i = Some r -> named_rank leqb name ft i (name r) j -> Forall (fun e => snd e = true) (irreps r) -> exists g, dget leqb st (name r) = Some g /\
      forall c p, (c < size r)%nat -> (p < N)%nat ->
        ent (field_chans size ft (g_chans y) i) c p = match fp_bias g with Some b => along (irreps r) (cob r) (size r) (nth j b []) c | None => 0 end.
Proof. exact @fn_trivial. Qed.
Print Assumptions C69_trivial.

(** reset_parameters restores the initial parameters, after any history. *)
Theorem C69_resets : forall A L size name irreps cob inv (leqb : L -> L -> bool), (forall a b, leqb a b = true <-> a = b) -> forall teqb (ft uniq : list A),
  listing ft uniq -> named_apart name ft ->
  forall affine eps m st0, mk_fn size name irreps cob inv leqb affine eps ft uniq = Ret (m, st0) ->
  forall (junk : gtensor A chan -> list chan),
  forall h st ys, run (fun t N st x => fn_call size leqb teqb m t N st (junk x) x) (fn_set leqb) fn_reset_parameters st0 h = Ret (st, ys) ->
  forall r, In r ft -> exists g0, dget leqb (fn_reset_parameters st) (name r) = Some g0 /\ dget leqb st0 (name r) = Some g0.
Proof. exact @fn_resets. Qed.
Print Assumptions C69_resets.

(** A representation in a basis that is not orthonormal: the quarter turn with one
    axis scaled. The constructor accepts it and the output is not transformed like
    the input. *)
Theorem C69_skew_refuted : exists m st0 y y',
  mk_fn (fun _ => 2%nat) (fun r => r) (fun _ => [(2%nat, false)]) (fun _ => skew_cob) (fun _ => skew_inv) (fun _ _ => true) true (1 / 100000) [tt] [tt] = Ret (m, st0) /\
  irreps_ok [(2%nat, false)] 2 /\ inverse_of 2 skew_cob skew_inv /\ represents [(2%nat, false)] skew_cob skew_inv 2 skew_rho /\
  moved_batch (fun _ => 2%nat) [tt] 1 (fun _ _ => skew_rho) (fun p => p) (g_chans (skew_in 1 0)) (g_chans (skew_in 0 2)) /\
  fn_call (fun _ => 2%nat) (fun _ _ => true) (fun _ _ => true) m false 1 st0 [[]; []] (skew_in 1 0) = Ret (st0, y) /\
  fn_call (fun _ => 2%nat) (fun _ _ => true) (fun _ _ => true) m false 1 st0 [[]; []] (skew_in 0 2) = Ret (st0, y') /\
  ~ moved_batch (fun _ => 2%nat) [tt] 1 (fun _ _ => skew_rho) (fun p => p) (g_chans y) (g_chans y').
Proof. exact fn_skew. Qed.
Print Assumptions C69_skew_refuted.
