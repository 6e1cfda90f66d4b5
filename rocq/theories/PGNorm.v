(** C68: batch normalisation of generic representations by one variance per irrep. *)
From Coq Require Import Reals List ZArith Arith Bool Lia Lra.
From Verif Require Import LibRes LibPy LibMat ParamModel RepModel SpecRepr FieldModel SpecField GroupedModel NonlinModel SpecNonlin ImageModel PoolModel BatchNormModel SpecBatch FNormModel SpecFNorm InnerBNCor BatchEx IIDEx GNormCor GNormEx.
Import ListNotations.
Open Scope R_scope.

(** C68. GNormBatchNorm after any history of training and evaluation calls, optimiser
    steps and resets: in the coordinates of the irreps a call subtracts a vector in the
    trivial irreps, scales every irrep by its weight over its standard deviation and
    adds the bias in the trivial irreps. In training the vector holds the averages of the
    trivial irreps and the variance is the average over the channels of the irrep, and
    both move the running statistics; in evaluation nothing changes. *)
Theorem C68_value : forall A L size name irreps cob inv (leqb : L -> L -> bool), (forall a b, leqb a b = true <-> a = b) -> forall teqb (ft uniq : list A),
  Forall (fun r => (0 < size r)%nat) ft -> listing ft uniq -> named_apart name ft -> (forall r, In r ft -> irreps_ok (irreps r) (size r)) ->
  (forall r, In r ft -> inverse_of (size r) (cob r) (inv r)) -> (forall r, In r ft -> sharp (size r) (cob r)) -> teqb ft ft = true ->
  forall affine track eps mom m st0, mk_gn size name irreps cob inv leqb affine track eps mom ft uniq = Ret (m, st0) ->
  forall (junk : gtensor A chan -> list chan), (forall x, length (junk x) = type_size size ft) ->
  forall (axes : gtensor A chan -> nat), (forall x, axes x = 2%nat) \/ (forall r, In r ft -> meq (size r) (size r) (cob r) mid) ->
  forall h st ys, (forall t N x, In (Call t N x) h -> (t = true -> 0 < N)%nat /\ g_type x = ft /\ batch size ft N (g_chans x)) ->
  run (fun t N st x => gn_forward size leqb teqb m t (axes x) N st (junk x) x) (gn_set leqb) gn_reset_running_stats st0 h = Ret (st, ys) ->
  forall (t : bool) N x, ((t = true \/ track = false) -> 0 < N)%nat -> g_type x = ft -> batch size ft N (g_chans x) ->
  exists st' y, gn_forward size leqb teqb m t (axes x) N st (junk x) x = Ret (st', y) /\ g_type y = ft /\ batch size ft N (g_chans y) /\ gs_count st' = (if t then S (gs_count st) else gs_count st) /\
    forall i r j, nth_error ft i = Some r -> named_rank leqb name ft i (name r) j ->
      let u := coord (inv r) (size r) (field_chans size ft (g_chans x) i) in
      exists g g' mu var, dget leqb (gs_groups st) (name r) = Some g /\ dget leqb (gs_groups st') (name r) = Some g' /\ gs_weight g' = gs_weight g /\ gs_bias g' = gs_bias g /\
        (forall c p, (c < size r)%nat -> (p < N)%nat -> ent (field_chans size ft (g_chans y) i) c p = sumn (size r) (fun k => cob r c k *
           ((u k p - mu k) * (match gs_weight g with Some w => nth (irrep_of (irreps r) k) (nth j w []) 0 | None => 1 end / sqrt (var (irrep_of (irreps r) k) + eps)) +
            match gs_bias g with Some b => along (irreps r) mid (size r) (nth j b []) k | None => 0 end))) /\
        (if t || negb track then (forall k, (k < size r)%nat -> mu k = centre (irreps r) N u k) /\ (forall o, (o < length (irreps r))%nat -> var o = irrep_variance (irreps r) (size r) N u o)
         else (forall k, mu k = along (irreps r) mid (size r) (nth j (gs_mean g) []) k) /\ (forall o, var o = Rmax 0 (nth o (nth j (gs_var g) []) 0))) /\
        (if t && track then
           let f := match mom with Some f => f | None => 1 / INR (gs_count st') end in
           (forall k, (k < length (trivial_channels (irreps r) (size r)))%nat ->
              nth k (nth j (gs_mean g') []) 0 = towards f (nth k (nth j (gs_mean g) []) 0) (centre (irreps r) N u (nth k (trivial_channels (irreps r) (size r)) 0%nat))) /\
           (forall o, (o < length (irreps r))%nat -> nth o (nth j (gs_var g') []) 0 = towards f (nth o (nth j (gs_var g) []) 0) (irrep_variance (irreps r) (size r) N u o))
         else gs_mean g' = gs_mean g /\ (match mom with Some f => 0 <= f <= 1 | None => True end \/ track = false -> g' = g)).
Proof. exact @gn_value. Qed.
Print Assumptions C68_value.

(** If every batch of a history is transformed by group elements, any and different
    ones at different points, and its points are reordered, then the final state is the
    same and every output is transformed alike. *)
Theorem C68_histories : forall A L size name irreps cob inv (leqb : L -> L -> bool), (forall a b, leqb a b = true <-> a = b) -> forall teqb (ft uniq : list A),
  Forall (fun r => (0 < size r)%nat) ft -> listing ft uniq -> named_apart name ft -> (forall r, In r ft -> irreps_ok (irreps r) (size r)) ->
  (forall r, In r ft -> inverse_of (size r) (cob r) (inv r)) -> (forall r, In r ft -> sharp (size r) (cob r)) -> teqb ft ft = true ->
  forall affine track eps mom m st0, mk_gn size name irreps cob inv leqb affine track eps mom ft uniq = Ret (m, st0) ->
  forall (junk : gtensor A chan -> list chan), (forall x, length (junk x) = type_size size ft) ->
  forall (axes : gtensor A chan -> nat), (forall x, axes x = 2%nat) \/ (forall r, In r ft -> meq (size r) (size r) (cob r) mid) ->
  forall (rho : nat -> nat -> A -> mat) (pi : nat -> nat -> nat), (forall k p r, In r ft -> represents (irreps r) (cob r) (inv r) (size r) (rho k p r)) ->
  forall h h', length h' = length h ->
  (forall k e, nth_error h k = Some e -> match e with
     | Call t N x => g_type x = ft /\ reorders N (pi k) /\ ((t = true \/ track = false) -> 0 < N)%nat /\
         exists x', nth_error h' k = Some (Call t N x') /\ g_type x' = ft /\ moved_batch size ft N (rho k) (pi k) (g_chans x) (g_chans x')
     | _ => nth_error h' k = Some e end) ->
  forall st ys, run (fun t N st x => gn_forward size leqb teqb m t (axes x) N st (junk x) x) (gn_set leqb) gn_reset_running_stats st0 h = Ret (st, ys) ->
  exists ys', run (fun t N st x => gn_forward size leqb teqb m t (axes x) N st (junk x) x) (gn_set leqb) gn_reset_running_stats st0 h' = Ret (st, ys') /\
    forall k t N x, nth_error h k = Some (Call t N x) -> exists y y', nth_error ys k = Some (Some y) /\ nth_error ys' k = Some (Some y') /\
      g_type y = ft /\ g_type y' = ft /\ moved_batch size ft N (rho k) (pi k) (g_chans y) (g_chans y').
Proof. exact @gn_histories. Qed.
Print Assumptions C68_histories.

(** The regular representation of the group of two elements, whose change of basis
    is not orthogonal, and its sign representation, at two points which are swapped. *)
Example C68_ex : exists m st0 st y g a b c,
  listing [true; false] [false; true] /\ named_apart (fun r : bool => r) [true; false] /\ (forall r, irreps_ok (two_irreps r) (two_size r)) /\
  (forall r, sharp (two_size r) (two_cob r)) /\ ~ meq (two_size true) (two_size true) (two_cob true) mid /\
  mk_gn two_size (fun r => r) two_irreps two_cob two_inv Bool.eqb true true (1 / 100000) (Some (1 / 10)) [true; false] [false; true] = Ret (m, st0) /\
  (forall r, inverse_of (two_size r) (two_cob r) (two_inv r)) /\ (forall r, represents (two_irreps r) (two_cob r) (two_inv r) (two_size r) (two_rho r)) /\
  reorders 2 flip /\ moved_batch two_size [true; false] 2 (fun _ => two_rho) flip (g_chans two_x) (g_chans two_x') /\
  run (fun t N st x => gn_forward two_size Bool.eqb two_teqb m t 2 N st (two_junk x) x) (gn_set Bool.eqb) gn_reset_running_stats st0 [Call true 2 two_x] = Ret (st, [Some y]) /\
  irrep_variance (two_irreps true) 2 2 (coord (two_inv true) 2 [[1; 3]; [5; 7]]) 0 = 2 /\ irrep_variance (two_irreps true) 2 2 (coord (two_inv true) 2 [[1; 3]; [5; 7]]) 1 = 8 /\
  dget Bool.eqb (gs_groups st) true = Some g /\ nth 0 (nth 0 (gs_mean g) []) 0 = a /\ nth 0 (nth 0 (gs_var g) []) 0 = b /\ nth 1 (nth 0 (gs_var g) []) 0 = c /\ a = 4 / 10 /\ b = 11 / 10 /\ c = 17 / 10.
Proof. exact gn_example. Qed.

(** The export succeeds exactly with running statistics and when the fields of every
    name are consecutive. Without changes of basis and with a momentum between 0 and 1
    the exported BatchNorm3d computes the same as the module in evaluation mode. *)
Theorem C68_export : forall A L size name irreps cob inv (leqb : L -> L -> bool), (forall a b, leqb a b = true <-> a = b) -> forall teqb (ft uniq : list A),
  Forall (fun r => (0 < size r)%nat) ft -> listing ft uniq -> named_apart name ft -> (forall r, In r ft -> irreps_ok (irreps r) (size r)) ->
  (forall r, In r ft -> inverse_of (size r) (cob r) (inv r)) -> (forall r, In r ft -> sharp (size r) (cob r)) -> teqb ft ft = true ->
  forall affine track eps mom m st0, mk_gn size name irreps cob inv leqb affine track eps mom ft uniq = Ret (m, st0) ->
  forall (junk : gtensor A chan -> list chan), (forall x, length (junk x) = type_size size ft) ->
  forall (axes : gtensor A chan -> nat), (forall x, axes x = 2%nat) \/ (forall r, In r ft -> meq (size r) (size r) (cob r) mid) ->
  forall h st ys, (forall t N x, In (Call t N x) h -> (t = true -> 0 < N)%nat /\ g_type x = ft /\ batch size ft N (g_chans x)) ->
  run (fun t N st x => gn_forward size leqb teqb m t (axes x) N st (junk x) x) (gn_set leqb) gn_reset_running_stats st0 h = Ret (st, ys) ->
    ((exists t, gn_export size leqb m st = Ret t) <-> track = true /\ forall r, In r ft -> exists a k, labelled leqb (map name ft) (name r) = seq a k) /\
  ((forall r, In r ft -> meq (size r) (size r) (cob r) mid) -> match mom with Some f => 0 <= f <= 1 | None => True end ->
   forall t, gn_export size leqb m st = Ret t -> (exists ms vs, bn_stats t = Some (ms, vs, gs_count st)) /\
   forall N x, g_type x = ft -> batch size ft N (g_chans x) ->
    exists st' y, gn_forward size leqb teqb m false 3 N st (junk x) x = Ret (st', y) /\ g_type y = ft /\
      bn3d_call eps mom (type_size size ft) 3 t (map (fun c => [c]) (g_chans x)) = Ret (t, map (fun c => [c]) (g_chans y))).
Proof. exact @gn_export_same. Qed.
Print Assumptions C68_export.

(** Resetting the statistics or the parameters restores the initial ones, after any
    history. *)
Theorem C68_resets : forall A L size name irreps cob inv (leqb : L -> L -> bool), (forall a b, leqb a b = true <-> a = b) -> forall teqb (ft uniq : list A),
  Forall (fun r => (0 < size r)%nat) ft -> listing ft uniq -> named_apart name ft -> (forall r, In r ft -> irreps_ok (irreps r) (size r)) ->
  (forall r, In r ft -> inverse_of (size r) (cob r) (inv r)) -> (forall r, In r ft -> sharp (size r) (cob r)) -> teqb ft ft = true ->
  forall affine track eps mom m st0, mk_gn size name irreps cob inv leqb affine track eps mom ft uniq = Ret (m, st0) ->
  forall (junk : gtensor A chan -> list chan), (forall x, length (junk x) = type_size size ft) ->
  forall (axes : gtensor A chan -> nat), (forall x, axes x = 2%nat) \/ (forall r, In r ft -> meq (size r) (size r) (cob r) mid) ->
  forall h st ys, (forall t N x, In (Call t N x) h -> (t = true -> 0 < N)%nat /\ g_type x = ft /\ batch size ft N (g_chans x)) ->
  run (fun t N st x => gn_forward size leqb teqb m t (axes x) N st (junk x) x) (gn_set leqb) gn_reset_running_stats st0 h = Ret (st, ys) ->
  gs_count (gn_reset_running_stats st) = 0%nat /\ gs_count (gn_reset_parameters st) = 0%nat /\ forall r, In r ft -> exists g g1 g2 g0,
  dget leqb (gs_groups st) (name r) = Some g /\ dget leqb (gs_groups (gn_reset_running_stats st)) (name r) = Some g1 /\ dget leqb (gs_groups (gn_reset_parameters st)) (name r) = Some g2 /\
  dget leqb (gs_groups st0) (name r) = Some g0 /\ gs_mean g1 = gs_mean g0 /\ gs_var g1 = gs_var g0 /\ gs_weight g1 = gs_weight g /\ gs_bias g1 = gs_bias g /\ g2 = g0.
Proof. exact @gn_resets. Qed.
Print Assumptions C68_resets.

(** With a change of basis the module raises for every input that does not have two
    spatial axes, and the exported BatchNorm3d raises on every input that the module
    accepts. *)
Theorem C68_axes_refuted : forall A L size (name : A -> L) irreps cob inv (leqb : L -> L -> bool), (forall a b, leqb a b = true <-> a = b) -> forall teqb (ft uniq : list A),
  Forall (fun r => (0 < size r)%nat) ft -> listing ft uniq -> named_apart name ft -> (forall r, In r ft -> sharp (size r) (cob r)) ->
  forall affine track eps mom m st0, mk_gn size name irreps cob inv leqb affine track eps mom ft uniq = Ret (m, st0) ->
  forall r, In r ft -> ~ meq (size r) (size r) (cob r) mid ->
  forall t axes N st junk x, length (g_chans x) = type_size size ft ->
    (axes <> 2%nat -> gn_forward size leqb teqb m t axes N st junk x = Raise) /\
    forall b y, gn_forward size leqb teqb m t axes N st junk x <> Raise -> bn3d_call eps mom (type_size size ft) axes b y = Raise.
Proof. exact @gn_axes. Qed.
Print Assumptions C68_axes_refuted.

(** With a change of basis the exported variances are wrong, also apart from the
    number of axes: an untrained module divides by 2 what the exported one divides by the
    square root of 3. *)
Theorem C68_export_refuted : exists m st0 st' y t ys,
  mk_gn two_size (fun r => r) two_irreps two_cob two_inv Bool.eqb false true 3 (Some (1 / 10)) [true] [true] = Ret (m, st0) /\
  gn_export two_size Bool.eqb m st0 = Ret t /\
  gn_forward two_size Bool.eqb two_teqb m false 2 1 st0 (two_junk swap_x) swap_x = Ret (st', y) /\
  bn_call 3 (Some (1 / 10)) 2 false t (map (fun c => [c]) (g_chans swap_x)) = Ret (t, ys) /\
  ent (g_chans y) 1 0 = 1 / 2 /\ nth 0 (nth 0 (nth 1 ys []) []) 0 = 1 / sqrt 3.
Proof. exact gn_export_wrong. Qed.
Print Assumptions C68_export_refuted.
