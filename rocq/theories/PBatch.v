(** C49: histories of batch normalisations. *)
From Coq Require Import Reals List ZArith Arith Bool Lia Lra.
From Verif Require Import LibRes LibPy LibMat ParamModel FieldModel SpecField GroupedModel NonlinModel SpecNonlin PoolModel SpecPool BatchNormModel SpecBatch NormBNCor InnerBNCor BatchExpCor BatchEx.
Import ListNotations.
Open Scope R_scope.

(** C49. NormBatchNorm after any history of training and evaluation calls,
    optimiser steps and resets: what a call does to the running variances and to
    the fields. *)
Theorem C49_norm_value : forall A size supported has_trivial teqb (ft : list A) affine eps mom m st0, Forall (fun r => (0 < size r)%nat) ft -> teqb ft ft = true ->
  mk_nbn size supported has_trivial affine eps mom ft = Ret (m, st0) ->
  forall h st ys, (forall t N x, In (Call t N x) h -> (t = true -> 0 < N)%nat /\ g_type x = ft /\ batch size ft N (g_chans x)) ->
  run (nbn_forward size teqb m) nbn_set nbn_reset_running_stats st0 h = Ret (st, ys) ->
  forall (t : bool) N x, (t = true -> 0 < N)%nat -> g_type x = ft -> batch size ft N (g_chans x) ->
  exists st' y, nbn_forward size teqb m t N st x = Ret (st', y) /\ g_type y = ft /\ batch size ft N (g_chans y) /\ nb_weights st' = nb_weights st /\
    nb_count st' = (if t then S (nb_count st) else nb_count st) /\
    forall i s j, rank size ft i s j ->
      kept (nb_vars st') s j =
        (if t then towards (match mom with Some f => f | None => 1 / INR (nb_count st') end) (kept (nb_vars st) s j)
                      (energy N (field_chans size ft (g_chans x) i) / (INR s * INR (Nat.max 1 (N - 1))))
         else kept (nb_vars st) s j) /\
      field_chans size ft (g_chans y) i =
        map (map (fun a => a * (match nb_weights st with Some w => kept w s j | None => 1 end / sqrt (kept (nb_vars st') s j + eps)))) (field_chans size ft (g_chans x) i).
Proof. exact @nbn_value. Qed.
Print Assumptions C49_norm_value.

(** If every batch of a history is transformed, by orthogonal matrices that may
    differ from point to point and by a reordering of the points, then the final
    state is the same and every output is transformed alike. *)
Theorem C49_norm_histories : forall A size supported has_trivial teqb (ft : list A) affine eps mom m st0, Forall (fun r => (0 < size r)%nat) ft -> teqb ft ft = true ->
  mk_nbn size supported has_trivial affine eps mom ft = Ret (m, st0) ->
  forall (rho : nat -> nat -> A -> mat) (pi : nat -> nat -> nat), (forall k p r, In r ft -> orthogonal (size r) (rho k p r)) ->
  forall h h', length h' = length h ->
  (forall k e, nth_error h k = Some e -> match e with
     | Call t N x => (t = true -> 0 < N)%nat /\ g_type x = ft /\ reorders N (pi k) /\
         exists x', nth_error h' k = Some (Call t N x') /\ g_type x' = ft /\ moved_batch size ft N (rho k) (pi k) (g_chans x) (g_chans x')
     | _ => nth_error h' k = Some e end) ->
  forall st ys, run (nbn_forward size teqb m) nbn_set nbn_reset_running_stats st0 h = Ret (st, ys) ->
  exists ys', run (nbn_forward size teqb m) nbn_set nbn_reset_running_stats st0 h' = Ret (st, ys') /\
    forall k t N x, nth_error h k = Some (Call t N x) -> exists y y', nth_error ys k = Some (Some y) /\ nth_error ys' k = Some (Some y') /\
      g_type y = ft /\ g_type y' = ft /\ moved_batch size ft N (rho k) (pi k) (g_chans y) (g_chans y').
Proof. exact @nbn_histories. Qed.
Print Assumptions C49_norm_histories.

(** Two vector fields at two points, turned by a quarter and swapped. *)
Example C49_norm_ex : exists m st0 st ys,
  mk_nbn (fun r => r) (fun _ => [NL_norm]) (fun _ => false) true (1 / 100000) (Some (1 / 10)) [2; 2]%nat = Ret (m, st0) /\
  orthogonal 2 (mat2 0 (-1) 1 0) /\ reorders 2 flip /\ moved_batch (fun r => r) [2; 2]%nat 2 (fun _ _ => mat2 0 (-1) 1 0) flip batch_x turned_x /\
  run (nbn_forward (fun r => r) typ_eqb m) nbn_set nbn_reset_running_stats st0
    [Call true 2 (tens batch_x); SetWeights [(2%nat, [3; 4])]; Call false 2 (tens batch_x)] = Ret (st, ys) /\
  rank (fun r => r) [2; 2]%nat 1 2 1 /\ energy 2 (field_chans (fun r => r) [2; 2]%nat batch_x 1) = 4 /\ kept (nb_vars st) 2 1 = 11 / 10 /\ nb_weights st = Some [(2%nat, [3; 4])].
Proof. exact norm_example. Qed.

(** reset_parameters raises for every non-affine NormBatchNorm with a field. *)
Theorem C49_norm_reset_refuted : forall A size supported has_trivial (ft : list A) eps mom m st0 uniform, Forall (fun r => (0 < size r)%nat) ft -> ft <> [] ->
  mk_nbn size supported has_trivial false eps mom ft = Ret (m, st0) -> nbn_reset_parameters uniform st0 = Raise.
Proof. exact @nbn_reset_raises. Qed.
Print Assumptions C49_norm_reset_refuted.

(** InnerBatchNorm on signals over a line, a plane or space. *)
Theorem C49_inner_value : forall A size supported teqb (ft : list A) dim affine track eps mom m st0 junk, Forall (fun r => (0 < size r)%nat) ft -> teqb ft ft = true ->
  mk_ibn size supported dim affine track eps mom ft = Ret (m, st0) -> (1 <= dim)%nat -> (forall x, length (junk x) = type_size size ft) ->
  forall h st ys, (forall t N x, In (Call t N x) h -> ((t = true \/ track = false) -> forall r, In r ft -> (1 < size r * N)%nat) /\ g_type x = ft /\ batch size ft N (g_chans x)) ->
  run (icall size teqb m dim junk) ibn_set ibn_reset_running_stats st0 h = Ret (st, ys) ->
  forall (t : bool) N x, ((t = true \/ track = false) -> forall r, In r ft -> (1 < size r * N)%nat) -> g_type x = ft -> batch size ft N (g_chans x) ->
  exists st' y, ibn_forward size teqb m t dim st (junk x) x = Ret (st', y) /\ g_type y = ft /\ batch size ft N (g_chans y) /\
    forall i s j, rank size ft i s j ->
      let v := field_chans size ft (g_chans x) i in
      let mu := total N v / (INR s * INR N) in
      exists b b' w c mu' var, dget Nat.eqb st s = Some b /\ dget Nat.eqb st' s = Some b' /\ bn_affine b' = bn_affine b /\
        (w, c) = match bn_affine b with Some (ws, cs) => (nth j ws 0, nth j cs 0) | None => (1, 0) end /\
        field_chans size ft (g_chans y) i = map (map (fun a => (a - mu') / sqrt (var + eps) * w + c)) v /\
        match bn_stats b with
        | None => bn_stats b' = None /\ mu' = mu /\ var = scatter N mu v / (INR s * INR N)
        | Some (ms, vs, k) =>
            if t then mu' = mu /\ var = scatter N mu v / (INR s * INR N) /\ exists ms' vs', bn_stats b' = Some (ms', vs', S k) /\
              let f := match mom with Some f => f | None => 1 / INR (S k) end in
              nth j ms' 0 = towards f (nth j ms 0) mu /\ nth j vs' 0 = towards f (nth j vs 0) (scatter N mu v / (INR s * INR N - 1))
            else b' = b /\ mu' = nth j ms 0 /\ var = nth j vs 0
        end.
Proof. exact @ibn_value. Qed.
Print Assumptions C49_inner_value.

Theorem C49_inner_histories : forall A size supported teqb (ft : list A) dim affine track eps mom m st0 junk, Forall (fun r => (0 < size r)%nat) ft -> teqb ft ft = true ->
  mk_ibn size supported dim affine track eps mom ft = Ret (m, st0) -> (1 <= dim)%nat -> (forall x, length (junk x) = type_size size ft) ->
  forall (rho : nat -> nat -> A -> mat) (pi : nat -> nat -> nat), (forall k p r, In r ft -> permutes (size r) (rho k p r)) ->
  forall h h', length h' = length h ->
  (forall k e, nth_error h k = Some e -> match e with
     | Call t N x => ((t = true \/ track = false) -> forall r, In r ft -> (1 < size r * N)%nat) /\ g_type x = ft /\ reorders N (pi k) /\
         exists x', nth_error h' k = Some (Call t N x') /\ g_type x' = ft /\ moved_batch size ft N (rho k) (pi k) (g_chans x) (g_chans x')
     | _ => nth_error h' k = Some e end) ->
  forall st ys, run (icall size teqb m dim junk) ibn_set ibn_reset_running_stats st0 h = Ret (st, ys) ->
  exists ys', run (icall size teqb m dim junk) ibn_set ibn_reset_running_stats st0 h' = Ret (st, ys') /\
    forall k t N x, nth_error h k = Some (Call t N x) -> exists y y', nth_error ys k = Some (Some y) /\ nth_error ys' k = Some (Some y') /\
      g_type y = ft /\ g_type y' = ft /\ moved_batch size ft N (rho k) (pi k) (g_chans y) (g_chans y').
Proof. exact @ibn_histories. Qed.
Print Assumptions C49_inner_histories.

Example C49_inner_ex : exists m st0 st ys,
  mk_ibn (fun r => r) (fun _ => [NL_pointwise]) 2 true true (1 / 100000) None [2; 2]%nat = Ret (m, st0) /\
  permutes 2 (mat2 0 1 1 0) /\ reorders 2 flip /\ moved_batch (fun r => r) [2; 2]%nat 2 (fun _ _ => mat2 0 1 1 0) flip batch_x swapped_x /\
  run (icall (fun r => r) typ_eqb m 2 (fun _ => batch_x)) ibn_set ibn_reset_running_stats st0
    [Call true 2 (tens batch_x); SetWeights (2%nat, ([3; 4], [5; 6])); ResetStats; Call true 2 (tens batch_x); Call false 2 (tens batch_x)] = Ret (st, ys) /\
  rank (fun r => r) [2; 2]%nat 1 2 1 /\
  exists b ms vs, dget Nat.eqb st 2%nat = Some b /\ bn_affine b = Some ([3; 4], [5; 6]) /\ bn_stats b = Some (ms, vs, 1%nat) /\ nth 1 ms 0 = 1 / 2 /\ nth 1 vs 0 = 1.
Proof. exact inner_example. Qed.

(** A tensor without spatial axes - every tensor of a space of dimension 0, every
    point cloud - makes InnerBatchNorm raise. *)
Theorem C49_inner_points_refuted : forall A size supported teqb (ft : list A) dim affine track eps mom m st0, ft <> [] -> Forall (fun r => (0 < size r)%nat) ft ->
  mk_ibn size supported dim affine track eps mom ft = Ret (m, st0) ->
  forall t st junk x, ibn_forward size teqb m t 0 st junk x = Raise.
Proof. exact @ibn_no_points. Qed.
Print Assumptions C49_inner_points_refuted.

(** reset_running_stats brings back the statistics the modules started with and
    keeps the weights. *)
Theorem C49_norm_reset : forall A size supported has_trivial teqb (ft : list A) affine eps mom m st0,
  mk_nbn size supported has_trivial affine eps mom ft = Ret (m, st0) ->
  forall h st ys, run (nbn_forward size teqb m) nbn_set nbn_reset_running_stats st0 h = Ret (st, ys) ->
  nb_vars (nbn_reset_running_stats st) = nb_vars st0 /\ nb_count (nbn_reset_running_stats st) = nb_count st0 /\
  nb_weights (nbn_reset_running_stats st) = nb_weights st.
Proof. exact @nbn_reset_initial. Qed.
Print Assumptions C49_norm_reset.

Theorem C49_inner_reset : forall A size supported teqb (ft : list A) dim affine track eps mom m st0 junk, Forall (fun r => (0 < size r)%nat) ft -> teqb ft ft = true ->
  mk_ibn size supported dim affine track eps mom ft = Ret (m, st0) -> (1 <= dim)%nat -> (forall x, length (junk x) = type_size size ft) ->
  forall h st ys, (forall t N x, In (Call t N x) h -> ((t = true \/ track = false) -> forall r, In r ft -> (1 < size r * N)%nat) /\ g_type x = ft /\ batch size ft N (g_chans x)) ->
  run (icall size teqb m dim junk) ibn_set ibn_reset_running_stats st0 h = Ret (st, ys) ->
  forall s, In s (map size ft) -> exists b b' b0, dget Nat.eqb st s = Some b /\ dget Nat.eqb (ibn_reset_running_stats st) s = Some b' /\ dget Nat.eqb st0 s = Some b0 /\
    bn_affine b' = bn_affine b /\ bn_stats b' = bn_stats b0.
Proof. exact @ibn_reset_initial. Qed.
Print Assumptions C49_inner_reset.

(** After any history InnerBatchNorm can be exported exactly if the fields of
    every size stand next to each other; the exported torch module, for which
    every channel is a field of its own, then maps every input to what the
    module returns in evaluation mode. *)
Theorem C49_inner_export : forall A size supported teqb (ft : list A) dim affine eps mom m st0 junk, Forall (fun r => (0 < size r)%nat) ft -> teqb ft ft = true ->
  mk_ibn size supported dim affine true eps mom ft = Ret (m, st0) -> (1 <= dim)%nat -> (forall x, length (junk x) = type_size size ft) ->
  forall h st ys, (forall t N x, In (Call t N x) h -> (t = true -> forall r, In r ft -> (1 < size r * N)%nat) /\ g_type x = ft /\ batch size ft N (g_chans x)) ->
  run (icall size teqb m dim junk) ibn_set ibn_reset_running_stats st0 h = Ret (st, ys) ->
  ((exists t, ibn_export size m affine true st = Ret t) <-> (forall s, In s (map size ft) -> exists a n, labelled Nat.eqb (map size ft) s = seq a n)) /\
  forall t, ibn_export size m affine true st = Ret t -> forall N x, g_type x = ft -> batch size ft N (g_chans x) ->
    exists st' y, ibn_forward size teqb m false dim st (junk x) x = Ret (st', y) /\ g_type y = ft /\
      bn_call eps mom (type_size size ft) false t (map (fun c => [c]) (g_chans x)) = Ret (t, map (fun c => [c]) (g_chans y)).
Proof. exact @ibn_export_same. Qed.
Print Assumptions C49_inner_export.

Example C49_export_ex : exists m st0 t,
  mk_ibn (fun r => r) (fun _ => [NL_pointwise]) 2 true true (1 / 100000) None [2; 2; 1]%nat = Ret (m, st0) /\
  ibn_export (fun r => r) m true true [(2%nat, {| bn_affine := Some ([3; 4], [5; 6]); bn_stats := Some ([7; 8], [9; 10], 1%nat) |});
                                       (1%nat, {| bn_affine := Some ([11], [12]); bn_stats := Some ([13], [14], 1%nat) |})] = Ret t /\
  bn_affine t = Some ([3; 3; 4; 4; 11], [5; 5; 6; 6; 12]) /\ bn_stats t = Some ([7; 7; 8; 8; 13], [9; 9; 10; 10; 14], 1%nat).
Proof. exact export_example. Qed.
