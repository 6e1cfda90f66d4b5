(** Model of escnn/nn/modules/batchnormalization/norm.py (NormBatchNorm) and
    inner.py (InnerBatchNorm).

    Simplifications. A tensor is the list of its channels and a channel is the
    list of its [N] values, over the batch entries and the positions. Floats are
    real numbers; what torch computes by dividing by zero (an empty batch, or a
    variance of -eps) is not modelled. torch's BatchNorm modules are modelled by
    their documentation; the number of their dimensions is checked as
    _check_input_dim does. *)
From Coq Require Import Reals List ZArith Arith Bool.
From Verif Require Import LibRes LibPy FieldModel GroupedModel NonlinModel PoolModel ImageModel.
Import ListNotations.
Open Scope R_scope.

Notation chan := (list R).
Definition mean (l : list R) : R := rsum l / INR (length l).
Definition square (a : R) : R := a * a.

(** ** Histories: what a training script does with a module *)
(** a call in one of the modes on a tensor with [N] points, an optimiser step, or
    a call to reset_running_stats *)
Inductive event (W X : Type) :=
| Call (training : bool) (N : nat) (x : X)
| SetWeights (w : W)
| ResetStats.
Arguments Call {W X}.
Arguments SetWeights {W X}.
Arguments ResetStats {W X}.
(** The state after the events and the output of every event. *)
Fixpoint run {St W X} (fwd : bool -> nat -> St -> X -> res (St * X)) (setw : W -> St -> res St) (reset : St -> St) (st : St) (h : list (event W X)) :
  res (St * list (option X)) :=
  match h with
  | [] => Ret (st, [])
  | e :: h' =>
      r <- match e with
           | Call t N x => p <- fwd t N st x ;; Ret (fst p, Some (snd p))
           | SetWeights w => st' <- setw w st ;; Ret (st', None)
           | ResetStats => Ret (reset st, None)
           end ;;
      q <- run fwd setw reset (fst r) h' ;;
      Ret (fst q, snd r :: snd q)
  end.

(** ** NormBatchNorm norm.py *)
Section NormBN.
Context {A : Type}.
Variable size : A -> nat.
Variable supported : A -> list nonlin.
Variable has_trivial : A -> bool.   (* some irrep of the representation is trivial *)
Variable teqb : list A -> list A -> bool.

Record nbn_module := { nb_type : list A; nb_buffers : list (nat * channels); nb_order : list nat; nb_eps : R; nb_momentum : option R }.
(** the buffers {s}_running_var, the parameters {s}_weight (None if not affine) and num_batches_tracked *)
Record nbn_state := { nb_vars : list (nat * list R); nb_weights : option (list (nat * list R)); nb_count : nat }.
(** 111-116: ones for every field of the size *)
Definition ones (ft : list A) (order : list nat) : list (nat * list R) :=
  map (fun s => (s, repeat 1 (nfields Nat.eqb (map size ft) s))) order.
(** 20-132; _order lists the keys in the order of their first fields *)
Definition mk_nbn (affine : bool) (eps : R) (momentum : option R) (ft : list A) : res (nbn_module * nbn_state) :=
  assert (forallb (fun r => supports supported NL_norm r && negb (has_trivial r)) ft) ;;
  b <- buffers size Nat.eqb ft (map size ft) ;;
  let order := map fst b in
  Ret ({| nb_type := ft; nb_buffers := b; nb_order := order; nb_eps := eps; nb_momentum := momentum |},
       {| nb_vars := ones ft order; nb_weights := if affine then Some (ones ft order) else None; nb_count := 0 |}).
(** 134-138 *)
Definition nbn_reset_running_stats (st : nbn_state) : nbn_state :=
  {| nb_vars := map (fun e => (fst e, map (fun _ => 1) (snd e))) (nb_vars st); nb_weights := nb_weights st; nb_count := 0 |}.
(** 140-144: [uniform] fills a list with random numbers; without weights getattr raises *)
Definition nbn_reset_parameters (uniform : list R -> list R) (st : nbn_state) : res nbn_state :=
  let st' := nbn_reset_running_stats st in
  match nb_weights st' with
  | Some w => Ret {| nb_vars := nb_vars st'; nb_weights := Some (map (fun e => (fst e, uniform (snd e))) w); nb_count := nb_count st' |}
  | None => match nb_vars st with [] => Ret st' | _ => Raise end
  end.

(** 191-202: the squared norms of a field at the [N] points *)
Definition field_norms (N : nat) (v : list chan) : list R :=
  map (fun p => rsum (map (fun c => square (nth p c 0)) v)) (seq 0 N).
(** 204-207 *)
Definition correction (N : nat) : R := if Nat.ltb 1 N then INR N / INR (N - 1) else 1.
Definition field_var (N s : nat) (v : list chan) : R := mean (field_norms N v) / INR s * correction N.
(** 184-207 for the fields of size [s] *)
Definition group_vars (m : nbn_module) (N : nat) (x : list chan) (s : nat) : res (list R) :=
  c <- lookup Nat.eqb (nb_buffers m) s ;;
  fm <- read x c ;;
  fields <- view s fm ;;
  Ret (map (field_var N s) fields).
(** 211-212 *)
Definition blend (f : R) (old new : list R) : list R := map (fun p => fst p * (1 - f) + f * snd p) (List.combine old new).
(** 159-166 *)
Definition average_factor (momentum : option R) (count : nat) : R :=
  match momentum with None => 1 / INR count | Some m => m end.
(** 174-216: the sizes are treated independently of each other *)
Definition update_vars (m : nbn_module) (f : R) (N : nat) (x : list chan) (vars : list (nat * list R)) : res (list (nat * list R)) :=
  mapM (fun s => old <- lookup Nat.eqb vars s ;; new <- group_vars m N x s ;;
    assert (Nat.eqb (length old) (length new)) ;; Ret (s, blend f old new)) (nb_order m).
(** 227-243: the multipliers of the fields of size [s] *)
Definition multipliers (m : nbn_module) (st : nbn_state) (s : nat) : res (list R) :=
  vars <- lookup Nat.eqb (nb_vars st) s ;;
  match nb_weights st with
  | Some w => ws <- lookup Nat.eqb w s ;; assert (Nat.eqb (length ws) (length vars)) ;;
              Ret (map (fun p => fst p / sqrt (snd p + nb_eps m)) (List.combine ws vars))
  | None => Ret (map (fun v => 1 / sqrt (v + nb_eps m)) vars)
  end.
(** 245-252: every channel times the multiplier of its field. [output] is a clone
    of the input, so that `*=` reads the input *)
Definition scale_group (m : nbn_module) (st : nbn_state) (s : nat) (fm : list chan) : res (list chan) :=
  k <- multipliers m st s ;;
  fields <- view s fm ;;
  assert (Nat.eqb (length k) (length fields)) ;;
  Ret (concat (map (fun p => map (map (fun a => a * fst p)) (snd p)) (List.combine k fields))).
(** 146-255; [training] is the mode of the module *)
Definition nbn_forward (m : nbn_module) (training : bool) (N : nat) (st : nbn_state) (x : gtensor A chan) : res (nbn_state * gtensor A chan) :=
  assert (teqb (g_type x) (nb_type m)) ;;
  st' <- (if training then
            assert (Nat.ltb 0 N) ;;
            vars <- update_vars m (average_factor (nb_momentum m) (S (nb_count st))) N (g_chans x) (nb_vars st) ;;
            Ret {| nb_vars := vars; nb_weights := nb_weights st; nb_count := S (nb_count st) |}
          else Ret st) ;;
  out <- grouped_loop Nat.eqb (nfields Nat.eqb (map size (nb_type m))) (nb_buffers m) (nb_buffers m) (fun s _ => scale_group m st' s)
           (g_chans x) (nb_order m) 0 (g_chans x) ;;
  y <- mk_gtensor size (nb_type m) out ;;
  Ret (st', y).
(** an optimiser step replaces the weights by others of the same shape *)
Definition same_shape (w w' : list (nat * list R)) : bool :=
  Nat.eqb (length w) (length w') && forallb (fun p => Nat.eqb (fst (fst p)) (fst (snd p)) && Nat.eqb (length (snd (fst p))) (length (snd (snd p)))) (List.combine w w').
Definition nbn_set (w : list (nat * list R)) (st : nbn_state) : res nbn_state :=
  match nb_weights st with
  | Some w0 => assert (same_shape w0 w) ;; Ret {| nb_vars := nb_vars st; nb_weights := Some w; nb_count := nb_count st |}
  | None => Raise
  end.
End NormBN.

(** ** InnerBatchNorm inner.py *)
(** torch.nn.modules.batchnorm._BatchNorm: weight and bias (None if not affine),
    running mean, running variance and number of batches (None if not tracked) *)
Record bn := { bn_affine : option (list R * list R); bn_stats : option (list R * list R * nat) }.
Definition new_bn (affine track : bool) (n : nat) : bn :=
  {| bn_affine := if affine then Some (repeat 1 n, repeat 0 n) else None;
     bn_stats := if track then Some (repeat 0 n, repeat 1 n, 0%nat) else None |}.
(** the variance dividing by the number of values, and by one less *)
Definition deviation (l : list R) : R := rsum (map (fun a => square (a - mean l)) l).
Definition biased_var (l : list R) : R := deviation l / INR (length l).
Definition unbiased_var (l : list R) : R := deviation l / INR (length l - 1).
(** [normalise eps m v w b] is what happens to every value of a channel *)
Definition normalise (eps m v w b a : R) : R := (a - m) / sqrt (v + eps) * w + b.
Definition affine_of (t : bn) (j : nat) : R * R :=
  match bn_affine t with Some (w, b) => (nth j w 0, nth j b 0) | None => (1, 0) end.
Fixpoint mapi {X Y} (f : nat -> X -> Y) (k : nat) (l : list X) : list Y :=
  match l with [] => [] | x :: l' => f k x :: mapi f (S k) l' end.
(** The module called on a tensor whose channels are fields, each given by its
    own list of channels. In training mode, or without running statistics, the
    statistics of the batch are used and need two values. *)
Definition bn_call (eps : R) (momentum : option R) (n : nat) (training : bool) (t : bn) (fields : list (list chan)) : res (bn * list (list chan)) :=
  assert (Nat.eqb (length fields) n) ;;
  match training, bn_stats t with
  | false, Some (ms, vs, _) =>
      Ret (t, mapi (fun j v => let '(w, b) := affine_of t j in map (map (normalise eps (nth j ms 0) (nth j vs 0) w b)) v) 0 fields)
  | _, _ =>
      assert (forallb (fun v => Nat.ltb 1 (length (concat v))) fields) ;;
      let out := mapi (fun j v => let '(w, b) := affine_of t j in
        map (map (normalise eps (mean (concat v)) (biased_var (concat v)) w b)) v) 0 fields in
      match bn_stats t with
      | Some (ms, vs, k) =>
          let f := average_factor momentum (S k) in
          Ret ({| bn_affine := bn_affine t; bn_stats := Some (blend f ms (map (fun v => mean (concat v)) fields),
                                                           blend f vs (map (fun v => unbiased_var (concat v)) fields), S k) |}, out)
      | None => Ret (t, out)
      end
  end.

Section InnerBN.
Context {A : Type}.
Variable size : A -> nat.
Variable supported : A -> list nonlin.
Variable teqb : list A -> list A -> bool.

Record ibn_module := { ib_type : list A; ib_dim : nat; ib_buffers : list (nat * channels); ib_order : list nat; ib_eps : R; ib_momentum : option R }.
(** the submodules batch_norm_[s] *)
Definition ibn_state := list (nat * bn).
(** 99-106: BatchNorm2d, BatchNorm3d and BatchNorm4d want inputs of 4, 5 and 6 dimensions *)
Definition bn_dims (dim : nat) : res nat := match dim with 0 | 1 => Ret 4%nat | 2 => Ret 5%nat | 3 => Ret 6%nat | _ => Raise end.
(** 57-116; [dim] is the dimensionality of the space *)
Definition mk_ibn (dim : nat) (affine track : bool) (eps : R) (momentum : option R) (ft : list A) : res (ibn_module * ibn_state) :=
  assert (forallb (supports supported NL_pointwise) ft) ;;
  d <- indexes_from_labels size Nat.eqb ft (map size ft) ;;
  b <- mapM pool_entry d ;;
  dims <- bn_dims dim ;;
  Ret ({| ib_type := ft; ib_dim := dim; ib_buffers := map (fun e => (fst (fst e), snd (fst e))) b; ib_order := map fst d; ib_eps := eps; ib_momentum := momentum |},
       map (fun s => (s, new_bn affine track (nfields Nat.eqb (map size ft) s))) (map fst d)).
(** one size of the loop 141-167: the submodule called on the view with
    [spatial] + 3 dimensions *)
Definition inner_group (m : ibn_module) (training : bool) (spatial : nat) (st : ibn_state) (s : nat) (fm : list chan) : res (bn * list chan) :=
  t <- lookup Nat.eqb st s ;;
  fields <- view s fm ;;
  dims <- bn_dims (ib_dim m) ;;
  assert (Nat.eqb (spatial + 3) dims) ;;
  r <- bn_call (ib_eps m) (ib_momentum m) (nfields Nat.eqb (map size (ib_type m)) s) training t fields ;;
  Ret (fst r, concat (snd r)).
(** 126-170; [spatial] is the number of spatial axes of the tensor. The loop is run
    for the output and for the state of the submodules, which do not interact *)
Definition ibn_forward (m : ibn_module) (training : bool) (spatial : nat) (st : ibn_state) (junk : list chan) (x : gtensor A chan) : res (ibn_state * gtensor A chan) :=
  assert (teqb (g_type x) (ib_type m)) ;;
  out <- grouped_loop Nat.eqb (nfields Nat.eqb (map size (ib_type m))) (ib_buffers m) (ib_buffers m)
           (fun s _ fm => r <- inner_group m training spatial st s fm ;; Ret (snd r)) (g_chans x) (ib_order m) 0 junk ;;
  st' <- mapM (fun s => c <- lookup Nat.eqb (ib_buffers m) s ;; fm <- read (g_chans x) c ;; r <- inner_group m training spatial st s fm ;; Ret (s, fst r)) (ib_order m) ;;
  y <- mk_gtensor size (ib_type m) out ;;
  Ret (st', y).

(** 117-120 *)
Definition ibn_reset_running_stats (st : ibn_state) : ibn_state :=
  map (fun e => (fst e, {| bn_affine := bn_affine (snd e);
    bn_stats := match bn_stats (snd e) with Some (ms, vs, _) => Some (map (fun _ => 0) ms, map (fun _ => 1) vs, 0%nat) | None => None end |})) st.
(** an optimiser step replaces the weights and biases of one submodule *)
Definition ibn_set (u : nat * (list R * list R)) (st : ibn_state) : res ibn_state :=
  t <- lookup Nat.eqb st (fst u) ;;
  match bn_affine t with
  | Some (w, b) => assert (Nat.eqb (length w) (length (fst (snd u)))) ;; assert (Nat.eqb (length b) (length (snd (snd u)))) ;;
                   Ret (dset Nat.eqb st (fst u) {| bn_affine := Some (snd u); bn_stats := bn_stats t |})
  | None => Raise
  end.

(** *** export 183-245 *)
(** `l[start:end] = v` *)
Definition assign (l : list R) (a e : nat) (v : list R) : res (list R) :=
  assert (Nat.leb e (length l)) ;; assert (Nat.eqb (e - a) (length v)) ;; Ret (firstn a l ++ v ++ skipn e l).
(** `.view(n, 1).expand(n, s).reshape(-1)` *)
Definition spread (s : nat) (l : list R) : list R := flat_map (fun a => repeat a s) l.
(** the loop 217-241 on the exported module; non-contiguous fields raise, and the
    numbers of batches of the submodules must agree *)
Fixpoint export_loop (m : ibn_module) (st : ibn_state) (order : list nat) (tracked : option nat) (t : bn) : res bn :=
  match order with
  | [] => Ret t
  | s :: order' =>
      c <- lookup Nat.eqb (ib_buffers m) s ;;
      b <- lookup Nat.eqb st s ;;
      match c, bn_stats b, bn_stats t with
      | Run a e, Some (ms, vs, k), Some (ms', vs', _) =>
          vs'' <- assign vs' a e (spread s vs) ;;
          ms'' <- assign ms' a e (spread s ms) ;;
          u <- match tracked with None => Ret tt | Some k' => assert (Nat.eqb k' k) ;; Ret tt end ;;
          aff <- match bn_affine b, bn_affine t with
                 | Some (w, bi), Some (w', bi') => w'' <- assign w' a e (spread s w) ;; bi'' <- assign bi' a e (spread s bi) ;; Ret (Some (w'', bi''))
                 | _, _ => Ret (bn_affine t)
                 end ;;
          export_loop m st order' (match tracked with None => Some k | Some k' => Some k' end) {| bn_affine := aff; bn_stats := Some (ms'', vs'', k) |}
      | _, _, _ => Raise
      end
  end.
Definition ibn_export (m : ibn_module) (affine track : bool) (st : ibn_state) : res bn :=
  assert track ;;
  dims <- bn_dims (ib_dim m) ;;
  export_loop m st (ib_order m) None (new_bn affine track (type_size size (ib_type m))).
End InnerBN.
