(** Model of InducedNormBatchNorm,
    escnn/nn/modules/batchnormalization/induced_norm.py.

    Simplifications. As in BatchNormModel a tensor is the list of its channels and
    a channel is the list of its [N] values, over the batch entries and the
    positions. Floats are real numbers. Training on an empty batch, where torch
    averages nothing, raises. *)
From Coq Require Import Reals List ZArith Arith Bool.
From Verif Require Import LibRes LibPy FieldModel GroupedModel NonlinModel PoolModel ImageModel BatchNormModel.
Import ListNotations.
Open Scope R_scope.

Section IndBN.
Context {A : Type}.
Variable size : A -> nat.
Variable supported : A -> list nonlin.
Variable has_trivial : A -> bool.   (* some irrep of the representation is trivial *)
Variable teqb : list A -> list A -> bool.

Record inb_module := { iv_type : list A; iv_ids : list (nat * nat); iv_buffers : list ((nat * nat) * channels); iv_order : list (nat * nat);
                       iv_eps : R; iv_momentum : option R }.
(** the buffers {id}_running_var, the parameters {id}_weight (None if not affine) and num_batches_tracked *)
Record inb_state := { iv_vars : list ((nat * nat) * list R); iv_weights : option (list ((nat * nat) * list R)); iv_count : nat }.
(** 129 and 133: ones for every field *)
Definition id_ones (ids order : list (nat * nat)) : list ((nat * nat) * list R) := map (fun s => (s, repeat 1 (nfields pair_eqb ids s))) order.
(** 19-145; the loop 100-106 is the one of InducedNormNonLinearity ([subfield]) *)
Definition mk_inb (affine : bool) (eps : R) (momentum : option R) (ft : list A) : res (inb_module * inb_state) :=
  assert (forallb (fun r => existsb (fun n => match n with NL_induced_norm _ => true | _ => false end) (supported r) && negb (has_trivial r)) ft) ;;
  ids <- mapM (subfield size supported) ft ;;
  b <- buffers size pair_eqb ft ids ;;
  let order := map fst b in
  Ret ({| iv_type := ft; iv_ids := ids; iv_buffers := b; iv_order := order; iv_eps := eps; iv_momentum := momentum |},
       {| iv_vars := id_ones ids order; iv_weights := if affine then Some (id_ones ids order) else None; iv_count := 0 |}).
(** 147-151 *)
Definition inb_reset_running_stats (st : inb_state) : inb_state :=
  {| iv_vars := map (fun e => (fst e, map (fun _ => 1) (snd e))) (iv_vars st); iv_weights := iv_weights st; iv_count := 0 |}.
(** 153-157: without weights getattr raises *)
Definition inb_reset_parameters (st : inb_state) : res inb_state :=
  let st' := inb_reset_running_stats st in
  match iv_weights st' with
  | Some w => Ret {| iv_vars := iv_vars st'; iv_weights := Some (map (fun e => (fst e, map (fun _ => 1) (snd e))) w); iv_count := iv_count st' |}
  | None => match iv_vars st with [] => Ret st' | _ => Raise end
  end.

(** 184 and 205-220: the squared norms of the sub-fields of a field at the [N] points, for
    `.view(b, -1, n_subfields, subfield_size, ...)` *)
Definition sub_norms (N s : nat) (v : list chan) : res (list R) :=
  subs <- view s v ;;
  Ret (concat (map (field_norms N) subs)).
(** 222-227 *)
Definition sub_var (N : nat) (id : nat * nat) (v : list chan) : res R :=
  n <- sub_norms N (snd id) v ;;
  Ret (mean n / INR (snd id) * correction (length n)).
(** 198-227 for the fields of one id *)
Definition id_vars (m : inb_module) (N : nat) (x : list chan) (id : nat * nat) : res (list R) :=
  c <- lookup pair_eqb (iv_buffers m) id ;;
  fm <- read x c ;;
  fields <- view (fst id) fm ;;
  mapM (sub_var N id) fields.
(** 192-234: the ids are treated independently of each other *)
Definition inb_update (m : inb_module) (f : R) (N : nat) (x : list chan) (vars : list ((nat * nat) * list R)) : res (list ((nat * nat) * list R)) :=
  mapM (fun s => old <- lookup pair_eqb vars s ;; new <- id_vars m N x s ;;
    assert (Nat.eqb (length old) (length new)) ;; Ret (s, blend f old new)) (iv_order m).
(** 247-255: the multipliers of the fields of one id *)
Definition inb_multipliers (m : inb_module) (st : inb_state) (s : nat * nat) : res (list R) :=
  vars <- lookup pair_eqb (iv_vars st) s ;;
  match iv_weights st with
  | Some w => ws <- lookup pair_eqb w s ;; assert (Nat.eqb (length ws) (length vars)) ;;
              Ret (map (fun p => fst p / sqrt (snd p + iv_eps m)) (List.combine ws vars))
  | None => Ret (map (fun v => 1 / sqrt (v + iv_eps m)) vars)
  end.
(** 257-265: the multiplier of a field for all channels of all its sub-fields;
    [output] is a clone of the input, so that `*=` reads the input *)
Definition inb_scale (m : inb_module) (st : inb_state) (s : nat * nat) (fm : list chan) : res (list chan) :=
  k <- inb_multipliers m st s ;;
  let ks := flat_map (fun a => repeat a (fst s / snd s * snd s)) k in
  assert (Nat.eqb (length ks) (length fm)) ;;
  Ret (map (fun p => map (fun a => a * fst p) (snd p)) (List.combine ks fm)).
(** forward 159-271; [training] is the mode of the module *)
Definition inb_forward (m : inb_module) (training : bool) (N : nat) (st : inb_state) (x : gtensor A chan) : res (inb_state * gtensor A chan) :=
  assert (teqb (g_type x) (iv_type m)) ;;
  st' <- (if training then
            assert (Nat.ltb 0 N) ;;
            vars <- inb_update m (average_factor (iv_momentum m) (S (iv_count st))) N (g_chans x) (iv_vars st) ;;
            Ret {| iv_vars := vars; iv_weights := iv_weights st; iv_count := S (iv_count st) |}
          else Ret st) ;;
  out <- grouped_loop pair_eqb (nfields pair_eqb (iv_ids m)) (iv_buffers m) (iv_buffers m) (fun s _ => inb_scale m st' s)
           (g_chans x) (iv_order m) 0 (g_chans x) ;;
  y <- mk_gtensor size (iv_type m) out ;;
  Ret (st', y).
(** an optimiser step replaces the weights by others of the same shape *)
Definition same_shapes (w w' : list ((nat * nat) * list R)) : bool :=
  Nat.eqb (length w) (length w') && forallb (fun p => pair_eqb (fst (fst p)) (fst (snd p)) && Nat.eqb (length (snd (fst p))) (length (snd (snd p)))) (List.combine w w').
Definition inb_set (w : list ((nat * nat) * list R)) (st : inb_state) : res inb_state :=
  match iv_weights st with
  | Some w0 => assert (same_shapes w0 w) ;; Ret {| iv_vars := iv_vars st; iv_weights := Some w; iv_count := iv_count st |}
  | None => Raise
  end.
End IndBN.
