(** Model of the maps of escnn/nn/modules/invariantmaps (gpool.py, norm.py,
    induced_norm.py) and of the nonlinearities that act channel by channel:
    pointwise.py, concatenated.py and vectorfield.py.

    Simplifications: as in NonlinModel every batch entry and position is treated
    by itself. The representation declared as output of ConcatenatedNonLinearity
    is built by build_from_discrete_group_representation from the matrices
    modelled here; its decomposition into irreps is not modelled. *)
From Coq Require Import Reals String List ZArith Arith Bool.
From Verif Require Import LibRes LibPy LibMat ParamModel FieldModel GroupedModel NonlinModel.
Import ListNotations.
Open Scope R_scope.

(** ** GroupPooling and NormPool *)
Section Pool.
Context {A : Type}.
Variable size : A -> nat.
Variable supported : A -> list nonlin.
Variable teqb : list A -> list A -> bool.

(** gpool.py:67-80, norm.py:54-67 for one entry of the dictionary *)
Definition pool_entry {L} (e : L * (bool * list nat * list nat)) : res (L * channels * channels) :=
  let '(l, (c, fields, idxs)) := e in
  if (c : bool) then
    a <- list_min idxs ;; b <- list_max idxs ;; a' <- list_min fields ;; b' <- list_max fields ;;
    Ret (l, Run a (b + 1), Run a' (b' + 1))
  else Ret (l, Listed idxs, Listed fields).
Record pool_module := { pl_type : list A; pl_in : list (nat * channels); pl_out : list (nat * channels); pl_order : list nat }.
(** gpool.py:22-80 ([need] = pointwise must be supported) and norm.py:20-67 *)
Definition mk_pool (need : bool) (ft : list A) : res pool_module :=
  assert (negb need || forallb (supports supported NL_pointwise) ft) ;;
  d <- indexes_from_labels size Nat.eqb ft (map size ft) ;;
  b <- mapM pool_entry d ;;
  Ret {| pl_type := ft; pl_in := map (fun e => (fst (fst e), snd (fst e))) b; pl_out := map (fun e => (fst (fst e), snd e)) b; pl_order := map fst d |}.
(** torch.max over a field *)
Definition tmax (v : list R) : res R := match v with [] => Raise | a :: v' => Ret (fold_left Rmax v' a) end.
Definition pool_group (f : list R -> res R) (s next : nat) (fm : list R) : res (list R) :=
  fields <- view s fm ;; mapM f fields.
(** gpool.py:82-125, norm.py:69-110: the output has one trivial field per input
    field, its type is given by the number of fields *)
Definition pool_forward (f : list R -> res R) (m : pool_module) (junk : list R) (x : gtensor A R) : res (list R) :=
  assert (teqb (g_type x) (pl_type m)) ;;
  grouped_loop Nat.eqb (nfields Nat.eqb (map size (pl_type m))) (pl_in m) (pl_out m) (pool_group f) (g_chans x) (pl_order m) 0 junk.
Definition group_pooling := pool_forward tmax.
Definition norm_pool := pool_forward (fun v => Ret (vnorm v)).

(** ** InducedNormPool induced_norm.py *)
Record ipool_module := { ip_type : list A; ip_ids : list (nat * nat); ip_in : list ((nat * nat) * channels); ip_out : list ((nat * nat) * channels); ip_order : list (nat * nat) }.
(** 20-100 *)
Definition mk_ipool (ft : list A) : res ipool_module :=
  ids <- mapM (subfield size supported) ft ;;
  inb <- buffers size pair_eqb ft ids ;;
  outb <- buffers (fun _ => 1%nat) pair_eqb ft ids ;;
  Ret {| ip_type := ft; ip_ids := ids; ip_in := inb; ip_out := outb; ip_order := map fst (contiguous_labels pair_eqb [] None ids) |}.
(** 137: norms of the sub-fields, then their maximum *)
Definition ipool_group (id : nat * nat) (next : nat) (fm : list R) : res (list R) :=
  fields <- view (fst id / snd id * snd id) fm ;;
  mapM (fun v => subs <- view (snd id) v ;; tmax (map vnorm subs)) fields.
Definition ipool_forward (m : ipool_module) (junk : list R) (x : gtensor A R) : res (list R) :=
  assert (teqb (g_type x) (ip_type m)) ;;
  grouped_loop pair_eqb (nfields pair_eqb (ip_ids m)) (ip_in m) (ip_out m) ipool_group (g_chans x) (ip_order m) 0 junk.

(** ** PointwiseNonLinearity pointwise.py *)
(** F.elu with alpha = 1 *)
Definition elu (t : R) : R := if Rleb t 0 then exp t - 1 else t.
Definition tanh (t : R) : R := (exp t - exp (- t)) / (exp t + exp (- t)).
Definition pointwise_function (name : string) : res (R -> R) :=
  if String.eqb name "p_relu" then Ret relu
  else if String.eqb name "p_elu" then Ret elu
  else if String.eqb name "p_sigmoid" then Ret sigmoid
  else if String.eqb name "p_tanh" then Ret tanh
  else Raise.
(** 20-61 and 63-80 *)
Definition mk_pointwise (ft : list A) (name : string) : res (list A * (R -> R)) :=
  assert (forallb (supports supported NL_pointwise) ft) ;;
  f <- pointwise_function name ;; Ret (ft, f).
Definition pointwise_forward (m : list A * (R -> R)) (x : gtensor A R) : res (gtensor A R) :=
  assert (teqb (g_type x) (fst m)) ;;
  mk_gtensor size (fst m) (map (snd m) (g_chans x)).

(** ** ConcatenatedNonLinearity concatenated.py *)
(** math.isclose(a, b, abs_tol=1e-9) *)
Definition math_isclose (a b : R) : bool := Rleb (Rabs (a - b)) (Rmax (/ 10 ^ 9 * Rmax (Rabs a) (Rabs b)) (/ 10 ^ 9)).
(** 192-203: the column of the non-zero entry of each row, -1 when there is none *)
Fixpoint row_scan (r : mat) (i : nat) (cols : list nat) (e : Z) : res Z :=
  match cols with
  | [] => Ret e
  | j :: cols' =>
      if math_isclose (r i j) 0 then row_scan r i cols' e
      else if (e <? 0)%Z then row_scan r i cols' (Z.of_nat j) else Raise
  end.
(** the 2x2 block of an entry 212-227 *)
Definition entry_block (v : R) : res mat :=
  if math_isclose v 1 then Ret mid
  else if math_isclose v (-1) then Ret (fun a b => mid (1 - a)%nat b)
  else if negb (math_isclose v 0) then Raise else Ret mzero.
(** 186-227: the matrix of an element *)
Definition concat_matrix (s : nat) (r : mat) : res mat :=
  e <- mapM (fun i => row_scan r i (seq 0 s) (-1)) (seq 0 s) ;;
  assert (Nat.eqb (List.length (nodup Z.eq_dec e)) (List.length e)) ;;
  blocks <- mapM (fun i => mapM (fun j => entry_block (r i j)) (seq 0 s)) (seq 0 s) ;;
  Ret (fun a b => nth (b / 2) (nth (a / 2) blocks []) mzero (a mod 2) (b mod 2)).
Definition concat_function (name : string) : res (R -> R) :=
  if String.eqb name "c_relu" then Ret relu
  else if String.eqb name "c_sigmoid" then Ret sigmoid
  else if String.eqb name "c_tanh" then Ret tanh
  else Raise.
(** 22-63; the output type has the same representations, doubled *)
Definition mk_concat (ft : list A) (name : string) : res (list A * (R -> R)) :=
  assert (forallb (supports supported NL_concatenated) ft) ;;
  f <- concat_function name ;; Ret (ft, f).
(** forward 65-83 *)
Definition concat_forward (m : list A * (R -> R)) (junk : list R) (x : gtensor A R) : res (gtensor A R) :=
  assert (teqb (g_type x) (fst m)) ;;
  let c := List.length (g_chans x) in
  p <- slice_positions (2 * c) None None (Some 2%Z) ;;
  out <- set_all junk p (map (snd m) (g_chans x)) ;;
  q <- slice_positions (2 * c) (Some 1%Z) None (Some 2%Z) ;;
  out <- set_all out q (map (fun v => snd m (-1 * v)) (g_chans x)) ;;
  mk_gtensor (fun r => (2 * size r)%nat) (fst m) out.
End Pool.

(** ** VectorFieldNonLinearity vectorfield.py, for C_N *)
(** torch.max with its index; torch may return any of the positions of the
    maximum: [pick] stands for that choice *)
Fixpoint positions_of_max (m : R) (k : nat) (v : list R) : list nat :=
  match v with [] => [] | a :: v' => if Req_EM_T a m then k :: positions_of_max m (S k) v' else positions_of_max m (S k) v' end.
Definition max_and_arg (pick : list nat -> nat) (v : list R) : res (R * nat) :=
  m <- tmax v ;; Ret (m, nth (pick (positions_of_max m 0 v)) (positions_of_max m 0 v) 0%nat).
(** `t[:, a::2] = v` *)
Definition write_step (out : list R) (a : Z) (v : list R) : res (list R) :=
  p <- slice_positions (List.length out) (Some a) None (Some 2%Z) ;;
  set_all out p (match v with [w] => repeat w (List.length p) | _ => v end).
(** the size of irrep_1 of C_N *)
Definition irrep1_size (N : nat) : nat := if Nat.eqb N 2 then 1 else 2.
(** 20-54: all the fields are regular; [n] of them *)
Definition mk_vectorfield (N n : nat) : res (nat * nat) := assert (Nat.ltb 1 N) ;; Ret (N, n).
(** 56-96 *)
Definition vectorfield_forward (pick : list nat -> nat) (m : nat * nat) (junk x : list R) : res (list R) :=
  let '(N, n) := m in
  assert (Nat.eqb (List.length x) (n * N)) ;;
  fm <- view N x ;;
  ma <- mapM (max_and_arg pick) fm ;;
  let base := 2 * PI / INR N in
  let c := map (fun p => cos (INR (snd p) * base) * relu (fst p)) ma in
  let s := map (fun p => sin (INR (snd p) * base) * relu (fst p)) ma in
  out <- write_step junk 0 c ;;
  out <- write_step out 1 s ;;
  assert (Nat.eqb (List.length out) (n * irrep1_size N)) ;; Ret out.
