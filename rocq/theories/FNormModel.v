(** Model of the normalisations of generic representations:
    escnn/nn/modules/batchnormalization/iid.py (_IIDBatchNorm),
    escnn/nn/modules/batchnormalization/gnorm.py (GNormBatchNorm) and
    escnn/nn/modules/normalization/fieldnorm.py (FieldNorm).

    Simplifications. As in BatchNormModel a tensor is the list of its channels
    and a channel is the list of its [N] values, over the batch entries and the
    positions. Floats are real numbers; what torch computes by dividing by zero (a
    batch with a single value, or a variance of -eps) is not modelled. A
    representation is an element of a type [A] of which its name, its size, the
    sizes of its irreps and which of them are trivial, and its change of basis
    with the inverse are known. The names that _escape_name changes are not
    modelled. The set _unique_representations is visited in an order that is a
    parameter. Tensors of shapes that do not fit raise, also where torch would
    broadcast. *)
From Coq Require Import Reals List ZArith Arith Bool.
From Verif Require Import LibRes LibPy LibMat RepModel FieldModel GroupedModel NonlinModel PoolModel ImageModel BatchNormModel.
Import ListNotations.
Open Scope R_scope.

(** ** The loops over the names *)
(** The loop of the forward passes (iid.py:246-304, gnorm.py:233-304,
    fieldnorm.py:220-272): every group has its own buffers and parameters, of type
    [S], which it may change *)
Fixpoint keyed_loop {L S V} (leqb : L -> L -> bool) (bufs : list (L * channels))
  (proc : L -> S -> list (list V) -> res (S * list (list V))) (x : list V) (sizes : list (L * nat)) (st : list (L * S)) (out : list V) :
  res (list (L * S) * list V) :=
  match sizes with
  | [] => Ret (st, out)
  | (s, n) :: sizes' =>
      c <- lookup leqb bufs s ;;
      fm <- read x c ;;
      fields <- view n fm ;;
      g <- lookup leqb st s ;;
      r <- proc s g fields ;;
      out' <- write out c (concat (snd r)) ;;
      keyed_loop leqb bufs proc x sizes' (dset leqb st s (fst r)) out'
  end.
(** torch.einsum('ij,cj->ci') and the like: a matrix with [c] columns and [r] rows times a vector *)
Definition lin (r c : nat) (M : mat) (v : list R) : list R := map (fun i => rsum (map (fun j => M i j * nth j v 0) (seq 0 c))) (seq 0 r).
(** `t + v.view(...)` for a number for every channel of a field, and `t * a` *)
Definition shift (v : list R) (t : list chan) : list chan := map (fun p => map (fun a => a + fst p) (snd p)) (List.combine v t).
Definition unshift (v : list R) (t : list chan) : list chan := map (fun p => map (fun a => a - fst p) (snd p)) (List.combine v t).
Definition scale (k : R) (t : list chan) : list chan := map (map (fun a => a * k)) t.
(** einsum('ij,bcj...->bci...') *)
Definition mix (n N : nat) (M : mat) (t : list chan) : list chan :=
  map (fun i => map (fun p => rsum (map (fun j => M i j * nth p (nth j t []) 0) (seq 0 n))) (seq 0 N)) (seq 0 n).

(** the positions of the trivial irreps, iid.py:107-121 (and gnorm.py:134-173,
    fieldnorm.py:122-159) *)
Fixpoint trivials (p : nat) (irreps : list (nat * bool)) : list nat :=
  match irreps with
  | [] => []
  | (s, b) :: irreps' => if (b : bool) then p :: trivials (p + s) irreps' else trivials (p + s) irreps'
  end.
(** the mask S, iid.py:112, 119 *)
Definition mask (t : list nat) : mat := fun i j => if Nat.eqb i j && existsb (Nat.eqb i) t then 1 else 0.
(** `change_of_basis[:, trivials]` *)
Definition columns (t : list nat) (M : mat) : mat := fun i j => M i (nth j t 0%nat).

Section Generic.
Context {A L : Type}.
Variable size : A -> nat.
Variable name : A -> L.
Variable irreps : A -> list (nat * bool).
Variable cob inv : A -> mat.
Variable leqb : L -> L -> bool.
Variable teqb : list A -> list A -> bool.

(** ** _IIDBatchNorm iid.py *)
(** what the constructor keeps for a name: the size, whether there are trivial
    irreps, {name}_avg (P) and {name}_change_of_basis (Q) *)
Record iid_info := { ii_size : nat; ii_trivials : nat; ii_avg : mat; ii_cob : mat }.
Definition has_trivial (i : iid_info) : bool := negb (Nat.eqb (ii_trivials i) 0).
(** 107-135 *)
Definition iid_info_of (r : A) : iid_info :=
  let t := trivials 0 (irreps r) in
  {| ii_size := size r; ii_trivials := length t; ii_avg := mmul (size r) (mmul (size r) (cob r) (mask t)) (inv r); ii_cob := columns t (cob r) |}.
(** {name}_running_mean and {name}_bias (None without trivial irreps; the bias also
    if not affine), {name}_running_var and {name}_weight *)
Record iid_state := { is_mean : option (list (list R)); is_var : list R; is_weight : option (list R); is_bias : option (list (list R)) }.
(** 137-151; [n] is the number of fields of the name *)
Definition iid_start (affine : bool) (n : nat) (i : iid_info) : iid_state :=
  {| is_mean := if has_trivial i then Some (repeat (repeat 0 (ii_size i)) n) else None;
     is_var := repeat 1 n;
     is_weight := if affine then Some (repeat 1 n) else None;
     is_bias := if affine && has_trivial i then Some (repeat (repeat 0 (ii_trivials i)) n) else None |}.
Record iid_module := { im_type : list A; im_bufs : list (L * channels); im_sizes : list (L * nat); im_info : list (L * iid_info);
  im_affine : bool; im_track : bool; im_eps : R; im_momentum : option R }.
(** the buffers of all names and num_batches_tracked *)
Record iid_full := { is_groups : list (L * iid_state); is_count : nat }.
(** 28-156; [uniq] is in_type._unique_representations. A second representation of
    a name replaces the buffers and parameters of the first *)
Definition mk_iid (affine track : bool) (eps : R) (momentum : option R) (ft uniq : list A) : res (iid_module * iid_full) :=
  b <- buffers size leqb ft (map name ft) ;;
  Ret ({| im_type := ft; im_bufs := b; im_sizes := map (fun r => (name r, size r)) uniq;
          im_info := fold_left (fun d r => dset leqb d (name r) (iid_info_of r)) uniq [];
          im_affine := affine; im_track := track; im_eps := eps; im_momentum := momentum |},
       {| is_groups := fold_left (fun d r => dset leqb d (name r) (iid_start affine (nfields leqb (map name ft) (name r)) (iid_info_of r))) uniq [];
          is_count := 0 |}).
(** reset_running_stats 158-168 *)
Definition iid_reset_running_stats (st : iid_full) : iid_full :=
  {| is_groups := map (fun e => (fst e, {| is_mean := option_map (map (map (fun _ => 0))) (is_mean (snd e)); is_var := map (fun _ => 1) (is_var (snd e));
                                           is_weight := is_weight (snd e); is_bias := is_bias (snd e) |})) (is_groups st);
     is_count := 0 |}.
(** reset_parameters 170-178 *)
Definition iid_reset_parameters (st : iid_full) : iid_full :=
  {| is_groups := map (fun e => (fst e, {| is_mean := is_mean (snd e); is_var := is_var (snd e);
                                           is_weight := option_map (map (fun _ => 1)) (is_weight (snd e));
                                           is_bias := option_map (map (map (fun _ => 0))) (is_bias (snd e)) |})) (is_groups (iid_reset_running_stats st));
     is_count := 0 |}.
(** _estimate_stats 180-205 for one field *)
Definition iid_mean (i : iid_info) (v : list chan) : option (list R) :=
  if has_trivial i then Some (lin (ii_size i) (ii_size i) (ii_avg i) (map mean v)) else None.
Definition iid_var (i : iid_info) (v : list chan) : R :=
  let centered := match iid_mean i v with Some mu => unshift mu v | None => v end in
  mean (map unbiased_var centered).
(** 257-275 with _get_running_stats 207-214: the statistics used and the
    statistics kept. The two assertions compare a buffer with itself *)
Definition iid_stats (m : iid_module) (training : bool) (f : R) (i : iid_info) (g : iid_state) (fields : list (list chan)) :
  res (iid_state * list (option (list R)) * list R) :=
  let means := map (iid_mean i) fields in
  let vars := map (iid_var i) fields in
  if negb (im_track m) then Ret (g, means, vars)
  else if training then
    assert (Nat.eqb (length (is_var g)) (length vars)) ;;
    rm <- match is_mean g with
          | Some old => assert (Nat.eqb (length old) (length means)) ;;
                        Ret (Some (map (fun p => match snd p with Some new => blend f (fst p) new | None => fst p end) (List.combine old means)))
          | None => Ret None
          end ;;
    Ret ({| is_mean := rm; is_var := blend f (is_var g) vars; is_weight := is_weight g; is_bias := is_bias g |}, means, vars)
  else
    Ret (g, match is_mean g with Some ms => map Some ms | None => map (fun _ => None) fields end, is_var g).
(** 277-299 for field [k] *)
Definition iid_field (m : iid_module) (i : iid_info) (g : iid_state) (means : list (option (list R))) (vars : list R) (k : nat) (v : list chan) : list chan :=
  let centered := match nth k means None with Some mu => unshift mu v | None => v end in
  let w := match is_weight g with Some w => nth k w 0 | None => 1 end in
  let scaled := scale (w / sqrt (nth k vars 0 + im_eps m)) centered in
  match is_bias g with
  | Some b => shift (lin (ii_size i) (ii_trivials i) (ii_cob i) (nth k b [])) scaled
  | None => scaled
  end.
Definition iid_group (m : iid_module) (training : bool) (f : R) (s : L) (g : iid_state) (fields : list (list chan)) : res (iid_state * list (list chan)) :=
  i <- lookup leqb (im_info m) s ;;
  r <- iid_stats m training f i g fields ;;
  let '(g', means, vars) := r in
  assert (Nat.eqb (length means) (length fields)) ;; assert (Nat.eqb (length vars) (length fields)) ;;
  Ret (g', mapi (iid_field m i g' means vars) 0 fields).
(** forward 216-307; [junk] is the content of torch.empty_like *)
Definition iid_forward (m : iid_module) (training : bool) (N : nat) (st : iid_full) (junk : list chan) (x : gtensor A chan) : res (iid_full * gtensor A chan) :=
  assert (teqb (g_type x) (im_type m)) ;;
  let count := if training then S (is_count st) else is_count st in
  let f := if training then average_factor (im_momentum m) count else 0 in
  r <- keyed_loop leqb (im_bufs m) (iid_group m training f) (g_chans x) (im_sizes m) (is_groups st) junk ;;
  y <- mk_gtensor size (im_type m) (snd r) ;;
  Ret ({| is_groups := fst r; is_count := count |}, y).
(** an optimiser step replaces the weights and biases of one name by others of the
    same shape *)
Definition same_rows (a b : list (list R)) : bool :=
  Nat.eqb (length a) (length b) && forallb (fun p => Nat.eqb (length (fst p)) (length (snd p))) (List.combine a b).
Definition iid_set (u : L * (list R * option (list (list R)))) (st : iid_full) : res iid_full :=
  g <- lookup leqb (is_groups st) (fst u) ;;
  match is_weight g with
  | Some w =>
      assert (Nat.eqb (length w) (length (fst (snd u)))) ;;
      assert (match is_bias g, snd (snd u) with Some b, Some b' => same_rows b b' | None, None => true | _, _ => false end) ;;
      Ret {| is_groups := dset leqb (is_groups st) (fst u) {| is_mean := is_mean g; is_var := is_var g; is_weight := Some (fst (snd u)); is_bias := snd (snd u) |};
             is_count := is_count st |}
  | None => Raise
  end.

(** *** _export 341-429 *)
(** `l[start:end] = v` and `l[indices] = v` *)
Definition put (l : list R) (c : channels) (v : list R) : res (list R) := write l c v.
(** the loop 375-425; [t] is the torch module *)
Fixpoint iid_export_loop (m : iid_module) (st : iid_full) (sizes : list (L * nat)) (t : bn) : res bn :=
  match sizes with
  | [] => Ret t
  | (s, n) :: sizes' =>
      c <- lookup leqb (im_bufs m) s ;;
      i <- lookup leqb (im_info m) s ;;
      g <- lookup leqb (is_groups st) s ;;
      match bn_stats t with
      | Some (ms, vs, k) =>
          vs' <- put vs c (spread n (is_var g)) ;;
          ms' <- put ms c (match is_mean g with Some rm => concat rm | None => repeat 0 (n * length (is_var g)) end) ;;
          aff <- match bn_affine t with
                 | Some (w, b) =>
                     gw <- match is_weight g with Some gw => Ret gw | None => Raise end ;;
                     w' <- put w c (spread n gw) ;;
                     b' <- put b c (match is_bias g with Some gb => concat (map (lin n (ii_trivials i) (ii_cob i)) gb) | None => repeat 0 (n * length (is_var g)) end) ;;
                     Ret (Some (w', b'))
                 | None => Ret None
                 end ;;
          iid_export_loop m st sizes' {| bn_affine := aff; bn_stats := Some (ms', vs', k) |}
      | None => Raise
      end
  end.
Definition iid_export (m : iid_module) (st : iid_full) : res bn :=
  assert (im_track m) ;;
  iid_export_loop m st (im_sizes m)
    {| bn_affine := bn_affine (new_bn (im_affine m) true (type_size size (im_type m)));
       bn_stats := Some (repeat 0 (type_size size (im_type m)), repeat 1 (type_size size (im_type m)), is_count st) |}.

(** ** GNormBatchNorm gnorm.py *)
(** what the constructor keeps for a name: the sizes of the irreps, _trivial_idxs and
    the change of basis with its inverse, unless it is close to the identity *)
Record gn_info := { gi_size : nat; gi_irreps : list nat; gi_trivials : list nat; gi_cob : option (mat * mat) }.
(** 134-161 *)
Definition gn_info_of (r : A) : gn_info :=
  {| gi_size := size r; gi_irreps := map fst (irreps r); gi_trivials := trivials 0 (irreps r);
     gi_cob := if allclose (size r) (size r) (cob r) mid then None else Some (cob r, inv r) |}.
(** vars_aggregator 138-145 and vars_propagator 150: entry [c, o] for channel [c] and irrep [o] *)
Fixpoint in_irrep (c : nat) (l : list nat) (o : nat) : option nat :=
  match l, o with
  | [], _ => None
  | s :: _, 0 => if Nat.ltb c s then Some s else None
  | s :: l', S o' => if Nat.ltb c s then None else in_irrep (c - s) l' o'
  end.
Definition aggregator (l : list nat) : mat := fun c o => match in_irrep c l o with Some s => 1 / INR s | None => 0 end.
Definition propagator (l : list nat) : mat := fun c o => if Rlt_dec 0 (aggregator l c o) then 1 else 0.
Record gn_state := { gs_mean : list (list R); gs_var : list (list R); gs_weight : option (list (list R)); gs_bias : option (list (list R)) }.
(** 166-175 *)
Definition gn_start (affine : bool) (n : nat) (i : gn_info) : gn_state :=
  let k := length (gi_irreps i) in
  let t := length (gi_trivials i) in
  {| gs_mean := repeat (repeat 0 t) n; gs_var := repeat (repeat 1 k) n;
     gs_weight := if affine then Some (repeat (repeat 1 k) n) else None;
     gs_bias := if affine then Some (repeat (repeat 0 t) n) else None |}.
Record gn_module := { gm_type : list A; gm_bufs : list (L * channels); gm_sizes : list (L * nat); gm_info : list (L * gn_info);
  gm_affine : bool; gm_track : bool; gm_eps : R; gm_momentum : option R }.
Record gn_full := { gs_groups : list (L * gn_state); gs_count : nat }.
(** 21-179 *)
Definition mk_gn (affine track : bool) (eps : R) (momentum : option R) (ft uniq : list A) : res (gn_module * gn_full) :=
  b <- buffers size leqb ft (map name ft) ;;
  Ret ({| gm_type := ft; gm_bufs := b; gm_sizes := map (fun r => (name r, size r)) uniq;
          gm_info := fold_left (fun d r => dset leqb d (name r) (gn_info_of r)) uniq [];
          gm_affine := affine; gm_track := track; gm_eps := eps; gm_momentum := momentum |},
       {| gs_groups := fold_left (fun d r => dset leqb d (name r) (gn_start affine (nfields leqb (map name ft) (name r)) (gn_info_of r))) uniq [];
          gs_count := 0 |}).
(** reset_running_stats 181-187 *)
Definition gn_reset_running_stats (st : gn_full) : gn_full :=
  {| gs_groups := map (fun e => (fst e, {| gs_mean := map (map (fun _ => 0)) (gs_mean (snd e)); gs_var := map (map (fun _ => 1)) (gs_var (snd e));
                                           gs_weight := gs_weight (snd e); gs_bias := gs_bias (snd e) |})) (gs_groups st);
     gs_count := 0 |}.
(** reset_parameters 189-196 *)
Definition gn_reset_parameters (st : gn_full) : gn_full :=
  {| gs_groups := map (fun e => (fst e, {| gs_mean := gs_mean (snd e); gs_var := gs_var (snd e);
                                           gs_weight := option_map (map (map (fun _ => 1))) (gs_weight (snd e));
                                           gs_bias := option_map (map (map (fun _ => 0))) (gs_bias (snd e)) |})) (gs_groups (gn_reset_running_stats st));
     gs_count := 0 |}.
(** `vars[vars < 0.] = 0.` *)
Definition clamp (a : R) : R := if Rlt_dec a 0 then 0 else a.
(** _compute_statistics 323-361 for one field *)
Definition gn_means (i : gn_info) (v : list chan) : list R := map (fun c => mean (nth c v [])) (gi_trivials i).
Definition gn_channel_var (i : gn_info) (v : list chan) (c : nat) : R :=
  let s := mean (map square (nth c v [])) in
  clamp (if existsb (Nat.eqb c) (gi_trivials i) then s - square (mean (nth c v [])) else s).
Definition gn_vars (i : gn_info) (N : nat) (v : list chan) : list R :=
  map (fun o => clamp (rsum (map (fun c => aggregator (gi_irreps i) c o * gn_channel_var i v c) (seq 0 (gi_size i)))) * correction N)
    (seq 0 (length (gi_irreps i))).
(** _scale 363-375 and _shift 377-391 *)
Definition gn_scale (i : gn_info) (k : list R) (t : list chan) : list chan :=
  map (fun p => map (fun a => a * fst p) (snd p)) (List.combine (lin (gi_size i) (length (gi_irreps i)) (propagator (gi_irreps i)) k) t).
Fixpoint gn_shift (idx : list nat) (b : list R) (t : list chan) : list chan :=
  match idx, b with
  | c :: idx', a :: b' => gn_shift idx' b' (firstn c t ++ map (fun x => x + a) (nth c t []) :: skipn (S c) t)
  | _, _ => t
  end.
(** 244-246 and 291-293; [spatial] is the number of spatial axes, of which the
    einsum names two *)
Definition gn_basis (spatial n N : nat) (M : option mat) (v : list chan) : res (list chan) :=
  match M with Some M => assert (Nat.eqb spatial 2) ;; Ret (mix n N M v) | None => Ret v end.
(** 248-277 *)
Definition blends (f : R) (old new : list (list R)) : list (list R) := map (fun p => blend f (fst p) (snd p)) (List.combine old new).
Definition gn_stats (m : gn_module) (training : bool) (f : R) (N : nat) (i : gn_info) (g : gn_state) (fields : list (list chan)) :
  res (gn_state * list (list R) * list (list R)) :=
  let means := map (gn_means i) fields in
  let vars := map (gn_vars i N) fields in
  if negb (gm_track m) then Ret (g, means, map (map clamp) vars)
  else if training then
    assert (same_rows (gs_var g) vars) ;; assert (same_rows (gs_mean g) means) ;;
    Ret ({| gs_mean := blends f (gs_mean g) means; gs_var := blends f (gs_var g) vars; gs_weight := gs_weight g; gs_bias := gs_bias g |}, means, map (map clamp) vars)
  else
    (* `vars[vars < 0.] = 0.` changes the buffer in place *)
    Ret ({| gs_mean := gs_mean g; gs_var := map (map clamp) (gs_var g); gs_weight := gs_weight g; gs_bias := gs_bias g |}, gs_mean g, map (map clamp) (gs_var g)).
(** 271-293 for field [k] *)
Definition gn_field (m : gn_module) (spatial N : nat) (i : gn_info) (g : gn_state) (means vars : list (list R)) (k : nat) (v : list chan) : res (list chan) :=
  let vs := nth k vars [] in
  let scales := match gs_weight g with
                | Some w => map (fun p => fst p / sqrt (snd p + gm_eps m)) (List.combine (nth k w []) vs)
                | None => map (fun a => 1 / sqrt (a + gm_eps m)) vs
                end in
  let centered := gn_shift (gi_trivials i) (map (fun a => -1 * a) (nth k means [])) v in
  let normalized := gn_scale i scales centered in
  let normalized := match gs_bias g with Some b => gn_shift (gi_trivials i) (nth k b []) normalized | None => normalized end in
  gn_basis spatial (gi_size i) N (option_map fst (gi_cob i)) normalized.
Fixpoint mapiM {X Y} (f : nat -> X -> res Y) (k : nat) (l : list X) : res (list Y) :=
  match l with [] => Ret [] | x :: l' => y <- f k x ;; ys <- mapiM f (S k) l' ;; Ret (y :: ys) end.
Definition gn_group (m : gn_module) (training : bool) (f : R) (spatial N : nat) (s : L) (g : gn_state) (fields : list (list chan)) : res (gn_state * list (list chan)) :=
  i <- lookup leqb (gm_info m) s ;;
  fields' <- mapM (gn_basis spatial (gi_size i) N (option_map snd (gi_cob i))) fields ;;
  r <- gn_stats m training f N i g fields' ;;
  let '(g', means, vars) := r in
  assert (Nat.eqb (length means) (length fields)) ;; assert (Nat.eqb (length vars) (length fields)) ;;
  out <- mapiM (gn_field m spatial N i g' means vars) 0 fields' ;;
  Ret (g', out).
(** forward 203-307 *)
Definition gn_forward (m : gn_module) (training : bool) (spatial N : nat) (st : gn_full) (junk : list chan) (x : gtensor A chan) : res (gn_full * gtensor A chan) :=
  assert (teqb (g_type x) (gm_type m)) ;;
  let count := if training then S (gs_count st) else gs_count st in
  let f := if training then average_factor (gm_momentum m) count else 0 in
  r <- keyed_loop leqb (gm_bufs m) (gn_group m training f spatial N) (g_chans x) (gm_sizes m) (gs_groups st) junk ;;
  y <- mk_gtensor size (gm_type m) (snd r) ;;
  Ret ({| gs_groups := fst r; gs_count := count |}, y).
Definition gn_set (u : L * (list (list R) * list (list R))) (st : gn_full) : res gn_full :=
  g <- lookup leqb (gs_groups st) (fst u) ;;
  match gs_weight g, gs_bias g with
  | Some w, Some b =>
      assert (same_rows w (fst (snd u))) ;; assert (same_rows b (snd (snd u))) ;;
      Ret {| gs_groups := dset leqb (gs_groups st) (fst u) {| gs_mean := gs_mean g; gs_var := gs_var g; gs_weight := Some (fst (snd u)); gs_bias := Some (snd (snd u)) |};
             gs_count := gs_count st |}
  | _, _ => Raise
  end.

(** *** export 415-483 *)
(** the loop 442-479: tensors of shape (1, n, size) hold one value per channel *)
Definition gn_shifted (i : gn_info) (rows : list (list R)) : list R :=
  concat (concat (map (fun row => gn_shift (gi_trivials i) row (repeat [0] (gi_size i))) rows)).
Definition gn_scaled (i : gn_info) (rows : list (list R)) : list R :=
  concat (concat (map (fun row => gn_scale i row (repeat [1] (gi_size i))) rows)).
Fixpoint gn_export_loop (m : gn_module) (st : gn_full) (sizes : list (L * nat)) (t : bn) : res bn :=
  match sizes with
  | [] => Ret t
  | (s, n) :: sizes' =>
      c <- lookup leqb (gm_bufs m) s ;;
      assert (match c with Run _ _ => true | Listed _ => false end) ;;
      i <- lookup leqb (gm_info m) s ;;
      g <- lookup leqb (gs_groups st) s ;;
      match bn_stats t with
      | Some (ms, vs, k) =>
          ms' <- put ms c (gn_shifted i (gs_mean g)) ;;
          vs' <- put vs c (gn_scaled i (gs_var g)) ;;
          aff <- match bn_affine t with
                 | Some (w, b) =>
                     gw <- match gs_weight g with Some gw => Ret gw | None => Raise end ;;
                     gb <- match gs_bias g with Some gb => Ret gb | None => Raise end ;;
                     w' <- put w c (gn_scaled i gw) ;;
                     b' <- put b c (gn_shifted i gb) ;;
                     Ret (Some (w', b'))
                 | None => Ret None
                 end ;;
          vs'' <- match gi_cob i with
                  | Some (q, _) => now <- read vs' c ;; rows <- view n now ;; put vs' c (concat (map (lin n n q) rows))
                  | None => Ret vs'
                  end ;;
          gn_export_loop m st sizes' {| bn_affine := aff; bn_stats := Some (ms', vs'', k) |}
      | None => Raise
      end
  end.
(** 415-440, 481-483; the result is a BatchNorm3d *)
Definition gn_export (m : gn_module) (st : gn_full) : res bn :=
  assert (gm_track m) ;;
  gn_export_loop m st (gm_sizes m)
    {| bn_affine := bn_affine (new_bn (gm_affine m) true (type_size size (gm_type m)));
       bn_stats := Some (repeat 0 (type_size size (gm_type m)), repeat 1 (type_size size (gm_type m)), gs_count st) |}.
(** torch's BatchNorm3d checks that there are three spatial axes *)
Definition bn3d_call (eps : R) (momentum : option R) (n spatial : nat) (t : bn) (fields : list (list chan)) : res (bn * list (list chan)) :=
  assert (Nat.eqb spatial 3) ;; bn_call eps momentum n false t fields.

(** ** FieldNorm fieldnorm.py *)
(** it keeps what _IIDBatchNorm keeps except for the running statistics; there is
    nothing to train but weights and biases *)
Record fn_params := { fp_weight : option (list R); fp_bias : option (list (list R)) }.
Record fn_module := { fm_type : list A; fm_bufs : list (L * channels); fm_sizes : list (L * nat); fm_info : list (L * iid_info); fm_eps : R }.
(** 151-159 *)
Definition fn_start (affine : bool) (n : nat) (i : iid_info) : fn_params :=
  {| fp_weight := if affine then Some (repeat 1 n) else None; fp_bias := if affine && has_trivial i then Some (repeat (repeat 0 (ii_trivials i)) n) else None |}.
(** 21-161 *)
Definition mk_fn (affine : bool) (eps : R) (ft uniq : list A) : res (fn_module * list (L * fn_params)) :=
  b <- buffers size leqb ft (map name ft) ;;
  Ret ({| fm_type := ft; fm_bufs := b; fm_sizes := map (fun r => (name r, size r)) uniq;
          fm_info := fold_left (fun d r => dset leqb d (name r) (iid_info_of r)) uniq []; fm_eps := eps |},
       fold_left (fun d r => dset leqb d (name r) (fn_start affine (nfields leqb (map name ft) (name r)) (iid_info_of r))) uniq []).
(** `slice - means` for two tensors of the same shape *)
Definition minus (t u : list chan) : list chan :=
  map (fun p => map (fun q => fst q - snd q) (List.combine (fst p) (snd p))) (List.combine t u).
(** _estimate_stats 175-197 and 231-264 for field [k]; [N] is the number of points *)
Definition fn_field (m : fn_module) (N : nat) (i : iid_info) (g : fn_params) (k : nat) (v : list chan) : list chan :=
  let centered := if has_trivial i then minus v (mix (ii_size i) N (ii_avg i) v) else v in
  let vars := map (fun p => mean (map (fun c => square (nth p c 0)) centered)) (seq 0 N) in
  let w := match fp_weight g with Some w => nth k w 0 | None => 1 end in
  let scaled := map (fun c => map (fun p => fst p * (w / sqrt (snd p + fm_eps m))) (List.combine c vars)) centered in
  match fp_bias g with
  | Some b => shift (lin (ii_size i) (ii_trivials i) (ii_cob i) (nth k b [])) scaled
  | None => scaled
  end.
Definition fn_group (m : fn_module) (N : nat) (s : L) (g : fn_params) (fields : list (list chan)) : res (fn_params * list (list chan)) :=
  i <- lookup leqb (fm_info m) s ;;
  Ret (g, mapi (fn_field m N i g) 0 fields).
(** forward 199-275 *)
Definition fn_forward (m : fn_module) (N : nat) (st : list (L * fn_params)) (junk : list chan) (x : gtensor A chan) : res (gtensor A chan) :=
  assert (teqb (g_type x) (fm_type m)) ;;
  r <- keyed_loop leqb (fm_bufs m) (fn_group m N) (g_chans x) (fm_sizes m) st junk ;;
  mk_gtensor size (fm_type m) (snd r).
(** reset_parameters 163-170 *)
Definition fn_reset_parameters (st : list (L * fn_params)) : list (L * fn_params) :=
  map (fun e => (fst e, {| fp_weight := option_map (map (fun _ => 1)) (fp_weight (snd e)); fp_bias := option_map (map (map (fun _ => 0))) (fp_bias (snd e)) |})) st.
(** an optimiser step, as for _IIDBatchNorm *)
Definition fn_set (u : L * (list R * option (list (list R)))) (st : list (L * fn_params)) : res (list (L * fn_params)) :=
  g <- lookup leqb st (fst u) ;;
  match fp_weight g with
  | Some w =>
      assert (Nat.eqb (length w) (length (fst (snd u)))) ;;
      assert (match fp_bias g, snd (snd u) with Some b, Some b' => same_rows b b' | None, None => true | _, _ => false end) ;;
      Ret (dset leqb st (fst u) {| fp_weight := Some (fst (snd u)); fp_bias := snd (snd u) |})
  | None => Raise
  end.
(** a call as an event of a history: it leaves the parameters as they are, in both modes *)
Definition fn_call (m : fn_module) (training : bool) (N : nat) (st : list (L * fn_params)) (junk : list chan) (x : gtensor A chan) : res (list (L * fn_params) * gtensor A chan) :=
  y <- fn_forward m N st junk x ;;
  Ret (st, y).
End Generic.
