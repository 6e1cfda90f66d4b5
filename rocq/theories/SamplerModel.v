(** Model of the messages of point convolutions:
    SingleBlockBasisSampler and block_basissampler
    (escnn/nn/modules/basismanager/basissampler_singleblock.py) and
    BlocksBasisSampler (basissampler_blocks.py). The constructor, get_element_info,
    get_basis_info and the loop that fills a filter repeat the code of
    BlocksBasisExpansion and are those of BlocksModel, with the blocks below and
    with attributes named by the pair itself.

    Simplifications. The caches (`_stored_filters`) return the object that would be
    built. A call handles a batch of at least one edge (`assert S > 0`, 411, 431);
    all steps act on each edge separately, so the model has one edge: a point [pt]
    of an arbitrary type and the features [x] of its source. Kernel bases are
    values, as in BlocksModel: an element is a function of the point. `groups` is a
    natural number. Shapes that differ raise; torch would also accept a size of one
    in `einsum` and in `+=`. dtypes and devices are left out. *)
From Coq Require Import String Ascii.
From Coq Require Import List ZArith Arith Bool Reals.
From Verif Require Import LibRes LibPy LibMat FieldModel GroupedModel BlocksModel.
Import ListNotations.
Local Open Scope nat_scope.

Section Single.
Context {X P : Type}.
(** SingleBlockBasisSampler.__init__ basissampler_singleblock.py:15-57 and forward
    59-74: the elements of the mask, each times its `shape[0]` *)
Definition mk_sampler_single (b : kbasis X P) (mask : list bool) : res (option (single X P)) :=
  assert (Nat.eqb (length mask) (length (kb_elements b))) ;;
  if negb (existsb (fun m => m) mask) then Ret None else
  Ret (Some {| sg_out := kb_out b; sg_in := kb_in b; sg_basis := map el_attr (kb_elements b); sg_mask := mask;
               sg_sampled := keep mask (map (fun e o i p => el_sample e o i p * INR (el_dim e))%R (kb_elements b)) |}).
(** block_basissampler 116-147 *)
Definition block_basissampler (b : kbasis X P) (basis_filter : option (attr X -> bool)) : res (option (single X P)) :=
  mk_sampler_single b (match basis_filter with
                       | Some f => map (fun e => f (el_attr e)) (kb_elements b)
                       | None => repeat true (length (kb_elements b))
                       end).
End Single.

(** add_module refuses names with a dot, and so does register_buffer
    (basissampler_blocks.py:77, 136-137) *)
Fixpoint has_dot (s : string) : bool :=
  match s with EmptyString => false | String c s' => Ascii.eqb c "."%char || has_dot s' end.
Definition plain (p : string * string) : res (string * string) :=
  if has_dot (fst p) || has_dot (snd p) then Raise else Ret p.

Section Sampler.
Context {A X P : Type}.
Variable name : A -> string.
Variable size : A -> nat.
Variable aeqb : A -> A -> bool.
Variable order : list A -> list A.
Variable sort : list (string * string) -> list (string * string).

Record sampler := { sm_blocks : blocks A X P; sm_uniform : bool }.
(** 55-56 *)
Definition all_equal (l : list A) : bool := match l with [] => true | a :: _ => forallb (fun r => aeqb r a) l end.
(** BlocksBasisSampler.__init__ 22-151 *)
Definition mk_sampler (ins outs : list A) (generator : A -> A -> res (option (kbasis X P))) (basis_filter : option (attr X -> bool)) : res sampler :=
  b <- build_blocks plain (fun kb => block_basissampler kb basis_filter) name size aeqb order sort ins outs generator ;;
  let uniform := all_equal ins && all_equal outs in
  (* 90-92 *)
  assert (negb uniform || Nat.leb (bb_npairs b) 1) ;;
  Ret {| sm_blocks := b; sm_uniform := uniform && Nat.eqb (bb_npairs b) 1 |}.

(** _input_size, _output_size 49-50 *)
Definition input_size (b : blocks A X P) : nat := type_size size (bb_in b).
Definition output_size (b : blocks A X P) : nat := type_size size (bb_out b).
(** _in_sizes 52-54 *)
Definition in_sizes (b : blocks A X P) : list (string * nat) := fold_left (fun d r => dset String.eqb d (name r) (size r)) (bb_in b) [].

(** weights[range] (280, 310) *)
Definition coefficients (b : blocks A X P) (weights : list R) (p : string * string) : res (list R) :=
  r <- lookup pair_eqb (bb_ranges b) p ;;
  Ret (firstn (snd r - fst r) (skipn (fst r) weights)).

(** _contract_basis_block 302-327: a tensor of shape (out_count, o, in_count, i) *)
Definition contract_block (b : blocks A X P) (weights : list R) (p : string * string) : res expanded :=
  e <- module_of plain b p ;;
  cf <- coefficients b weights p ;;
  let oc := count name (bb_out b) (snd p) in
  let ic := count name (bb_in b) (fst p) in
  let d := dimension e in
  assert (Nat.eqb (length cf) (oc * ic * d)) ;;
  Ret {| ex_oc := oc; ex_o := sg_out e; ex_ic := ic; ex_i := sg_in e;
         ex_entry := fun u o j i p => sumn d (fun k => nth (u * (ic * d) + (j * d + k)) cf 0%R * nth k (sg_sampled e) (fun _ _ _ => 0%R) o i p)%R |}.

(** forward 329-406 *)
Definition sampler_filter (s : sampler) (weights : list R) : res (nat -> nat -> P -> R) :=
  let b := sm_blocks s in
  assert (Nat.eqb (length weights) (bb_dim b)) ;;
  if sm_uniform s then
    p <- get_nth (bb_pairs b) 0 ;;
    x <- contract_block b weights p ;;
    reshape 1 x (output_size b) (input_size b)
  else filter_loop 1 plain size (contract_block b weights) b.

(** _expand_filter_then_compute 408-420: einsum 'pgoi,pgi->pgo' *)
Definition expand_then_compute (s : sampler) (weights : list R) (x : list R) (pt : P) (groups : nat) : res (list R) :=
  let b := sm_blocks s in
  f <- sampler_filter s weights ;;
  let n := input_size b in
  let m := output_size b / groups in
  (* the two views 412-413 *)
  assert (Nat.eqb (length x) (groups * n)) ;;
  assert (Nat.eqb (output_size b * n) (groups * m * n)) ;;
  Ret (map (fun r => sumn n (fun i => f (r / m * m + r mod m)%nat i pt * nth (r / m * n + i)%nat x 0%R)%R) (seq 0 (groups * m))).

(** _compute_out_block 270-300: a tensor of shape (groups, u, o), from an input [inp] of
    shape (groups, in_count, isz) *)
Record out_block := { ob_u : nat; ob_o : nat; ob_entry : nat -> nat -> nat -> R }.
Definition compute_out_block (b : blocks A X P) (weights : list R) (groups isz : nat) (inp : nat -> nat -> nat -> R) (pt : P) (p : string * string) : res out_block :=
  e <- module_of plain b p ;;
  cf <- coefficients b weights p ;;
  let u := count name (bb_out b) (snd p) / groups in
  let ic := count name (bb_in b) (fst p) in
  let d := dimension e in
  assert (Nat.eqb (length cf) (groups * u * ic * d)) ;;
  assert (Nat.eqb (sg_in e) isz) ;;
  Ret {| ob_u := u; ob_o := sg_out e;
         ob_entry := fun g k o => sumn ic (fun j => sumn isz (fun i => sumn d (fun l =>
           nth (g * (u * (ic * d)) + (k * (ic * d) + (j * d + l))) cf 0%R * nth l (sg_sampled e) (fun _ _ _ => 0%R) o i pt * inp g j i)%R)) |}.
(** the entries of an out_block in memory *)
Definition ob_flat (o : out_block) (t : nat) : R := ob_entry o (t / ob_o o / ob_u o) ((t / ob_o o) mod ob_u o) (t mod ob_o o).

(** _compute_then_expand_filter 422-471 *)
Definition compute_then_expand (s : sampler) (weights : list R) (x : list R) (pt : P) (groups : nat) : res (list R) :=
  let b := sm_blocks s in
  let n := input_size b in
  (* 433 *)
  assert (Nat.eqb (length x) (groups * n)) ;;
  if sm_uniform s then
    p <- get_nth (bb_pairs b) 0 ;;
    isz <- lookup String.eqb (in_sizes b) (fst p) ;;
    let ic := count name (bb_in b) (fst p) in
    assert (Nat.eqb (groups * n) (groups * ic * isz)) ;;
    ob <- compute_out_block b weights groups isz (fun g j i => nth (g * n + (j * isz + i)) x 0%R) pt p ;;
    assert (Nat.eqb (groups * ob_u ob * ob_o ob) (output_size b)) ;;
    Ret (map (ob_flat ob) (seq 0 (output_size b)))
  else
    f <- fold_left (fun r p => f <- r ;;
        k <- plain p ;;
        v <- lookup pair_eqb (bb_indices b) k ;;
        c <- lookup pair_eqb (bb_contiguous b) p ;;
        (* 456-459 *)
        cols <- positions n (fst v) ;;
        isz <- lookup String.eqb (in_sizes b) (fst p) ;;
        let ic := count name (bb_in b) (fst p) in
        assert (Nat.eqb (groups * length cols) (groups * ic * isz)) ;;
        ob <- compute_out_block b weights groups isz (fun g j i => nth (g * n + nth (j * isz + i) cols 0) x 0%R) pt p ;;
        (* 466-469 *)
        rows <- positions (output_size b) (snd v) ;;
        match v, (c : bool) with
        | (Run _ _, Run oa oe), true =>
            assert (Nat.eqb (groups * ob_u ob * ob_o ob) (groups * (oe - oa))) ;;
            assert (Nat.eqb (groups * (oe - oa)) (length rows)) ;;
            Ret (fun r => f r + match position rows r with Some t => ob_flat ob t | None => 0 end)%R
        | (Listed _, Listed _), false =>
            assert (Nat.eqb (groups * ob_u ob * ob_o ob) (length rows)) ;;
            Ret (fun r => f r + match position rows r with Some t => ob_flat ob t | None => 0 end)%R
        | _, _ => Raise    (* the indices of a pair are of the kind recorded for it *)
        end)
      (bb_pairs b) (Ret (fun _ => 0%R)) ;;
    Ret (map f (seq 0 (output_size b))).

(** compute_messages 473-528 *)
Definition compute_messages (s : sampler) (weights : list R) (x : list R) (pt : P) (conv_first : bool) (groups : nat) : res (list R) :=
  let b := sm_blocks s in
  assert (Nat.eqb (length weights) (bb_dim b)) ;;
  assert (Nat.eqb (length x) (input_size b * groups)) ;;
  (* 523: `%` by zero *)
  assert (negb (Nat.eqb groups 0)) ;;
  assert (Nat.eqb (output_size b mod groups) 0) ;;
  if conv_first then compute_then_expand s weights x pt groups else expand_then_compute s weights x pt groups.
End Sampler.
Arguments sampler : clear implicits.
