(** Model of the expansion of a filter from its weights:
    SingleBlockBasisExpansion and block_basisexpansion
    (escnn/nn/modules/basismanager/basisexpansion_singleblock.py) and
    BlocksBasisExpansion (basisexpansion_blocks.py). The code of
    BlocksBasisSampler (basissampler_blocks.py, see SamplerModel) repeats most of
    that of BlocksBasisExpansion; what both share is stated once, for any way
    [block] to build the block of a kernel basis, any attribute names [key] of a
    pair and any type [P] of points.

    Simplifications. Floats are real numbers, so `norms != norms` never holds. A
    representation is an element of any type [A] with its name, its size and the
    number of its irreps; [aeqb] is its `==` and [order] the order in which a set
    is iterated, [sort] the order of `sorted` on pairs of names. The kernel basis
    of a pair is a value: its elements with their attributes and their values at
    the points; BlocksBasisExpansion has [S] sampling points, given by position. The sampled blocks are computed
    anew (the cache _stored_filters of block_basisexpansion is left out), so
    `recompute` plays no role. An exception EmptyBasisException is the value
    [Ret None], any other one [Raise]. Dtypes and devices are left out; there is
    at least one sampling point; a one-entry block is not broadcast in the
    assignment by index lists (368). *)
From Coq Require Import String Ascii.
From Coq Require Import List ZArith Arith Bool Reals.
From Verif Require Import LibRes LibPy LibMat FieldModel GroupedModel.
Import ListNotations.
Local Open Scope nat_scope.

(** The entries of an attribute dictionary used here; [at_rest] is the rest. *)
Record attr (X : Type) := { at_in : nat; at_out : nat; at_id : nat; at_rest : X }.
Arguments at_in {X}. Arguments at_out {X}. Arguments at_id {X}. Arguments at_rest {X}.

(** The attributes of an element of a KernelBasis with `shape[0]`, and its value
    [sample o i p] at the points. *)
Record element (X P : Type) := { el_attr : attr X; el_dim : nat; el_sample : nat -> nat -> P -> R }.
Arguments el_attr {X P}. Arguments el_dim {X P}. Arguments el_sample {X P}.
Record kbasis (X P : Type) := { kb_out : nat; kb_in : nat; kb_elements : list (element X P) }.
Arguments kb_out {X P}. Arguments kb_in {X P}. Arguments kb_elements {X P}.

(** One block: the attributes of the basis, the mask of the elements used, and
    the used elements, of shape (out, in). *)
Record single (X P : Type) := { sg_out : nat; sg_in : nat; sg_basis : list (attr X); sg_mask : list bool; sg_sampled : list (nat -> nat -> P -> R) }.
Arguments sg_out {X P}. Arguments sg_in {X P}. Arguments sg_basis {X P}. Arguments sg_mask {X P}. Arguments sg_sampled {X P}.
Definition keep {Y} (mask : list bool) (l : list Y) : list Y := map snd (filter fst (combine mask l)).

Section Expansion.
Context {X : Type}.
Variable S : nat.

(** The sum of squares of all entries (187-194 of normalize_basis, 68) *)
Definition squares (o i : nat) (s : nat -> nat -> nat -> R) : R :=
  sumn o (fun a => sumn i (fun b => sumn S (fun p => s a b p * s a b p)%R)).
(** normalize_basis basisexpansion_singleblock.py:163-210, one element *)
Definition normalize (o i : nat) (dim : nat) (s : nat -> nat -> nat -> R) : nat -> nat -> nat -> R :=
  let n := (squares o i s / INR dim)%R in
  let n := if Rlt_dec n (1 / 10 ^ 15) then 0%R else n in
  let n := sqrt n in
  let n := if Rlt_dec n (1 / 10 ^ 6) then 1%R else n in
  fun a b p => (s a b p / n)%R.

(** SingleBlockBasisExpansion basisexpansion_singleblock.py:25-76 *)
Definition mk_single (b : kbasis X nat) (mask : list bool) : res (option (single X nat)) :=
  (* 47-48 *)
  if negb (existsb (fun m => m) mask) then Ret None else
  (* 52-65 *)
  let sampled := map (fun e => normalize (kb_out b) (kb_in b) (el_dim e) (el_sample e)) (kb_elements b) in
  (* 68-72 *)
  let norms := map (fun s => if Rlt_dec (1 / 100) (squares (kb_out b) (kb_in b) s) then true else false) sampled in
  assert (Nat.eqb (length mask) (length norms)) ;;
  let mask := map (fun mn => fst mn && snd mn) (combine mask norms) in
  if negb (existsb (fun m => m) mask) then Ret None else
  Ret (Some {| sg_out := kb_out b; sg_in := kb_in b; sg_basis := map el_attr (kb_elements b); sg_mask := mask; sg_sampled := keep mask sampled |}).
(** block_basisexpansion 125-160, without the cache *)
Definition block_basisexpansion (b : kbasis X nat) (basis_filter : option (attr X -> bool)) : res (option (single X nat)) :=
  mk_single b (match basis_filter with
               | Some f => map (fun e => f (el_attr e)) (kb_elements b)
               | None => repeat true (length (kb_elements b))
               end).
End Expansion.

Section Single.
Context {X P : Type}.
(** dimension 103-104; SingleBlockBasisSampler.dimension basissampler_singleblock.py:94-95 *)
Definition dimension (s : single X P) : nat := length (sg_sampled s).
Definition with_id (id : nat) (a : attr X) : attr X := {| at_in := at_in a; at_out := at_out a; at_id := id; at_rest := at_rest a |}.
(** get_element_info 85-93, basissampler_singleblock.py:76-84; None when the loop ends *)
Fixpoint single_search (idx id : nat) (basis : list (attr X)) (mask : list bool) : res (option (attr X)) :=
  match basis with
  | [] => Ret None
  | a :: basis' =>
      match mask with
      | [] => Raise
      | m :: mask' =>
          if m then if Nat.eqb idx id then Ret (Some (with_id idx a)) else single_search (idx + 1) id basis' mask'
          else single_search idx id basis' mask'
      end
  end.
Definition single_info (s : single X P) (id : nat) : res (option (attr X)) := single_search 0 id (sg_basis s) (sg_mask s).
(** get_basis_info 95-101, basissampler_singleblock.py:86-92 *)
Fixpoint single_all (idx : nat) (basis : list (attr X)) (mask : list bool) : res (list (attr X)) :=
  match basis with
  | [] => Ret []
  | a :: basis' =>
      match mask with
      | [] => Raise
      | m :: mask' =>
          if m then r <- single_all (idx + 1) basis' mask' ;; Ret (with_id idx a :: r) else single_all idx basis' mask'
      end
  end.
Definition single_infos (s : single X P) : res (list (attr X)) := single_all 0 (sg_basis s) (sg_mask s).
(** SingleBlockBasisExpansion.forward 78-83: einsum 'boi...,kb->koi...' with the rows of `weights` *)
Definition single_forward (s : single X P) (weights : list (list R)) : res (nat -> nat -> nat -> P -> R) :=
  assert (forallb (fun w => Nat.eqb (length w) (dimension s)) weights) ;;
  Ret (fun k o i p => sumn (dimension s) (fun b => nth b (sg_sampled s) (fun _ _ _ => 0%R) o i p * nth b (nth k weights []) 0%R)%R).
End Single.

Definition pair_eqb (a b : string * string) : bool := String.eqb (fst a) (fst b) && String.eqb (snd a) (snd b).
(** _escape_name and _escape_pair basisexpansion_blocks.py:150-156 *)
Fixpoint escape_name (s : string) : string :=
  match s with
  | EmptyString => EmptyString
  | String c s' => String (if Ascii.eqb c "."%char then "^"%char else c) (escape_name s')
  end.
Definition escape_pair (p : string * string) : string * string := (escape_name (fst p), escape_name (snd p)).

(** What is known about a weight: get_element_info and get_basis_info *)
Record info (X : Type) := {
  in_irreps_position : nat; out_irreps_position : nat; in_repr : string; out_repr : string;
  in_field_position : nat; out_field_position : nat; block_id : nat; i_attr : attr X }.
Arguments in_irreps_position {X}. Arguments out_irreps_position {X}. Arguments in_repr {X}. Arguments out_repr {X}.
Arguments in_field_position {X}. Arguments out_field_position {X}. Arguments block_id {X}. Arguments i_attr {X}.

Section Blocks.
Context {A X P : Type}.
Variable S : nat.
Variable key : string * string -> res (string * string).
Variable block : kbasis X P -> res (option (single X P)).
Variable name : A -> string.
Variables size nirreps : A -> nat.
Variable aeqb : A -> A -> bool.
Variable order : list A -> list A.
Variable sort : list (string * string) -> list (string * string).

(** the elements of set(l), in the order of iteration *)
Fixpoint distinct (l : list A) : list A :=
  match l with [] => [] | a :: l' => if existsb (aeqb a) l' then distinct l' else a :: distinct l' end.
Definition as_set (l : list A) : list A := order (distinct l).

Record blocks := {
  bb_in : list A; bb_out : list A;
  bb_modules : list ((string * string) * single X P);                       (* block_expansion_..., by attribute name *)
  bb_pairs : list (string * string); bb_npairs : nat;
  bb_contiguous : list ((string * string) * bool);
  bb_indices : list ((string * string) * (channels * channels));          (* in_indices_..., out_indices_..., by attribute name *)
  bb_ranges : list ((string * string) * (nat * nat)); bb_dim : nat }.

(** retrieve_indices basismanager/__init__.py:8-24 *)
Definition count (reprs : list A) (l : string) : nat := nfields String.eqb (map name reprs) l.
Definition indices (reprs : list A) : list (string * list nat) := indices_by_label size String.eqb [] 0 (map name reprs) reprs.
Definition contiguous (reprs : list A) : res (list (string * bool)) :=
  mapM (fun e => c <- check_consecutive (map Z.of_nat (snd e)) ;; Ret (fst e, c)) (indices reprs).

(** 63-80, basissampler_blocks.py:65-81: the blocks, by pair and by the attribute name of the pair *)
Definition expand_pairs (generator : A -> A -> res (option (kbasis X P))) (ins outs : list A)
  : res (list ((string * string) * single X P) * list ((string * string) * single X P)) :=
  fold_left (fun r io => d <- r ;;
      let '(i, o) := io in
      let names := (name i, name o) in
      kb <- generator i o ;;
      match kb with
      | None => Ret d
      | Some b => e <- block b ;;
          match e with
          | None => Ret d
          | Some e => k <- key names ;; Ret (dset pair_eqb (fst d) names e, dset pair_eqb (snd d) k e)
          end
      end)
    (flat_map (fun i => map (fun o => (i, o)) outs) ins) (Ret ([], [])).

(** setattr and register_buffer 124-134, basissampler_blocks.py:126-137: both refuse a name already used for the other kind *)
Definition is_run (c : channels) : bool := match c with Run _ _ => true | Listed _ => false end.
Definition set_indices (d : list ((string * string) * (channels * channels))) (p : string * string) (v : channels * channels)
  : res (list ((string * string) * (channels * channels))) :=
  match dget pair_eqb d p with
  | Some old => assert (Bool.eqb (is_run (fst old)) (is_run (fst v))) ;; Ret (dset pair_eqb d p v)
  | None => Ret (dset pair_eqb d p v)
  end.
(** [min, max + 1] of 112-122; the third entry, the difference, is recomputed when it is used *)
Definition run_of (i : list nat) : res channels := a <- list_min i ;; b <- list_max i ;; Ret (Run a (b + 1)).

(** 105-146, basissampler_blocks.py:109-149 (where the index lists are kept before the meshgrid) *)
Fixpoint assign_pairs (modules : list ((string * string) * single X P)) (ins outs : list A) (cin cout : list (string * bool)) (pairs : list (string * string))
    (cont : list ((string * string) * bool)) (inds : list ((string * string) * (channels * channels))) (ranges : list ((string * string) * (nat * nat))) (last : nat)
  : res (list ((string * string) * bool) * list ((string * string) * (channels * channels)) * list ((string * string) * (nat * nat)) * nat) :=
  match pairs with
  | [] => Ret (cont, inds, ranges, last)
  | p :: pairs' =>
      ci <- lookup String.eqb cin (fst p) ;;
      co <- (if ci then lookup String.eqb cout (snd p) else Ret false) ;;
      let cont' := dset pair_eqb cont p co in
      ii <- lookup String.eqb (indices ins) (fst p) ;;
      oi <- lookup String.eqb (indices outs) (snd p) ;;
      v <- (if co then ri <- run_of ii ;; ro <- run_of oi ;; Ret (ri, ro) else Ret (Listed ii, Listed oi)) ;;
      k <- key p ;;
      inds' <- set_indices inds k v ;;
      let n_pairs := count ins (fst p) * count outs (snd p) in
      b <- lookup pair_eqb modules p ;;
      let total := dimension b * n_pairs in
      assign_pairs modules ins outs cin cout pairs' cont' inds' (dset pair_eqb ranges p (last, last + total)) (last + total)
  end.

(** BlocksBasisExpansion.__init__ 23-148, basissampler_blocks.py:43-151 *)
Definition build_blocks (ins outs : list A) (generator : A -> A -> res (option (kbasis X P))) : res blocks :=
  m <- expand_pairs generator (as_set ins) (as_set outs) ;;
  let pairs := sort (map fst (fst m)) in
  cin <- contiguous ins ;;
  cout <- contiguous outs ;;
  r <- assign_pairs (fst m) ins outs cin cout pairs [] [] [] 0 ;;
  let '(cont, inds, ranges, dim) := r in
  Ret {| bb_in := ins; bb_out := outs; bb_modules := snd m; bb_pairs := pairs;
         bb_npairs := length (as_set ins) * length (as_set outs);
         bb_contiguous := cont; bb_indices := inds; bb_ranges := ranges; bb_dim := dim |}.

(** getattr(self, f"block_expansion_...") *)
Definition module_of (b : blocks) (p : string * string) : res (single X P) := k <- key p ;; lookup pair_eqb (bb_modules b) k.

Definition mk_info (idx : nat) (p : string * string) (o oirr i iirr : nat) (a : attr X) : info X :=
  {| in_irreps_position := iirr + at_in a; out_irreps_position := oirr + at_out a;
     in_repr := fst p; out_repr := snd p; in_field_position := i; out_field_position := o;
     block_id := at_id a; i_attr := with_id idx a |}.

(** get_element_info 158-218, basissampler_blocks.py:153-202: the range that holds the index *)
Fixpoint find_range (idx : nat) (ranges : list ((string * string) * (nat * nat))) : res ((string * string) * nat) :=
  match ranges with
  | [] => Raise
  | (p, (a, b)) :: r => if Nat.leb a idx && Nat.ltb idx b then Ret (p, idx - a) else find_range idx r
  end.
(** the loop 181-215 over the input fields: the match found, or the new count *)
Fixpoint search_in (p : string * string) (oname : string) (target cnt i iirr : nat) (ins : list A) : (nat * nat) + nat :=
  match ins with
  | [] => inr cnt
  | r :: ins' =>
      if pair_eqb p (name r, oname) then
        if Nat.eqb cnt target then inl (i, iirr) else search_in p oname target (cnt + 1) (i + 1) (iirr + nirreps r) ins'
      else search_in p oname target cnt (i + 1) (iirr + nirreps r) ins'
  end.
(** the loop 179-216 over the output fields *)
Fixpoint search_out (p : string * string) (target cnt o oirr : nat) (outs ins : list A) : res ((nat * nat) * (nat * nat)) :=
  match outs with
  | [] => Raise
  | r :: outs' =>
      match search_in p (name r) target cnt 0 0 ins with
      | inl found => Ret ((o, oirr), found)
      | inr cnt' => search_out p target cnt' (o + 1) (oirr + nirreps r) outs' ins
      end
  end.
Definition element_info (b : blocks) (idx : Z) : res (info X) :=
  assert (Z.leb 0 idx && Z.ltb idx (Z.of_nat (bb_dim b))) ;;
  let idx := Z.to_nat idx in
  pr <- find_range idx (bb_ranges b) ;;
  let '(p, relative) := pr in
  e <- module_of b p ;;
  (* 172-173 `//` and `%` by zero *)
  assert (negb (Nat.eqb (dimension e) 0)) ;;
  a <- single_info e (relative mod dimension e) ;;
  match a with
  | None => Raise
  | Some a =>
      f <- search_out p (relative / dimension e) 0 0 0 (bb_out b) (bb_in b) ;;
      let '((o, oirr), (i, iirr)) := f in
      Ret (mk_info idx p o oirr i iirr a)
  end.

(** get_basis_info 220-281, basissampler_blocks.py:204-265. 222-232: the irreps before a field, the fields by name *)
Definition irreps_counts (l : list A) : list nat := fold_left (fun c r => c ++ [List.last c 0 + nirreps r]) l [0].
Definition block_counts (l : list A) : list (string * list nat) := fields_by_label String.eqb (map name l).
Definition defaulted (d : list (string * list nat)) (l : string) : list nat := match dget String.eqb d l with Some x => x | None => [] end.
(** 252-281 *)
Fixpoint emit (dim idx : nat) (p : string * string) (o oirr i iirr : nat) (attrs : list (attr X)) : res (list (info X)) :=
  match attrs with
  | [] => Ret []
  | a :: attrs' => assert (Nat.ltb idx dim) ;; r <- emit dim (idx + 1) p o oirr i iirr attrs' ;; Ret (mk_info idx p o oirr i iirr a :: r)
  end.
(** 237-281, with the number of entries yielded so far as the index *)
Definition emit_pair (b : blocks) (idx : nat) (p : string * string) : res (list (info X)) :=
  e <- module_of b p ;;
  attrs <- single_infos e ;;
  fold_left (fun r oi => l <- r ;;
      let '(o, i) := oi in
      oirr <- get_nth (irreps_counts (bb_out b)) o ;;
      iirr <- get_nth (irreps_counts (bb_in b)) i ;;
      l' <- emit (bb_dim b) (idx + length l) p o oirr i iirr attrs ;;
      Ret (l ++ l'))
    (flat_map (fun o => map (fun i => (o, i)) (defaulted (block_counts (bb_in b)) (fst p))) (defaulted (block_counts (bb_out b)) (snd p)))
    (Ret []).
Definition basis_info (b : blocks) : res (list (info X)) :=
  fold_left (fun r p => l <- r ;; l' <- emit_pair b (length l) p ;; Ret (l ++ l')) (bb_pairs b) (Ret []).

(** _expand_block 286-308: a tensor of shape (out_count, o, in_count, i, S) *)
Record expanded := { ex_oc : nat; ex_o : nat; ex_ic : nat; ex_i : nat; ex_entry : nat -> nat -> nat -> nat -> P -> R }.
Definition expand_block (b : blocks) (weights : list R) (p : string * string) : res expanded :=
  e <- module_of b p ;;
  r <- lookup pair_eqb (bb_ranges b) p ;;
  let coefficients := firstn (snd r - fst r) (skipn (fst r) weights) in
  rows <- view (dimension e) coefficients ;;
  f <- single_forward e rows ;;
  let oc := count (bb_out b) (snd p) in
  let ic := count (bb_in b) (fst p) in
  assert (Nat.eqb (length rows * sg_out e * sg_in e * S) (oc * ic * sg_out e * sg_in e * S)) ;;
  Ret {| ex_oc := oc; ex_o := sg_out e; ex_ic := ic; ex_i := sg_in e;
         ex_entry := fun ko a ki c => f (ko * ic + ki) a c |}.
(** expanded.reshape(n, m, S) *)
Definition reshape (x : expanded) (n m : nat) : res (nat -> nat -> P -> R) :=
  assert (Nat.eqb (ex_oc x * ex_o x * ex_ic x * ex_i x * S) (n * m * S)) ;;
  Ret (fun r c => let t := r * m + c in
         ex_entry x (t / ex_i x / ex_ic x / ex_o x) ((t / ex_i x / ex_ic x) mod ex_o x) ((t / ex_i x) mod ex_ic x) (t mod ex_i x)).

(** Assignment of [v] to the entries whose row is in [rows] and whose column is in [cols] *)
Fixpoint position (l : list nat) (n : nat) : option nat :=
  match l with [] => None | a :: l' => if Nat.eqb a n then Some 0 else option_map Datatypes.S (position l' n) end.
Definition assign (f : nat -> nat -> P -> R) (rows cols : list nat) (v : nat -> nat -> P -> R) : nat -> nat -> P -> R :=
  fun r c p => match position rows r, position cols c with Some r', Some c' => v r' c' p | _, _ => f r c p end.

(** the loop of forward 341-372, basissampler_blocks.py:363-395: the blocks of all pairs, written into a filter of zeros *)
Definition filter_loop (expand : string * string -> res expanded) (b : blocks) : res (nat -> nat -> P -> R) :=
  fold_left (fun r p => f <- r ;;
      k <- key p ;;
      v <- lookup pair_eqb (bb_indices b) k ;;
      x <- expand p ;;
      c <- lookup pair_eqb (bb_contiguous b) p ;;
      rows <- positions (type_size size (bb_out b)) (snd v) ;;
      cols <- positions (type_size size (bb_in b)) (fst v) ;;
      match v, (c : bool) with
      | (Run ia ie, Run oa oe), true => y <- reshape x (oe - oa) (ie - ia) ;; Ret (assign f rows cols y)
      | (Listed _, Listed _), false => y <- reshape x (length rows) (length cols) ;; Ret (assign f rows cols y)
      | _, _ => Raise    (* the indices of a pair are of the kind recorded for it unless escaped names clash *)
      end)
    (bb_pairs b) (Ret (fun _ _ _ => 0%R)).
(** forward 310-378: a filter of shape (output size, input size, S) *)
Definition filter_of (b : blocks) (weights : list R) : res (nat -> nat -> P -> R) :=
  assert (Nat.eqb (length weights) (bb_dim b)) ;;
  if Nat.eqb (bb_npairs b) 1 then
    p <- get_nth (bb_pairs b) 0 ;;
    k <- key p ;;
    v <- lookup pair_eqb (bb_indices b) k ;;
    x <- expand_block b weights p ;;
    match v with
    | (Run ia ie, Run oa oe) => reshape x (oe - oa) (ie - ia)
    | _ => Raise    (* a single pair of representations is always contiguous *)
    end
  else filter_loop (expand_block b weights) b.
End Blocks.
Arguments blocks : clear implicits.

(** BlocksBasisExpansion: attributes are named by the escaped pair *)
Definition escaped (p : string * string) : res (string * string) := Ret (escape_pair p).
Section Expand.
Context {A X : Type}.
Variable S : nat.
Definition mk_blocks (name : A -> string) (size : A -> nat) aeqb order sort (ins outs : list A)
    (generator : A -> A -> res (option (kbasis X nat))) (basis_filter : option (attr X -> bool)) : res (blocks A X nat) :=
  build_blocks escaped (fun b => block_basisexpansion S b basis_filter) name size aeqb order sort ins outs generator.
Definition get_element_info (name : A -> string) (nirreps : A -> nat) (b : blocks A X nat) (idx : Z) : res (info X) := element_info escaped name nirreps b idx.
Definition get_basis_info (name : A -> string) (nirreps : A -> nat) (b : blocks A X nat) : res (list (info X)) := basis_info escaped name nirreps b.
Definition forward (name : A -> string) (size : A -> nat) (b : blocks A X nat) (weights : list R) : res (nat -> nat -> nat -> R) := filter_of S escaped name size b weights.
End Expand.
