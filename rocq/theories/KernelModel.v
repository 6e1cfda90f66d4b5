(** Bases of steerable filters and kernels: escnn/kernels/basis.py,
    steerable_filters_basis.py, steerable_basis.py, wignereckart_solver.py.

    A point is an element of an arbitrary type [P]; the batch of points of the
    library is handled pointwise. The attributes of an element of the filter
    basis are an arbitrary type [A]: the attribute dictionaries built on top of
    them are these attributes together with the keys added.
    [None] is the EmptyBasisException (basis.py:50-51), [Raise] any other. *)
From Coq Require Import Reals List ZArith Arith Bool.
From Verif Require Import LibRes LibMat IrrepModel RepModel.
Import ListNotations.
Open Scope R_scope.

Definition id_eqb (a b : list Z) : bool := if list_eq_dec Z.eq_dec a b then true else false.
Definition id_mem (a : list Z) (l : list (list Z)) : bool := existsb (id_eqb a) l.

(** A dictionary filled by assigning the pairs of [l] in turn: the last wins. *)
Fixpoint last_of {A} (l : list (list Z * A)) (j : list Z) : option A :=
  match l with
  | [] => None
  | (i, a) :: l' => match last_of l' j with
                    | Some b => Some b
                    | None => if id_eqb i j then Some a else None
                    end
  end.
Definition lookup {A} (l : list (list Z * A)) (j : list Z) : res A :=
  match last_of l j with Some a => Ret a | None => Raise end.

(** `d[j] if j in d else default` *)
Definition get_or {A} (d : A) (l : list (list Z * A)) (j : list Z) : A :=
  match last_of l j with Some a => a | None => d end.

Definition enumerate {A} (l : list A) : list (nat * A) := combine (seq 0 (length l)) l.

Fixpoint concatM {A B} (f : A -> res (list B)) (l : list A) : res (list B) :=
  match l with [] => Ret [] | a :: l' => x <- f a ;; y <- concatM f l' ;; Ret (x ++ y) end.

(** The loop `for a in l: if i < dim(a): break; else: i -= dim(a)`: the entry
    reached and the remaining index; [None] if the loop ends without a break. *)
Fixpoint locate {A} (dim : A -> nat) (l : list A) (i : nat) : option (A * nat) :=
  match l with
  | [] => None
  | a :: l' => if Nat.ltb i (dim a) then Some (a, i) else locate dim l' (i - dim a)%nat
  end.

(** SteerableFiltersBasis steerable_filters_basis.py:17-275: the list `js` of
    irreps with multiplicities, `sample` as the value at a point of the element
    with a given index, `steerable_attrs_j` and `steerable_attrs_j_iter`. *)
Record filters (P A : Type) := {
  f_js : list (list Z * nat);
  f_sample : P -> nat -> R;
  f_attr : list Z -> nat -> res A;
  f_attrs : list Z -> res (list A)
}.
Arguments f_js {P A}. Arguments f_sample {P A}. Arguments f_attr {P A}. Arguments f_attrs {P A}.

(** multiplicity steerable_filters_basis.py:187-194 (`_js` filled at 69-76) *)
Definition multiplicity {P A} (F : filters P A) (j : list Z) : nat :=
  get_or 0%nat (f_js F) j.

(** the loop of sample_as_dict steerable_filters_basis.py:165-173: the part
    out[:, p:p+dim] viewed as (m, size) *)
Fixpoint split_blocks {T} (irr : list Z -> res (girrep T)) (js : list (list Z * nat)) (p : nat)
    (v : nat -> R) : res (list (list Z * (nat -> nat -> R))) :=
  match js with
  | [] => Ret []
  | (j, m) :: js' =>
      r <- irr j ;;
      l <- split_blocks irr js' (p + gi_size r * m)%nat v ;;
      Ret ((j, fun i o => v (p + i * gi_size r + o)%nat) :: l)
  end.
(** `sample_as_dict(points)[j]` at one point; entry (i, o). *)
Definition harmonics {T P A} (irr : list Z -> res (girrep T)) (F : filters P A) (x : P) (j : list Z)
    : res (nat -> nat -> R) :=
  d <- split_blocks irr (f_js F) 0 (f_sample F x) ;; lookup d j.

(** The attributes of an element of a basis for a pair of irreps; [ka_sub] holds
    the keys '_j' and 't' of the restricted basis. *)
Record kattr (A : Type) := {
  ka_idx : nat; ka_j : list Z; ka_sub : option (list Z * nat); ka_i : nat; ka_s : nat; ka_k : nat; ka_own : A
}.
Arguments ka_idx {A}. Arguments ka_j {A}. Arguments ka_sub {A}. Arguments ka_i {A}. Arguments ka_s {A}.
Arguments ka_k {A}. Arguments ka_own {A}.

(** IrrepBasis steerable_basis.py:15-111: [b_harm j idx Y] is element [idx] of
    `sample_harmonics({j: Y})[j]` at one point, [b_attr] and [b_attrs] are attrs_j
    and attrs_j_iter. *)
Record ibasis (T A : Type) := {
  b_in : girrep T; b_out : girrep T; b_js : list (list Z); b_dim : nat;
  b_dimh : list Z -> nat;
  b_harm : list Z -> nat -> (nat -> nat -> R) -> res mat;
  b_attr : list Z -> nat -> res (kattr A);
  b_attrs : list Z -> res (list (kattr A))
}.
Arguments b_in {T A}. Arguments b_out {T A}. Arguments b_js {T A}. Arguments b_dim {T A}. Arguments b_dimh {T A}.
Arguments b_harm {T A}. Arguments b_attr {T A}. Arguments b_attrs {T A}.

(** self.js steerable_basis.py:64-68 *)
Fixpoint keep_js (seen : list (list Z)) (harm : list (list Z)) (js : list (list Z * nat)) : list (list Z) :=
  match js with
  | [] => []
  | (j, _) :: js' => if negb (id_mem j seen) && id_mem j harm
                     then j :: keep_js (j :: seen) harm js' else keep_js seen harm js'
  end.
(** self._start_index steerable_basis.py:70-74 (the ids of self.js are distinct) *)
Fixpoint start_index (dimh : list Z -> nat) (js : list (list Z)) (j : list Z) : res nat :=
  match js with
  | [] => Raise
  | i :: js' => if id_eqb i j then Ret 0%nat
                else n <- start_index dimh js' j ;; Ret (dimh i + n)%nat
  end.

(** IrrepBasis.sample steerable_basis.py:76-111: element [idx] at one point. *)
Definition b_sample {T G P A} (irrF : list Z -> res (girrep G)) (F : filters P A) (b : ibasis T A) (x : P) (idx : nat)
    : res mat :=
  match locate (b_dimh b) (b_js b) idx with
  | None => Raise
  | Some (j, i) => Y <- harmonics irrF F x j ;; b_harm b j i Y
  end.
(** __getitem__ wignereckart_solver.py:189-200 and 486-497; when the loop ends
    without a break attrs_j raises. *)
Definition b_get {T A} (b : ibasis T A) (idx : nat) : res (kattr A) :=
  assert (Nat.ltb idx (b_dim b)) ;;
  match locate (b_dimh b) (b_js b) idx with None => Raise | Some (j, i) => b_attr b j i end.
(** __iter__ wignereckart_solver.py:202-206 and 499-503 *)
Definition b_iter {T A} (b : ibasis T A) : res (list (kattr A)) := concatM (b_attrs b) (b_js b).

(** WignerEckartBasis wignereckart_solver.py:20-206. [tpi m n] is
    `group._tensor_product_irreps(m, n)` and [cg n m j] is
    `group._clebsh_gordan_coeff(n, m, j)`. *)
Section WignerEckart.
Context {T P A : Type}.
Variable irr : list Z -> res (girrep T).
Variable tpi : list Z -> list Z -> res (list (list Z * nat)).
Variable cg : list Z -> list Z -> list Z -> res arr4.

(** 'mnsi,koi->ksmno', wignereckart_solver.py:75-82: entry (k, s, m, n, o) *)
Definition we_coeff (C : arr4) (r : girrep T) (k s m n o : nat) : R :=
  sumn (gi_size r) (fun i => a_at C m n s i * nth k (gi_endo r) mzero o i).

(** sample_harmonics 94-130: the view has shape (sum_of_squares, jJl, multiplicity),
    so element [idx] is the triple (k, s, i) below; 'kspnm,qim->qksipn'. A
    disagreement of the shapes raises (broadcasting a dimension 1 is not
    modelled). *)
Definition we_harm (ro ri : girrep T) (mu : nat) (C : arr4) (r : girrep T) (idx : nat) (Y : nat -> nat -> R)
    : res mat :=
  let S := a_d2 C in
  assert (Nat.eqb (a_d0 C) (gi_size ro) && Nat.eqb (a_d1 C) (gi_size ri) &&
          Nat.eqb (length (gi_endo r)) (gi_sosc r)) ;;
  let i := (idx mod mu)%nat in let s := ((idx / mu) mod S)%nat in let k := (idx / (mu * S))%nat in
  Ret (fun p n => sumn (gi_size r) (fun m => we_coeff C r k s p n m * Y i m)).

Definition mk_we (F : filters P A) (m n : list Z) : res (option (ibasis T A)) :=
  ri <- irr m ;; ro <- irr n ;;
  tj <- tpi m n ;;
  let tj := filter (fun p => Nat.ltb 0 (multiplicity F (fst p))) tj in
  dh <- mapM (fun p => r <- irr (fst p) ;;
                       Ret (fst p, (multiplicity F (fst p) * snd p * gi_sosc r)%nat)) tj ;;
  let dim := list_sum (map snd dh) in
  if Nat.eqb dim 0 then Ret None else
  let js := keep_js [] (map fst tj) (f_js F) in
  let dimh := get_or 0%nat dh in
  let jJl := get_or 0%nat tj in
  coeffs <- mapM (fun j => C <- cg n m j ;; r <- irr j ;;
                           assert (Nat.eqb (a_d3 C) (gi_size r)) ;;
                           assert (Nat.eqb (jJl j) (a_d2 C)) ;; Ret (j, (C, r))) js ;;
  Ret (Some {|
    b_in := ri; b_out := ro; b_js := js; b_dim := dim; b_dimh := dimh;
    b_harm := fun j idx Y => Cr <- lookup coeffs j ;;
                we_harm ro ri (multiplicity F j) (fst Cr) (snd Cr) idx Y;
    (* attrs_j 165-187 *)
    b_attr := fun j idx =>
      assert (Nat.ltb idx (dimh j)) ;;
      st <- start_index dimh js j ;;
      let d := multiplicity F j in
      let i := (idx mod d)%nat in
      a <- f_attr F j i ;;
      Ret {| ka_idx := st + idx; ka_j := j; ka_sub := None; ka_i := i;
             ka_s := (idx / d) mod (jJl j); ka_k := idx / (d * jJl j); ka_own := a |};
    (* attrs_j_iter 138-163 *)
    b_attrs := fun j =>
      if Nat.eqb (dimh j) 0 then Ret [] else
      st <- start_index dimh js j ;;
      l <- f_attrs F j ;;
      r <- irr j ;;
      let els := flat_map (fun k => flat_map (fun s => map (fun ia => (k, s, ia)) (enumerate l))
                                             (seq 0 (jJl j))) (seq 0 (gi_sosc r)) in
      Ret (map (fun q => let '(n, (k, s, ia)) := q in
             {| ka_idx := st + n; ka_j := j; ka_sub := None; ka_i := fst ia;
                ka_s := s; ka_k := k; ka_own := snd ia |}) (enumerate els))
  |}).
End WignerEckart.

(** RestrictedWignerEckartBasis wignereckart_solver.py:246-503: the filter basis
    is steerable by the group G' with irreps [irrF], the irreps [irr] are those
    of the subgroup G; [restr j] is `_G.irrep( *j ).restrict(sg_id)`. *)
Section Restricted.
Context {G T P A : Type}.
Variable irrF : list Z -> res (girrep G).
Variable irr : list Z -> res (girrep T).
Variable restr : list Z -> res (repr T).
Variable tpi : list Z -> list Z -> res (list (list Z * nat)).
Variable cg : list Z -> list Z -> list Z -> res arr4.

(** the positions [p] of the constituents equal to [j], 313-326 *)
Fixpoint offsets (j : list Z) (ids : list (list Z)) (p : nat) : res (list nat) :=
  match ids with
  | [] => Ret []
  | i :: ids' => r <- irr i ;; l <- offsets j ids' (p + gi_size r)%nat ;;
                 Ret (if id_eqb i j then p :: l else l)
  end.

(** 'nmsi,kji,jyt->kstnmy' for the constituent at position [p]: entry (n, m, y) *)
Definition rw_coeff (C : arr4) (r : girrep T) (inv : mat) (k s p n m y : nat) : R :=
  sumn (gi_size r) (fun i => sumn (gi_size r) (fun a =>
    a_at C n m s i * nth k (gi_endo r) mzero a i * inv (p + a)%nat y)).

(** One entry of `_js_restriction[_j]`: the irrep, the number of its copies, the
    size of axis 2 of its coefficients, its sum of squares and the slices of the
    coefficients. *)
Record rpart := { rp_j : list Z; rp_t : nat; rp_S : nat; rp_K : nat;
                  rp_coeffs : list (nat -> nat -> nat -> R) }.

Definition rw_part (ro ri : girrep T) (m n : list Z) (ys : nat) (rj : repr T) (j : list Z) : res (list rpart) :=
  offs <- offsets j (r_irreps rj) 0 ;;
  match offs with
  | [] => Ret []
  | _ =>
      C <- cg n m j ;; r <- irr j ;;
      (* the einsum and the reshape to (-1, out, in, Y_size) *)
      assert (Nat.eqb (a_d3 C) (gi_size r) && Nat.eqb (a_d0 C) (gi_size ro) && Nat.eqb (a_d1 C) (gi_size ri)
              && Nat.eqb (r_size rj) ys) ;;
      Ret [{| rp_j := j; rp_t := length offs; rp_S := a_d2 C; rp_K := gi_sosc r;
              rp_coeffs := flat_map (fun k => flat_map (fun s => map (fun p => rw_coeff C r (r_inv rj) k s p) offs)
                                                       (seq 0 (a_d2 C))) (seq 0 (length (gi_endo r))) |}]
  end.

Definition rw_dim (ps : list rpart) : nat := length (flat_map rp_coeffs ps).

(** The constructor visits the distinct irreps of `basis.js` in the order of a
    Python set and sorts the kept ones; neither order matters because
    IrrepBasis.__init__ keeps the order of `basis.js`. *)
Definition mk_rwe (F : filters P A) (m n : list Z) : res (option (ibasis T A)) :=
  ri <- irr m ;; ro <- irr n ;;
  tj <- tpi m n ;;
  let cand := filter (fun j => Nat.ltb 0 (multiplicity F j)) (keep_js [] (map fst (f_js F)) (f_js F)) in
  parts <- mapM (fun j' => s <- irrF j' ;; rj <- restr j' ;;
                   ps <- concatM (fun p => rw_part ro ri m n (gi_size s) rj (fst p)) tj ;; Ret (j', ps)) cand ;;
  let parts := filter (fun q => negb (Nat.eqb (length (snd q)) 0)) parts in
  let dim := list_sum (map (fun q => rw_dim (snd q) * multiplicity F (fst q))%nat parts) in
  if Nat.eqb dim 0 then Ret None else
  let js := keep_js [] (map fst parts) (f_js F) in
  let of := get_or [] parts in
  let dimh j := (multiplicity F j * rw_dim (of j))%nat in
  Ret (Some {|
    b_in := ri; b_out := ro; b_js := js; b_dim := dim; b_dimh := dimh;
    (* sample_harmonics 371-400: 'dpnm,sim->sdipn' *)
    b_harm := fun j idx Y =>
      s <- irrF j ;;
      let mu := multiplicity F j in
      let c := nth (idx / mu)%nat (flat_map rp_coeffs (of j)) (fun _ _ _ => 0) in
      Ret (fun p n => sumn (gi_size s) (fun y => c p n y * Y (idx mod mu)%nat y));
    (* attrs_j 451-484 *)
    b_attr := fun j idx =>
      assert (Nat.ltb idx (dimh j)) ;;
      st <- start_index dimh js j ;;
      let d := multiplicity F j in
      match locate (fun q => rp_t q * rp_S q * rp_K q * d)%nat (of j) idx with
      | None => Raise
      | Some (q, i0) =>
          let i := (i0 mod d)%nat in
          a <- f_attr F j i ;;
          Ret {| ka_idx := st + idx; ka_j := j; ka_sub := Some (rp_j q, (i0 / d) mod (rp_t q)); ka_i := i;
                 ka_s := (i0 / (d * rp_t q)) mod (rp_S q); ka_k := i0 / (d * rp_t q * rp_S q); ka_own := a |}
      end;
    (* attrs_j_iter 408-449 *)
    b_attrs := fun j =>
      if Nat.eqb (dimh j) 0 then Ret [] else
      st <- start_index dimh js j ;;
      l <- f_attrs F j ;;
      let els := flat_map (fun q =>
                   flat_map (fun k => flat_map (fun s => flat_map (fun t => map (fun ia => (rp_j q, t, s, k, ia)) (enumerate l))
                     (seq 0 (rp_t q))) (seq 0 (rp_S q))) (seq 0 (rp_K q))) (of j) in
      assert (Nat.leb (st + length els) dim) ;;
      assert (Nat.eqb (length els) (dimh j)) ;;
      Ret (map (fun q => let '(n, (j', t, s, k, ia)) := q in
             {| ka_idx := st + n; ka_j := j; ka_sub := Some (j', t); ka_i := fst ia;
                ka_s := s; ka_k := k; ka_own := snd ia |}) (enumerate els))
  |}).
End Restricted.

(** UnionBasis basis.py:167-257, for bases given by dimension, shape, sample,
    __getitem__ and __iter__; [idx_of] reads the key 'idx'. The attributes added
    are 'basis_id', 'basis_idx' and 'idx'. *)
Record kbasis (P X : Type) := {
  k_dim : nat; k_shape : nat * nat; k_sample : P -> nat -> res mat; k_get : nat -> res X; k_iter : res (list X)
}.
Arguments k_dim {P X}. Arguments k_shape {P X}. Arguments k_sample {P X}. Arguments k_get {P X}. Arguments k_iter {P X}.
Record uattr (X : Type) := { u_own : X; u_id : nat; u_own_idx : nat; u_idx : nat }.
Arguments u_own {X}. Arguments u_id {X}. Arguments u_own_idx {X}. Arguments u_idx {X}.

Definition mk_union {P X} (idx_of : X -> nat) (bs : list (kbasis P X)) : res (option (kbasis P (uattr X))) :=
  match bs with
  | [] => Ret None
  | b0 :: _ =>
      assert (forallb (fun b => Nat.eqb (fst (k_shape b)) (fst (k_shape b0)) &&
                                Nat.eqb (snd (k_shape b)) (snd (k_shape b0))) bs) ;;
      let dim := list_sum (map k_dim bs) in
      if Nat.eqb dim 0 then Ret None else
      let find idx := locate (fun q => k_dim (snd q)) (enumerate bs) idx in
      Ret (Some {|
        k_dim := dim; k_shape := k_shape b0;
        k_sample := fun x idx => match find idx with None => Raise | Some (q, i) => k_sample (snd q) x i end;
        k_get := fun idx =>
          assert (Nat.ltb idx dim) ;;
          match find idx with
          | None => Raise
          | Some (q, i) => a <- k_get (snd q) i ;;
              Ret {| u_own := a; u_id := fst q; u_own_idx := idx_of a; u_idx := idx |}
          end;
        k_iter :=
          l <- concatM (fun q => xs <- k_iter (snd q) ;; Ret (map (fun a => (fst q, a)) xs)) (enumerate bs) ;;
          assert (Nat.leb (length l) dim) ;;
          Ret (map (fun q => {| u_own := snd (snd q); u_id := fst (snd q);
                                u_own_idx := idx_of (snd (snd q)); u_idx := fst q |}) (enumerate l))
      |})
  end.

(** SteerableKernelBasis steerable_basis.py:168-552. [gen i o] is
    `irreps_basis._generator(basis, i, o)`, [triv] the id of the trivial irrep of
    `basis.group`. The generator is called once per pair of positions instead of
    once per pair of distinct irreps; it has no other effect than its result. *)
Record sattr (A : Type) := {
  sa_own : kattr A; sa_shape : nat * nat; sa_idx : nat; sa_j : list Z; sa_j_idx : nat;
  sa_in : list Z; sa_out : list Z; sa_ii : nat; sa_oo : nat
}.
Arguments sa_own {A}. Arguments sa_shape {A}. Arguments sa_idx {A}. Arguments sa_j {A}. Arguments sa_j_idx {A}.
Arguments sa_in {A}. Arguments sa_out {A}. Arguments sa_ii {A}. Arguments sa_oo {A}.

(** One nonempty entry (ii, oo) of `self.bases`, with the offsets of its block. *)
Record spair (T A : Type) := {
  sp_ii : nat; sp_oo : nat; sp_in : list Z; sp_out : list Z; sp_ip : nat; sp_op : nat; sp_b : ibasis T A
}.
Arguments sp_ii {T A}. Arguments sp_oo {T A}. Arguments sp_in {T A}. Arguments sp_out {T A}. Arguments sp_ip {T A}.
Arguments sp_op {T A}. Arguments sp_b {T A}.

Record skbasis (T A : Type) := {
  sk_size_out : nat; sk_size_in : nat; sk_pairs : list (spair T A); sk_js : list (list Z); sk_dim : nat;
  sk_A : option mat; sk_B : option mat
}.
Arguments sk_size_out {T A}. Arguments sk_size_in {T A}. Arguments sk_pairs {T A}. Arguments sk_js {T A}.
Arguments sk_dim {T A}. Arguments sk_A {T A}. Arguments sk_B {T A}.

Section Kernel.
Context {G T P A : Type}.
Variable irrF : list Z -> res (girrep G).
Variable irr : list Z -> res (girrep T).
Variable gen : list Z -> list Z -> res (option (ibasis T A)).
Variable triv : list Z.

(** the loops 257-269 and 312-330 over the outputs and the inputs *)
Fixpoint out_pairs (ii ip : nat) (i : list Z) (oo op : nat) (os : list (list Z)) : res (list (spair T A)) :=
  match os with
  | [] => Ret []
  | o :: os' =>
      b <- gen i o ;; ro <- irr o ;;
      l <- out_pairs ii ip i (S oo) (op + gi_size ro)%nat os' ;;
      Ret (match b with
           | None => l
           | Some b => {| sp_ii := ii; sp_oo := oo; sp_in := i; sp_out := o; sp_ip := ip; sp_op := op; sp_b := b |} :: l
           end)
  end.
Fixpoint in_pairs (ii ip : nat) (is os : list (list Z)) : res (list (spair T A)) :=
  match is with
  | [] => Ret []
  | i :: is' =>
      l <- out_pairs ii ip i 0 0 os ;; ri <- irr i ;;
      l' <- in_pairs (S ii) (ip + gi_size ri)%nat is' os ;; Ret (l ++ l')
  end.

(** list.remove *)
Fixpoint remove_first (a : list Z) (l : list (list Z)) : list (list Z) :=
  match l with [] => [] | b :: l' => if id_eqb b a then l' else b :: remove_first a l' end.
(** self.js 296-301 *)
Definition order_js (F : filters P A) (js : list (list Z)) : list (list Z) :=
  let l := filter (fun j => id_mem j js) (map fst (f_js F)) in
  if id_mem triv l then triv :: remove_first triv l else l.

Definition mk_skb (F : filters P A) (rin rout : repr T) : res (option (skbasis T A)) :=
  pairs <- in_pairs 0 0 (r_irreps rin) (r_irreps rout) ;;
  let dim := list_sum (map (fun q => b_dim (sp_b q)) pairs) in
  if Nat.eqb dim 0 then Ret None else
  Ret (Some {| sk_size_out := r_size rout; sk_size_in := r_size rin; sk_pairs := pairs;
               sk_js := order_js F (flat_map (fun q => b_js (sp_b q)) pairs); sk_dim := dim;
               sk_A := if allclose (r_size rin) (r_size rin) (r_inv rin) mid then None else Some (r_inv rin);
               sk_B := if allclose (r_size rout) (r_size rout) (r_cob rout) mid then None else Some (r_cob rout) |}).

(** self._dim_harmonics 257-269 *)
Definition pair_dimh (j : list Z) (q : spair T A) : nat :=
  if id_mem j (b_js (sp_b q)) then b_dimh (sp_b q) j else 0%nat.
Definition sk_dimh (k : skbasis T A) (j : list Z) : nat := list_sum (map (pair_dimh j) (sk_pairs k)).

(** the block [M] of the pair [q] written at its offsets into zeros *)
Definition embed (q : spair T A) (M : mat) : mat := fun a b =>
  if Nat.leb (sp_op q) a && Nat.ltb a (sp_op q + gi_size (b_out (sp_b q))) &&
     Nat.leb (sp_ip q) b && Nat.ltb b (sp_ip q + gi_size (b_in (sp_b q)))
  then M (a - sp_op q)%nat (b - sp_ip q)%nat else 0.
(** _change_of_basis 463-479 *)
Definition sk_cob (k : skbasis T A) (M : mat) : mat :=
  let M1 := match sk_B k with None => M | Some B => mmul (sk_size_out k) B M end in
  match sk_A k with None => M1 | Some Ai => mmul (sk_size_in k) M1 Ai end.

(** sample 350-385, sample_harmonics 387-429, _sample_direct_sum 431-461: element
    [idx] at one point. The slice [b_s:b_e] of the pairs partition the elements of
    each irrep of the filter basis in the order of the pairs. *)
Definition sk_sample (F : filters P A) (k : skbasis T A) (x : P) (idx : nat) : res mat :=
  match locate (sk_dimh k) (sk_js k) idx with
  | None => Raise
  | Some (j, i) =>
      match locate (pair_dimh j) (sk_pairs k) i with
      | None => Raise
      | Some (q, i') => Y <- harmonics irrF F x j ;; M <- b_harm (sp_b q) j i' Y ;; Ret (sk_cob k (embed q M))
      end
  end.

Definition s_attr (q : spair T A) (idx : nat) (j : list Z) (j_idx : nat) (a : kattr A) : sattr A :=
  {| sa_own := a; sa_shape := (gi_size (b_out (sp_b q)), gi_size (b_in (sp_b q))); sa_idx := idx; sa_j := j;
     sa_j_idx := j_idx; sa_in := sp_in q; sa_out := sp_out q; sa_ii := sp_ii q; sa_oo := sp_oo q |}.
(** __getitem__ 481-520; the Python function returns None when no pair contains
    the index, here [Raise]. *)
Definition sk_get (k : skbasis T A) (idx : nat) : res (sattr A) :=
  assert (Nat.ltb idx (sk_dim k)) ;;
  match locate (sk_dimh k) (sk_js k) idx with
  | None => Raise
  | Some (j, i) =>
      match locate (fun q => b_dimh (sp_b q) j) (sk_pairs k) i with
      | None => Raise
      | Some (q, i') => a <- b_attr (sp_b q) j i' ;; Ret (s_attr q idx j i a)
      end
  end.
(** __iter__ 522-552 *)
Definition sk_iter (k : skbasis T A) : res (list (sattr A)) :=
  l <- concatM (fun j =>
         l <- concatM (fun q => xs <- b_attrs (sp_b q) j ;; Ret (map (fun a => (q, a)) xs)) (sk_pairs k) ;;
         Ret (map (fun x => (j, x)) (enumerate l))) (sk_js k) ;;
  assert (Nat.leb (length l) (sk_dim k)) ;;
  Ret (map (fun y => let '(idx, (j, (j_idx, (q, a)))) := y in s_attr q idx j j_idx a) (enumerate l)).
End Kernel.

(** PointBasis steerable_filters_basis.py:278-346: one constant filter; the
    attributes are constant, and the None of steerable_attrs_j for another irrep
    is [Raise]. *)
Definition point_filters (P : Type) (triv : list Z) : filters P unit :=
  {| f_js := [(triv, 1%nat)]; f_sample := fun _ _ => 1%R;
     f_attr := fun j idx => assert (id_eqb j triv) ;; assert (Nat.eqb idx 0) ;; Ret tt;
     f_attrs := fun j => Ret (if id_eqb j triv then [tt] else []) |}.
(** kernels_on_point kernels/__init__.py:21-37 *)
Definition kernels_on_point {T} (P : Type) (irr : list Z -> res (girrep T)) (tpi : list Z -> list Z -> res (list (list Z * nat)))
    (cg : list Z -> list Z -> list Z -> res arr4) (triv : list Z) (rin rout : repr T) : res (option (skbasis T unit)) :=
  mk_skb irr (mk_we irr tpi cg (point_filters P triv)) triv (point_filters P triv) rin rout.
