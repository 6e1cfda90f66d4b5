(** Model of the nonlinearities of escnn/nn/modules/nonlinearities that act on
    whole fields: norm.py, induced_norm.py, gated1.py, gated2.py, gated3.py, and
    of FieldType.transform_fibers (escnn/nn/field_type.py:216-261).

    Simplifications. All these maps treat every batch entry and every position
    separately; a tensor is the list of its channel values at one of them.
    Real numbers stand for floats. The parameter eps is 1e-10. A representation
    is an element of an arbitrary type [A] with its size, its supported
    nonlinearities and whether it is the trivial representation. *)
From Coq Require Import Reals String List ZArith Arith Bool.
From Verif Require Import LibRes LibPy LibMat ParamModel FieldModel GroupedModel.
Import ListNotations.
Open Scope R_scope.

(** The entries of Representation.supported_nonlinearities *)
Inductive nonlin :=
| NL_pointwise | NL_norm | NL_gate | NL_gated | NL_concatenated | NL_vectorfield
| NL_induced_norm (s : nat) | NL_induced_gate | NL_induced_gated (s : nat).
Definition nl_eqb (a b : nonlin) : bool :=
  match a, b with
  | NL_pointwise, NL_pointwise | NL_norm, NL_norm | NL_gate, NL_gate | NL_gated, NL_gated
  | NL_concatenated, NL_concatenated | NL_vectorfield, NL_vectorfield | NL_induced_gate, NL_induced_gate => true
  | NL_induced_norm s, NL_induced_norm t | NL_induced_gated s, NL_induced_gated t => Nat.eqb s t
  | _, _ => false
  end.

(** ** Real functions *)
Definition lsum (l : list R) : R := fold_right Rplus 0 l.
(** torch.norm *)
Definition vnorm (v : list R) : R := sqrt (lsum (map (fun a => a * a) v)).
Definition relu (t : R) : R := Rmax 0 t.
Definition sigmoid (t : R) : R := / (1 + exp (- t)).
(** torch.nn.functional.softplus with beta = 1 and threshold = 20 *)
Definition softplus (t : R) : R := if Rleb t 20 then ln (1 + exp t) else t.
Definition squash (t : R) : R := t / (1 + t).
Definition eps : R := / 10 ^ 10.
Definition zip_with {X Y Z} (f : X -> Y -> Z) (l : list X) (m : list Y) : res (list Z) :=
  assert (Nat.eqb (List.length l) (List.length m)) ;; Ret (map (fun p => f (fst p) (snd p)) (List.combine l m)).
(** `l[a:a+n]` *)
Definition slice_at {X} (a n : nat) (l : list X) : list X := firstn n (skipn a l).

Section Modules.
Context {A : Type}.
Variable size : A -> nat.
Variable supported : A -> list nonlin.
Variable trivial : A -> bool.
(** equality of field types *)
Variable teqb : list A -> list A -> bool.
Definition supports (nl : nonlin) (r : A) : bool := existsb (nl_eqb nl) (supported r).

(** FieldType.fiber_representation field_type.py:216-226 and transform_fibers
    228-261; [rho] gives the matrix of each representation at the element *)
Definition fiber_representation (rho : A -> mat) (ft : list A) : mat := bdiag (map (fun r => (size r, rho r)) ft).
Definition matvec (n : nat) (M : mat) (x : list R) : list R := map (fun o => sumn n (fun i => M o i * nth i x 0)) (seq 0 n).
Definition transform_fibers (rho : A -> mat) (x : gtensor A R) : gtensor A R :=
  {| g_type := g_type x; g_chans := matvec (type_size size (g_type x)) (fiber_representation rho (g_type x)) (g_chans x) |}.

(** ** NormNonLinearity norm.py *)
(** 57-67 *)
Definition norm_function (softp : bool) (name : string) (bias : bool) : res (R -> R) :=
  if String.eqb name "n_relu" then Ret relu
  else if String.eqb name "n_sigmoid" then Ret sigmoid
  else if softp && String.eqb name "n_softplus" then Ret softplus
  else if String.eqb name "squash" then (if softp && bias then Raise else Ret squash)
  else Raise.
(** The multiplier of a field 168-185: [n] is its norm, [n'] the new norm *)
Definition multiplier (n n' : R) : R := if Rleb n eps then 0 else n' / Rmax n eps.
Definition multipliers (f : R -> R) (bias : option (list R)) (norms : list R) : res (list R) :=
  args <- match bias with Some b => zip_with Rminus norms b | None => Ret norms end ;;
  zip_with multiplier norms (map f args).

Record norm_module := {
  nm_type : list A; nm_function : R -> R; nm_buffers : list (nat * channels);
  nm_order : list nat; nm_bias : bool }.
(** __init__ 23-117; the parameter log_bias has length len(in_type) and is an
    argument of [norm_forward] *)
Definition mk_norm (ft : list A) (name : string) (bias : bool) : res norm_module :=
  assert (forallb (supports NL_norm) ft) ;;
  f <- norm_function true name bias ;;
  bufs <- buffers size Nat.eqb ft (map size ft) ;;
  Ret {| nm_type := ft; nm_function := f; nm_buffers := bufs;
         nm_order := sort_by Nat.leb (map fst bufs); nm_bias := bias |}.
(** the body of the loop of forward 156-196 *)
Definition norm_group (f : R -> R) (biases : option (list R)) (nf : nat -> nat) (s next : nat) (fm : list R) : res (list R) :=
  fields <- view s fm ;;
  m <- multipliers f (option_map (slice_at next (nf s)) biases) (map vnorm fields) ;;
  Ret (flat_map (fun m => repeat m s) m).
(** forward 119-199; [junk] is the content of torch.empty_like *)
Definition norm_forward (m : norm_module) (log_bias junk : list R) (x : gtensor A R) : res (gtensor A R) :=
  assert (teqb (g_type x) (nm_type m)) ;;
  let biases := if nm_bias m then Some (map exp log_bias) else None in
  let nf := nfields Nat.eqb (map size (nm_type m)) in
  mult <- grouped_loop Nat.eqb nf (nm_buffers m) (nm_buffers m) (norm_group (nm_function m) biases nf) (g_chans x) (nm_order m) 0 junk ;;
  y <- zip_with Rmult (g_chans x) mult ;;
  mk_gtensor size (nm_type m) y.

(** ** InducedNormNonLinearity induced_norm.py *)
(** 83-89 (also invariantmaps/induced_norm.py:68-74): the size of the sub-fields *)
Fixpoint subfield_loop (n : nat) (l : list nonlin) (found : option nat) : res (option nat) :=
  match l with
  | [] => Ret found
  | NL_induced_norm s :: l' =>
      match found with
      | Some _ => Raise
      | None => assert (negb (Nat.eqb s 0)) ;; assert (Nat.eqb (n mod s) 0) ;; subfield_loop n l' (Some s)
      end
  | _ :: l' => subfield_loop n l' found
  end.
Definition subfield (r : A) : res (nat * nat) :=
  s <- subfield_loop (size r) (supported r) None ;;
  match s with Some s => Ret (size r, s) | None => Raise end.
Definition pair_eqb (a b : nat * nat) : bool := Nat.eqb (fst a) (fst b) && Nat.eqb (snd a) (snd b).
Record inorm_module := {
  in_type : list A; in_ids : list (nat * nat); in_function : R -> R; in_buffers : list ((nat * nat) * channels);
  in_order : list (nat * nat); in_bias : bool }.
(** 23-122 *)
Definition mk_inorm (ft : list A) (name : string) (bias : bool) : res inorm_module :=
  f <- norm_function false name bias ;;
  ids <- mapM subfield ft ;;
  bufs <- buffers size pair_eqb ft ids ;;
  Ret {| in_type := ft; in_ids := ids; in_function := f; in_buffers := bufs;
         in_order := sort_by size_leb (map fst bufs); in_bias := bias |}.
(** 158-208: one bias per field, repeated for its sub-fields *)
Definition inorm_group (f : R -> R) (biases : option (list R)) (nf : nat * nat -> nat) (id : nat * nat) (next : nat) (fm : list R) : res (list R) :=
  fields <- view (snd id) fm ;;
  m <- multipliers f (option_map (fun b => flat_map (fun c => repeat c (fst id / snd id)) (slice_at next (nf id) b)) biases) (map vnorm fields) ;;
  Ret (flat_map (fun m => repeat m (snd id)) m).
Definition inorm_forward (m : inorm_module) (log_bias junk : list R) (x : gtensor A R) : res (gtensor A R) :=
  assert (teqb (g_type x) (in_type m)) ;;
  let biases := if in_bias m then Some (map exp log_bias) else None in
  let nf := nfields pair_eqb (in_ids m) in
  mult <- grouped_loop pair_eqb nf (in_buffers m) (in_buffers m) (inorm_group (in_function m) biases nf) (g_chans x) (in_order m) 0 junk ;;
  y <- zip_with Rmult (g_chans x) mult ;;
  mk_gtensor size (in_type m) y.

(** ** GatedNonLinearity1 gated1.py *)
Inductive gate := GateField | GatedField | OtherName.
Definition is_gate (g : gate) : bool := match g with GateField => true | _ => false end.
Definition is_gated (g : gate) : bool := match g with GatedField => true | _ => false end.
(** the dictionaries are keyed by GATES_ID ([None]) or by a size *)
Definition key_eqb (a b : option nat) : bool :=
  match a, b with None, None => true | Some s, Some t => Nat.eqb s t | _, _ => false end.
Definition keep_field (drop : bool) (l : option nat) : bool := match l with None => negb drop | Some _ => true end.
Record gated_module := {
  gm_in : list A; gm_out : list A; gm_labels : list (option nat);
  gm_inb : list (option nat * channels); gm_outb : list (option nat * channels);
  gm_order : list (option nat); gm_drop : bool; gm_ngates : nat }.
(** 29-174 *)
Definition mk_gated1 (ft : list A) (gates : option (list gate)) (drop : bool) : res gated_module :=
  gates <- match gates with
           | Some g => Ret g
           | None => assert (Nat.eqb (List.length ft mod 2) 0) ;;
                     Ret (repeat GateField (List.length ft / 2) ++ repeat GatedField (List.length ft / 2))%list
           end ;;
  assert (Nat.eqb (List.length gates) (List.length ft)) ;;
  (* 88-97 *)
  assert (forallb (fun gr => match fst gr with
                             | GateField => trivial (snd gr)
                             | GatedField => supports NL_gated (snd gr)
                             | OtherName => false
                             end) (List.combine gates ft)) ;;
  let ngates := List.length (filter is_gate gates) in
  assert (Nat.eqb ngates (List.length (filter is_gated gates))) ;;
  out <- (if drop then
            index_select ft (map (fun gi => Z.of_nat (snd gi)) (filter (fun gi => is_gated (fst gi)) (List.combine gates (seq 0 (List.length gates)))))
          else Ret ft) ;;
  (* 119-140 *)
  let labels := map (fun gr => if is_gate (fst gr) then None else Some (size (snd gr))) (List.combine gates ft) in
  let kept := filter (fun lr => keep_field drop (fst lr)) (List.combine labels ft) in
  let iidx := indices_by_label size key_eqb [] 0 labels ft in
  let oidx := indices_by_label size key_eqb [] 0 (map fst kept) (map snd kept) in
  let cont := contiguous_labels key_eqb [] None labels in
  (* 148-164 *)
  inb <- mapM (buffer key_eqb iidx) cont ;;
  outb <- mapM (buffer key_eqb oidx) (filter (fun lc => keep_field drop (fst lc)) cont) ;;
  (* 167-171 *)
  _ <- lookup key_eqb inb None ;;
  let sizes := sort_by Nat.leb (flat_map (fun lc => match fst lc with Some s => [s] | None => [] end) inb) in
  Ret {| gm_in := ft; gm_out := out; gm_labels := labels; gm_inb := inb; gm_outb := outb;
         gm_order := map Some sizes; gm_drop := drop; gm_ngates := ngates |}.
(** 226-247 *)
Definition gated_group (gates : list R) (nf : option nat -> nat) (l : option nat) (next : nat) (fm : list R) : res (list R) :=
  match l with
  | None => Raise
  | Some s =>
      fields <- view s fm ;;
      out <- zip_with (fun v g => map (fun a => a * g) v) fields (slice_at next (nf l) gates) ;;
      Ret (concat out)
  end.
(** forward 176-253; [bias] is the parameter of length ngates *)
Definition gated1_forward (m : gated_module) (bias junk : list R) (x : gtensor A R) : res (gtensor A R) :=
  assert (teqb (g_type x) (gm_in m)) ;;
  gi <- lookup key_eqb (gm_inb m) None ;;
  g <- read (g_chans x) gi ;;
  gates <- zip_with (fun v b => sigmoid (v - b)) g bias ;;
  out <- (if gm_drop m then Ret junk else write junk gi gates) ;;
  let nf := nfields key_eqb (gm_labels m) in
  y <- grouped_loop key_eqb nf (gm_inb m) (gm_outb m) (gated_group gates nf) (g_chans x) (gm_order m) 0 out ;;
  mk_gtensor size (gm_out m) y.

(** ** GatedNonLinearity2 gated2.py *)
Record gated2_module := { g2_gates : list A; g2_in : list A; g2_buffers : list (nat * channels); g2_order : list nat }.
(** 26-132 *)
Definition mk_gated2 (gts ft : list A) : res gated2_module :=
  assert (forallb trivial gts) ;;
  assert (forallb (supports NL_gated) ft) ;;
  assert (Nat.eqb (List.length gts) (List.length ft)) ;;
  bufs <- buffers size Nat.eqb ft (map size ft) ;;
  Ret {| g2_gates := gts; g2_in := ft; g2_buffers := bufs; g2_order := sort_by Nat.leb (map fst bufs) |}.
Definition gated2_group (gates : list R) (nf : nat -> nat) (s next : nat) (fm : list R) : res (list R) :=
  fields <- view s fm ;;
  out <- zip_with (fun v g => map (fun a => a * g) v) fields (slice_at next (nf s) gates) ;;
  Ret (concat out).
(** forward 134-207 *)
Definition gated2_forward (m : gated2_module) (bias junk : list R) (g x : gtensor A R) : res (gtensor A R) :=
  assert (teqb (g_type g) (g2_gates m)) ;;
  assert (teqb (g_type x) (g2_in m)) ;;
  gates <- zip_with (fun v b => sigmoid (v - b)) (g_chans g) bias ;;
  let nf := nfields Nat.eqb (map size (g2_in m)) in
  y <- grouped_loop Nat.eqb nf (g2_buffers m) (g2_buffers m) (gated2_group gates nf) (g_chans x) (g2_order m) 0 junk ;;
  mk_gtensor size (g2_in m) y.
End Modules.

(** ** GatedNonLinearityUniform gated3.py: all the fields have the same
    representation, a direct sum of irreps of type [I] (change of basis exactly
    the identity; the check at 64 allows a small distance) *)
Section Uniform.
Context {I : Type}.
Variable isize : I -> nat.
Variable itrivial : I -> bool.
Definition irr_size (l : list I) : nat := list_sum (map isize l).
Record gated3_module := { g3_irreps : list I; g3_fields : nat; g3_gated : list I; g3_ngates : nat }.
(** 24-100 *)
Definition mk_gated3 (irreps : list I) (n : nat) : res gated3_module :=
  assert (Nat.eqb (List.length irreps mod 2) 0) ;;
  let k := (List.length irreps / 2)%nat in
  assert (forallb itrivial (firstn k irreps)) ;;
  Ret {| g3_irreps := irreps; g3_fields := n; g3_gated := skipn k irreps; g3_ngates := k |}.
(** 90-97: the matrix expansion *)
Fixpoint expansion (p i : nat) (gated : list I) : mat :=
  match gated with
  | [] => mzero
  | q :: gated' => fun a b => if Nat.leb p a && Nat.ltb a (p + isize q) && Nat.eqb b i then 1 else expansion (p + isize q) (S i) gated' a b
  end.
(** forward 102-140, for one field; [bias] is bias[0, field, :] *)
Definition gated3_field (m : gated3_module) (gate : R -> R) (bias x : list R) : res (list R) :=
  let gates := firstn (g3_ngates m) x in
  let features := skipn (g3_ngates m) x in
  gates <- zip_with (fun v b => gate (v - b)) gates bias ;;
  let n := irr_size (g3_gated m) in
  let expanded := map (fun o => sumn (g3_ngates m) (fun i => expansion 0 0 (g3_gated m) o i * nth i gates 0)) (seq 0 n) in
  assert (Nat.eqb n (List.length features)) ;;
  zip_with Rmult expanded features.
Definition gated3_forward (m : gated3_module) (gate : R -> R) (bias : list (list R)) (x : list R) : res (list R) :=
  fields <- view (irr_size (g3_irreps m)) x ;;
  assert (Nat.eqb (List.length fields) (g3_fields m)) ;;
  out <- zip_with (fun v b => gated3_field m gate b v) fields bias ;;
  y <- mapM (fun r => r) out ;;
  Ret (concat y).
End Uniform.
