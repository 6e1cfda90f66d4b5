(** Model of field types and geometric tensors (escnn/nn/field_type.py,
    escnn/nn/geometric_tensor.py) and of the modules that only move fields
    around (escnn/nn/modules/{reshuffle,branching,merge}_module.py, utils.py).

    Simplifications. A field type is the list of its representations; a
    representation is an element of an arbitrary type [A] of which only the
    number of channels [size] matters here. The gspace is fixed, so the checks
    that two gspaces or groups agree always pass. A tensor is the list of its
    channels: a channel is the slice tensor[:, c, ...] over batch and space, an
    element of an arbitrary type [V]. `coords` is copied along unchanged and
    left out. np.uint64 offsets do not overflow. *)
From Coq Require Import List ZArith Arith Bool.
From Verif Require Import LibRes LibPy.
Import ListNotations.

Section Field.
Context {A V : Type}.
Variable size : A -> nat.

(** FieldType.__init__ field_type.py:70 (`len(representations) > 0`) *)
Definition mk_type (l : list A) : res (list A) := assert (negb (Nat.eqb (length l) 0)) ;; Ret l.
(** FieldType.size field_type.py:90 *)
Definition type_size (l : list A) : nat := list_sum (map size l).
(** the loops of fields_start field_type.py:519-523 and fields_end 500-504 *)
Fixpoint starts_from (p : nat) (l : list A) : list nat :=
  match l with [] => [] | r :: l' => p :: starts_from (p + size r) l' end.
Fixpoint ends_from (p : nat) (l : list A) : list nat :=
  match l with [] => [] | r :: l' => (p + size r) :: ends_from (p + size r) l' end.
Definition fields_start (l : list A) : list nat := starts_from 0 l.
Definition fields_end (l : list A) : list nat := ends_from 0 l.
(** index_select field_type.py:468-488; max of an empty list raises *)
Definition index_select (l : list A) (index : list Z) : res (list A) :=
  assert (negb (Nat.eqb (length index) 0)) ;;
  assert (forallb (fun i => i <? Z.of_nat (length l))%Z index) ;;
  assert (forallb (fun i => 0 <=? i)%Z index) ;;
  r <- mapM (py_get l) index ;; mk_type r.
(** FieldType.sorted field_type.py:402-418: sort (size, position) *)
Fixpoint insert_by {B} (leb : B -> B -> bool) (x : B) (l : list B) : list B :=
  match l with [] => [x] | y :: l' => if leb x y then x :: l else y :: insert_by leb x l' end.
(** Python's sort is stable *)
Definition sort_by {B} (leb : B -> B -> bool) (l : list B) : list B := fold_right (insert_by leb) [] l.
Definition size_leb (a b : nat * nat) : bool :=
  Nat.ltb (fst a) (fst b) || (Nat.eqb (fst a) (fst b) && Nat.leb (snd a) (snd b)).
Definition type_sorted (l : list A) : res (list A) :=
  index_select l (map (fun k => Z.of_nat (snd k)) (sort_by size_leb (combine (map size l) (seq 0 (length l))))).

(** A geometric tensor: its type and its channels. *)
Record gtensor := { g_type : list A; g_chans : list V }.
(** GeometricTensor.__init__ geometric_tensor.py:243 *)
Definition mk_gtensor (ft : list A) (chans : list V) : res gtensor :=
  assert (Nat.eqb (length chans) (type_size ft)) ;; Ret {| g_type := ft; g_chans := chans |}.

(** ** GeometricTensor.__getitem__ geometric_tensor.py:480-650 *)
Inductive index :=
| IInt (z : Z)
| ISlice (start stop step : option Z)
| IBool (mask : list bool)
| ILong (l : list Z)
| IEllipsis.
(** 532-551: the number of axes left for the first Ellipsis, and its expansion *)
Definition is_ellipsis (i : index) : bool := match i with IEllipsis => true | _ => false end.
Fixpoint expand (missing : nat) (done : bool) (s : list index) : list index :=
  match s with
  | [] => []
  | IEllipsis :: s' => if done then expand missing done s' else (repeat (ISlice None None None) missing ++ expand missing true s')%list
  | i :: s' => i :: expand missing done s'
  end.
(** 561-567: integers become slices of length 1; [m] is idx_max of the axis *)
Definition as_slice (m : nat) (i : index) : index :=
  match i with
  | IInt z => let z := if (z <? 0)%Z then (Z.of_nat m + z)%Z else z in ISlice (Some z) (Some (z + 1)%Z) (Some 1%Z)
  | _ => i
  end.
(** 602-635: the fields of a slice with a step, of a mask or of a tensor of indices *)
Definition chosen_fields (n : nat) (i : index) : res (list Z) :=
  match i with
  | ISlice a b k => p <- slice_positions n a b k ;; Ret (map Z.of_nat p)
  | IBool mask =>
      p <- mapM (fun j => b <- get_nth mask j ;; Ret (j, b)) (seq 0 n) ;;
      Ret (map (fun q => Z.of_nat (fst q)) (filter snd p))
  | ILong l => Ret l
  | IInt _ | IEllipsis => Raise
  end.
Definition get_fields (x : gtensor) (i : index) : res gtensor :=
  fields <- chosen_fields (length (g_type x)) i ;;
  reps <- mapM (py_get (g_type x)) fields ;;
  idxs <- mapM (fun f => a <- py_get (fields_start (g_type x)) f ;; b <- py_get (fields_end (g_type x)) f ;; Ret (seq a (b - a))) fields ;;
  ft <- mk_type reps ;;
  ch <- mapM (get_nth (g_chans x)) (concat idxs) ;;
  mk_gtensor ft ch.
(** 575-596: slices with step 1 *)
Definition is_unit_slice (i : index) : bool :=
  match i with ISlice _ _ None => true | ISlice _ _ (Some k) => (k =? 1)%Z | _ => false end.
Definition get_range (x : gtensor) (start stop step : option Z) : res gtensor :=
  let n := length (g_type x) in
  let a := match start with Some a => a | None => 0%Z end in
  let b := match stop with Some b => b | None => Z.of_nat n end in
  ca <- py_get (fields_start (g_type x)) a ;;
  cb <- py_get (fields_end (g_type x)) (b - 1)%Z ;;
  ft <- (if (a =? 0)%Z && (b =? Z.of_nat n)%Z then Ret (g_type x)
         else r <- py_slice (g_type x) start stop step ;; mk_type r) ;;
  ch <- py_slice (g_chans x) (Some (Z.of_nat ca)) (Some (Z.of_nat cb)) (Some 1%Z) ;;
  mk_gtensor ft ch.
(** The indexing of batch and space is done by torch on the result; only the
    index of axis 1 is followed here. [naxes] is `len(self.tensor.shape)`. When
    another axis is indexed with a mask or a tensor of indices at the same time,
    torch would index jointly; this is not modelled. *)
Definition getitem (naxes : nat) (x : gtensor) (slices : list index) : res gtensor :=
  assert (Nat.leb (length slices) naxes) ;;
  let indexed := length (filter (fun i => negb (is_ellipsis i)) slices) in
  let e := expand (naxes - indexed) false slices in
  match e with
  | [] => Raise
  | [_] => mk_gtensor (g_type x) (g_chans x)
  | _ :: i1 :: _ =>
      let i := as_slice (length (g_type x)) i1 in
      match i with
      | ISlice a b k => if is_unit_slice i then get_range x a b k else get_fields x i
      | _ => get_fields x i
      end
  end.

(** ** GeometricTensor.split geometric_tensor.py:291-383 *)
Fixpoint split_loop (x : gtensor) (positions : list nat) (last : Z) (breaks : list Z) : res (list gtensor) :=
  match breaks with
  | [] => Ret []
  | b :: breaks' =>
      assert (last <? b)%Z ;;
      r <- py_slice (g_type x) (Some last) (Some b) None ;;
      ft <- mk_type r ;;
      p <- py_get positions last ;; q <- py_get positions b ;;
      data <- py_slice (g_chans x) (Some (Z.of_nat p)) (Some (Z.of_nat q)) None ;;
      t <- mk_gtensor ft data ;;
      ts <- split_loop x positions b breaks' ;;
      Ret (t :: ts)
  end.
(** The second component is the caller's list after the call (`breaks.append`
    at 355 changes it in place). *)
Definition split (x : gtensor) (breaks : option (list Z)) : res (list gtensor) * option (list Z) :=
  let n := length (g_type x) in
  let bs := match breaks with None => map Z.of_nat (seq 0 n) | Some l => l end in
  let bs' := (bs ++ [Z.of_nat n])%list in
  (split_loop x (fields_start (g_type x) ++ [type_size (g_type x)])%list 0%Z bs',
   match breaks with None => None | Some _ => Some bs' end).

(** tensor_directsum geometric_tensor.py:817-859; the checks of shapes and
    coordinates at 840-845 concern batch and space *)
Definition tensor_directsum (ts : list gtensor) : res gtensor :=
  ft <- mk_type (flat_map g_type ts) ;;
  mk_gtensor ft (flat_map g_chans ts).

(** ** ReshuffleModule reshuffle_module.py:18-73 *)
Record reshuffle := { rs_in : list A; rs_out : list A; rs_indices : list nat }.
Definition mk_reshuffle (ft : list A) (perm : list Z) : res reshuffle :=
  let n := length ft in
  assert (forallb (fun p => (0 <=? p)%Z && (p <? Z.of_nat n)%Z) perm &&
          forallb (fun i => existsb (fun p => (p =? Z.of_nat i)%Z) perm) (seq 0 n)) ;;
  out <- index_select ft perm ;;
  idx <- mapM (fun c => r <- py_get ft c ;; p <- py_get (fields_start ft) c ;; Ret (seq p (size r))) perm ;;
  Ret {| rs_in := ft; rs_out := out; rs_indices := concat idx |}.
(** forward 66-73; [teqb] is equality of field types *)
Definition reshuffle_forward (teqb : list A -> list A -> bool) (m : reshuffle) (x : gtensor) : res gtensor :=
  assert (teqb (g_type x) (rs_in m)) ;;
  ch <- mapM (get_nth (g_chans x)) (rs_indices m) ;;
  mk_gtensor (rs_out m) ch.

(** ** Labels: group_by_labels field_type.py:528-557, check_consecutive_numbers
    and indexes_from_labels utils.py:10-56, BranchingModule *)
(** check_consecutive_numbers utils.py:10-23 *)
Definition check_consecutive (l : list Z) : res bool :=
  match l with
  | [] => Raise
  | x :: _ =>
      assert (forallb (fun i => 0 <=? i)%Z l) ;;
      let m := fold_left Z.min l x in
      let M := fold_left Z.max l x in
      (* M*(M+1)/2 - (m-1)*m/2 == s, both sides doubled *)
      Ret (M * (M + 1) - (m - 1) * m =? 2 * fold_left Z.add l 0)%Z
  end.

Section Labels.
Context {L : Type}.
Variable leqb : L -> L -> bool.
Variable lleb : L -> L -> bool.

Definition dappend {X} (d : list (L * list X)) (l : L) (x : list X) : list (L * list X) :=
  dset leqb d l (match dget leqb d l with Some y => y | None => [] end ++ x)%list.
(** 544-548 of group_by_labels *)
Definition fields_by_label (labels : list L) : list (L * list nat) :=
  fold_left (fun d cl => dappend d (snd cl) [fst cl]) (combine (seq 0 (length labels)) labels) [].
Definition lookup {X} (d : list (L * X)) (l : L) : res X := match dget leqb d l with Some x => Ret x | None => Raise end.
Definition group_by_labels (ft : list A) (labels : list L) : res (list (L * list A)) :=
  assert (Nat.eqb (length labels) (length ft)) ;;
  let fields := fields_by_label labels in
  fold_left (fun r l => d <- r ;; f <- lookup fields l ;; t <- index_select ft (map Z.of_nat f) ;; Ret (dset leqb d l t))
    labels (Ret []).
(** 43-48 of indexes_from_labels, and the loop 136-149 of BranchingModule *)
Fixpoint indices_by_label (d : list (L * list nat)) (pos : nat) (labels : list L) (ft : list A) : list (L * list nat) :=
  match labels, ft with
  | l :: labels', r :: ft' => indices_by_label (dappend d l (seq pos (size r))) (pos + size r) labels' ft'
  | _, _ => d
  end.
(** indexes_from_labels 26-56 *)
Definition indexes_from_labels (ft : list A) (labels : list L) : res (list (L * (bool * list nat * list nat))) :=
  assert (Nat.eqb (length labels) (length ft)) ;;
  let indices := indices_by_label [] 0 labels ft in
  let fields := fields_by_label labels in
  fold_left (fun r l => d <- r ;; i <- lookup indices l ;; f <- lookup fields l ;;
               c <- check_consecutive (map Z.of_nat i) ;; Ret (dset leqb d l (c, f, i)))
    labels (Ret []).

(** BranchingModule.__init__ branching_module.py:24-161 *)
(** 117-127: which labels form a single run *)
Fixpoint contiguous_labels (d : list (L * bool)) (last : option L) (labels : list L) : list (L * bool) :=
  match labels with
  | [] => d
  | l :: labels' =>
      let same := match last with Some l' => leqb l l' | None => false end in
      let d' := if same then d else
                match dget leqb d l with None => dset leqb d l true | Some _ => dset leqb d l false end in
      contiguous_labels d' (Some l) labels'
  end.
(** 83-96: comparison of the keys (label, size, name, position)[:reshuffle] *)
Definition key_leb (reshuffle : nat) (a b : L * nat * nat) : bool :=
  match reshuffle with
  | 1 => lleb (fst (fst a)) (fst (fst b))
  | _ => if leqb (fst (fst a)) (fst (fst b)) then Nat.leb (snd (fst a)) (snd (fst b)) else lleb (fst (fst a)) (fst (fst b))
  end.
Inductive channels := Run (first last : nat) | Listed (l : list nat).
Record branching := {
  br_in : list A; br_labels : list L; br_shuffle : option reshuffle;
  br_out : list (L * list A); br_contiguous : list (L * bool); br_indices : list (L * channels) }.
Definition list_min (l : list nat) : res nat := match l with [] => Raise | x :: l' => Ret (fold_left Nat.min l' x) end.
Definition list_max (l : list nat) : res nat := match l with [] => Raise | x :: l' => Ret (fold_left Nat.max l' x) end.
Definition mk_branching (ft : list A) (labels : list L) (reshuffle : nat) : res branching :=
  assert (Nat.ltb reshuffle 3) ;;
  assert (Nat.eqb (length ft) (length labels)) ;;
  let n := length ft in
  sh <- (if Nat.eqb reshuffle 0 then Ret (None, ft, labels) else
         let keys := combine (combine labels (map size ft)) (seq 0 n) in
         let perm := map snd (sort_by (key_leb reshuffle) keys) in
         if list_eq_dec Nat.eq_dec perm (seq 0 n) then Ret (None, ft, labels) else
         m <- mk_reshuffle ft (map Z.of_nat perm) ;;
         labels' <- mapM (get_nth labels) perm ;;
         Ret (Some m, rs_out m, labels')) ;;
  let '(m, ft', labels') := sh in
  out <- group_by_labels ft' labels' ;;
  let cont := contiguous_labels [] None labels' in
  let idx := indices_by_label [] 0 labels' ft' in
  buf <- mapM (fun lc => i <- lookup idx (fst lc) ;;
            if (snd lc : bool) then a <- list_min i ;; b <- list_max i ;; Ret (fst lc, Run a (b + 1)) else Ret (fst lc, Listed i)) cont ;;
  Ret {| br_in := ft; br_labels := labels; br_shuffle := m; br_out := out; br_contiguous := cont; br_indices := buf |}.
(** _retrieve_subfiber 163-190 *)
Definition retrieve (b : branching) (x : gtensor) (l : L) : res gtensor :=
  ix <- lookup (br_indices b) l ;;
  c <- lookup (br_contiguous b) l ;;
  data <- match c, ix with
          | true, Run a e => py_slice (g_chans x) (Some (Z.of_nat a)) (Some (Z.of_nat e)) None
          | _, Listed i => mapM (get_nth (g_chans x)) i
          | false, Run a e => mapM (get_nth (g_chans x)) [a; e]
          end ;;
  ft <- lookup (br_out b) l ;;
  mk_gtensor ft data.
(** forward 192-219: the output for one label (the others do not matter) *)
Definition branch (teqb : list A -> list A -> bool) (b : branching) (x : gtensor) (l : L) : res gtensor :=
  assert (teqb (g_type x) (br_in b)) ;;
  assert (existsb (leqb l) (br_labels b)) ;;
  x' <- match br_shuffle b with Some m => reshuffle_forward teqb m x | None => Ret x end ;;
  retrieve b x' l.

(** MergeModule merge_module.py:16-112: modules with their labels; the module's
    declared output type and its forward function *)
Record submodule := { sm_out : list A; sm_run : list gtensor -> res gtensor }.
Definition merge (modules : list (submodule * list L)) (input : L -> res gtensor) : res gtensor :=
  out_type <- mk_type (flat_map (fun m => sm_out (fst m)) modules) ;;
  parts <- mapM (fun m => args <- mapM input (snd m) ;; y <- sm_run (fst m) args ;;
             (* assignment to the slice of module.out_type.size channels *)
             assert (Nat.eqb (length (g_chans y)) (type_size (sm_out (fst m)))) ;; Ret (g_chans y)) modules ;;
  mk_gtensor out_type (concat parts).
End Labels.
End Field.
Arguments gtensor : clear implicits.
