(** C50: nonlinearities in the Fourier domain commute with the elements that permute their grid. *)
From Coq Require Import Reals String List ZArith Arith Lia Permutation.
From Verif Require Import LibRes LibMat FieldModel PoolModel SpecRep RepModel SpecRepr SpecInd IndThms SpecField SpecNonlin FourierModel SpecFourier FourierEnd FourierEx.
Import ListNotations.
Open Scope R_scope.

(** C50. Whatever the group, the irreps (of the input and of the output), the
    pointwise function, the number of channels, the normalisation and the kernel:
    once constructed, the module accepts every input of its type, and the output
    for the input moved by [h] is the output moved by [h], if left multiplication
    with [h] permutes the grid. *)
Theorem C50_pointwise : forall {T S} (mem : T -> Prop) op inv e irrG restrict linv (psi : girrep S) order teqb,
  correct_inverse linv -> (forall l, Permutation (order l) l) ->
  forall build channels ids function out_ids normalize grid m, Forall mem grid -> Forall (usable_irrep irrG mem op inv e) ids ->
  (forall o, out_ids = Some o -> Forall (usable_irrep irrG mem op inv e) o) ->
  mk_fourier irrG restrict linv psi order build channels ids function out_ids normalize grid = Ret m ->
  teqb (fm_in_type m) (fm_in_type m) = true ->
  forall h x x', mem h -> left_permuted op h grid -> g_type x = fm_in_type m -> g_type x' = fm_in_type m ->
    length (g_chans x) = list_sum (map r_size (fm_in_type m)) ->
    acts r_size (fm_in_type m) (at_element h) (g_chans x) (g_chans x') ->
    exists y y', fourier_forward teqb m x = Ret y /\ fourier_forward teqb m x' = Ret y' /\ g_type y = fm_out_type m /\ g_type y' = fm_out_type m /\
      acts r_size (fm_out_type m) (at_element h) (g_chans y) (g_chans y').
Proof. intros T S. exact pointwise_equivariant. Qed.
Print Assumptions C50_pointwise.

(** The sign group with both irreps, its two elements as grid. *)
Example C50_pointwise_ex : left_permuted toy_op true [false; true] /\ (forall k, usable_irrep toy_irrG (fun _ => True) toy_op (fun a : bool => Ret a) false [k]) /\
  exists linv m, correct_inverse linv /\
    mk_fourier toy_irrG toy_restrict linv toy_h (fun l => l) (regular_kernel toy_irrG false) 1 [[0%Z]; [1%Z]] "p_relu" None false [false; true] = Ret m.
Proof. exact (conj toy_grid (conj toy_usable toy_module)). Qed.

(** For functions on a quotient it is enough that the grid is permuted up to
    elements of the subgroup. *)
Theorem C50_quotient : forall {T S} (mem : T -> Prop) op inv e irrG restrict linv (psi : girrep S) order teqb,
  correct_inverse linv -> (forall l, Permutation (order l) l) ->
  forall (memH : S -> Prop) (incl : S -> res T) irrH components,
  (forall c k, memH c -> incl c = Ret k -> mem k) -> irrH (gi_id psi) = Ret psi -> trivial_irrep memH psi ->
  (forall id r h b, irrH id = Ret r -> memH h -> gi_rep r h = Ret b -> fst b = gi_size r) ->
  (forall id r d, irrG id = Ret r -> restrict (gi_id r) = Ret d -> restriction_of irrH memH incl r d) ->
  forall channels ids function out_ids normalize grid m, Forall mem grid -> Forall (usable_irrep irrG mem op inv e) ids ->
  (forall o, out_ids = Some o -> Forall (usable_irrep irrG mem op inv e) o) ->
  mk_fourier irrG restrict linv psi order (quotient_kernel irrG irrH restrict components psi) channels ids function out_ids normalize grid = Ret m ->
  teqb (fm_in_type m) (fm_in_type m) = true ->
  forall h x x', mem h -> left_permuted_mod op memH incl h grid -> g_type x = fm_in_type m -> g_type x' = fm_in_type m ->
    length (g_chans x) = list_sum (map r_size (fm_in_type m)) ->
    acts r_size (fm_in_type m) (at_element h) (g_chans x) (g_chans x') ->
    exists y y', fourier_forward teqb m x = Ret y /\ fourier_forward teqb m x' = Ret y' /\ g_type y = fm_out_type m /\ g_type y' = fm_out_type m /\
      acts r_size (fm_out_type m) (at_element h) (g_chans y) (g_chans y').
Proof. intros T S. exact quotient_equivariant. Qed.
Print Assumptions C50_quotient.

(** The sign group modulo itself: one point, which no element but the neutral one
    fixes on the nose. *)
Example C50_quotient_ex : trivial_irrep (fun _ : bool => True) (toy_g 0) /\
  (forall id r d, toy_irrG id = Ret r -> whole_restrict (gi_id r) = Ret d -> restriction_of toy_irrG (fun _ : bool => True) (fun c => Ret c) r d) /\
  (left_permuted_mod toy_op (fun _ : bool => True) (fun c => Ret c) true [false] /\ ~ left_permuted toy_op true [false]) /\
  exists linv m, correct_inverse linv /\
    mk_fourier toy_irrG whole_restrict linv (toy_g 0) (fun l => l) (quotient_kernel toy_irrG toy_irrG whole_restrict whole_components (toy_g 0)) 2
      [[0%Z]; [1%Z]] "p_elu" None false [false] = Ret m.
Proof. exact (conj whole_trivial (conj whole_restriction (conj whole_grid whole_module))). Qed.

(** The value on the group itself: every field is sampled as the combination of
    the matrix coefficients of its irreps, the function is applied to the samples,
    and the coefficients that fit them best (with a ridge of 1e-8, over the irreps
    of the output and of the input) are cut to those of the output. *)
Theorem C50_value : forall {T S} (mem : T -> Prop) op inv e irrG restrict linv (psi : girrep S) order teqb,
  correct_inverse linv -> (forall l, Permutation (order l) l) -> gi_sosc psi = 1%nat ->
  (forall id r, irrG id = Ret r -> splits_fully restrict psi r /\ Nat.divide (gi_sosc r) (gi_size r)) ->
  forall channels ids function out_ids normalize grid m, Forall mem grid -> Forall (usable_irrep irrG mem op inv e) ids ->
  (forall o, out_ids = Some o -> Forall (usable_irrep irrG mem op inv e) o) ->
  mk_fourier irrG restrict linv psi order (regular_kernel irrG e) channels ids function out_ids normalize grid = Ret m ->
  teqb (fm_in_type m) (fm_in_type m) = true ->
  exists fn rs rs' ids', pointwise_function function = Ret fn /\ mapM irrG ids = Ret rs /\ mapM irrG ids' = Ret rs' /\
    match out_ids with
    | None => ids' = ids
    | Some o => exists more, ids' = o ++ more /\ forall id, In id more <-> In id ids /\ ~ In id o
    end /\
    fm_in_type m = repeat (fm_rho m) channels /\ r_size (fm_rho m) = total_size rs /\ fm_out_type m = repeat (fm_out m) channels /\
    forall x, g_type x = fm_in_type m -> length (g_chans x) = list_sum (map r_size (fm_in_type m)) ->
    exists y, fourier_forward teqb m x = Ret y /\ g_type y = fm_out_type m /\ length (g_chans y) = list_sum (map r_size (fm_out_type m)) /\
      forall i, (i < channels)%nat -> exists z,
        ridge (/ 10 ^ 8) (total_size rs') (map (fun g => (coefficients_by normalize rs' g,
           fn (inner (field_chans r_size (fm_in_type m) (g_chans x) i) (coefficients_by normalize rs g)))) grid) z /\
        field_chans r_size (fm_out_type m) (g_chans y) i = firstn (r_size (fm_out m)) z.
Proof. intros T S. exact pointwise_value. Qed.
Print Assumptions C50_value.

(** The samples of (1, 2) are 3 and -1, rectified to 3 and 0. *)
Example C50_value_ex : (forall id r, toy_irrG id = Ret r -> splits_fully toy_restrict toy_h r /\ Nat.divide (gi_sosc r) (gi_size r)) /\
  forall linv m, correct_inverse linv ->
  mk_fourier toy_irrG toy_restrict linv toy_h (fun l => l) (regular_kernel toy_irrG false) 1 [[0%Z]; [1%Z]] "p_relu" None false [false; true] = Ret m ->
  exists y, fourier_forward (fun a b => Nat.eqb (length a) (length b)) m {| g_type := fm_in_type m; g_chans := [1; 2] |} = Ret y /\
    g_chans y = [3 / (2 + / 10 ^ 8); 3 / (2 + / 10 ^ 8)].
Proof. exact (conj toy_splits toy_answer). Qed.
