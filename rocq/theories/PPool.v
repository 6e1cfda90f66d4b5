(** Properties C45, C46, C47 and C48: channel-wise nonlinearities and pooling
    over fields. *)
From Coq Require Import Reals String List ZArith Arith Bool Lia Lra.
From Verif Require Import LibRes LibPy LibMat FieldModel SpecField FieldProofs GroupedModel NonlinModel SpecNonlin SpecPool PoolThms ConcatThms VFieldThms PoolCor
  ParamModel ParamProofs PoolModel.
Import ListNotations.
Open Scope R_scope.

(** ** C45: ConcatenatedNonLinearity *)
(** Every channel is followed by the function of its opposite. *)
Theorem C45_value : forall A (size : A -> nat) supported teqb ft name m, mk_concat supported ft name = Ret m ->
  fst m = ft /\ Forall (fun r => In NL_concatenated (supported r)) ft /\ concat_function name = Ret (snd m) /\
  forall x junk, g_type x = ft -> good size x -> teqb ft ft = true -> List.length junk = (2 * type_size size ft)%nat ->
    concat_forward size teqb m junk x = Ret {| g_type := ft; g_chans := both (snd m) (g_chans x) |}.
Proof. exact @concat_forward_ok. Qed.
Print Assumptions C45_value.
Example C45_value_ex : exists m, mk_concat (fun _ : nat => [NL_concatenated]) [2; 1]%nat "c_relu" = Ret m /\ both (snd m) [3; -4] = [relu 3; relu (- 3); relu (-4); relu (- -4)].
Proof. eexists. split; reflexivity. Qed.

(** The matrices of the output are defined for signed permutations; they are
    permutation matrices and send products to products and the identity to itself. *)
Theorem C45_doubled : forall s r, permutes_signed s r -> exists M, concat_matrix s r = Ret M /\
  (forall i j a b, (i < s)%nat -> (j < s)%nat -> (a < 2)%nat -> (b < 2)%nat ->
     M (2 * i + a)%nat (2 * j + b)%nat = if Req_EM_T (r i j) (if Nat.eqb a b then 1 else -1) then 1 else 0) /\
  permutes (2 * s) M.
Proof. exact concat_doubled. Qed.
Print Assumptions C45_doubled.
Example C45_doubled_ex : permutes_signed 2 (mat2 0 (-1) 1 0).
Proof. exact quarter_turn_signed. Qed.
Theorem C45_represents : forall s r1 r2 M1 M2 M12, permutes_signed s r1 -> permutes_signed s r2 -> permutes_signed s (mmul s r1 r2) ->
  concat_matrix s r1 = Ret M1 -> concat_matrix s r2 = Ret M2 -> concat_matrix s (mmul s r1 r2) = Ret M12 ->
  forall x y, (x < 2 * s)%nat -> (y < 2 * s)%nat -> M12 x y = mmul (2 * s) M1 M2 x y.
Proof. exact concat_represents. Qed.
Print Assumptions C45_represents.
Theorem C45_identity : forall s, exists M, concat_matrix s mid = Ret M /\ forall x y, (x < 2 * s)%nat -> (y < 2 * s)%nat -> M x y = mid x y.
Proof. exact concat_identity. Qed.
Print Assumptions C45_identity.
Example C45_represents_ex : permutes_signed 2 (mat2 0 (-1) 1 0) /\ permutes_signed 2 (mmul 2 (mat2 0 (-1) 1 0) (mat2 0 (-1) 1 0)).
Proof. exact (conj quarter_turn_signed half_turn_signed). Qed.

(** What the loop that builds the matrix accepts: a row holds at most one entry
    that is not close to zero, and every entry is close to -1, 0 or 1. *)
Theorem C45_accepts : forall s r M, concat_matrix s r = Ret M -> forall i j, (i < s)%nat -> (j < s)%nat ->
  (math_isclose (r i j) 0 = true \/ math_isclose (r i j) 1 = true \/ math_isclose (r i j) (-1) = true) /\
  forall k, (k < s)%nat -> k <> j -> math_isclose (r i j) 0 = true \/ math_isclose (r i k) 0 = true.
Proof. exact concat_accepts. Qed.
Print Assumptions C45_accepts.

(** The nonlinearity carries one action to the other, for every function. *)
Theorem C45_equivariant : forall A (size : A -> nat) ft (rho rho2 : A -> mat) (f : R -> R) x y, List.length x = type_size size ft ->
  Forall (fun r => permutes_signed (size r) (rho r)) ft -> Forall (fun r => concat_matrix (size r) (rho r) = Ret (rho2 r)) ft ->
  acts size ft rho x y -> acts (fun r => (2 * size r)%nat) ft rho2 (both f x) (both f y).
Proof. exact @concat_equivariant. Qed.
Print Assumptions C45_equivariant.
Example C45_equivariant_ex : Forall (fun r : nat => permutes_signed 2 (mat2 0 (-1) 1 0)) [2; 2]%nat /\ acts (fun r => r) [2]%nat (fun _ => mat2 0 (-1) 1 0) [3; 4] [-4; 3].
Proof. split; [repeat constructor; exact quarter_turn_signed|exact quarter_turn_acts]. Qed.

(** ** C46: VectorFieldNonLinearity *)
(** For N > 2 a field becomes the vector of length relu(max) in the direction of
    the position of its maximum. *)
Theorem C46_value : forall pick N n x junk, valid_pick pick -> (2 < N)%nat -> List.length x = (n * N)%nat -> List.length junk = (2 * n)%nat ->
  exists y, vectorfield_forward pick (N, n) junk x = Ret y /\ List.length y = (2 * n)%nat /\
    forall i, (i < n)%nat -> exists a, (a < N)%nat /\ is_max (nth a (piece N i x) 0) (piece N i x) /\
      piece 2 i y = [cos (INR a * (2 * PI / INR N)) * Rmax 0 (nth a (piece N i x) 0); sin (INR a * (2 * PI / INR N)) * Rmax 0 (nth a (piece N i x) 0)].
Proof. exact vectorfield_value. Qed.
Print Assumptions C46_value.
Theorem C46_equivariant : forall pick pick' N n k x x' junk junk', valid_pick pick -> valid_pick pick' -> (2 < N)%nat ->
  List.length x = (n * N)%nat -> List.length x' = (n * N)%nat -> List.length junk = (2 * n)%nat -> List.length junk' = (2 * n)%nat ->
  (forall i, (i < n)%nat -> shifted N k (piece N i x) (piece N i x') /\ clear_max (piece N i x)) ->
  exists y y', vectorfield_forward pick (N, n) junk x = Ret y /\ vectorfield_forward pick' (N, n) junk' x' = Ret y' /\ List.length y' = (2 * n)%nat /\
    forall i, (i < n)%nat -> piece 2 i y' = mv 2 (rot2 (INR k * (2 * PI / INR N))) (piece 2 i y).
Proof. exact vectorfield_equivariant. Qed.
Print Assumptions C46_equivariant.
Example C46_equivariant_ex : valid_pick (fun _ => 0%nat) /\ shifted 4 1 [1; 5; 2; 3] [3; 1; 5; 2] /\ clear_max [1; 5; 2; 3].
Proof. exact (conj first_pick vectorfield_example). Qed.
(** For N = 2 the statement fails: irrep_1 has size 1 and with two or more fields
    the forward pass raises whatever the input. *)
Theorem C46_refuted : forall pick n x junk, (2 <= n)%nat -> List.length junk = (n * irrep1_size 2)%nat -> vectorfield_forward pick (2%nat, n) junk x = Raise.
Proof. exact vectorfield_2_fails. Qed.
Print Assumptions C46_refuted.
Example C46_refuted_ex : mk_vectorfield 2 2 = Ret (2%nat, 2%nat).
Proof. reflexivity. Qed.
(** With a single field it works. *)
Theorem C46_two_one_field : forall pick pick' k x x' junk junk', valid_pick pick -> valid_pick pick' -> List.length junk = 1%nat -> List.length junk' = 1%nat ->
  shifted 2 k x x' -> clear_max x ->
  exists t, vectorfield_forward pick (2%nat, 1%nat) junk x = Ret [t] /\ vectorfield_forward pick' (2%nat, 1%nat) junk' x' = Ret [(if Nat.even k then 1 else -1) * t].
Proof. exact vectorfield_2_equivariant. Qed.
Print Assumptions C46_two_one_field.
Example C46_two_one_field_ex : shifted 2 1 [3; 4] [4; 3] /\ clear_max [3; 4].
Proof. exact vectorfield_2_example. Qed.

(** ** C47: PointwiseNonLinearity and GroupPooling *)
Theorem C47_pointwise : forall A (size : A -> nat) supported teqb ft name m, mk_pointwise supported ft name = Ret m ->
  fst m = ft /\ Forall (fun r => In NL_pointwise (supported r)) ft /\ pointwise_function name = Ret (snd m) /\
  forall x, g_type x = ft -> good size x -> teqb ft ft = true ->
    pointwise_forward size teqb m x = Ret {| g_type := ft; g_chans := map (snd m) (g_chans x) |}.
Proof. exact @pointwise_ok. Qed.
Print Assumptions C47_pointwise.
Example C47_pointwise_ex : exists m, mk_pointwise (fun _ : nat => [NL_pointwise]) [2; 1]%nat "p_elu" = Ret m.
Proof. eexists. reflexivity. Qed.
Theorem C47_pointwise_functions : pointwise_function "p_relu" = Ret (fun t => Rmax 0 t) /\
  (exists f, pointwise_function "p_elu" = Ret f /\ (forall t, 0 < t -> f t = t) /\ forall t, t <= 0 -> f t = exp t - 1) /\
  (exists f, pointwise_function "p_sigmoid" = Ret f /\ forall t, f t = 1 / (1 + exp (- t))) /\
  (exists f, pointwise_function "p_tanh" = Ret f /\ forall t, f t = sinh t / cosh t).
Proof. exact pointwise_functions. Qed.
Print Assumptions C47_pointwise_functions.
Theorem C47_pointwise_equivariant : forall A (size : A -> nat) ft (rho : A -> mat) (f : R -> R) x y, List.length x = type_size size ft ->
  Forall (fun r => permutes (size r) (rho r)) ft -> acts size ft rho x y -> acts size ft rho (map f x) (map f y).
Proof. exact @pointwise_equivariant. Qed.
Print Assumptions C47_pointwise_equivariant.
Example C47_pointwise_equivariant_ex : permutes 2 (mat2 0 1 1 0) /\ acts (fun r => r) [2; 2]%nat (fun _ => mat2 0 1 1 0) [3; 4; 5; 6] [4; 3; 6; 5].
Proof. exact swap_example. Qed.

Theorem C47_group_pooling_built : forall A (size : A -> nat) supported ft, Forall (fun r => (0 < size r)%nat) ft ->
  (exists m, mk_pool size supported true ft = Ret m) <-> Forall (fun r => In NL_pointwise (supported r)) ft.
Proof. exact @gpool_built. Qed.
Print Assumptions C47_group_pooling_built.
(** One channel per field, in field order, holding the maximum of the field. *)
Theorem C47_group_pooling : forall A (size : A -> nat) supported teqb ft m x junk, Forall (fun r => (0 < size r)%nat) ft -> mk_pool size supported true ft = Ret m ->
  g_type x = ft -> good size x -> teqb ft ft = true -> List.length junk = List.length ft ->
  exists out, group_pooling size teqb m junk x = Ret out /\ List.length out = List.length ft /\
    forall i, (i < List.length ft)%nat -> is_max (nth i out 0) (field_chans size ft (g_chans x) i).
Proof. exact @gpool_value. Qed.
Print Assumptions C47_group_pooling.
Theorem C47_group_pooling_invariant : forall A (size : A -> nat) supported teqb ft m (rho : A -> mat) x x' junk junk', Forall (fun r => (0 < size r)%nat) ft ->
  mk_pool size supported true ft = Ret m -> g_type x = ft -> g_type x' = ft -> good size x -> teqb ft ft = true ->
  List.length junk = List.length ft -> List.length junk' = List.length ft ->
  Forall (fun r => permutes (size r) (rho r)) ft -> acts size ft rho (g_chans x) (g_chans x') ->
  exists out, group_pooling size teqb m junk x = Ret out /\ group_pooling size teqb m junk' x' = Ret out.
Proof. exact @gpool_invariant. Qed.
Print Assumptions C47_group_pooling_invariant.
Example C47_group_pooling_ex : (exists m, mk_pool (fun r => r) (fun _ => [NL_pointwise]) true [2; 1; 2]%nat = Ret m) /\
  Forall (fun r => (0 < r)%nat) [2; 1; 2]%nat /\ good (fun r => r) {| g_type := [2; 1; 2]%nat; g_chans := [3; 4; 5; 6; 7] |} /\ permutes 2 (mat2 0 1 1 0).
Proof. split; [eexists; reflexivity|]. split; [repeat constructor|split; [reflexivity|apply swap_example]]. Qed.

(** ** C48: NormPool and InducedNormPool *)
Theorem C48_norm_pool : forall A (size : A -> nat) supported teqb ft m x junk, Forall (fun r => (0 < size r)%nat) ft -> mk_pool size supported false ft = Ret m ->
  g_type x = ft -> good size x -> teqb ft ft = true -> List.length junk = List.length ft ->
  exists out, norm_pool size teqb m junk x = Ret out /\ List.length out = List.length ft /\
    forall i, (i < List.length ft)%nat -> nth i out 0 = enorm (field_chans size ft (g_chans x) i).
Proof. exact @npool_value. Qed.
Print Assumptions C48_norm_pool.
Theorem C48_norm_pool_invariant : forall A (size : A -> nat) supported teqb ft m (rho : A -> mat) x x' junk junk', Forall (fun r => (0 < size r)%nat) ft ->
  mk_pool size supported false ft = Ret m -> g_type x = ft -> g_type x' = ft -> good size x -> teqb ft ft = true ->
  List.length junk = List.length ft -> List.length junk' = List.length ft ->
  Forall (fun r => orthogonal (size r) (rho r)) ft -> acts size ft rho (g_chans x) (g_chans x') ->
  exists out, norm_pool size teqb m junk x = Ret out /\ norm_pool size teqb m junk' x' = Ret out.
Proof. exact @npool_invariant. Qed.
Print Assumptions C48_norm_pool_invariant.
Theorem C48_norm_pool_built : forall A (size : A -> nat) supported ft, Forall (fun r => (0 < size r)%nat) ft -> exists m, mk_pool size supported false ft = Ret m.
Proof. exact @npool_built. Qed.
Print Assumptions C48_norm_pool_built.
Example C48_norm_pool_ex : forall t, Forall (fun r : nat => (0 < r)%nat) [2; 2]%nat /\ Forall (fun r : nat => orthogonal 2 (rot2 t)) [2; 2]%nat.
Proof. intros t. split; [repeat constructor|constructor; [apply rot2_orth|constructor; [apply rot2_orth|constructor]]]. Qed.

Theorem C48_induced_pool : forall A (size : A -> nat) supported teqb ft m, Forall (fun r => (0 < size r)%nat) ft -> mk_ipool size supported ft = Ret m ->
  forall x junk, g_type x = ft -> good size x -> teqb ft ft = true -> List.length junk = List.length ft ->
  exists out, ipool_forward teqb m junk x = Ret out /\ List.length out = List.length ft /\
    forall i r s, nth_error ft i = Some r -> In (NL_induced_norm s) (supported r) ->
      is_max (nth i out 0) (map (fun j => enorm (piece s j (field_chans size ft (g_chans x) i))) (seq 0 (size r / s))).
Proof. exact @ipool_value. Qed.
Print Assumptions C48_induced_pool.
Theorem C48_induced_pool_invariant : forall A (size : A -> nat) supported teqb ft m, Forall (fun r => (0 < size r)%nat) ft -> mk_ipool size supported ft = Ret m ->
  forall (rho : A -> mat) x x' junk junk', g_type x = ft -> g_type x' = ft -> good size x -> teqb ft ft = true ->
  List.length junk = List.length ft -> List.length junk' = List.length ft ->
  (forall r s, In r ft -> In (NL_induced_norm s) (supported r) -> block_orthogonal (size r / s) s (rho r)) -> acts size ft rho (g_chans x) (g_chans x') ->
  exists out, ipool_forward teqb m junk x = Ret out /\ ipool_forward teqb m junk' x' = Ret out.
Proof. exact @ipool_invariant. Qed.
Print Assumptions C48_induced_pool_invariant.
Example C48_induced_pool_ex : (exists m, mk_ipool (fun r => r) (fun r => [NL_induced_norm 2]) [4; 2; 4]%nat = Ret m) /\
  block_orthogonal 2 2 (fun a b => if Nat.eqb (a / 2) (1 - b / 2) then rot2 1 (a mod 2)%nat (b mod 2)%nat else 0).
Proof. split; [eexists; reflexivity|exact swap_blocks]. Qed.
