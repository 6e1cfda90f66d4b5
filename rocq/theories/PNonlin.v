(** Properties C43 and C44: nonlinearities that act on whole fields. *)
From Coq Require Import Reals String List ZArith Arith Bool Lia Permutation.
From Verif Require Import LibRes LibPy LibMat FieldModel SpecField FieldProofs GroupedModel NonlinModel SpecNonlin NonlinProofs NormThms INormThms GatedThms Gated1Thms Gated3Thms
  ParamModel ParamProofs.
Import ListNotations.
Open Scope R_scope.

(** FieldType.transform_fibers is the action used below. *)
Theorem C43_action : forall A (size : A -> nat) (rho : A -> mat) (x : gtensor A R), good size x ->
  g_type (transform_fibers size rho x) = g_type x /\ acts size (g_type x) rho (g_chans x) (g_chans (transform_fibers size rho x)) /\
  forall y, acts size (g_type x) rho (g_chans x) y -> y = g_chans (transform_fibers size rho x).
Proof. exact (fun A size rho x G => conj (proj1 (transform_acts size rho x G)) (conj (proj2 (transform_acts size rho x G))
  (fun y H => acts_unique size rho (g_type x) (g_chans x) y _ H (proj2 (transform_acts size rho x G))))). Qed.
Print Assumptions C43_action.
Example C43_action_ex : good (fun r => r) {| g_type := [2; 1]%nat; g_chans := [3; 4; 5] |}.
Proof. reflexivity. Qed.

(** When the constructor of NormNonLinearity accepts. *)
Theorem C43_norm_built : forall A (size : A -> nat) supported ft name bias, Forall (fun r => (0 < size r)%nat) ft ->
  ((exists m, mk_norm size supported ft name bias = Ret m) <->
   Forall (fun r => In NL_norm (supported r)) ft /\ (In name ["n_relu"; "n_sigmoid"; "n_softplus"]%string \/ (name = "squash"%string /\ bias = false))).
Proof. exact @norm_built. Qed.
Print Assumptions C43_norm_built.
Example C43_norm_built_ex : exists m, mk_norm (fun r => r) (fun _ => [NL_pointwise; NL_norm]) [2; 1; 2]%nat "n_relu" true = Ret m.
Proof. eexists. reflexivity. Qed.

(** Every field is scaled to the new norm, with a bias of its own. *)
Theorem C43_norm_value : forall A (size : A -> nat) supported teqb ft name bias m, Forall (fun r => (0 < size r)%nat) ft ->
  mk_norm size supported ft name bias = Ret m ->
  exists fn sel, named name fn /\ Permutation sel (seq 0 (List.length ft)) /\
  forall x log_bias junk, g_type x = ft -> good size x -> teqb ft ft = true -> List.length log_bias = List.length ft -> List.length junk = type_size size ft ->
  exists y, norm_forward size teqb m log_bias junk x = Ret y /\ g_type y = ft /\ good size y /\
    forall k i, nth_error sel k = Some i -> field_chans size ft (g_chans y) i =
      scaled (norm_factor fn (bias_at bias log_bias k) (enorm (field_chans size ft (g_chans x) i))) (field_chans size ft (g_chans x) i).
Proof. exact @norm_value. Qed.
Print Assumptions C43_norm_value.
Example C43_norm_value_ex : (exists m, mk_norm (fun r => r) (fun _ => [NL_norm]) [2; 1; 2]%nat "n_relu" true = Ret m) /\ Forall (fun r => (0 < r)%nat) [2; 1; 2]%nat /\
  good (fun r => r) {| g_type := [2; 1; 2]%nat; g_chans := [3; 4; 5; 6; 7] |}.
Proof. split; [eexists; reflexivity|]. split; [repeat constructor|reflexivity]. Qed.

Theorem C43_norm_equivariant : forall A (size : A -> nat) supported teqb ft name bias m, Forall (fun r => (0 < size r)%nat) ft ->
  mk_norm size supported ft name bias = Ret m ->
  forall (rho : A -> mat) x x' log_bias junk junk', g_type x = ft -> g_type x' = ft -> good size x -> teqb ft ft = true ->
  List.length log_bias = List.length ft -> List.length junk = type_size size ft -> List.length junk' = type_size size ft ->
  Forall (fun r => orthogonal (size r) (rho r)) ft -> acts size ft rho (g_chans x) (g_chans x') ->
  exists y y', norm_forward size teqb m log_bias junk x = Ret y /\ norm_forward size teqb m log_bias junk' x' = Ret y' /\
    g_type y = ft /\ g_type y' = ft /\ acts size ft rho (g_chans y) (g_chans y').
Proof. exact @norm_equivariant. Qed.
Print Assumptions C43_norm_equivariant.
Example C43_norm_equivariant_ex : forall t, Forall (fun r => orthogonal r (rot2 t)) [2; 2]%nat /\
  exists m, mk_norm (fun r => r) (fun _ => [NL_norm]) [2; 2]%nat "squash" false = Ret m.
Proof. intros t. split; [constructor; [apply rot2_orth|constructor; [apply rot2_orth|constructor]]|eexists; reflexivity]. Qed.

(** InducedNormNonLinearity treats every sub-field by itself. *)
Theorem C43_induced_value : forall A (size : A -> nat) supported teqb ft name bias m, Forall (fun r => (0 < size r)%nat) ft ->
  mk_inorm size supported ft name bias = Ret m ->
  exists fn sel, named name fn /\ Permutation sel (seq 0 (List.length ft)) /\
  forall x log_bias junk, g_type x = ft -> good size x -> teqb ft ft = true -> List.length log_bias = List.length ft -> List.length junk = type_size size ft ->
  exists y, inorm_forward size teqb m log_bias junk x = Ret y /\ g_type y = ft /\ good size y /\
    forall k i r s j, nth_error sel k = Some i -> nth_error ft i = Some r -> In (NL_induced_norm s) (supported r) -> (j < size r / s)%nat ->
      piece s j (field_chans size ft (g_chans y) i) =
      scaled (norm_factor fn (bias_at bias log_bias k) (enorm (piece s j (field_chans size ft (g_chans x) i)))) (piece s j (field_chans size ft (g_chans x) i)).
Proof. exact @inorm_value. Qed.
Print Assumptions C43_induced_value.
(** a field of two sub-fields of size 2 between two fields of one *)
Example C43_induced_value_ex : exists m, mk_inorm (fun r => r) (fun _ => [NL_norm; NL_induced_norm 2]) [2; 4; 2]%nat "n_sigmoid" true = Ret m.
Proof. eexists. reflexivity. Qed.

Theorem C43_induced_equivariant : forall A (size : A -> nat) supported teqb ft name bias m, Forall (fun r => (0 < size r)%nat) ft ->
  mk_inorm size supported ft name bias = Ret m ->
  forall (rho : A -> mat) x x' log_bias junk junk', g_type x = ft -> g_type x' = ft -> good size x -> teqb ft ft = true ->
  List.length log_bias = List.length ft -> List.length junk = type_size size ft -> List.length junk' = type_size size ft ->
  (forall r s, In r ft -> In (NL_induced_norm s) (supported r) -> block_orthogonal (size r / s) s (rho r)) -> acts size ft rho (g_chans x) (g_chans x') ->
  exists y y', inorm_forward size teqb m log_bias junk x = Ret y /\ inorm_forward size teqb m log_bias junk' x' = Ret y' /\
    g_type y = ft /\ g_type y' = ft /\ acts size ft rho (g_chans y) (g_chans y').
Proof. exact @inorm_equivariant. Qed.
Print Assumptions C43_induced_equivariant.
(** exchanging the two sub-fields *)
Example C43_induced_equivariant_ex : block_orthogonal 2 2 (fun i j => if Nat.eqb i ((j + 2) mod 4) then 1 else 0) /\
  exists m, mk_inorm (fun r => r) (fun _ => [NL_norm; NL_induced_norm 2]) [4; 4]%nat "n_sigmoid" true = Ret m.
Proof.
  split; [|eexists; reflexivity]. exists (fun j => (1 - j)%nat), (fun _ => mid). split; [intros; lia|]. split; [intros; lia|]. split.
  - intros j _. split; intros a b Ha Hb; destruct a as [|[|a]]; destruct b as [|[|b]]; try lia; unfold mmul, mtr, mid; cbn; ring.
  - intros i a j b Hi Ha Hj Hb. destruct i as [|[|i]]; destruct a as [|[|a]]; destruct j as [|[|j]]; destruct b as [|[|b]]; try lia; reflexivity.
Qed.

(** * C44 *)
(** GatedNonLinearity1, gates given or in the first half, kept or dropped: gate
    number k multiplies the gated field number k in the order [sel]. *)
Theorem C44_gated1_value : forall A (size : A -> nat) supported trivial teqb ft gates drop m, Forall (fun r => (0 < size r)%nat) ft ->
  Forall (fun r => trivial r = true -> size r = 1%nat) ft -> mk_gated1 size supported trivial ft gates drop = Ret m ->
  let gs := gates_of gates (List.length ft) in
  let kept := if drop then positions_of is_gated gs else seq 0 (List.length ft) in
  List.length gs = List.length ft /\ map (nth_error ft) kept = map Some (gm_out m) /\
  exists sel, Permutation sel (positions_of is_gated gs) /\ List.length sel = List.length (positions_of is_gate gs) /\ gm_ngates m = List.length sel /\
  forall x bias junk, g_type x = ft -> good size x -> teqb ft ft = true -> List.length bias = List.length sel -> List.length junk = type_size size (gm_out m) ->
  exists y, gated1_forward size teqb m bias junk x = Ret y /\ g_type y = gm_out m /\ good size y /\
    (forall k g i o, nth_error (positions_of is_gate gs) k = Some g -> nth_error sel k = Some i -> nth_error kept o = Some i ->
      field_chans size (gm_out m) (g_chans y) o =
      scaled (logistic (nth 0 (field_chans size ft (g_chans x) g) 0 - nth k bias 0)) (field_chans size ft (g_chans x) i)) /\
    (drop = false -> forall k g, nth_error (positions_of is_gate gs) k = Some g ->
      field_chans size (gm_out m) (g_chans y) g = [logistic (nth 0 (field_chans size ft (g_chans x) g) 0 - nth k bias 0)]).
Proof. exact @gated1_value. Qed.
Print Assumptions C44_gated1_value.
(** interleaved gates and sizes, dropped and kept, and the default arrangement *)
Example C44_gated1_value_ex : let ft := [1; 2; 1; 1; 3; 2; 1; 1]%nat in
  let gs := [GateField; GatedField; GatedField; GateField; GatedField; GatedField; GateField; GateField] in
  (exists m, mk_gated1 (fun r => r) (fun _ => [NL_gated]) (Nat.eqb 1) ft (Some gs) true = Ret m /\ gm_out m = [2; 1; 3; 2]%nat) /\
  (exists m, mk_gated1 (fun r => r) (fun _ => [NL_gated]) (Nat.eqb 1) ft (Some gs) false = Ret m /\ gm_out m = ft) /\
  (exists m, mk_gated1 (fun r => r) (fun _ => [NL_gated]) (Nat.eqb 1) [1; 1; 2; 5]%nat None true = Ret m /\ gm_out m = [2; 5]%nat) /\
  Forall (fun r => Nat.eqb 1 r = true -> r = 1%nat) ft.
Proof.
  split; [eexists; split; reflexivity|]. split; [eexists; split; reflexivity|]. split; [eexists; split; reflexivity|].
  apply Forall_forall. intros r _ E. apply Nat.eqb_eq in E. auto.
Qed.

Theorem C44_gated1_equivariant : forall A (size : A -> nat) supported trivial teqb ft gates drop m, Forall (fun r => (0 < size r)%nat) ft ->
  Forall (fun r => trivial r = true -> size r = 1%nat) ft -> mk_gated1 size supported trivial ft gates drop = Ret m ->
  forall (rho : A -> mat) x x' bias junk junk', g_type x = ft -> g_type x' = ft -> good size x -> teqb ft ft = true ->
  List.length bias = gm_ngates m -> List.length junk = type_size size (gm_out m) -> List.length junk' = type_size size (gm_out m) ->
  (forall r, trivial r = true -> rho r 0%nat 0%nat = 1) -> acts size ft rho (g_chans x) (g_chans x') ->
  exists y y', gated1_forward size teqb m bias junk x = Ret y /\ gated1_forward size teqb m bias junk' x' = Ret y' /\
    g_type y = gm_out m /\ g_type y' = gm_out m /\ acts size (gm_out m) rho (g_chans y) (g_chans y').
Proof. exact @gated1_equivariant. Qed.
Print Assumptions C44_gated1_equivariant.
Example C44_gated1_equivariant_ex : (exists m, mk_gated1 (fun r => r) (fun _ => [NL_gated]) (Nat.eqb 1) [1; 2]%nat None true = Ret m /\ gm_ngates m = 1%nat) /\
  (forall r t, Nat.eqb 1 r = true -> (if Nat.eqb 1 r then mid else rot2 t) 0%nat 0%nat = 1).
Proof. split; [eexists; split; reflexivity|]. intros r t ->. reflexivity. Qed.

(** GatedNonLinearity2: the gates come in a tensor of their own. *)
Theorem C44_gated2_value : forall A (size : A -> nat) supported trivial teqb gts ft m, Forall (fun r => (0 < size r)%nat) ft ->
  Forall (fun r => trivial r = true -> size r = 1%nat) gts -> mk_gated2 size supported trivial gts ft = Ret m ->
  exists sel, Permutation sel (seq 0 (List.length ft)) /\ List.length gts = List.length ft /\
  forall g x bias junk, g_type g = gts -> good size g -> g_type x = ft -> good size x -> teqb gts gts = true -> teqb ft ft = true ->
  List.length bias = List.length gts -> List.length junk = type_size size ft ->
  exists y, gated2_forward size teqb m bias junk g x = Ret y /\ g_type y = ft /\ good size y /\
    forall k i, nth_error sel k = Some i -> field_chans size ft (g_chans y) i =
      scaled (logistic (nth k (g_chans g) 0 - nth k bias 0)) (field_chans size ft (g_chans x) i).
Proof. exact @gated2_value. Qed.
Print Assumptions C44_gated2_value.
Example C44_gated2_value_ex : exists m, mk_gated2 (fun r => r) (fun _ => [NL_gated]) (Nat.eqb 1) [1; 1; 1]%nat [3; 2; 3]%nat = Ret m.
Proof. eexists. reflexivity. Qed.
Theorem C44_gated2_equivariant : forall A (size : A -> nat) supported trivial teqb gts ft m, Forall (fun r => (0 < size r)%nat) ft ->
  Forall (fun r => trivial r = true -> size r = 1%nat) gts -> mk_gated2 size supported trivial gts ft = Ret m ->
  forall (rho : A -> mat) g g' x x' bias junk junk', g_type g = gts -> g_type g' = gts -> g_type x = ft -> g_type x' = ft -> good size g -> good size x ->
  teqb gts gts = true -> teqb ft ft = true -> List.length bias = List.length gts -> List.length junk = type_size size ft -> List.length junk' = type_size size ft ->
  (forall r, trivial r = true -> rho r 0%nat 0%nat = 1) -> acts size gts rho (g_chans g) (g_chans g') -> acts size ft rho (g_chans x) (g_chans x') ->
  exists y y', gated2_forward size teqb m bias junk g x = Ret y /\ gated2_forward size teqb m bias junk' g' x' = Ret y' /\
    g_type y = ft /\ g_type y' = ft /\ acts size ft rho (g_chans y) (g_chans y').
Proof. exact @gated2_equivariant. Qed.
Print Assumptions C44_gated2_equivariant.
Example C44_gated2_equivariant_ex : forall t, (forall r, Nat.eqb 1 r = true -> (if Nat.eqb 1 r then mid else rot2 t) 0%nat 0%nat = 1) /\
  exists m, mk_gated2 (fun r => r) (fun _ => [NL_gated]) (Nat.eqb 1) [1; 1]%nat [2; 2]%nat = Ret m.
Proof. intros t. split; [intros r ->; reflexivity|eexists; reflexivity]. Qed.

(** GatedNonLinearityUniform: inside a field the first half of the irreps are the
    gates of the second half, in order; [gate] is the activation. *)
Theorem C44_gated3_value : forall I (isize : I -> nat) itrivial irreps n m gate bias x, mk_gated3 itrivial irreps n = Ret m ->
  Forall (fun q => itrivial q = true -> isize q = 1%nat) irreps ->
  List.length x = irr_size isize irreps -> List.length bias = g3_ngates m ->
  let k := (List.length irreps / 2)%nat in
  g3_ngates m = k /\ g3_gated m = skipn k irreps /\ List.length irreps = (k + k)%nat /\
  exists y, gated3_field isize m gate bias x = Ret y /\ List.length y = irr_size isize (g3_gated m) /\
    forall j, (j < k)%nat -> field_chans isize (g3_gated m) y j = scaled (gate (nth 0 (field_chans isize irreps x j) 0 - nth j bias 0)) (field_chans isize irreps x (k + j)).
Proof. exact @gated3_field_value. Qed.
Print Assumptions C44_gated3_value.
Example C44_gated3_value_ex : exists m, mk_gated3 (Nat.eqb 1) [1; 1; 3; 2]%nat 5 = Ret m /\ irr_size (fun r => r) [1; 1; 3; 2]%nat = 7%nat.
Proof. eexists. split; reflexivity. Qed.
Theorem C44_gated3_equivariant : forall I (isize : I -> nat) itrivial irreps n m gate bias x x' (rho : I -> mat), mk_gated3 itrivial irreps n = Ret m ->
  Forall (fun q => (0 < isize q)%nat) irreps -> irreps <> [] ->
  Forall (fun q => itrivial q = true -> isize q = 1%nat /\ rho q 0%nat 0%nat = 1) irreps ->
  let s := irr_size isize irreps in let t := irr_size isize (g3_gated m) in
  List.length x = (n * s)%nat -> List.length x' = (n * s)%nat -> List.length bias = n -> Forall (fun b => List.length b = g3_ngates m) bias ->
  (forall f, (f < n)%nat -> acts isize irreps rho (piece s f x) (piece s f x')) ->
  exists y y', gated3_forward isize m gate bias x = Ret y /\ gated3_forward isize m gate bias x' = Ret y' /\ List.length y = (n * t)%nat /\ List.length y' = (n * t)%nat /\
    (forall f, (f < n)%nat -> acts isize (g3_gated m) rho (piece t f y) (piece t f y')) /\
    (forall f b, (f < n)%nat -> nth_error bias f = Some b -> gated3_field isize m gate b (piece s f x) = Ret (piece t f y)).
Proof. exact @gated3_equivariant. Qed.
Print Assumptions C44_gated3_equivariant.
Example C44_gated3_equivariant_ex : exists m, mk_gated3 (Nat.eqb 1) [1; 2]%nat 2 = Ret m /\ g3_ngates m = 1%nat /\
  List.length [1; 2; 3; 4; 5; 6] = (2 * irr_size (fun r => r) [1; 2])%nat.
Proof. eexists. split; [reflexivity|]. split; reflexivity. Qed.
