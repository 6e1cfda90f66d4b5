(** Property C91: the gated nonlinearity on induced representations. *)
From Coq Require Import Reals String List ZArith Arith Bool Permutation.
From Verif Require Import LibRes LibPy LibMat FieldModel SpecField FieldProofs GroupedModel NonlinModel SpecNonlin GatedThms IGatedModel SpecIGated IGatedThms IGatedEx.
Import ListNotations.
Open Scope R_scope.

(** C91: the k-th gate field, moved by the k-th bias, multiplies one gated field,
    its entry j the j-th sub-field; every gated field is used once. *)
Theorem C91_value : forall (A : Type) (size : A -> nat) (supported : A -> list nonlin) (teqb : list A -> list A -> bool) (ft : list A) (gates : option (list gate)) (drop : bool) (m : igated_module),
  Forall (fun r : A => (0 < size r)%nat) ft ->
  mk_igated size supported ft gates drop = Ret m ->
  let gs := gates_of gates (length ft) in
  let kept := if drop then positions_of is_gated gs else seq 0 (length ft) in
  let q := ig_quotient m in
  length gs = length ft /\
  map (nth_error ft) kept = map Some (ig_out m) /\
  (forall (i : nat) (g : gate) (r : A),
  nth_error gs i = Some g ->
  nth_error ft i = Some r ->
  match g with
  | GateField => In NL_induced_gate (supported r) /\ size r = q
  | GatedField => exists s : nat, (0 < s)%nat /\ size r = (q * s)%nat /\ (forall t : nat, In (NL_induced_gated t) (supported r) <-> t = s)
  | OtherName => False
  end) /\
  (exists sel : list nat,
  Permutation sel (positions_of is_gated gs) /\
  length sel = length (positions_of is_gate gs) /\
  ig_ngates m = length sel /\
  (forall (b : nat) (x : gtensor A R) (bias junk : list R),
  g_type x = ft ->
  good size x ->
  teqb ft ft = true ->
  length bias = length sel ->
  length junk = type_size size (ig_out m) ->
  drop = true \/ b = 1%nat /\ ig_ngates m = 1%nat ->
  exists y : gtensor A R,
  igated_forward size teqb b m bias junk x = Ret y /\
  g_type y = ig_out m /\
  good size y /\
  (forall (k g i o : nat) (r : A) (s j : nat),
  nth_error (positions_of is_gate gs) k = Some g ->
  nth_error sel k = Some i ->
  nth_error kept o = Some i ->
  nth_error ft i = Some r ->
  In (NL_induced_gated s) (supported r) ->
  (j < q)%nat ->
  piece s j (field_chans size (ig_out m) (g_chans y) o) =
  scaled (logistic (nth j (field_chans size ft (g_chans x) g) 0 - nth k bias 0)) (piece s j (field_chans size ft (g_chans x) i))) /\
  (drop = false ->
  forall k g : nat,
  nth_error (positions_of is_gate gs) k = Some g ->
  field_chans size (ig_out m) (g_chans y) g = map (fun v : R => logistic (v - nth k bias 0)) (field_chans size ft (g_chans x) g)))).
Proof. exact @igated_value. Qed.
Print Assumptions C91_value.
Example C91_value_ex : exists m, mk_igated ex_size ex_supported [false; true] None true = Ret m /\ ig_quotient m = 2%nat /\ ig_ngates m = 1%nat.
Proof. exact ex_built. Qed.

(** C91: the map commutes with every element that permutes the cosets of all the
    fields in the same way. *)
Theorem C91_equivariant : forall (A : Type) (size : A -> nat) (supported : A -> list nonlin) (teqb : list A -> list A -> bool) (ft : list A) (gates : option (list gate)) (drop : bool) (m : igated_module),
  Forall (fun r : A => (0 < size r)%nat) ft ->
  mk_igated size supported ft gates drop = Ret m ->
  forall (rho : A -> mat) (p : nat -> nat) (b : nat) (x x' : gtensor A R) (bias junk junk' : list R),
  g_type x = ft ->
  g_type x' = ft ->
  good size x ->
  teqb ft ft = true ->
  length bias = ig_ngates m ->
  length junk = type_size size (ig_out m) ->
  length junk' = type_size size (ig_out m) ->
  drop = true \/ b = 1%nat /\ ig_ngates m = 1%nat ->
  shuffles (ig_quotient m) p ->
  (forall r : A, In r ft -> In NL_induced_gate (supported r) -> permutation_matrix (ig_quotient m) p (rho r)) ->
  (forall (r : A) (s : nat), In r ft -> In (NL_induced_gated s) (supported r) -> carries (ig_quotient m) s p (rho r)) ->
  acts size ft rho (g_chans x) (g_chans x') ->
  exists y y' : gtensor A R,
  igated_forward size teqb b m bias junk x = Ret y /\
  igated_forward size teqb b m bias junk' x' = Ret y' /\ g_type y = ig_out m /\ g_type y' = ig_out m /\ acts size (ig_out m) rho (g_chans y) (g_chans y').
Proof. exact @igated_equivariant. Qed.
Print Assumptions C91_equivariant.
Example C91_equivariant_ex : forall t, shuffles 2 ex_swap /\ permutation_matrix 2 ex_swap (ex_rho t false) /\ carries 2 2 ex_swap (ex_rho t true).
Proof. exact ex_moves. Qed.

(** C91: only tensors of the input type are accepted; the result has the output type. *)
Theorem C91_type_checked : forall (A : Type) (size : A -> nat) (supported : A -> list nonlin) (teqb : list A -> list A -> bool) (ft : list A) (gates : option (list gate)) (drop : bool) (m : igated_module),
  Forall (fun r : A => (0 < size r)%nat) ft ->
  mk_igated size supported ft gates drop = Ret m ->
  forall (b : nat) (x : gtensor A R) (bias junk : list R) (y : gtensor A R),
  igated_forward size teqb b m bias junk x = Ret y -> teqb (g_type x) ft = true /\ g_type y = ig_out m /\ good size y.
Proof. exact @igated_type_checked. Qed.
Print Assumptions C91_type_checked.
Example C91_type_checked_ex : exists m, mk_igated ex_size ex_supported [false; true] None true = Ret m /\ ig_out m = [true].
Proof. eexists. split; reflexivity. Qed.

(** C91, refuted for drop_gates = False: with two gates or two batch entries the
    forward pass raises for every input of the right type. *)
Theorem C91_keep_gates_refuted : forall (A : Type) (size : A -> nat) (supported : A -> list nonlin) (teqb : list A -> list A -> bool) (ft : list A) (gates : option (list gate)) (m : igated_module),
  Forall (fun r : A => (0 < size r)%nat) ft ->
  mk_igated size supported ft gates false = Ret m ->
  forall (b : nat) (x : gtensor A R) (bias junk : list R),
  g_type x = ft -> good size x -> length bias = ig_ngates m -> b <> 1%nat \/ ig_ngates m <> 1%nat -> igated_forward size teqb b m bias junk x = Raise.
Proof. exact @igated_keep_fails. Qed.
Print Assumptions C91_keep_gates_refuted.
Example C91_keep_gates_refuted_ex : exists m, mk_igated ex_size ex_supported [true; false; false; true] (Some [GatedField; GateField; GateField; GatedField]) false = Ret m /\
  ig_quotient m = 2%nat /\ ig_ngates m = 2%nat.
Proof. exact ex_mixed. Qed.
