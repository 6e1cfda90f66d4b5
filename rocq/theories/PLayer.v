(** Properties C40 and C42: biases and evaluation mode of the trainable layers. *)
From Coq Require Import Reals ZArith List Lia.
From Verif Require Import LibRes LibMat FinGroupModel PlanarModel SpecPlanar SpecIrrep RepModel SpecRepr RepThms SpecNonlin LayerModel SpecLayer ModeThms BiasThms BiasCor.
Import ListNotations.
Open Scope R_scope.

(** ** C40: biases *)
(** The expanded bias is fixed by every element, for every group. *)
Theorem C40_invariant : forall T (irr : list Z -> res (girrep T)) mem op e tid bias ft m b v g rho, (forall i, irr tid = Ret i -> trivial_rep mem (gi_size i) (gi_rep i)) ->
  Forall (proper irr mem op e) ft -> mk_bias irr tid bias ft = Ret m -> expand_bias ft m b = Some v -> mem g ->
  (forall r, In r ft -> r_fun r g = Ret (r_size r, rho r)) -> acts r_size ft rho v v.
Proof. exact bias_invariant_ok. Qed.
Print Assumptions C40_invariant.
(** The layer is always built; it has a bias exactly when it is asked for and some
    field contains the trivial representation. *)
Theorem C40_built : forall T (irr : list Z -> res (girrep T)) mem op e tid ft, Forall (proper irr mem op e) ft -> forall bias, exists m, mk_bias irr tid bias ft = Ret m /\
  (m <> None <-> bias = true /\ exists r id i, In r ft /\ In id (r_irreps r) /\ irr id = Ret i /\ gi_id i = tid).
Proof. exact bias_built. Qed.
Print Assumptions C40_built.
(** Conversely every vector fixed by all the elements is the expansion of some
    bias parameters, if the other irreps fix only zero. *)
Theorem C40_complete : forall T (irr : list Z -> res (girrep T)) mem op e tid ft m x, (forall i, irr tid = Ret i -> trivial_rep mem (gi_size i) (gi_rep i)) ->
  (forall r id i, In r ft -> In id (r_irreps r) -> id <> tid -> irr id = Ret i -> nothing_fixed mem (gi_size i) (gi_rep i)) ->
  Forall (proper irr mem op e) ft -> mk_bias irr tid true ft = Ret m -> length x = list_sum (map r_size ft) ->
  (forall g rho, mem g -> (forall r, In r ft -> r_fun r g = Ret (r_size r, rho r)) -> acts r_size ft rho x x) ->
  match m with
  | None => Forall (fun a => a = 0) x
  | Some (t, M) => exists b, length b = t /\ expand_bias ft m b = Some x
  end.
Proof. exact bias_complete_ok. Qed.
Print Assumptions C40_complete.
(** Both for C_N, D_N, SO(2) and O(2). *)
Theorem C40_planar : forall G ft, pvalid G -> Forall (planar_repr G) ft ->
  (forall bias m b v g rho, mk_bias (p_irr G) (p_trivial_id G) bias ft = Ret m -> expand_bias ft m b = Some v -> pmember G g ->
     (forall r, In r ft -> r_fun r g = Ret (r_size r, rho r)) -> acts r_size ft rho v v) /\
  exists m, mk_bias (p_irr G) (p_trivial_id G) true ft = Ret m /\
    forall x, length x = list_sum (map r_size ft) ->
      (forall g rho, pmember G g -> (forall r, In r ft -> r_fun r g = Ret (r_size r, rho r)) -> acts r_size ft rho x x) ->
      match m with
      | None => Forall (fun a => a = 0) x
      | Some (t, M) => exists b, length b = t /\ expand_bias ft m b = Some x
      end.
Proof. exact bias_planar. Qed.
Print Assumptions C40_planar.
Example C40_ex : exists s s', p_irr (Fin (Cyc 4)) [0%Z] = Ret s /\ p_irr (Fin (Cyc 4)) [1%Z] = Ret s' /\
  Forall (planar_repr (Fin (Cyc 4))) [repr_of_irrep s'; repr_of_irrep s] /\
  exists t M, mk_bias (p_irr (Fin (Cyc 4))) [0%Z] true [repr_of_irrep s'; repr_of_irrep s] = Ret (Some (t, M)) /\ t = 1%nat.
Proof.
  do 2 eexists. split; [reflexivity|]. split; [reflexivity|]. split.
  - constructor; [apply (planar_irrep_repr _ [1%Z]); [reflexivity|cbn; lia|reflexivity]|]. constructor; [apply (planar_irrep_repr _ [0%Z]); [reflexivity|cbn; lia|reflexivity]|constructor].
  - do 2 eexists. split; reflexivity.
Qed.

(** ** C42: training and evaluation mode *)
(** Linear and TensorProductModule. *)
Theorem C42_linear : forall W F (expand : W -> F) h w z,
  used expand (run (linear_train expand) h w z) =
  if hist_mode h true then Ret (expand (hist_params h w))
  else match hist_last_eval h w None with Some w' => Ret (expand w') | None => Raise end.
Proof. exact @linear_modes. Qed.
Print Assumptions C42_linear.
Theorem C42_linear_defined : forall W h (w : W), hist_mode h true = false -> exists w', hist_last_eval h w None = Some w'.
Proof. exact @linear_defined. Qed.
Print Assumptions C42_linear_defined.
Example C42_linear_ex : hist_mode [Mode false; Update 1; Mode false; Update 2] true = false /\ hist_last_eval [Mode false; Update 1; Mode false; Update 2] 0 None = Some 1.
Proof. split; reflexivity. Qed.
(** Convolutions: the weights are those at the last switch from training to
    evaluation, so a second eval() call does not refresh the filter. *)
Theorem C42_conv : forall W F (expand : W -> F) h w z,
  used expand (run (conv_train expand) h w z) =
  if hist_mode h true then Ret (expand (hist_params h w))
  else match hist_last_switch h true w None with Some w' => Ret (expand w') | None => Raise end.
Proof. exact @conv_modes. Qed.
Print Assumptions C42_conv.
Theorem C42_refuted : forall W F (expand : W -> F) w w' z, hist_last_eval [Mode false; Update w'; Mode false] w None = Some w' /\
  used expand (run (conv_train expand) [Mode false; Update w'; Mode false] w z) = Ret (expand w).
Proof. exact @conv_stale. Qed.
Print Assumptions C42_refuted.
(** They use the current weights if these change only in training mode. *)
Theorem C42_conv_frozen : forall W F (expand : W -> F) h w z, frozen_in_eval h true ->
  used expand (run (conv_train expand) h w z) = Ret (expand (hist_params h w)).
Proof. exact @conv_modes_frozen. Qed.
Print Assumptions C42_conv_frozen.
Example C42_conv_ex : frozen_in_eval [Update 1; Mode false; Mode false; Mode true; Update 2; Mode false] true.
Proof. cbn. auto. Qed.
(** Point convolutions keep only the bias: after an update in evaluation mode
    the filter is the new one and the bias the old one. *)
Theorem C42_point : forall W F B (ef : W -> F) (eb : W -> B) h w z,
  point_used ef eb (run (point_train eb) h w z) =
  if hist_mode h true then Ret (ef (hist_params h w), eb (hist_params h w))
  else match hist_last_switch h true w None with Some w' => Ret (ef (hist_params h w), eb w') | None => Raise end.
Proof. exact @point_modes. Qed.
Print Assumptions C42_point.
Theorem C42_point_refuted : forall W F B (ef : W -> F) (eb : W -> B) w w' z,
  point_used ef eb (run (point_train eb) [Mode false; Update w'] w z) = Ret (ef w', eb w).
Proof. exact @point_mixed. Qed.
Print Assumptions C42_point_refuted.
Theorem C42_point_frozen : forall W F B (ef : W -> F) (eb : W -> B) h w z, frozen_in_eval h true ->
  point_used ef eb (run (point_train eb) h w z) = Ret (ef (hist_params h w), eb (hist_params h w)).
Proof. exact @point_modes_frozen. Qed.
Print Assumptions C42_point_frozen.
