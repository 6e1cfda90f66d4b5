(** An example and a counterexample for FieldNorm. *)
From Coq Require Import Reals List ZArith Arith Bool Lia Lra.
From Verif Require Import LibRes LibPy LibMat ParamModel FieldModel SpecField GroupedModel NonlinModel SpecNonlin ImageModel PoolModel BatchNormModel SpecBatch FNormModel SpecFNorm InnerBNCor BatchEx IIDEx.
Import ListNotations.
Open Scope R_scope.

Lemma fn_example : exists m st0 st ys g,
  listing [true; false] [false; true] /\ named_apart (fun r : bool => r) [true; false] /\ (forall r, irreps_ok (two_irreps r) (two_size r)) /\
  mk_fn two_size (fun r => r) two_irreps two_cob two_inv Bool.eqb true (1 / 100000) [true; false] [false; true] = Ret (m, st0) /\
  (forall r, inverse_of (two_size r) (two_cob r) (two_inv r)) /\ (forall r, represents (two_irreps r) (two_cob r) (two_inv r) (two_size r) (two_rho r)) /\
  (forall r, orthogonal (two_size r) (two_rho r)) /\ reorders 2 flip /\ moved_batch two_size [true; false] 2 (fun _ => two_rho) flip (g_chans two_x) (g_chans two_x') /\
  run (fun t N st x => fn_call two_size Bool.eqb two_teqb m t N st (two_junk x) x) (fn_set Bool.eqb) fn_reset_parameters st0
    [Call true 2 two_x; SetWeights (true, ([3], Some [[4]])); Call false 2 two_x] = Ret (st, ys) /\
  dget Bool.eqb st true = Some g /\ fp_weight g = Some [3] /\ fp_bias g = Some [[4]] /\
  (let u := centred (two_irreps true) (two_cob true) (two_inv true) 2 [[1; 3]; [5; 7]] 0 in u 0%nat = -2 /\ u 1%nat = 2 /\ mean_square 2 u = 4).
Proof.
  do 5 eexists. split; [|split; [|split; [apply two_irreps_ok|split; [reflexivity|split; [apply two_inverse|split; [apply two_represents|split; [apply two_orthogonal|split; [apply flip_reorders|split; [apply two_moved|]]]]]]]]].
  { split; [repeat constructor; cbn; intuition discriminate|]. intros [|]; cbn; intuition. }
  { intros a b _ _ E. exact E. }
  split; [lazy -[Rplus Rmult Rdiv Rinv Rminus Ropp IZR sqrt INR mean]; reflexivity|].
  split; [reflexivity|]. split; [reflexivity|]. split; [reflexivity|]. unfold mean_square, centred, fixed_part, ent; cbn. repeat split; lra.
Qed.

(** ** A basis that is not orthonormal *)
(** the quarter turn with the second axis scaled by two *)
Definition skew_cob : mat := mat2 1 0 0 2.
Definition skew_inv : mat := mat2 1 0 0 (1 / 2).
Definition skew_rho : mat := mat2 0 (- (1 / 2)) 2 0.
Definition skew_in (a b : R) : gtensor unit (list R) := {| g_type := [tt]; g_chans := [[a]; [b]] |}.
Lemma fn_skew : exists m st0 y y',
  mk_fn (fun _ => 2%nat) (fun r => r) (fun _ => [(2%nat, false)]) (fun _ => skew_cob) (fun _ => skew_inv) (fun _ _ => true) true (1 / 100000) [tt] [tt] = Ret (m, st0) /\
  irreps_ok [(2%nat, false)] 2 /\ inverse_of 2 skew_cob skew_inv /\ represents [(2%nat, false)] skew_cob skew_inv 2 skew_rho /\
  moved_batch (fun _ => 2%nat) [tt] 1 (fun _ _ => skew_rho) (fun p => p) (g_chans (skew_in 1 0)) (g_chans (skew_in 0 2)) /\
  fn_call (fun _ => 2%nat) (fun _ _ => true) (fun _ _ => true) m false 1 st0 [[]; []] (skew_in 1 0) = Ret (st0, y) /\
  fn_call (fun _ => 2%nat) (fun _ _ => true) (fun _ _ => true) m false 1 st0 [[]; []] (skew_in 0 2) = Ret (st0, y') /\
  ~ moved_batch (fun _ => 2%nat) [tt] 1 (fun _ _ => skew_rho) (fun p => p) (g_chans y) (g_chans y').
Proof.
  do 4 eexists. split; [reflexivity|]. split; [split; [reflexivity|]; repeat constructor; intros H; discriminate H|].
  split; [split; intros [|[|i]] [|[|j]] Hi Hj; try lia; unfold mmul, mid; cbn; lra|]. split.
  { exists (mat2 0 (-1) 1 0). split; [|split; [|split]].
    - intros [|[|i]] [|[|j]] Hi Hj; try lia; unfold mmul, mid; cbn; lra.
    - split; intros [|[|i]] [|[|j]] Hi Hj; try lia; unfold mmul, mtr, mid; cbn; lra.
    - intros [|[|i]] [|[|j]] Hi Hj; try lia; cbn; intros; congruence.
    - intros [|[|i]] Hi; try lia; cbn; intros; discriminate. }
  split.
  { split; [split; [reflexivity|repeat constructor]|split; [split; [reflexivity|repeat constructor]|]].
    intros p Hp. split; [reflexivity|]. intros [|i] r E; [|destruct i; discriminate]; injection E as <-; unfold field_chans, mv; destruct p as [|p]; try lia; cbn; repeat f_equal; lra. }
  split; [lazy -[Rplus Rmult Rdiv Rinv Rminus Ropp IZR sqrt INR mean]; reflexivity|].
  split; [lazy -[Rplus Rmult Rdiv Rinv Rminus Ropp IZR sqrt INR mean]; reflexivity|].
  intros (_ & _ & H). destruct (H 0%nat ltac:(lia)) as [_ K]. specialize (K 0%nat tt eq_refl). unfold field_chans, mv, skew_rho, mat2 in K. cbn in K. injection K as _ K.
  unfold mean, square, rsum in K; cbn in K. 
  replace ((0 * 0 + (2 * 2 + 0)) / (1 + 1)) with 2 in K by lra. replace ((1 * 1 + (0 * 0 + 0)) / (1 + 1)) with (1 / 2) in K by lra.
  set (e := 1 / 100000) in *. assert (0 < e) as He by (unfold e; lra).
  pose proof (sqrt_lt_1 (1 / 2 + e) (2 + e) ltac:(lra) ltac:(lra) ltac:(lra)) as Lt. pose proof (sqrt_lt_R0 (1 / 2 + e) ltac:(lra)) as P1.
  assert (/ sqrt (1 / 2 + e) = / sqrt (2 + e)) as Q by (unfold Rdiv in *; lra). apply (f_equal Rinv) in Q. rewrite !Rinv_inv in Q. lra.
Qed.
