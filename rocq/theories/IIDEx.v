(** Examples and counterexamples for _IIDBatchNorm. *)
From Coq Require Import Reals List ZArith Arith Bool Lia Lra.
From Verif Require Import LibRes LibPy LibMat ParamModel FieldModel SpecField GroupedModel NonlinModel SpecNonlin ImageModel PoolModel BatchNormModel SpecBatch FNormModel SpecFNorm InnerBNCor BatchEx.
Import ListNotations.
Open Scope R_scope.

(** [true] is the regular representation of the cyclic group of order two in the
    basis of its elements (the change of basis is not orthogonal), [false] is its
    sign representation *)
Definition two_size (r : bool) : nat := if r then 2%nat else 1%nat.
Definition two_irreps (r : bool) : list (nat * bool) := if r then [(1%nat, true); (1%nat, false)] else [(1%nat, false)].
Definition two_cob (r : bool) : mat := if r then mat2 1 1 1 (-1) else mid.
Definition two_inv (r : bool) : mat := if r then mat2 (1 / 2) (1 / 2) (1 / 2) (- (1 / 2)) else mid.
Definition two_rho (r : bool) : mat := if r then mat2 0 1 1 0 else fun _ _ => -1.
Definition two_teqb (a b : list bool) : bool := if list_eq_dec bool_dec a b then true else false.
Definition two_x : gtensor bool (list R) := {| g_type := [true; false]; g_chans := [[1; 3]; [5; 7]; [2; 4]] |}.
Definition two_x' : gtensor bool (list R) := {| g_type := [true; false]; g_chans := [[7; 5]; [3; 1]; [-4; -2]] |}.
Definition two_junk (x : gtensor bool (list R)) : list (list R) := map (fun _ => []) (g_chans x).

Lemma two_inverse : forall r, inverse_of (two_size r) (two_cob r) (two_inv r).
Proof. intros [|]; split; intros [|[|i]] [|[|j]] Hi Hj; cbn in Hi, Hj; try lia; unfold mmul, mid; cbn; lra. Qed.
Lemma two_irreps_ok : forall r, irreps_ok (two_irreps r) (two_size r).
Proof. intros [|]; split; try reflexivity; repeat constructor; intros H; discriminate H. Qed.
Lemma two_represents : forall r, represents (two_irreps r) (two_cob r) (two_inv r) (two_size r) (two_rho r).
Proof.
  intros [|].
  - exists (mat2 1 0 0 (-1)). split; [|split; [|split]].
    + intros [|[|i]] [|[|j]] Hi Hj; cbn in Hi, Hj; try lia; unfold mmul, mid; cbn; lra.
    + split; intros [|[|i]] [|[|j]] Hi Hj; cbn in Hi, Hj; try lia; unfold mmul, mtr, mid; cbn; lra.
    + intros [|[|i]] [|[|j]] Hi Hj; cbn in Hi, Hj; try lia; cbn; intros; try reflexivity; congruence.
    + intros [|[|i]] Hi; cbn in Hi; try lia; cbn; intros; try reflexivity; discriminate.
  - exists (fun _ _ => -1). split; [|split; [|split]].
    + intros [|i] [|j] Hi Hj; cbn in Hi, Hj; try lia; unfold mmul, mid; cbn; lra.
    + split; intros [|i] [|j] Hi Hj; cbn in Hi, Hj; try lia; unfold mmul, mtr, mid; cbn; lra.
    + intros [|i] [|j] Hi Hj; cbn in Hi, Hj; try lia; cbn; intros; congruence.
    + intros [|i] Hi; cbn in Hi; try lia; cbn; intros; discriminate.
Qed.
Lemma two_orthogonal : forall r, orthogonal (two_size r) (two_rho r).
Proof. intros [|]; split; intros [|[|i]] [|[|j]] Hi Hj; cbn in Hi, Hj; try lia; unfold mmul, mtr, mid; cbn; lra. Qed.
Lemma two_moved : moved_batch two_size [true; false] 2 (fun _ => two_rho) flip (g_chans two_x) (g_chans two_x').
Proof.
  split; [split; [reflexivity|repeat constructor]|split; [split; [reflexivity|repeat constructor]|]].
  intros p Hp. split; [reflexivity|]. intros [|[|i]] r E; [| |destruct i; discriminate]; injection E as <-; unfold field_chans, mv; destruct p as [|[|p]]; try lia; cbn; repeat f_equal; lra.
Qed.

Lemma iid_example : exists m st0 st ys g,
  listing [true; false] [false; true] /\ named_apart (fun r : bool => r) [true; false] /\ (forall r, irreps_ok (two_irreps r) (two_size r)) /\
  mk_iid two_size (fun r => r) two_irreps two_cob two_inv Bool.eqb true true (1 / 100000) (Some (1 / 10)) [true; false] [false; true] = Ret (m, st0) /\
  (forall r, inverse_of (two_size r) (two_cob r) (two_inv r)) /\ (forall r, represents (two_irreps r) (two_cob r) (two_inv r) (two_size r) (two_rho r)) /\
  (forall r, orthogonal (two_size r) (two_rho r)) /\ reorders 2 flip /\ moved_batch two_size [true; false] 2 (fun _ => two_rho) flip (g_chans two_x) (g_chans two_x') /\
  run (fun t N st x => iid_forward two_size Bool.eqb two_teqb m t N st (two_junk x) x) (iid_set Bool.eqb) iid_reset_running_stats st0
    [Call true 2 two_x; SetWeights (true, ([3], Some [[4]])); Call false 2 two_x] = Ret (st, ys) /\
  variance 2 2 [[1; 3]; [5; 7]] = 2 /\ (forall c, (c < 2)%nat -> fixed_part (two_irreps true) (two_cob true) (two_inv true) 2 (avg 2 [[1; 3]; [5; 7]]) c = 4) /\
  dget Bool.eqb (is_groups st) true = Some g /\ (exists a b, is_mean g = Some [[a; b]] /\ a = 4 / 10 /\ b = 4 / 10) /\ (exists a, is_var g = [a] /\ a = 11 / 10) /\
  is_weight g = Some [3] /\ is_bias g = Some [[4]].
Proof.
  do 5 eexists. split; [|split; [|split; [apply two_irreps_ok|split; [reflexivity|split; [apply two_inverse|split; [apply two_represents|split; [apply two_orthogonal|split; [apply flip_reorders|split; [apply two_moved|]]]]]]]]].
  { split; [repeat constructor; cbn; intuition discriminate|]. intros [|]; cbn; intuition. }
  { intros a b _ _ E. exact E. }
  split; [lazy -[Rplus Rmult Rdiv Rinv Rminus Ropp IZR sqrt INR mean unbiased_var]; reflexivity|].
  split; [unfold variance, avg, ent; cbn; lra|]. split.
  { intros [|[|c]] Hc; try lia; unfold fixed_part, avg, ent; cbn; lra. }
  split; [reflexivity|]. split.
  { eexists; eexists. split; [reflexivity|]. unfold mean, rsum; cbn. split; lra. }
  split; [|split; reflexivity]. eexists. split; [reflexivity|]. unfold unbiased_var, deviation, mean, square, rsum; cbn. lra.
Qed.

(** ** Points transformed by different group elements *)
Definition sign_size (r : unit) : nat := 1%nat.
Definition sign_rho (p : nat) (r : unit) : mat := fun _ _ => if Nat.eqb p 0 then 1 else -1.
Definition sign_in (a : R) : gtensor unit (list R) := {| g_type := [tt]; g_chans := [[1; a]] |}.
Lemma iid_independent : exists m st0 st st' ys ys',
  mk_iid sign_size (fun r => r) (fun _ => [(1%nat, false)]) (fun _ => mid) (fun _ => mid) (fun _ _ => true) true true (1 / 100000) (Some (1 / 10)) [tt] [tt] = Ret (m, st0) /\
  (forall p r, represents [(1%nat, false)] mid mid 1 (sign_rho p r)) /\ moved_batch sign_size [tt] 2 sign_rho (fun p => p) (g_chans (sign_in 1)) (g_chans (sign_in (-1))) /\
  run (fun t N st x => iid_forward sign_size (fun _ _ => true) (fun _ _ => true) m t N st [[]] x) (iid_set (fun _ _ => true)) iid_reset_running_stats st0 [Call true 2 (sign_in 1)] = Ret (st, ys) /\
  run (fun t N st x => iid_forward sign_size (fun _ _ => true) (fun _ _ => true) m t N st [[]] x) (iid_set (fun _ _ => true)) iid_reset_running_stats st0 [Call true 2 (sign_in (-1))] = Ret (st', ys') /\
  (exists g g' a a', is_groups st = [(tt, g)] /\ is_groups st' = [(tt, g')] /\ is_var g = [a] /\ is_var g' = [a'] /\ a = 9 / 10 /\ a' = 11 / 10).
Proof.
  do 6 eexists. split; [reflexivity|]. split.
  { intros p r. exists (sign_rho p r). split; [|split; [|split]].
    - intros [|i] [|j] Hi Hj; try lia; unfold mmul, mid; cbn; lra.
    - split; intros [|i] [|j] Hi Hj; try lia; unfold mmul, mtr, mid, sign_rho; cbn; destruct (Nat.eqb p 0); lra.
    - intros [|i] [|j] Hi Hj; try lia; cbn; congruence.
    - intros [|i] Hi; try lia; cbn; discriminate. }
  split.
  { split; [split; [reflexivity|repeat constructor]|split; [split; [reflexivity|repeat constructor]|]].
    intros p Hp. split; [reflexivity|]. intros [|i] r E; [|destruct i; discriminate]; injection E as <-; unfold field_chans, mv, sign_rho; destruct p as [|[|p]]; try lia; cbn; repeat f_equal; lra. }
  split; [lazy -[Rplus Rmult Rdiv Rinv Rminus Ropp IZR sqrt INR mean unbiased_var]; reflexivity|].
  split; [lazy -[Rplus Rmult Rdiv Rinv Rminus Ropp IZR sqrt INR mean unbiased_var]; reflexivity|].
  do 4 eexists. split; [reflexivity|]. split; [reflexivity|]. split; [reflexivity|]. split; [reflexivity|].
  unfold unbiased_var, deviation, mean, square, rsum; cbn. split; lra.
Qed.

(** ** Two representations of the same name *)
(** the trivial and the sign representation, in this order ([true]) or with the
    channels swapped ([false]) *)
Definition alike_cob (r : bool) : mat := if r then mid else mat2 0 1 1 0.
Definition alike_rho (r : bool) : mat := if r then mat2 1 0 0 (-1) else mat2 (-1) 0 0 1.
Definition alike_x : gtensor bool (list R) := {| g_type := [true; false]; g_chans := [[0]; [0]; [0]; [0]] |}.
Lemma iid_names : exists m st0 st y,
  listing [true; false] [true; false] /\ (forall r, In r [true; false] -> irreps_ok [(1%nat, true); (1%nat, false)] 2) /\
  (forall r, inverse_of 2 (alike_cob r) (alike_cob r)) /\ (forall r, represents [(1%nat, true); (1%nat, false)] (alike_cob r) (alike_cob r) 2 (alike_rho r)) /\
  mk_iid (fun _ => 2%nat) (fun _ => tt) (fun _ => [(1%nat, true); (1%nat, false)]) alike_cob alike_cob (fun _ _ => true) true true (1 / 100000) (Some (1 / 10)) [true; false] [true; false] = Ret (m, st0) /\
  run (fun t N st x => iid_forward (fun _ => 2%nat) (fun _ _ => true) two_teqb m t N st (two_junk x) x) (iid_set (fun _ _ => true)) iid_reset_running_stats st0
    [SetWeights (tt, ([1; 1], Some [[1]; [1]])); Call false 1 alike_x] = Ret (st, [None; Some y]) /\
  moved_batch (fun _ => 2%nat) [true; false] 1 (fun _ => alike_rho) (fun p => p) (g_chans alike_x) (g_chans alike_x) /\
  ~ moved_batch (fun _ => 2%nat) [true; false] 1 (fun _ => alike_rho) (fun p => p) (g_chans y) (g_chans y).
Proof.
  do 4 eexists. split; [|split; [|split; [|split; [|split; [reflexivity|split; [lazy -[Rplus Rmult Rdiv Rinv Rminus Ropp IZR sqrt INR mean unbiased_var]; reflexivity|split]]]]]].
  - split; [repeat constructor; cbn; intuition discriminate|]. intros [|]; cbn; intuition.
  - intros r _. split; [reflexivity|]. repeat constructor; intros H; discriminate H.
  - intros [|]; split; intros [|[|i]] [|[|j]] Hi Hj; try lia; unfold mmul, mid; cbn; lra.
  - intros r. exists (mat2 1 0 0 (-1)). split; [|split; [|split]].
    + destruct r; intros [|[|i]] [|[|j]] Hi Hj; try lia; unfold mmul, mid; cbn; lra.
    + split; intros [|[|i]] [|[|j]] Hi Hj; try lia; unfold mmul, mtr, mid; cbn; lra.
    + intros [|[|i]] [|[|j]] Hi Hj; try lia; cbn; intros; try reflexivity; congruence.
    + intros [|[|i]] Hi; try lia; cbn; intros; try reflexivity; discriminate.
  - split; [split; [reflexivity|repeat constructor]|split; [split; [reflexivity|repeat constructor]|]].
    intros p Hp. split; [reflexivity|]. intros [|[|i]] r E; [| |destruct i; discriminate]; injection E as <-; unfold field_chans, mv; destruct p as [|p]; try lia; cbn; repeat f_equal; lra.
  - intros (_ & _ & H). destruct (H 0%nat ltac:(lia)) as [_ K]. specialize (K 0%nat true eq_refl). unfold field_chans, mv, alike_rho, mat2 in K. cbn in K. injection K as K0 K1. lra.
Qed.
