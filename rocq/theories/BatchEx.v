(** Examples for the batch normalisations. *)
From Coq Require Import Reals List ZArith Arith Bool Lia Lra.
From Verif Require Import LibRes LibPy LibMat ParamModel FieldModel SpecField GroupedModel NonlinModel SpecNonlin ImageModel PoolModel SpecPool PoolCor BatchNormModel SpecBatch InnerBNCor.
Import ListNotations.
Open Scope R_scope.

Definition batch_x : list (list R) := [[1; 0]; [0; 1]; [2; 0]; [0; 0]].
Definition turned_x : list (list R) := [[-1; 0]; [0; 1]; [0; 0]; [0; 2]].
Definition swapped_x : list (list R) := [[1; 0]; [0; 1]; [0; 0]; [0; 2]].
Definition flip (p : nat) : nat := (1 - p)%nat.
Definition tens (x : list (list R)) : gtensor nat (list R) := {| g_type := [2; 2]%nat; g_chans := x |}.
Definition typ_eqb (a b : list nat) : bool := if list_eq_dec Nat.eq_dec a b then true else false.

Lemma flip_reorders : reorders 2 flip.
Proof. split; unfold flip; intros; lia. Qed.
Lemma turn_orthogonal : orthogonal 2 (mat2 0 (-1) 1 0).
Proof. split; intros [|[|i]] [|[|j]] Hi Hj; try lia; unfold mmul, mtr, mid; cbn; lra. Qed.
Lemma turned : moved_batch (fun r => r) [2; 2]%nat 2 (fun _ _ => mat2 0 (-1) 1 0) flip batch_x turned_x.
Proof.
  split; [split; [reflexivity|repeat constructor]|split; [split; [reflexivity|repeat constructor]|]].
  intros p Hp. split; [reflexivity|]. intros [|[|i]] r E; [| |destruct i; discriminate]; injection E as <-; unfold field_chans, mv; destruct p as [|[|p]]; try lia; cbn; (f_equal; [lra|f_equal; lra]).
Qed.
Lemma swapped : moved_batch (fun r => r) [2; 2]%nat 2 (fun _ _ => mat2 0 1 1 0) flip batch_x swapped_x.
Proof.
  split; [split; [reflexivity|repeat constructor]|split; [split; [reflexivity|repeat constructor]|]].
  intros p Hp. split; [reflexivity|]. intros [|[|i]] r E; [| |destruct i; discriminate]; injection E as <-; unfold field_chans, mv; destruct p as [|[|p]]; try lia; cbn; (f_equal; [lra|f_equal; lra]).
Qed.

Lemma norm_example : exists m st0 st ys,
  mk_nbn (fun r => r) (fun _ => [NL_norm]) (fun _ => false) true (1 / 100000) (Some (1 / 10)) [2; 2]%nat = Ret (m, st0) /\
  orthogonal 2 (mat2 0 (-1) 1 0) /\ reorders 2 flip /\ moved_batch (fun r => r) [2; 2]%nat 2 (fun _ _ => mat2 0 (-1) 1 0) flip batch_x turned_x /\
  run (nbn_forward (fun r => r) typ_eqb m) nbn_set nbn_reset_running_stats st0
    [Call true 2 (tens batch_x); SetWeights [(2%nat, [3; 4])]; Call false 2 (tens batch_x)] = Ret (st, ys) /\
  rank (fun r => r) [2; 2]%nat 1 2 1 /\ energy 2 (field_chans (fun r => r) [2; 2]%nat batch_x 1) = 4 /\ kept (nb_vars st) 2 1 = 11 / 10 /\ nb_weights st = Some [(2%nat, [3; 4])].
Proof.
  eexists; eexists; eexists; eexists. split; [reflexivity|]. split; [apply turn_orthogonal|]. split; [apply flip_reorders|]. split; [apply turned|].
  split; [lazy -[Rplus Rmult Rdiv Rinv Rminus IZR sqrt INR field_var mean unbiased_var biased_var]; reflexivity|]. split; [reflexivity|]. split; [unfold energy; cbn; lra|]. split; [|reflexivity].
  unfold kept; cbn. unfold field_var, mean, field_norms, square, correction; cbn. lra.
Qed.
Lemma inner_example : exists m st0 st ys,
  mk_ibn (fun r => r) (fun _ => [NL_pointwise]) 2 true true (1 / 100000) None [2; 2]%nat = Ret (m, st0) /\
  permutes 2 (mat2 0 1 1 0) /\ reorders 2 flip /\ moved_batch (fun r => r) [2; 2]%nat 2 (fun _ _ => mat2 0 1 1 0) flip batch_x swapped_x /\
  run (icall (fun r => r) typ_eqb m 2 (fun _ => batch_x)) ibn_set ibn_reset_running_stats st0
    [Call true 2 (tens batch_x); SetWeights (2%nat, ([3; 4], [5; 6])); ResetStats; Call true 2 (tens batch_x); Call false 2 (tens batch_x)] = Ret (st, ys) /\
  rank (fun r => r) [2; 2]%nat 1 2 1 /\
  exists b ms vs, dget Nat.eqb st 2%nat = Some b /\ bn_affine b = Some ([3; 4], [5; 6]) /\ bn_stats b = Some (ms, vs, 1%nat) /\ nth 1 ms 0 = 1 / 2 /\ nth 1 vs 0 = 1.
Proof.
  eexists; eexists; eexists; eexists. split; [reflexivity|]. split; [apply (proj1 swap_example)|]. split; [apply flip_reorders|]. split; [apply swapped|].
  split; [lazy -[Rplus Rmult Rdiv Rinv Rminus IZR sqrt INR field_var mean unbiased_var biased_var]; reflexivity|]. split; [reflexivity|]. eexists; eexists; eexists. split; [reflexivity|]. split; [reflexivity|]. split; [reflexivity|].
  split; cbn; unfold unbiased_var, deviation, mean, square, rsum; cbn; lra.
Qed.

Lemma export_example : exists m st0 t,
  mk_ibn (fun r => r) (fun _ => [NL_pointwise]) 2 true true (1 / 100000) None [2; 2; 1]%nat = Ret (m, st0) /\
  ibn_export (fun r => r) m true true [(2%nat, {| bn_affine := Some ([3; 4], [5; 6]); bn_stats := Some ([7; 8], [9; 10], 1%nat) |});
                                       (1%nat, {| bn_affine := Some ([11], [12]); bn_stats := Some ([13], [14], 1%nat) |})] = Ret t /\
  bn_affine t = Some ([3; 3; 4; 4; 11], [5; 5; 6; 6; 12]) /\ bn_stats t = Some ([7; 7; 8; 8; 13], [9; 9; 10; 10; 14], 1%nat).
Proof. eexists; eexists; eexists. split; [reflexivity|]. split; [reflexivity|]. split; reflexivity. Qed.
