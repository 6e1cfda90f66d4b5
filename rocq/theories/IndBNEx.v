(** An example for InducedNormBatchNorm. *)
From Coq Require Import Reals List ZArith Arith Bool Lia Lra.
From Verif Require Import LibRes LibPy LibMat ParamModel FieldModel SpecField GroupedModel NonlinModel SpecNonlin ImageModel PoolModel SpecPool PoolCor BatchNormModel SpecBatch InnerBNCor BatchEx IndBNModel SpecIndBN.
Import ListNotations.
Open Scope R_scope.

(** A field of two sub-fields, which are swapped, and a vector, which is turned. *)
Definition ind_rho (r : nat) : mat := match r with 4%nat => (fun i j => if Nat.eqb ((i + 2) mod 4) j then 1 else 0) | _ => mat2 0 (-1) 1 0 end.
Definition ind_x : list (list R) := [[1; 0]; [0; 1]; [2; 0]; [0; 3]; [5; 0]; [0; 7]].
Definition ind_x' : list (list R) := [[0; 2]; [3; 0]; [0; 1]; [1; 0]; [-7; 0]; [0; 5]].
Definition ind_tens (x : list (list R)) : gtensor nat (list R) := {| g_type := [4; 2]%nat; g_chans := x |}.

Lemma ind_orthogonal : forall r, In r [4; 2]%nat -> orthogonal r (ind_rho r).
Proof.
  intros r [<-|[<-|[]]]; [|apply turn_orthogonal].
  split; intros [|[|[|[|i]]]] [|[|[|[|j]]]] Hi Hj; try lia; unfold mmul, mtr, mid; cbn; lra.
Qed.
Lemma ind_moved : moved_batch (fun r => r) [4; 2]%nat 2 (fun _ => ind_rho) flip ind_x ind_x'.
Proof.
  split; [split; [reflexivity|repeat constructor]|split; [split; [reflexivity|repeat constructor]|]].
  intros p Hp. split; [reflexivity|]. intros [|[|i]] r E; [| |destruct i; discriminate]; injection E as <-; unfold field_chans, mv; destruct p as [|[|p]]; try lia; cbn;
    repeat (f_equal; [lra|]); f_equal; lra.
Qed.
Lemma ind_example : exists m st0 st ys,
  mk_inb (fun r => r) (fun _ => [NL_induced_norm 2]) (fun _ => false) true (1 / 100000) (Some (1 / 10)) [4; 2]%nat = Ret (m, st0) /\
  (forall r, In r [4; 2]%nat -> orthogonal r (ind_rho r)) /\ reorders 2 flip /\ moved_batch (fun r => r) [4; 2]%nat 2 (fun _ => ind_rho) flip ind_x ind_x' /\
  run (inb_forward (fun r => r) typ_eqb m) inb_set inb_reset_running_stats st0
    [Call true 2 (ind_tens ind_x); SetWeights [((4, 2)%nat, [3]); ((2, 2)%nat, [4])]; Call false 2 (ind_tens ind_x)] = Ret (st, ys) /\
  rank2 (fun r => r) (fun _ => 2%nat) [4; 2]%nat 0 (4, 2)%nat 0 /\ energy 2 (field_chans (fun r => r) [4; 2]%nat ind_x 0) = 15 /\
  kept2 (iv_vars st) (4, 2)%nat 0 = 23 / 20 /\ iv_weights st = Some [((4, 2)%nat, [3]); ((2, 2)%nat, [4])].
Proof.
  eexists; eexists; eexists; eexists. split; [reflexivity|]. split; [apply ind_orthogonal|]. split; [apply flip_reorders|]. split; [apply ind_moved|].
  split; [lazy -[Rplus Rmult Rdiv Rinv Rminus IZR sqrt INR mean correction]; reflexivity|]. split; [reflexivity|]. split; [unfold energy; cbn; lra|]. split; [|reflexivity].
  unfold kept2; cbn. unfold mean, correction; cbn. lra.
Qed.
