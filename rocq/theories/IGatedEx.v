(** A gate of size 2 and a gated field of size 4 with sub-fields of size 2. *)
From Coq Require Import Reals String List ZArith Arith Bool Lia.
From Verif Require Import LibRes LibMat ParamModel FieldModel GroupedModel NonlinModel SpecNonlin IGatedModel SpecIGated.
Import ListNotations.
Open Scope R_scope.
Definition ex_size (r : bool) : nat := if r then 4%nat else 2%nat.
Definition ex_supported (r : bool) : list nonlin := if r then [NL_norm; NL_induced_gated 2] else [NL_induced_gate].
Definition ex_swap (j : nat) : nat := (1 - j)%nat.
Definition ex_rho (t : R) (r : bool) : mat :=
  if r then fun i j => if Nat.eqb (i / 2) (1 - j / 2) then rot2 t (i mod 2)%nat (j mod 2)%nat else 0
  else fun i j => if Nat.eqb i (1 - j) then 1 else 0.
Lemma ex_built : exists m, mk_igated ex_size ex_supported [false; true] None true = Ret m /\ ig_quotient m = 2%nat /\ ig_ngates m = 1%nat.
Proof. eexists. split; [reflexivity|split; reflexivity]. Qed.
Lemma ex_mixed : exists m, mk_igated ex_size ex_supported [true; false; false; true] (Some [GatedField; GateField; GateField; GatedField]) false = Ret m /\
  ig_quotient m = 2%nat /\ ig_ngates m = 2%nat.
Proof. eexists. split; [reflexivity|split; reflexivity]. Qed.
Lemma ex_moves : forall t, shuffles 2 ex_swap /\ permutation_matrix 2 ex_swap (ex_rho t false) /\ carries 2 2 ex_swap (ex_rho t true).
Proof.
  intros t. split; [|split].
  - split; unfold ex_swap; intros; lia.
  - intros i j _ _. reflexivity.
  - exists (fun _ => rot2 t). intros i a j b Hi Ha Hj Hb. unfold ex_rho, ex_swap.
    rewrite !Nat.div_add_l, !(Nat.div_small a), !(Nat.div_small b), !Nat.add_0_r by lia.
    rewrite !(Nat.add_comm (_ * 2)), !Nat.mod_add, !Nat.mod_small by lia. reflexivity.
Qed.
