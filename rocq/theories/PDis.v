(** C24: disentangle. *)
From Coq Require Import Reals ZArith Bool List Lia Permutation.
From Verif Require Import LibRes LibMat SpecGroup IrrepModel SpecRep RepModel SpecRepr RepThms IndThms DisModel SpecDis DisThms DisEx.
Import ListNotations.
Open Scope R_scope.

(** For every representation with a clear-cut change of basis, P is a
    permutation matrix and P r(g) P^T is the block diagonal matrix of the
    returned representations, which are well formed; two axes end up in the same
    representation exactly when a chain of irreps links them. *)
Theorem C24_disentangle : forall T irr (mem : T -> Prop) op e linv components,
  correct_inverse linv -> correct_components components -> forall r, proper irr mem op e r -> clear_cut (r_size r) (r_cob r) ->
  let n := r_size r in exists ss P rs blocks,
  mapM irr (r_irreps r) = Ret ss /\ disentangle irr linv components r = Ret (P, rs) /\
  Permutation (concat blocks) (seq 0 n) /\ map (@length nat) blocks = map r_size rs /\
  (forall i j, (i < n)%nat -> P i j = if Nat.eqb (nth i (concat blocks) 0%nat) j then 1 else 0) /\
  (forall i j, (i < n)%nat -> (j < n)%nat ->
     ((exists b, In b blocks /\ In i b /\ In j b) <-> linked n (r_cob r) (map gi_size ss) i j)) /\
  Forall (proper irr mem op e) rs /\
  forall x, mem x -> exists X bs, r_fun r x = Ret (n, X) /\ mapM (fun s => r_fun s x) rs = Ret bs /\ bsize bs = n /\
    meq n n (mmul n (mmul n P X) (mtr P)) (bdiag bs).
Proof. exact disentangle_ok. Qed.
Print Assumptions C24_disentangle.

(** Without that condition it is false: an entry of the change of basis below
    the tolerance of np.isclose is treated as zero. *)
Theorem C24_small_entries_refuted : exists r : repr bool,
  proper toy_irrG (fun _ => True) toy_op false r /\
  forall linv comp P rs, correct_inverse linv -> correct_components comp ->
  disentangle toy_irrG linv comp r = Ret (P, rs) ->
  ~ (forall x, exists X bs, r_fun r x = Ret (2%nat, X) /\ mapM (fun s => r_fun s x) rs = Ret bs /\ bsize bs = 2%nat /\
       meq 2 2 (mmul 2 (mmul 2 P X) (mtr P)) (bdiag bs)).
Proof. exact (ex_intro _ (toy_repr skew skewi) (conj (toy_proper _ _ skew_inverse) skew_disentangled)). Qed.
Print Assumptions C24_small_entries_refuted.

Example C24_ex : (exists linv, correct_inverse linv) /\ (exists c, correct_components c) /\
  proper toy_irrG (fun _ => True) toy_op false (toy_repr swap2 swap2) /\ clear_cut 2 swap2 /\
  linked 2 swap2 [1%nat; 1%nat] 0 0.
Proof.
  split; [exact inverse_exists|split; [exact components_exist|split; [exact (toy_proper _ _ (proj1 swap2_ok))|split; [exact (proj2 swap2_ok)|]]]].
  apply Relation_Operators.rst_refl.
Qed.
