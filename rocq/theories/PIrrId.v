(** Property C96: naming irreps of SO(3) and O(3), and the coefficients of O(3). *)
From Coq Require Import String List ZArith Lia.
From Verif Require Import LibRes CharModel IrrIdModel SpecIrrId IrrIdProofs.
Import ListNotations.
Open Scope Z_scope.

(** The irrep itself, its id and its only frequency all name the irrep. *)
Theorem C96_forms : forall G reps a id, irr_ok G id -> denotes G a id -> get_irrep_id G reps a = Ret (RId id).
Proof. exact forms_ok. Qed.
Print Assumptions C96_forms.

Theorem C96_foreign : forall G H reps id, G <> H -> get_irrep_id G reps (AIrrep H id) = Raise.
Proof. exact foreign_refused. Qed.
Print Assumptions C96_foreign.

Theorem C96_so3_product : forall reps a b J l, 0 <= J -> 0 <= l -> denotes GSO3 a [J] -> denotes GSO3 b [l] ->
  so3_product reps a b = so3_tensor J l.
Proof. exact so3_product_ok. Qed.
Print Assumptions C96_so3_product.

Theorem C96_o3_product : forall reps a b J l, irr_ok GO3 [fst J; snd J] -> irr_ok GO3 [fst l; snd l] ->
  denotes GO3 a [fst J; snd J] -> denotes GO3 b [fst l; snd l] -> o3_product reps a b = o3_tensor J l.
Proof. exact o3_product_ok. Qed.
Print Assumptions C96_o3_product.

(** The name of an irrep is looked up, but none of the callers accepts it. *)
Theorem C96_names_refuted : forall reps s id, reps s = Some (true, id) ->
  (forall x, so3_product reps (AName s) x = Raise) /\ (forall x, so3_product reps x (AName s) = Raise) /\
  (forall x, o3_product reps (AName s) x = Raise) /\ (forall x, o3_product reps x (AName s) = Raise) /\
  forall A (cg3 : Z -> Z -> Z -> res A) e x y, o3_coeff cg3 e reps (AName s) x y = Raise /\
    o3_coeff cg3 e reps x (AName s) y = Raise /\ o3_coeff cg3 e reps x y (AName s) = Raise.
Proof. exact names_fail. Qed.
Print Assumptions C96_names_refuted.

(** Every irrep listed for a tensor product of O(3) has the coefficients of SO(3), at
    frequencies that couple. *)
Theorem C96_listed : forall A (cg3 : Z -> Z -> Z -> res A) empty reps a b c m n j k xs,
  irr_ok GO3 [fst m; snd m] -> irr_ok GO3 [fst n; snd n] ->
  denotes GO3 a [fst m; snd m] -> denotes GO3 b [fst n; snd n] -> denotes GO3 c [fst j; snd j] ->
  o3_product reps a b = Ret xs -> In (j, k) xs ->
  irr_ok GO3 [fst j; snd j] /\ Z.abs (snd m - snd n) <= snd j <= snd m + snd n /\
  o3_coeff cg3 empty reps a b c = cg3 (snd m) (snd n) (snd j).
Proof. exact listed_coeff. Qed.
Print Assumptions C96_listed.

(** For an irrep of the other parity, where the code means to return an array with
    multiplicity zero, it raises. *)
Theorem C96_forbidden_refuted : forall A (cg3 : Z -> Z -> Z -> res A) empty reps a b c m n j,
  irr_ok GO3 [fst m; snd m] -> irr_ok GO3 [fst n; snd n] -> irr_ok GO3 [fst j; snd j] ->
  denotes GO3 a [fst m; snd m] -> denotes GO3 b [fst n; snd n] -> denotes GO3 c [fst j; snd j] ->
  (fst m + fst n) mod 2 <> fst j -> o3_coeff cg3 empty reps a b c = Raise.
Proof. exact (@coeff_forbidden). Qed.
Print Assumptions C96_forbidden_refuted.

Example C96_ex : irr_ok GO3 [1; 1] /\ irr_ok GO3 [0; 2] /\ irr_ok GSO3 [2] /\
  denotes GO3 (ATuple [1; 1]) [1; 1] /\ denotes GO3 (AIrrep GO3 [0; 2]) [0; 2] /\ denotes GSO3 (AInt 2) [2] /\
  o3_product (fun _ => None) (ATuple [1; 1]) (AIrrep GO3 [0; 2]) = Ret [((1, 1), 1%nat); ((1, 2), 1%nat); ((1, 3), 1%nat)] /\
  (1 + 0) mod 2 <> 0.
Proof.
  split; [exists 1, 1; split; [reflexivity|lia]|].
  split; [exists 0, 2; split; [reflexivity|lia]|].
  split; [exists 2; split; [reflexivity|lia]|].
  split; [right; left; reflexivity|]; split; [left; reflexivity|].
  split; [right; right; exists 2; auto|]; split; [reflexivity|discriminate].
Qed.
