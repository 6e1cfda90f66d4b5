(** Property C97: the generalized He initialization. *)
From Coq Require Import Reals List ZArith Lra.
From Verif Require Import LibRes HeModel SpecHe HeProofs.
Import ListNotations.
Open Scope R_scope.

(** The variances of all weights into one output position add up to one. *)
Theorem C97_total : forall info a, In a info ->
  sums_to (fun x => b_out x = b_out a) (fun x => (he_var info x)^2) info 1.
Proof. exact he_total. Qed.
Print Assumptions C97_total.

(** Every input irrep of the position, here listed by [K], contributes the same share. *)
Theorem C97_share : forall info a K, In a info -> NoDup K ->
  (forall k, In k K <-> exists x, In x info /\ b_in x = k /\ b_out x = b_out a) ->
  sums_to (fun x => b_in x = b_in a /\ b_out x = b_out a) (fun x => (he_var info x)^2) info (/ INR (length K)).
Proof. exact he_share_spec. Qed.
Print Assumptions C97_share.

Theorem C97_range : forall info a, In a info -> 0 < he_var info a <= 1.
Proof. exact he_range. Qed.
Print Assumptions C97_range.

(** The weights do not depend on the cache, which stays right. *)
Theorem C97_cached : forall infos mem bm tensor noise cache, cache_ok infos mem ->
  length tensor = fst (infos bm) -> length (snd (infos bm)) = fst (infos bm) ->
  exists mem', he_init cache mem bm (fst (infos bm)) (snd (infos bm)) tensor noise =
      Ret (map (fun p => fst p * snd p) (combine (map (he_var (snd (infos bm))) (snd (infos bm))) noise), mem') /\
    cache_ok infos mem'.
Proof. exact he_cached. Qed.
Print Assumptions C97_cached.

(** Three weights into one position, two of them from the same irrep, and one into
    another position. *)
Example C97_ex : let w i o := {| b_in := i; b_out := o |} in
  let info := [w [0%Z] [0%Z]; w [1%Z] [0%Z]; w [1%Z] [0%Z]; w [1%Z] [1%Z]] in
  In (w [0%Z] [0%Z]) info /\ NoDup [[0%Z]; [1%Z]] /\
  (forall k, In k [[0%Z]; [1%Z]] <-> exists x, In x info /\ b_in x = k /\ b_out x = [0%Z]) /\
  inputs_count info [0%Z] = 2%nat /\ basis_count info [1%Z] [0%Z] = 2%nat /\
  cache_ok (fun _ => (4%nat, info)) [] /\ length info = 4%nat.
Proof.
  cbn zeta; split; [left; reflexivity|split].
  { constructor; [intros [E|[]]; discriminate|constructor; [intros []|constructor]]. }
  split; [|repeat split; auto; intros bm v []].
  intros k; split.
  - intros [<-|[<-|[]]]; [exists {| b_in := [0%Z]; b_out := [0%Z] |}|exists {| b_in := [1%Z]; b_out := [0%Z] |}]; cbn; auto.
  - intros (x & [<-|[<-|[<-|[<-|[]]]]] & <- & E); cbn in *; auto; discriminate.
Qed.
