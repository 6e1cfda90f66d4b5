(** Property C98: the delta-orthogonal initialization. *)
From Coq Require Import Reals List ZArith Arith Lra Lia.
From Verif Require Import LibRes LibMat HeModel SpecHe DeltaModel SpecDelta DeltaProofs DeltaThms.
Import ListNotations.
Open Scope R_scope.

(** Weights off the centre of the kernel, or between different irreps, are zero. *)
Theorem C98_zero : forall dim info tensor t ortho noise, delta_init dim info tensor ortho noise = Ret t ->
  forall pp a, nth_error info pp = Some a -> (forall k, ~ at_centre k a) -> nth pp t 0 = 0.
Proof. exact delta_zero. Qed.
Print Assumptions C98_zero.

(** Not more outputs than inputs: the weights into one output position have norm one. *)
Theorem C98_rows : forall dim info tensor ortho noise t k I O op, delta_init dim info tensor ortho noise = Ret t ->
  orthogonal_draw (ortho k) -> (forall s, (0 < s)%nat -> proper_noise s (noise k)) ->
  lists_inputs info k I -> lists_outputs info k O -> (length O <= length I)%nat -> In op O ->
  sums_to (fun x => at_centre k (snd x) /\ d_op (snd x) = op) (fun x => (nth (fst x) t 0)^2) (indexed info) 1.
Proof. exact rows_spec. Qed.
Print Assumptions C98_rows.

(** Not more inputs than outputs: the weights out of one input position have norm one. *)
Theorem C98_columns : forall dim info tensor ortho noise t k I O ip, delta_init dim info tensor ortho noise = Ret t ->
  orthogonal_draw (ortho k) -> (forall s, (0 < s)%nat -> proper_noise s (noise k)) ->
  lists_inputs info k I -> lists_outputs info k O -> (length I <= length O)%nat -> In ip I ->
  sums_to (fun x => at_centre k (snd x) /\ d_ip (snd x) = ip) (fun x => (nth (fst x) t 0)^2) (indexed info) 1.
Proof. exact columns_spec. Qed.
Print Assumptions C98_columns.

(** Two inputs, one output and a weight between different irreps. *)
Example C98_ex : let w i ip := {| d_in := i; d_out := [0%Z]; d_ip := ip; d_op := [0%Z]; d_radius := None |} in
  let info := [w [0%Z] [0%Z]; w [0%Z] [1%Z]; w [1%Z] [2%Z]] in
  let ortho := fun _ _ i j => if Nat.eqb i j then 1 else 0 in
  let noise := fun _ _ _ => 1 in
  (exists t, delta_init 3 info [5; 5; 5] ortho noise = Ret t) /\
  (forall s, (0 < s)%nat -> proper_noise s (noise [0%Z])) /\
  (forall k, ~ at_centre k (w [1%Z] [2%Z])) /\
  lists_inputs info [0%Z] [[0%Z]; [1%Z]] /\ lists_outputs info [0%Z] [[0%Z]].
Proof.
  cbn zeta.
  assert (Z : isclose0 0 = true) by (apply isclose0_eq; reflexivity).
  split; [|split; [|split; [|split]]].
  - eexists; unfold delta_init, irrep_writes, sz, ins, outs, in_c, out_c, pairs, count, counted, central; cbn; rewrite !Z; cbn.
    reflexivity.
  - intros s Hs o; rewrite (sumn_ext _ _ (fun _ => 1)) by (intros; ring).
    induction s as [|[|s] IH]; [lia|cbn; lra|]; cbn in *; specialize (IH ltac:(lia)); lra.
  - intros k (E & F & _); cbn in *; congruence.
  - split; [repeat constructor; cbn; intuition discriminate|].
    intros q; split.
    + intros [<-|[<-|[]]]; eexists.
      * split; [left; reflexivity|]; repeat split; auto.
      * split; [right; left; reflexivity|]; repeat split; auto.
    + intros (a & [<-|[<-|[<-|[]]]] & (E & _) & <-); cbn in *; auto; discriminate.
  - split; [repeat constructor; cbn; intuition discriminate|].
    intros q; split.
    + intros [<-|[]]; eexists; (split; [left; reflexivity|]); repeat split; auto.
    + intros (a & [<-|[<-|[<-|[]]]] & (E & _) & <-); cbn in *; auto; discriminate.
Qed.
