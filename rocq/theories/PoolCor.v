(** Consequences and examples for PPool.v. *)
From Coq Require Import Reals String List ZArith Arith Bool Lia Lra.
From Verif Require Import LibRes LibPy LibMat FieldModel SpecField FieldProofs GroupedModel NonlinModel SpecNonlin SpecPool PoolThms ConcatThms VFieldThms
  ParamModel ParamProofs INormThms PoolModel.
Import ListNotations.
Open Scope R_scope.

Lemma concat_doubled : forall s r, permutes_signed s r -> exists M, concat_matrix s r = Ret M /\
  (forall i j a b, (i < s)%nat -> (j < s)%nat -> (a < 2)%nat -> (b < 2)%nat ->
     M (2 * i + a)%nat (2 * j + b)%nat = if Req_EM_T (r i j) (if Nat.eqb a b then 1 else -1) then 1 else 0) /\
  permutes (2 * s) M.
Proof.
  intros s r H. destruct (concat_matrix_ok s r H) as (M & E & EM). exists M. split; [exact E|]. split.
  - intros i j a b Hi Hj Ha Hb. rewrite EM by lia. unfold doubled, sg.
    rewrite <- (Nat.div_unique (2 * i + a) 2 i a ltac:(lia) ltac:(lia)), <- (Nat.div_unique (2 * j + b) 2 j b ltac:(lia) ltac:(lia)).
    rewrite <- (Nat.mod_unique (2 * i + a) 2 i a ltac:(lia) ltac:(lia)), <- (Nat.mod_unique (2 * j + b) 2 j b ltac:(lia) ltac:(lia)).
    destruct H as (p & e & _ & _ & He & Er). rewrite (Er i j Hi Hj). destruct (He j Hj) as [-> | ->]; destruct (Nat.eqb i (p j)), (Nat.eqb a b); unfold Rabs; destruct (Rcase_abs _), (Req_EM_T _ _); lra.
  - destruct (doubled_permutes s r H) as (p & P1 & P2 & P3). exists p. split; [exact P1|split; [exact P2|]]. intros i j Hi Hj. rewrite EM by assumption. apply P3; assumption.
Qed.
Lemma id_signed : forall s, permutes_signed s mid.
Proof.
  intros s. exists (fun j => j), (fun _ => 1). split; [auto|split; [auto|split; [auto|]]]. intros i j _ _. reflexivity.
Qed.
Lemma concat_identity : forall s, exists M, concat_matrix s mid = Ret M /\ forall x y, (x < 2 * s)%nat -> (y < 2 * s)%nat -> M x y = mid x y.
Proof.
  intros s. destruct (concat_matrix_ok s mid (id_signed s)) as (M & E & EM). exists M. split; [exact E|]. intros. rewrite EM by assumption. apply doubled_id.
Qed.
Lemma row_scan_ok : forall r i cols e z, row_scan r i cols e = Ret z ->
  forall k1 k2 j1 j2, nth_error cols k1 = Some j1 -> nth_error cols k2 = Some j2 -> k1 <> k2 -> math_isclose (r i j1) 0 = true \/ math_isclose (r i j2) 0 = true.
Proof.
  intros r i cols. assert (forall l e z, (0 <= e)%Z -> row_scan r i l e = Ret z -> forall j, In j l -> math_isclose (r i j) 0 = true) as Z0.
  { induction l as [|c l IH]; intros e z He E j Hj; [destruct Hj|]. cbn [row_scan] in E. destruct (math_isclose (r i c) 0) eqn:Ec.
    - destruct Hj as [<- |Hj]; [exact Ec|]. exact (IH _ _ He E j Hj).
    - destruct (Z.ltb_spec e 0) as [Hlt|Hge]; [lia|discriminate]. }
  induction cols as [|c cols IH]; intros e z E k1 k2 j1 j2 E1 E2 Ne; [destruct k1; discriminate|].
  cbn [row_scan] in E. destruct (math_isclose (r i c) 0) eqn:Ec.
  - destruct k1 as [|k1]; [injection E1 as <-; left; exact Ec|]. destruct k2 as [|k2]; [injection E2 as <-; right; exact Ec|].
    exact (IH _ _ E k1 k2 j1 j2 E1 E2 ltac:(lia)).
  - destruct (Z.ltb_spec e 0) as [Hlt|Hge]; [|discriminate]. pose proof (Z0 cols (Z.of_nat c) z ltac:(lia) E) as Q.
    destruct k1 as [|k1]; [destruct k2 as [|k2]; [lia|right; apply Q; exact (nth_error_In cols k2 E2)]|left; apply Q; exact (nth_error_In cols k1 E1)].
Qed.
Lemma seq_nth_error : forall k s, (k < s)%nat -> nth_error (seq 0 s) k = Some k.
Proof. intros k s H. rewrite (nth_error_nth' _ 0%nat) by (rewrite seq_length; exact H). rewrite seq_nth by exact H. reflexivity. Qed.
Lemma concat_accepts : forall s r M, concat_matrix s r = Ret M -> forall i j, (i < s)%nat -> (j < s)%nat ->
  (math_isclose (r i j) 0 = true \/ math_isclose (r i j) 1 = true \/ math_isclose (r i j) (-1) = true) /\
  forall k, (k < s)%nat -> k <> j -> math_isclose (r i j) 0 = true \/ math_isclose (r i k) 0 = true.
Proof.
  intros s r M E i j Hi Hj. unfold concat_matrix in E. apply bind_Ret in E. destruct E as (e & Ee & E).
  apply assert_Ret in E. destruct E as (_ & E). apply bind_Ret in E. destruct E as (bl & Ebl & _). split.
  - destruct (mapM_nth _ _ _ i i Ebl (seq_nth_error i s Hi)) as (row & Erow & _). destruct (mapM_nth _ _ _ j j Erow (seq_nth_error j s Hj)) as (b & Eb & _).
    unfold entry_block in Eb. destruct (math_isclose (r i j) 1); [auto|]. destruct (math_isclose (r i j) (-1)); [auto|]. destruct (math_isclose (r i j) 0); [auto|discriminate].
  - intros k Hk Ne. destruct (mapM_nth _ _ _ i i Ee (seq_nth_error i s Hi)) as (z & Ez & _).
    exact (row_scan_ok r i _ _ _ Ez j k j k (seq_nth_error j s Hj) (seq_nth_error k s Hk) ltac:(lia)).
Qed.
Lemma quarter_turn_signed : permutes_signed 2 (mat2 0 (-1) 1 0).
Proof.
  exists (fun j => (1 - j)%nat), (fun j => if Nat.eqb j 0 then 1 else -1). split; [intros; lia|]. split; [intros; lia|]. split; [intros j _; destruct (Nat.eqb j 0); auto|].
  intros [|[|i]] [|[|j]] Hi Hj; try lia; reflexivity.
Qed.
Lemma half_turn_signed : permutes_signed 2 (mmul 2 (mat2 0 (-1) 1 0) (mat2 0 (-1) 1 0)).
Proof.
  exists (fun j => j), (fun _ => -1). split; [auto|split; [auto|split; [auto|]]].
  intros [|[|i]] [|[|j]] Hi Hj; try lia; unfold mmul; cbn; lra.
Qed.
Lemma quarter_turn_acts : acts (fun r => r) [2]%nat (fun _ => mat2 0 (-1) 1 0) [3; 4] [-4; 3].
Proof.
  split; [reflexivity|]. intros [|i] r E; [|destruct i; discriminate]. injection E as <-. unfold field_chans, mv. cbn. f_equal; [lra|f_equal; lra].
Qed.
Lemma swap_example : permutes 2 (mat2 0 1 1 0) /\ acts (fun r => r) [2; 2]%nat (fun _ => mat2 0 1 1 0) [3; 4; 5; 6] [4; 3; 6; 5].
Proof.
  split.
  - exists (fun j => (1 - j)%nat). split; [intros; lia|]. split; [intros; lia|]. intros [|[|i]] [|[|j]] Hi Hj; try lia; reflexivity.
  - split; [reflexivity|]. intros [|[|i]] r E; [| |destruct i; discriminate]; injection E as <-; unfold field_chans, mv; cbn; (f_equal; [lra|f_equal; lra]).
Qed.
Lemma vectorfield_example : shifted 4 1 [1; 5; 2; 3] [3; 1; 5; 2] /\ clear_max [1; 5; 2; 3].
Proof.
  split; [split; [reflexivity|split; [reflexivity|]]|].
  - intros [|[|[|[|i]]]] H; try lia; reflexivity.
  - right. exists 1%nat. split; [cbn; lia|]. intros [|[|[|[|j]]]] H Ne; cbn in *; try lia; lra.
Qed.
Lemma vectorfield_2_example : shifted 2 1 [3; 4] [4; 3] /\ clear_max [3; 4].
Proof.
  split; [split; [reflexivity|split; [reflexivity|]]|].
  - intros [|[|i]] H; try lia; reflexivity.
  - right. exists 1%nat. split; [cbn; lia|]. intros [|[|j]] H Ne; cbn in *; try lia; lra.
Qed.
Lemma vectorfield_2_fails : forall pick n x junk, (2 <= n)%nat -> List.length junk = (n * irrep1_size 2)%nat -> vectorfield_forward pick (2%nat, n) junk x = Raise.
Proof. intros pick n x junk Hn L. apply vectorfield_2_raises; [exact Hn|]. cbn in L. lia. Qed.
Lemma pointwise_functions : pointwise_function "p_relu" = Ret (fun t => Rmax 0 t) /\
  (exists f, pointwise_function "p_elu" = Ret f /\ (forall t, 0 < t -> f t = t) /\ forall t, t <= 0 -> f t = exp t - 1) /\
  (exists f, pointwise_function "p_sigmoid" = Ret f /\ forall t, f t = 1 / (1 + exp (- t))) /\
  (exists f, pointwise_function "p_tanh" = Ret f /\ forall t, f t = sinh t / cosh t).
Proof.
  split; [reflexivity|]. split; [|split].
  - exists elu. split; [reflexivity|]. unfold elu, Rleb. split; intros t H; destruct (Rle_dec t 0); lra.
  - exists sigmoid. split; [reflexivity|]. intros t. unfold sigmoid. lra.
  - exists tanh. split; [reflexivity|]. intros t. unfold tanh, sinh, cosh. pose proof (exp_pos t). pose proof (exp_pos (- t)). field. lra.
Qed.
Lemma gpool_built : forall A (size : A -> nat) supported ft, Forall (fun r => (0 < size r)%nat) ft ->
  (exists m, mk_pool size supported true ft = Ret m) <-> Forall (fun r => In NL_pointwise (supported r)) ft.
Proof. intros A size supported ft P. rewrite (pool_built size supported true ft P). split; [intros H; apply H; reflexivity|auto]. Qed.
Lemma npool_built : forall A (size : A -> nat) supported ft, Forall (fun r => (0 < size r)%nat) ft -> exists m, mk_pool size supported false ft = Ret m.
Proof. intros A size supported ft P. apply (pool_built size supported false ft P). discriminate. Qed.
Lemma swap_blocks : block_orthogonal 2 2 (fun a b => if Nat.eqb (a / 2) (1 - b / 2) then rot2 1 (a mod 2)%nat (b mod 2)%nat else 0).
Proof.
  exists (fun j => (1 - j)%nat), (fun _ => rot2 1). split; [intros; lia|]. split; [intros; lia|]. split; [intros; apply rot2_orth|].
  intros i a j b Hi Ha Hj Hb.
  rewrite <- (Nat.div_unique (i * 2 + a) 2 i a ltac:(lia) ltac:(lia)), <- (Nat.div_unique (j * 2 + b) 2 j b ltac:(lia) ltac:(lia)).
  rewrite <- (Nat.mod_unique (i * 2 + a) 2 i a ltac:(lia) ltac:(lia)), <- (Nat.mod_unique (j * 2 + b) 2 j b ltac:(lia) ltac:(lia)). reflexivity.
Qed.
