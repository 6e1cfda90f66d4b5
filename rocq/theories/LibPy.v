(** Python's subscripting of sequences, and dictionaries. *)
From Coq Require Import List ZArith Arith Bool Lia.
From Verif Require Import LibRes.
Import ListNotations.

(** `l[z]` for a sequence of length [n]: the position meant, negative indices
    count from the end. *)
Definition py_index (n : nat) (z : Z) : res nat :=
  if (0 <=? z)%Z && (z <? Z.of_nat n)%Z then Ret (Z.to_nat z)
  else if (- Z.of_nat n <=? z)%Z && (z <? 0)%Z then Ret (Z.to_nat (z + Z.of_nat n))
  else Raise.
Definition get_nth {A} (l : list A) (i : nat) : res A := match nth_error l i with Some a => Ret a | None => Raise end.
Definition py_get {A} (l : list A) (z : Z) : res A := i <- py_index (length l) z ;; get_nth l i.

(** `slice(start, stop, step).indices(n)` (CPython's PySlice_AdjustIndices) and
    the positions it selects from a sequence of length [n]. *)
Definition slice_end (n lo hi : Z) (x : option Z) (dflt : Z) : Z :=
  match x with
  | None => dflt
  | Some v => if (v <? 0)%Z then Z.max (v + n) lo else Z.min v hi
  end.
Definition slice_positions (n : nat) (start stop step : option Z) : res (list nat) :=
  let n := Z.of_nat n in
  let k := match step with None => 1%Z | Some k => k end in
  if (k =? 0)%Z then Raise else
  if (0 <? k)%Z then
    let a := slice_end n 0 n start 0%Z in
    let b := slice_end n 0 n stop n in
    Ret (map (fun i => Z.to_nat (a + Z.of_nat i * k)) (seq 0 (Z.to_nat ((b - a + k - 1) / k))))
  else
    let a := slice_end n (-1) (n - 1) start (n - 1)%Z in
    let b := slice_end n (-1) (n - 1) stop (-1)%Z in
    Ret (map (fun i => Z.to_nat (a + Z.of_nat i * k)) (seq 0 (Z.to_nat ((a - b - k - 1) / - k)))).
(** `l[start:stop:step]` *)
Definition py_slice {A} (l : list A) (start stop step : option Z) : res (list A) :=
  p <- slice_positions (length l) start stop step ;; mapM (get_nth l) p.

(** Dictionaries as association lists: assignment overwrites in place. *)
Section Dict.
Context {K V : Type}.
Variable eqb : K -> K -> bool.
Fixpoint dget (d : list (K * V)) (k : K) : option V :=
  match d with [] => None | (k', v) :: d' => if eqb k' k then Some v else dget d' k end.
Fixpoint dset (d : list (K * V)) (k : K) (v : V) : list (K * V) :=
  match d with
  | [] => [(k, v)]
  | (k', v') :: d' => if eqb k' k then (k', v) :: d' else (k', v') :: dset d' k v
  end.
Hypothesis eqb_ok : forall a b, eqb a b = true <-> a = b.
Lemma dget_dset : forall d k v k', dget (dset d k v) k' = if eqb k k' then Some v else dget d k'.
Proof.
  induction d as [|[a b] d IH]; intros k v k'; cbn; [reflexivity|].
  destruct (eqb a k) eqn:E; cbn.
  - apply eqb_ok in E; subst a. destruct (eqb k k'); reflexivity.
  - destruct (eqb a k') eqn:E'; [|apply IH].
    destruct (eqb k k') eqn:E2; [|reflexivity]. apply eqb_ok in E'; apply eqb_ok in E2; subst.
    rewrite (proj2 (eqb_ok k' k') eq_refl) in E. discriminate.
Qed.
Lemma dset_keys : forall d k v, map fst (dset d k v) = if existsb (fun p => eqb (fst p) k) d then map fst d else map fst d ++ [k].
Proof.
  induction d as [|[a b] d IH]; intros k v; cbn; [reflexivity|].
  destruct (eqb a k) eqn:E; cbn; [reflexivity|]. rewrite IH. destruct (existsb _ d); reflexivity.
Qed.
End Dict.

(** ** Facts *)
Lemma py_index_lt : forall n z i, py_index n z = Ret i -> i < n.
Proof.
  intros n z i. unfold py_index.
  destruct (Z.leb_spec 0 z), (Z.ltb_spec z (Z.of_nat n)); cbn [andb];
  destruct (Z.leb_spec (- Z.of_nat n) z), (Z.ltb_spec z 0); cbn [andb]; intros E; try discriminate; injection E as <-; lia.
Qed.
Lemma py_index_nat : forall n i, i < n -> py_index n (Z.of_nat i) = Ret i.
Proof.
  intros n i H. unfold py_index. rewrite (proj2 (Z.leb_le _ _)), (proj2 (Z.ltb_lt _ _)) by lia. cbn. rewrite Nat2Z.id. reflexivity.
Qed.
Lemma py_index_neg : forall n z, (- Z.of_nat n <= z < 0)%Z -> py_index n z = Ret (Z.to_nat (z + Z.of_nat n)).
Proof.
  intros n z H. unfold py_index. destruct (Z.leb_spec 0 z); [lia|]. cbn [andb].
  rewrite (proj2 (Z.leb_le _ _)), (proj2 (Z.ltb_lt _ _)) by lia. reflexivity.
Qed.
Lemma get_nth_Ret : forall A (l : list A) i a, get_nth l i = Ret a <-> nth_error l i = Some a.
Proof. intros A l i a. unfold get_nth. destruct (nth_error l i); split; intros E; try discriminate; injection E as ->; reflexivity. Qed.
Lemma py_get_nat : forall A (l : list A) i a, nth_error l i = Some a -> py_get l (Z.of_nat i) = Ret a.
Proof.
  intros A l i a H. unfold py_get. rewrite py_index_nat by (apply nth_error_Some; congruence). cbn. apply get_nth_Ret, H.
Qed.

Lemma mapM_get_seq : forall A (l : list A) a m, a + m <= length l ->
  mapM (get_nth l) (seq a m) = Ret (firstn m (skipn a l)).
Proof.
  intros A l a m; revert a; induction m as [|m IH]; intros a H; [reflexivity|].
  cbn [seq mapM]. destruct (nth_error l a) as [x|] eqn:E; [|apply nth_error_None in E; lia].
  rewrite (proj2 (get_nth_Ret _ _ _ _) E). cbn [bind]. rewrite IH by lia. cbn [bind].
  destruct (skipn a l) as [|y t] eqn:Es.
  - apply (f_equal (@length A)) in Es. rewrite skipn_length in Es. cbn in Es. lia.
  - assert (y = x /\ t = skipn (S a) l) as [-> ->]; [|reflexivity].
    { clear - E Es. revert a E Es. induction l as [|b l IH]; intros [|a] E Es; cbn in *; try discriminate.
      - injection E as ->. injection Es as -> ->. split; reflexivity.
      - apply IH; assumption. }
Qed.

(** a slice with step 1 selects consecutive positions *)
Lemma slice_positions_1 : forall n start stop, slice_positions n start stop None =
  Ret (seq (Z.to_nat (slice_end (Z.of_nat n) 0 (Z.of_nat n) start 0))
           (Z.to_nat (slice_end (Z.of_nat n) 0 (Z.of_nat n) stop (Z.of_nat n) - slice_end (Z.of_nat n) 0 (Z.of_nat n) start 0))).
Proof.
  intros n start stop. unfold slice_positions. cbn [Z.eqb Z.ltb Z.compare]. f_equal.
  set (a := slice_end _ _ _ start _). set (b := slice_end _ _ _ stop _).
  assert (0 <= a)%Z as Ha.
  { unfold a, slice_end. destruct start as [v|]; [|lia]. destruct (Z.ltb_spec v 0); lia. }
  rewrite Z.div_1_r. replace (b - a + 1 - 1)%Z with (b - a)%Z by lia.
  generalize (Z.to_nat (b - a)) as m. clear b. intros m.
  assert (forall k, map (fun i => Z.to_nat (a + Z.of_nat i * 1)) (seq k m) = seq (Z.to_nat a + k) m) as H.
  { induction m as [|m IH]; intros k; [reflexivity|]. cbn [seq map]. rewrite IH, Nat.add_succ_r. f_equal. lia. }
  rewrite H, Nat.add_0_r. reflexivity.
Qed.
Lemma slice_positions_step1 : forall n start stop, slice_positions n start stop (Some 1%Z) = slice_positions n start stop None.
Proof. reflexivity. Qed.

Lemma slice_positions_lt : forall n start stop step l, slice_positions n start stop step = Ret l -> Forall (fun i => i < n) l.
Proof.
  intros n start stop step l E. unfold slice_positions in E.
  set (k := match step with None => 1%Z | Some k => k end) in *.
  destruct (Z.eqb_spec k 0); [discriminate|]. destruct (Z.ltb_spec 0 k); apply Ret_inj in E; subst l; apply Forall_forall; intros x Hx;
    apply in_map_iff in Hx; destruct Hx as (i & <- & Hi); apply in_seq in Hi.
  - match type of Hi with context [((?b - ?a + _ - _) / _)%Z] => set (A := a) in *; set (B := b) in * end.
    assert (0 <= A <= Z.of_nat n)%Z.
    { unfold A, slice_end. destruct start as [v|]; [|lia]. destruct (Z.ltb_spec v 0); lia. }
    assert (0 <= B <= Z.of_nat n)%Z.
    { unfold B, slice_end. destruct stop as [v|]; [|lia]. destruct (Z.ltb_spec v 0); lia. }
    assert (Z.of_nat i < (B - A + k - 1) / k)%Z as Hq by lia.
    assert (k * ((B - A + k - 1) / k) <= B - A + k - 1)%Z by (apply Z.mul_div_le; lia). nia.
  - match type of Hi with context [((?a - ?b - _ - _) / _)%Z] => set (A := a) in *; set (B := b) in * end.
    assert (-1 <= A <= Z.of_nat n - 1)%Z.
    { unfold A, slice_end. destruct start as [v|]; [|lia]. destruct (Z.ltb_spec v 0); lia. }
    assert (-1 <= B <= Z.of_nat n - 1)%Z.
    { unfold B, slice_end. destruct stop as [v|]; [|lia]. destruct (Z.ltb_spec v 0); lia. }
    assert (Z.of_nat i < (A - B - k - 1) / - k)%Z as Hq by lia.
    assert (- k * ((A - B - k - 1) / - k) <= A - B - k - 1)%Z by (apply Z.mul_div_le; lia). nia.
Qed.
