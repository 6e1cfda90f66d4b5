(** Properties C33-C36: fields inside a tensor, selecting, splitting, moving and labelling them. *)
From Coq Require Import List ZArith Arith Bool Lia Permutation Sorted.
From Verif Require Import LibRes LibPy FieldModel SpecField FieldProofs FieldThms SplitThms BranchProofs LabelThms MergeThms.
Import ListNotations.

(** *** C33 *)
Theorem C33_tile : forall A (size : A -> nat) (ft : list A),
  length (fields_start size ft) = length ft /\ length (fields_end size ft) = length ft /\
  (forall i r, nth_error ft i = Some r -> exists s, nth_error (fields_start size ft) i = Some s /\
     nth_error (fields_end size ft) i = Some (s + size r) /\
     (i = 0 -> s = 0) /\
     (forall r', nth_error ft (S i) = Some r' -> nth_error (fields_start size ft) (S i) = Some (s + size r)) /\
     (S i = length ft -> s + size r = type_size size ft)) /\
  (forall c, c < type_size size ft -> exists i s e, nth_error (fields_start size ft) i = Some s /\
     nth_error (fields_end size ft) i = Some e /\ s <= c < e /\
     forall i' s' e', nth_error (fields_start size ft) i' = Some s' -> nth_error (fields_end size ft) i' = Some e' ->
       s' <= c < e' -> i' = i).
Proof. exact @fields_tile. Qed.
Print Assumptions C33_tile.
Example C33_ex : fields_start (fun a => a) [2; 3; 1] = [0; 2; 5] /\ fields_end (fun a => a) [2; 3; 1] = [2; 5; 6].
Proof. split; reflexivity. Qed.

(** The type sorted by size, equal sizes in their old order *)
Theorem C33_sorted : forall A (size : A -> nat) (ft : list A), ft <> [] -> exists ft' sel, type_sorted size ft = Ret ft' /\
  Permutation sel (seq 0 (length ft)) /\ map (nth_error ft) sel = map Some ft' /\
  StronglySorted (fun i j => size_at size ft i < size_at size ft j \/ (size_at size ft i = size_at size ft j /\ i <= j)) sel.
Proof. exact @sorted_ok. Qed.
Print Assumptions C33_sorted.
Example C33_sorted_ex : type_sorted snd [(1, 2); (2, 1); (3, 2)] = Ret [(2, 1); (1, 2); (3, 2)].
Proof. reflexivity. Qed.

(** *** C34 *)
Theorem C34_selects : forall A V (size : A -> nat) naxes (x y : gtensor A V) s e, good size x -> 2 <= naxes -> entry naxes s 1 e ->
  (forall z, e = Some (IInt z) -> (- Z.of_nat (length (g_type x)) <= z)%Z) ->
  getitem size naxes x s = Ret y ->
  match e with
  | None => y = x
  | Some i => exists sel, means (length (g_type x)) i sel /\ sel <> [] /\
      picks size (g_type x) (g_chans x) sel (g_type y) (g_chans y)
  end.
Proof. exact @getitem_selects. Qed.
Print Assumptions C34_selects.
Example C34_selects_ex : getitem (fun a => a) 4 {| g_type := [2; 1; 3]; g_chans := [10; 11; 12; 13; 14; 15] |}
    [ISlice None None None; ISlice (Some (-1)%Z) None (Some (-2)%Z)] = Ret {| g_type := [3; 2]; g_chans := [13; 14; 15; 10; 11] |}.
Proof. reflexivity. Qed.

Theorem C34_lists_accepted : forall A V (size : A -> nat) naxes (x : gtensor A V) i0 l sel, good size x -> 2 <= naxes -> i0 <> IEllipsis ->
  mapM (py_index (length (g_type x))) l = Ret sel -> sel <> [] ->
  exists y, getitem size naxes x [i0; ILong l] = Ret y.
Proof. exact @getitem_long. Qed.
Print Assumptions C34_lists_accepted.
Example C34_lists_ex : mapM (py_index 3) [2; -3]%Z = Ret [2; 0].
Proof. reflexivity. Qed.

(** An index that is out of range selects a field *)
Theorem C34_refuted : forall A V (size : A -> nat) (x : gtensor A V), good size x -> 2 <= length (g_type x) ->
  let n := length (g_type x) in let z := (- Z.of_nat n - 2)%Z in
  py_index n z = Raise /\ exists y, getitem size 2 x [ISlice None None None; IInt z] = Ret y /\
    picks size (g_type x) (g_chans x) [n - 2] (g_type y) (g_chans y).
Proof. exact @getitem_wraps. Qed.
Print Assumptions C34_refuted.
Example C34_refuted_ex : getitem (fun a => a) 2 {| g_type := [1; 2]; g_chans := [10; 11; 12] |} [ISlice None None None; IInt (-4)] =
  Ret {| g_type := [1]; g_chans := [10] |}.
Proof. reflexivity. Qed.

(** *** C35 *)
Theorem C35_split : forall A V (size : A -> nat) (x : gtensor A V) breaks, good size x ->
  rising 0 (breaks ++ [length (g_type x)]) -> exists ts,
  split size x (Some (map Z.of_nat breaks)) =
    (Ret ts, Some (map Z.of_nat (breaks ++ [length (g_type x)]))) /\
  Forall2 (fun sel t => picks size (g_type x) (g_chans x) sel (g_type t) (g_chans t))
    (between 0 (breaks ++ [length (g_type x)])) ts /\
  tensor_directsum size ts = Ret x.
Proof. exact @split_ok. Qed.
Print Assumptions C35_split.
Example C35_split_ex : rising 0 ([1; 3] ++ [4]) /\
  fst (split (fun a => a) {| g_type := [2; 1; 1; 2]; g_chans := [10; 11; 12; 13; 14; 15] |} (Some [1; 3]%Z)) =
  Ret [{| g_type := [2]; g_chans := [10; 11] |}; {| g_type := [1; 1]; g_chans := [12; 13] |}; {| g_type := [2]; g_chans := [14; 15] |}].
Proof. split; [cbn; lia|reflexivity]. Qed.

Theorem C35_accepts : forall A V (size : A -> nat) (x : gtensor A V) zs ts, good size x ->
  fst (split size x (Some zs)) = Ret ts ->
  exists breaks, zs = map Z.of_nat breaks /\ rising 0 (breaks ++ [length (g_type x)]).
Proof. exact @split_accepts. Qed.
Print Assumptions C35_accepts.

Theorem C35_refuted_default : forall A V (size : A -> nat) (x : gtensor A V), 0 < length (g_type x) -> fst (split size x None) = Raise.
Proof. exact @split_none. Qed.
Print Assumptions C35_refuted_default.
Theorem C35_refuted_zero : forall A V (size : A -> nat) (x : gtensor A V) l, fst (split size x (Some (0%Z :: l))) = Raise.
Proof. exact @split_zero. Qed.
Print Assumptions C35_refuted_zero.
Theorem C35_refuted_caller : forall A V (size : A -> nat) (x : gtensor A V) breaks ts l', good size x ->
  split size x (Some breaks) = (Ret ts, Some l') -> l' <> breaks /\ fst (split size x (Some l')) = Raise.
Proof. exact @split_twice. Qed.
Print Assumptions C35_refuted_caller.
Example C35_refuted_ex : good (fun a => a) {| g_type := [2; 1]; g_chans := [10; 11; 12] |} /\
  split (fun a => a) {| g_type := [2; 1]; g_chans := [10; 11; 12] |} (Some [1%Z]) =
    (Ret [{| g_type := [2]; g_chans := [10; 11] |}; {| g_type := [1]; g_chans := [12] |}], Some [1; 2]%Z).
Proof. split; reflexivity. Qed.

(** *** C36 *)
Theorem C36_reshuffle : forall A V (size : A -> nat) teqb (x : gtensor A V) perm, good size x -> teqb (g_type x) (g_type x) = true -> g_type x <> [] ->
  (forall y, (exists m, mk_reshuffle size (g_type x) perm = Ret m /\ reshuffle_forward size teqb m x = Ret y) <->
   exists sel, perm = map Z.of_nat sel /\ (forall i, In i sel <-> i < length (g_type x)) /\
     picks size (g_type x) (g_chans x) sel (g_type y) (g_chans y)).
Proof. exact @reshuffle_moves. Qed.
Print Assumptions C36_reshuffle.
Example C36_reshuffle_ex : exists m, mk_reshuffle (fun a => a) [2; 1] [1; 0]%Z = Ret m /\
  reshuffle_forward (fun a => a) (fun a b => if list_eq_dec Nat.eq_dec a b then true else false) m {| g_type := [2; 1]; g_chans := [10; 11; 12] |} =
  Ret {| g_type := [1; 2]; g_chans := [12; 10; 11] |}.
Proof. eexists. split; reflexivity. Qed.

Theorem C36_branch : forall A V L (size : A -> nat) (leqb lleb : L -> L -> bool), (forall a b, leqb a b = true <-> a = b) ->
  (forall a, lleb a a = true) -> (forall a b, lleb a b = true \/ lleb b a = true) ->
  (forall a b c, lleb a b = true -> lleb b c = true -> lleb a c = true) -> (forall a b, lleb a b = true -> lleb b a = true -> a = b) ->
  forall (teqb : list A -> list A -> bool) r ft labels, (forall t, teqb t t = true) -> r < 3 ->
  ft <> [] -> length labels = length ft -> Forall (fun a => 0 < size a) ft ->
  exists b, mk_branching size leqb lleb ft labels r = Ret b /\
  forall (x : gtensor A V) l, good size x -> g_type x = ft -> In l labels ->
  exists y sel, branch size leqb teqb b x l = Ret y /\ good size y /\ picks size ft (g_chans x) sel (g_type y) (g_chans y) /\
    Permutation sel (labelled leqb labels l) /\ (r <= 1 -> sel = labelled leqb labels l) /\
    (r = 2 -> StronglySorted (fun i j => size_at size ft i <= size_at size ft j) sel).
Proof. exact @branch_picks. Qed.
Print Assumptions C36_branch.
(** Labels 7 and 5 interleaved, without and with reordering *)
Definition ex_ft := [2; 1; 1; 3]. Definition ex_labels := [7; 5; 7; 5].
Definition ex_x := {| g_type := ex_ft; g_chans := [10; 11; 12; 13; 14; 15; 16] |}.
Definition ex_teqb (a b : list nat) : bool := if list_eq_dec Nat.eq_dec a b then true else false.
Example C36_branch_ex : (exists b, mk_branching (fun a => a) Nat.eqb Nat.leb ex_ft ex_labels 0 = Ret b /\ branch (fun a => a) Nat.eqb ex_teqb b ex_x 7 =
    Ret {| g_type := [2; 1]; g_chans := [10; 11; 13] |}) /\
  (exists b, mk_branching (fun a => a) Nat.eqb Nat.leb ex_ft ex_labels 1 = Ret b /\ branch (fun a => a) Nat.eqb ex_teqb b ex_x 7 =
    Ret {| g_type := [2; 1]; g_chans := [10; 11; 13] |}) /\
  (exists b, mk_branching (fun a => a) Nat.eqb Nat.leb ex_ft ex_labels 2 = Ret b /\ branch (fun a => a) Nat.eqb ex_teqb b ex_x 7 =
    Ret {| g_type := [1; 2]; g_chans := [13; 10; 11] |}).
Proof. repeat split; eexists; split; reflexivity. Qed.

Theorem C36_merge : forall A V L (size : A -> nat) (leqb : L -> L -> bool), (forall a b, leqb a b = true <-> a = b) ->
  forall lleb (teqb : list A -> list A -> bool) r ft labels ls,
  (forall a, lleb a a = true) -> (forall a b, lleb a b = true \/ lleb b a = true) ->
  (forall a b c, lleb a b = true -> lleb b c = true -> lleb a c = true) -> (forall a b, lleb a b = true -> lleb b a = true -> a = b) ->
  (forall t, teqb t t = true) -> r < 2 -> ft <> [] -> length labels = length ft -> Forall (fun a => 0 < size a) ft ->
  NoDup ls -> (forall l, In l labels <-> In l ls) ->
  exists b, mk_branching size leqb lleb ft labels r = Ret b /\
  forall x : gtensor A V, good size x -> g_type x = ft ->
  exists z sel, merge size (map (fun l => (identity_on (chosen ft (labelled leqb labels l)), [l])) ls) (branch size leqb teqb b x) = Ret z /\
    sel = flat_map (labelled leqb labels) ls /\ Permutation sel (seq 0 (length ft)) /\
    picks size ft (g_chans x) sel (g_type z) (g_chans z).
Proof. exact @branch_merge. Qed.
Print Assumptions C36_merge.
Example C36_merge_ex : exists b, mk_branching (fun a => a) Nat.eqb Nat.leb ex_ft ex_labels 0 = Ret b /\
  merge (fun a => a) (map (fun l => (identity_on (chosen ex_ft (labelled Nat.eqb ex_labels l)), [l])) [5; 7]) (branch (fun a => a) Nat.eqb ex_teqb b ex_x) =
  Ret {| g_type := [1; 3; 2; 1]; g_chans := [12; 14; 15; 16; 10; 11; 13] |}.
Proof. eexists. split; reflexivity. Qed.

Theorem C36_consecutive : forall l, l <> [] -> NoDup l -> Forall (fun z => 0 <= z)%Z l ->
  exists b, check_consecutive l = Ret b /\ (b = true <-> consecutive l).
Proof. exact check_consecutive_ok. Qed.
Print Assumptions C36_consecutive.
Example C36_consecutive_ex : check_consecutive [4; 2; 3]%Z = Ret true /\ check_consecutive [4; 2]%Z = Ret false.
Proof. split; reflexivity. Qed.
(** Without distinctness the test is fooled *)
Example C36_consecutive_repeated : check_consecutive [1; 1; 1; 3]%Z = Ret true /\ ~ consecutive [1; 1; 1; 3]%Z.
Proof.
  split; [reflexivity|]. intros (a & b & _ & H). assert (In 2 [1; 1; 1; 3])%Z as K.
  { apply H. pose proof (proj1 (H 1%Z) ltac:(cbn; auto)). pose proof (proj1 (H 3%Z) ltac:(cbn; auto)). lia. }
  cbn in K. lia.
Qed.

Theorem C36_indexes : forall A L (size : A -> nat) (leqb : L -> L -> bool), (forall a b, leqb a b = true <-> a = b) ->
  forall (ft : list A) labels, length labels = length ft -> Forall (fun a => 0 < size a) ft ->
  exists d, indexes_from_labels size leqb ft labels = Ret d /\
  forall l, In l labels -> exists c chans, lookup leqb d l = Ret (c, labelled leqb labels l, chans) /\
    (forall k, In k chans <-> exists i, In i (labelled leqb labels l) /\
        list_sum (map size (firstn i ft)) <= k < list_sum (map size (firstn (S i) ft))) /\
    NoDup chans /\ (c = true <-> consecutive (map Z.of_nat chans)).
Proof. exact @indexes_ok. Qed.
Print Assumptions C36_indexes.
Example C36_indexes_ex : indexes_from_labels (fun a => a) Nat.eqb ex_ft ex_labels =
  Ret [(7, (false, [0; 2], [0; 1; 3])); (5, (false, [1; 3], [2; 4; 5; 6]))].
Proof. reflexivity. Qed.
