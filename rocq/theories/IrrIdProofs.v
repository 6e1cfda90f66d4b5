(** Proofs about the ways to name an irrep of SO(3) or O(3). *)
From Coq Require Import String List ZArith Bool Lia.
From Verif Require Import LibRes ProdModel CharModel CharProofs IrrIdModel SpecIrrId.
Import ListNotations.
Open Scope Z_scope.

Lemma py_range_In : forall a b i, In i (py_range a b) -> a <= i < b.
Proof. intros a b i H; unfold py_range in H; apply in_map_iff in H as (k & <- & H); apply in_seq in H; lia. Qed.

Lemma irrep_id_ok : forall G id, irr_ok G id -> irrep_id G id = Ret id.
Proof.
  intros [|] id H.
  - destruct H as (l & -> & H); cbn; apply Z.leb_le in H; rewrite H; reflexivity.
  - destruct H as (j & l & -> & [-> | ->] & H); cbn; apply Z.leb_le in H; rewrite H; reflexivity.
Qed.

Theorem forms_ok : forall G reps a id, irr_ok G id -> denotes G a id -> get_irrep_id G reps a = Ret (RId id).
Proof.
  intros G reps a id H [-> |[-> |(n & -> & E)]]; cbn [get_irrep_id].
  - destruct G; reflexivity.
  - rewrite (irrep_id_ok G id H); reflexivity.
  - rewrite <- E, (irrep_id_ok G id H); reflexivity.
Qed.

Theorem foreign_refused : forall G H reps id, G <> H -> get_irrep_id G reps (AIrrep H id) = Raise.
Proof. intros [|] [|] reps id N; try reflexivity; congruence. Qed.

Theorem so3_product_ok : forall reps a b J l, 0 <= J -> 0 <= l -> denotes GSO3 a [J] -> denotes GSO3 b [l] ->
  so3_product reps a b = so3_tensor J l.
Proof.
  intros reps a b J l HJ Hl Ha Hb; unfold so3_product.
  rewrite (forms_ok GSO3 reps a [J]) by (cbn; eauto); cbn [bind unpack1].
  rewrite (forms_ok GSO3 reps b [l]) by (cbn; eauto); reflexivity.
Qed.

Theorem o3_product_ok : forall reps a b J l, irr_ok GO3 [fst J; snd J] -> irr_ok GO3 [fst l; snd l] ->
  denotes GO3 a [fst J; snd J] -> denotes GO3 b [fst l; snd l] -> o3_product reps a b = o3_tensor J l.
Proof.
  intros reps a b [J J'] [l l'] HJ Hl Ha Hb; unfold o3_product.
  rewrite (forms_ok GO3 reps a _ HJ Ha), (forms_ok GO3 reps b _ Hl Hb); reflexivity.
Qed.

Theorem names_fail : forall reps s id, reps s = Some (true, id) ->
  (forall x, so3_product reps (AName s) x = Raise) /\ (forall x, so3_product reps x (AName s) = Raise) /\
  (forall x, o3_product reps (AName s) x = Raise) /\ (forall x, o3_product reps x (AName s) = Raise) /\
  forall A (cg3 : Z -> Z -> Z -> res A) e x y, o3_coeff cg3 e reps (AName s) x y = Raise /\
    o3_coeff cg3 e reps x (AName s) y = Raise /\ o3_coeff cg3 e reps x y (AName s) = Raise.
Proof.
  intros reps s id H.
  assert (E : forall G, get_irrep_id G reps (AName s) = Ret (RRepr id)) by (intros G; cbn; rewrite H; reflexivity).
  unfold so3_product, o3_product, o3_coeff; rewrite !E; cbn [bind unpack1 items2].
  split; [reflexivity|split].
  { intros x; destruct (get_irrep_id GSO3 reps x) as [|r]; cbn [bind]; [reflexivity|destruct (unpack1 r); reflexivity]. }
  split; [intros x; destruct (get_irrep_id GO3 reps x); reflexivity|split].
  { intros x; destruct (get_irrep_id GO3 reps x) as [|r]; cbn [bind]; [reflexivity|destruct (items2 r); reflexivity]. }
  intros A cg3 e x y; split; [|split].
  - destruct (get_irrep_id GO3 reps x), (get_irrep_id GO3 reps y); reflexivity.
  - destruct (get_irrep_id GO3 reps x) as [|r], (get_irrep_id GO3 reps y); cbn [bind]; try reflexivity.
    destruct (items2 r); reflexivity.
  - destruct (get_irrep_id GO3 reps x) as [|r], (get_irrep_id GO3 reps y) as [|t]; cbn [bind]; try reflexivity.
    destruct (items2 r), (items2 t); reflexivity.
Qed.

Section Coeff.
  Context {A : Type} (cg3 : Z -> Z -> Z -> res A) (empty : A) (reps : string -> option (bool * list Z)).
  Variables (a b c : irr_arg) (m n j : Z * Z).
  Hypothesis Hm : irr_ok GO3 [fst m; snd m].
  Hypothesis Hn : irr_ok GO3 [fst n; snd n].
  Hypothesis Hj : irr_ok GO3 [fst j; snd j].
  Hypothesis Ha : denotes GO3 a [fst m; snd m].
  Hypothesis Hb : denotes GO3 b [fst n; snd n].
  Hypothesis Hc : denotes GO3 c [fst j; snd j].

  Lemma coeff_value : o3_coeff cg3 empty reps a b c =
    if (fst m + fst n) mod 2 =? fst j then cg3 (snd m) (snd n) (snd j) else Raise.
  Proof.
    unfold o3_coeff; rewrite (forms_ok GO3 reps a _ Hm Ha), (forms_ok GO3 reps b _ Hn Hb), (forms_ok GO3 reps c _ Hj Hc).
    reflexivity.
  Qed.

  Theorem coeff_parity : (fst m + fst n) mod 2 = fst j -> o3_coeff cg3 empty reps a b c = cg3 (snd m) (snd n) (snd j).
  Proof. intros E; rewrite coeff_value, E, Z.eqb_refl; reflexivity. Qed.
  Theorem coeff_forbidden : (fst m + fst n) mod 2 <> fst j -> o3_coeff cg3 empty reps a b c = Raise.
  Proof. intros E; rewrite coeff_value; apply Z.eqb_neq in E; rewrite E; reflexivity. Qed.
End Coeff.

(** The irreps listed for a tensor product have coefficients. *)
Theorem listed_coeff : forall A (cg3 : Z -> Z -> Z -> res A) empty reps a b c m n j k xs,
  irr_ok GO3 [fst m; snd m] -> irr_ok GO3 [fst n; snd n] ->
  denotes GO3 a [fst m; snd m] -> denotes GO3 b [fst n; snd n] -> denotes GO3 c [fst j; snd j] ->
  o3_product reps a b = Ret xs -> In (j, k) xs ->
  irr_ok GO3 [fst j; snd j] /\ Z.abs (snd m - snd n) <= snd j <= snd m + snd n /\
  o3_coeff cg3 empty reps a b c = cg3 (snd m) (snd n) (snd j).
Proof.
  intros A cg3 empty reps a b c m n j k xs Hm Hn Ha Hb Hc E I.
  rewrite (o3_product_ok reps a b m n Hm Hn Ha Hb) in E; unfold o3_tensor in E; rewrite !assert_Ret in E.
  destruct E as (_ & _ & _ & _ & E); apply Ret_inj in E; subst xs.
  apply in_map_iff in I as (i & X & I); injection X as <- <-; cbn [fst snd] in *.
  apply py_range_In in I.
  assert (Hj : irr_ok GO3 [(fst m + fst n) mod 2; i]).
  { exists ((fst m + fst n) mod 2), i; split; [reflexivity|].
    pose proof (Z.mod_pos_bound (fst m + fst n) 2 ltac:(lia)); lia. }
  split; [exact Hj|split; [lia|]].
  apply (coeff_parity cg3 empty reps a b c m n ((fst m + fst n) mod 2, i)); auto.
Qed.
