(** Property C95: the picklable form of subgroup ids. *)
From Coq Require Import String List ZArith.
From Verif Require Import LibRes ProdModel PickModel SpecPick PickProofs.
Import ListNotations.
Open Scope string_scope.

(** Decoding the encoded id gives the id back. *)
Theorem C95_roundtrip : forall U (valid : gname -> U -> bool) param G y, plain valid [G] group_tags y ->
  decode valid G (encode param y) = Ret y.
Proof. exact (@decode_encode). Qed.
Print Assumptions C95_roundtrip.

Theorem C95_product_roundtrip : forall U (valid : gname -> U -> bool) param G1 G2 y,
  plain valid [NProd G1 G2; G1; G2] product_tags y ->
  exists p, prod_encode param G1 G2 y = Ret p /\ prod_decode valid G1 G2 p = Ret y.
Proof. exact (@prod_decode_encode). Qed.
Print Assumptions C95_product_roundtrip.

(** Different ids are different keys of the cache. *)
Theorem C95_injective : forall U (valid : gname -> U -> bool) param G y z,
  plain valid [G] group_tags y -> plain valid [G] group_tags z -> encode param y = encode param z -> y = z.
Proof. exact (@encode_inj). Qed.
Print Assumptions C95_injective.

Theorem C95_product_injective : forall U (valid : gname -> U -> bool) param G1 G2 y z,
  plain valid [NProd G1 G2; G1; G2] product_tags y -> plain valid [NProd G1 G2; G1; G2] product_tags z ->
  prod_encode param G1 G2 y = prod_encode param G1 G2 z -> y = z.
Proof. exact (@prod_encode_inj). Qed.
Print Assumptions C95_product_injective.

(** The encoded form contains no group elements. *)
Theorem C95_picklable : forall U (valid : gname -> U -> bool) param gs tags y,
  plain valid gs tags y -> no_elements (encode param y).
Proof. exact (@encode_picklable). Qed.
Print Assumptions C95_picklable.

Theorem C95_product_picklable : forall U (valid : gname -> U -> bool) param G1 G2 gs tags y p,
  plain valid gs tags y -> prod_encode param G1 G2 y = Ret p -> no_elements p.
Proof. exact (@prod_encode_picklable). Qed.
Print Assumptions C95_product_picklable.

(** In a product of products, an id with an element of an inner factor cannot be
    encoded, wherever in the id it occurs. *)
Theorem C95_nested_refuted : forall U param A B C (g : gel U) y, el_grp g = A -> A <> C -> occurs g y ->
  prod_encode param (NProd A B) C y = Raise.
Proof. exact (@nested_fails). Qed.
Print Assumptions C95_nested_refuted.

(** An id of SO(3) (here the group number 3, any value) with an element that says
    how the subgroup is conjugated, in SO(3) x C_4. *)
Example C95_ex : let valid := fun (_ : gname) (_ : Z) => true in
  let so3 := NOther 3 in let c4 := NFin (FinGroupModel.Cyc 4) in
  let id := YTup [YBool false; YInt 6; YElem (El so3 17%Z)] in
  plain valid [so3] group_tags id /\
  plain valid [NProd so3 c4; so3; c4] product_tags (YTup [id; YInt 2]) /\
  occurs (El so3 17%Z) (YTup [YTup [id; YInt 2]; YInt 2]) /\ so3 <> c4.
Proof.
  cbn zeta.
  assert (P : forall gs tags, In (NOther 3) gs ->
    plain (fun (_ : gname) (_ : Z) => true) gs tags (YTup [YBool false; YInt 6; YElem (El (NOther 3) 17%Z)])).
  { intros gs tags Hg; constructor; [discriminate|].
    intros x [<-|[<-|[<-|[]]]]; constructor; auto. }
  split; [apply P; left; reflexivity|split; [|split; [|discriminate]]].
  - constructor; [discriminate|]; intros x [<-|[<-|[]]]; [apply P; cbn; auto|constructor].
  - eapply occ_in; [left; reflexivity|]; eapply occ_in; [left; reflexivity|].
    eapply occ_in; [right; right; left; reflexivity|constructor].
Qed.
