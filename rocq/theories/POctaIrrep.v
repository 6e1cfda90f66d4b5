(** The irreps of the octahedral group. *)
From Coq Require Import Reals ZArith Bool List Permutation.
From Verif Require Import LibRes LibMat FinGroupModel SpecGroup SpecFinGroup PlanarModel IrrepModel SpecRep SpaceModel SpecSpace SpecReg GenModel SpecGen GenSame
  OctaModel SpecOcta SpecOctaIrrep OctaIrrepModel OctaIrrep1 OctaIrrep2 OctaIrrep3 OctaIrrep4 OctaIrrepEx.
Import ListNotations.
Open Scope R_scope.

(** C89: for each of the five frequencies irrep returns, whatever the order of
    Python's sets, the documented matrices at every rotation of the cube, in
    either of its quaternions. *)
Theorem C89_built : forall (D1 : quat -> mat) (order : list quat -> list quat) (l : Z),
  (forall q : quat, octahedral q -> meq 3 3 (D1 q) (yzx (as_matrix q))) ->
  (forall x : list quat, Permutation x (order x)) ->
  in_range l ->
  forall fuel : nat,
  (24 < fuel)%nat ->
  exists rep : quat -> res mat,
  octa_irrep D1 order fuel l = Ret (octa_size l, rep) /\ (forall q : quat, octahedral q -> exists A : mat, rep q = Ret A /\ meq (octa_size l) (octa_size l) A (octa_value l q)).
Proof. exact @irrep_built. Qed.
Print Assumptions C89_built.

Example C89_case_third : exists rep A, octa_irrep (fun q => yzx (as_matrix q)) (@rev quat) 25 2 = Ret (2%nat, rep) /\
  rep (nth 11 octa_elements so3_id) = Ret A /\ A 0%nat 0%nat = - (1 / 2) /\ A 1%nat 0%nat = 3 / 2 * / sqrt 3.
Proof. exact third_at_2. Qed.

(** They are orthogonal representations. *)
Theorem C89_representation : forall l : Z, in_range l -> orth_rep octahedral octa_mul octa_inv so3_id (octa_size l) (octa_fun l).
Proof. exact @value_rep. Qed.
Print Assumptions C89_representation.

(** The only maps from one to itself are multiples of the identity, and there are
    none between two different ones: irreducible, of real type, not isomorphic. *)
Theorem C89_irreducible : forall (l l' : Z) (X : mat),
  in_range l ->
  in_range l' -> maps_reps (octa_size l) (octa_size l') (octa_value l) (octa_value l') X -> exists a : R, meq (octa_size l) (octa_size l') X (if l =? l' then mscal a mid else mzero).
Proof. exact @schur. Qed.
Print Assumptions C89_irreducible.

Example C89_case_multiples : forall a, maps_reps 2 2 (octa_value 2) (octa_value 2) (mscal a mid).
Proof. exact multiples_map. Qed.

(** With their sizes as multiplicities they make up the regular representation:
    there are no others. *)
Theorem C89_complete : forall q : quat,
  octahedral q ->
  (same_rotation q so3_id ->
  INR (octa_size 0) * char_of 0 q + INR (octa_size 1) * char_of 1 q + INR (octa_size (-1)) * char_of (-1) q + INR (octa_size 2) * char_of 2 q + INR (octa_size 3) * char_of 3 q = 24) /\
  (~ same_rotation q so3_id ->
  INR (octa_size 0) * char_of 0 q + INR (octa_size 1) * char_of 1 q + INR (octa_size (-1)) * char_of (-1) q + INR (octa_size 2) * char_of 2 q + INR (octa_size 3) * char_of 3 q = 0).
Proof. exact @characters_complete. Qed.
Print Assumptions C89_complete.

Example C89_case_traces : octahedral (nth 11 octa_elements so3_id) /\ char_of 1 (nth 11 octa_elements so3_id) = 0 /\
  char_of (-1) (nth 11 octa_elements so3_id) = 0 /\ char_of 2 (nth 11 octa_elements so3_id) = -1 /\ char_of 3 (nth 11 octa_elements so3_id) = 1.
Proof. exact third_traces. Qed.

(** The frequencies 1, 2 and 3 of SO(3) on the rotations of the cube, which have the
    traces 1 + 2 cos t + ... + 2 cos (l t): 1; (-1) and 2; 3, 1 and (-1). *)
Theorem C89_frequencies : forall q : quat,
  octahedral q ->
  forall t : R,
  trace 3 (as_matrix q) = 1 + 2 * cos t ->
  1 + 2 * cos t = char_of 1 q /\
  1 + 2 * cos t + 2 * cos (2 * t) = char_of (-1) q + char_of 2 q /\ 1 + 2 * cos t + 2 * cos (2 * t) + 2 * cos (3 * t) = char_of 3 q + char_of 1 q + char_of (-1) q.
Proof. exact @frequencies. Qed.
Print Assumptions C89_frequencies.

(** The irrep -1 is the product of 1 and 3. *)
Theorem C89_product : forall (D1 : quat -> mat) (order : list quat -> list quat) (fuel : nat),
  (forall q : quat, octahedral q -> meq 3 3 (D1 q) (yzx (as_matrix q))) ->
  (forall x : list quat, Permutation x (order x)) ->
  (24 < fuel)%nat ->
  exists r1 r3 rm : quat -> res mat,
  octa_irrep D1 order fuel 1 = Ret (3%nat, r1) /\
  octa_irrep D1 order fuel 3 = Ret (1%nat, r3) /\
  octa_irrep D1 order fuel (-1) = Ret (3%nat, rm) /\
  (forall q : quat, octahedral q -> exists A B C : mat, r1 q = Ret A /\ r3 q = Ret B /\ rm q = Ret C /\ meq 3 3 C (mscal (B 0%nat 0%nat) A)).
Proof. exact @product_1_3. Qed.
Print Assumptions C89_product.

(** The generation behind them, for groups where several values stand for one element. *)
Theorem C89_generation : forall (T U : Type) (c : T -> U) (mem : T -> Prop) (eqb : T -> T -> bool) (op : T -> T -> res T) (inv : T -> res T) (e : T) (els : list T) (order : list T -> list T),
  is_group mem op inv e ->
  (forall g x y a b : T, mem g -> mem x -> mem y -> c x = c y -> op g x = Ret a -> op g y = Ret b -> c a = c b) ->
  enumerates_by c mem els ->
  decides_by c mem eqb ->
  (forall l : list T, Permutation l (order l)) ->
  forall gens : list (T * (nat * mat)),
  Forall mem (map fst gens) ->
  forall (d : nat) (F : T -> res (nat * mat)),
  gens <> [] ->
  orth_rep mem op inv e d F ->
  (forall x y : T, mem x -> mem y -> c x = c y -> F x = F y) ->
  (forall (g : T) (A : nat * mat), In (g, A) gens -> exists B : mat, F g = Ret (d, B) /\ fst A = d /\ meq d d (snd A) B) ->
  (forall x : T, mem x -> exists y : T, generated op e (map fst gens) y /\ c y = c x) ->
  forall fuel : nat,
  (length els < fuel)%nat ->
  exists rho : list (T * mat),
  generate eqb op inv e els order fuel gens = Ret rho /\
  Forall (fun kv : T * mat => mem (fst kv) /\ (exists B : mat, F (fst kv) = Ret (d, B) /\ meq d d (snd kv) B)) rho /\
  (forall x : T, mem x -> exists A B : mat, dget eqb rho x = Ret A /\ F x = Ret (d, B) /\ meq d d A B).
Proof. exact @generate_by. Qed.
Print Assumptions C89_generation.

Example C89_case_quaternions : enumerates_by entries octahedral octa_elements /\ decides_by entries octahedral octa_eqb /\
  entries (Quat 0 0 0 1) = entries (Quat 0 0 0 (-1)) /\ Quat 0 0 0 1 <> Quat 0 0 0 (-1).
Proof. exact quaternions_twice. Qed.
