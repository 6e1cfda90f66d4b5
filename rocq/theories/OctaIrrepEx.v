(** Concrete irreps of the rotations of the cube, and the product of 1 and 3. *)
From Coq Require Import Reals ZArith Bool List Lia Lra Permutation.
From Verif Require Import LibRes LibMat FinGroupModel SpecFinGroup SpecGroup PlanarModel IrrepModel SpecRep SpaceModel SpecSpace GenModel SpecGen
  OctaModel SpecOcta OctaProofs OctaEx SpecOctaIrrep OctaIrrepModel OctaIrrep1 OctaIrrep2 OctaIrrep3 OctaIrrep4.
Import ListNotations.
Open Scope R_scope.

(** "-1 = 1 tensor 3", octa.py:680-684, of the irreps that are returned *)
Lemma product_1_3 : forall D1 order fuel, (forall q, octahedral q -> meq 3 3 (D1 q) (yzx (as_matrix q))) ->
  (forall x, Permutation x (order x)) -> (24 < fuel)%nat ->
  exists r1 r3 rm, octa_irrep D1 order fuel 1 = Ret (3%nat, r1) /\ octa_irrep D1 order fuel 3 = Ret (1%nat, r3) /\
    octa_irrep D1 order fuel (-1) = Ret (3%nat, rm) /\
    forall q, octahedral q -> exists A B C, r1 q = Ret A /\ r3 q = Ret B /\ rm q = Ret C /\ meq 3 3 C (mscal (B 0%nat 0%nat) A).
Proof.
  intros D1 order fuel HD Ho Hf.
  destruct (irrep_built D1 order 1 HD Ho ltac:(unfold in_range; lia) fuel Hf) as (r1 & E1 & V1).
  destruct (irrep_built D1 order 3 HD Ho ltac:(unfold in_range; lia) fuel Hf) as (r3 & E3 & V3).
  destruct (irrep_built D1 order (-1) HD Ho ltac:(unfold in_range; lia) fuel Hf) as (rm & Em & Vm).
  exists r1, r3, rm; split; [exact E1|]; split; [exact E3|]; split; [exact Em|].
  intros q Hq; destruct (V1 q Hq) as (A & EA & MA); destruct (V3 q Hq) as (B & EB & MB); destruct (Vm q Hq) as (C & EC & MC).
  exists A, B, C; split; [exact EA|]; split; [exact EB|]; split; [exact EC|].
  intros i j Hi Hj; rewrite (MC i j Hi Hj); unfold mscal; rewrite (MA i j Hi Hj), (MB 0%nat 0%nat ltac:(cbn; lia) ltac:(cbn; lia)); reflexivity.
Qed.

(** A set that iterates backwards; the irrep 2 at a third of a turn. *)
Lemma third_at_2 : exists rep A, octa_irrep (fun q => yzx (as_matrix q)) (@rev quat) 25 2 = Ret (2%nat, rep) /\
  rep (nth 11 octa_elements so3_id) = Ret A /\ A 0%nat 0%nat = - (1 / 2) /\ A 1%nat 0%nat = 3 / 2 * / sqrt 3.
Proof.
  destruct (irrep_built (fun q => yzx (as_matrix q)) (@rev quat) 2 ltac:(intros; apply meq_refl) (@Permutation_rev quat) ltac:(unfold in_range; lia) 25%nat ltac:(lia))
    as (rep & E & V).
  destruct (V (el 11) (el_oct 11 ltac:(lia))) as (A & EA & M); exists rep, A; split; [exact E|]; split; [exact EA|].
  pose proof (value_s 2 ltac:(unfold in_range; lia)) as W.
  split; rewrite M by (cbn; lia); rewrite W by (cbn; lia); reflexivity.
Qed.

(** The traces of a third of a turn. *)
Lemma third_traces : octahedral (nth 11 octa_elements so3_id) /\ char_of 1 (nth 11 octa_elements so3_id) = 0 /\
  char_of (-1) (nth 11 octa_elements so3_id) = 0 /\ char_of 2 (nth 11 octa_elements so3_id) = -1 /\ char_of 3 (nth 11 octa_elements so3_id) = 1.
Proof.
  split; [apply (el_oct 11); lia|]; change (nth 11 octa_elements so3_id) with (el 11).
  destruct (char_table 11 ltac:(lia)) as (_ & -> & -> & -> & ->); repeat split; f_equal; reflexivity.
Qed.

(** The maps commuting with the irrep 2 are not vacuous: multiples of the identity. *)
Lemma multiples_map : forall a, maps_reps 2 2 (octa_value 2) (octa_value 2) (mscal a mid).
Proof.
  intros a q _ i j Hi Hj; unfold mmul, mscal, mid; cbn [sumn].
  destruct i as [|[|i]]; try lia; destruct j as [|[|j]]; try lia; cbn [Nat.eqb]; ring.
Qed.

Lemma list_eq9 : forall a b c d e f g h i a' b' c' d' e' f' g' h' i' : R, a = a' -> b = b' -> c = c' -> d = d' -> e = e' -> f = f' -> g = g' -> h = h' -> i = i' ->
  [a; b; c; d; e; f; g; h; i] = [a'; b'; c'; d'; e'; f'; g'; h'; i'].
Proof. intros; congruence. Qed.
(** The hypotheses of the generation on quaternions: q and - q are one element. *)
Lemma quaternions_twice : enumerates_by entries octahedral octa_elements /\ decides_by entries octahedral octa_eqb /\
  entries (Quat 0 0 0 1) = entries (Quat 0 0 0 (-1)) /\ Quat 0 0 0 1 <> Quat 0 0 0 (-1).
Proof.
  split; [exact octa_enumerates|]; split; [exact octa_decides|]; split.
  - unfold entries; apply list_eq9; cbn [as_matrix mat3 qx qy qz qw]; lra.
  - intros E; injection E; lra.
Qed.
