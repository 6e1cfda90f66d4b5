(** C39: every weight of a BlocksBasisExpansion drives the block it is reported to drive. *)
From Coq Require Import String.
From Coq Require Import List ZArith Arith Bool Reals Permutation.
From Verif Require Import LibRes LibMat FieldModel BlocksModel SpecBlocks BlocksCor BlocksEx.
Import ListNotations.
Local Open Scope nat_scope.

(** C39. For all lists of input and output representations whose (escaped) names
    tell them apart, all kernel bases, filters and sampling points: the expansion
    is constructed; get_basis_info lists as many entries as there are weights;
    its k-th entry describes an element of the basis of two existing fields and
    is what get_element_info answers for k, which raises on every other integer;
    every element of every pair of fields is listed exactly once; the expanded
    filter is the sum over the weights of the weight times the element its entry
    describes, placed in the block of its two fields - unless there is a single
    pair of representations with an empty basis, where the expansion raises. *)
Theorem C39_weights : forall {A X} (S : nat) (name : A -> string) (size nirreps : A -> nat) aeqb order sort
    (generator : A -> A -> res (option (kbasis X nat))) bf ins outs,
  (forall a b, aeqb a b = true <-> a = b) -> (forall l, Permutation (order l) l) -> (forall l, Permutation (sort l) l) ->
  (forall a b, In a ins -> In b ins -> escape_name (name a) = escape_name (name b) -> a = b) ->
  (forall a b, In a outs -> In b outs -> escape_name (name a) = escape_name (name b) -> a = b) ->
  Forall (fun r => 0 < size r) ins -> Forall (fun r => 0 < size r) outs ->
  (forall i o, In i ins -> In o outs -> exists k, generator i o = Ret k /\ forall kb, k = Some kb -> kb_out kb = size o /\ kb_in kb = size i) ->
  exists b infos,
    mk_blocks S name size aeqb order sort ins outs generator bf = Ret b /\
    get_basis_info name nirreps b = Ret infos /\ List.length infos = bb_dim b /\
    (forall k f, nth_error infos k = Some f ->
       describes name nirreps (elements_of S generator bf) ins outs k f /\ get_element_info name nirreps b (Z.of_nat k) = Ret f) /\
    (forall z, (z < 0 \/ Z.of_nat (bb_dim b) <= z)%Z -> get_element_info name nirreps b z = Raise) /\
    NoDup (map slot infos) /\
    (forall o i j ro ri, nth_error outs o = Some ro -> nth_error ins i = Some ri -> j < List.length (elements_of S generator bf ri ro) -> In (o, i, j) (map slot infos)) /\
    (forall w dflt, List.length w = bb_dim b -> (bb_npairs b = 1 -> bb_dim b <> 0) -> exists F, forward S name size b w = Ret F /\
       forall r c p, r < type_size size outs -> c < type_size size ins ->
         F r c p = sumn (bb_dim b) (fun k => nth k w 0 * element_at size (elements_of S generator bf) ins outs (nth k infos dflt) r c p)%R) /\
    (forall w, bb_npairs b = 1 -> bb_dim b = 0 -> forward S name size b w = Raise).
Proof. intros A X. exact blocks_ok. Qed.
Print Assumptions C39_weights.

(** Trivial and two-dimensional fields, not grouped: t + r + t -> r + t with five weights. *)
Example C39_weights_ex : exists b infos,
  mk_blocks 1 r_name r_size rep_eqb (@rev rep) (fun l => l) ins outs gen None = Ret b /\ get_basis_info r_name r_irreps b = Ret infos /\
  List.length infos = 5 /\ bb_dim b = 5 /\
  forall w dflt, List.length w = 5 -> exists F, forward 1 r_name r_size b w = Ret F /\
    forall r c p, r < 3 -> c < 4 -> F r c p = sumn 5 (fun k => nth k w 0 * element_at r_size (elements_of 1 gen None) ins outs (nth k infos dflt) r c p)%R.
Proof. exact mixed_holds. Qed.

(** C39 without the condition on names: the representations "a.b" and "a^b" share
    their modules and indices; weight 0 is reported to drive the block of the
    first field, where the filter is zero whatever the weights. *)
Theorem C39_escaped_names_refuted : exists b f0, mk_blocks 1 r_name r_size rep_eqb (fun l => l) (fun l => l) [dot; hat] [t] gen1 None = Ret b /\ r_name dot <> r_name hat /\
  bb_dim b = 2 /\ get_element_info r_name r_irreps b 0 = Ret f0 /\ in_field_position f0 = 0 /\ out_field_position f0 = 0 /\ block_id f0 = 0 /\
  (forall w, element_at r_size (elements_of 1 gen1 None) [dot; hat] [t] f0 0 0 w = 1%R) /\
  forall w0 w1, exists F, forward 1 r_name r_size b [w0; w1] = Ret F /\ F 0 0 0 = 0%R.
Proof. exact clash_holds. Qed.
Print Assumptions C39_escaped_names_refuted.

(** Different representations with one name (a direct sum is named after its
    summands whatever its change of basis) share the basis of the last of them. *)
Theorem C39_same_name_refuted : exists b f0, mk_blocks 1 r_name r_size rep_eqb (fun l => l) (fun l => l) [sum0; sum1] [t] gen2 None = Ret b /\ sum0 <> sum1 /\
  bb_dim b = 2 /\ get_element_info r_name r_irreps b 0 = Ret f0 /\ in_field_position f0 = 0 /\ block_id f0 = 0 /\
  (forall p, element_at r_size (elements_of 1 gen2 None) [sum0; sum1] [t] f0 0 0 p = 1%R) /\
  forall w0 w1, exists F, forward 1 r_name r_size b [w0; w1] = Ret F /\ F 0 0 0 = 0%R /\ F 0 1 0 = w0.
Proof. exact same_name_holds. Qed.
Print Assumptions C39_same_name_refuted.

(** A single pair of representations without equivariant maps: constructed (with
    a warning), but the expansion of the empty weight vector raises. *)
Theorem C39_empty_basis_refuted : exists b, mk_blocks 1 r_name r_size rep_eqb (fun l => l) (fun l => l) [t] [r2] no_gen None = Ret b /\ bb_dim b = 0 /\ forward 1 r_name r_size b [] = Raise.
Proof. exact empty_holds. Qed.
Print Assumptions C39_empty_basis_refuted.
