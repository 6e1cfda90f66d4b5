(** C51: the messages of a point convolution, computed in either order. *)
From Coq Require Import String Ascii.
From Coq Require Import List ZArith Arith Bool Reals Permutation.
From Verif Require Import LibRes LibMat FieldModel BlocksModel SpecBlocks SamplerModel SpecSampler BlocksEx SamplerCor SamplerEx.
Import ListNotations.
Local Open Scope nat_scope.

(** What a BlocksBasisSampler computes, for all lists of representations told
    apart by names without dots, all kernel bases and filters: it is constructed;
    its weights are described as those of a BlocksBasisExpansion (C39); its filter
    is the sum of the described elements. Messages need weights and features that
    fit. With `conv_first=False` row r of the message is row r of the filter
    applied to group r / (m / groups) of the features. With `conv_first=True` the
    messages are computed exactly when `groups` divides the number of output
    fields of every connected name, and, unless there is a single kind of input
    and of output fields, no connected pair of names takes up consecutive channels
    on both sides; then the j-th of the k output fields with a name is given group
    j / (k / groups). *)
Theorem C51_messages : forall {A X P} (name : A -> string) (size nirreps : A -> nat) aeqb order sort (generator : A -> A -> res (option (kbasis X P))) bf ins outs,
  (forall a b, aeqb a b = true <-> a = b) -> (forall l, Permutation (order l) l) -> (forall l, Permutation (sort l) l) ->
  (forall a, In a ins -> dotless (name a)) -> (forall a, In a outs -> dotless (name a)) ->
  (forall a b, In a ins -> In b ins -> name a = name b -> a = b) -> (forall a b, In a outs -> In b outs -> name a = name b -> a = b) ->
  Forall (fun r => 0 < size r) ins -> Forall (fun r => 0 < size r) outs ->
  (forall i o, In i ins -> In o outs -> exists k, generator i o = Ret k /\ forall kb, k = Some kb -> kb_out kb = size o /\ kb_in kb = size i) ->
  let elements := scaled_elements generator bf in
  let n := type_size size ins in
  let m := type_size size outs in
  let single := one_kind ins /\ one_kind outs in
  exists s infos,
  let fits := fitting (bb_dim (sm_blocks s)) n m in
  let drawn := drawn size elements ins outs infos in
  mk_sampler name size aeqb order sort ins outs generator bf = Ret s /\
  basis_info plain name nirreps (sm_blocks s) = Ret infos /\ List.length infos = bb_dim (sm_blocks s) /\
  (forall k f, nth_error infos k = Some f ->
     describes name nirreps elements ins outs k f /\ element_info plain name nirreps (sm_blocks s) (Z.of_nat k) = Ret f) /\
  (forall z, (z < 0 \/ Z.of_nat (bb_dim (sm_blocks s)) <= z)%Z -> element_info plain name nirreps (sm_blocks s) z = Raise) /\
  NoDup (map slot infos) /\
  (forall o i j ro ri, nth_error outs o = Some ro -> nth_error ins i = Some ri -> j < List.length (elements ri ro) -> In (o, i, j) (map slot infos)) /\
  (forall w, List.length w = List.length infos -> (single -> infos <> []) -> exists F, sampler_filter name size s w = Ret F /\
     forall r c pt, r < m -> c < n -> F r c pt = drawn w pt r c) /\
  (forall w x pt cf groups msg, compute_messages name size s w x pt cf groups = Ret msg -> fits w x groups /\ (single -> infos <> []) /\ List.length msg = m) /\
  (forall w x pt groups, fits w x groups -> (single -> infos <> []) ->
     compute_messages name size s w x pt false groups = Ret (map (fun r => row_message n (drawn w pt) x r (r / (m / groups))) (seq 0 m))) /\
  (forall w x pt groups, fits w x groups -> (single -> infos <> []) ->
     (exists msg, compute_messages name size s w x pt true groups = Ret msg) <->
     forall i o, In i ins -> In o outs -> elements i o <> [] -> carrying name outs (name o) mod groups = 0 /\
       (single \/ groups = 1 \/ ~ (one_run name size ins (name i) /\ one_run name size outs (name o)))) /\
  (forall w x pt groups msg, compute_messages name size s w x pt true groups = Ret msg ->
     forall o ro r, nth_error outs o = Some ro -> field_start size outs o <= r < field_start size outs o + size ro ->
       nth r msg 0%R = row_message n (drawn w pt) x r (earlier name outs o (name ro) / (carrying name outs (name ro) / groups))).
Proof. intros A X P. exact messages_ok. Qed.
Print Assumptions C51_messages.

(** C51 for the output types a point convolution uses: `groups` copies of one
    list of fields. What `conv_first=True` computes, `conv_first=False` computes too. *)
Theorem C51_same_messages : forall {A X P} (name : A -> string) (size nirreps : A -> nat) aeqb order sort (generator : A -> A -> res (option (kbasis X P))) bf ins outs,
  (forall a b, aeqb a b = true <-> a = b) -> (forall l, Permutation (order l) l) -> (forall l, Permutation (sort l) l) ->
  (forall a, In a ins -> dotless (name a)) -> (forall a, In a outs -> dotless (name a)) ->
  (forall a b, In a ins -> In b ins -> name a = name b -> a = b) -> (forall a b, In a outs -> In b outs -> name a = name b -> a = b) ->
  Forall (fun r => 0 < size r) ins -> Forall (fun r => 0 < size r) outs ->
  (forall i o, In i ins -> In o outs -> exists k, generator i o = Ret k /\ forall kb, k = Some kb -> kb_out kb = size o /\ kb_in kb = size i) ->
  forall s period groups w x pt msg, mk_sampler name size aeqb order sort ins outs generator bf = Ret s -> outs = copies groups period ->
  compute_messages name size s w x pt true groups = Ret msg -> compute_messages name size s w x pt false groups = Ret msg.
Proof. intros A X P. exact orders_agree. Qed.
Print Assumptions C51_same_messages.

(** Two groups of t + r + t to two copies of r + t, ten weights. *)
Example C51_same_messages_ex : exists s, build ins outs2 = Ret s /\ bb_dim (sm_blocks s) = 10 /\
  forall w x pt, List.length w = 10 -> List.length x = 8 -> exists msg, compute_messages r_name r_size s w x pt true 2 = Ret msg /\ compute_messages r_name r_size s w x pt false 2 = Ret msg.
Proof. exact grouped_holds. Qed.

(** C51 without groups: the two orders agree and raise on the same inputs. *)
Theorem C51_one_group : forall {A X P} (name : A -> string) (size nirreps : A -> nat) aeqb order sort (generator : A -> A -> res (option (kbasis X P))) bf ins outs,
  (forall a b, aeqb a b = true <-> a = b) -> (forall l, Permutation (order l) l) -> (forall l, Permutation (sort l) l) ->
  (forall a, In a ins -> dotless (name a)) -> (forall a, In a outs -> dotless (name a)) ->
  (forall a b, In a ins -> In b ins -> name a = name b -> a = b) -> (forall a b, In a outs -> In b outs -> name a = name b -> a = b) ->
  Forall (fun r => 0 < size r) ins -> Forall (fun r => 0 < size r) outs ->
  (forall i o, In i ins -> In o outs -> exists k, generator i o = Ret k /\ forall kb, k = Some kb -> kb_out kb = size o /\ kb_in kb = size i) ->
  forall s w x pt, mk_sampler name size aeqb order sort ins outs generator bf = Ret s ->
  compute_messages name size s w x pt true 1 = compute_messages name size s w x pt false 1.
Proof. intros A X P. exact orders_agree_one. Qed.
Print Assumptions C51_one_group.

(** C51 for any other output type fails: with two groups, t + u + t + u each, and
    output t + t + u + u both orders answer, and differ. *)
Theorem C51_any_type_refuted : exists s m1 m2, mk_sampler r_name r_size rep_eqb (fun l => l) (fun l => l) [t; u; t; u] [t; t; u; u] ugen None = Ret s /\
  compute_messages r_name r_size s (repeat 1%R 16) (repeat 1%R 4 ++ repeat 0%R 4) 1%R true 2 = Ret m1 /\
  compute_messages r_name r_size s (repeat 1%R 16) (repeat 1%R 4 ++ repeat 0%R 4) 1%R false 2 = Ret m2 /\
  nth 1 m1 0%R = 0%R /\ nth 1 m2 0%R = 4%R.
Proof. exact unordered_differ. Qed.
Print Assumptions C51_any_type_refuted.

(** Even for copies of one list the default order can raise where the other does
    not: two groups of t + r, output t + t. The channels of the pair (t, t) are
    consecutive, and the block of both groups is added to the slice of one. *)
Theorem C51_consecutive_raises : exists s, build [t; r2] [t; t] = Ret s /\ [t; t] = copies 2 [t] /\ bb_dim (sm_blocks s) = 4 /\
  forall w x pt, List.length w = 4 -> List.length x = 6 -> compute_messages r_name r_size s w x pt true 2 = Raise /\ exists msg, compute_messages r_name r_size s w x pt false 2 = Ret msg.
Proof. exact contiguous_raises. Qed.
Print Assumptions C51_consecutive_raises.

(** A representation whose name has a dot is refused. *)
Theorem C51_dotted_name_raises : mk_sampler r_name r_size rep_eqb (fun l => l) (fun l => l) [dotted] [t] ugen None = Raise.
Proof. exact dotted_raises. Qed.
Print Assumptions C51_dotted_name_raises.
