(** Property C25: constructors that remember their results. *)
From Coq Require Import Reals ZArith Bool List String Lia Lra.
From Verif Require Import LibRes LibMat RepModel SpecRepr RepThms CacheModel SpecCache CacheProofs CacheThms.
Import ListNotations.
Open Scope string_scope.

(** ** C25. Full statement: every answer is the one its own arguments call for.
    It is false (see the refutations); it holds for the histories in which
    requests sharing a table and a name call for the same result. *)
Theorem C25_histories : forall SID IID Psi Reps Rep str_sid str_iid psi_name sid_eqb norm trivial_id irreducible psi_id
    trivial make_regular make_induced make_spectral,
  (forall x y, sid_eqb x y = true -> x = y) ->
  forall (qs : list (@request SID IID Psi Reps)) q,
  (forall p p', In p (q :: qs) -> In p' (q :: qs) ->
     @compatible SID IID Psi Reps Rep str_sid str_iid psi_name norm trivial_id irreducible psi_id trivial make_regular make_induced make_spectral p p') ->
  fst (serve str_sid str_iid psi_name sid_eqb norm trivial_id irreducible psi_id trivial make_regular make_induced make_spectral q
        (after str_sid str_iid psi_name sid_eqb norm trivial_id irreducible psi_id trivial make_regular make_induced make_spectral qs)) =
  wanted str_sid str_iid psi_name norm trivial_id irreducible psi_id trivial make_regular make_induced make_spectral q.
Proof. exact @history_ok. Qed.
Print Assumptions C25_histories.

(** Requests that leave the optional arguments out are always answered correctly. *)
Theorem C25_default_names : forall SID IID Psi Reps Rep str_sid str_iid psi_name sid_eqb norm trivial_id irreducible psi_id
    trivial make_regular make_induced make_spectral,
  (forall x y, sid_eqb x y = true -> x = y) ->
  forall irrep_of : SID -> Psi -> Prop, plain str_sid -> plain str_iid ->
  (forall s p p', irrep_of s p -> irrep_of s p' -> psi_name p = psi_name p' -> p = p') ->
  (forall s p p', irrep_of s p -> irrep_of s p' -> psi_id p = psi_id p' -> p = p') ->
  forall (qs : list (@request SID IID Psi Reps)) q, Forall (good_request norm irrep_of) (q :: qs) ->
  fst (serve str_sid str_iid psi_name sid_eqb norm trivial_id irreducible psi_id trivial make_regular make_induced make_spectral q
        (after str_sid str_iid psi_name sid_eqb norm trivial_id irreducible psi_id trivial make_regular make_induced make_spectral qs)) =
  @wanted SID IID Psi Reps Rep str_sid str_iid psi_name norm trivial_id irreducible psi_id trivial make_regular make_induced make_spectral q.
Proof. exact @default_ok. Qed.
Print Assumptions C25_default_names.

Example C25_plain_ex : plain tally.
Proof. exact tally_plain. Qed.

(** A history with all kinds of requests *)
Example C25_default_ex : Forall (good_request (fun s : nat => s) (fun _ _ : nat => True))
  [@Quotient nat nat nat nat 1%nat None None; Induced 1%nat 2%nat None None; @Regular nat nat nat nat; SpecRegular [0; 1]%nat None;
   SpecQuotient 3%nat [0%nat] None; OfHomSpace 3%nat 0%nat [0%nat] None].
Proof. repeat constructor. Qed.

(** Two requests with the same name: the second gets the result of the first.
    This covers explicit names and the arguments that do not enter the default
    name, such as the `representatives` of quotient_representation. *)
Theorem C25_first_wins_refuted : forall SID IID Psi Reps Rep str_sid str_iid psi_name sid_eqb norm trivial_id irreducible psi_id
    trivial make_regular make_induced make_spectral,
  (forall x y, sid_eqb x y = true -> x = y) ->
  forall (p q : @request SID IID Psi Reps) (r : option Rep), of_group p -> of_group q ->
  name_of str_sid str_iid psi_name norm psi_id p = name_of str_sid str_iid psi_name norm psi_id q ->
  wanted str_sid str_iid psi_name norm trivial_id irreducible psi_id trivial make_regular make_induced make_spectral p = Ret r ->
  (forall sid psi reps name, q = Induced sid psi reps name -> irreducible psi = true) ->
  fst (serve str_sid str_iid psi_name sid_eqb norm trivial_id irreducible psi_id trivial make_regular make_induced make_spectral q
        (after str_sid str_iid psi_name sid_eqb norm trivial_id irreducible psi_id trivial make_regular make_induced make_spectral [p])) = Ret r.
Proof. exact @first_wins. Qed.
Print Assumptions C25_first_wins_refuted.

Example C25_representatives_ex : forall psi,
  @name_of nat nat nat (list nat) tally tally psi (fun s => s) (fun i => i) (Quotient 1 (Some [0; 1]) None)%nat =
  name_of tally tally psi (fun s => s) (fun i => i) (Quotient 1 (Some [1; 0]) None)%nat.
Proof. reflexivity. Qed.

(** The bases handed out by a GSpace, as long as the names in use identify the
    representations. *)
Theorem C25_fiber_bases : forall Rep Basis rname ours (on_point : Rep -> Rep -> res Basis) h i o,
  identified rname (i :: o :: flat_map (fun q => [fst q; snd q]) h) -> ours i = true -> ours o = true ->
  fst (fiber_basis rname ours on_point i o (after_fiber rname ours on_point h)) = on_point i o.
Proof. exact @fiber_ok. Qed.
Print Assumptions C25_fiber_bases.

Theorem C25_kernel_bases : forall Rep Basis Arg rname ours (arg_eqb : Arg -> Arg -> bool)
    (generator : Rep -> Rep -> list R -> list R -> list (string * Arg) -> res Basis),
  (forall x y, arg_eqb x y = true -> x = y) ->
  forall h i o p, identified rname (i :: o :: flat_map (fun q => [fst (fst q); snd (fst q)]) h) ->
  ours i = true -> ours o = true ->
  Forall (fun s => 0 < s)%R (sigmas p) -> List.length (sigmas p) = List.length (k_rings p) ->
  fst (kernel_basis rname ours arg_eqb generator i o p (after_kernels rname ours arg_eqb generator h)) =
    generator i o (k_rings p) (sigmas p) (k_args p).
Proof. exact @kernels_ok. Qed.
Print Assumptions C25_kernel_bases.

Example C25_kernels_ex : identified tally [0; 1; 0; 2]%nat /\
  let p := {| k_sigma := inl 1%R; k_rings := [0; 1]%R; k_args := @nil (string * nat) |} in
  Forall (fun s => 0 < s)%R (sigmas p) /\ List.length (sigmas p) = List.length (k_rings p).
Proof.
  split; [|split; [repeat constructor; lra|reflexivity]].
  intros r r' _ _ H; apply (proj1 tally_plain); exact H.
Qed.

(** Names given by the library itself need not identify representations: the
    restrictions of one irrep of D_2 to its two reflections are both called
    "D2:irrep_0,1". The second request gets a matrix that does not intertwine. *)
Theorem C25_restricted_refuted : forall linv on_point, correct_inverse linv ->
  let n := restricted_name "D2" "irrep_0,1" in
  forall r0 B, d2_flip linv 0 = Ret r0 ->
    on_point ("irrep_0", c2_trivial) (n, r0) = Ret B -> kernel_basis_of c2_member c2_trivial r0 B ->
  exists r1, d2_flip linv 1 = Ret r1 /\
    fst (fiber_basis fst (fun _ => true) on_point ("irrep_0", c2_trivial) (n, r1)
      (after_fiber fst (fun _ => true) on_point [(("irrep_0", c2_trivial), (n, r0))])) = Ret B /\
    ~ kernel_basis_of c2_member c2_trivial r1 B.
Proof. exact clash. Qed.
Print Assumptions C25_restricted_refuted.

Example C25_restricted_ex : exists linv r0, correct_inverse linv /\ d2_flip linv 0 = Ret r0 /\
  kernel_basis_of c2_member c2_trivial r0 [mid].
Proof.
  destruct inverse_exists as (linv & H); exists linv; destruct (clash_ex linv H) as (r0 & E & K); exists r0; auto.
Qed.
