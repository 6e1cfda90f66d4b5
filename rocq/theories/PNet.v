(** Networks: modules in sequence and in parallel. *)
From Coq Require Import String Ascii.
From Coq Require Import Reals ZArith Lia Lra Bool List Arith Permutation Sorted.
From Verif Require Import LibRes LibPy LibMat LibMatS FieldModel SpecField RepModel GridModel SpecGrid ImageModel SpecImage SpecBlocks ImageEx RdConvModel FieldMapModel SeqModel NetModel SpecNet NetProofs NetThms NetMult NetPar NetRef NetEx.
Import ListNotations.
Open Scope R_scope.

(** A sequence of equivariant modules is equivariant. *)
Theorem C83_sequential : forall (A T : Type) (rep : A -> repr T) (half : R -> R) (affine : array R -> mat -> nat -> res (array R)) (base : T -> res (nat * mat)) (g : T),
  half 0 = 0 ->
  half 1 = 1 ->
  half (-1) = -1 ->
  forall (n : nat) (M : mat),
  base g = Ret (n, M) ->
  signed_perm n M ->
  forall (Mod : Type) (run : Mod -> tensor A -> res (tensor A)) (teqb : list A -> list A -> bool) (s : seq_state Mod (list A)),
  (forall m : Mod, In m (map snd (s_mods s)) -> steady rep n (run m)) ->
  forall x : tensor A,
  shaped rep n x ->
  defined_at rep g (fst x) ->
  throughout run (fun (m : Mod) (u : tensor A) => shaped rep n u /\ defined_at rep g (fst u) /\ commutes rep half affine base g (run m) u) (map snd (s_mods s)) x ->
  commutes rep half affine base g (forward run fst teqb s) x.
Proof. exact @sequential_ok. Qed.
Print Assumptions C83_sequential.

(** and sees nothing but types and entries if its modules do. *)
Theorem C83_sequential_steady : forall (A T : Type) (rep : A -> repr T) (n : nat) (Mod : Type) (run : Mod -> tensor A -> res (tensor A)) (teqb : list A -> list A -> bool) (s : seq_state Mod (list A)),
  (forall m : Mod, In m (map snd (s_mods s)) -> steady rep n (run m) /\ (forall x y : tensor A, run m x = Ret y -> shaped rep n x -> shaped rep n y)) ->
  steady rep n (forward run fst teqb s).
Proof. exact @sequential_steady. Qed.
Print Assumptions C83_sequential_steady.

(** Sums, differences and multiples of tensors. *)
Theorem C83_sum : forall (A T : Type) (rep : A -> repr T) (half : R -> R) (affine : array R -> mat -> nat -> res (array R)) (base : T -> res (nat * mat)) (g : T),
  half 0 = 0 ->
  half 1 = 1 ->
  half (-1) = -1 ->
  forall (n : nat) (M : mat),
  base g = Ret (n, M) ->
  signed_perm n M ->
  forall teqb : list A -> list A -> bool,
  (forall a b : list A, teqb a b = true <-> a = b) ->
  forall x y : tensor A,
  shaped rep n x ->
  defined_at rep g (fst x) ->
  (forall z : tensor A,
  t_add teqb x y = Ret z ->
  exists x' y' z' w : tensor A,
  moved_by rep half affine base g x = Ret x' /\
  moved_by rep half affine base g y = Ret y' /\ t_add teqb x' y' = Ret z' /\ moved_by rep half affine base g z = Ret w /\ same_tensor z' w) /\
  (forall z : tensor A,
  t_sub teqb x y = Ret z ->
  exists x' y' z' w : tensor A,
  moved_by rep half affine base g x = Ret x' /\
  moved_by rep half affine base g y = Ret y' /\ t_sub teqb x' y' = Ret z' /\ moved_by rep half affine base g z = Ret w /\ same_tensor z' w) /\
  (forall c : R, exists x' w : tensor A, moved_by rep half affine base g x = Ret x' /\ moved_by rep half affine base g (t_scale c x) = Ret w /\ same_tensor (t_scale c x') w).
Proof. exact @sum_ok. Qed.
Print Assumptions C83_sum.

(** Direct sums of tensors. *)
Theorem C83_directsum : forall (A T : Type) (rep : A -> repr T) (half : R -> R) (affine : array R -> mat -> nat -> res (array R)) (base : T -> res (nat * mat)) (g : T),
  half 0 = 0 ->
  half 1 = 1 ->
  half (-1) = -1 ->
  forall (n : nat) (M : mat),
  base g = Ret (n, M) ->
  signed_perm n M ->
  forall (ts : list (tensor A)) (y : tensor A),
  Forall (shaped rep n) ts ->
  Forall (fun x : list A * array R => defined_at rep g (fst x)) ts ->
  t_directsum (asize rep) ts = Ret y ->
  joins rep ts y /\
  (exists (ts' : list (tensor A)) (y' z : tensor A),
  mapM (moved_by rep half affine base g) ts = Ret ts' /\ t_directsum (asize rep) ts' = Ret y' /\ moved_by rep half affine base g y = Ret z /\ same_tensor y' z).
Proof. exact @directsum_ok. Qed.
Print Assumptions C83_directsum.

(** ReshuffleModule. *)
Theorem C83_reshuffle : forall (A T : Type) (rep : A -> repr T) (teqb : list A -> list A -> bool),
  (forall a b : list A, teqb a b = true <-> a = b) ->
  forall (half : R -> R) (affine : array R -> mat -> nat -> res (array R)) (base : T -> res (nat * mat)) (g : T),
  half 0 = 0 ->
  half 1 = 1 ->
  half (-1) = -1 ->
  forall (n : nat) (M : mat),
  base g = Ret (n, M) ->
  signed_perm n M ->
  forall (ft : list A) (perm : list Z) (m : reshuffle),
  ft <> [] ->
  mk_reshuffle (asize rep) ft perm = Ret m ->
  exists sel : list nat,
  perm = map Z.of_nat sel /\
  (forall i : nat, In i sel <-> (i < Datatypes.length ft)%nat) /\
  map (nth_error ft) sel = map Some (rs_out m) /\
  steady rep n (t_reshuffle (asize rep) teqb m) /\
  (forall x : tensor A,
  shaped rep n x ->
  fst x = ft ->
  (exists y : tensor A,
  t_reshuffle (asize rep) teqb m x = Ret y /\
  fst y = rs_out m /\
  (forall (i s : nat) (a : A) (o b : nat) (p : list nat),
  nth_error sel i = Some s ->
  nth_error ft s = Some a ->
  (o < asize rep a)%nat -> entry (snd y) (b :: (field_start (asize rep) (rs_out m) i + o)%nat :: p) = entry (snd x) (b :: (field_start (asize rep) ft s + o)%nat :: p))) /\
  (defined_at rep g ft -> commutes rep half affine base g (t_reshuffle (asize rep) teqb m) x)).
Proof. exact @reshuffle_ok. Qed.
Print Assumptions C83_reshuffle.

(** MultipleModule commutes with the group when its modules do, *)
Theorem C83_multiple : forall (A T : Type) (rep : A -> repr T) (teqb : list A -> list A -> bool),
  (forall a b : list A, teqb a b = true <-> a = b) ->
  forall lleb : string -> string -> bool,
  (forall a : string, lleb a a = true) ->
  (forall a b : string, lleb a b = true \/ lleb b a = true) ->
  (forall a b c : string, lleb a b = true -> lleb b c = true -> lleb a c = true) ->
  (forall a b : string, lleb a b = true -> lleb b a = true -> a = b) ->
  forall (ft : list A) (labels : list string) (mods : list (netmod A * labarg)) (r : nat) (mu : multiple A) (mods' : list (netmod A * labarg)),
  ft <> [] ->
  Forall (fun a : A => (0 < asize rep a)%nat) ft ->
  mk_multiple (asize rep) teqb lleb ft labels mods r = Ret (mu, mods') ->
  forall n : nat,
  Forall (fun m : netmod A * labarg => reliable rep n (fst m)) mods ->
  forall (half : R -> R) (affine : array R -> mat -> nat -> res (array R)) (base : T -> res (nat * mat)) (g : T),
  half 0 = 0 ->
  half 1 = 1 ->
  half (-1) = -1 ->
  forall M : mat,
  base g = Ret (n, M) ->
  signed_perm n M ->
  defined_at rep g ft ->
  Forall
  (fun m : netmod A * labarg =>
  defined_at rep g (nm_out (fst m)) /\
  (forall xs : list (tensor A),
  Forall (shaped rep n) xs -> Forall (fun x : list A * array R => defined_at rep g (fst x)) xs -> commutes_all rep half affine base g (nm_run (fst m)) xs)) mods ->
  forall x : tensor A, shaped rep n x -> fst x = ft -> commutes rep half affine base g (multiple_forward (asize rep) teqb mu) x.
Proof. exact @multiple_commutes. Qed.
Print Assumptions C83_multiple.

(** and sees nothing but types and entries. *)
Theorem C83_multiple_steady : forall (A T : Type) (rep : A -> repr T) (teqb : list A -> list A -> bool),
  (forall a b : list A, teqb a b = true <-> a = b) ->
  forall lleb : string -> string -> bool,
  (forall a : string, lleb a a = true) ->
  (forall a b : string, lleb a b = true \/ lleb b a = true) ->
  (forall a b c : string, lleb a b = true -> lleb b c = true -> lleb a c = true) ->
  (forall a b : string, lleb a b = true -> lleb b a = true -> a = b) ->
  forall (ft : list A) (labels : list string) (mods : list (netmod A * labarg)) (r : nat) (mu : multiple A) (mods' : list (netmod A * labarg)),
  ft <> [] ->
  Forall (fun a : A => (0 < asize rep a)%nat) ft ->
  mk_multiple (asize rep) teqb lleb ft labels mods r = Ret (mu, mods') ->
  forall n : nat, Forall (fun m : netmod A * labarg => reliable rep n (fst m)) mods -> steady rep n (multiple_forward (asize rep) teqb mu).
Proof. exact @multiple_steady. Qed.
Print Assumptions C83_multiple_steady.

(** The labels of the fields are those of the modules, no more and no fewer. *)
Theorem C83_labels : forall (A : Type) (size : A -> nat) (teqb : list A -> list A -> bool) (lleb : string -> string -> bool) (ft : list A) (labels : list string)
  (mods : list (netmod A * labarg)) (r : nat) (mu : multiple A) (mods' : list (netmod A * labarg)),
  mk_multiple size teqb lleb ft labels mods r = Ret (mu, mods') ->
  forall l : string, In l labels <-> (exists m : netmod A * labarg, In m mods /\ match snd m with LStr l' => l = l' | LList ls => In l ls end).
Proof. exact @labels_used. Qed.
Print Assumptions C83_labels.

(** The value: every module is run on the fields with its labels, and the results follow each other; it runs if the sizes agree. *)
Theorem C83_multiple_value : forall (A T : Type) (rep : A -> repr T) (teqb : list A -> list A -> bool),
  (forall a b : list A, teqb a b = true <-> a = b) ->
  forall lleb : string -> string -> bool,
  (forall a : string, lleb a a = true) ->
  (forall a b : string, lleb a b = true \/ lleb b a = true) ->
  (forall a b c : string, lleb a b = true -> lleb b c = true -> lleb a c = true) ->
  (forall a b : string, lleb a b = true -> lleb b a = true -> a = b) ->
  forall (ft : list A) (labels : list string) (mods : list (netmod A * labarg)) (r : nat) (mu : multiple A) (mods' : list (netmod A * labarg)),
  ft <> [] ->
  Forall (fun a : A => (0 < asize rep a)%nat) ft ->
  mk_multiple (asize rep) teqb lleb ft labels mods r = Ret (mu, mods') ->
  forall n : nat,
  Forall (fun m : netmod A * labarg => reliable rep n (fst m)) mods ->
  exists sel : string -> list nat,
  (forall l : string,
  In l labels ->
  Permutation (sel l) (labelled String.eqb labels l) /\
  ((r <= 1)%nat -> sel l = labelled String.eqb labels l) /\
  (r = 2%nat -> StronglySorted (fun i j : nat => (LabelThms.size_at (asize rep) ft i <= LabelThms.size_at (asize rep) ft j)%nat) (sel l))) /\
  (forall x : tensor A,
  shaped rep n x ->
  fst x = ft ->
  exists subs : string -> tensor A,
  (forall l : string, In l labels -> chooses rep (sel l) x (subs l)) /\
  (forall y : tensor A,
  multiple_forward (asize rep) teqb mu x = Ret y ->
  exists parts : list (tensor A), Forall2 (fun (m : netmod A * labarg) (p : tensor A) => nm_run (fst m) (map subs (labs (snd m))) = Ret p) mods parts /\ joins rep parts y) /\
  (forall (parts : list (tensor A)) (B : nat) (ws : list nat),
  smem "self" labels = false ->
  Forall2 (fun (m : netmod A * labarg) (p : tensor A) => nm_run (fst m) (map subs (labs (snd m))) = Ret p /\ shape (snd p) = B :: type_size (asize rep) (nm_out (fst m)) :: ws)
  mods parts -> exists y : tensor A, multiple_forward (asize rep) teqb mu x = Ret y)).
Proof. exact @multiple_value. Qed.
Print Assumptions C83_multiple_value.

(** It changes the list it is given, which cannot be used again. *)
Theorem C83_caller_refuted : forall (A : Type) (size : A -> nat) (teqb : list A -> list A -> bool) (lleb : string -> string -> bool) (ft : list A) (labels : list string) (mods : list (netmod A * labarg))
  (r : nat) (mu : multiple A) (mods' : list (netmod A * labarg)),
  mk_multiple size teqb lleb ft labels mods r = Ret (mu, mods') -> (exists (m : netmod A) (l : string), In (m, LStr l) mods) -> mk_multiple size teqb lleb ft labels mods' r = Raise.
Proof. exact @rebuilt_raises. Qed.
Print Assumptions C83_caller_refuted.

(** Other arguments it refuses: the list of one label, a label with a dot; with a label `self` nothing passes. *)
Theorem C83_one_label_refuted : forall (A : Type) (size : A -> nat) (teqb : list A -> list A -> bool) (lleb : string -> string -> bool) (ft : list A) (labels : list string) (mods : list (netmod A * labarg))
  (r : nat) (m : netmod A) (t : list A) (l : string) (ls : list string), In (m, LList (l :: ls)) mods -> nm_in m = One t -> mk_multiple size teqb lleb ft labels mods r = Raise.
Proof. exact @one_label_raises. Qed.
Print Assumptions C83_one_label_refuted.
Theorem C83_dotted_label_refuted : forall (A : Type) (size : A -> nat) (teqb : list A -> list A -> bool) (lleb : string -> string -> bool) (ft : list A) (labels : list string) (mods : list (netmod A * labarg))
  (r : nat) (l : string), In l labels -> has_dot l = true -> mk_multiple size teqb lleb ft labels mods r = Raise.
Proof. exact @dotted_label_raises. Qed.
Print Assumptions C83_dotted_label_refuted.
Theorem C83_self_label_refuted : forall (A : Type) (size : A -> nat) (teqb : list A -> list A -> bool) (lleb : string -> string -> bool) (ft : list A) (labels : list string) (mods : list (netmod A * labarg))
  (r : nat) (mu : multiple A) (mods' : list (netmod A * labarg)),
  mk_multiple size teqb lleb ft labels mods r = Ret (mu, mods') -> In "self"%string labels -> forall x : tensor A, multiple_forward size teqb mu x = Raise.
Proof. exact @self_label_raises. Qed.
Print Assumptions C83_self_label_refuted.

(** The scalars doubled and the vector tripled, on a picture of 3 x 5 pixels, and a quarter turn. *)
Example C83_ex : exists mu mods', mk_multiple (asize turned) same_types string_leb three tags parallel 1 = Ret (mu, mods') /\ mu_out mu = [true; false; false] /\
  (exists m l, In (m, LStr l) parallel) /\ mk_multiple (asize turned) same_types string_leb three tags mods' 1 = Raise /\
  shaped turned 2 picture /\ (exists y, multiple_forward (asize turned) same_types mu picture = Ret y) /\
  forall half affine, half 0 = 0 -> half 1 = 1 -> half (-1) = -1 -> commutes turned half affine plane tt (multiple_forward (asize turned) same_types mu) picture.
Proof.
  destruct parallel_built as (mu & mods' & E & Eo & _). exists mu, mods'. split; [exact E|]. split; [exact Eo|]. split; [eexists; eexists; left; reflexivity|].
  split; [refine (C83_caller_refuted _ _ _ _ _ _ _ _ _ _ E _); eexists; eexists; left; reflexivity|]. destruct picture_ok as (P1 & P2 & P3 & P4 & P5). split; [exact P1|]. split; [exact (parallel_runs mu mods' E)|].
  intros half affine H0 H1 Hm. destruct string_order as (O1 & O2 & O3 & O4). destruct parallel_ok as (R1 & R2).
  eapply (@C83_multiple bool unit); try eassumption; [exact same_types_ok|reflexivity|exact quarter_signed|exact (R2 half affine H0 H1 Hm)].
Qed.
