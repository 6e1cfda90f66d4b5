(** C82: modules that restrict a field type to a subgroup and that disentangle its representations. *)
From Coq Require Import String Ascii.
From Coq Require Import Reals ZArith Bool List.
From Verif Require Import LibRes LibMat FieldModel SpecFNorm SpecBlocks FinGroupModel PlanarModel SpecPlanar IrrepModel RepModel SpecRepr SpecDis DisModel DisEx IndThms GridModel SpecGrid ImageModel RdConvModel RdConvEx
  GSpaceModel SpecGSpace FieldMapModel SpecFieldMap FieldMapThms FieldMapEx.
Import ListNotations.
Open Scope R_scope.

(** FieldType.restrict returns a type with fields of the same sizes, and RestrictionModule is
    equivariant for the subgroup: to transform an image by an element of the larger group and
    restrict it is to restrict it and transform it by the element of the subgroup, also where
    images are interpolated. *)
Theorem C82_restriction : forall (A : Type) (rep : A -> repr pval) (name : A -> string) (teqb : list A -> list A -> bool) (ft uniq : list A),
  listing ft uniq ->
  named_apart name ft ->
  ft <> [] ->
  teqb ft ft = true ->
  forall (linv : nat -> mat -> res mat) (sid : psgid) (s : gspace2) (id : sub_id),
  correct_inverse linv ->
  pdocumented O2 sid ->
  clear_axis sid ->
  mk_gspace2 linv sid = Ret s ->
  listed (gs_group s) id ->
  (forall b : R, joint_axis sid id b -> b <= 2 * PI /\ (b = 0 \/ / 10000000 <= b)) ->
  Forall
  (fun a : A =>
  planar_repr (gs_group s) (rep a) /\
  (forall parts : list (sqmat * list (list Z)),
  mapM (any_restrict_irrep (gs_group s) id) (r_irreps (rep a)) = Ret parts -> sharp (r_size (rep a)) (mmul (r_size (rep a)) (r_cob (rep a)) (bdiag (map fst parts))))) ft ->
  exists (sg : psubgroup) (s' : gspace2) (outs : list (repr pval)),
  any_subgroup (gs_group s) id = Ret sg /\
  type_restrict rep name linv s uniq ft id = Ret (s', outs) /\
  gs_group s' = ps_group sg /\
  map r_size outs = map (fun a : A => r_size (rep a)) ft /\
  (forall h : pval,
  pmember (ps_group sg) h ->
  exists g : pval,
  ps_incl sg h = Ret g /\
  pmember (gs_group s) g /\
  (forall (half : R -> R) (affine : array R -> mat -> nat -> res (array R)) (x : array R),
  reads_entries affine ->
  same_result (x' <- field_transform rep half affine (r_fun (gs_base s)) ft g x;; restriction_forward teqb ft ft x')
  (y <- restriction_forward teqb ft ft x;; field_transform (fun r : repr pval => r) half affine (r_fun (gs_base s')) outs h y))).
Proof. exact @restriction_ok. Qed.
Print Assumptions C82_restriction.

(** Fields of C_4 restricted to C_2. *)
Example C82_restriction_ex : (forall linv, correct_inverse linv -> exists s s' outs, mk_gspace2 linv (IO2 None 4) = Ret s /\
  type_restrict field label linv s [true; false] [false; true; false] (IdF (IdC 2)) = Ret (s', outs) /\ gs_group s' = Fin (Cyc 2) /\ map r_size outs = [1; 2; 1]%nat) /\
  listed (Fin (Cyc 4)) (IdF (IdC 2)) /\ reads_entries unmoved.
Proof. exact (conj halves_restricted (conj (proj1 halves) unmoved_reads)). Qed.

(** The module multiplies every field by the permutation matrix of its representation; its
    output type lists the pieces of all fields in order. *)
Theorem C82_disentangled : forall (A T : Type) (irr : list Z -> res (girrep T)) (mem : T -> Prop) (op : T -> T -> res T) (e : T) (linv : nat -> mat -> res mat)
  (components : nat -> (nat -> nat -> bool) -> nat * (nat -> nat)),
  correct_inverse linv ->
  correct_components components ->
  forall (rep : A -> repr T) (name : A -> string) (teqb : list A -> list A -> bool) (ft uniq : list A),
  listing ft uniq ->
  named_apart name ft ->
  Forall (fun a : A => proper irr mem op e (rep a) /\ clear_cut (r_size (rep a)) (r_cob (rep a))) ft ->
  ft <> [] ->
  teqb ft ft = true ->
  (forall a : A, In a ft -> ~ dotted (name a)) ->
  exists (m : dis_module) (Ps : A -> mat) (pieces : A -> list (repr T)),
  (forall a : A, In a ft -> disentangle irr linv components (rep a) = Ret (Ps a, pieces a)) /\
  mk_dis rep name (disentangle irr linv components) uniq ft = Ret m /\
  dm_out m = concat (map pieces ft) /\
  (forall (junk : list chan) (x y : array R),
  Datatypes.length junk = type_size (rsize rep) ft ->
  dis_forward rep name teqb m junk ft x = Ret y ->
  shape y = shape x /\
  (forall (i : nat) (a : A) (o bt : nat) (p : list nat),
  nth_error ft i = Some a ->
  (o < r_size (rep a))%nat ->
  entry y (bt :: (field_start (rsize rep) ft i + o)%nat :: p) = sumn (r_size (rep a)) (fun j : nat => Ps a o j * entry x (bt :: (field_start (rsize rep) ft i + j)%nat :: p)))).
Proof. exact @disentangled. Qed.
Print Assumptions C82_disentangled.

(** It is equivariant for every transform of images that permutes the pixels. *)
Theorem C82_disentangle : forall (A T : Type) (irr : list Z -> res (girrep T)) (mem : T -> Prop) (op : T -> T -> res T) (e : T) (linv : nat -> mat -> res mat)
  (components : nat -> (nat -> nat -> bool) -> nat * (nat -> nat)),
  correct_inverse linv ->
  correct_components components ->
  forall (rep : A -> repr T) (name : A -> string) (teqb : list A -> list A -> bool) (ft uniq : list A),
  listing ft uniq ->
  named_apart name ft ->
  Forall (fun a : A => proper irr mem op e (rep a) /\ clear_cut (r_size (rep a)) (r_cob (rep a))) ft ->
  ft <> [] ->
  teqb ft ft = true ->
  (forall a : A, In a ft -> ~ dotted (name a)) ->
  exists m : dis_module,
  mk_dis rep name (disentangle irr linv components) uniq ft = Ret m /\
  dm_in m = ft /\
  type_size r_size (dm_out m) = type_size (rsize rep) ft /\
  Forall (proper irr mem op e) (dm_out m) /\
  (forall junk : list chan,
  Datatypes.length junk = type_size (rsize rep) ft ->
  (forall x : array R, exists y : array R, dis_forward rep name teqb m junk ft x = Ret y /\ shape y = shape x) /\
  (forall half : R -> R,
  half 0 = 0 ->
  half 1 = 1 ->
  half (-1) = -1 ->
  forall (affine : array R -> mat -> nat -> res (array R)) (base : T -> res (nat * mat)) (g : T) (n : nat) (M : mat),
  mem g ->
  base g = Ret (n, M) ->
  signed_perm n M ->
  forall (x y : array R) (B : nat) (ws : list nat),
  shape x = B :: type_size (rsize rep) ft :: ws ->
  Datatypes.length ws = n ->
  dis_forward rep name teqb m junk ft x = Ret y ->
  exists x' y' z : array R,
  field_transform rep half affine base ft g x = Ret x' /\
  dis_forward rep name teqb m junk ft x' = Ret y' /\ field_transform (fun r : repr T => r) half affine base (dm_out m) g y = Ret z /\ same_array y' z)).
Proof. exact @dis_equivariant. Qed.
Print Assumptions C82_disentangle.

Example C82_disentangle_ex : Forall (fun _ : unit => proper toy_irrG (fun _ => True) toy_op false (toy_repr swap2 swap2) /\ clear_cut 2 swap2) [tt; tt] /\ listing [tt; tt] [tt] /\
  (forall name : unit -> string, named_apart name [tt; tt]) /\ ~ dotted (pair_name tt) /\ dotted (quotient_name tt).
Proof. exact swapped_ok. Qed.

(** It cannot be built for every type: a name with a dot is refused by register_buffer. The
    quotient representations of O(2) have such names, as their ids contain an angle. *)
Theorem C82_dotted : forall (A T : Type) (irr : list Z -> res (girrep T)) (mem : T -> Prop) (op : T -> T -> res T) (e : T) (linv : nat -> mat -> res mat)
  (components : nat -> (nat -> nat -> bool) -> nat * (nat -> nat)),
  correct_inverse linv ->
  correct_components components ->
  forall (rep : A -> repr T) (name : A -> string) (ft uniq : list A),
  listing ft uniq ->
  Forall (fun a : A => proper irr mem op e (rep a) /\ clear_cut (r_size (rep a)) (r_cob (rep a))) ft ->
  (exists a : A, In a ft /\ dotted (name a)) -> mk_dis rep name (disentangle irr linv components) uniq ft = Raise.
Proof. exact @dis_refused. Qed.
Print Assumptions C82_dotted.
Theorem C82_dotted_refuted : forall linv components, correct_inverse linv -> correct_components components ->
  mk_dis (fun _ : unit => toy_repr swap2 swap2) quotient_name (disentangle toy_irrG linv components) [tt] [tt; tt] = Raise.
Proof. exact disentangle_refuted. Qed.
Print Assumptions C82_dotted_refuted.

(** Tensors of another type are refused. *)
Theorem C82_typed : forall (A T : Type) (rep : A -> repr T) (name : A -> string) (teqb : list A -> list A -> bool) (dis : repr T -> res (mat * list (repr T))) (uniq ft : list A) 
  (m : dis_module) (xt : list A),
  mk_dis rep name dis uniq ft = Ret m ->
  teqb xt ft = false -> (forall (junk : list chan) (x : array R), dis_forward rep name teqb m junk xt x = Raise) /\ (forall x : array R, restriction_forward teqb ft xt x = Raise).
Proof. exact @other_types_refused. Qed.
Print Assumptions C82_typed.
