(** Model of the constructors that remember their results by name.
    Sources: /repo/escnn/group/group.py:456-471, 508-579, 613-655, 720-743,
      /repo/escnn/group/homspace.py:319-391, /repo/escnn/gspaces/gspace.py:337-458.
    A dictionary is the list of its items in order of insertion. A call returns
    its answer and the dictionaries it leaves behind. *)
From Coq Require Import Reals Bool List String.
From Verif Require Import LibRes LibMat RepModel.
Import ListNotations.
Open Scope string_scope.

(** `d.get(k)` *)
Fixpoint dfind {K V} (eqb : K -> K -> bool) (d : list (K * V)) (k : K) : option V :=
  match d with
  | [] => None
  | (k', v) :: d' => if eqb k k' then Some v else dfind eqb d' k
  end.

(** `if k not in d: d[k] = build()` then `return d[k]` *)
Definition memo {K V} (eqb : K -> K -> bool) (k : K) (build : res V) (d : list (K * V)) : res V * list (K * V) :=
  match dfind eqb d k with
  | Some v => (Ret v, d)
  | None => match build with Raise => (Raise, d) | Ret v => (Ret v, (d ++ [(k, v)])%list) end
  end.

(** sep.join(l) *)
Fixpoint join (sep : string) (l : list string) : string :=
  match l with
  | [] => ""
  | [s] => s
  | s :: l' => s ++ sep ++ join sep l'
  end.

Section Group.
(** subgroup ids, irrep ids, irreps of subgroups, lists of representatives, results *)
Context {SID IID Psi Reps Rep : Type}.
Variables (str_sid : SID -> string) (str_iid : IID -> string) (psi_name : Psi -> string).
Variables (sid_eqb : SID -> SID -> bool) (norm : SID -> SID) (trivial_id : SID).
Variable irreducible : Psi -> bool.
Variable psi_id : Psi -> IID.
(** self.subgroup(id)[0].trivial_representation *)
Variable trivial : SID -> res Psi.
(** group.py:458-470 without the cache *)
Variable make_regular : res Rep.
(** group.py:564-577: name, subgroup, irrep, representatives *)
Variable make_induced : string -> SID -> Psi -> option Reps -> res Rep.
(** homspace.py:341-389 without the cache; [None] when the size is 0 *)
Variable make_spectral : SID -> string -> Psi -> list IID -> res (option Rep).

Inductive request :=
| Regular
| Quotient (sid : SID) (reps : option Reps) (name : option string)
| Induced (sid : SID) (psi : Psi) (reps : option Reps) (name : option string)
| SpecRegular (irreps : list IID) (name : option string)
| SpecQuotient (sid : SID) (irreps : list IID) (name : option string)
| OfHomSpace (sid : SID) (psi : Psi) (irreps : list IID) (name : option string).

(** Group._representations and the _representations of every homogeneous space *)
Record tables := { t_group : list (string * option Rep); t_hom : list (SID * string * Rep) }.

Definition irreps_names (irreps : list IID) : string := join "|" (map str_iid irreps).

(** `name if name is not None else ...` *)
Definition named (name : option string) (default : string) : string :=
  match name with Some n => n | None => default end.

Definition hom_eqb (a b : SID * string) : bool := sid_eqb (fst a) (fst b) && String.eqb (snd a) (snd b).

(** A group-level request: look in Group._representations *)
Definition in_group (name : string) (build : res (option Rep)) (t : tables) : res (option Rep) * tables :=
  let x := memo String.eqb name build (t_group t) in (fst x, {| t_group := snd x; t_hom := t_hom t |}).

(** HomSpace.induced_representation homspace.py:319-391; a result of size 0 is
    returned without being stored *)
Definition in_hom (sid : SID) (name : string) (build : res (option Rep)) (t : tables) : res (option Rep) * tables :=
  match dfind hom_eqb (t_hom t) (sid, name) with
  | Some r => (Ret (Some r), t)
  | None => match build with
            | Raise => (Raise, t)
            | Ret None => (Ret None, t)
            | Ret (Some r) => (Ret (Some r), {| t_group := t_group t; t_hom := (t_hom t ++ [((sid, name), r)])%list |})
            end
  end.

(** Group.spectral_quotient_representation group.py:634-655 *)
Definition spec_quotient (sid : SID) (irreps : list IID) (name : string) (t : tables) : res (option Rep) * tables :=
  match dfind String.eqb (t_group t) name with
  | Some r => (Ret r, t)
  | None => match trivial (norm sid) with
            | Raise => (Raise, t)
            | Ret psi =>
                match in_hom (norm sid) name (make_spectral (norm sid) name psi irreps) t with
                | (Raise, t') => (Raise, t')
                | (Ret r, t') => (Ret r, {| t_group := (t_group t' ++ [(name, r)])%list; t_hom := t_hom t' |})
                end
            end
  end.

Definition serve (q : request) (t : tables) : res (option Rep) * tables :=
  match q with
  | Regular => in_group "regular" (r <- make_regular ;; Ret (Some r)) t
  | Quotient sid reps name =>
      let n := named name ("quotient[" ++ str_sid sid ++ "]") in
      in_group n (psi <- trivial sid ;; r <- make_induced n sid psi reps ;; Ret (Some r)) t
  | Induced sid psi reps name =>
      if irreducible psi then
        let n := named name ("induced[" ++ str_sid sid ++ "][" ++ psi_name psi ++ "]") in
        in_group n (r <- make_induced n sid psi reps ;; Ret (Some r)) t
      else (Raise, t)
  | SpecRegular irreps name =>
      spec_quotient trivial_id irreps (named name ("regular_[" ++ irreps_names irreps ++ "]")) t
  | SpecQuotient sid irreps name =>
      spec_quotient sid irreps (named name ("quotient[" ++ str_sid sid ++ "]_[" ++ irreps_names irreps ++ "]")) t
  | OfHomSpace sid psi irreps name =>
      let n := named name ("induced[" ++ str_sid (norm sid) ++ "]_[" ++ str_iid (psi_id psi) ++ "]_[" ++ irreps_names irreps ++ "]") in
      in_hom (norm sid) n (make_spectral (norm sid) n psi irreps) t
  end.

(** The tables after a history of requests, in a new group *)
Definition after (qs : list request) : tables :=
  fold_left (fun t q => snd (serve q t)) qs {| t_group := []; t_hom := [] |}.
End Group.

(** ** GSpace *)

Section GSpace.
(** representations, kernel bases, values of the keyword arguments *)
Context {Rep Basis Arg : Type}.
Variables (rname : Rep -> string) (ours : Rep -> bool) (arg_eqb : Arg -> Arg -> bool).
Variable on_point : Rep -> Rep -> res Basis.                               (* kernels_on_point *)
(** self._basis_generator(in_repr, out_repr, rings, sigma, **kwargs) *)
Variable generator : Rep -> Rep -> list R -> list R -> list (string * Arg) -> res Basis.

Definition pair_eqb (a b : string * string) : bool := String.eqb (fst a) (fst b) && String.eqb (snd a) (snd b).

(** build_fiber_intertwiner_basis gspace.py:337-367 *)
Definition fiber_basis (i o : Rep) (d : list (string * string * Basis)) : res Basis * list (string * string * Basis) :=
  if ours i && ours o then memo pair_eqb (rname i, rname o) (on_point i o) d else (Raise, d).

Definition after_fiber (h : list (Rep * Rep)) : list (string * string * Basis) :=
  fold_left (fun d q => snd (fiber_basis (fst q) (snd q) d)) h [].

(** The arguments `sigma` (a number or a list), `rings` and `**kwargs`; the
    items of kwargs are in sorted order. *)
Record params := { k_sigma : R + list R; k_rings : list R; k_args : list (string * Arg) }.

Definition Reqb (x y : R) : bool := if Req_EM_T x y then true else false.
Fixpoint list_eqb {A} (eqb : A -> A -> bool) (l m : list A) : bool :=
  match l, m with
  | [], [] => true
  | a :: l', b :: m' => eqb a b && list_eqb eqb l' m'
  | _, _ => false
  end.

Definition sigmas (p : params) : list R :=
  match k_sigma p with inl s => repeat s (List.length (k_rings p)) | inr l => l end.

(** (sigma, rings, kwargs, in name, out name): the two nested dictionaries
    gspace.py:444-458 are one dictionary with pairs as keys *)
Definition kkey := (list R * list R * list (string * Arg) * (string * string))%type.
Definition kkey_eqb (a b : kkey) : bool :=
  let '(s, r, k, n) := a in let '(s', r', k', n') := b in
  list_eqb Reqb s s' && list_eqb Reqb r r' &&
  list_eqb (fun x y => String.eqb (fst x) (fst y) && arg_eqb (snd x) (snd y)) k k' && pair_eqb n n'.

(** build_kernel_basis gspace.py:369-458 *)
Definition kernel_basis (i o : Rep) (p : params) (d : list (kkey * Basis)) : res Basis * list (kkey * Basis) :=
  if ours i && ours o && forallb (fun s => if Rlt_dec 0 s then true else false) (sigmas p)
     && Nat.eqb (List.length (sigmas p)) (List.length (k_rings p)) then
    memo kkey_eqb (sigmas p, k_rings p, k_args p, (rname i, rname o))
      (generator i o (k_rings p) (sigmas p) (k_args p)) d
  else (Raise, d).

Definition after_kernels (h : list (Rep * Rep * params)) : list (kkey * Basis) :=
  fold_left (fun d q => snd (kernel_basis (fst (fst q)) (snd (fst q)) (snd q) d)) h [].
End GSpace.

(** The name given by Group.restrict_representation group.py:707 *)
Definition restricted_name (group_name rep_name : string) : string := group_name ++ ":" ++ rep_name.
(** The default name given by directsum representation.py:559-560 *)
Definition directsum_name (names : list string) : string := join "_" (map (fun n => "[" ++ n ++ "]") names).
