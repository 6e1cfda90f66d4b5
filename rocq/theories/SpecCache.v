(** What the remembering constructors ought to hand out. *)
From Coq Require Import Reals List String Ascii.
From Verif Require Import LibRes LibMat RepModel CacheModel.
Import ListNotations.
Open Scope string_scope.

Fixpoint occurs (c : ascii) (s : string) : Prop :=
  match s with EmptyString => False | String a s' => a = c \/ occurs c s' end.

(** [f] writes ids without square brackets and without `|`, never as the empty
    string, and different ids differently, as str does on tuples of numbers. *)
Definition plain {A} (f : A -> string) : Prop :=
  (forall x y, f x = f y -> x = y) /\
  (forall x, f x <> "" /\ ~ occurs "]" (f x) /\ ~ occurs "|" (f x)).

Section Wanted.
Context {SID IID Psi Reps Rep : Type}.
Variables (str_sid : SID -> string) (str_iid : IID -> string) (psi_name : Psi -> string).
Variables (norm : SID -> SID) (trivial_id : SID).
Variable irreducible : Psi -> bool.
Variable psi_id : Psi -> IID.
Variable trivial : SID -> res Psi.
Variable make_regular : res Rep.
Variable make_induced : string -> SID -> Psi -> option Reps -> res Rep.
Variable make_spectral : SID -> string -> Psi -> list IID -> res (option Rep).

Let some (x : res Rep) : res (option Rep) := match x with Ret r => Ret (Some r) | Raise => Raise end.
Let irr_list (l : list IID) : string := join "|" (map str_iid l).

(** The name the documentation gives to the result of a request *)
Definition name_of (q : @request SID IID Psi Reps) : string :=
  match q with
  | Regular => "regular"
  | Quotient _ _ (Some n) | Induced _ _ _ (Some n) | SpecRegular _ (Some n)
  | SpecQuotient _ _ (Some n) | OfHomSpace _ _ _ (Some n) => n
  | Quotient sid _ None => "quotient[" ++ str_sid sid ++ "]"
  | Induced sid psi _ None => "induced[" ++ str_sid sid ++ "][" ++ psi_name psi ++ "]"
  | SpecRegular irreps None => "regular_[" ++ irr_list irreps ++ "]"
  | SpecQuotient sid irreps None => "quotient[" ++ str_sid sid ++ "]_[" ++ irr_list irreps ++ "]"
  | OfHomSpace sid psi irreps None =>
      "induced[" ++ str_sid (norm sid) ++ "]_[" ++ str_iid (psi_id psi) ++ "]_[" ++ irr_list irreps ++ "]"
  end.

(** The result its own arguments call for *)
Definition wanted (q : @request SID IID Psi Reps) : res (option Rep) :=
  let n := name_of q in
  match q with
  | Regular => some make_regular
  | Quotient sid reps _ => match trivial sid with Raise => Raise | Ret psi => some (make_induced n sid psi reps) end
  | Induced sid psi reps _ => if irreducible psi then some (make_induced n sid psi reps) else Raise
  | SpecRegular irreps _ =>
      match trivial (norm trivial_id) with Raise => Raise | Ret psi => make_spectral (norm trivial_id) n psi irreps end
  | SpecQuotient sid irreps _ =>
      match trivial (norm sid) with Raise => Raise | Ret psi => make_spectral (norm sid) n psi irreps end
  | OfHomSpace sid psi irreps _ => make_spectral (norm sid) n psi irreps
  end.

(** Requests whose results are kept by the group *)
Definition of_group (q : @request SID IID Psi Reps) : Prop := match q with OfHomSpace _ _ _ _ => False | _ => True end.
(** The homogeneous space whose table a request uses *)
Definition space (q : @request SID IID Psi Reps) : option SID :=
  match q with
  | SpecRegular _ _ => Some (norm trivial_id)
  | SpecQuotient sid _ _ | OfHomSpace sid _ _ _ => Some (norm sid)
  | _ => None
  end.

(** Requests that share a table and a name call for the same result. *)
Definition compatible (p q : @request SID IID Psi Reps) : Prop :=
  name_of p = name_of q ->
  (of_group p /\ of_group q) \/ (space p = space q /\ space p <> None) -> wanted p = wanted q.

(** Requests without the optional arguments *)
Definition default_args (q : @request SID IID Psi Reps) : Prop :=
  match q with
  | Regular | Quotient _ None None | Induced _ _ None None | SpecRegular _ None | SpecQuotient _ _ None
  | OfHomSpace _ _ _ None => True
  | _ => False
  end.
End Wanted.

(** [B] is a basis of kernels from [a] to [b]: every matrix in it intertwines
    and every intertwiner is a combination of them. *)
Definition intertwines {T} (mem : T -> Prop) (a b : repr T) (K : mat) : Prop :=
  forall g, mem g -> exists A B, r_fun a g = Ret (r_size a, A) /\ r_fun b g = Ret (r_size b, B) /\
    meq (r_size b) (r_size a) (mmul (r_size b) B K) (mmul (r_size a) K A).
Definition kernel_basis_of {T} (mem : T -> Prop) (a b : repr T) (B : list mat) : Prop :=
  Forall (intertwines mem a b) B /\
  forall K, intertwines mem a b K -> exists cs : list R, List.length cs = List.length B /\
    meq (r_size b) (r_size a) K
      (fun i j => fold_right Rplus 0%R (map (fun cM => (fst cM * snd cM i j)%R) (combine cs B))).
