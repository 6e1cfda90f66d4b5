(** Parametrisation strings of nested direct products.
    Source: /repo/escnn/group/directproduct.py:21-30, 105-117, 270-293,
            /repo/escnn/group/group.py:985-1002. *)
From Coq Require Import List Ascii String Bool.
From Verif Require Import LibRes.
Import ListNotations.
Open Scope list_scope.

(** Python strings are lists of characters. *)
Definition str := list ascii.
Definition s_ (s : string) : str := list_ascii_of_string s.
Definition ch (s : string) : ascii :=
  match s with String c _ => c | EmptyString => Ascii.zero end.

Definition sep : str := s_ " | ".
Definition str_eqb (a b : str) : bool := if list_eq_dec ascii_dec a b then true else false.

(** If [t] starts with the separator, what follows it. *)
Definition after_sep (t : str) : option str :=
  match t with
  | a :: b :: c :: t' => if str_eqb [a; b; c] sep then Some t' else None
  | _ => None
  end.

(** The end of the pattern, `(.+)\]`: the longest non-empty prefix followed by a
    closing bracket.  [acc] is the reversed prefix read so far. *)
Fixpoint upto_last_close (acc : str) (t : str) : option str :=
  match t with
  | [] => None
  | c :: t' =>
      match upto_last_close (c :: acc) t' with
      | Some p => Some p
      | None => if Ascii.eqb c (ch "]") && negb (match acc with [] => true | _ => false end)
                then Some (rev acc) else None
      end
  end.

(** `(.+)\ \|\ (.+)\]`: the first group is greedy, so the last position at which
    the rest matches is chosen. *)
Fixpoint last_split (acc : str) (t : str) : option (str * str) :=
  match t with
  | [] => None
  | c :: t' =>
      match last_split (c :: acc) t' with
      | Some p => Some p
      | None =>
          match acc with
          | [] => None
          | _ => match after_sep t with
                 | Some rest =>
                     match upto_last_close [] rest with
                     | Some p2 => Some (rev acc, p2)
                     | None => None
                     end
                 | None => None
                 end
          end
      end
  end.

(** _split_param directproduct.py:24-30 with the regular expression of line 21,
    `\[(.+)\ \|\ (.+)\]`, used with `match` (anchored at the start only).
    `None.groups()` raises AttributeError.  Newlines, which `.` does not match, do
    not occur in parametrisation strings. *)
Definition split_param (p : str) : res (str * str) :=
  match p with
  | c :: t =>
      if Ascii.eqb c (ch "[") then
        match last_split [] t with Some r => Ret r | None => Raise end
      else Raise
  | [] => Raise
  end.

(** A group built from library groups by direct products.  An [Atom] carries its
    default parametrisation, the list of accepted parametrisations and, for each of
    them, the test applied to values. *)
Inductive gtree (A : Type) :=
| Atom (param : str) (params : list str) (ok : str -> A -> bool)
| Node (l r : gtree A).
Arguments Atom {A}. Arguments Node {A}.

(** Values: one per atom, nested pairs otherwise. *)
Inductive vtree (A : Type) := VAtom (a : A) | VNode (l r : vtree A).
Arguments VAtom {A}. Arguments VNode {A}.

(** PARAM directproduct.py:105-107: f"[{self.G1.PARAM} | {self.G2.PARAM}]" *)
Definition pair_param (p q : str) : str := ch "[" :: p ++ sep ++ q ++ [ch "]"].
Fixpoint default_param {A} (g : gtree A) : str :=
  match g with
  | Atom p _ _ => p
  | Node l r => pair_param (default_param l) (default_param r)
  end.

(** _is_element directproduct.py:270-293 (the `and` stops at the first False); the
    groups which are not products assert that the parametrisation is one of theirs
    (cyclicgroup.py:191, dihedralgroup.py:219, ...). *)
Fixpoint is_element_p {A} (g : gtree A) (v : vtree A) (p : str) : res bool :=
  match g, v with
  | Atom _ ps ok, VAtom a =>
      assert existsb (str_eqb p) ps ;; Ret (ok p a)
  | Node l r, VNode x y =>
      pq <- split_param p ;;
      b <- is_element_p l x (fst pq) ;;
      if b then is_element_p r y (snd pq) else Ret false
  | _, _ => Raise
  end.

(** Group.element with the default parametrisation: group.py:92-113, 985-1002 *)
Definition make_element {A} (g : gtree A) (v : vtree A) : res (vtree A) :=
  b <- is_element_p g v (default_param g) ;;
  if b : bool then Ret v else Raise.
