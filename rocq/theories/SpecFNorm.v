(** What the normalisations of generic representations should do. *)
From Coq Require Import Reals List Arith.
From Verif Require Import LibMat SpecField SpecNonlin SpecBatch.
Import ListNotations.
Open Scope R_scope.

(** A representation is the direct sum of irreps, given by their sizes and
    whether they are trivial, in another basis. Channel [t] of the direct sum
    belongs to a trivial irrep, and to the irrep number [irrep_of]. *)
Fixpoint triv (irreps : list (nat * bool)) (t : nat) : bool :=
  match irreps with [] => false | (s, b) :: l => if Nat.ltb t s then b else triv l (t - s) end.
Fixpoint irrep_of (irreps : list (nat * bool)) (t : nat) : nat :=
  match irreps with [] => 0 | (s, _) :: l => if Nat.ltb t s then 0 else S (irrep_of l (t - s)) end.
Definition irreps_ok (irreps : list (nat * bool)) (n : nat) : Prop :=
  list_sum (map fst irreps) = n /\ Forall (fun e => (0 < fst e)%nat /\ (snd e = true -> fst e = 1%nat)) irreps.
(** [M] is the matrix of some group element: orthogonal on every irrep, one on the
    trivial irreps, in the basis given by [cob] and its inverse. *)
Definition represents (irreps : list (nat * bool)) (cob inv : mat) (n : nat) (M : mat) : Prop :=
  exists D, meq n n M (mmul n (mmul n cob D) inv) /\ orthogonal n D /\
    (forall i j, (i < n)%nat -> (j < n)%nat -> irrep_of irreps i <> irrep_of irreps j -> D i j = 0) /\
    (forall i, (i < n)%nat -> triv irreps i = true -> D i i = 1).

(** The value of channel [c] at point [p], averages and variances. *)
Definition ent (v : list (list R)) (c p : nat) : R := nth p (nth c v []) 0.
Definition avg (N : nat) (v : list (list R)) (c : nat) : R := sumn N (fun p => ent v c p) / INR N.
(** the part of a vector in the trivial irreps *)
Definition fixed_part (irreps : list (nat * bool)) (cob inv : mat) (n : nat) (a : nat -> R) (c : nat) : R :=
  sumn n (fun t => if triv irreps t then cob c t * sumn n (fun d => inv t d * a d) else 0).
(** the variance of a field per channel *)
Definition variance (n N : nat) (v : list (list R)) : R :=
  sumn n (fun c => sumn N (fun p => (ent v c p - avg N v c) * (ent v c p - avg N v c))) / (INR n * INR (N - 1)).
(** the trivial channels, in order *)
Definition trivial_channels (irreps : list (nat * bool)) (n : nat) : list nat := filter (triv irreps) (seq 0 n).
(** the vector with the coefficients [b] along the trivial irreps *)
Definition along (irreps : list (nat * bool)) (cob : mat) (n : nat) (b : list R) (c : nat) : R :=
  sumn (length (trivial_channels irreps n)) (fun k => cob c (nth k (trivial_channels irreps n) 0%nat) * nth k b 0).
(** Field [i] is the [j]-th one called [s]. *)
Definition named_rank {A L} (leqb : L -> L -> bool) (name : A -> L) (ft : list A) (i : nat) (s : L) (j : nat) : Prop :=
  nth_error (labelled leqb (map name ft) s) j = Some i.
(** [uniq] lists the representations of a type once, in some order. *)
Definition listing {A} (ft uniq : list A) : Prop := NoDup uniq /\ forall r, In r uniq <-> In r ft.
(** Different representations have different names. *)
Definition named_apart {A L} (name : A -> L) (ft : list A) : Prop := forall r r', In r ft -> In r' ft -> name r = name r' -> r = r'.

(** ** One variance for every irrep *)
(** the coordinates of a field in the basis of the irreps *)
Definition coord (inv : mat) (n : nat) (v : list (list R)) (t p : nat) : R := sumn n (fun d => inv t d * ent v d p).
(** the average of a trivial irrep; other irreps are not centred *)
Definition centre (irreps : list (nat * bool)) (N : nat) (u : nat -> nat -> R) (t : nat) : R := if triv irreps t then sumn N (u t) / INR N else 0.
Definition irrep_size (irreps : list (nat * bool)) (o : nat) : nat := nth o (map fst irreps) 0%nat.
(** the mean square of the entries of irrep [o], with Bessel's correction *)
Definition irrep_variance (irreps : list (nat * bool)) (n N : nat) (u : nat -> nat -> R) (o : nat) : R :=
  sumn n (fun t => if Nat.eqb (irrep_of irreps t) o then sumn N (fun p => (u t p - centre irreps N u t) * (u t p - centre irreps N u t)) else 0) /
  (INR (irrep_size irreps o) * INR (Nat.max 1 (N - 1))).

(** ** One variance for every point *)
(** a field at one point without its part in the trivial irreps, and the mean
    square of the entries of a vector *)
Definition centred (irreps : list (nat * bool)) (cob inv : mat) (n : nat) (v : list (list R)) (p c : nat) : R :=
  ent v c p - fixed_part irreps cob inv n (fun d => ent v d p) c.
Definition mean_square (n : nat) (u : nat -> R) : R := sumn n (fun c => u c * u c) / INR n.
