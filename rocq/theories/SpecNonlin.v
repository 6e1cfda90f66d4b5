(** What the field-wise nonlinearities should do. *)
From Coq Require Import Reals List Arith.
From Verif Require Import LibMat SpecField.
Import ListNotations.
Open Scope R_scope.

(** A matrix applied to a vector given by its list of entries. *)
Definition mv (n : nat) (M : mat) (v : list R) : list R := map (fun i => sumn n (fun j => M i j * nth j v 0)) (seq 0 n).
(** Euclidean norm *)
Definition enorm (v : list R) : R := sqrt (sumn (length v) (fun i => nth i v 0 * nth i v 0)).
Definition scaled (c : R) (v : list R) : list R := map (fun a => c * a) v.
(** [y] is [x] with every field transformed by the matrix of its representation. *)
Definition acts {A} (size : A -> nat) (ft : list A) (rho : A -> mat) (x y : list R) : Prop :=
  length y = list_sum (map size ft) /\
  forall i r, nth_error ft i = Some r -> field_chans size ft y i = mv (size r) (rho r) (field_chans size ft x i).
(** [M] permutes [n] blocks of size [s] and acts orthogonally between them. *)
Definition block_orthogonal (n s : nat) (M : mat) : Prop :=
  exists (p : nat -> nat) (O : nat -> mat),
    (forall j, (j < n)%nat -> (p j < n)%nat) /\ (forall j k, (j < n)%nat -> (k < n)%nat -> p j = p k -> j = k) /\
    (forall j, (j < n)%nat -> orthogonal s (O j)) /\
    forall i a j b, (i < n)%nat -> (a < s)%nat -> (j < n)%nat -> (b < s)%nat ->
      M (i * s + a)%nat (j * s + b)%nat = if Nat.eqb i (p j) then O j a b else 0.
(** The vector [v] cut into pieces of length [s]: piece [j]. *)
Definition piece (s j : nat) (v : list R) : list R := firstn s (skipn (j * s) v).

From Coq Require Import String.
(** The function applied to the norm. *)
Definition named (name : string) (fn : R -> R) : Prop :=
  (name = "n_relu"%string /\ forall t, fn t = Rmax 0 t) \/
  (name = "n_sigmoid"%string /\ forall t, fn t = 1 / (1 + exp (- t))) \/
  (name = "n_softplus"%string /\ (forall t, t <= 20 -> fn t = ln (1 + exp t)) /\ (forall t, 20 < t -> fn t = t)) \/
  (name = "squash"%string /\ forall t, fn t = t / (1 + t)).
(** The factor of a field of norm [n] with bias [b]: its new norm divided by its norm. *)
Definition norm_factor (fn : R -> R) (b n : R) : R :=
  if Rle_dec n (1 / 10 ^ 10) then 0 else fn (n - b) / n.
(** The bias of field [k]: absent, or the exponential of a parameter. *)
Definition bias_at (with_bias : bool) (log_bias : list R) (k : nat) : R :=
  if with_bias then exp (nth k log_bias 0) else 0.
(** The logistic function *)
Definition logistic (t : R) : R := 1 / (1 + exp (- t)).
(** The positions of the list where [f] holds. *)
Definition positions_of {X} (f : X -> bool) (l : list X) : list nat :=
  filter (fun i => match nth_error l i with Some x => f x | None => false end) (seq 0 (List.length l)).
