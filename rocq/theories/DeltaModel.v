(** Model of the delta-orthogonal initialization of the weights of a layer
    (escnn/nn/init.py:87-163, deltaorthonormal_init).

    Simplifications. Irreps and positions are keys of dictionaries, here lists of
    ints; a dictionary is its list of keys in the order of insertion together with
    the values as functions. The random draws of one irrep are parameters:
    scipy's ortho_group.rvs(n) is [ortho], torch.randn((o, s)) is [noise]. *)
From Coq Require Import Reals List ZArith Arith Bool.
From Verif Require Import LibRes LibMat HeModel.
Import ListNotations.
Open Scope R_scope.

Record dattr := { d_in : key; d_out : key; d_ip : key; d_op : key; d_radius : option R }.

(** math.isclose(r, 0.): relative tolerance 1e-9, absolute tolerance 0 *)
Definition isclose0 (r : R) : bool :=
  if Rle_dec (Rabs (r - 0)) (Rmax (1 / 1000000000 * Rmax (Rabs r) (Rabs 0)) 0) then true else false.
(** 108-120: the condition to be counted *)
Definition central (a : dattr) : bool :=
  key_eqb (d_in a) (d_out a) && isclose0 (match d_radius a with Some r => r | None => 0 end).

(** enumerate(basis_info) *)
Definition indexed (info : list dattr) : list (nat * dattr) := combine (seq 0 (length info)) info.
(** keys in the order of insertion *)
Definition uniq {A} (dec : forall a b : A, {a = b} + {a <> b}) (l : list A) : list A := rev (nodup dec (rev l)).
Definition pair_dec : forall a b : key * key, {a = b} + {a <> b}.
Proof. decide equality; apply key_dec. Defined.

Section Irrep.
  Variable info : list dattr.
  Variable k : key.
  (** the entries of counts[k] *)
  Definition counted : list (nat * dattr) :=
    filter (fun x => central (snd x) && key_eqb (d_in (snd x)) k) (indexed info).
  Definition count (ip op : key) : list nat :=
    map fst (filter (fun x => key_eqb (d_ip (snd x)) ip && key_eqb (d_op (snd x)) op) counted).
  Definition pairs : list (key * key) := uniq pair_dec (map (fun x => (d_ip (snd x), d_op (snd x))) counted).
  Definition ins : list key := uniq key_dec (map fst pairs).
  Definition outs : list key := uniq key_dec (map snd pairs).
  Definition in_c (ip : key) : nat := length (filter (fun p => key_eqb (fst p) ip) pairs).
  Definition out_c (op : key) : nat := length (filter (fun p => key_eqb (snd p) op) pairs).
  Definition same_content (l : list nat) : bool :=
    match l with [] => true | x :: _ => forallb (fun y => Nat.eqb y x) l end.
  Definition first (l : list nat) : nat := hd 0%nat l.

  Definition sz : nat := first (map (fun p => length (count (fst p) (snd p))) pairs).
  (** 147-151; torch.randint(0, 1) is always 0 *)
  Definition Wmat (ortho : nat -> mat) : mat :=
    let n := Nat.max (length ins) (length outs) in
    if Nat.ltb 1 n then ortho n else fun _ _ => 2 * 0 - 1.
  (** 154-157 *)
  Definition wvec (noise : mat) (o p : nat) : R :=
    5 * noise o p / sqrt (sumn sz (fun q => (5 * noise o q) * (5 * noise o q))).

  (** 127-162: the assignments tensor[pp] = ... in their order *)
  Definition irrep_writes (ortho : nat -> mat) (noise : mat) : res (list (nat * R)) :=
    assert (same_content (map (fun p => length (count (fst p) (snd p))) pairs)) ;;
    assert (same_content (map in_c ins)) ;;
    assert (same_content (map out_c outs)) ;;
    assert (Nat.eqb (first (map in_c ins)) (length outs)) ;;
    assert (Nat.eqb (first (map out_c outs)) (length ins)) ;;
    Ret (flat_map (fun i => flat_map (fun o => map (fun p =>
           (nth p (count (nth i ins []) (nth o outs [])) 0%nat, wvec noise o p * Wmat ortho o i))
           (seq 0 (length (count (nth i ins []) (nth o outs [])))))
           (seq 0 (length outs))) (seq 0 (length ins))).
End Irrep.

(** the last assignment to an entry; 0 without one (tensor.fill_(0.)) *)
Definition written (ws : list (nat * R)) (pp : nat) : R :=
  match find (fun w => Nat.eqb (fst w) pp) (rev ws) with Some w => snd w | None => 0 end.

(** deltaorthonormal_init: [ortho k] and [noise k] are the draws for the irrep k *)
Definition delta_init (dim : nat) (info : list dattr) (tensor : list R) (ortho : key -> nat -> mat) (noise : key -> mat)
    : res (list R) :=
  assert (Nat.eqb (length tensor) dim) ;;
  wss <- mapM (fun k => irrep_writes info k (ortho k) (noise k))
           (uniq key_dec (map (fun a => d_in a) (filter central info))) ;;
  assert (forallb (fun w => Nat.ltb (fst w) dim) (concat wss)) ;;
  Ret (map (written (concat wss)) (seq 0 dim)).
