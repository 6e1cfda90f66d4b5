(** Model of the generalized He initialization of the weights of a layer
    (escnn/nn/init.py:16-84: _generalized_he_init_variances, generalized_he_init).

    Simplifications. Of every entry of basis_info only in_irrep and
    out_irreps_position are read; both are keys of dictionaries, here lists of ints.
    torch.randn_like is a parameter [noise]. A dictionary that counts is the function
    that counts. *)
From Coq Require Import Reals List ZArith Bool.
From Verif Require Import LibRes.
Import ListNotations.
Open Scope R_scope.

Definition key := list Z.
Definition key_dec : forall a b : key, {a = b} + {a <> b} := list_eq_dec Z.eq_dec.
Definition key_eqb (a b : key) : bool := if key_dec a b then true else false.

Record battr := { b_in : key; b_out : key }.

(** len(inputs_count[o]): the different input irreps of an output position *)
Definition inputs_count (info : list battr) (o : key) : nat :=
  length (nodup key_dec (map b_in (filter (fun a => key_eqb (b_out a) o) info))).
(** basis_count[(in_irrep, o)] *)
Definition basis_count (info : list battr) (i o : key) : nat :=
  length (filter (fun a => key_eqb (b_in a) i && key_eqb (b_out a) o) info).
(** the value assigned to vars[w] *)
Definition he_var (info : list battr) (a : battr) : R :=
  1 / sqrt (INR (inputs_count info (b_out a) * basis_count info (b_in a) (b_out a))).
(** _generalized_he_init_variances: [dim] is basismanager.dimension(); vars[w] beyond
    it raises IndexError *)
Definition he_vars (dim : nat) (info : list battr) : res (list R) :=
  assert (Nat.leb (length info) dim) ;;
  Ret (map (he_var info) info ++ repeat 1 (dim - length info)).

(** generalized_he_init with the memory of cached_he_vars, here a list of pairs; the
    manager [bm] is a key compared by identity (torch.nn.Module) *)
Definition he_init (cache : bool) (mem : list (Z * list R)) (bm : Z) (dim : nat) (info : list battr)
    (tensor noise : list R) : res (list R * list (Z * list R)) :=
  assert (Nat.eqb (length tensor) dim) ;;
  let found := find (fun p => Z.eqb (fst p) bm) mem in
  let fill v := map (fun p => fst p * snd p) (combine v noise) in
  if cache then
    match found with
    | Some p => Ret (fill (snd p), mem)
    | None => v <- he_vars dim info ;; Ret (fill v, (bm, v) :: mem)
    end
  else v <- he_vars dim info ;; Ret (fill v, mem).
