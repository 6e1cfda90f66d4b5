(** Model of the regular representation and of the choice of coset
    representatives, for an arbitrary finite group.
    Sources: /repo/escnn/group/representation.py:766-856, 939-965,
      /repo/escnn/group/group.py:456-471, /repo/escnn/group/homspace.py:62-73. *)
From Coq Require Import Reals ZArith Bool List.
From Verif Require Import LibRes LibMat LibTrig FinGroupModel ParamModel PlanarModel IrrepModel RepModel.
Import ListNotations.
Open Scope R_scope.

Section Regular.
Context {T : Type}.
(** `==` of group elements, which also decides dictionary membership *)
Variable eqb : T -> T -> bool.
Variable op : T -> T -> res T.     (* e @ g *)
Variable inv : T -> res T.         (* ~e *)
Variable els : list T.             (* group.elements *)
Variable irr : list Z -> res (girrep T).
Variable linv : nat -> mat -> res mat.

(** position of the first match *)
Fixpoint find_index (l : list T) (x : T) : res nat :=
  match l with
  | [] => Raise
  | y :: l' => if eqb x y then Ret 0%nat else (i <- find_index l' x ;; Ret (S i))
  end.

(** index = {e: i for i, e in enumerate(group.elements)} representation.py:786;
    a missing key is a KeyError. The elements are distinct, so first and last
    match agree. *)
Definition index (x : T) : res nat := find_index els x.

(** The permutation matrix of [e], representation.py:793-801. *)
Definition reg_matrix (e : T) : res mat :=
  pos <- mapM (fun g => eg <- op e g ;; i <- index g ;; j <- index eg ;; Ret (j, i)) els ;;
  Ret (fun j i => if existsb (fun p => Nat.eqb (fst p) j && Nat.eqb (snd p) i) pos then 1 else 0).

(** character[e] = np.trace(r), representation.py:805 *)
Definition reg_char (e : T) : res R := r <- reg_matrix e ;; Ret (trace (length els) r).

(** The multiplicity of one irrep, representation.py:813-826. *)
Definition reg_mult (s : girrep T) : res nat :=
  ts <- mapM (fun e => c <- reg_char e ;; ei <- inv e ;; x <- gi_char s ei ;; Ret (c * x)) els ;;
  let m := fold_right Rplus 0 ts / (INR (length els) * INR (gi_sosc s)) in
  assert (math_isclose m (IZR (pyround m)) (/ 10 ^ 9) (/ 10 ^ 9)) ;;
  Ret (Z.to_nat (pyround m)).

(** np.eye(m, s).reshape(-1) * np.sqrt(s), representation.py:838 *)
Definition eye_block (m s : nat) : list R :=
  flat_map (fun a => map (fun b => if Nat.eqb a b then sqrt (INR s) else 0) (seq 0 s)) (seq 0 m).

(** build_regular_representation representation.py:766-856. [ids] are the ids of
    `group.irreps()`. P(e) @ v raises unless the sizes agree. *)
Definition build_regular (ids : list (list Z)) : res (list (list Z) * mat * mat) :=
  let size := length els in
  assert (Nat.ltb 0 size) ;;
  ss <- mapM irr ids ;;
  ms <- mapM (fun s => m <- reg_mult s ;; Ret (s, m)) ss ;;
  let irreps := flat_map (fun sm => repeat (fst sm) (snd sm)) ms in
  P <- directsum irr linv (map repr_of_irrep irreps) None ;;
  _ <- mapM (fun sm => assert (Nat.leb (snd sm) (gi_size (fst sm))) ;; Ret tt) ms ;;
  let v := flat_map (fun sm => eye_block (snd sm) (gi_size (fst sm))) ms in
  assert (Nat.eqb (length v) size) ;;
  rows <- mapM (fun e => A <- r_fun P e ;;
                 assert (Nat.eqb (fst A) size) ;;
                 Ret (fun k => mvec size (snd A) (fun j => nth j v 0) k / sqrt (INR size))) els ;;
  let cob : mat := fun i k => nth i rows (fun _ => 0) k in
  Ret (map gi_id irreps, cob, mtr cob).

(** Group.regular_representation group.py:456-471 *)
Definition regular_representation (ids : list (list Z)) : res (repr T) :=
  x <- build_regular ids ;;
  mk_repr irr linv (fst (fst x)) (length els) (snd (fst x)) (Some (snd x)).

(** ** coset representatives, for a subgroup with elements [sels] included by [incl] *)
Context {S : Type}.
Variable sels : list S.
Variable incl : S -> res T.

(** `e in cosets`: keys of a dictionary *)
Definition memb (x : T) (l : list T) : bool := existsb (eqb x) l.

(** The loop representation.py:943-951: (representatives, keys of `cosets`). *)
Fixpoint coset_loop (es : list T) (reps keys : list T) : res (list T * list T) :=
  match es with
  | [] => Ret (reps, keys)
  | e :: es' =>
      if memb e keys then coset_loop es' reps keys
      else
        new <- mapM (fun g => ig <- incl g ;; op e ig) sels ;;
        coset_loop es' (reps ++ [e]) (keys ++ new)
  end.

(** representation.py:939-953; `int(order / subgroup order)` *)
Definition representatives : res (list T) :=
  x <- coset_loop els [] [] ;;
  assert (Nat.eqb (length els / length sels) (length (fst x))) ;;
  Ret (fst x).

(** HomSpace.same_coset homspace.py:62-73 *)
Definition same_coset (restr : T -> res (option S)) (g1 g2 : T) : res bool :=
  i <- inv g1 ;; d <- op i g2 ;;
  o <- restr d ;; Ret (match o with Some _ => true | None => false end).
End Regular.

(** `==` of elements of C_N and D_N as a boolean *)
Definition peqb (G : grp) (x y : pval) : bool :=
  match pequal (Fin G) x y with Ret b => b | Raise => false end.
