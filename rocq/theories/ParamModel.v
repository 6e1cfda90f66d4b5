(** Model of the changes of parametrisation of C_N, D_N, SO(2) and O(2).
    Floats are exact reals, so rounding error is not modelled; the tolerances
    of the library's comparisons are.
    Sources: /repo/escnn/group/groups/{cyclicgroup,dihedralgroup,so2group,o2group}.py,
             /repo/escnn/group/utils.py. *)
From Coq Require Import Reals ZArith Bool List.
From Verif Require Import LibRes LibMat LibTrig FinGroupModel.
Import ListNotations.
Open Scope R_scope.

(** A parametrisation name. *)
Inductive param := PInt | PRad | PMat.

(** A Python value describing a rotation: int, float, or a 2-d array with its shape. *)
Inductive pv := Pint (z : Z) | Pfloat (x : R) | Parr (r c : nat) (m : mat).

Definition Rleb (x y : R) : bool := if Rle_dec x y then true else false.

(** math.isclose(a, b, rel_tol, abs_tol) *)
Definition math_isclose (a b rel_tol abs_tol : R) : bool :=
  Rleb (Rabs (a - b)) (Rmax (rel_tol * Rmax (Rabs a) (Rabs b)) abs_tol).

(** cycle_isclose: group/utils.py:55-71, with rtol=1e-9 and atol=1e-11. *)
Definition cycle_isclose (a b S : R) : bool :=
  let d := rmod (a - b) S in
  (math_isclose d 0 (/ 10 ^ 9) (/ 10 ^ 11) && Rleb 0 d)
  || (math_isclose d S (/ 10 ^ 9) (/ 10 ^ 11) && Rleb d S).

(** np.isclose(a, b, rtol=1e-5, atol) *)
Definition np_isclose (atol a b : R) : bool :=
  Rleb (Rabs (a - b)) (atol + / 10 ^ 5 * Rabs b).

(** np.allclose(m, np.eye(2), atol=atol) *)
Definition allclose_eye2 (atol : R) (m : mat) : bool :=
  np_isclose atol (m 0%nat 0%nat) 1 && np_isclose atol (m 0%nat 1%nat) 0
  && np_isclose atol (m 1%nat 0%nat) 0 && np_isclose atol (m 1%nat 1%nat) 1.

(** np.linalg.det of a 2x2 matrix *)
Definition det2 (m : mat) : R :=
  m 0%nat 0%nat * m 1%nat 1%nat - m 0%nat 1%nat * m 1%nat 0%nat.

(** A literal 2x2 array [[a, b], [c, d]]. *)
Definition mat2 (a b c d : R) : mat :=
  fun i j => match i, j with
             | O, O => a | O, S _ => b | S _, O => c | S _, S _ => d
             end.

(** [[cos, -sin], [sin, cos]] as built in every _change_param. *)
Definition rot2 (t : R) : mat := mat2 (cos t) (- sin t) (sin t) (cos t).

(** CyclicGroup._change_param cyclicgroup.py:190-231.
    Line 201 really reads `(element[1, 0] - element[1, 0]) / 2.` *)
Definition cn_change_param (N : Z) (x : pv) (p_from p_to : param) : res pv :=
  xp <- match p_from with
        | PMat =>
            match x with
            | Parr 2 2 m =>
                assert (np_isclose (/ 10 ^ 8) (det2 m) 1) ;;
                assert (allclose_eye2 (/ 10 ^ 8) (mmul 2 m (mtr m))) ;;
                let c := (m 0%nat 0%nat + m 1%nat 1%nat) / 2 in
                let s := (m 1%nat 0%nat - m 1%nat 0%nat) / 2 in
                Ret (Pfloat (atan2 s c), PRad)
            | _ => Raise
            end
        | _ => Ret (x, p_from)
        end ;;
  e <- match snd xp, fst xp with
       | PInt, Pint z => Ret z
       | PRad, Pfloat t =>
           if negb (cycle_isclose t 0 (2 * PI / IZR N)) then Raise
           else Ret (pyround (IZR N * t / (2 * PI)) mod N)%Z
       | _, _ => Raise
       end ;;
  Ret (match p_to with
       | PInt => Pint e
       | PRad => Pfloat (IZR e * (2 * PI) / IZR N)
       | PMat => Parr 2 2 (rot2 (IZR e * (2 * PI) / IZR N))
       end).

(** DihedralGroup._change_param dihedralgroup.py:218-266.
    Line 234 has the same `rotation[1, 0] - rotation[1, 0]`. *)
Definition dn_change_param (N : Z) (x : Z * pv) (p_from p_to : param) : res (Z * pv) :=
  let (flip, rotation) := x in
  assert ((flip =? 0)%Z || (flip =? 1)%Z) ;;
  xp <- match p_from with
        | PMat =>
            match rotation with
            | Parr 2 2 m =>
                assert (np_isclose (/ 10 ^ 8) (det2 m) 1) ;;
                assert (allclose_eye2 (/ 10 ^ 8) (mmul 2 m (mtr m))) ;;
                let c := (m 0%nat 0%nat + m 1%nat 1%nat) / 2 in
                let s := (m 1%nat 0%nat - m 1%nat 0%nat) / 2 in
                Ret (Pfloat (atan2 s c), PRad)
            | _ => Raise
            end
        | _ => Ret (rotation, p_from)
        end ;;
  e <- match snd xp, fst xp with
       | PInt, Pint z => Ret z
       | PRad, Pfloat t =>
           if negb (cycle_isclose t 0 (2 * PI / IZR N)) then Raise
           else Ret (pyround (IZR N * t / (2 * PI)) mod N)%Z
       | _, _ => Raise
       end ;;
  Ret (match p_to with
       | PInt => (flip, Pint e)
       | PRad => (flip, Pfloat (IZR e * (2 * PI) / IZR N))
       | PMat => (flip, Parr 2 2 (rot2 (IZR e * (2 * PI) / IZR N)))
       end).

(** SO2._change_param so2group.py:179-214. 'int' is not a parametrisation of SO(2). *)
Definition so2_change_param (x : pv) (p_from p_to : param) : res pv :=
  t <- match p_from, x with
       | PMat, Parr 2 2 m =>
           assert (np_isclose (/ 10 ^ 8) (det2 m) 1) ;;
           assert (allclose_eye2 (/ 10 ^ 8) (mmul 2 m (mtr m))) ;;
           let c := (m 0%nat 0%nat + m 1%nat 1%nat) / 2 in
           let s := (m 1%nat 0%nat - m 0%nat 1%nat) / 2 in
           Ret (atan2 s c)
       | PRad, Pfloat t => Ret t
       | _, _ => Raise
       end ;;
  let t := rmod t (2 * PI) in
  match p_to with
  | PInt => Raise
  | PRad => Ret (Pfloat t)
  | PMat => Ret (Parr 2 2 (rot2 t))
  end.

(** O2._change_param o2group.py:220-259. *)
Definition o2_change_param (x : Z * pv) (p_from p_to : param) : res (Z * pv) :=
  let (flip, rotation) := x in
  t <- match p_from, rotation with
       | PMat, Parr 2 2 m =>
           assert (np_isclose (/ 10 ^ 8) (det2 m) 1) ;;
           assert (allclose_eye2 (/ 10 ^ 6) (mmul 2 m (mtr m))) ;;
           assert (allclose_eye2 (/ 10 ^ 6) (mmul 2 (mtr m) m)) ;;
           let c := (m 0%nat 0%nat + m 1%nat 1%nat) / 2 in
           let s := (m 1%nat 0%nat - m 0%nat 1%nat) / 2 in
           Ret (atan2 s c)
       | PRad, Pfloat t => Ret t
       | _, _ => Raise
       end ;;
  let t := rmod t (2 * PI) in
  match p_to with
  | PInt => Raise
  | PRad => Ret (flip, Pfloat t)
  | PMat => Ret (flip, Parr 2 2 (rot2 t))
  end.

(** CyclicGroup._inverse cyclicgroup.py:107-121. The converted value of line
    119 is thrown away, so the negation acts on the value as it was given. *)
Definition cn_inverse (N : Z) (x : pv) (p : param) : res pv :=
  _ <- cn_change_param N x p PInt ;;
  y <- match x with
       | Pint z => Ret (Pint ((- z) mod N))
       | Pfloat t => Ret (Pfloat (rmod (- t) (IZR N)))
       | Parr r c m => Ret (Parr r c (fun i j => rmod (- m i j) (IZR N)))
       end ;;
  cn_change_param N y PInt p.

(** DihedralGroup._inverse dihedralgroup.py:129-145. *)
Definition dn_inverse (N : Z) (x : Z * pv) (p : param) : res (Z * pv) :=
  y <- dn_change_param N x p PInt ;;
  match y with
  | (f, Pint r) => dn_change_param N (f, Pint ((- r * pysign f) mod N)%Z) PInt p
  | _ => Raise
  end.

(** CyclicGroup._combine cyclicgroup.py:123-150 with both operands in [p]. *)
Definition cn_combine (N : Z) (x y : pv) (p : param) : res pv :=
  a <- cn_change_param N x p PInt ;;
  b <- cn_change_param N y p PInt ;;
  match a, b with
  | Pint a, Pint b => cn_change_param N (Pint ((a + b) mod N)%Z) PInt p
  | _, _ => Raise
  end.

(** DihedralGroup._combine dihedralgroup.py:147-173 with both operands in [p]. *)
Definition dn_combine (N : Z) (x y : Z * pv) (p : param) : res (Z * pv) :=
  a <- dn_change_param N x p PInt ;;
  b <- dn_change_param N y p PInt ;;
  match a, b with
  | (f, Pint a), (g, Pint b) =>
      dn_change_param N (((f + g) mod 2)%Z, Pint ((a + pysign f * b) mod N)%Z) PInt p
  | _, _ => Raise
  end.
