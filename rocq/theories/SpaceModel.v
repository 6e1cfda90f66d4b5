(** Model of SO(3) and O(3) and of their planar subgroups.
    Sources: /repo/escnn/group/groups/so3_utils.py, so3group.py, o3group.py,
             utils.py, /repo/escnn/group/group.py, directproduct.py.

    Only the parametrisations 'Q' (the one elements are stored in) and 'MAT' are
    modelled; the polyhedral subgroups 'ico', 'octa', 'tetra', 'fulltetra' are
    not part of the ids below.  scipy's [Rotation] is a unit quaternion, scalar
    last, as in scipy: `from_quat` normalises, `*` is the Hamilton product,
    `inv` conjugates, `as_quat` returns the quaternion as it is.  Numbers are
    exact reals. *)
From Coq Require Import Reals ZArith Bool List.
From Verif Require Import LibRes LibMat LibTrig FinGroupModel ParamModel PlanarModel.
Import ListNotations.
Open Scope R_scope.

(** A numpy array of shape (4,): x, y, z, w. *)
Record quat := Quat { qx : R; qy : R; qz : R; qw : R }.

Definition qsq (q : quat) : R := qx q * qx q + qy q * qy q + qz q * qz q + qw q * qw q.
(** np.linalg.norm *)
Definition qnorm (q : quat) : R := sqrt (qsq q).
Definition qscal (c : R) (q : quat) : quat := Quat (c * qx q) (c * qy q) (c * qz q) (c * qw q).
Definition qopp (q : quat) : quat := Quat (- qx q) (- qy q) (- qz q) (- qw q).

(** Rotation.__mul__ *)
Definition qmul (p q : quat) : quat :=
  Quat (qw p * qx q + qx p * qw q + qy p * qz q - qz p * qy q)
       (qw p * qy q - qx p * qz q + qy p * qw q + qz p * qx q)
       (qw p * qz q + qx p * qy q - qy p * qx q + qz p * qw q)
       (qw p * qw q - qx p * qx q - qy p * qy q - qz p * qz q).

(** Rotation.inv *)
Definition qconj (q : quat) : quat := Quat (- qx q) (- qy q) (- qz q) (qw q).

(** A literal 3x3 array. *)
Definition mat3 (a b c d e f g h k : R) : mat :=
  fun i j => match i, j with
             | O, O => a | O, S O => b | O, _ => c
             | S O, O => d | S O, S O => e | S O, _ => f
             | _, O => g | _, S O => h | _, _ => k
             end.

(** Rotation.as_matrix *)
Definition as_matrix (q : quat) : mat :=
  let x := qx q in let y := qy q in let z := qz q in let w := qw q in
  mat3 (x * x - y * y - z * z + w * w) (2 * (x * y - z * w)) (2 * (x * z + y * w))
       (2 * (x * y + z * w)) (- x * x + y * y - z * z + w * w) (2 * (y * z - x * w))
       (2 * (x * z - y * w)) (2 * (y * z + x * w)) (- x * x - y * y + z * z + w * w).

(** _to_scipy_rot so3_utils.py:70-77 with param = 'Q' *)
Definition to_rot (q : quat) : res quat :=
  assert (np_isclose (/ 10 ^ 8) (qnorm q) 1) ;; Ret (qscal (/ qnorm q) q).

(** _invert so3_utils.py:125-130 *)
Definition q_invert (q : quat) : res quat := r <- to_rot q ;; Ret (qconj r).

(** _combine so3_utils.py:133-152 *)
Definition q_combine (p q : quat) : res quat :=
  r <- to_rot p ;; s <- to_rot q ;; Ret (qmul r s).

(** np.allclose of two quaternions with rtol = 1e-5 *)
Definition qallclose (atol : R) (p q : quat) : bool :=
  np_isclose atol (qx p) (qx q) && np_isclose atol (qy p) (qy q)
  && np_isclose atol (qz p) (qz q) && np_isclose atol (qw p) (qw q).

(** _equal so3_utils.py:155-180 *)
Definition q_equal (p q : quat) : res bool :=
  r <- to_rot p ;; s <- to_rot q ;;
  Ret (qallclose (/ 10 ^ 7) r s || qallclose (/ 10 ^ 7) (qopp r) s).

(** np.around(x, 4) *)
Definition around4 (x : R) : R := IZR (pyround (x * 10 ^ 4)) / 10 ^ 4.

(** the tuple that _hash passes to `hash`, so3_utils.py:183-185 *)
Definition q_hash_key (q : quat) : res (list R) :=
  r <- to_rot q ;;
  Ret (flat_map (fun i => map (fun j => around4 (as_matrix r i j)) [0; 1; 2]%nat) [0; 1; 2]%nat).

(** _check_param so3_utils.py:116-122, SO3._is_element so3group.py:141-148 *)
Definition so3_is_element (q : quat) : bool :=
  match to_rot q with Ret _ => true | Raise => false end.

(** GroupElement.__init__ group.py:985-1002; 'Q' to 'Q' changes nothing,
    so3_utils.py:106-109 *)
Definition so3_element (q : quat) : res quat := if so3_is_element q then Ret q else Raise.

(** GroupElement.__matmul__, __invert__ group.py:1010-1028 *)
Definition so3_mul (p q : quat) : res quat := u <- q_combine p q ;; so3_element u.
Definition so3_inv (q : quat) : res quat := u <- q_invert q ;; so3_element u.

(** IDENTITY so3_utils.py:246 *)
Definition so3_id : quat := Quat 0 0 0 1.

(** An element of O(3): (inversion, rotation). *)
Definition oval := (Z * quat)%type.

(** O3._is_element o3group.py:225-242 *)
Definition o3_element (e : oval) : res oval :=
  if ((fst e =? 0) || (fst e =? 1))%Z && so3_is_element (snd e) then Ret e else Raise.

(** O3._combine, _inverse o3group.py:159-187 *)
Definition o3_mul (a b : oval) : res oval :=
  u <- q_combine (snd a) (snd b) ;; o3_element (((fst a + fst b) mod 2)%Z, u).
Definition o3_inv (a : oval) : res oval :=
  u <- q_invert (snd a) ;; o3_element (fst a, u).

(** _identity, _inversion o3group.py:112-113 *)
Definition o3_id : oval := (0%Z, so3_id).
Definition o3_inversion : oval := (1%Z, so3_id).

(** O3._equal o3group.py:189-208 *)
Definition o3_equal (a b : oval) : res bool :=
  if (fst a =? fst b)%Z then q_equal (snd a) (snd b) else Ret false.

(** what O3._hash_element o3group.py:210-212 adds the hashes of *)
Definition o3_hash_key (a : oval) : res (Z * list R) :=
  k <- q_hash_key (snd a) ;; Ret ((fst a * 100)%Z, k).

(** The groups occurring as subgroups: planar groups, SO(3), O(3), and the
    direct product of C_2 with a planar group. *)
Inductive sgrp := GP (G : pgrp) | GSO3 | GO3 | GCyl (G : pgrp).
(** Their elements. *)
Inductive sval := EP (v : pval) | EQ (q : quat) | EO (e : oval) | EC (i : Z) (v : pval).

(** Multiplication in them; DirectProductGroup._combine directproduct.py:262-276
    acts componentwise. *)
Definition smul (G : sgrp) (a b : sval) : res sval :=
  match G, a, b with
  | GP G, EP v, EP w => u <- pmul G v w ;; Ret (EP u)
  | GSO3, EQ p, EQ q => u <- so3_mul p q ;; Ret (EQ u)
  | GO3, EO p, EO q => u <- o3_mul p q ;; Ret (EO u)
  | GCyl G, EC i v, EC j w => u <- pmul G v w ;; Ret (EC ((i + j) mod 2)%Z u)
  | _, _, _ => Raise
  end.

(** A subgroup: the group, the inclusion, the restriction. *)
Record ssub (T : Type) := {
  s3_group : sgrp;
  s3_incl : sval -> res T;
  s3_restr : T -> res (option sval)
}.
Arguments s3_group {T}. Arguments s3_incl {T}. Arguments s3_restr {T}.

(** `group.element((f, t), 'radians')` for D_N and O(2) *)
Definition element_radians2 (G : pgrp) (f : Z) (t : R) : res pval :=
  match G with
  | Fin (Dih N) =>
      x <- dn_change_param N (f, Pfloat t) PRad PInt ;;
      match x with
      | (g, Pint r) => if is_element (Dih N) (VD g r) then Ret (VF (VD g r)) else Raise
      | _ => Raise
      end
  | O2 => pelement O2 (VO f t)
  | _ => Raise
  end.

(** `try: return x except ValueError: return None` *)
Definition or_none {A} (x : res A) : res (option A) :=
  match x with Ret u => Ret (Some u) | Raise => Ret None end.

(** np.allclose(e[:2], 0.) and np.allclose(e[2:], 0.) *)
Definition xy_zero (q : quat) : bool :=
  np_isclose (/ 10 ^ 8) (qx q) 0 && np_isclose (/ 10 ^ 8) (qy q) 0.
Definition zw_zero (q : quat) : bool :=
  np_isclose (/ 10 ^ 8) (qz q) 0 && np_isclose (/ 10 ^ 8) (qw q) 0.

(** np.asarray([0., 0., np.sin(t), np.cos(t)]) *)
Definition turn_z (t : R) : quat := Quat 0 0 (sin t) (cos t).

(** adj @ e @ (~adj) and (~adj) @ e @ adj *)
Definition so3_to_adj (adj e : quat) : res quat :=
  u <- so3_mul adj e ;; i <- so3_inv adj ;; so3_mul u i.
Definition so3_from_adj (adj e : quat) : res quat :=
  i <- so3_inv adj ;; u <- so3_mul i e ;; so3_mul u adj.
Definition o3_to_adj (adj e : oval) : res oval :=
  u <- o3_mul adj e ;; i <- o3_inv adj ;; o3_mul u i.
Definition o3_from_adj (adj e : oval) : res oval :=
  i <- o3_inv adj ;; u <- o3_mul i e ;; o3_mul u adj.

(** The quaternion of a planar rotation: so2_to_so3 so3group.py:1011-1013,
    so2_to_o3 o3group.py:1370-1383, cyl_to_o3 o3group.py:1653-1669. *)
Definition turn_quat (sg : pgrp) (v : pval) : res quat :=
  t <- to_radians1 sg v ;; Ret (turn_z (t / 2)).

(** The quaternion of an element of O(2) or D_N: o2_to_so3 so3group.py:1064-1074,
    dih_to_o3 o3group.py:1425-1448, fullcyl_to_o3 o3group.py:1711-1735. *)
Definition dih_quat (sg : pgrp) (v : pval) : res quat :=
  x <- to_radians2 sg v ;;
  let t := snd x / 2 in
  if (fst x =? 0)%Z then Ret (turn_z t)
  else if (fst x =? 1)%Z then Ret (Quat (cos t) (sin t) 0 0)
  else Raise.

(** The two restrictions on a quaternion already moved by adj:
    so3group.py:988-999 and so3group.py:1031-1052. *)
Definition turn_of (sg : pgrp) (e : quat) : res (option pval) :=
  if xy_zero e then or_none (element_radians sg (2 * atan2 (qz e) (qw e))) else Ret None.

Definition dih_of (sg : pgrp) (e : quat) : res (option pval) :=
  if xy_zero e then or_none (element_radians2 sg 0 (2 * atan2 (qz e) (qw e)))
  else if zw_zero e then or_none (element_radians2 sg 1 (2 * atan2 (qy e) (qx e)))
  else Ret None.

Definition opt_map {A B} (f : A -> B) (x : res (option A)) : res (option B) :=
  o <- x ;; Ret (match o with Some a => Some (f a) | None => None end).

(** so2_to_so3, so3_to_so2 so3group.py:979-1017 *)
Definition so2_to_so3 (adj : quat) (sg : pgrp) (e : sval) : res quat :=
  match e with
  | EP v => q <- turn_quat sg v ;; g <- so3_element q ;; so3_from_adj adj g
  | _ => Raise
  end.
Definition so3_to_so2 (adj : quat) (sg : pgrp) (e : quat) : res (option sval) :=
  u <- so3_to_adj adj e ;; opt_map EP (turn_of sg u).

(** o2_to_so3, so3_to_o2 so3group.py:1022-1078 *)
Definition o2_to_so3 (adj : quat) (sg : pgrp) (e : sval) : res quat :=
  match e with
  | EP v => q <- dih_quat sg v ;; g <- so3_element q ;; so3_from_adj adj g
  | _ => Raise
  end.
Definition so3_to_o2 (adj : quat) (sg : pgrp) (e : quat) : res (option sval) :=
  u <- so3_to_adj adj e ;; opt_map EP (dih_of sg u).

(** The first entry of a planar id: a bool, or a float (twice the flip axis). *)
Inductive flipspec := FBool (b : bool) | FFloat (a : R).
(** Subgroup ids of SO(3), without the adjoint: 'so3' or (flip, N). *)
Inductive so3id := S3Self | S3Plane (f : flipspec) (N : Z).
(** The same after _process_subgroup_id. *)
Inductive so3pid := S3PSelf | S3PPlane (b : bool) (N : Z).

(** SO3._process_subgroup_id so3group.py:327-361; [adj] is the last entry of the
    id, the identity when the id does not end with an element. *)
Definition so3_process (id : so3id) (adj : quat) : res (so3pid * quat) :=
  match id with
  | S3Self => Ret (S3PSelf, adj)
  | S3Plane f N =>
      x <- match f with
           | FFloat a =>
               let flip_axis := a / 2 in
               flip <- so3_element (turn_z (flip_axis / 2)) ;;
               i <- so3_inv flip ;;
               adj <- so3_mul i adj ;; Ret (true, adj)
           | FBool b => Ret (b, adj)
           end ;;
      if fst x && (N =? 1)%Z then
        ca <- so3_element (Quat 0 (sin (- PI / 4)) 0 (cos (- PI / 4))) ;;
        adj <- so3_mul ca (snd x) ;; Ret (S3PPlane false 2, adj)
      else Ret (S3PPlane (fst x) N, snd x)
  end.

(** SO3._subgroup so3group.py:364-459 *)
Definition so3_subgroup' (id : so3pid) (adj : quat) : res (ssub quat) :=
  let cyc G := {| s3_group := GP G; s3_incl := so2_to_so3 adj G; s3_restr := so3_to_so2 adj G |} in
  let dih G := {| s3_group := GP G; s3_incl := o2_to_so3 adj G; s3_restr := so3_to_o2 adj G |} in
  match id with
  | S3PSelf =>
      Ret {| s3_group := GSO3;
             s3_incl := fun e => match e with EQ q => so3_from_adj adj q | _ => Raise end;
             s3_restr := fun e => u <- so3_to_adj adj e ;; Ret (Some (EQ u)) |}
  | S3PPlane false N =>
      if (N =? -1)%Z then Ret (cyc SO2)
      else if (0 <? N)%Z then Ret (cyc (Fin (Cyc N))) else Raise
  | S3PPlane true N =>
      if (N =? -1)%Z then Ret (dih O2)
      else if (1 <? N)%Z then Ret (dih (Fin (Dih N))) else Raise
  end.

(** Group.subgroup group.py:316-343 *)
Definition so3_subgroup (id : so3id) (adj : quat) : res (ssub quat) :=
  x <- so3_process id adj ;; so3_subgroup' (fst x) (snd x).

(** Ids of a subgroup of a subgroup: of SO(3) (with its adjoint), an int for
    C_N and SO(2), (axis | None, int) for O(2), (int | None, int) for D_N. *)
Inductive subid :=
| BSO3 (id : so3id) (adj : quat)
| BInt (n : Z)
| BO2 (axis : option R) (n : Z)
| BDih (axis : option Z) (n : Z).

(** SO3._combine_subgroups so3group.py:461-536, without the 'ico' case;
    Group._process_subgroup_id of the planar groups returns the id unchanged,
    group.py:313-314. *)
Definition so3_combine_subgroups (id1 : so3id) (adj1 : quat) (id2 : subid) : res (so3id * quat) :=
  x <- so3_process id1 adj1 ;;
  sg1 <- so3_subgroup' (fst x) (snd x) ;;
  match fst x, id2 with
  | S3PSelf, BSO3 id2 adj2 =>
      y <- so3_process id2 adj2 ;;
      adjoint2 <- s3_incl sg1 (EQ (snd y)) ;;
      adj <- so3_mul (snd x) adjoint2 ;;
      Ret (match fst y with S3PSelf => S3Self | S3PPlane b n => S3Plane (FBool b) n end, adj)
  | S3PPlane false _, BInt n => Ret (S3Plane (FBool false) n, snd x)
  | S3PPlane true N, BO2 (Some a) n =>
      if (N =? -1)%Z then Ret (S3Plane (FFloat a) n, snd x) else Raise
  | S3PPlane true N, BO2 None n =>
      if (N =? -1)%Z then Ret (S3Plane (FBool false) n, snd x) else Raise
  | S3PPlane true N, BDih (Some k) n =>
      if (0 <? N)%Z then Ret (S3Plane (FFloat (IZR k * 2 * PI / IZR N)) n, snd x) else Raise
  | S3PPlane true N, BDih None n =>
      if (0 <? N)%Z then Ret (S3Plane (FBool false) n, snd x) else Raise
  | _, _ => Raise
  end.

(** `sg1.subgroup(sg_id2)`: the subgroup of a subgroup and its inclusion. *)
Definition sub_subgroup (G : sgrp) (id : subid) : res (sgrp * (sval -> res sval)) :=
  let lift incl := fun h => match h with EP v => u <- incl v ;; Ret (EP u) | _ => Raise end in
  let fin_lift incl :=
    fun h => match h with EP (VF v) => u <- incl v ;; Ret (EP (VF u)) | _ => Raise end in
  match G, id with
  | GSO3, BSO3 id adj =>
      s <- so3_subgroup id adj ;;
      Ret (s3_group s, fun h => g <- s3_incl s h ;; Ret (EQ g))
  | GP SO2, BInt n => s <- p_subgroup SO2 (ISO2 n) ;; Ret (GP (ps_group s), lift (ps_incl s))
  | GP O2, BO2 axis n => s <- p_subgroup O2 (IO2 axis n) ;; Ret (GP (ps_group s), lift (ps_incl s))
  | GP (Fin (Cyc N)), BInt n =>
      s <- subgroup (Cyc N) (IdC n) ;; Ret (GP (Fin (sg_group s)), fin_lift (sg_incl s))
  | GP (Fin (Dih N)), BDih axis n =>
      s <- subgroup (Dih N) (IdD axis n) ;; Ret (GP (Fin (sg_group s)), fin_lift (sg_incl s))
  | _, _ => Raise
  end.
