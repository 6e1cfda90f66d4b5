(** Model of the irreducible representations of C_N, D_N, SO(2) and O(2), of
    their restriction to subgroups and of the Clebsch-Gordan coefficients of
    C_N and SO(2).
    Sources: /repo/escnn/group/utils.py,
      /repo/escnn/group/groups/{cyclicgroup,dihedralgroup,so2group,o2group}.py,
      /repo/escnn/group/irrep.py.
    The cache `self._irreps` is not modelled: an irrep is rebuilt on each call. *)
From Coq Require Import Reals ZArith Bool List.
From Verif Require Import LibRes LibMat LibTrig FinGroupModel ParamModel PlanarModel.
Import ListNotations.
Open Scope R_scope.

(** `-1 if s else 1` as a real *)
Definition rsign (s : Z) : R := if (s =? 0)%Z then 1 else -1.

(** psi group/utils.py:6-15 *)
Definition psi (theta : R) (k : Z) (gamma : R) : mat :=
  let x := IZR k * theta + gamma in
  mat2 (cos x) (- sin x) (sin x) (cos x).

(** chi group/utils.py:18-30 *)
Definition chi (s : Z) : res mat :=
  assert ((s =? 0)%Z || (s =? 1)%Z) ;; Ret (mat2 1 0 0 (rsign s)).

(** psichi group/utils.py:33-52 *)
Definition psichi (theta : R) (s : Z) (k : Z) (gamma : R) : res mat :=
  assert ((s =? 0)%Z || (s =? 1)%Z) ;;
  let x := IZR k * theta + gamma in
  Ret (mat2 (cos x) (- rsign s * sin x) (sin x) (rsign s * cos x)).

(** np.array([[x]]) *)
Definition mat1 (x : R) : mat := fun _ _ => x.

(** A square matrix with its size. *)
Definition sqmat := (nat * mat)%type.

(** IrreducibleRepresentation irrep.py:22-104; [ir_char] is the explicit
    `character` argument, [ir_complex] is `type == 'C'`. *)
Record irrep := {
  ir_id : list Z;
  ir_size : nat;
  ir_complex : bool;
  ir_freq : Z;
  ir_flip : option Z;
  ir_rep : pval -> res sqmat;
  ir_char : pval -> res R
}.

(** sum_of_squares_constituents irrep.py:97-104 *)
Definition ir_sosc (r : irrep) : nat := if ir_complex r then 2 else 1.

(** _build_irrep_cn cyclicgroup.py:547-561 *)
Definition build_irrep_cn (N k : Z) (e : pval) : res sqmat :=
  if (k =? 0)%Z then Ret (1%nat, mid)
  else if (N mod 2 =? 0)%Z && (k =? N / 2)%Z then
    t <- to_radians1 (Fin (Cyc N)) e ;; Ret (1%nat, mat1 (cos (IZR k * t)))
  else
    t <- to_radians1 (Fin (Cyc N)) e ;; Ret (2%nat, psi t k 0).

(** _build_char_cn cyclicgroup.py:564-579 *)
Definition build_char_cn (N k : Z) (e : pval) : res R :=
  if (k =? 0)%Z then Ret 1
  else if (N mod 2 =? 0)%Z && (k =? N / 2)%Z then
    t <- to_radians1 (Fin (Cyc N)) e ;; Ret (cos (IZR k * t))
  else
    t <- to_radians1 (Fin (Cyc N)) e ;; Ret (2 * cos (IZR k * t)).

(** CyclicGroup.irrep cyclicgroup.py:399-452 *)
Definition cn_irrep (N k : Z) : res irrep :=
  assert ((0 <=? k)%Z && (k <=? N / 2)%Z) ;;
  if (k =? 0)%Z then
    Ret {| ir_id := [k]; ir_size := 1; ir_complex := false; ir_freq := k; ir_flip := None;
           ir_rep := build_irrep_cn N 0; ir_char := build_char_cn N 0 |}
  else if (N mod 2 =? 0)%Z && (k =? N / 2)%Z then
    Ret {| ir_id := [k]; ir_size := 1; ir_complex := false; ir_freq := k; ir_flip := None;
           ir_rep := build_irrep_cn N k; ir_char := build_char_cn N k |}
  else
    Ret {| ir_id := [k]; ir_size := 2; ir_complex := true; ir_freq := k; ir_flip := None;
           ir_rep := build_irrep_cn N k; ir_char := build_char_cn N k |}.

(** _build_irrep_dn dihedralgroup.py:648-674 *)
Definition build_irrep_dn (N j k : Z) (e : pval) : res sqmat :=
  if (j =? 0)%Z then
    if (k =? 0)%Z then Ret (1%nat, mid)
    else if (N mod 2 =? 0)%Z && (k =? N / 2)%Z then
      x <- to_radians2 (Fin (Dih N)) e ;; Ret (1%nat, mat1 (cos (IZR k * snd x)))
    else Raise
  else
    if (k =? 0)%Z then
      match e with
      | VF (VD f _) => Ret (1%nat, mat1 (if (f =? 0)%Z then 1 else -1))
      | _ => Raise
      end
    else if (N mod 2 =? 0)%Z && (2 * k =? N)%Z then
      x <- to_radians2 (Fin (Dih N)) e ;;
      Ret (1%nat, mat1 (cos (IZR k * snd x) * rsign (fst x)))
    else
      x <- to_radians2 (Fin (Dih N)) e ;;
      a <- psichi (snd x) (fst x) k 0 ;; Ret (2%nat, a).

(** _build_char_dn dihedralgroup.py:677-703 *)
Definition build_char_dn (N j k : Z) (e : pval) : res R :=
  if (j =? 0)%Z then
    if (k =? 0)%Z then Ret 1
    else if (N mod 2 =? 0)%Z && (k =? N / 2)%Z then
      x <- to_radians2 (Fin (Dih N)) e ;; Ret (cos (IZR k * snd x))
    else Raise
  else
    if (k =? 0)%Z then
      match e with
      | VF (VD f _) => Ret (if (f =? 0)%Z then 1 else -1)
      | _ => Raise
      end
    else if (N mod 2 =? 0)%Z && (2 * k =? N)%Z then
      x <- to_radians2 (Fin (Dih N)) e ;; Ret (cos (IZR k * snd x) * rsign (fst x))
    else
      x <- to_radians2 (Fin (Dih N)) e ;;
      Ret (if (fst x =? 0)%Z then 2 * cos (IZR k * snd x) else 0).

(** DihedralGroup.irrep dihedralgroup.py:547-636 *)
Definition dn_irrep (N j k : Z) : res irrep :=
  assert ((j =? 0)%Z || (j =? 1)%Z) ;;
  assert ((0 <=? k)%Z && (k <=? N / 2)%Z) ;;
  let mk sz := {| ir_id := [j; k]; ir_size := sz; ir_complex := false; ir_freq := k;
                  ir_flip := Some j; ir_rep := build_irrep_dn N j k;
                  ir_char := build_char_dn N j k |} in
  if (j =? 0)%Z then
    if (k =? 0)%Z then Ret (mk 1%nat)
    else if (N mod 2 =? 0)%Z && (k =? N / 2)%Z then Ret (mk 1%nat)
    else Raise
  else
    if (k =? 0)%Z then Ret (mk 1%nat)
    else if (N mod 2 =? 0)%Z && (2 * k =? N)%Z then Ret (mk 1%nat)
    else Ret (mk 2%nat).

(** _build_irrep_so2 so2group.py:538-549, _build_char_so2 552-563 *)
Definition build_irrep_so2 (k : Z) (e : pval) : res sqmat :=
  if (k =? 0)%Z then Ret (1%nat, mid)
  else t <- to_radians1 SO2 e ;; Ret (2%nat, psi t k 0).
Definition build_char_so2 (k : Z) (e : pval) : res R :=
  if (k =? 0)%Z then Ret 1
  else t <- to_radians1 SO2 e ;; Ret (2 * cos (IZR k * t)).

(** SO2.irrep so2group.py:426-467 *)
Definition so2_irrep (k : Z) : res irrep :=
  assert (0 <=? k)%Z ;;
  if (k =? 0)%Z then
    Ret {| ir_id := [k]; ir_size := 1; ir_complex := false; ir_freq := 0; ir_flip := None;
           ir_rep := build_irrep_so2 k; ir_char := build_char_so2 k |}
  else
    Ret {| ir_id := [k]; ir_size := 2; ir_complex := true; ir_freq := k; ir_flip := None;
           ir_rep := build_irrep_so2 k; ir_char := build_char_so2 k |}.

(** _build_irrep_o2 o2group.py:724-745 *)
Definition build_irrep_o2 (j k : Z) (e : pval) : res sqmat :=
  assert ((j =? 0)%Z || (j =? 1)%Z) ;;
  assert (0 <=? k)%Z ;;
  if (j =? 0)%Z then
    if (k =? 0)%Z then Ret (1%nat, mid) else Raise
  else if (k =? 0)%Z then
    x <- to_radians2 O2 e ;; Ret (1%nat, mat1 (if (fst x =? 0)%Z then 1 else -1))
  else
    x <- to_radians2 O2 e ;; a <- psichi (snd x) (fst x) k 0 ;; Ret (2%nat, a).

(** _build_char_o2 o2group.py:748-769 *)
Definition build_char_o2 (j k : Z) (e : pval) : res R :=
  assert ((j =? 0)%Z || (j =? 1)%Z) ;;
  assert (0 <=? k)%Z ;;
  if (j =? 0)%Z then
    if (k =? 0)%Z then Ret 1 else Raise
  else if (k =? 0)%Z then
    x <- to_radians2 O2 e ;; Ret (if (fst x =? 0)%Z then 1 else -1)
  else
    x <- to_radians2 O2 e ;;
    Ret (if (fst x =? 0)%Z then 2 * cos (IZR k * snd x) else 0).

(** O2.irrep o2group.py:630-691 *)
Definition o2_irrep (j k : Z) : res irrep :=
  assert ((j =? 0)%Z || (j =? 1)%Z) ;;
  assert (0 <=? k)%Z ;;
  let mk sz := {| ir_id := [j; k]; ir_size := sz; ir_complex := false; ir_freq := k;
                  ir_flip := Some j; ir_rep := build_irrep_o2 j k;
                  ir_char := build_char_o2 j k |} in
  if (j =? 0)%Z then
    if (k =? 0)%Z then Ret (mk 1%nat) else Raise
  else if (k =? 0)%Z then Ret (mk 1%nat)
  else Ret (mk 2%nat).

(** `group.irrep( *id )`: a tuple of the wrong length is a TypeError. *)
Definition p_irrep (G : pgrp) (id : list Z) : res irrep :=
  match G, id with
  | Fin (Cyc N), [k] => cn_irrep N k
  | Fin (Dih N), [j; k] => dn_irrep N j k
  | SO2, [k] => so2_irrep k
  | O2, [j; k] => o2_irrep j k
  | _, _ => Raise
  end.

(** [A @ B] for square matrices: shapes must agree. *)
Definition sq_mul (A B : sqmat) : res sqmat :=
  assert (Nat.eqb (fst A) (fst B)) ;; Ret (fst A, mmul (fst A) (snd A) (snd B)).

(** irr.attributes["flip_frequency"] *)
Definition flip_freq (r : irrep) : res Z :=
  match ir_flip r with Some j => Ret j | None => Raise end.

(** CyclicGroup._restrict_irrep cyclicgroup.py:321-363 *)
Definition cn_restrict_irrep (N : Z) (irr : list Z) (order : Z) : res (sqmat * list (list Z)) :=
  irr <- p_irrep (Fin (Cyc N)) irr ;;
  sg <- subgroup (Cyc N) (IdC order) ;;
  let f := (ir_freq irr mod order)%Z in
  let fc := if (order <? 2 * f)%Z then ((order - f)%Z, (2%nat, mat2 1 0 0 (-1)))
            else (f, (ir_size irr, mid)) in
  let f := fst fc in
  s <- p_irrep (Fin (sg_group sg)) [f] ;;
  Ret (snd fc, [f] :: if Nat.ltb (ir_size s) (ir_size irr) then [[f]] else []).

(** DihedralGroup._restrict_irrep dihedralgroup.py:384-472 *)
Definition dn_restrict_irrep (N : Z) (irr : list Z) (axis : option Z) (order : Z)
  : res (sqmat * list (list Z)) :=
  irr <- p_irrep (Fin (Dih N)) irr ;;
  sg <- subgroup (Dih N) (IdD axis order) ;;
  match axis with
  | Some a =>
      if (order =? 1)%Z then
        j <- flip_freq irr ;;
        let k := ir_freq irr in
        let j := if (2 * k =? N)%Z then ((j + a) mod 2)%Z else j in
        if Nat.ltb 1 (ir_size irr) then
          Ret ((2%nat, psi (1 / 2 * IZR a * 2 * PI / IZR N) k 0), [[0%Z]; [j]])
        else Ret ((ir_size irr, mid), [[j]])
      else
        let f := ir_freq irr in
        j <- flip_freq irr ;;
        let j := if (2 * f =? N)%Z then ((j + a) mod 2)%Z else j in
        let k := (f mod order)%Z in
        c <- chi 1 ;;
        let kc := if (order <? 2 * k)%Z then ((order - k)%Z, (2%nat, c))
                  else (k, (ir_size irr, mid)) in
        let k := fst kc in
        s <- p_irrep (Fin (sg_group sg)) [j; k] ;;
        let irreps := if Nat.ltb (ir_size s) (ir_size irr) then [[0%Z; k]; [j; k]] else [[j; k]] in
        if Nat.eqb (ir_size irr) 2 then
          cob <- sq_mul (2%nat, psi (1 / 2 * IZR a * 2 * PI / IZR N) f 0) (snd kc) ;;
          Ret (cob, irreps)
        else Ret (snd kc, irreps)
  | None =>
      let f := (ir_freq irr mod order)%Z in
      c <- chi 1 ;;
      let fc := if (order <? 2 * f)%Z then ((order - f)%Z, (2%nat, c))
                else (f, (ir_size irr, mid)) in
      let f := fst fc in
      s <- p_irrep (Fin (sg_group sg)) [f] ;;
      Ret (snd fc, [f] :: if Nat.ltb (ir_size s) (ir_size irr) then [[f]] else [])
  end.

(** Group._restrict_irrep of the finite groups, by kind of group and id. *)
Definition fin_restrict_irrep (G : grp) (irr : list Z) (id : sgid) : res (sqmat * list (list Z)) :=
  match G, id with
  | Cyc N, IdC M => cn_restrict_irrep N irr M
  | Dih N, IdD a M => dn_restrict_irrep N irr a M
  | _, _ => Raise
  end.

(** SO2._restrict_irrep so2group.py:316-361.
    For id -1 it returns the change of basis (the identity) and irreps of the irrep itself. *)
Definition so2_restrict_irrep (irr : list Z) (id : Z) : res (sqmat * list (list Z)) :=
  irr <- p_irrep SO2 irr ;;
  sg <- p_subgroup SO2 (ISO2 id) ;;
  if (id =? -1)%Z then Ret ((ir_size irr, mid), [ir_id irr])
  else
    let f := (ir_freq irr mod id)%Z in
    let fc := if (id <? 2 * f)%Z then ((id - f)%Z, (2%nat, mat2 1 0 0 (-1)))
              else (f, (ir_size irr, mid)) in
    let f := fst fc in
    s <- p_irrep (ps_group sg) [f] ;;
    Ret (snd fc, [f] :: if Nat.ltb (ir_size s) (ir_size irr) then [[f]] else []).

(** O2._restrict_irrep o2group.py:427-519 *)
Definition o2_restrict_irrep (irr : list Z) (axis : option R) (order : Z)
  : res (sqmat * list (list Z)) :=
  irr <- p_irrep O2 irr ;;
  sg <- p_subgroup O2 (IO2 axis order) ;;
  match axis with
  | Some a =>
      if (order =? -1)%Z then
        let cob := (ir_size irr, mid) in
        if Nat.eqb (ir_size irr) 2 then
          cob <- sq_mul (2%nat, psi (1 / 2 * a) (ir_freq irr) 0) cob ;; Ret (cob, [ir_id irr])
        else Ret (cob, [ir_id irr])
      else if (order =? 1)%Z then
        j <- flip_freq irr ;;
        let k := ir_freq irr in
        if Nat.ltb 1 (ir_size irr) then Ret ((2%nat, psi (1 / 2 * a) k 0), [[0%Z]; [j]])
        else Ret ((ir_size irr, mid), [[j]])
      else
        j <- flip_freq irr ;;
        let f := ir_freq irr in
        let k := (f mod order)%Z in
        let kc := if (order <? 2 * k)%Z then ((order - k)%Z, (2%nat, mat2 1 0 0 (-1)))
                  else (k, (ir_size irr, mid)) in
        let k := fst kc in
        s <- p_irrep (ps_group sg) [j; k] ;;
        let irreps := (if Nat.ltb (ir_size s) (ir_size irr) then [[0%Z; k]] else []) ++ [[j; k]] in
        if Nat.eqb (ir_size irr) 2 then
          cob <- sq_mul (2%nat, psi (1 / 2 * a) f 0) (snd kc) ;; Ret (cob, irreps)
        else Ret (snd kc, irreps)
  | None =>
      if (order =? -1)%Z then Ret ((ir_size irr, mid), [[ir_freq irr]])
      else
        let f := (ir_freq irr mod order)%Z in
        c <- chi 1 ;;
        let fc := if (order <? 2 * f)%Z then ((order - f)%Z, (2%nat, c))
                  else (f, (ir_size irr, mid)) in
        let f := fst fc in
        s <- p_irrep (ps_group sg) [f] ;;
        Ret (snd fc, (if Nat.ltb (ir_size s) (ir_size irr) then [[f]] else []) ++ [[f]])
  end.

Definition p_restrict_irrep (G : pgrp) (irr : list Z) (id : psgid) : res (sqmat * list (list Z)) :=
  match G, id with
  | SO2, ISO2 M => so2_restrict_irrep irr M
  | O2, IO2 a M => o2_restrict_irrep irr a M
  | _, _ => Raise
  end.

(** endomorphism_basis irrep.py:106-114: [np.eye] for 'R'; for 'C' the
    identity and [[0, -1], [1, 0]] (diag([1,-1]) with its rows reversed),
    each tensored with eye(size // 2). *)
Definition endomorphism_basis (r : irrep) : list mat :=
  if ir_complex r then
    let h := Nat.div (ir_size r) 2 in
    [kron h h mid mid; kron h h (mat2 0 (-1) 1 0) mid]
  else [mid].

(** bl_irreps: cyclicgroup.py:454-461, dihedralgroup.py:518-541,
    so2group.py:404-411, o2group.py:605-615 *)
Definition bl_irreps (G : pgrp) (L : Z) : res (list (list Z)) :=
  match G with
  | Fin (Cyc N) =>
      assert ((0 <=? L)%Z && (L <=? N / 2)%Z) ;; Ret (map (fun l => [l]) (zrange (L + 1)))
  | Fin (Dih N) =>
      assert ((0 <=? L)%Z && (L <=? N / 2)%Z) ;;
      Ret ([0%Z; 0%Z] :: map (fun k => [1%Z; k]) (zrange (L + 1))
           ++ (if (N mod 2 =? 0)%Z && (L =? N / 2)%Z then [[0%Z; L]] else []))
  | SO2 => assert (0 <=? L)%Z ;; Ret (map (fun l => [l]) (zrange (L + 1)))
  | O2 => assert (0 <=? L)%Z ;; Ret ([0%Z; 0%Z] :: map (fun l => [1%Z; l]) (zrange (L + 1)))
  end.

(** The irreps created by _build_representations of the finite groups, in the
    order of creation: cyclicgroup.py:374-375, dihedralgroup.py:485-495.
    For even N, `(0, N/2)` has N/2 >= 1, so it is a new key of `_irreps`. *)
Definition built_irreps (G : grp) : list (list Z) :=
  match G with
  | Cyc N => map (fun k => [k]) (zrange (N / 2 + 1))
  | Dih N =>
      [0%Z; 0%Z] :: map (fun k => [1%Z; k]) (zrange (N / 2 + 1))
      ++ (if (N mod 2 =? 0)%Z then [[0%Z; (N / 2)%Z]] else [])
  end.

(** _tensor_product_irreps cyclicgroup.py:509-535, so2group.py:502-523 *)
Definition cn_tensor_irreps (N J l : Z) : list (list Z * nat) :=
  let j := if (J + l <=? N / 2)%Z then (J + l)%Z else (N - J - l)%Z in
  let m := if (2 * j <? N)%Z then 1%nat else 2%nat in
  if (J =? 0)%Z || (l =? 0)%Z then [([(l + J)%Z], 1%nat)]
  else if (N mod 2 =? 0)%Z && ((J =? N / 2)%Z || (l =? N / 2)%Z) then [([j], 1%nat)]
  else if (l =? J)%Z then [([0%Z], 2%nat); ([j], m)]
  else [([Z.abs (l - J)], 1%nat); ([j], m)].
Definition so2_tensor_irreps (J l : Z) : list (list Z * nat) :=
  if (J =? 0)%Z then [([l], 1%nat)]
  else if (l =? 0)%Z then [([J], 1%nat)]
  else if (l =? J)%Z then [([0%Z], 2%nat); ([(l + J)%Z], 1%nat)]
  else [([Z.abs (l - J)], 1%nat); ([(l + J)%Z], 1%nat)].

(** An array of shape (d0, d1, d2, d3) as its shape and its entries. *)
Record arr4 := { a_d0 : nat; a_d1 : nat; a_d2 : nat; a_d3 : nat;
                 a_at : nat -> nat -> nat -> nat -> R }.

(** `c.reshape(d0, d1, d2, d3)` of a matrix with [w] columns and [h] rows: entry
    (a,b,s,i) is the entry of the flattened matrix at the row-major position;
    the number of entries must agree. *)
Definition reshape4 (h w : nat) (c : mat) (d0 d1 d2 d3 : nat) : res arr4 :=
  assert (Nat.eqb (h * w) (d0 * d1 * d2 * d3)) ;;
  Ret {| a_d0 := d0; a_d1 := d1; a_d2 := d2; a_d3 := d3;
         a_at := fun a b s i =>
           let p := (((a * d1 + b) * d2 + s) * d3 + i)%nat in c (Nat.div p w) (Nat.modulo p w) |}.

(** The entries missing, `np.zeros((d0, d1, 0, d3))`. *)
Definition zeros4 (d0 d1 d3 : nat) : arr4 :=
  {| a_d0 := d0; a_d1 := d1; a_d2 := 0; a_d3 := d3; a_at := fun _ _ _ _ => 0 |}.

(** .transpose(1, 0, 2, 3) *)
Definition transpose1023 (x : arr4) : arr4 :=
  {| a_d0 := a_d1 x; a_d1 := a_d0 x; a_d2 := a_d2 x; a_d3 := a_d3 x;
     a_at := fun a b s i => a_at x b a s i |}.

(** The 4 x 4 table of cyclicgroup.py:489-494 and so2group.py:484-489. *)
Definition cg_table : mat := fun r c =>
  (match r, c with
   | 0, 0 => 1%R | 0, 2 => 1%R | 1, 1 => 1%R | 1, 3 => 1%R
   | 2, 1 => (-1)%R | 2, 3 => 1%R | 3, 0 => 1%R | 3, 2 => (-1)%R
   | _, _ => 0%R
   end)%nat / sqrt 2.

(** cg[:, 2:] and cg[:, :2] with optionally `cg[:, 1] *= -1` *)
Definition cg_cols (from : nat) (conj : bool) : mat := fun r c =>
  (if conj && Nat.eqb c 1 then -1 else 1) * cg_table r (from + c)%nat.

(** cg.reshape(rho_n.size, rho_m.size, -1, rho_j.size).transpose(1, 0, 2, 3) for
    the 4 x 2 matrix [c]; the free dimension is 4*2 / (size_n*size_m*size_j). *)
Definition cg_finish (sm sn sj : nat) (c : mat) : res arr4 :=
  x <- reshape4 4 2 c sn sm (8 / (sn * sm * sj))%nat sj ;; Ret (transpose1023 x).

(** cg = np.eye(s), `cg[:, 1] *= -1` *)
Definition eye_conj : mat := fun r c => (if Nat.eqb c 1 then -1 else 1) * mid r c.

(** CyclicGroup._clebsh_gordan_coeff cyclicgroup.py:463-507 *)
Definition cn_cg (N m n j : Z) : res arr4 :=
  rm <- cn_irrep N m ;; rn <- cn_irrep N n ;; rj <- cn_irrep N j ;;
  let sm := ir_size rm in let sn := ir_size rn in let sj := ir_size rj in
  if (m =? 0)%Z || (n =? 0)%Z then
    if (j =? m + n)%Z then reshape4 sj sj mid sm sn 1 sj else Ret (zeros4 sm sn sj)
  else if (N mod 2 =? 0)%Z && ((m =? N / 2)%Z || (n =? N / 2)%Z) then
    if (j =? m + n)%Z then reshape4 sj sj mid sm sn 1 sj
    else if (j =? N - m - n)%Z then
      reshape4 sj sj (if Nat.ltb 1 sj then eye_conj else mid) sm sn 1 sj
    else Ret (zeros4 sm sn sj)
  else
    if (j =? m + n)%Z then cg_finish sm sn sj (cg_cols 2 false)
    else if (j =? N - m - n)%Z then cg_finish sm sn sj (cg_cols 2 true)
    else if (j =? m - n)%Z then cg_finish sm sn sj (cg_cols 0 false)
    else if (j =? n - m)%Z then cg_finish sm sn sj (cg_cols 0 true)
    else Ret (zeros4 sm sn sj).

(** SO2._clebsh_gordan_coeff so2group.py:469-500. As in the cyclic case the last
    `else` reshapes an array without entries; numpy makes the free dimension 0. *)
Definition so2_cg (m n j : Z) : res arr4 :=
  rm <- so2_irrep m ;; rn <- so2_irrep n ;; rj <- so2_irrep j ;;
  let sm := ir_size rm in let sn := ir_size rn in let sj := ir_size rj in
  if (m =? 0)%Z || (n =? 0)%Z then
    if (j =? m + n)%Z then reshape4 sj sj mid sm sn 1 sj else Ret (zeros4 sm sn sj)
  else
    if (j =? m + n)%Z then cg_finish sm sn sj (cg_cols 2 false)
    else if (j =? m - n)%Z then cg_finish sm sn sj (cg_cols 0 false)
    else if (j =? n - m)%Z then cg_finish sm sn sj (cg_cols 0 true)
    else Ret (zeros4 sm sn sj).
