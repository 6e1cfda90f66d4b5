(** Model of the cyclic groups C_N and the dihedral groups D_N.
    Sources: /repo/escnn/group/groups/cyclicgroup.py,
             /repo/escnn/group/groups/dihedralgroup.py,
             /repo/escnn/group/group.py.
    Only the default 'int' parametrisation is modelled here; the 'radians' and
    'MAT' parametrisations are in [ParamModel]. *)
From Coq Require Import List ZArith Bool.
From Verif Require Import LibRes.
Import ListNotations.
Open Scope Z_scope.

(** A group object: CyclicGroup(N) or DihedralGroup(N).
    cyclicgroup.py:29-69, dihedralgroup.py:26-96. *)
Inductive grp := Cyc (N : Z) | Dih (N : Z).

(** The values stored in a GroupElement: an int for C_N, a pair of ints
    (flip, rotation) for D_N. *)
Inductive val := VC (r : Z) | VD (f r : Z).

(** `assert isinstance(N, int) and N > 0` cyclicgroup.py:55, dihedralgroup.py:85 *)
Definition valid_grp (G : grp) : bool :=
  match G with Cyc N => 0 <? N | Dih N => 0 <? N end.

(** Python's `-1 if f else 1` *)
Definition pysign (f : Z) : Z := if f =? 0 then 1 else -1.

(** _is_element: cyclicgroup.py:174-180, dihedralgroup.py:175-181.
    A value of the wrong Python type is not an element. *)
Definition is_element (G : grp) (v : val) : bool :=
  match G, v with
  | Cyc N, VC r => (0 <=? r) && (r <? N)
  | Dih N, VD f r => ((f =? 0) || (f =? 1)) && ((0 <=? r) && (r <? N))
  | _, _ => false
  end.

(** GroupElement.__init__ group.py:985-1002 (via Group.element group.py:92-113):
    raises ValueError when the value is not an element. *)
Definition element (G : grp) (v : val) : res val :=
  if is_element G v then Ret v else Raise.

(** _combine: cyclicgroup.py:123-150, dihedralgroup.py:147-173 *)
Definition combine (G : grp) (v w : val) : res val :=
  match G, v, w with
  | Cyc N, VC a, VC b => Ret (VC ((a + b) mod N))
  | Dih N, VD f a, VD g b =>
      Ret (VD ((f + g) mod 2) ((a + pysign f * b) mod N))
  | _, _, _ => Raise
  end.

(** _inverse: cyclicgroup.py:107-121, dihedralgroup.py:129-145 *)
Definition inverse (G : grp) (v : val) : res val :=
  match G, v with
  | Cyc N, VC a => Ret (VC ((- a) mod N))
  | Dih N, VD f a => Ret (VD f ((- a * pysign f) mod N))
  | _, _ => Raise
  end.

(** GroupElement.__matmul__ group.py:1010-1021: the product goes through the
    constructor again. *)
Definition gmul (G : grp) (v w : val) : res val :=
  u <- combine G v w ;; element G u.

(** GroupElement.__invert__ group.py:1023-1028 *)
Definition ginv (G : grp) (v : val) : res val :=
  u <- inverse G v ;; element G u.

(** identity: cyclicgroup.py:67, dihedralgroup.py:93 *)
Definition gid (G : grp) : val :=
  match G with Cyc _ => VC 0 | Dih _ => VD 0 0 end.

(** Python's range(n) *)
Definition zrange (n : Z) : list Z := map Z.of_nat (seq 0 (Z.to_nat n)).

(** elements: cyclicgroup.py:64, dihedralgroup.py:91 *)
Definition elements (G : grp) : res (list val) :=
  match G with
  | Cyc N => mapM (fun i => element G (VC i)) (zrange N)
  | Dih N =>
      l0 <- mapM (fun i => element G (VD 0 i)) (zrange N) ;;
      l1 <- mapM (fun i => element G (VD 1 i)) (zrange N) ;;
      Ret (l0 ++ l1)
  end.

(** order(): number of elements, group.py:79-90 *)
Definition order (G : grp) : res Z :=
  l <- elements G ;; Ret (Z.of_nat (length l)).

(** generators: cyclicgroup.py:71-77, dihedralgroup.py:98-103 *)
Definition generators (G : grp) : res (list val) :=
  match G with
  | Cyc N => if 1 <? N then mapM (element G) [VC 1] else Ret []
  | Dih N => if 1 <? N then mapM (element G) [VD 0 1; VD 1 0]
             else mapM (element G) [VD 1 0]
  end.

(** Subgroup ids: an int for C_N, a pair (axis | None, order) for D_N. *)
Inductive sgid := IdC (M : Z) | IdD (axis : option Z) (M : Z).

(** Inclusion maps.
    - [_build_parent_map] cyclicgroup.py:582-586
    - [flip_to_dn] dihedralgroup.py:760-772
    - [cn_to_dn]   dihedralgroup.py:725-736
    - [dm_to_dn]   dihedralgroup.py:795-806 *)
Definition parent_c (N M : Z) (v : val) : res val :=
  match v with
  | VC i => element (Cyc N) (VC (i * N / M))
  | _ => Raise
  end.
Definition flip_to_dn (axis N : Z) (v : val) : res val :=
  match v with
  | VC f => if f =? 0 then Ret (VD 0 0) else element (Dih N) (VD 1 axis)
  | _ => Raise
  end.
Definition cn_to_dn (N M : Z) (v : val) : res val :=
  match v with
  | VC i => element (Dih N) (VD 0 (i * (N / M)))
  | _ => Raise
  end.
Definition dm_to_dn (axis N M : Z) (v : val) : res val :=
  match v with
  | VD f rot => element (Dih N) (VD f (rot * (N / M) + f * axis))
  | _ => Raise
  end.

(** Restriction maps; [Ret None] is Python's `return None`.
    - [_build_child_map] cyclicgroup.py:589-601
    - [dn_to_flip] dihedralgroup.py:742-757
    - [dn_to_cn]   dihedralgroup.py:708-722
    - [dn_to_dm]   dihedralgroup.py:778-792 *)
Definition child_c (N M : Z) (v : val) : res (option val) :=
  match v with
  | VC i =>
      let ratio := N / M in
      if negb (i mod ratio =? 0) then Ret None
      else u <- element (Cyc M) (VC (i / ratio)) ;; Ret (Some u)
  | _ => Raise
  end.
Definition dn_to_flip (axis : Z) (v : val) : res (option val) :=
  match v with
  | VD f rot =>
      if (f =? 0) && (rot =? 0) then Ret (Some (VC 0))
      else if (f =? 1) && (rot =? axis) then
        u <- element (Cyc 2) (VC 1) ;; Ret (Some u)
      else Ret None
  | _ => Raise
  end.
Definition dn_to_cn (N M : Z) (v : val) : res (option val) :=
  match v with
  | VD flip rot =>
      let ratio := N / M in
      if (flip =? 0) && (rot mod ratio =? 0) then
        u <- element (Cyc M) (VC (rot / ratio)) ;; Ret (Some u)
      else Ret None
  | _ => Raise
  end.
Definition dn_to_dm (axis N M : Z) (v : val) : res (option val) :=
  match v with
  | VD f rot =>
      let ratio := N / M in
      if negb ((rot - f * axis) mod ratio =? 0) then Ret None
      else u <- element (Dih M) (VD f ((rot - f * axis) / ratio)) ;;
           Ret (Some u)
  | _ => Raise
  end.

Record subgroup_data := {
  sg_group : grp;
  sg_incl : val -> res val;
  sg_restr : val -> res (option val)
}.

(** _subgroup: cyclicgroup.py:251-295, dihedralgroup.py:285-350.
    The Python `%` by a zero order raises ZeroDivisionError, a negative order
    is rejected by the constructor of the subgroup: both are [Raise]. *)
Definition subgroup (G : grp) (id : sgid) : res subgroup_data :=
  match G, id with
  | Cyc N, IdC M =>
      assert (0 <? M) ;; assert (N mod M =? 0) ;;
      Ret {| sg_group := Cyc M; sg_incl := parent_c N M;
             sg_restr := child_c N M |}
  | Dih N, IdD axis M =>
      assert (1 <=? M) ;; assert (N mod M =? 0) ;;
      assert (match axis with
              | None => true
              | Some a => (0 <=? a) && (a <? N)
              end) ;;
      match axis with
      | Some a =>
          if M =? 1 then
            Ret {| sg_group := Cyc 2; sg_incl := flip_to_dn a N;
                   sg_restr := dn_to_flip a |}
          else
            Ret {| sg_group := Dih M; sg_incl := dm_to_dn a N M;
                   sg_restr := dn_to_dm a N M |}
      | None =>
          Ret {| sg_group := Cyc M; sg_incl := cn_to_dn N M;
                 sg_restr := dn_to_cn N M |}
      end
  | _, _ => Raise
  end.

(** _combine_subgroups: cyclicgroup.py:313-319, dihedralgroup.py:368-382.
    [_process_subgroup_id] is the identity for these groups (group.py).
    `sg_id2[0]` on an int id raises TypeError. *)
Definition combine_subgroups (G : grp) (id1 id2 : sgid) : res sgid :=
  match G with
  | Cyc _ => _ <- subgroup G id1 ;; Ret id2
  | Dih _ =>
      sg <- subgroup G id1 ;;
      match id1 with
      | IdC _ => Raise
      | IdD None _ => match id2 with IdC m => Ret (IdD None m) | _ => Raise end
      | IdD (Some a) M1 =>
          if M1 =? 1 then
            match id2 with
            | IdC m => Ret (IdD (if m =? 2 then Some a else None) 1)
            | IdD _ _ => Ret (IdD None 1)  (* `sg_id2 == 2` is False *)
            end
          else
            match id2 with
            | IdC _ => Raise
            | IdD None _ => Ret id2
            | IdD (Some b) M2 =>
                e <- element (sg_group sg) (VD 0 b) ;;
                g <- sg_incl sg e ;;
                match g with
                | VD _ r => Ret (IdD (Some (a + r)) M2)
                | VC _ => Raise
                end
            end
      end
  end.
