(** Model of SO(2) and O(2) and of their subgroups.
    Sources: /repo/escnn/group/groups/so2group.py, o2group.py, utils.py,
             /repo/escnn/group/group.py.
    Angles are exact reals; Python's float `%` is [rmod]. *)
From Coq Require Import Reals ZArith Bool List.
From Verif Require Import LibRes LibMat LibTrig FinGroupModel ParamModel.
Import ListNotations.
Open Scope R_scope.

(** A planar group: one of the finite groups, SO(2) or O(2). *)
Inductive pgrp := Fin (G : grp) | SO2 | O2.

(** The value stored in an element: that of a finite group, an angle, or a
    pair (flip, angle). *)
Inductive pval := VF (v : val) | VS (t : R) | VO (f : Z) (t : R).

(** `self._change_param(e, 'radians', 'radians')` so2group.py:179-214 *)
Definition so2_norm (t : R) : res R :=
  x <- so2_change_param (Pfloat t) PRad PRad ;;
  match x with Pfloat u => Ret u | _ => Raise end.

(** the same for O(2), o2group.py:220-259 *)
Definition o2_norm (f : Z) (t : R) : res (Z * R) :=
  x <- o2_change_param (f, Pfloat t) PRad PRad ;;
  match x with (g, Pfloat u) => Ret (g, u) | _ => Raise end.

(** GroupElement.__init__ group.py:985-1002 with the default parametrisation;
    SO2._is_element so2group.py:175-177, O2._is_element o2group.py:213-218. *)
Definition pelement (G : pgrp) (v : pval) : res pval :=
  match G, v with
  | Fin G, VF v => u <- element G v ;; Ret (VF u)
  | SO2, VS t => u <- so2_norm t ;; Ret (VS u)
  | O2, VO f t =>
      x <- o2_norm f t ;;
      if (fst x =? 0)%Z || (fst x =? 1)%Z then Ret (VO (fst x) (snd x)) else Raise
  | _, _ => Raise
  end.

(** _combine so2group.py:120-140, o2group.py:156-177 *)
Definition pcombine (G : pgrp) (v w : pval) : res pval :=
  match G, v, w with
  | Fin G, VF v, VF w => u <- combine G v w ;; Ret (VF u)
  | SO2, VS a, VS b =>
      a <- so2_norm a ;; b <- so2_norm b ;;
      c <- so2_norm (rmod (a + b) (2 * PI)) ;; Ret (VS c)
  | O2, VO f a, VO g b =>
      x <- o2_norm f a ;; y <- o2_norm g b ;;
      z <- o2_norm ((fst x + fst y) mod 2)%Z
                   (snd x + IZR (pysign (fst x)) * snd y) ;;
      Ret (VO (fst z) (snd z))
  | _, _, _ => Raise
  end.

(** _inverse so2group.py:105-118, o2group.py:138-154 *)
Definition pinverse (G : pgrp) (v : pval) : res pval :=
  match G, v with
  | Fin G, VF v => u <- inverse G v ;; Ret (VF u)
  | SO2, VS a =>
      a <- so2_norm a ;; b <- so2_norm (rmod (- a) (2 * PI)) ;; Ret (VS b)
  | O2, VO f a =>
      x <- o2_norm f a ;;
      y <- o2_norm (fst x) (- snd x * IZR (pysign (fst x))) ;;
      Ret (VO (fst y) (snd y))
  | _, _ => Raise
  end.

(** GroupElement.__matmul__ and __invert__ group.py:1010-1028 *)
Definition pmul (G : pgrp) (v w : pval) : res pval :=
  u <- pcombine G v w ;; pelement G u.
Definition pinv (G : pgrp) (v : pval) : res pval :=
  u <- pinverse G v ;; pelement G u.

(** identity so2group.py:67, o2group.py:99 *)
Definition pid (G : pgrp) : pval :=
  match G with Fin G => VF (gid G) | SO2 => VS 0 | O2 => VO 0 0 end.

(** _equal so2group.py:142-165, o2group.py:179-201;
    cyclicgroup.py:152-172, dihedralgroup.py:183-207 *)
Definition pequal (G : pgrp) (v w : pval) : res bool :=
  match G, v, w with
  | Fin _, VF (VC a), VF (VC b) => Ret (a =? b)%Z
  | Fin _, VF (VD f a), VF (VD g b) => Ret ((f =? g)%Z && (a =? b)%Z)
  | SO2, VS a, VS b =>
      a <- so2_norm a ;; b <- so2_norm b ;; Ret (cycle_isclose a b (2 * PI))
  | O2, VO f a, VO g b =>
      x <- o2_norm f a ;; y <- o2_norm g b ;;
      Ret ((fst x =? fst y)%Z && cycle_isclose (snd x) (snd y) (2 * PI))
  | _, _, _ => Raise
  end.

(** np.around(x, 5) *)
Definition around5 (x : R) : R := IZR (pyround (x * 10 ^ 5)) / 10 ^ 5.

(** The tuple that _hash_element passes to `hash`:
    cyclicgroup.py:182-184, dihedralgroup.py:209-212, so2group.py:167-169,
    o2group.py:203-207. Integers are written as reals. *)
Definition phash_key (G : pgrp) (v : pval) : res (list R) :=
  match G, v with
  | Fin _, VF (VC a) => Ret [IZR a]
  | Fin (Dih N), VF (VD f a) => Ret [IZR f; IZR (a mod N)]
  | SO2, VS t => t <- so2_norm t ;; Ret [around5 (cos t); around5 (sin t)]
  | O2, VO f t =>
      x <- o2_norm f t ;;
      Ret [around5 (IZR (fst x)); around5 (cos (snd x)); around5 (sin (snd x))]
  | _, _ => Raise
  end.

(** `e.to('radians')` for elements of C_N and SO(2), group.py:1049-1064 *)
Definition to_radians1 (G : pgrp) (v : pval) : res R :=
  match G, v with
  | Fin (Cyc N), VF (VC r) =>
      x <- cn_change_param N (Pint r) PInt PRad ;;
      match x with Pfloat t => Ret t | _ => Raise end
  | SO2, VS t => so2_norm t
  | _, _ => Raise
  end.

(** `e.to('radians')` for elements of D_N and O(2) *)
Definition to_radians2 (G : pgrp) (v : pval) : res (Z * R) :=
  match G, v with
  | Fin (Dih N), VF (VD f r) =>
      x <- dn_change_param N (f, Pint r) PInt PRad ;;
      match x with (g, Pfloat t) => Ret (g, t) | _ => Raise end
  | O2, VO f t => o2_norm f t
  | _, _ => Raise
  end.

(** `group.element(t, 'radians')` for C_N and SO(2); a ValueError of _change_param
    propagates. group.py:92-113, 985-1002 *)
Definition element_radians (G : pgrp) (t : R) : res pval :=
  match G with
  | Fin (Cyc N) =>
      x <- cn_change_param N (Pfloat t) PRad PInt ;;
      match x with
      | Pint r => if is_element (Cyc N) (VC r) then Ret (VF (VC r)) else Raise
      | _ => Raise
      end
  | SO2 => pelement SO2 (VS t)
  | _ => Raise
  end.

(** Subgroup ids: an int for SO(2), (axis | None, int) for O(2). *)
Inductive psgid := ISO2 (M : Z) | IO2 (axis : option R) (M : Z).

Record psubgroup := {
  ps_group : pgrp;
  ps_incl : pval -> res pval;
  ps_restr : pval -> res (option pval)
}.

(** `return x` where x is an element: [Some]. *)
Definition some_ (x : res pval) : res (option pval) := u <- x ;; Ret (Some u).

(** _build_parent_map so2group.py:566-571 *)
Definition so2_parent (order : Z) (e : pval) : res pval :=
  match e with
  | VF (VC r) => pelement SO2 (VS (IZR r * 2 * PI / IZR order))
  | _ => Raise
  end.

(** _build_child_map so2group.py:574-584 *)
Definition so2_child (order : Z) (e : pval) : res (option pval) :=
  radians <- to_radians1 SO2 e ;;
  if negb (cycle_isclose radians 0 (2 * PI / IZR order)) then Ret None
  else some_ (pelement (Fin (Cyc order))
                (VF (VC (pyround (radians * IZR order / (2 * PI)))))).

(** so2_to_o2 o2group.py:792-800; [sg] is SO(2) or C_N *)
Definition so2_to_o2 (sg : pgrp) (e : pval) : res pval :=
  t <- to_radians1 sg e ;; pelement O2 (VO 0 t).

(** o2_to_so2 o2group.py:774-789; the `except ValueError` returns None *)
Definition o2_to_so2 (sg : pgrp) (e : pval) : res (option pval) :=
  x <- to_radians2 O2 e ;;
  if (fst x =? 0)%Z then
    match element_radians sg (snd x) with
    | Ret u => Ret (Some u)
    | Raise => Ret None
    end
  else Ret None.

(** flip_to_o2 o2group.py:824-836 *)
Definition flip_to_o2 (axis : R) (e : pval) : res pval :=
  match e with
  | VF (VC f) => if (f =? 0)%Z then Ret (pid O2) else pelement O2 (VO 1 axis)
  | _ => Raise
  end.

(** o2_to_flip o2group.py:806-821 *)
Definition o2_to_flip (axis : R) (e : pval) : res (option pval) :=
  x <- to_radians2 O2 e ;;
  if (fst x =? 0)%Z && cycle_isclose (snd x) 0 (2 * PI) then
    Ret (Some (pid (Fin (Cyc 2))))
  else if (fst x =? 1)%Z && cycle_isclose (snd x) axis (2 * PI) then
    some_ (pelement (Fin (Cyc 2)) (VF (VC 1)))
  else Ret None.

(** dn_to_o2 o2group.py:858-867 *)
Definition dn_to_o2 (axis : R) (M : Z) (e : pval) : res pval :=
  match e with
  | VF (VD f rot) =>
      pelement O2 (VO f (IZR rot * 2 * PI / IZR M + IZR f * axis))
  | _ => Raise
  end.

(** o2_to_dn o2group.py:842-855 *)
Definition o2_to_dn (axis : R) (M : Z) (e : pval) : res (option pval) :=
  x <- to_radians2 O2 e ;;
  let f := fst x in let rot := snd x in
  if cycle_isclose (rot - IZR f * axis) 0 (2 * PI / IZR M) then
    some_ (pelement (Fin (Dih M))
             (VF (VD f (pyround ((rot - IZR f * axis) * IZR M / (2 * PI))))))
  else Ret None.

(** build_adjoint_map groups/utils.py:11-19 for O(2) *)
Definition adjoint_map (adj : pval) (e : pval) : res pval :=
  inv <- pinv O2 adj ;;
  u <- pmul O2 adj e ;; pmul O2 u inv.

(** _subgroup so2group.py:259-306, o2group.py:334-409 *)
Definition p_subgroup (G : pgrp) (id : psgid) : res psubgroup :=
  match G, id with
  | SO2, ISO2 M =>
      if (0 <? M)%Z then
        Ret {| ps_group := Fin (Cyc M); ps_incl := so2_parent M; ps_restr := so2_child M |}
      else if (M =? -1)%Z then
        Ret {| ps_group := SO2; ps_incl := fun e => Ret e; ps_restr := fun e => Ret (Some e) |}
      else Raise
  | O2, IO2 axis M =>
      assert (match axis with
              | None => true
              | Some a => Rleb 0 a && Rleb a (2 * PI)
              end) ;;
      assert ((M =? -1)%Z || (0 <? M)%Z) ;;
      match axis with
      | Some a =>
          if (M =? -1)%Z then
            g <- pelement O2 (VO 0 (a / 2)) ;;
            g' <- pelement O2 (VO 0 (- a / 2)) ;;
            Ret {| ps_group := O2; ps_incl := adjoint_map g;
                   ps_restr := fun e => some_ (adjoint_map g' e) |}
          else if (M =? 1)%Z then
            Ret {| ps_group := Fin (Cyc 2); ps_incl := flip_to_o2 a; ps_restr := o2_to_flip a |}
          else
            Ret {| ps_group := Fin (Dih M); ps_incl := dn_to_o2 a M; ps_restr := o2_to_dn a M |}
      | None =>
          if (M =? -1)%Z then
            Ret {| ps_group := SO2; ps_incl := so2_to_o2 SO2; ps_restr := o2_to_so2 SO2 |}
          else
            Ret {| ps_group := Fin (Cyc M); ps_incl := so2_to_o2 (Fin (Cyc M));
                   ps_restr := o2_to_so2 (Fin (Cyc M)) |}
      end
  | _, _ => Raise
  end.
