(** Model of the subgroups of O(3).
    Sources: /repo/escnn/group/groups/o3group.py, utils.py, factory.py,
             /repo/escnn/group/group.py, directproduct.py.

    Conventions of SpaceModel.v.  Not modelled: the polyhedral subgroups 'ico',
    'octa', 'tetra', 'fulltetra' (the last two raise NotImplementedError). *)
From Coq Require Import Reals ZArith List Bool.
From Verif Require Import LibRes LibMat LibTrig ParamModel FinGroupModel PlanarModel SpaceModel.
Import ListNotations.
Open Scope R_scope.

(** id[0] of a planar id: a bool where documented; _combine_subgroups also
    returns ints, o3group.py:770,774,781,784,789,791. *)
Inductive invspec := IBool (b : bool) | IInt (n : Z).
(** id[1] of a planar id: a bool or a float where documented; _combine_subgroups
    also returns None, o3group.py:774,825. *)
Inductive axspec := ABool (b : bool) | AFloat (a : R) | ANone.

(** Subgroup ids of O(3) without the adjoint: the strings 'so3' ([false]) and 'o3'
    ([true]); (inversion, 'so3'); (inversion, flip, N); ('cone', [axis,] N). *)
Inductive o3id :=
| O3Name (o3 : bool)
| O3Full (inv : bool)
| O3Plane (inv : invspec) (f : axspec) (N : Z)
| O3Cone (axis : option R) (N : Z).
(** The same after _process_subgroup_id. *)
Inductive o3pid :=
| P3Full (inv : bool)
| P3Plane (inv : invspec) (b : bool) (N : Z)
| P3Cone (N : Z).

(** `id[0] == True`, `id[0] == False`: in python 1 == True and 0 == False *)
Definition is_true (i : invspec) : bool := match i with IBool b => b | IInt n => (n =? 1)%Z end.
Definition is_false (i : invspec) : bool := match i with IBool b => negb b | IInt n => (n =? 0)%Z end.

(** O3._process_subgroup_id o3group.py:422-502; a missing adjoint is the
    identity, 440-441 *)
Definition o3_process (id : o3id) (adj : option oval) : res (o3pid * oval) :=
  let adj := match adj with Some a => a | None => o3_id end in
  match id with
  | O3Name o3 => Ret (P3Full o3, adj)
  | O3Full inv => Ret (P3Full inv, adj)
  | O3Plane inv f N =>
      let isbool := match inv with IBool _ => true | IInt _ => false end in
      _c <- (if isbool then assert (match f with ANone => false | _ => true end) ;; Ret tt else Ret tt) ;;
      x <- match isbool, f with
           | true, AFloat a =>
               let flip_axis := a / 2 in
               flip <- o3_element (0%Z, turn_z (flip_axis / 2)) ;;
               i <- o3_inv flip ;;
               adj <- o3_mul i adj ;; Ret (ABool true, adj)
           | _, _ => Ret (f, adj)
           end ;;
      y <- match isbool, fst x with
           | true, ABool true =>
               if (N =? 1)%Z then
                 ca <- o3_element (0%Z, Quat 0 (sin (- PI / 4)) 0 (cos (- PI / 4))) ;;
                 adj <- o3_mul ca (snd x) ;; Ret (ABool false, 2%Z, adj)
               else Ret (fst x, N, snd x)
           | _, _ => Ret (fst x, N, snd x)
           end ;;
      match y with
      | (ABool b, N, adj) =>
          if is_true inv && negb b && (N =? 1)%Z then Ret (P3Plane (IBool true) false 1, o3_id)
          else Ret (P3Plane inv b N, adj)
      | _ => Raise
      end
  | O3Cone None N => Ret (P3Cone N, adj)
  | O3Cone (Some a) N =>
      let flip_axis := a / 2 in
      flip <- o3_element (0%Z, turn_z (flip_axis / 2)) ;;
      adj <- o3_mul flip adj ;; Ret (P3Cone N, adj)
  end.

(** build_adjoint_map utils.py:11-19 *)
Definition o3_adjoint_map (adj e : oval) : res oval :=
  i <- o3_inv adj ;; u <- o3_mul adj e ;; o3_mul u i.

(** o3_to_so3, so3_to_o3 o3group.py:1302-1337, for SO(3) *)
Definition o3_to_so3 (adj e : oval) : res (option sval) :=
  u <- o3_to_adj adj e ;;
  if (fst u =? 0)%Z then opt_map EQ (or_none (so3_element (snd u))) else Ret None.
Definition so3_to_o3 (adj : oval) (e : sval) : res oval :=
  match e with
  | EQ q => g <- o3_element (0%Z, q) ;; o3_from_adj adj g
  | _ => Raise
  end.

(** o3_to_so2, so2_to_o3 o3group.py:1342-1383 *)
Definition o3_to_so2 (adj : oval) (sg : pgrp) (e : oval) : res (option sval) :=
  u <- o3_to_adj adj e ;;
  if (fst u =? 1)%Z then Ret None else opt_map EP (turn_of sg (snd u)).
Definition so2_to_o3 (adj : oval) (sg : pgrp) (e : sval) : res oval :=
  match e with
  | EP v => q <- turn_quat sg v ;; g <- o3_element (0%Z, q) ;; o3_from_adj adj g
  | _ => Raise
  end.

(** o3_to_dih, dih_to_o3 o3group.py:1388-1448 *)
Definition o3_to_dih (adj : oval) (sg : pgrp) (e : oval) : res (option sval) :=
  u <- o3_to_adj adj e ;;
  if (fst u =? 1)%Z then Ret None else opt_map EP (dih_of sg (snd u)).
Definition dih_to_o3 (adj : oval) (sg : pgrp) (e : sval) : res oval :=
  match e with
  | EP v => q <- dih_quat sg v ;; g <- o3_element (0%Z, q) ;; o3_from_adj adj g
  | _ => Raise
  end.

(** `reflection` o3group.py:1457-1460, 1494-1497, 1535-1538, 1567-1570 *)
Definition o3_reflection : res oval := o3_element (1%Z, Quat 0 1 0 0).

(** np.allclose(e[:3], 0.) *)
Definition xyz_zero (q : quat) : bool := xy_zero q && np_isclose (/ 10 ^ 8) (qz q) 0.

(** o3_to_con, con_to_o3 o3group.py:1453-1524 *)
Definition con_of (sg : pgrp) (u p : oval) : res (option pval) :=
  if (fst u =? 0)%Z && xy_zero (snd u) then
    or_none (element_radians2 sg 0 (2 * atan2 (qz (snd u)) (qw (snd u))))
  else if (fst u =? 1)%Z && xy_zero (snd p) then
    or_none (element_radians2 sg 1 (2 * atan2 (qz (snd p)) (qw (snd p))))
  else Ret None.
Definition o3_to_con (adj : oval) (sg : pgrp) (e : oval) : res (option sval) :=
  reflection <- o3_reflection ;;
  u <- o3_to_adj adj e ;;
  p <- o3_mul u reflection ;;
  opt_map EP (con_of sg u p).
Definition con_to_o3 (adj : oval) (sg : pgrp) (e : sval) : res oval :=
  match e with
  | EP v =>
      reflection <- o3_reflection ;;
      x <- to_radians2 sg v ;;
      e <- o3_element (0%Z, turn_z (snd x / 2)) ;;
      e <- (if (fst x =? 1)%Z then i <- o3_inv reflection ;; o3_mul e i else Ret e) ;;
      o3_from_adj adj e
  | _ => Raise
  end.

(** o3_to_mir, mir_to_o3 o3group.py:1529-1584 *)
Definition o3_to_mir (adj e : oval) : res (option sval) :=
  reflection <- o3_reflection ;;
  u <- o3_to_adj adj e ;;
  p <- o3_mul u reflection ;;
  Ret (if (fst u =? 0)%Z && xyz_zero (snd u) then Some (EP (VF (VC 0)))
       else if (fst u =? 1)%Z && xyz_zero (snd p) then Some (EP (VF (VC 1)))
       else None).
Definition mir_to_o3 (adj : oval) (e : sval) : res oval :=
  match e with
  | EP (VF (VC f)) =>
      reflection <- o3_reflection ;;
      if (f =? 0)%Z then Ret o3_id else o3_from_adj adj reflection
  | _ => Raise
  end.

(** o3_to_inv, inv_to_o3 o3group.py:1589-1621 *)
Definition o3_to_inv (e : oval) : res (option sval) :=
  Ret (if xyz_zero (snd e) && np_isclose (/ 10 ^ 8) (Rabs (qw (snd e))) 1
       then Some (EP (VF (VC (fst e)))) else None).
Definition inv_to_o3 (e : sval) : res oval :=
  match e with
  | EP (VF (VC f)) => o3_element (f, Quat 0 0 0 1)
  | _ => Raise
  end.

(** `cyl.element((inv, x), '[int | radians]')`: DirectProductGroup._change_param and
    _is_element directproduct.py:270-293,326-333 act componentwise *)
Definition pair_inv (inv : Z) (x : res (option pval)) : res (option sval) :=
  if ((inv =? 0) || (inv =? 1))%Z then opt_map (EC inv) x else Ret None.

(** o3_to_cyl, cyl_to_o3 o3group.py:1626-1669 *)
Definition o3_to_cyl (adj : oval) (sg : pgrp) (e : oval) : res (option sval) :=
  u <- o3_to_adj adj e ;; pair_inv (fst u) (turn_of sg (snd u)).
Definition cyl_to_o3 (adj : oval) (sg : pgrp) (e : sval) : res oval :=
  match e with
  | EC i v => q <- turn_quat sg v ;; g <- o3_element (i, q) ;; o3_from_adj adj g
  | _ => Raise
  end.

(** o3_to_fullcyl, fullcyl_to_o3 o3group.py:1674-1735 *)
Definition o3_to_fullcyl (adj : oval) (sg : pgrp) (e : oval) : res (option sval) :=
  u <- o3_to_adj adj e ;; pair_inv (fst u) (dih_of sg (snd u)).
Definition fullcyl_to_o3 (adj : oval) (sg : pgrp) (e : sval) : res oval :=
  match e with
  | EC i v => q <- dih_quat sg v ;; g <- o3_element (i, q) ;; o3_from_adj adj g
  | _ => Raise
  end.

(** O3._subgroup o3group.py:504-722; the groups of the cylinders are C_2 x SO(2),
    C_2 x O(2), C_2 x C_N and C_2 x D_N, factory.py:250-361 *)
Definition o3_subgroup' (id : o3pid) (adj : oval) : res (ssub oval) :=
  let cyc G := {| s3_group := GP G; s3_incl := so2_to_o3 adj G; s3_restr := o3_to_so2 adj G |} in
  let dih G := {| s3_group := GP G; s3_incl := dih_to_o3 adj G; s3_restr := o3_to_dih adj G |} in
  let cyl G := {| s3_group := GCyl G; s3_incl := cyl_to_o3 adj G; s3_restr := o3_to_cyl adj G |} in
  let fullcyl G := {| s3_group := GCyl G; s3_incl := fullcyl_to_o3 adj G; s3_restr := o3_to_fullcyl adj G |} in
  let con G := {| s3_group := GP G; s3_incl := con_to_o3 adj G; s3_restr := o3_to_con adj G |} in
  match id with
  | P3Full false => Ret {| s3_group := GSO3; s3_incl := so3_to_o3 adj; s3_restr := o3_to_so3 adj |}
  | P3Full true =>
      _adj <- o3_inv adj ;;
      Ret {| s3_group := GO3;
             s3_incl := fun e => match e with EO e => o3_adjoint_map _adj e | _ => Raise end;
             s3_restr := fun e => u <- o3_adjoint_map adj e ;; Ret (Some (EO u)) |}
  | P3Plane inv b N =>
      if is_true inv then
        if negb b && (N =? -1)%Z then Ret (cyl SO2)
        else if b && (N =? -1)%Z then Ret (fullcyl O2)
        else if negb b && (0 <? N)%Z then
          if (N =? 1)%Z then Ret {| s3_group := GP (Fin (Cyc 2)); s3_incl := inv_to_o3; s3_restr := o3_to_inv |}
          else Ret (cyl (Fin (Cyc N)))
        else if b && (1 <? N)%Z then Ret (fullcyl (Fin (Dih N)))
        else Raise
      else if is_false inv then
        if negb b && (N =? -1)%Z then Ret (cyc SO2)
        else if b && (N =? -1)%Z then Ret (dih O2)
        else if negb b && (0 <? N)%Z then Ret (cyc (Fin (Cyc N)))
        else if b && (1 <? N)%Z then Ret (dih (Fin (Dih N)))
        else Raise
      else Raise
  | P3Cone N =>
      if (N =? -1)%Z then Ret (con O2)
      else if (1 <? N)%Z then Ret (con (Fin (Dih N)))
      else if (N =? 1)%Z then
        Ret {| s3_group := GP (Fin (Cyc 2)); s3_incl := mir_to_o3 adj; s3_restr := o3_to_mir adj |}
      else Raise
  end.

(** Group.subgroup group.py:316-343 *)
Definition o3_subgroup (id : o3id) (adj : option oval) : res (ssub oval) :=
  x <- o3_process id adj ;; o3_subgroup' (fst x) (snd x).

(** Ids of a subgroup of a subgroup of O(3): of O(3) and SO(3) with their
    adjoints, of a planar group, of C_2 times a planar group. *)
Inductive o3subid :=
| DO3 (id : o3id) (adj : option oval)
| DSO3 (id : so3id) (adj : quat)
| DPlane (id : subid)
| DCyl (m : Z) (id : subid).

Definition of_pid (id : o3pid) : o3id :=
  match id with
  | P3Full inv => O3Full inv
  | P3Plane inv b N => O3Plane inv (ABool b) N
  | P3Cone N => O3Cone None N
  end.

(** O3._combine_subgroups o3group.py:724-841.  For a planar subgroup of SO(3), line
    807 asks the planar group to combine: C_N and SO(2) return an int, which
    cannot be sliced on line 808; D_N and O(2) return (axis, int), and the
    inclusion on line 837 fails on the int.  These raise whatever the ids. *)
Definition o3_combine_subgroups (id1 : o3id) (adj1 : option oval) (id2 : o3subid) : res (o3id * oval) :=
  x <- o3_process id1 adj1 ;;
  sg1 <- o3_subgroup' (fst x) (snd x) ;;
  let adjoint1 := snd x in
  let moved adjoint2 := i <- s3_incl sg1 adjoint2 ;; o3_mul adjoint1 i in
  match fst x, id2 with
  | P3Full true, DO3 id2 adj2 =>
      y <- o3_process id2 adj2 ;;
      adj <- moved (EO (snd y)) ;; Ret (of_pid (fst y), adj)
  | P3Full false, DSO3 id2 adj2 =>
      y <- so3_process id2 adj2 ;;
      adj <- moved (EQ (snd y)) ;;
      Ret (match fst y with S3PSelf => O3Full false | S3PPlane b n => O3Plane (IBool false) (ABool b) n end, adj)
  | P3Plane inv b N, _ =>
      if is_true inv then
        if b then
          match id2 with
          | DCyl m (BO2 a n) =>
              if (N =? -1)%Z then
                Ret (O3Plane (IInt m) (match a with Some a => AFloat a | None => ANone end) n, adjoint1)
              else Raise
          | DCyl m (BDih (Some k) n) =>
              if (N =? -1)%Z then Raise else Ret (O3Plane (IInt m) (AFloat (IZR k * 2 * PI / IZR N)) n, adjoint1)
          | DCyl m (BDih None n) =>
              if (N =? -1)%Z then Raise else Ret (O3Plane (IInt m) (ABool false) n, adjoint1)
          | _ => Raise
          end
        else
          match id2 with
          | DPlane (BInt m) => if (N =? 1)%Z then Ret (O3Plane (IInt m) (ABool false) 1, adjoint1) else Raise
          | DCyl m (BInt n) => if (N =? 1)%Z then Raise else Ret (O3Plane (IInt m) (ABool false) n, adjoint1)
          | _ => Raise
          end
      else Raise
  | P3Cone N, DPlane id2 =>
      match id2 with
      | BInt m =>
          if (N =? 1)%Z then
            Ret (if (m =? 0)%Z then O3Plane (IBool false) (ABool false) 1 else O3Cone None N, adjoint1)
          else Raise
      | BO2 (Some a) n =>
          if (N =? -1)%Z then
            e <- pelement O2 (VO 0 a) ;; adj <- moved (EP e) ;; Ret (O3Cone None n, adj)
          else Raise
      | BDih (Some k) n =>
          if (1 <? N)%Z then
            e <- (if is_element (Dih N) (VD 0 k) then Ret (VF (VD 0 k)) else Raise) ;;
            adj <- moved (EP e) ;; Ret (O3Cone None n, adj)
          else Raise
      | BO2 None n => if (N =? -1)%Z then Ret (O3Plane (IBool false) ANone n, adjoint1) else Raise
      | BDih None n => if (1 <? N)%Z then Ret (O3Plane (IBool false) ANone n, adjoint1) else Raise
      | _ => Raise
      end
  | _, _ => Raise
  end.

(** `subgroup(id)` of a subgroup of O(3): the subgroup and its inclusion.  For
    C_2 times a planar group, DirectProductGroup._subgroup directproduct.py:456-492
    with inclusion_right, inclusion_left and inclusion 735-755,771-787,804-820. *)
Definition o3_sub_subgroup (G : sgrp) (id : o3subid) : res (sgrp * (sval -> res sval)) :=
  match G, id with
  | GO3, DO3 id adj =>
      s <- o3_subgroup id adj ;;
      Ret (s3_group s, fun h => g <- s3_incl s h ;; Ret (EO g))
  | GSO3, DSO3 id adj => sub_subgroup GSO3 (BSO3 id adj)
  | GP P, DPlane id => sub_subgroup (GP P) id
  | GCyl P, DCyl m id =>
      s1 <- subgroup (Cyc 2) (IdC m) ;;
      s2 <- sub_subgroup (GP P) id ;;
      let pair i v := match v with EP v => Ret (EC i v) | _ => Raise end in
      match sg_group s1, fst s2 with
      | Cyc 1, H2 => Ret (H2, fun h => u <- snd s2 h ;; pair 0%Z u)
      | H1, GP (Fin (Cyc 1)) =>
          Ret (GP (Fin H1), fun h =>
            match h with
            | EP (VF h) => i <- sg_incl s1 h ;; match i with VC i => Ret (EC i (pid P)) | _ => Raise end
            | _ => Raise
            end)
      | _, GP H2 =>
          Ret (GCyl H2, fun h =>
            match h with
            | EC i v =>
                i <- sg_incl s1 (VC i) ;;
                u <- snd s2 (EP v) ;;
                match i with VC i => pair i u | _ => Raise end
            | _ => Raise
            end)
      | _, _ => Raise
      end
  | _, _ => Raise
  end.
