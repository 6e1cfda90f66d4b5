(** Bases of filters made of a radial profile times circular or spherical
    harmonics: escnn/kernels/polar_basis.py, and the kernel bases on the plane of
    escnn/kernels/r2.py built from them.

    The irreps' attributes copied into the dictionaries ('irrep:...') are
    functions of the id under the key 'j' and are left out. The spherical
    harmonics themselves are not modelled, only the order of the elements. *)
From Coq Require Import Reals List ZArith Arith Bool.
From Verif Require Import LibRes LibMat LibTrig FinGroupModel ParamModel PlanarModel IrrepModel RepModel KernelModel.
Import ListNotations.
Open Scope R_scope.

(** GaussianRadialProfile polar_basis.py:21-119 *)
Record gprofile := { gp_radii : list R; gp_sigma : list R }.

(** __init__ 23-65 with a list `sigma`; the empty profile raises
    EmptyBasisException, which no caller here catches. *)
Definition mk_profile (radii sigma : list R) : res gprofile :=
  assert (Nat.eqb (length radii) (length sigma)) ;;
  assert (forallb (fun r => Rleb 0 r) radii) ;;
  assert (forallb (fun s => negb (Rleb s 0)) sigma) ;;
  assert (negb (Nat.eqb (length radii) 0)) ;;
  Ret {| gp_radii := radii; gp_sigma := sigma |}.
Definition gp_dim (p : gprofile) : nat := length (gp_radii p).
(** sample 67-103: element [i] at radius [r] *)
Definition gp_sample (p : gprofile) (r : R) (i : nat) : R :=
  exp (- (1 / 2) * (nth i (gp_radii p) 0 - r) ^ 2 / nth i (gp_sigma p) 0 ^ 2).

(** The attributes 'radius', 'sigma' and 'idx' of a radial profile. *)
Record rattr := { ra_radius : R; ra_sigma : R; ra_idx : nat }.
(** __getitem__ 105-107 *)
Definition gp_get (p : gprofile) (i : nat) : res rattr :=
  assert (Nat.ltb i (gp_dim p)) ;;
  Ret {| ra_radius := nth i (gp_radii p) 0; ra_sigma := nth i (gp_sigma p) 0; ra_idx := i |}.
(** list(radial): KernelBasis.__iter__ basis.py:86-88 *)
Definition gp_iter (p : gprofile) : res (list rattr) := mapM (gp_get p) (seq 0 (gp_dim p)).
(** torch.allclose, rtol = 1e-5, atol = 1e-8: the shapes must agree *)
Definition t_allclose (a b : list R) : res bool :=
  assert (Nat.eqb (length a) (length b) || Nat.eqb (length a) 1 || Nat.eqb (length b) 1) ;;
  Ret (forallb (fun i => np_isclose (/ 10 ^ 8) (nth (if Nat.eqb (length a) 1 then 0 else i) a 0)
                                               (nth (if Nat.eqb (length b) 1 then 0 else i) b 0))
         (seq 0 (Nat.max (length a) (length b)))).
(** __eq__ 109-116 *)
Definition gp_eq (p q : gprofile) : res bool :=
  a <- t_allclose (gp_radii p) (gp_radii q) ;;
  if a then t_allclose (gp_sigma p) (gp_sigma q) else Ret false.

(** How the elements of a shells basis are arranged: the size of the harmonics of
    frequency j, the start of its columns and the id of its irrep. *)
Record arrangement := { ar_dim : nat -> nat; ar_first : nat -> nat; ar_id : nat -> list Z }.
(** CircularShellsBasis 654, 674, 773-776 *)
Definition circular : arrangement :=
  {| ar_dim := fun j => if Nat.ltb 0 j then 2%nat else 1%nat;
     ar_first := fun j => (2 * j + 1 - (if Nat.ltb 0 j then 2 else 1))%nat;
     ar_id := fun j => [if Nat.ltb 0 j then 1%Z else 0%Z; Z.of_nat j] |}.
(** SphericalShellsBasis 216, 222, 344 *)
Definition spherical : arrangement :=
  {| ar_dim := fun j => (2 * j + 1)%nat; ar_first := fun j => (j ^ 2)%nat;
     ar_id := fun j => [(Z.of_nat j mod 2)%Z; Z.of_nat j] |}.

(** The state of a shells basis: L, radial, js, _filter, _idx_map, _steerable_idx_map
    and _num_inv_spaces; the last three stay None, None and 0 without a filter. *)
Record shells := {
  sh_L : nat; sh_radial : gprofile; sh_js : list (list Z * nat); sh_mask : option (list bool);
  sh_map : option (list nat); sh_smap : option (list nat); sh_num : nat
}.

(** The positions of the entries [true], counted from [i]. *)
Fixpoint positions (i : nat) (l : list bool) : list nat :=
  match l with [] => [] | b :: l' => (if b then [i] else []) ++ positions (S i) l' end.
Definition count_true (l : list bool) : nat := length (positions 0 l).

Section Shells.
Variable ar : arrangement.

(** self.filter applied to the subspaces of frequency j: 216-238, 648-670 *)
Definition kept (flt : rattr * list Z -> bool) (rs : list rattr) (j : nat) : list bool :=
  map (fun a => flt (a, ar_id ar j)) rs.

(** SphericalShellsBasis.__init__ 195-271, CircularShellsBasis.__init__ 627-705.
    [None] is the EmptyBasisException. The slices _filter[i:i+dim] are
    consecutive, and _idx_map, _steerable_idx_map list the positions kept. *)
Definition mk_shells (L : nat) (radial : gprofile) (flt : option (rattr * list Z -> bool)) : res (option shells) :=
  rs <- gp_iter radial ;;
  let s := match flt with
    | None => {| sh_L := L; sh_radial := radial; sh_js := map (fun j => (ar_id ar j, gp_dim radial)) (seq 0 (S L));
                 sh_mask := None; sh_map := None; sh_smap := None; sh_num := 0 |}
    | Some f =>
        let mask := flat_map (fun j => flat_map (fun b => repeat b (ar_dim ar j)) (kept f rs j)) (seq 0 (S L)) in
        {| sh_L := L; sh_radial := radial; sh_js := map (fun j => (ar_id ar j, count_true (kept f rs j))) (seq 0 (S L));
           sh_mask := Some mask; sh_map := Some (positions 0 mask);
           sh_smap := Some (positions 0 (flat_map (kept f rs) (seq 0 (S L))));
           sh_num := list_sum (map (fun j => count_true (kept f rs j)) (seq 0 (S L))) |}
    end in
  (* SteerableFiltersBasis.__init__ steerable_filters_basis.py:66-81 *)
  Ret (if Nat.eqb (list_sum (map (fun j => ar_dim ar j * snd (nth j (sh_js s) ([], 0%nat)))%nat (seq 0 (S L)))) 0
       then None else Some s).

(** self.dim *)
Definition sh_dim (s : shells) : nat :=
  list_sum (map (fun j => ar_dim ar j * snd (nth j (sh_js s) ([], 0%nat)))%nat (seq 0 (S (sh_L s)))).

(** tmp_out 768-779 and out[:] = tmp_out[:, self._filter] 781-782: element [idx] at
    a point of radius [r] where the harmonics are [Y]. *)
Definition sh_full (s : shells) (r : R) (Y : nat -> R) (p : nat) : R :=
  let n := gp_dim (sh_radial s) in
  match locate (fun j => ar_dim ar j * n)%nat (seq 0 (S (sh_L s))) p with
  | None => 0
  | Some (j, q) => gp_sample (sh_radial s) r (q / ar_dim ar j)%nat * Y (ar_first ar j + q mod ar_dim ar j)%nat
  end.
Definition sh_value (s : shells) (r : R) (Y : nat -> R) (idx : nat) : R :=
  match sh_mask s with
  | None => sh_full s r Y idx
  | Some mask => sh_full s r Y (nth idx (positions 0 mask) 0%nat)
  end.

(** Attributes of a steerable subspace: those of the radial profile, with 'idx'
    replaced, 'radial_idx' and 'j'. *)
Record hattr := { h_idx : nat; h_radial : rattr; h_ridx : nat; h_j : list Z }.

(** `self._filter is None or (self._filter[i:i+dim] == 1).all()` *)
Definition mask_at (s : shells) (i dim : nat) : bool :=
  match sh_mask s with None => true | Some m => forallb (fun b => b) (firstn dim (skipn i m)) end.

Definition sh_mult (s : shells) (j : list Z) : nat := get_or 0%nat (sh_js s) j.
(** sum(self.multiplicity(...) for _j in range(j)) *)
Definition sh_before (s : shells) (j : nat) : nat := list_sum (map (fun i => sh_mult s (ar_id ar i)) (seq 0 j)).

(** The loop over the radial profiles of 442-456 and 878-892. *)
Fixpoint walk_radial (s : shells) (j : nat) (rs : list (nat * rattr)) (idx i : nat) : res (list hattr) :=
  match rs with
  | [] => Ret []
  | (ri, a) :: rs' =>
      if mask_at s i (ar_dim ar j) then
        assert (Nat.eqb (ra_idx a) ri) ;;
        l <- walk_radial s j rs' (S idx) (i + ar_dim ar j)%nat ;;
        Ret ({| h_idx := idx; h_radial := a; h_ridx := ri; h_j := ar_id ar j |} :: l)
      else walk_radial s j rs' idx (i + ar_dim ar j)%nat
  end.

(** The frequency of an irrep id `f, j = j_id`; [None] when `f` is not the one the
    basis uses, in which case the functions return None or yield nothing. *)
Definition freq_of (id : list Z) : res (option nat) :=
  match id with
  | [f; k] => if (k <? 0)%Z then Raise
              else Ret (if id_eqb (ar_id ar (Z.to_nat k)) id then Some (Z.to_nat k) else None)
  | _ => Raise
  end.

(** steerable_attrs_j_iter 420-456 and 856-892: the index [i] into the filter
    starts at 0 whatever the frequency. *)
Definition steerable_attrs_j_iter (s : shells) (id : list Z) : res (list hattr) :=
  o <- freq_of id ;;
  match o with
  | None => Ret []
  | Some j => rs <- gp_iter (sh_radial s) ;; walk_radial s j (enumerate rs) (sh_before s j) 0
  end.

(** steerable_attrs_j 458-498 and 894-934; the returned None is [Raise]. *)
Definition steerable_attrs_j (s : shells) (id : list Z) (idx : nat) : res hattr :=
  o <- freq_of id ;;
  match o with
  | None => Raise
  | Some j =>
      assert (Nat.ltb idx (sh_mult s id)) ;;
      let idx := (idx + sh_before s j)%nat in
      p <- match sh_smap s with
           | None => Ret idx
           | Some m => match nth_error m idx with Some p => Ret p | None => Raise end
           end ;;
      let n := gp_dim (sh_radial s) in
      assert (Nat.eqb (p / n) j) ;;
      a <- gp_get (sh_radial s) (p mod n) ;;
      assert (Nat.eqb (ra_idx a) (p mod n)) ;;
      Ret {| h_idx := idx; h_radial := a; h_ridx := (p mod n)%nat; h_j := id |}
  end.

(** steerable_attrs_iter 354-385 and 786-820: the index [i] runs on *)
Fixpoint walk_all (s : shells) (js : list nat) (rs : list (nat * rattr)) (idx i : nat) : res (list hattr) :=
  match js with
  | [] => Ret []
  | j :: js' =>
      l <- walk_radial s j rs idx i ;;
      l' <- walk_all s js' rs (idx + length l)%nat (i + ar_dim ar j * length rs)%nat ;;
      Ret (l ++ l')
  end.
Definition steerable_attrs_iter (s : shells) : res (list hattr) :=
  rs <- gp_iter (sh_radial s) ;; walk_all s (seq 0 (S (sh_L s))) (enumerate rs) 0 0.

(** steerable_attrs 822-854 *)
Definition steerable_attrs (s : shells) (idx : nat) : res hattr :=
  assert (Nat.ltb idx (sh_num s)) ;;
  p <- match sh_smap s with
       | None => Ret idx
       | Some m => match nth_error m idx with Some p => Ret p | None => Raise end
       end ;;
  let n := gp_dim (sh_radial s) in
  a <- gp_get (sh_radial s) (p mod n) ;;
  assert (Nat.eqb (ra_idx a) (p mod n)) ;;
  Ret {| h_idx := idx; h_radial := a; h_ridx := (p mod n)%nat; h_j := ar_id ar (p / n) |}.

(** The attributes of one element: those of its subspace and 'm'. *)
Record eattr := { e_sub : hattr; e_m : nat }.

(** the body of __getitem__ after `j` is known: 512-536 and 948-972 *)
Definition get_at (s : shells) (idx j j_idx : nat) : res eattr :=
  let ri := (j_idx / ar_dim ar j)%nat in
  a <- gp_get (sh_radial s) ri ;;
  assert (Nat.eqb (ra_idx a) ri) ;;
  Ret {| e_sub := {| h_idx := idx; h_radial := a; h_ridx := ri; h_j := ar_id ar j |};
         e_m := (j_idx mod ar_dim ar j)%nat |}.
Definition mapped (s : shells) (idx : nat) : res nat :=
  assert (Nat.ltb idx (sh_dim s)) ;;
  match sh_map s with
  | None => Ret idx
  | Some m => match nth_error m idx with Some p => Ret p | None => Raise end
  end.

(** __iter__ 538-569 and 974-1005 *)
Fixpoint walk_elems (s : shells) (els : list (nat * rattr * nat * nat)) (idx i : nat) : res (list eattr) :=
  match els with
  | [] => Ret []
  | (ri, a, j, m) :: els' =>
      if (match sh_mask s with None => true | Some mask => nth i mask false end) then
        assert (Nat.eqb (ra_idx a) ri) ;;
        l <- walk_elems s els' (S idx) (S i) ;;
        Ret ({| e_sub := {| h_idx := idx; h_radial := a; h_ridx := ri; h_j := ar_id ar j |}; e_m := m |} :: l)
      else walk_elems s els' idx (S i)
  end.
Definition elements (L : nat) (rs : list rattr) : list (nat * rattr * nat * nat) :=
  flat_map (fun j => flat_map (fun q => map (fun m => (fst q, snd q, j, m)) (seq 0 (ar_dim ar j))) (enumerate rs))
    (seq 0 (S L)).
Definition sh_iter (s : shells) : res (list eattr) :=
  rs <- gp_iter (sh_radial s) ;; walk_elems s (elements (sh_L s) rs) 0 0.
End Shells.

(** SphericalShellsBasis.__getitem__ 500-536: `int(np.floor(np.sqrt(q)))` is the
    integer square root. *)
Definition spherical_get (s : shells) (idx : nat) : res eattr :=
  p <- mapped spherical s idx ;;
  let n := gp_dim (sh_radial s) in
  let j := Nat.sqrt (p / n) in
  assert (Nat.leb (j ^ 2 * n) p && Nat.ltb p ((j + 1) ^ 2 * n)) ;;
  get_at spherical s idx j (p - j ^ 2 * n).
(** CircularShellsBasis.__getitem__ 936-972 *)
Definition circular_get (s : shells) (idx : nat) : res eattr :=
  p <- mapped circular s idx ;;
  let n := gp_dim (sh_radial s) in
  let j := ((p / n + 1) / 2)%nat in
  assert (Nat.leb ((2 * j + 1) * n) p && Nat.ltb p ((2 * j + 3) * n)) ;;
  get_at circular s idx j (p - (2 * j + 1) * n).

(** A point of the plane. *)
Definition point : Type := (R * R)%type.
(** torch.norm *)
Definition norm2 (x : point) : R := sqrt (fst x * fst x + snd x * snd x).

(** circular_harmonics 122-151: entry [i] of Y at a point *)
Definition circular_harmonics (x : point) (phase : R) (i : nat) : R :=
  let angle := atan2 (snd x) (fst x) - phase in
  if Nat.eqb i 0 then 1
  else if Nat.odd i then cos (INR ((i + 1) / 2) * angle) else sin (INR (i / 2) * angle).

(** CircularShellsBasis.sample 707-784 *)
Definition circ_value (s : shells) (axis : R) (x : point) (idx : nat) : R :=
  let r := norm2 x in
  let Y := if Rle_dec r (/ 10 ^ 9) then fun i => if Nat.eqb i 0 then 1 else 0
           else circular_harmonics (fst x / r, snd x / r) axis in
  sh_value circular s r Y idx.

(** The filter basis as the kernel bases use it. *)
Definition circ_filters (s : shells) (axis : R) : filters point hattr :=
  {| f_js := sh_js s; f_sample := circ_value s axis;
     f_attr := steerable_attrs_j circular s; f_attrs := steerable_attrs_j_iter circular s |}.

(** self.action 696-697: the standard representation irrep(1, 1) in the basis
    rotated by `axis`. *)
Definition circ_action (linv : nat -> mat -> res mat) (axis : R) : res (repr pval) :=
  std <- p_irr O2 [1%Z; 1%Z] ;;
  e <- pelement O2 (VO 0 axis) ;;
  Q <- gi_rep std e ;;
  change_basis (p_irr O2) linv (repr_of_irrep std) Q.

(** CircularShellsBasis.__eq__ 1007-1015, for bases without filters (comparing
    two filters gives a tensor, not a bool). *)
Definition circ_eq (s t : shells) (axis_s axis_t : R) : res bool :=
  e <- gp_eq (sh_radial s) (sh_radial t) ;;
  if e then if Nat.eqb (sh_L s) (sh_L t)
            then match sh_mask s, sh_mask t with None, None => Ret true | _, _ => Raise end
            else Ret false
  else Ret false.

(** `J, = self.get_irrep_id(J)`: _tensor_product_irreps and _clebsh_gordan_coeff
    of C_N (cyclicgroup.py:463-535) and SO(2) (so2group.py:469-523) on ids. *)
Definition p_tensor (G : pgrp) (m n : list Z) : res (list (list Z * nat)) :=
  match m, n with
  | [a], [b] => match G with
                | Fin (Cyc N) => Ret (cn_tensor_irreps N a b)
                | SO2 => Ret (so2_tensor_irreps a b)
                | _ => Raise
                end
  | _, _ => Raise
  end.
Definition p_cg (G : pgrp) (n m j : list Z) : res arr4 :=
  match n, m, j with
  | [a], [b], [c] => match G with
                     | Fin (Cyc N) => cn_cg N a b c
                     | SO2 => so2_cg a b c
                     | _ => Raise
                     end
  | _, _, _ => Raise
  end.

(** `o2.irrep( *j ).restrict(sg_id)`: Representation.restrict calls
    restrict_representation (representation.py:305-322). *)
Definition o2_restrict (linv : nat -> mat -> res mat) (sid : psgid) (H : pgrp) (j : list Z) : res (repr pval) :=
  s <- p_irr O2 j ;;
  restrict_representation (p_irr O2) (p_irr H) linv (fun id => p_restrict_irrep O2 id sid) (repr_of_irrep s).

(** kernels_O2_subgroup_act_R2 r2.py:132-160, and its special cases
    kernels_SO2_act_R2 26-68 and kernels_SO2_subgroup_act_R2 163-192, without the
    argument `adjoint`. [None] is the EmptyBasisException. *)
Definition kernels_on_plane (linv : nat -> mat -> res mat) (sid : psgid) (L : nat) (radii sigma : list R)
    (flt : option (rattr * list Z -> bool)) (axis : R) (rin rout : repr pval)
    : res (option (psubgroup * shells * skbasis pval hattr)) :=
  sg <- p_subgroup O2 sid ;;
  radial <- mk_profile radii sigma ;;
  o <- mk_shells circular L radial flt ;;
  match o with
  | None => Ret None
  | Some s =>
      let F := circ_filters s axis in
      let H := ps_group sg in
      k <- mk_skb (p_irr H) (mk_rwe (p_irr O2) (p_irr H) (o2_restrict linv sid H) (p_tensor H) (p_cg H) F)
             [0%Z; 0%Z] F rin rout ;;
      match k with None => Ret None | Some k => Ret (Some (sg, s, k)) end
  end.
