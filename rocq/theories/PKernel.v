(** Properties C27-C29: kernel bases are steerable, and indexing agrees with
    iterating. *)
From Coq Require Import Reals List ZArith Arith Lia Lra.
From Verif Require Import LibRes LibMat ParamModel PlanarModel SpecPlanar IrrepModel SpecRep SpecIrrep RepModel SpecRepr
  KernelModel SpecKernel PolarModel SpecPolar PolarAttrThms KernelPlanar KernelPoint KernelEx KernelCor.
Import ListNotations.
Open Scope R_scope.

Theorem C27_wigner_eckart : forall T P A (mem : T -> Prop) ok irr tpi cg (act : T -> P -> P) (F : filters P A) m n,
  kernel_data mem ok irr tpi cg -> steerable_filters mem irr act F -> ok m -> ok n ->
  exists rm rn ob, irr m = Ret rm /\ irr n = Ret rn /\ mk_we irr tpi cg F m n = Ret ob /\
    forall b, ob = Some b ->
      (forall idx, (idx < b_dim b)%nat -> steerable_kernel mem (fun g => Ret (act g)) (gi_size rn) (gi_size rm)
         (gi_rep rn) (gi_rep rm) (fun x => b_sample irr F b x idx)) /\
      (listed_attrs F -> index_agrees (b_dim b) (b_get b) (b_iter b)).
Proof. exact we_steerable. Qed.
Print Assumptions C27_wigner_eckart.

Theorem C27_restricted : forall G T P A (memG : G -> Prop) (mem : T -> Prop) ok irrF irr incl restr tpi cg
    (act : G -> P -> P) (F : filters P A) m n,
  kernel_data mem ok irr tpi cg -> steerable_filters memG irrF act F ->
  (forall j, In j (map fst (f_js F)) -> sound_restricted memG mem ok irrF irr incl restr j) -> ok m -> ok n ->
  exists rm rn ob, irr m = Ret rm /\ irr n = Ret rn /\ mk_rwe irrF irr restr tpi cg F m n = Ret ob /\
    forall b, ob = Some b ->
      (forall idx, (idx < b_dim b)%nat -> steerable_kernel mem (fun h => g <- incl h ;; Ret (act g)) (gi_size rn) (gi_size rm)
         (gi_rep rn) (gi_rep rm) (fun x => b_sample irrF F b x idx)) /\
      (listed_attrs F -> index_agrees (b_dim b) (b_get b) (b_iter b)).
Proof. exact rwe_steerable. Qed.
Print Assumptions C27_restricted.

(** The library's C_N and SO(2) meet the assumptions of both. *)
Theorem C27_rotation_groups : forall G, pvalid G -> rotations G ->
  kernel_data (pmember G) (irrep_ok G) (p_irr G) (p_tensor G) (p_cg G).
Proof. exact rotations_data. Qed.
Print Assumptions C27_rotation_groups.

(** Two kernels between vectors over a point *)
Example C27_ex : exists b, mk_we (p_irr SO2) (p_tensor SO2) (p_cg SO2) (point_filters unit [0%Z]) [1%Z] [1%Z] = Ret (Some b) /\
  b_dim b = 2%nat.
Proof. exact we_example. Qed.

Theorem C28_wigner_eckart : forall T P A (mem : T -> Prop) ok irr tpi cg (act : T -> P -> P) (F : filters P A) triv rin rout,
  kernel_data mem ok irr tpi cg -> steerable_filters mem irr act F -> NoDup (map fst (f_js F)) ->
  reproduces irr mem rin -> reproduces irr mem rout -> Forall ok (r_irreps rin) -> Forall ok (r_irreps rout) ->
  sharp (r_size rin) (r_inv rin) -> sharp (r_size rout) (r_cob rout) ->
  exists o, mk_skb irr (mk_we irr tpi cg F) triv F rin rout = Ret o /\
    forall k, o = Some k ->
      (forall idx, (idx < sk_dim k)%nat -> steerable_kernel mem (fun g => Ret (act g)) (r_size rout) (r_size rin)
         (r_fun rout) (r_fun rin) (fun x => sk_sample irr F k x idx)) /\
      (listed_attrs F -> index_agrees (sk_dim k) (sk_get k) (sk_iter k)).
Proof. exact skb_we_steerable. Qed.
Print Assumptions C28_wigner_eckart.

Theorem C28_restricted : forall G T P A (memG : G -> Prop) (mem : T -> Prop) ok irrF irr incl restr tpi cg
    (act : G -> P -> P) (F : filters P A) triv rin rout,
  kernel_data mem ok irr tpi cg -> steerable_filters memG irrF act F ->
  (forall j, In j (map fst (f_js F)) -> sound_restricted memG mem ok irrF irr incl restr j) -> NoDup (map fst (f_js F)) ->
  reproduces irr mem rin -> reproduces irr mem rout -> Forall ok (r_irreps rin) -> Forall ok (r_irreps rout) ->
  sharp (r_size rin) (r_inv rin) -> sharp (r_size rout) (r_cob rout) ->
  exists o, mk_skb irr (mk_rwe irrF irr restr tpi cg F) triv F rin rout = Ret o /\
    forall k, o = Some k ->
      (forall idx, (idx < sk_dim k)%nat -> steerable_kernel mem (fun h => g <- incl h ;; Ret (act g)) (r_size rout) (r_size rin)
         (r_fun rout) (r_fun rin) (fun x => sk_sample irrF F k x idx)) /\
      (listed_attrs F -> index_agrees (sk_dim k) (sk_get k) (sk_iter k)).
Proof. exact skb_rwe_steerable. Qed.
Print Assumptions C28_restricted.

(** From radii and representations to kernels on the plane for C_N and SO(2) *)
Theorem C28_plane : forall linv sid sg L radii sigma flt axis rin rout,
  correct_inverse linv -> pdocumented O2 sid -> p_subgroup O2 sid = Ret sg -> rotations (ps_group sg) ->
  (forall j n Q ids, (j <= L)%nat -> p_restrict_irrep O2 (ar_id circular j) sid = Ret ((n, Q), ids) -> sharp n Q) ->
  (exists p, mk_profile radii sigma = Ret p) -> sharp 2 (rot2 axis) ->
  planar_repr (ps_group sg) rin -> planar_repr (ps_group sg) rout ->
  sharp (r_size rin) (r_inv rin) -> sharp (r_size rout) (r_cob rout) ->
  exists o act, kernels_on_plane linv sid L radii sigma flt axis rin rout = Ret o /\ circ_action linv axis = Ret act /\
    forall sg' s k, o = Some (sg', s, k) -> sg' = sg /\
      (forall idx, (idx < sk_dim k)%nat ->
         steerable_kernel (pmember (ps_group sg)) (fun h => g <- ps_incl sg h ;; Ret (act_of act g))
           (r_size rout) (r_size rin) (r_fun rout) (r_fun rin)
           (fun x => sk_sample (p_irr O2) (circ_filters s axis) k x idx)) /\
      (flt = None -> index_agrees (sk_dim k) (sk_get k) (sk_iter k)).
Proof. exact kernels_on_plane_ok. Qed.
Print Assumptions C28_plane.

(** The restrictions to groups of rotations meet the assumption of C28_plane. *)
Theorem C28_restrictions_sharp : forall M L j n Q ids, (j <= L)%nat ->
  p_restrict_irrep O2 (ar_id circular j) (IO2 None M) = Ret ((n, Q), ids) -> sharp n Q.
Proof. exact rot_sharp_restrict. Qed.
Print Assumptions C28_restrictions_sharp.

Theorem C28_point : forall P G rin rout, pvalid G -> rotations G -> planar_repr G rin -> planar_repr G rout ->
  sharp (r_size rin) (r_inv rin) -> sharp (r_size rout) (r_cob rout) ->
  exists o, kernels_on_point P (p_irr G) (p_tensor G) (p_cg G) [0%Z] rin rout = Ret o /\
    forall k, o = Some k ->
      (forall idx (x : P), (idx < sk_dim k)%nat ->
         exists K, sk_sample (p_irr G) (point_filters P [0%Z]) k x idx = Ret K /\
           forall g, pmember G g -> exists A B, r_fun rout g = Ret (r_size rout, A) /\ r_fun rin g = Ret (r_size rin, B) /\
             meq (r_size rout) (r_size rin) (mmul (r_size rin) K B) (mmul (r_size rout) A K)) /\
      index_agrees (sk_dim k) (sk_get k) (sk_iter k).
Proof. exact rotations_on_point. Qed.
Print Assumptions C28_point.

(** Two radii, from scalars to vectors: four kernels *)
Example C28_ex : forall linv rin rout, correct_inverse linv -> so2_trivial = Ret rin -> so2_standard = Ret rout ->
  exists sg s k, kernels_on_plane linv (IO2 None (-1)) 1 [1; 2] [1; 1] None 0 rin rout = Ret (Some (sg, s, k)) /\
    ps_group sg = SO2 /\ sk_dim k = 4%nat.
Proof. exact plane_nonempty. Qed.

Theorem C29_union : forall P X (idx_of : X -> nat) (bs : list (kbasis P X)) u,
  mk_union idx_of bs = Ret (Some u) -> Forall (fun b => index_agrees (k_dim b) (k_get b) (k_iter b)) bs ->
  index_agrees (k_dim u) (k_get u) (k_iter u).
Proof. exact union_index. Qed.
Print Assumptions C29_union.

Theorem C29_union_samples : forall P X (idx_of : X -> nat) (bs : list (kbasis P X)) u,
  mk_union idx_of bs = Ret (Some u) -> forall idx, (idx < k_dim u)%nat ->
  exists b i, In b bs /\ (i < k_dim b)%nat /\ k_shape b = k_shape u /\ forall x, k_sample u x idx = k_sample b x i.
Proof. exact union_samples. Qed.
Print Assumptions C29_union_samples.

Theorem C29_spherical : forall L p flt s, mk_shells spherical L p flt = Ret (Some s) ->
  index_agrees (sh_dim spherical s) (spherical_get s) (sh_iter spherical s).
Proof. exact spherical_index. Qed.
Print Assumptions C29_spherical.

(** CircularShellsBasis.__getitem__ fails for every index although iterating works. *)
Theorem C29_circular_refuted : forall L p flt s, mk_shells circular L p flt = Ret (Some s) ->
  (0 < sh_dim circular s)%nat /\ (exists l, sh_iter circular s = Ret l /\ length l = sh_dim circular s) /\
  (forall idx, circular_get s idx = Raise).
Proof. exact circular_index. Qed.
Print Assumptions C29_circular_refuted.

Example C29_ex : exists s t,
  mk_shells circular 2 {| gp_radii := [1; 2]; gp_sigma := [1; 1] |} None = Ret (Some s) /\ sh_dim circular s = 10%nat /\
  mk_shells spherical 1 {| gp_radii := [1; 2]; gp_sigma := [1; 1] |} None = Ret (Some t) /\ sh_dim spherical t = 8%nat.
Proof. do 2 eexists; repeat split. Qed.
