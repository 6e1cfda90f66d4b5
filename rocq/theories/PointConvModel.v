(** Model of the convolutions on point clouds: _RdPointConv
    (/repo/escnn/nn/modules/pointconv/rd_point_convolution.py:20-351), R2PointConv and
    its parameters (r2_point_convolution.py:22-169, 171-257), and the tensors with
    coordinates: GeometricTensor (/repo/escnn/nn/geometric_tensor.py:228-250, 405-411)
    and FieldType.transform (/repo/escnn/nn/field_type.py:338-363). The messages are
    those of SamplerModel, the bias that of LayerModel, the kernels those of
    KernelModel and PolarModel.

    Simplifications. A tensor with two axes is the list of its rows; all rows of one
    tensor have the same length. The propagation of torch_geometric is modelled for
    `aggr='mean'` and its default flow: edge (j, i) carries the features of node j to
    node i, and a node that no edge enters gets zeros. Node numbers are natural
    numbers. The filter and the bias are expanded at every call, as in training
    mode. The checks that the two types have the same gspace and the caches are left
    out. *)
From Coq Require Import String.
From Coq Require Import Reals ZArith Bool List Arith.
From Verif Require Import LibRes LibMat FieldModel FinGroupModel ParamModel PlanarModel IrrepModel RepModel KernelModel PolarModel BlocksModel SamplerModel LayerModel LibPy GridModel ImageModel RdConvModel.
Import ListNotations.
Local Open Scope nat_scope.

(** the difference and the sum of two rows *)
Definition row_sub (p q : list R) : list R := map (fun ab => fst ab - snd ab)%R (List.combine p q).
Definition row_add (p q : list R) : list R := map (fun ab => fst ab + snd ab)%R (List.combine p q).
(** einsum 'oi,i->o' *)
Definition row_map (m n : nat) (M : mat) (v : list R) : list R := map (fun o => sumn n (fun i => M o i * nth i v 0)%R) (seq 0 m).
Definition rows_of (n : nat) (l : list (list R)) : bool := forallb (fun v => Nat.eqb (length v) n) l.

Section Cloud.
Context {A X T : Type}.
Variable rep : A -> repr T.
Variable name : A -> string.
Variable aeqb : A -> A -> bool.
Variable order : list A -> list A.
Variable sort : list (string * string) -> list (string * string).
Notation size := (asize rep).

(** A GeometricTensor with `coords`. *)
Record cloud := { cl_type : list A; cl_rows : list (list R); cl_coords : list (list R) }.
(** GeometricTensor.__init__ geometric_tensor.py:228-250; [d] is the dimensionality of the gspace *)
Definition mk_cloud (d : nat) (ft : list A) (rows coords : list (list R)) : res cloud :=
  assert (rows_of d coords) ;;
  assert (Nat.eqb (length rows) (length coords)) ;;
  assert (rows_of (type_size size ft) rows) ;;
  Ret {| cl_type := ft; cl_rows := rows; cl_coords := coords |}.

(** FieldType.transform field_type.py:338-363 with coordinates, and GeometricTensor.transform
    geometric_tensor.py:405-411; [base] is `gspace.basespace_action` *)
Definition cloud_transform (base : T -> res (nat * mat)) (g : T) (x : cloud) : res cloud :=
  rho <- fiber_matrix rep (cl_type x) g ;;
  M <- base g ;;
  let n := type_size size (cl_type x) in
  assert (rows_of n (cl_rows x)) ;;
  assert (rows_of (fst M) (cl_coords x)) ;;
  mk_cloud (fst M) (cl_type x) (map (row_map n n rho) (cl_rows x)) (map (row_map (fst M) (fst M) (snd M)) (cl_coords x)).

Record pointconv := {
  pt_in : list A; pt_out : list A; pt_d : nat; pt_groups : nat; pt_bias : option (nat * mat); pt_sampler : sampler A X (list R) }.

(** _RdPointConv.__init__ rd_point_convolution.py:112-208 *)
Definition mk_pointconv (irr : list Z -> res (girrep T)) (tid : list Z) (generator : A -> A -> res (option (BlocksModel.kbasis X (list R))))
    (ins outs : list A) (d groups : nat) (bias : bool) (bf : option (attr X -> bool)) : res pointconv :=
  let in_size := length ins / groups in
  let out_size := length outs / groups in
  (* 130-147 *)
  first <- (if Nat.ltb 1 groups then
              assert (Nat.eqb (length ins mod groups) 0) ;;
              assert (Nat.eqb (length outs mod groups) 0) ;;
              assert (equal_groups aeqb ins in_size) ;;
              assert (equal_groups aeqb outs out_size) ;;
              Ret (firstn in_size ins)
            else Ret ins) ;;
  (* 149-190 *)
  m <- mk_bias irr tid bias (map rep outs) ;;
  (* 196-208 *)
  s <- mk_sampler name size aeqb order sort first outs generator bf ;;
  assert (negb (Nat.eqb (bb_dim (sm_blocks s)) 0)) ;;
  Ret {| pt_in := ins; pt_out := outs; pt_d := d; pt_groups := groups; pt_bias := m; pt_sampler := s |}.

(** message 342-352 *)
Definition pt_message (c : pointconv) (weights x_j delta : list R) : res (list R) :=
  assert (Nat.eqb (length delta) (pt_d c)) ;;
  compute_messages name size (pt_sampler c) weights x_j delta true (pt_groups c).

(** The mean over the messages that reach node [i], channel by channel; [targets]
    are the nodes the messages are for. *)
Definition reaching (i : nat) (targets : list nat) (messages : list (list R)) : list (list R) :=
  map snd (filter (fun tm => Nat.eqb (fst tm) i) (List.combine targets messages)).
Definition mean_at (m i : nat) (targets : list nat) (messages : list (list R)) : list R :=
  let l := reaching i targets messages in
  map (fun o => fold_right (fun v s => nth o v 0 + s) 0 l / INR (Nat.max 1 (length l)))%R (seq 0 m).
(** self.propagate 323 *)
Definition propagate (c : pointconv) (weights : list R) (rows : list (list R)) (edges : list (nat * nat)) (deltas : list (list R)) : res (list (list R)) :=
  assert (forallb (fun e => Nat.ltb (fst e) (length rows) && Nat.ltb (snd e) (length rows)) edges) ;;
  assert (Nat.eqb (length deltas) (length edges)) ;;
  (* `assert S > 0` basissampler_blocks.py:430 *)
  assert (negb (Nat.eqb (length edges) 0)) ;;
  messages <- mapM (fun ed => x_j <- get_nth rows (fst (fst ed)) ;; pt_message c weights x_j (snd ed)) (List.combine edges deltas) ;;
  Ret (map (fun i => mean_at (type_size size (pt_out c)) i (map snd edges) messages) (seq 0 (length rows))).

(** forward 281-340 *)
Definition pt_forward (c : pointconv) (weights bias : list R) (x : cloud) (edges : list (nat * nat)) (edge_delta : option (list (list R))) : res cloud :=
  assert (same_type aeqb (cl_type x) (pt_in c)) ;;
  (* 318-321 *)
  deltas <- match edge_delta with
            | Some l => Ret l
            | None => mapM (fun e => p <- get_nth (cl_coords x) (fst e) ;; q <- get_nth (cl_coords x) (snd e) ;; Ret (row_sub p q)) edges
            end ;;
  out <- propagate c weights (cl_rows x) edges deltas ;;
  (* 325-332 *)
  let out' := match expand_bias (map rep (pt_out c)) (pt_bias c) bias with Some v => map (fun r => row_add r v) out | None => out end in
  mk_cloud (pt_d c) (pt_out c) out' (cl_coords x).
End Cloud.
Arguments cloud : clear implicits.
Arguments pointconv : clear implicits.

(** ** The plane *)
Local Open Scope R_scope.
(** A SteerableKernelBasis as a function of the point: element number [idx] with the
    attributes the iteration over the basis yields at that place. `sample` does not
    raise at an element of the basis. *)
Definition at_points {G T B} (irrF : list Z -> res (girrep G)) (F : filters point B) (k : skbasis T B) : res (BlocksModel.kbasis (sattr B) (list R)) :=
  attrs <- sk_iter k ;;
  Ret {| kb_out := sk_size_out k; kb_in := sk_size_in k;
         kb_elements := map (fun ai => {| el_attr := {| at_in := sa_ii (fst ai); at_out := sa_oo (fst ai); at_id := sa_idx (fst ai); at_rest := fst ai |};
                                          el_dim := fst (sa_shape (fst ai));
                                          el_sample := fun o i p => match sk_sample irrF F k (nth 0 p 0, nth 1 p 0) (snd ai) with Ret K => K o i | Raise => 0 end |})
                          (List.combine attrs (seq 0 (sk_dim k))) |}.

(** R2PointConv._build_kernel_basis r2_point_convolution.py:164-168 and
    GSpace2D._basis_generator r2.py:100-139 for groups of rotations *)
Definition point_generator {A} (rep : A -> repr pval) (linv : nat -> mat -> res mat) (sid : psgid) (L : nat) (radii sigma : list R)
    (i o : A) : res (option (BlocksModel.kbasis (sattr hattr) (list R))) :=
  r <- kernels_on_plane linv sid L radii sigma None (PI / 2) (rep i) (rep o) ;;
  match r with
  | None => Ret None
  | Some (sg, s, kb) => b <- at_points (p_irr O2) (circ_filters s (PI / 2)) kb ;; Ret (Some b)
  end.

(** torch.linspace(0, width, n) *)
Definition linspace (width : R) (n : nat) : list R :=
  map (fun i => if Nat.eqb n 1 then 0 else INR i * width / INR (n - 1)) (seq 0 n).
(** int(x): towards zero *)
Definition int_of (x : R) : Z := if Rle_dec 0 x then Int_part x else (- Int_part (- x))%Z.
Inductive widths := SDefault | SFloat (s : R) | SList (l : list R).
(** compute_basis_params 203-257; [cutoff] is `frequencies_cutoff` as a function of the
    radius, None where it is not passed (3 r), and a float [c] is the function c r *)
Definition point_params (cutoff : option (R -> R)) (rings : option (list R)) (sigma : widths) (width : option R) (n_rings : option nat)
    (custom : option (attr (sattr hattr) -> bool)) : res ((attr (sattr hattr) -> bool) * list R * list R * Z) :=
  (* 212 *)
  assert (xorb (match width, n_rings with Some _, Some _ => true | _, _ => false end) (match rings with Some _ => true | None => false end)) ;;
  (* 215-219 *)
  rings <- match rings, width, n_rings with
           | Some l, _, _ => Ret l
           | None, Some w, Some n => assert (negb (Rleb w 0)) ;; assert (Nat.ltb 0 n) ;; Ret (linspace w n)
           | _, _, _ => Raise
           end ;;
  (* 221-227: `[0.6] * (len(rings) - 1) + [0.4]` has one entry when there are no rings *)
  let sigma := match sigma with
               | SDefault => map (fun ir => if Req_EM_T (snd ir) 0 then 5 / 1000 else if Nat.eqb (fst ir) (length rings - 1) then 4 / 10 else 6 / 10)
                               (List.combine (seq 0 (length rings)) rings) ++ (if Nat.eqb (length rings) 0 then [4 / 10] else [])
               | SFloat s => repeat s (length rings)
               | SList l => l
               end in
  (* 229-236 *)
  let cut := match cutoff with Some f => f | None => fun r => 3 * r end in
  (* 238 *)
  top <- match map cut rings with [] => Raise | v :: l => Ret (fold_left Rmax l v) end ;;
  (* 240-248, bandlimiting_filter 171-198 *)
  let band := fun a : attr (sattr hattr) => Rleb (Rabs (IZR (nth 1 (h_j (ka_own (sa_own (at_rest a)))) 0%Z))) (cut (ra_radius (h_radial (ka_own (sa_own (at_rest a)))))) in
  Ret (fun a => match custom with Some f => f a | None => true end && band a, rings, sigma, int_of top).

(** R2PointConv.__init__ 147-158 with C_N or SO(2): [sid] is (None, N) or (None, -1). A
    negative maximal frequency leaves no filters (`EmptyBasisException` for every pair,
    so that the layer is refused, 202-207). *)
Definition mk_r2pointconv {A} (rep : A -> repr pval) name aeqb order sort linv (sid : psgid) (ins outs : list A) (groups : nat) (bias : bool)
    (sigma : widths) (width : option R) (n_rings : option nat) (cutoff : option (R -> R)) (rings : option (list R)) (custom : option (attr (sattr hattr) -> bool))
    : res (pointconv A (sattr hattr)) :=
  p <- point_params cutoff rings sigma width n_rings custom ;;
  let '(bf, rings, sigma, L) := p in
  assert (0 <=? L)%Z ;;
  sg <- p_subgroup O2 sid ;;
  mk_pointconv rep name aeqb order sort (p_irr (ps_group sg)) (p_trivial_id (ps_group sg)) (point_generator rep linv sid (Z.to_nat L) rings sigma)
    ins outs 2 groups bias (Some bf).
