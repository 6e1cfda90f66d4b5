(** C85: the convolutions on point clouds. *)
From Coq Require Import String Ascii.
From Coq Require Import Reals ZArith Bool List Arith Lia Lra Permutation.
From Verif Require Import LibRes LibPy LibMat LibMatS LibTrig FieldModel SpecField FinGroupModel SpecFinGroup ParamModel PlanarModel SpecPlanar IrrepModel SpecRep SpecIrrep
  RepModel SpecRepr RepProofs KernelModel SpecKernel PolarModel SpecPolar BlocksModel SpecBlocks SamplerModel SpecSampler LayerModel SpecLayer GridModel SpecGrid ImageModel SpecImage SpecRdConv RdConvModel RdConvThms RdConvPlane RdConvEx
  SpecPointConv PointConvModel PointConvThms PointConvEquiv PointConvPlane PointConvCor PointConvParams PointConvEx.
Import ListNotations.
Open Scope R_scope.

(** Every group element that the kernels are steerable for commutes with the layer. *)
Theorem C85_commutes : forall (A X T : Type) (rep : A -> repr T) (name : A -> string) (aeqb : A -> A -> bool) (order : list A -> list A) (sort : list (string * string) -> list (string * string))
  (generator : A -> A -> res (option (kbasis X (list R)))) (bf : option (attr X -> bool)),
  (forall a b : A, aeqb a b = true <-> a = b) ->
  (forall l : list A, Permutation (order l) l) ->
  (forall l : list (string * string), Permutation (sort l) l) ->
  forall (base : T -> res (nat * mat)) (irr : list Z -> res (girrep T)) (mem : T -> Prop) (op : T -> T -> res T) (e : T) (tid : list Z) (ins outs : list A) 
  (d groups : nat) (bias : bool) (c : pointconv A X) (g : T) (M : mat) (w b : list R) (rows coords : list (list R)) (x : cloud A) (edges : list (nat * nat))
  (dl : option (list (list R))) (y : cloud A),
  (forall i : girrep T, irr tid = Ret i -> trivial_rep mem (gi_size i) (gi_rep i)) ->
  Forall (fun a : A => proper irr mem op e (rep a)) ins ->
  Forall (fun a : A => proper irr mem op e (rep a)) outs ->
  (forall a : A, In a ins -> dotless (name a)) ->
  (forall a : A, In a outs -> dotless (name a)) ->
  (forall a a' : A, In a ins -> In a' ins -> name a = name a' -> a = a') ->
  (forall a a' : A, In a outs -> In a' outs -> name a = name a' -> a = a') ->
  Forall (fun a : A => (0 < asize rep a)%nat) ins ->
  Forall (fun a : A => (0 < asize rep a)%nat) outs ->
  (forall i o : A,
  In i ins ->
  In o outs -> exists k : option (kbasis X (list R)), generator i o = Ret k /\ (forall kb : kbasis X (list R), k = Some kb -> kb_out kb = asize rep o /\ kb_in kb = asize rep i)) ->
  mem g ->
  base g = Ret (d, M) ->
  (forall (i o : A) (kb : kbasis X (list R)) (el : element X (list R)),
  In i ins ->
  In o outs -> generator i o = Ret (Some kb) -> In el (kb_elements kb) -> steerable_on d (asize rep o) (asize rep i) M (value_at g (rep i)) (value_at g (rep o)) (el_sample el)) ->
  mk_pointconv rep name aeqb order sort irr tid generator ins outs d groups bias bf = Ret c ->
  mk_cloud rep d ins rows coords = Ret x ->
  pt_forward rep name aeqb c w b x edges dl = Ret y ->
  exists x' y' : cloud A,
  cloud_transform rep base g x = Ret x' /\ cloud_transform rep base g y = Ret y' /\ pt_forward rep name aeqb c w b x' edges (option_map (map (turned d M)) dl) = Ret y'.
Proof. exact @pointconv_commutes. Qed.
Print Assumptions C85_commutes.

(** R2PointConv with C_N or SO(2): every element of the group. *)
Theorem C85_rotations : forall (A : Type) (rep : A -> repr pval) (name : A -> string) (aeqb : A -> A -> bool) (order : list A -> list A) (sort : list (string * string) -> list (string * string)),
  (forall a b : A, aeqb a b = true <-> a = b) ->
  (forall l : list A, Permutation (order l) l) ->
  (forall l : list (string * string), Permutation (sort l) l) ->
  forall (N : Z) (sg : psubgroup) (linv : nat -> mat -> res mat),
  (0 < N)%Z \/ N = (-1)%Z ->
  p_subgroup O2 (IO2 None N) = Ret sg ->
  correct_inverse linv ->
  forall ins outs : list A,
  Forall (fun a : A => planar_repr (ps_group sg) (rep a) /\ sharp (r_size (rep a)) (r_inv (rep a))) ins ->
  Forall (fun a : A => planar_repr (ps_group sg) (rep a) /\ sharp (r_size (rep a)) (r_cob (rep a))) outs ->
  (forall a : A, In a ins -> dotless (name a)) ->
  (forall a : A, In a outs -> dotless (name a)) ->
  (forall a a' : A, In a ins -> In a' ins -> name a = name a' -> a = a') ->
  (forall a a' : A, In a outs -> In a' outs -> name a = name a' -> a = a') ->
  forall (groups : nat) (bias : bool) (sigma : widths) (width : option R) (n_rings : option nat) (cutoff : option (R -> R)) (rings : option (list R))
  (custom : option (attr (sattr hattr) -> bool)) (bf : attr (sattr hattr) -> bool) (radii sig : list R) (L : Z) (base : repr pval) (h : pval) (c : pointconv A (sattr hattr))
  (w b : list R) (rows coords : list (list R)) (x : cloud A) (edges : list (nat * nat)) (dl : option (list (list R))) (y : cloud A),
  point_params cutoff rings sigma width n_rings custom = Ret (bf, radii, sig, L) ->
  (exists p : gprofile, mk_profile radii sig = Ret p) ->
  mk_r2pointconv rep name aeqb order sort linv (IO2 None N) ins outs groups bias sigma width n_rings cutoff rings custom = Ret c ->
  r2_action linv (IO2 None N) sg = Ret base ->
  pmember (ps_group sg) h ->
  mk_cloud rep 2 ins rows coords = Ret x ->
  pt_forward rep name aeqb c w b x edges dl = Ret y ->
  exists (t : R) (M : mat) (x' y' : cloud A),
  ps_incl sg h = Ret (VO 0 t) /\
  r_fun base h = Ret (2%nat, M) /\
  meq 2 2 M (rot2 t) /\
  cloud_transform rep (r_fun base) h x = Ret x' /\
  cloud_transform rep (r_fun base) h y = Ret y' /\ pt_forward rep name aeqb c w b x' edges (option_map (map (turned 2 M)) dl) = Ret y'.
Proof. exact @r2pointconv_commutes. Qed.
Print Assumptions C85_rotations.

(** Translations, the order of the edges, the numbering of the nodes. *)
Theorem C85_translations : forall (A X T : Type) (rep : A -> repr T) (name : A -> string) (aeqb : A -> A -> bool),
  (forall a b : A, aeqb a b = true <-> a = b) ->
  forall (c : pointconv A X) (w b : list R) (rows coords : list (list R)) (x : cloud A) (edges : list (nat * nat)) (y : cloud A) (t : list R),
  mk_cloud rep (pt_d c) (pt_in c) rows coords = Ret x ->
  pt_forward rep name aeqb c w b x edges None = Ret y ->
  pt_forward rep name aeqb c w b {| cl_type := pt_in c; cl_rows := rows; cl_coords := map (shifted t) coords |} edges None =
  Ret {| cl_type := pt_out c; cl_rows := cl_rows y; cl_coords := map (shifted t) coords |}.
Proof. exact @translation_ok. Qed.
Print Assumptions C85_translations.

Theorem C85_edge_order : forall (A X T : Type) (rep : A -> repr T) (name : A -> string) (aeqb : A -> A -> bool),
  (forall a b : A, aeqb a b = true <-> a = b) ->
  forall (c : pointconv A X) (w b : list R) (rows coords : list (list R)) (x : cloud A) (edges edges' : list (nat * nat)) (y : cloud A),
  mk_cloud rep (pt_d c) (pt_in c) rows coords = Ret x ->
  Permutation edges edges' -> pt_forward rep name aeqb c w b x edges None = Ret y -> pt_forward rep name aeqb c w b x edges' None = Ret y.
Proof. exact @edge_order_ok. Qed.
Print Assumptions C85_edge_order.

Theorem C85_renumbering : forall (A X T : Type) (rep : A -> repr T) (name : A -> string) (aeqb : A -> A -> bool),
  (forall a b : A, aeqb a b = true <-> a = b) ->
  forall (c : pointconv A X) (w b : list R) (rows coords : list (list R)) (x : cloud A) (rows' coords' : list (list R)) (x' : cloud A) (edges : list (nat * nat)) 
  (y : cloud A) (s : nat -> nat),
  mk_cloud rep (pt_d c) (pt_in c) rows coords = Ret x ->
  mk_cloud rep (pt_d c) (pt_in c) rows' coords' = Ret x' ->
  renumbers (Datatypes.length rows) s ->
  Datatypes.length rows' = Datatypes.length rows ->
  (forall i : nat, (i < Datatypes.length rows)%nat -> nth (s i) rows' [] = nth i rows [] /\ nth (s i) coords' [] = nth i coords []) ->
  pt_forward rep name aeqb c w b x edges None = Ret y ->
  exists y' : cloud A,
  pt_forward rep name aeqb c w b x' (map (fun e : nat * nat => (s (fst e), s (snd e))) edges) None = Ret y' /\
  cl_type y' = pt_out c /\ cl_coords y' = coords' /\ (forall i : nat, (i < Datatypes.length rows)%nat -> nth (s i) (cl_rows y') [] = nth i (cl_rows y) []).
Proof. exact @renumber_ok. Qed.
Print Assumptions C85_renumbering.

(** What is computed. *)
Theorem C85_value : forall (A X T : Type) (rep : A -> repr T) (name : A -> string) (aeqb : A -> A -> bool) (order : list A -> list A) (sort : list (string * string) -> list (string * string))
  (generator : A -> A -> res (option (kbasis X (list R)))) (bf : option (attr X -> bool)),
  (forall a b : A, aeqb a b = true <-> a = b) ->
  (forall l : list A, Permutation (order l) l) ->
  (forall l : list (string * string), Permutation (sort l) l) ->
  forall ins outs : list A,
  (forall a : A, In a ins -> dotless (name a)) ->
  (forall a : A, In a outs -> dotless (name a)) ->
  (forall a a' : A, In a ins -> In a' ins -> name a = name a' -> a = a') ->
  (forall a a' : A, In a outs -> In a' outs -> name a = name a' -> a = a') ->
  Forall (fun a : A => (0 < asize rep a)%nat) ins ->
  Forall (fun a : A => (0 < asize rep a)%nat) outs ->
  (forall i o : A,
  In i ins ->
  In o outs -> exists k : option (kbasis X (list R)), generator i o = Ret k /\ (forall kb : kbasis X (list R), k = Some kb -> kb_out kb = asize rep o /\ kb_in kb = asize rep i)) ->
  forall (irr : list Z -> res (girrep T)) (tid : list Z) (d groups : nat) (bias : bool) (c : pointconv A X),
  mk_pointconv rep name aeqb order sort irr tid generator ins outs d groups bias bf = Ret c ->
  forall first : list A,
  (0 < groups)%nat ->
  ins = copies groups first ->
  exists infos : list (info X),
  Datatypes.length infos = bb_dim (sm_blocks (pt_sampler c)) /\
  (forall (k : nat) (f : info X), nth_error infos k = Some f -> describes name (fun _ : A => 0%nat) (scaled_elements generator bf) first outs k f) /\
  NoDup (map slot infos) /\
  (forall (o i j : nat) (ro ri : A),
  nth_error outs o = Some ro -> nth_error first i = Some ri -> (j < Datatypes.length (scaled_elements generator bf ri ro))%nat -> In (o, i, j) (map slot infos)) /\
  (forall (w b : list R) (rows coords : list (list R)) (x : cloud A) (edges : list (nat * nat)) (dl : option (list (list R))) (y : cloud A),
  mk_cloud rep d ins rows coords = Ret x ->
  pt_forward rep name aeqb c w b x edges dl = Ret y ->
  cl_type y = outs /\
  cl_coords y = coords /\
  Datatypes.length (cl_rows y) = Datatypes.length rows /\
  (forall i : nat,
  (i < Datatypes.length rows)%nat ->
  Datatypes.length (nth i (cl_rows y) []) = type_size (asize rep) outs /\
  (forall o : nat,
  (o < type_size (asize rep) outs)%nat ->
  nth o (nth i (cl_rows y) []) 0 =
  mean
  (map
  (fun ed : nat * nat * list R =>
  row_message (type_size (asize rep) first) (drawn (asize rep) (scaled_elements generator bf) first outs infos w (snd ed)) (nth (fst (fst ed)) rows []) o
  (o / (type_size (asize rep) outs / groups))) (entering i (List.combine edges match dl with
  | Some l => l
  | None => along_edges d coords edges
  end))) +
  match expand_bias (map rep outs) (pt_bias c) b with
  | Some v => nth o v 0
  | None => 0
  end))).
Proof. exact @pointconv_value. Qed.
Print Assumptions C85_value.

(** When a call succeeds; a graph without edges is refused. *)
Theorem C85_runs : forall (A X T : Type) (rep : A -> repr T) (name : A -> string) (aeqb : A -> A -> bool) (order : list A -> list A) (sort : list (string * string) -> list (string * string))
  (generator : A -> A -> res (option (kbasis X (list R)))) (bf : option (attr X -> bool)),
  (forall a b : A, aeqb a b = true <-> a = b) ->
  (forall l : list A, Permutation (order l) l) ->
  (forall l : list (string * string), Permutation (sort l) l) ->
  forall ins outs : list A,
  (forall a : A, In a ins -> dotless (name a)) ->
  (forall a : A, In a outs -> dotless (name a)) ->
  (forall a a' : A, In a ins -> In a' ins -> name a = name a' -> a = a') ->
  (forall a a' : A, In a outs -> In a' outs -> name a = name a' -> a = a') ->
  Forall (fun a : A => (0 < asize rep a)%nat) ins ->
  Forall (fun a : A => (0 < asize rep a)%nat) outs ->
  (forall i o : A,
  In i ins ->
  In o outs -> exists k : option (kbasis X (list R)), generator i o = Ret k /\ (forall kb : kbasis X (list R), k = Some kb -> kb_out kb = asize rep o /\ kb_in kb = asize rep i)) ->
  forall (irr : list Z -> res (girrep T)) (tid : list Z) (d groups : nat) (bias : bool) (c : pointconv A X),
  mk_pointconv rep name aeqb order sort irr tid generator ins outs d groups bias bf = Ret c ->
  forall (first : list A) (w b : list R) (rows coords : list (list R)) (x : cloud A) (edges : list (nat * nat)) (dl : option (list (list R))),
  mk_cloud rep d ins rows coords = Ret x ->
  ins = copies groups first ->
  (exists y : cloud A, pt_forward rep name aeqb c w b x edges dl = Ret y) <->
  (0 < groups)%nat /\
  between (Datatypes.length rows) edges /\
  edges <> [] /\
  Datatypes.length w = bb_dim (sm_blocks (pt_sampler c)) /\
  (forall l : list (list R), dl = Some l -> Datatypes.length l = Datatypes.length edges /\ Forall (fun t : list R => Datatypes.length t = d) l) /\
  ((1 < groups)%nat ->
  one_kind first /\ one_kind outs \/
  (forall i o : A, In i first -> In o outs -> scaled_elements generator bf i o <> [] -> ~ (one_run name (asize rep) first (name i) /\ one_run name (asize rep) outs (name o)))).
Proof. exact @pointconv_runs. Qed.
Print Assumptions C85_runs.

(** The rings, their widths, the highest frequency and the filter. *)
Theorem C85_params : forall (cutoff : option (R -> R)) (rings : option (list R)) (sigma : widths) (width : option R) (n_rings : option nat) (custom : option (attr (sattr hattr) -> bool))
  (bf : attr (sattr hattr) -> bool) (radii sig : list R) (L : Z),
  point_params cutoff rings sigma width n_rings custom = Ret (bf, radii, sig, L) ->
  let cut := match cutoff with
  | Some f => f
  | None => fun r : R => 3 * r
  end in
  radii <> [] /\
  (rings = Some radii /\ (width = None \/ n_rings = None) \/ rings = None /\ (exists (w : R) (n : nat), width = Some w /\ n_rings = Some n /\ 0 < w /\ (0 < n)%nat /\ spaced w n radii)) /\
  match sigma with
  | SDefault =>
  Datatypes.length sig = Datatypes.length radii /\
  (forall i : nat,
  (i < Datatypes.length radii)%nat -> nth i sig 0 = (if Req_EM_T (nth i radii 0) 0 then 5 / 1000 else if (i =? Datatypes.length radii - 1)%nat then 4 / 10 else 6 / 10))
  | SFloat s => sig = repeat s (Datatypes.length radii)
  | SList l => sig = l
  end /\
  (exists v : R, largest cut radii v /\ cut_to L v) /\
  (forall (r : R) (j : Z), In r radii -> Rabs (IZR j) <= cut r -> (Z.abs j <= L)%Z) /\
  (forall a : attr (sattr hattr),
  bf a = true <->
  (forall f : attr (sattr hattr) -> bool, custom = Some f -> f a = true) /\
  Rabs (IZR (nth 1 (h_j (ka_own (sa_own (at_rest a)))) 0%Z)) <= cut (ra_radius (h_radial (ka_own (sa_own (at_rest a)))))).
Proof. exact @params_ok. Qed.
Print Assumptions C85_params.

Theorem C85_params_accepted : forall (cutoff : option (R -> R)) (rings : option (list R)) (sigma : widths) (width : option R) (n_rings : option nat) (custom : option (attr (sattr hattr) -> bool)),
  (exists p : (attr (sattr hattr) -> bool) * list R * list R * Z, point_params cutoff rings sigma width n_rings custom = Ret p) <->
  (exists (r : R) (l : list R), rings = Some (r :: l) /\ (width = None \/ n_rings = None)) \/
  rings = None /\ (exists (w : R) (n : nat), width = Some w /\ n_rings = Some n /\ 0 < w /\ (0 < n)%nat).
Proof. exact @params_accepted. Qed.
Print Assumptions C85_params_accepted.

Theorem C85_profile : forall (cutoff : option (R -> R)) (rings : option (list R)) (sigma : widths) (width : option R) (n_rings : option nat) (custom : option (attr (sattr hattr) -> bool))
  (bf : attr (sattr hattr) -> bool) (radii sig : list R) (L : Z),
  point_params cutoff rings sigma width n_rings custom = Ret (bf, radii, sig, L) ->
  (forall l : list R, rings = Some l -> Forall (fun r : R => 0 <= r) l) ->
  match sigma with
  | SDefault => True
  | SFloat s => 0 < s
  | SList l => Datatypes.length l = Datatypes.length radii /\ Forall (fun s : R => 0 < s) l
  end -> exists p : gprofile, mk_profile radii sig = Ret p.
Proof. exact @params_profile. Qed.
Print Assumptions C85_profile.

(** *** An instance: C_4, a scalar and a vector field to two scalars, on two points. *)
Example layer_and_run : forall linv, correct_inverse linv -> exists c, build linv = Ret c /\
  forall w b, length w = bb_dim (sm_blocks (pt_sampler c)) -> exists y, pt_forward field label Bool.eqb c w b points graph None = Ret y.
Proof. exact point_layer_built. Qed.

Example its_rotations : forall linv base h, correct_inverse linv -> r2_action linv (IO2 None 4) c4 = Ret base -> pmember (ps_group c4) h ->
  exists c, build linv = Ret c /\ forall w b, length w = bb_dim (sm_blocks (pt_sampler c)) ->
  exists y x' y', pt_forward field label Bool.eqb c w b points graph None = Ret y /\
    cloud_transform field (r_fun base) h points = Ret x' /\ cloud_transform field (r_fun base) h y = Ret y' /\
    pt_forward field label Bool.eqb c w b x' graph None = Ret y'.
Proof.
  intros linv base h Hinv Eb Hh. destruct (point_layer_built linv Hinv) as (c & Ec & Run). exists c. split; [exact Ec|]. intros w b Lw.
  destruct (Run w b Lw) as (y & Ey). destruct params_are as (bf & Ep).
  assert (F1 : Forall (fun a => planar_repr (ps_group c4) (field a) /\ sharp (r_size (field a)) (r_inv (field a))) ins) by (apply Forall_forall; intros a _; destruct (fields_ok a) as (? & ? & ?); auto).
  assert (F2 : Forall (fun a => planar_repr (ps_group c4) (field a) /\ sharp (r_size (field a)) (r_cob (field a))) outs) by (apply Forall_forall; intros a _; destruct (fields_ok a) as (? & ? & ?); auto).
  destruct (C85_rotations bool field label Bool.eqb (fun l => l) (fun l => l) eqb_true_iff (fun l => Permutation_refl l) (fun l => Permutation_refl l)
    4%Z c4 linv (or_introl eq_refl) c4_sub Hinv ins outs F1 F2 (fun a _ => dots a) (fun a _ => dots a) (fun a b _ _ => apart a b) (fun a b _ _ => apart a b)
    1%nat true (SList [1; 1]) None None (Some flat) (Some [0; 1]) None bf [0; 1] [1; 1] 1%Z base h c w b values nodes points graph None y Ep prof_ok Ec Eb Hh points_ok Ey)
    as (t & M & x' & y' & _ & _ & _ & H1 & H2 & H3).
  exists y, x', y'. auto.
Qed.

Example its_params : exists bf, point_params (Some flat) (Some [0; 1]) (SList [1; 1]) None None None = Ret (bf, [0; 1], [1; 1], 1%Z).
Proof. exact params_are. Qed.
Example default_params : exists p, point_params None None SDefault (Some 2) (Some 3%nat) None = Ret p.
Proof. apply C85_params_accepted. right. split; [reflexivity|]. exists 2, 3%nat. repeat split; try lra; lia. Qed.
Example its_translation : forall linv, correct_inverse linv -> exists c, build linv = Ret c /\ forall w b, length w = bb_dim (sm_blocks (pt_sampler c)) ->
  exists y, pt_forward field label Bool.eqb c w b points graph None = Ret y /\
    pt_forward field label Bool.eqb c w b {| cl_type := ins; cl_rows := values; cl_coords := map (shifted [5; 7]) nodes |} graph None =
      Ret {| cl_type := outs; cl_rows := cl_rows y; cl_coords := map (shifted [5; 7]) nodes |}.
Proof.
  intros linv Hinv. destruct (point_layer_built linv Hinv) as (c & Ec & Run). exists c. split; [exact Ec|]. intros w b Lw. destruct (Run w b Lw) as (y & Ey). exists y. split; [exact Ey|].
  assert (pt_d c = 2%nat /\ pt_in c = ins /\ pt_out c = outs) as (D & I & O).
  { unfold build, mk_r2pointconv in Ec. apply bind_Ret in Ec as ([[[bf rg] sg] L] & _ & Ec). apply assert_Ret in Ec as (_ & Ec). apply bind_Ret in Ec as (g & _ & Ec).
    apply (mk_pointconv_inv field label Bool.eqb (fun l => l) (fun l => l) _ _ eqb_true_iff) in Ec. destruct Ec as (? & ? & ? & _ & _ & _ & _ & _ & ->). auto. }
  pose proof (C85_translations bool (sattr hattr) pval field label Bool.eqb eqb_true_iff c w b values nodes points graph y [5; 7]) as K. rewrite D, I, O in K. exact (K points_ok Ey).
Qed.
