(** The convolution layers are equivariant: the generic part. *)
From Coq Require Import String.
From Coq Require Import Reals ZArith Bool List Arith Lia Lra Permutation.
From Verif Require Import LibRes LibMat LibMatS FieldModel SpecField FieldProofs RepModel SpecRepr BlocksModel SpecBlocks BlocksCor LayerModel SpecLayer SpecNonlin NonlinProofs BiasThms BiasCor GridModel SpecGrid ImageModel SpecImage ImageProofs ConvThms RdConvModel RdConvProofs.
Import ListNotations.
Open Scope R_scope.

Lemma nth_error_list_ext : forall {B} (l m : list B), (forall i, nth_error l i = nth_error m i) -> l = m.
Proof.
  induction l as [|a l IH]; intros [|b m] H; [reflexivity|specialize (H 0%nat); discriminate..|].
  pose proof (H 0%nat) as E; cbn in E; injection E as ->. f_equal. apply IH. intros i. exact (H (S i)).
Qed.

(** ** Groups *)
Section Groups.
Context {A : Type}.
Variable size : A -> nat.
Variable aeqb : A -> A -> bool.
Hypothesis aeqb_ok : forall a b, aeqb a b = true <-> a = b.

Lemma concat_repeat_nth : forall (f : list A) m i, (i < m * length f)%nat -> nth_error (concat (repeat f m)) i = nth_error f (i mod length f).
Proof.
  intros f. induction m as [|m IH]; intros i H; [lia|]. cbn [repeat concat].
  destruct (Nat.lt_ge_cases i (length f)) as [L|L].
  - rewrite nth_error_app1, Nat.mod_small by exact L. reflexivity.
  - rewrite nth_error_app2 by exact L. rewrite IH by (cbn [Nat.mul] in H; lia). f_equal.
    replace i with (i - length f + 1 * length f)%nat at 2 by lia. rewrite Nat.mod_add by (cbn [Nat.mul] in H; lia). reflexivity.
Qed.
Lemma concat_repeat_length : forall (f : list A) m, length (concat (repeat f m)) = (m * length f)%nat.
Proof. intros f. induction m as [|m IH]; cbn [repeat concat Nat.mul]; [reflexivity|]. rewrite app_length, IH. reflexivity. Qed.

Lemma equal_groups_ok : forall l groups, (0 < groups)%nat -> (length l mod groups = 0)%nat -> equal_groups aeqb l (length l / groups) = true ->
  l = concat (repeat (firstn (length l / groups) l) groups).
Proof.
  intros l groups G E H. set (s := (length l / groups)%nat) in *.
  assert (L : length l = (groups * s)%nat) by (unfold s; rewrite (Nat.div_mod (length l) groups) at 1 by lia; lia).
  assert (Lf : length (firstn s l) = s) by (rewrite firstn_length; apply Nat.min_l; destruct groups; [lia|cbn [Nat.mul] in L; lia]).
  apply nth_error_list_ext. intros i. destruct (Nat.lt_ge_cases i (length l)) as [Hi|Hi].
  - rewrite concat_repeat_nth by (rewrite Lf; lia). rewrite Lf.
    unfold equal_groups in H. rewrite forallb_forall in H. specialize (H i ltac:(apply in_seq; lia)).
    assert (i mod s < s)%nat by (apply Nat.mod_upper_bound; intros Z; rewrite Z in L; lia).
    assert (N : nth_error l (i mod s) = nth_error (firstn s l) (i mod s)).
    { transitivity (nth_error (firstn s l ++ skipn s l) (i mod s)); [rewrite firstn_skipn; reflexivity|]. rewrite nth_error_app1 by lia. reflexivity. }
    rewrite N in H. destruct (nth_error l i); [|discriminate]. destruct (nth_error (firstn s l) (i mod s)); [|discriminate]. apply aeqb_ok in H. congruence.
  - rewrite (proj2 (nth_error_None l i)) by lia. symmetry. apply nth_error_None. rewrite concat_repeat_length, Lf. lia.
Qed.

Lemma bsize_map : forall (rho : A -> mat) ft, bsize (map (fun a => (size a, rho a)) ft) = type_size size ft.
Proof. unfold type_size, list_sum. intros rho; induction ft as [|a ft IH]; cbn; [reflexivity|]. rewrite IH. reflexivity. Qed.

Lemma dg_repeat : forall rho f m, repeats m (type_size size f) (dg size rho (concat (repeat f m))) (dg size rho f).
Proof.
  intros rho f. induction m as [|m IH]; intros i j Hi Hj; [lia|]. cbn [repeat concat]. unfold dg at 1. rewrite map_app, bdiag_app, bsize_map.
  set (c := type_size size f) in *. cbn [Nat.mul] in Hi, Hj.
  destruct (Nat.ltb_spec i c) as [Li|Li], (Nat.ltb_spec j c) as [Lj|Lj].
  - rewrite !Nat.div_small, !Nat.mod_small by assumption. reflexivity.
  - rewrite (Nat.div_small i) by assumption. destruct (Nat.eqb_spec 0 (j / c)) as [E|]; [|reflexivity].
    symmetry in E. apply Nat.div_small_iff in E; lia.
  - rewrite (Nat.div_small j) by assumption. destruct (Nat.eqb_spec (i / c) 0) as [E|]; [|reflexivity].
    apply Nat.div_small_iff in E; lia.
  - specialize (IH (i - c)%nat (j - c)%nat ltac:(lia) ltac:(lia)). unfold dg at 1 in IH. rewrite IH.
    assert (D : forall q, (c <= q)%nat -> (0 < c)%nat -> (q / c = S ((q - c) / c) /\ q mod c = (q - c) mod c)%nat).
    { intros q Hq Hc. replace q with (q - c + 1 * c)%nat at 1 3 by lia. rewrite Nat.div_add, Nat.mod_add by lia. lia. }
    destruct (D i Li ltac:(lia)) as [-> ->]. destruct (D j Lj ltac:(lia)) as [-> ->]. reflexivity.
Qed.
Lemma type_size_repeat : forall f m, type_size size (concat (repeat f m)) = (m * type_size size f)%nat.
Proof.
  intros f. induction m as [|m IH]; [reflexivity|]. cbn [repeat concat Nat.mul]. rewrite <- IH.
  unfold type_size. rewrite map_app, list_sum_app. reflexivity.
Qed.
Lemma repeats_blocks : forall m c rho B, (0 < m)%nat -> repeats m c rho B -> in_blocks m (m * c) rho.
Proof.
  intros m c rho B Hm H i j Hi Hj N. rewrite Nat.mul_comm, Nat.div_mul in N by lia. rewrite H by assumption.
  destruct (Nat.eqb_spec (i / c) (j / c)); [contradiction|reflexivity].
Qed.
End Groups.

Section Layer.
Context {A X T : Type}.
Variable rep : A -> repr T.
Variable name : A -> string.
Variable aeqb : A -> A -> bool.
Variable order : list A -> list A.
Variable sort : list (string * string) -> list (string * string).
Variable generator : A -> A -> res (option (BlocksModel.kbasis X nat)).
Variable bf : option (attr X -> bool).
Hypothesis aeqb_ok : forall a b, aeqb a b = true <-> a = b.
Hypothesis order_ok : forall l, Permutation (order l) l.
Hypothesis sort_ok : forall l, Permutation (sort l) l.
Notation size := (asize rep).

(** the elements of the basis of the fields [i], [o] sample steerable kernels *)
Definition samples_steerable (n k dil : nat) (M : mat) (rho : A -> mat) (i o : A) : Prop :=
  forall kb e, generator i o = Ret (Some kb) -> In e (kb_elements kb) -> along n k dil (size o) (size i) M (rho i) (rho o) (el_sample e).

Section Filter.
Variables ins outs : list A.
Hypothesis names_in : forall a b, In a ins -> In b ins -> escape_name (name a) = escape_name (name b) -> a = b.
Hypothesis names_out : forall a b, In a outs -> In b outs -> escape_name (name a) = escape_name (name b) -> a = b.
Hypothesis sizes_in : Forall (fun r => (0 < size r)%nat) ins.
Hypothesis sizes_out : Forall (fun r => (0 < size r)%nat) outs.
Hypothesis generator_ok : forall i o, In i ins -> In o outs ->
  exists k, generator i o = Ret k /\ forall kb, k = Some kb -> kb_out kb = size o /\ kb_in kb = size i.

Lemma built_in : forall S b, mk_blocks S name size aeqb order sort ins outs generator bf = Ret b -> bb_in b = ins.
Proof.
  intros S b H. unfold mk_blocks, build_blocks in H. apply bind_Ret in H as (m & _ & H). apply bind_Ret in H as (ci & _ & H).
  apply bind_Ret in H as (co & _ & H). apply bind_Ret in H as ([[[c i] r] d] & _ & H). apply Ret_inj in H. subst b. reflexivity.
Qed.

Theorem filter_steers : forall n k dil M rho b w, (forall i o, In i ins -> In o outs -> samples_steerable n k dil M rho i o) ->
  mk_blocks (k ^ n) name size aeqb order sort ins outs generator bf = Ret b -> bb_dim b <> 0%nat -> length w = bb_dim b ->
  exists f, forward (k ^ n) name size b w = Ret f /\
    along n k dil (type_size size outs) (type_size size ins) M (dg size rho ins) (dg size rho outs) f.
Proof.
  intros n k dil M rho b w HS Eb Nz Lw.
  destruct (blocks_ok (k ^ n) name size (fun _ => 0%nat) aeqb order sort generator bf ins outs aeqb_ok order_ok sort_ok names_in names_out sizes_in sizes_out generator_ok)
    as (b' & infos & Eb' & _ & Li & Hd & _ & _ & _ & Hf & _).
  rewrite Eb in Eb'. apply Ret_inj in Eb'. subst b'.
  destruct infos as [|f0 infos']; [cbn in Li; lia|]. set (infos := f0 :: infos') in *.
  destruct (Hf w f0 Lw (fun _ => Nz)) as (F & EF & VF). exists F. split; [exact EF|].
  apply along_ext with (f := fun r c p => sumn (bb_dim b) (fun j => nth j w 0 * element_at size (elements_of (k ^ n) generator bf) ins outs (nth j infos f0) r c p)).
  - intros o i p Ho Hi. symmetry. apply VF; assumption.
  - apply along_sum. intros j Hj.
    destruct (nth_error infos j) as [f|] eqn:Ej; [|apply nth_error_None in Ej; lia].
    rewrite (nth_error_nth _ _ f0 Ej).
    destruct (Hd j f Ej) as ((ri & ro & a & s & Ei & Eo & Ee & _) & _).
    eapply along_ext; [|apply (along_block size n k dil M rho ins outs (in_field_position f) (out_field_position f) ri ro s Ei Eo)].
    + intros r c p _ _. unfold element_at. rewrite Ei, Eo, Ee. reflexivity.
    + unfold elements_of in Ee. destruct (generator ri ro) as [|[kb|]] eqn:Eg; try (destruct (block_id f); discriminate).
      apply nth_error_In in Ee. unfold kept in Ee. apply in_map_iff in Ee. destruct Ee as (e & E & He). injection E as _ <-. apply filter_In in He. destruct He as [He _].
      pose proof (HS ri ro (nth_error_In _ _ Ei) (nth_error_In _ _ Eo) kb e Eg He) as Al.
      eapply along_ext; [|exact (along_lin n k dil _ _ M _ _ (fun _ _ _ => 0) (el_sample e) (/ unit_scale (k ^ n) (kb_out kb) (kb_in kb) (el_dim e) (el_sample e)) (along_0 n k dil _ _ M _ _) Al)].
      intros r c p _ _. unfold unit_sample, Rdiv. ring.
Qed.
End Filter.

Definition value_at (g : T) (r : repr T) : mat := match r_fun r g with Ret (_, B) => B | Raise => mzero end.

Lemma fiber_matrix_ok : forall ft g, Forall (fun a => exists B, r_fun (rep a) g = Ret (size a, B)) ft ->
  fiber_matrix rep ft g = Ret (dg size (fun a => value_at g (rep a)) ft).
Proof.
  intros ft g H. unfold fiber_matrix.
  assert (mapM (fun a => r_fun (rep a) g) ft = Ret (map (fun a => (size a, value_at g (rep a))) ft)) as ->; [|reflexivity].
  induction H as [|a ft (B & E) _ IH]; [reflexivity|]. cbn [mapM map]. rewrite E, IH. unfold value_at at 2. rewrite E. reflexivity.
Qed.

Lemma fixed_sum : forall (rho : repr T -> mat) outs v, acts r_size (map rep outs) rho v v -> forall o, (o < type_size size outs)%nat ->
  sumn (type_size size outs) (fun j => dg size (fun a => rho (rep a)) outs o j * nth j v 0) = nth o v 0.
Proof.
  intros rho outs v H o Ho.
  assert (E : type_size r_size (map rep outs) = type_size size outs) by (unfold type_size; rewrite map_map; reflexivity).
  pose proof (acts_unique r_size rho (map rep outs) v v _ H (matvec_blocks r_size rho (map rep outs) v (proj1 H))) as V.
  transitivity (nth o (NonlinModel.matvec (type_size r_size (map rep outs)) (NonlinModel.fiber_representation r_size rho (map rep outs)) v) 0); [|rewrite <- V; reflexivity].
  change (NonlinModel.matvec) with mv. rewrite E, mv_nth by exact Ho. apply sumn_ext. intros j _. f_equal. unfold dg, NonlinModel.fiber_representation. rewrite map_map. reflexivity.
Qed.

Lemma same_type_ok : forall l m, same_type aeqb l m = true <-> l = m.
Proof.
  induction l as [|a l IH]; intros [|b m]; cbn [same_type]; try (split; (discriminate || reflexivity)).
  rewrite andb_true_iff, aeqb_ok, IH. split; [intros [-> ->]; reflexivity|intros E; injection E; auto].
Qed.
Lemma expand_bias_length : forall ft m b v, expand_bias (map rep ft) m b = Some v -> length v = type_size size ft.
Proof.
  intros ft [[t B]|] b v H; [|discriminate]. injection H as <-. rewrite map_length, seq_length, map_map. reflexivity.
Qed.

(** What a constructed layer consists of. *)
Lemma mk_rdconv_inv : forall irr tid ins outs d k p mode stride dil groups bias c,
  mk_rdconv rep name aeqb order sort irr tid generator ins outs d k p mode stride dil groups bias bf = Ret c ->
  exists first m b, mk_bias irr tid bias (map rep outs) = Ret m /\
    mk_blocks (k ^ d) name size aeqb order sort first outs generator bf = Ret b /\ bb_dim b <> 0%nat /\
    (forall x, In x first -> In x ins) /\
    ((0 < groups)%nat -> ins = concat (repeat first groups) /\ exists fo, outs = concat (repeat fo groups)) /\
    c = {| rc_in := ins; rc_out := outs; rc_d := d; rc_k := k; rc_padding := p; rc_mode := mode; rc_stride := stride;
           rc_dilation := dil; rc_groups := groups; rc_bias := m; rc_expansion := b |}.
Proof.
  intros irr tid ins outs d k p mode stride dil groups bias c H. unfold mk_rdconv in H.
  apply bind_Ret in H as (first & H1 & H). apply bind_Ret in H as (m & H2 & H). apply bind_Ret in H as (b & H3 & H).
  apply assert_Ret in H as (H4 & H). apply Ret_inj in H. subst c. exists first, m, b.
  split; [exact H2|]. split; [exact H3|]. split; [apply negb_true_iff, Nat.eqb_neq in H4; exact H4|].
  destruct (Nat.ltb_spec 1 groups).
  - do 4 apply assert_Ret in H1 as (? & H1). apply Ret_inj in H1. subst first. split; [intros x Hx; rewrite <- (firstn_skipn (length ins / groups)); apply in_or_app; left; exact Hx|].
    split; [|reflexivity]. intros Hg. split.
    + apply (equal_groups_ok aeqb aeqb_ok); [lia|apply Nat.eqb_eq; assumption|assumption].
    + eexists. apply (equal_groups_ok aeqb aeqb_ok); [lia|apply Nat.eqb_eq; assumption|assumption].
  - apply Ret_inj in H1. subst first. split; [auto|]. split; [|reflexivity]. intros Hg. assert (groups = 1%nat) as -> by lia. cbn [repeat concat]. rewrite app_nil_r. split; [reflexivity|].
    exists outs. rewrite app_nil_r. reflexivity.
Qed.

Theorem layer_equivariant : forall half, half 0 = 0 -> half 1 = 1 -> half (-1) = -1 ->
  forall affine base irr mem op e tid ins outs n k p mode stride dil groups bias c g M w b x y B ws,
  (forall i, irr tid = Ret i -> trivial_rep mem (gi_size i) (gi_rep i)) ->
  Forall (fun a => proper irr mem op e (rep a)) ins -> Forall (fun a => proper irr mem op e (rep a)) outs ->
  (forall a a', In a ins -> In a' ins -> escape_name (name a) = escape_name (name a') -> a = a') ->
  (forall a a', In a outs -> In a' outs -> escape_name (name a) = escape_name (name a') -> a = a') ->
  Forall (fun a => (0 < size a)%nat) ins -> Forall (fun a => (0 < size a)%nat) outs ->
  (forall i o, In i ins -> In o outs -> exists k, generator i o = Ret k /\ forall kb, k = Some kb -> kb_out kb = size o /\ kb_in kb = size i) ->
  mem g -> base g = Ret (n, M) -> signed_perm n M ->
  (forall i o, In i ins -> In o outs -> samples_steerable n k dil M (fun a => value_at g (rep a)) i o) ->
  mk_rdconv rep name aeqb order sort irr tid generator ins outs n k p mode stride dil groups bias bf = Ret c ->
  length w = bb_dim (rc_expansion c) ->
  shape x = B :: type_size size ins :: ws -> length ws = n -> Forall (fun v => (v + 2 * p - (dil * (k - 1) + 1)) mod stride = 0)%nat ws ->
  rc_forward rep name aeqb c w b (ins, x) = Ret (outs, y) ->
  exists x' y' z, field_transform rep half affine base ins g x = Ret x' /\ rc_forward rep name aeqb c w b (ins, x') = Ret (outs, y') /\
    field_transform rep half affine base outs g y = Ret z /\ same_array y' z.
Proof.
  intros half H0 H1 Hm affine base irr mem op e tid ins outs n k p mode stride dil groups bias c g M w b x y B ws
    Tr Pin Pout Nin Nout Sin Sout Gen Hg EM SM HS Ec Lw Ex Lws Hd Hy.
  destruct (mk_rdconv_inv _ _ _ _ _ _ _ _ _ _ _ _ _ Ec) as (first & m & bl & Em & Ebl & Nz & Hfi & Hgr & ->). cbn [rc_expansion] in Lw.
  assert (Val : forall ft, Forall (fun a => proper irr mem op e (rep a)) ft -> Forall (fun a => exists C, r_fun (rep a) g = Ret (size a, C)) ft).
  { intros ft. apply Forall_impl. intros a (_ & _ & _ & _ & R). destruct (R g Hg) as (_ & C & _ & _ & E & _). exists C. exact E. }
  assert (Sub : forall (Q : A -> Prop), Forall Q ins -> Forall Q first) by (intros Q F; rewrite Forall_forall in *; auto).
  destruct (filter_steers first outs) with (n := n) (k := k) (dil := dil) (M := M) (rho := fun a => value_at g (rep a)) (b := bl) (w := w) as (f & Ef & (K & HK & HKS & HF)); auto.
  pose proof (built_in first outs (k ^ n) bl Ebl) as Ein.
  unfold field_transform. rewrite (fiber_matrix_ok ins g (Val _ Pin)), (fiber_matrix_ok outs g (Val _ Pout)), EM. cbn [bind fst snd].
  unfold rc_forward, rc_expand in Hy |- *. cbn [fst snd rc_in rc_out rc_d rc_k rc_padding rc_mode rc_stride rc_dilation rc_groups rc_bias rc_expansion] in Hy |- *.
  rewrite (proj2 (same_type_ok ins ins) eq_refl) in Hy |- *. rewrite Ef in Hy |- *. cbn [assert_ bind fst snd] in Hy |- *. rewrite Ein in Hy |- *.
  apply bind_Ret in Hy as (y0 & Hy & E). apply Ret_inj in E. injection E as ->.
  assert (Gp : (0 < groups)%nat).
  { unfold conv_forward in Hy. apply bind_Ret in Hy as (xp & _ & Hy). unfold conv in Hy. apply assert_Ret in Hy as (_ & Hy). apply assert_Ret in Hy as (Hy & _).
    do 3 apply andb_true_iff in Hy as (Hy & _). apply Nat.ltb_lt in Hy. exact Hy. }
  destruct (Hgr Gp) as (Egi & fo & Ego).
  set (rho := fun a => value_at g (rep a)) in *.
  assert (Ri : repeats groups (type_size size first) (dg size rho ins) (dg size rho first)) by (rewrite Egi; apply dg_repeat).
  assert (Ro : in_blocks groups (type_size size outs) (dg size rho outs)).
  { rewrite Ego at 1. rewrite type_size_repeat. apply repeats_blocks with (B := dg size rho fo); [exact Gp|]. rewrite Ego. apply dg_repeat. }
  assert (Si : type_size size ins = (groups * type_size size first)%nat) by (rewrite Egi at 1; apply type_size_repeat).
  rewrite Si in Ex |- *.
  destruct (conv_equivariant_gen half H0 H1 Hm affine n M mode p groups stride dil (type_size size outs) (type_size size first) k K f
     (expand_bias (map rep outs) m b) (dg size rho first) (dg size rho outs) (dg size rho ins) x y B ws) as (x' & y' & z & E1 & E2 & E3 & E4); auto.
  - intros v Ev o Ho. unfold rho. apply (fixed_sum (value_at g)); [|exact Ho].
    apply (bias_invariant_ok T irr mem op e tid bias (map rep outs) m b v g (value_at g)); auto.
    + apply Forall_map. exact Pout.
    + intros r Hr. apply in_map_iff in Hr. destruct Hr as (a & <- & Ha). specialize (Val _ Pout). rewrite Forall_forall in Val. destruct (Val a Ha) as (C & EC).
      unfold value_at. rewrite EC. reflexivity.
  - exists x', y', z. split; [exact E1|]. split; [rewrite E2; reflexivity|]. split; [exact E3|exact E4].
Qed.
End Layer.
