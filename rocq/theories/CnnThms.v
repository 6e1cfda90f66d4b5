(** Networks on the plane commute with the symmetries of the grid. *)
From Coq Require Import String.
From Coq Require Import Reals ZArith Lia Lra Bool List Arith Permutation.
From Verif Require Import LibRes LibMat LibMatS FieldModel SpecField FieldProofs NonlinModel SpecNonlin NonlinProofs SpecPool PoolModel PoolThms NormThms PlanarModel SpecPlanar PlanarProofs RepModel SpecRepr RepProofs RepThms
  KernelModel PolarModel BlocksModel LayerModel
  GridModel SpecGrid GridProofs GridThms ImageModel SpecImage ImageProofs MaskThms ConvThms SPoolModel SpecSPool SPoolProofs SPoolThms SPoolBlur
  RdConvModel SpecRdConv RdConvProofs RdConvThms RdConvCor SeqModel NetModel SpecNet NetProofs NetThms CnnModel SpecCnn CnnProofs.
Import ListNotations.
Open Scope R_scope.

Section Cnn.
Context {A : Type}.
Variables (rep : A -> repr pval) (name : A -> string) (aeqb : A -> A -> bool) (order : list A -> list A) (sort : list (string * string) -> list (string * string)).
Hypothesis aeqb_ok : forall a b, aeqb a b = true <-> a = b.
Hypothesis order_ok : forall l, Permutation (order l) l.
Hypothesis sort_ok : forall l, Permutation (sort l) l.
Variable supported : A -> list nonlin.
Variables (N : Z) (sg : psubgroup) (linv : nat -> mat -> res mat).
Hypothesis HN : (0 < N)%Z \/ N = (-1)%Z.
Hypothesis Esg : p_subgroup O2 (IO2 None N) = Ret sg.
Hypothesis Hinv : correct_inverse linv.
Notation G := (ps_group sg).
Notation size := (asize rep).
Notation run := (@layer_run A (sattr hattr) pval rep name aeqb).
Notation ready := (ready rep name aeqb order sort supported linv N G).
Notation planar := (Forall (fun a => planar_repr G (rep a))).

Lemma rc_steady : forall c w b, steady rep 2 (@rc_forward A (sattr hattr) pval rep name aeqb c w b).
Proof.
  intros c w b x x' (B & ws & Sx & Ln) (Et & Ea). unfold rc_forward. rewrite <- Et. destruct (same_type aeqb (fst x) (rc_in c)); cbn [assert_ bind same_tensors]; [|exact I].
  unfold rc_expand. destruct (BlocksModel.forward _ _ _ _ _) as [|f]; cbn [bind same_tensors]; [exact I|]. cbn [fst snd].
  destruct (Nat.eq_dec (rc_d c) 2) as [->|Nd].
  - pose proof (conv_even 2 (rc_mode c) (rc_padding c) (rc_groups c) (rc_stride c) (rc_dilation c) (type_size size (rc_out c)) (type_size size (bb_in (rc_expansion c))) (rc_k c) f
      (expand_bias (map rep (rc_out c)) (rc_bias c) b) (snd x) (snd x') B _ ws Sx Ln Ea) as E.
    destruct (conv_forward _ _ _ _ _ _ _ (snd x)), (conv_forward _ _ _ _ _ _ _ (snd x')); cbn [bind same_tensors]; try contradiction; [exact I|]. split; [reflexivity|exact E].
  - assert (Rs : forall u, shape u = B :: type_size size (fst x) :: ws -> forall bs,
      conv_forward (rc_mode c) (rc_padding c) (rc_groups c) (rc_stride c) (rc_dilation c) (reshape_filter (type_size size (rc_out c)) (type_size size (bb_in (rc_expansion c))) (rc_k c) (rc_d c) f) bs u = Raise).
    { intros u Su bs. unfold conv_forward. destruct (forallb (pad_ok (rc_mode c) (rc_padding c)) ws) eqn:O.
      - destruct (pad_reads _ _ u B _ ws Su O) as (up & -> & Sp & _). cbn [bind]. unfold conv. rewrite Sp. cbn [skipn reshape_filter shape].
        rewrite repeat_length, map_length, Ln. destruct (Nat.eqb_spec 2 (rc_d c)); [congruence|]. rewrite andb_false_r. reflexivity.
      - unfold pad. rewrite Su. cbn [skipn]. rewrite O. reflexivity. }
    rewrite (Rs (snd x) Sx), (Rs (snd x') ltac:(rewrite <- (proj1 Ea); exact Sx)). exact I.
Qed.

Lemma layer_steady : forall l, steady rep 2 (run l).
Proof.
  intros [c w b|m lb junk|m|m triv junk|ft k s p ceil|ft l|ft mask]; cbn [layer_run].
  - apply rc_steady.
  - apply at_pixels_steady.
  - apply at_pixels_steady.
  - apply at_pixels_steady.
  - apply of_type_steady, avg_even.
  - apply of_type_steady, max_even.
  - apply of_type_steady, mask_even.
Qed.

Lemma planar_defined : forall r h, planar_repr G r -> pmember G h -> exists B, r_fun r h = Ret (r_size r, B).
Proof. intros r h (_ & _ & _ & _ & Hr) Mh. destruct (Hr h Mh) as (_ & B & _ & _ & E & _). exists B. exact E. Qed.
Lemma planar_at : forall ft h, planar ft -> pmember G h -> defined_at rep h ft.
Proof. intros ft h P Mh. unfold defined_at. eapply Forall_impl; [|exact P]. intros a Pa. apply planar_defined; assumption. Qed.
Lemma planar_pos : forall ft, planar ft -> Forall (fun a => (0 < size a)%nat) ft.
Proof. intros ft. apply Forall_impl. intros a P. apply (planar_size G _ (valid_sg N sg HN Esg) P). Qed.
Lemma at_value : forall (P : nat -> mat -> Prop) r h, planar_repr G r -> pmember G h -> (forall h B, pmember G h -> r_fun r h = Ret (r_size r, B) -> P (r_size r) B) -> P (r_size r) (value_at h r).
Proof. intros P r h Pr Mh H. destruct (planar_defined r h Pr Mh) as (B & E). unfold value_at. rewrite E. apply (H h B Mh E). Qed.
Lemma types_eq : forall a b, same_type aeqb a b = true <-> a = b.
Proof. apply same_type_ok. exact aeqb_ok. Qed.
Lemma types_refl : forall a, same_type aeqb a a = true.
Proof. intros a. apply types_eq. reflexivity. Qed.

Lemma rc_sizes : forall c w b x y B ws, shape (snd x) = B :: type_size size (fst x) :: ws -> length ws = 2%nat -> @rc_forward A (sattr hattr) pval rep name aeqb c w b x = Ret y ->
  fst y = rc_out c /\ shape (snd y) = B :: type_size size (rc_out c) :: osize (rc_k c) (rc_stride c) (rc_dilation c) (map (fun w => w + 2 * rc_padding c)%nat ws).
Proof.
  intros c w b x y B ws Sx Ln E. unfold rc_forward in E. apply assert_Ret in E as (_ & E). unfold rc_expand in E.
  destruct (BlocksModel.forward _ _ _ _ _) as [|f]; cbn [bind] in E; [discriminate|]. cbn [fst snd] in E. apply bind_Ret in E as (ya & E & Ey). apply Ret_inj in Ey. subst y.
  split; [reflexivity|]. unfold conv_forward in E. apply bind_Ret in E as (xp & Ep & E).
  assert (O : forallb (pad_ok (rc_mode c) (rc_padding c)) ws = true) by (unfold pad in Ep; rewrite Sx in Ep; cbn [skipn] in Ep; apply assert_Ret in Ep as (Ep & _); exact Ep).
  destruct (pad_reads _ _ (snd x) B _ ws Sx O) as (xp' & Ep' & Sp & _). rewrite Ep in Ep'. apply Ret_inj in Ep'. subst xp'.
  assert (D : rc_d c = 2%nat).
  { unfold conv in E. apply assert_Ret in E as (E & _). apply andb_true_iff in E as (_ & E). apply Nat.eqb_eq in E. rewrite Sp in E. cbn [skipn reshape_filter shape] in E.
    rewrite repeat_length, map_length, Ln in E. auto. }
  rewrite D in E. destruct (conv_value _ _ _ _ _ _ _ _ _ _ _ _ _ _ Sp ltac:(rewrite map_length; exact Ln) E) as (Sy & _). exact Sy.
Qed.
Lemma rc_shaped : forall c w b x y, shaped rep 2 x -> @rc_forward A (sattr hattr) pval rep name aeqb c w b x = Ret y -> shaped rep 2 y /\ fst y = rc_out c.
Proof.
  intros c w b x y (B & ws & Sx & Ln) E. destruct (rc_sizes c w b x y B ws Sx Ln E) as (Ty & Sy). split; [|exact Ty].
  exists B, (osize (rc_k c) (rc_stride c) (rc_dilation c) (map (fun w => w + 2 * rc_padding c)%nat ws)). rewrite Ty. split; [exact Sy|]. unfold osize. rewrite map_length, combine_length, repeat_length, !map_length, Nat.min_id. exact Ln.
Qed.

Lemma r2_out : forall L radii sigma ins outs k p mode stride dil groups bias bf c,
  mk_r2conv rep name aeqb order sort linv (IO2 None N) L radii sigma ins outs k p mode stride dil groups bias bf = Ret c -> rc_in c = ins /\ rc_out c = outs.
Proof.
  intros L radii sigma ins outs k p mode stride dil groups bias bf c E. unfold mk_r2conv in E. rewrite Esg in E. cbn [bind] in E.
  destruct (mk_rdconv_inv _ _ _ _ _ _ _ aeqb_ok _ _ _ _ _ _ _ _ _ _ _ _ _ E) as (first & m & bl & _ & _ & _ & _ & _ & ->). split; reflexivity.
Qed.

(** ** The outputs of the layers *)
Lemma norm_total : forall ft m lb junk, planar ft -> (exists f bias, mk_norm size supported ft f bias = Ret m) -> length lb = length ft -> length junk = type_size size ft ->
  forall u, g_type u = ft -> good size u -> exists v, norm_forward size (same_type aeqb) m lb junk u = Ret v /\ g_type v = ft /\ good size v.
Proof.
  intros ft m lb junk P (f & bias & Em) Ll Lj u Tu Gu. destruct (norm_value size supported (same_type aeqb) ft f bias m (planar_pos ft P) Em) as (fn & sel & _ & _ & H).
  destruct (H u lb junk Tu Gu (types_refl ft) Ll Lj) as (v & Ev & Tv & Gv & _). exists v. auto.
Qed.
Lemma point_total : forall ft m, (exists f, mk_pointwise supported ft f = Ret m) ->
  forall u, g_type u = ft -> good size u -> exists v, pointwise_forward size (same_type aeqb) m u = Ret v /\ g_type v = ft /\ good size v.
Proof.
  intros ft m (f & Em) u Tu Gu. destruct (pointwise_ok size supported (same_type aeqb) ft f m Em) as (_ & _ & _ & H).
  rewrite (H u Tu Gu (types_refl ft)). eexists. split; [reflexivity|]. split; [reflexivity|]. unfold good in *. cbn [g_chans g_type]. rewrite map_length, Gu, Tu. reflexivity.
Qed.
Lemma scalars_size : forall triv k, scalar_repr G (rep triv) -> type_size size (repeat triv k) = k.
Proof. intros triv k (S & _). induction k as [|k IH]; [reflexivity|]. cbn [repeat]. unfold type_size in *. cbn [map list_sum fold_right] in *. unfold list_sum in IH. rewrite IH. unfold asize. rewrite S. reflexivity. Qed.
Lemma gpool_total : forall ft m triv junk, planar ft -> mk_pool size supported true ft = Ret m -> length junk = length ft -> scalar_repr G (rep triv) ->
  forall u, g_type u = ft -> good size u -> exists v, invariants triv (group_pooling size (same_type aeqb) m junk) u = Ret v /\ g_type v = repeat triv (length ft) /\ good size v.
Proof.
  intros ft m triv junk P Em Lj St u Tu Gu. destruct (gpool_value size supported (same_type aeqb) ft m u junk (planar_pos ft P) Em Tu Gu (types_refl ft) Lj) as (out & Eo & Lo & _).
  unfold invariants. rewrite Eo. cbn [bind]. eexists. split; [reflexivity|]. cbn [g_type]. rewrite Lo. split; [reflexivity|]. unfold good. cbn [g_chans g_type]. rewrite Lo, scalars_size by exact St. reflexivity.
Qed.
Lemma scalars_acts : forall ft h v, planar ft -> Forall (fun a => scalar_repr G (rep a)) ft -> pmember G h -> length v = type_size size ft ->
  SpecNonlin.acts size ft (fun a => value_at h (rep a)) v v.
Proof.
  intros ft h v P St Mh Lv. split; [exact Lv|]. intros i r Hr. rewrite Forall_forall in P, St. pose proof (P r (nth_error_In _ _ Hr)) as Pr. pose proof (St r (nth_error_In _ _ Hr)) as Sr.
  assert (V1 : value_at h (rep r) 0%nat 0%nat = 1).
  { destruct (planar_defined _ h Pr Mh) as (B & E). unfold value_at. rewrite E. apply (proj2 Sr h B Mh E). }
  assert (S1 : size r = 1%nat) by exact (proj1 Sr).
  assert (Lf : length (field_chans size ft v i) = 1%nat) by (rewrite <- S1; apply (field_chans_length size ft v i r); assumption).
  destruct (field_chans size ft v i) as [|a [|? ?]]; try discriminate. unfold mv. rewrite S1. cbn [seq map sumn nth]. rewrite V1. f_equal. ring.
Qed.
Lemma scalars_fixed : forall triv k h v, planar_repr G (rep triv) -> scalar_repr G (rep triv) -> pmember G h -> length v = k ->
  SpecNonlin.acts size (repeat triv k) (fun a => value_at h (rep a)) v v.
Proof.
  intros triv k h v P St Mh Lv. apply scalars_acts; auto.
  - apply Forall_forall. intros a Ha. apply repeat_spec in Ha. subst a. exact P.
  - apply Forall_forall. intros a Ha. apply repeat_spec in Ha. subst a. exact St.
  - rewrite Lv. symmetry. apply scalars_size. exact St.
Qed.

Lemma pixels_keep : forall F ft out x y, (forall u, g_type u = ft -> good size u -> exists v, F u = Ret v /\ g_type v = out /\ good size v) ->
  fst x = ft -> shaped rep 2 x -> at_pixels size F x = Ret y -> shaped rep 2 y /\ fst y = out.
Proof.
  intros F ft out x y HF Tx (B & ws & Sx & Ln) E. rewrite Tx in Sx. destruct (at_pixels_value rep ft out F x B ws HF Tx Sx) as (ya & Ey & Sy & _). rewrite E in Ey. apply Ret_inj in Ey. subst y.
  split; [|reflexivity]. exists B, ws. split; [exact Sy|exact Ln].
Qed.
Lemma typed_keep : forall ft F x y, (forall B c ws ya, shape (snd x) = B :: c :: ws -> F (snd x) = Ret ya -> exists os, shape ya = B :: c :: os /\ length os = length ws) ->
  shaped rep 2 x -> of_type (same_type aeqb) ft F x = Ret y -> shaped rep 2 y /\ fst y = ft.
Proof.
  intros ft F x y HF (B & ws & Sx & Ln) E. unfold of_type in E. apply assert_Ret in E as (Et & E). apply types_eq in Et. apply bind_Ret in E as (ya & Ea & E). apply Ret_inj in E. subst y.
  split; [|reflexivity]. destruct (HF _ _ _ _ Sx Ea) as (os & Sy & Lo). exists B, os. cbn [fst snd]. rewrite <- Et. split; [exact Sy|congruence].
Qed.

Lemma layer_keeps : forall l x y, ready l x -> shaped rep 2 x -> planar (fst x) -> run l x = Ret y -> shaped rep 2 y /\ planar (fst y).
Proof.
  intros l x y Rd Sh P E. destruct l as [c w b|m lb junk|m|m triv junk|ft k s p ceil|ft l|ft mask]; cbn [layer_run] in E; cbn [SpecCnn.ready] in Rd.
  - destruct Rd as (L & radii & sigma & outs & k & p & mode & stride & dil & groups & bias & bf & Ec & _ & _ & _ & _ & _ & _ & Po).
    destruct (rc_shaped c w b x y Sh E) as (S & ->). split; [exact S|]. rewrite (proj2 (r2_out _ _ _ _ _ _ _ _ _ _ _ _ _ _ Ec)). eapply Forall_impl; [|exact Po]. intros a (Pa & _). exact Pa.
  - destruct Rd as (Em & Ll & Lj & _). destruct (pixels_keep _ (fst x) (fst x) x y (norm_total (fst x) m lb junk P Em Ll Lj) eq_refl Sh E) as (S & ->). auto.
  - destruct Rd as (Em & _). destruct (pixels_keep _ (fst x) (fst x) x y (point_total (fst x) m Em) eq_refl Sh E) as (S & ->). auto.
  - destruct Rd as (Em & Lj & _ & Pt & St). destruct (pixels_keep _ (fst x) _ x y (gpool_total (fst x) m triv junk P Em Lj St) eq_refl Sh E) as (S & ->).
    split; [exact S|]. apply Forall_forall. intros a Ha. apply repeat_spec in Ha. subst a. exact Pt.
  - destruct Rd as (-> & _). assert (H : shaped rep 2 y /\ fst y = fst x); [|destruct H as (S & ->); auto]. refine (typed_keep (fst x) _ x y _ Sh E).
    intros B c ws ya Sx Ea. destruct (avg_pool_inv _ _ _ _ _ _ _ _ _ Sx Ea) as (os & Eo & Sy & _). exists os. split; [exact Sy|]. eapply SPoolThms.mapM_length; exact Eo.
  - destruct Rd as (-> & _). assert (H : shaped rep 2 y /\ fst y = fst x); [|destruct H as (S & ->); auto]. refine (typed_keep (fst x) _ x y _ Sh E).
    intros B c ws ya Sx Ea. destruct (max_pool_inv _ _ _ _ _ _ _ _ _ _ Sx Ea) as (os & Eo & Sy & _). exists os. split; [exact Sy|]. eapply SPoolThms.mapM_length; exact Eo.
  - destruct Rd as (-> & _). assert (H : shaped rep 2 y /\ fst y = fst x); [|destruct H as (S & ->); auto]. refine (typed_keep (fst x) _ x y _ Sh E).
    intros B c ws ya Sx Ea. unfold mask_forward in Ea. apply assert_Ret in Ea as (_ & Ea). apply Ret_inj in Ea. subst ya. exists ws. split; [exact Sx|reflexivity].
Qed.

(** ** The layers commute *)
Section Element.
Variables (half : R -> R) (affine : array R -> mat -> nat -> res (array R)) (base : repr pval) (h : pval) (M : mat).
Hypothesis H0 : half 0 = 0.
Hypothesis H1 : half 1 = 1.
Hypothesis Hm : half (-1) = -1.
Hypothesis Eb : r2_action linv (IO2 None N) sg = Ret base.
Hypothesis Mh : pmember G h.
Hypothesis EM : r_fun base h = Ret (2%nat, M).
Hypothesis SM : signed_perm 2 M.

Lemma fields_permute : forall ft, planar ft -> Forall (fun a => permutation_repr G (rep a)) ft -> Forall (fun a => SpecPool.permutes (size a) (value_at h (rep a))) ft.
Proof. intros ft P Hp. rewrite Forall_forall in *. intros a Ha. exact (at_value SpecPool.permutes (rep a) h (P a Ha) Mh (Hp a Ha)). Qed.
Lemma fields_orthogonal : forall ft, planar ft -> Forall (fun a => orthogonal_repr G (rep a)) ft -> Forall (fun a => orthogonal (size a) (value_at h (rep a))) ft.
Proof. intros ft P Hp. rewrite Forall_forall in *. intros a Ha. exact (at_value orthogonal (rep a) h (P a Ha) Mh (Hp a Ha)). Qed.

Lemma layer_commutes : forall l x, ready l x -> shaped rep 2 x -> planar (fst x) -> commutes rep half affine (r_fun base) h (run l) x.
Proof.
  intros l x Rd Sh P. pose proof (planar_at _ h P Mh) as Df.
  destruct l as [c w b|m lb junk|m|m triv junk|ft k s p ceil|ft l|ft mask]; cbn [layer_run]; cbn [SpecCnn.ready] in Rd.
  - destruct Rd as (L & radii & sigma & outs & k & p & mode & stride & dil & groups & bias & bf & Ec & Pr & Lw & Fi & Ni & No & Si & Po).
    intros y Ey. destruct (rc_shaped c w b x y Sh Ey) as (_ & Ty). destruct (r2_out _ _ _ _ _ _ _ _ _ _ _ _ _ _ Ec) as (_ & Eo). rewrite Eo in Ty.
    destruct Sh as (B & ws & Sx & Ln). rewrite Sx in Fi. cbn [skipn] in Fi. destruct x as [tx xa], y as [ty ya]. cbn [fst snd] in *. subst ty.
    assert (Pi : Forall (fun a => planar_repr G (rep a) /\ sharp (r_size (rep a)) (r_inv (rep a))) tx) by (rewrite Forall_forall in *; auto).
    destruct (r2conv_equivariant rep name aeqb order sort aeqb_ok order_ok sort_ok N sg linv L radii sigma HN Esg Hinv Pr tx outs Pi Po Ni No k p mode stride dil groups bias bf
      half H0 H1 Hm affine base h M c w b xa ya B ws Ec Eb Mh EM SM Lw Sx Ln Fi Ey) as (x' & y' & z & E1 & E2 & E3 & E4).
    exists (tx, x'), (outs, y'), (outs, z). unfold moved_by. cbn [fst snd]. rewrite E1, E3. cbn [bind]. split; [reflexivity|]. split; [exact E2|]. split; [reflexivity|]. split; [reflexivity|exact E4].
  - destruct Rd as (Em & Ll & Lj & Or). apply (at_pixels_commutes rep half affine (r_fun base) h H0 H1 Hm 2 M EM SM (fst x) (fst x)); auto using norm_total.
    intros u u' v v' Tu Tu' Gu Ac Ev Ev'. destruct Em as (f & bias & Em).
    destruct (norm_equivariant size supported (same_type aeqb) (fst x) f bias m (planar_pos _ P) Em (fun a => value_at h (rep a)) u u' lb junk junk Tu Tu' Gu (types_refl _) Ll Lj Lj
      (fields_orthogonal _ P Or) Ac) as (w & w' & Ew & Ew' & _ & _ & Aw). rewrite Ev in Ew. rewrite Ev' in Ew'. apply Ret_inj in Ew, Ew'. subst. exact Aw.
  - destruct Rd as (Em & Pe). apply (at_pixels_commutes rep half affine (r_fun base) h H0 H1 Hm 2 M EM SM (fst x) (fst x)); auto using point_total.
    intros u u' v v' Tu Tu' Gu Ac Ev Ev'. destruct Em as (f & Em). destruct (pointwise_ok size supported (same_type aeqb) (fst x) f m Em) as (_ & _ & _ & Hv).
    assert (Lu : length (g_chans u) = type_size size (fst x)) by (rewrite <- Tu; exact Gu).
    assert (Gu' : good size u') by (unfold good; rewrite Tu'; exact (proj1 Ac)).
    rewrite (Hv u Tu Gu (types_refl _)) in Ev. rewrite (Hv u' Tu' Gu' (types_refl _)) in Ev'. apply Ret_inj in Ev, Ev'. subst v v'. cbn [g_chans].
    apply pointwise_equivariant; auto. apply (fields_permute _ P Pe).
  - destruct Rd as (Em & Lj & Pe & Pt & St). apply (at_pixels_commutes rep half affine (r_fun base) h H0 H1 Hm 2 M EM SM (fst x) (repeat triv (length (fst x)))); auto using gpool_total.
    + intros u u' v v' Tu Tu' Gu Ac Ev Ev'.
      destruct (gpool_invariant size supported (same_type aeqb) (fst x) m (fun a => value_at h (rep a)) u u' junk junk (planar_pos _ P) Em Tu Tu' Gu (types_refl _) Lj Lj (fields_permute _ P Pe) Ac) as (out & Eo & Eo').
      destruct (gpool_value size supported (same_type aeqb) (fst x) m u junk (planar_pos _ P) Em Tu Gu (types_refl _) Lj) as (out' & Eo2 & Lo & _). rewrite Eo in Eo2. apply Ret_inj in Eo2. subst out'.
      unfold invariants in Ev, Ev'. rewrite Eo in Ev. rewrite Eo' in Ev'. cbn [bind] in Ev, Ev'. apply Ret_inj in Ev, Ev'. subst v v'. cbn [g_chans]. apply scalars_fixed; assumption.
    + apply Forall_forall. intros a Ha. apply repeat_spec in Ha. subst a. apply planar_defined; assumption.
  - destruct Rd as (-> & Fi). apply (of_type_commutes rep half affine (r_fun base) h 2 M EM); auto using types_eq.
    intros B ws y Sx Ln Ey. rewrite Sx in Fi. cbn [skipn] in Fi. apply (avg_commutes_with half H0 H1 Hm affine _ _ 2 M (snd x) y B ws SM ltac:(lia) Sx Ln); assumption.
  - destruct Rd as (-> & Fi & Pe). apply (of_type_commutes rep half affine (r_fun base) h 2 M EM); auto using types_eq.
    intros B ws y Sx Ln Ey. rewrite Sx in Fi. cbn [skipn] in Fi. apply (max_commutes_with half H0 H1 Hm affine _ _ 2 M (snd x) y B ws SM ltac:(lia) Sx Ln); try assumption.
    apply dg_permutes. apply (fields_permute _ P Pe).
  - destruct Rd as (-> & s & margin & sigma & Eb' & Ws). apply (of_type_commutes rep half affine (r_fun base) h 2 M EM); auto using types_eq.
    intros B ws y Sx Ln Ey. rewrite Sx in Ws. cbn [skipn] in Ws. subst ws.
    destruct (mask_commutes half H0 H1 Hm affine s 2 margin sigma mask (type_size size (fst x)) (dg size (fun a => value_at h (rep a)) (fst x)) M (snd x) B Eb' SM Sx) as (x' & y' & mx & z & E1 & E2 & E3 & E4 & E5).
    rewrite Ey in E3. apply Ret_inj in E3. subst mx. exists x', y', z. auto.
Qed.

(** ** Networks *)
Lemma ready_through : forall ls x, shaped rep 2 x -> planar (fst x) -> throughout run ready ls x ->
  throughout run (fun l u => shaped rep 2 u /\ defined_at rep h (fst u) /\ commutes rep half affine (r_fun base) h (run l) u) ls x.
Proof.
  induction ls as [|l ls IH]; intros x Sh P Th; [exact I|]. destruct Th as (Rd & Th). split.
  - split; [exact Sh|]. split; [apply planar_at; assumption|apply layer_commutes; assumption].
  - intros y Ey. destruct (layer_keeps l x y Rd Sh P Ey) as (Sy & Py). apply IH; auto.
Qed.

Theorem network_equivariant : forall (s : seq_state layer (list A)) x, shaped rep 2 x -> planar (fst x) -> throughout run ready (map snd (s_mods s)) x ->
  commutes rep half affine (r_fun base) h (SeqModel.forward run fst (same_type aeqb) s) x.
Proof.
  intros s x Sh P Th. apply (sequential_ok rep half affine (r_fun base) h H0 H1 Hm 2 M EM SM run (same_type aeqb) s); auto.
  - intros m _. apply layer_steady.
  - apply planar_at; assumption.
  - apply ready_through; assumption.
Qed.

(** ** Invariants *)
Lemma one_pixel : forall y B, planar (fst y) -> Forall (fun a => scalar_repr G (rep a)) (fst y) -> shape (snd y) = [B; type_size size (fst y); 1; 1]%nat ->
  exists z, moved_by rep half affine (r_fun base) h y = Ret z /\ same_tensor z y.
Proof.
  intros y B P St Sy. destruct (move_normal rep half affine (r_fun base) h H0 H1 Hm 2 M EM SM) as (W & t & Re). destruct (Re [1; 1]%nat eq_refl) as (LW & Vt & On & Mv). clear Re.
  destruct (Mv y B (planar_at _ h P Mh) Sy) as (z & Ez & Sz & Vz). exists (fst y, z). split; [exact Ez|]. split; [reflexivity|]. cbn [snd].
  assert (Only : forall i, valid [1; 1]%nat i -> i = [0; 0]%nat).
  { intros i V. inversion V as [|a ? i1 ? Ha V1]; subst. inversion V1 as [|b ? i2 ? Hb V2]; subst. inversion V2; subst. f_equal; [lia|f_equal; lia]. }
  assert (V0 : valid [1; 1]%nat [0; 0]%nat) by (repeat constructor).
  pose proof (Vt _ V0) as Vt0. 
  assert (EW : W [1; 1]%nat = [1; 1]%nat /\ t [1; 1]%nat [0; 0]%nat = [0; 0]%nat).
  { destruct (W [1; 1]%nat) as [|a [|b [|? ?]]]; try discriminate. inversion Vt0 as [|u ? i1 ? Hu V1]; subst. inversion V1 as [|v ? i2 ? Hv V2]; subst. inversion V2; subst.
    assert (All : forall p q, (p < a)%nat -> (q < b)%nat -> p = u /\ q = v).
    { intros p q Hp Hq. destruct (On [p; q] ltac:(repeat constructor; assumption)) as (i & Vi & Et). rewrite (Only i Vi) in Et. rewrite Et in *.
      match goal with E : _ = t _ _ |- _ => rewrite Et in E; injection E; auto end || (split; congruence). }
    destruct (All 0%nat 0%nat ltac:(lia) ltac:(lia)) as (E1 & E2). pose proof (All (a - 1)%nat (b - 1)%nat ltac:(lia) ltac:(lia)) as (E3 & E4).
    assert (a = 1 /\ b = 1)%nat as (-> & ->) by lia. split; [reflexivity|]. congruence. }
  destruct EW as (EW & Et). rewrite EW in Sz. apply (same_image _ _ B (type_size size (fst y)) [1; 1]%nat Sz Sy). intros b k p Hb Hk Vp. rewrite (Only p Vp). rewrite <- Et at 1. rewrite Vz by assumption.
  set (v := map (fun j => entry (snd y) [b; j; 0; 0]%nat) (seq 0 (type_size size (fst y)))).
  assert (Lv : length v = type_size size (fst y)) by (unfold v; rewrite map_length, seq_length; reflexivity).
  assert (Nv : forall j, (j < type_size size (fst y))%nat -> nth j v 0 = entry (snd y) [b; j; 0; 0]%nat).
  { intros j Hj. unfold v. rewrite (nth_indep _ 0 (entry (snd y) [b; 0; 0; 0]%nat)) by (rewrite map_length, seq_length; exact Hj).
    rewrite (map_nth (fun j => entry (snd y) [b; j; 0; 0]%nat)), seq_nth by exact Hj. reflexivity. }
  pose proof (acts_unique size _ (fst y) v _ _ (scalars_acts (fst y) h v P St Mh Lv) (matvec_blocks size (fun a => value_at h (rep a)) (fst y) v Lv)) as E.
  rewrite <- (Nv k Hk). rewrite E. unfold matvec.
  rewrite (nth_indep _ 0 (sumn (type_size size (fst y)) (fun j => fiber_representation size (fun a => value_at h (rep a)) (fst y) 0%nat j * nth j v 0))) by (rewrite map_length, seq_length; exact Hk).
  rewrite (map_nth (fun o => sumn (type_size size (fst y)) (fun j => fiber_representation size (fun a => value_at h (rep a)) (fst y) o j * nth j v 0))), seq_nth by exact Hk.
  apply sumn_ext. intros j Hj. cbn [Nat.add]. rewrite <- (Nv j Hj). reflexivity.
Qed.

Lemma run_keeps : forall ls x, shaped rep 2 x -> planar (fst x) -> throughout run ready ls x -> forall y, fold_left (fun r m => x <- r ;; run m x) ls (Ret x) = Ret y -> shaped rep 2 y /\ planar (fst y).
Proof.
  induction ls as [|l ls IH]; intros x Sh P Th y E; [apply Ret_inj in E; subst; auto|]. destruct Th as (Rd & Th). cbn [fold_left bind] in E.
  destruct (run l x) as [|u] eqn:Eu; [exfalso; clear -E; induction ls as [|l' ls IH]; [discriminate|apply IH; exact E]|].
  destruct (layer_keeps l x u Rd Sh P Eu) as (Su & Pu). apply (IH u Su Pu (Th u eq_refl) y E).
Qed.

Theorem network_invariant : forall (s : seq_state layer (list A)) x y B, shaped rep 2 x -> planar (fst x) -> throughout run ready (map snd (s_mods s)) x ->
  SeqModel.forward run fst (same_type aeqb) s x = Ret y -> Forall (fun a => scalar_repr G (rep a)) (fst y) -> shape (snd y) = [B; type_size size (fst y); 1; 1]%nat ->
  exists x' y', moved_by rep half affine (r_fun base) h x = Ret x' /\ SeqModel.forward run fst (same_type aeqb) s x' = Ret y' /\ same_tensor y' y.
Proof.
  intros s x y B Sh P Th Ey St Sy. destruct (network_equivariant s x Sh P Th y Ey) as (x' & y' & z & Ex & Ey' & Ez & S).
  assert (Py : planar (fst y)).
  { unfold SeqModel.forward in Ey. apply assert_Ret in Ey as (_ & Ey). apply bind_Ret in Ey as (v & Ev & Ey). apply assert_Ret in Ey as (_ & Ey). apply Ret_inj in Ey. subst v.
    apply (run_keeps (map snd (s_mods s)) x Sh P Th y Ev). }
  destruct (one_pixel y B Py St Sy) as (z' & Ez' & S'). rewrite Ez in Ez'. apply Ret_inj in Ez'. subst z'. exists x', y'. split; [exact Ex|]. split; [exact Ey'|]. eapply NetProofs.same_trans; eassumption.
Qed.
End Element.

(** ** All elements of the group *)
Theorem network_whole_group : (N = 1 \/ N = 2 \/ N = 4)%Z -> exists base, r2_action linv (IO2 None N) sg = Ret base /\
  forall half affine h (s : seq_state layer (list A)) x, half 0 = 0 -> half 1 = 1 -> half (-1) = -1 -> pmember G h ->
  shaped rep 2 x -> planar (fst x) -> throughout run ready (map snd (s_mods s)) x ->
  commutes rep half affine (r_fun base) h (SeqModel.forward run fst (same_type aeqb) s) x.
Proof.
  intros H4. destruct (quarter_turns N sg linv ltac:(lia) Esg Hinv) as (base & Eb & (_ & H)). exists base. split; [exact Eb|].
  intros half affine h s x Z0 Z1 Zm Mh Sh P Th. destruct (H H4 h Mh) as (M & EM & SM).
  apply (network_equivariant half affine base h M Z0 Z1 Zm Eb Mh EM SM); assumption.
Qed.
End Cnn.
