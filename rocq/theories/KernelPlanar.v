(** The kernels on the plane steerable by C_N and SO(2). *)
From Coq Require Import Reals List ZArith Arith Bool Lia Lra.
From Verif Require Import LibRes LibMat LibMatS LibTrig SpecGroup SpecFinGroup FinGroupModel ParamModel ParamProofs PlanarModel SpecPlanar PlanarProofs
  IrrepModel SpecRep SpecIrrep IrrepProofs IrrepThms EndoProofs CGThms RestrictThms RepModel SpecRepr RepProofs RepThms
  KernelModel SpecKernel KernelProofs KernelThms KernelRThms KernelSThms
  PolarModel SpecPolar PolarProofs PolarThms PolarAttrs PolarAttrThms.
Import ListNotations.
Open Scope R_scope.

Lemma cn_tensor_sym : forall N a b, cn_tensor_irreps N a b = cn_tensor_irreps N b a.
Proof.
  intros N a b; unfold cn_tensor_irreps.
  rewrite (Z.add_comm b a), (orb_comm (b =? 0)%Z), (orb_comm (b =? N / 2)%Z), (Z.eqb_sym b a).
  replace (N - b - a)%Z with (N - a - b)%Z by lia. replace (Z.abs (b - a)) with (Z.abs (a - b)) by lia. reflexivity.
Qed.
Lemma so2_tensor_sym : forall a b, so2_tensor_irreps a b = so2_tensor_irreps b a.
Proof.
  intros a b; unfold so2_tensor_irreps.
  rewrite (Z.add_comm b a), (Z.eqb_sym b a). replace (Z.abs (b - a)) with (Z.abs (a - b)) by lia.
  destruct (Z.eqb_spec a 0) as [->|]; destruct (Z.eqb_spec b 0) as [->|]; reflexivity.
Qed.

Lemma listed_once : forall l j c, NoDup (map fst l) -> In ([j], c) l -> listed j l = c.
Proof.
  intros l j c; unfold listed. induction l as [|[i d] l IH]; intros N I; [destruct I|].
  cbn [map] in N. inversion N as [|? ? Hn Nl]; subst. cbn [filter fst].
  assert (forall k, ~ In [k] (map fst l) ->
    list_sum (map snd (filter (fun p : list Z * nat => match fst p with [x] => (x =? k)%Z | _ => false end) l)) = 0%nat) as Z0.
  { intros k Hk. clear - Hk. induction l as [|[i d] l IH]; [reflexivity|]. cbn [filter fst].
    assert (match i with [x] => (x =? k)%Z | _ => false end = false) as ->.
    { destruct i as [|x [|]]; try reflexivity. apply Z.eqb_neq. intros ->. apply Hk; left; reflexivity. }
    apply IH. intros H; apply Hk; right; exact H. }
  destruct I as [E|I].
  - injection E as -> ->. rewrite Z.eqb_refl. cbn [map snd]. rewrite list_sum_cons, Z0 by exact Hn. lia.
  - assert (match i with [x] => (x =? j)%Z | _ => false end = false) as ->.
    { destruct i as [|x [|]]; try reflexivity. apply Z.eqb_neq. intros ->. apply Hn. apply (in_map fst _ _ I). }
    apply IH; assumption.
Qed.

(** Every element of the endomorphism basis commutes. *)
Lemma spans_each : forall {T} (mem : T -> Prop) n rho bs, spans_commutant mem n rho bs ->
  Forall (fun X => forall g A, mem g -> rho g = Ret (n, A) -> meq n n (mmul n A X) (mmul n X A)) bs.
Proof.
  intros T mem n rho bs [H _]. apply Forall_forall. intros X HX. apply H.
  clear H. induction bs as [|B bs IH]; [destruct HX|].
  assert (forall l : list mat, meq n n (lincomb (map (fun _ => 0) l) l) mzero) as Z0.
  { intros l; induction l as [|b l IHl]; [reflexivity|]. cbn [map lincomb]. intros i j Hi Hj. unfold madd, mscal.
    rewrite (IHl i j Hi Hj). unfold mzero. ring. }
  destruct HX as [->|HX].
  - exists (1 :: map (fun _ => 0) bs). split; [cbn; rewrite map_length; reflexivity|].
    cbn [lincomb]. intros i j Hi Hj. unfold madd, mscal. rewrite (Z0 bs i j Hi Hj). unfold mzero. ring.
  - destruct (IH HX) as (cs & L & E). exists (0 :: cs). split; [cbn; lia|].
    cbn [lincomb]. intros i j Hi Hj. unfold madd, mscal. rewrite <- (E i j Hi Hj). ring.
Qed.

Lemma planar_irr_data : forall G j, pvalid G -> irrep_ok G j -> exists r, p_irr G j = Ret r /\ (0 < gi_size r)%nat /\
    (0 < gi_sosc r)%nat /\ length (gi_endo r) = gi_sosc r /\
    forall g, pmember G g -> exists D, gi_rep r g = Ret (gi_size r, D) /\ orthogonal (gi_size r) D /\
      Forall (fun E => meq (gi_size r) (gi_size r) (mmul (gi_size r) E D) (mmul (gi_size r) D E)) (gi_endo r).
Proof.
  intros G j HG Hj. destruct (irrep_is_rep G j HG Hj) as (r & E & _ & O & _).
  exists (girrep_of r). unfold p_irr; rewrite E; cbn [bind girrep_of gi_size gi_sosc gi_endo gi_rep].
  destruct (endomorphisms G j r HG Hj E) as [Sp [Pos _]].
  split; [reflexivity|]. split; [exact Pos|].
  split; [unfold ir_sosc; destruct (ir_complex r); lia|].
  split; [unfold ir_sosc, endomorphism_basis; destruct (ir_complex r); reflexivity|].
  intros g Hg. destruct (or_total _ _ _ _ _ _ O g Hg) as (D & ED & OD).
  exists D; split; [exact ED|]. split; [exact OD|].
  pose proof (spans_each _ _ _ _ Sp) as F. eapply Forall_impl; [|exact F].
  intros X HX. symmetry. exact (HX g D Hg ED).
Qed.

Lemma planar_data : forall G cg tp, pvalid G -> cg_correct G cg tp ->
  (forall m, irrep_ok G m -> exists a, m = [a]) ->
  (forall a b, tp a b = tp b a) ->
  (forall a b, p_tensor G [a] [b] = Ret (tp a b)) -> (forall a b c, p_cg G [a] [b] [c] = cg a b c) ->
  kernel_data (pmember G) (irrep_ok G) (p_irr G) (p_tensor G) (p_cg G).
Proof.
  intros G cg tp HG C One Sym Et Ec. constructor.
  - intros j Hj; apply planar_irr_data; assumption.
  - intros j r Hj E. destruct (irrep_is_rep G j HG Hj) as (r' & E' & I & _).
    unfold p_irr in E; rewrite E' in E; cbn [bind] in E. apply Ret_inj in E; subst r. exact I.
  - intros m n Hm Hn. destruct (One m Hm) as [a ->]. destruct (One n Hn) as [b ->].
    destruct (C a b Hm Hn) as (rm & rn & _ & _ & F & N & _). exists (tp a b). split; [apply Et|]. split; assumption.
  - intros m n l j c rm rn rj Hm Hn El Hj Em En Ej.
    destruct (One m Hm) as [a ->]. destruct (One n Hn) as [b ->].
    rewrite Et in El. apply Ret_inj in El; subst l.
    destruct (C b a Hn Hm) as (qn & qm & Eqn & Eqm & F & N & _ & T & _).
    rewrite (Sym b a) in F, N, T. rewrite Forall_forall in F. destruct (F _ Hj) as [Oj _]; cbn [fst] in Oj.
    destruct (One j Oj) as [d ->]. destruct (T d Oj) as (qj & X & Eqj & EX & D0 & D1 & D3 & D2 & _ & I).
    unfold p_irr in Em, En, Ej. rewrite Eqm in Em; rewrite Eqn in En; rewrite Eqj in Ej. cbn [bind] in Em, En, Ej.
    apply Ret_inj in Em; apply Ret_inj in En; apply Ret_inj in Ej; subst rm rn rj.
    cbn [girrep_of gi_size gi_rep]. exists X. rewrite Ec. split; [exact EX|].
    split; [exact D0|]. split; [exact D1|]. split; [rewrite D2; apply listed_once; assumption|]. split; [exact D3|].
    intros g A B D Hg EA EB ED. destruct (I g Hg) as (A' & B' & D' & EA' & EB' & ED' & J).
    rewrite EA in EA'; rewrite EB in EB'; rewrite ED in ED'. injection EA' as <-. injection EB' as <-. injection ED' as <-. exact J.
Qed.

Definition rotations (G : pgrp) : Prop := match G with Fin (Cyc _) | SO2 => True | _ => False end.

Theorem rotations_data : forall G, pvalid G -> rotations G ->
  kernel_data (pmember G) (irrep_ok G) (p_irr G) (p_tensor G) (p_cg G).
Proof.
  intros [[N|N]| |] HG HR; try contradiction HR.
  - apply (planar_data _ (cn_cg N) (cn_tensor_irreps N)); try reflexivity.
    + exact HG.
    + apply cn_cg_correct. cbn in HG. apply Z.ltb_lt in HG; exact HG.
    + intros [|a [|]] H; cbn in H; try contradiction; eauto.
    + apply cn_tensor_sym.
  - apply (planar_data _ so2_cg so2_tensor_irreps); try reflexivity.
    + apply so2_cg_correct.
    + intros [|a [|]] H; cbn in H; try contradiction; eauto.
    + apply so2_tensor_sym.
Qed.

(** The restriction of an irrep of O(2). *)
Lemma o2_restrict_sound : forall linv sid sg id, correct_inverse linv -> pdocumented O2 sid -> p_subgroup O2 sid = Ret sg ->
  irrep_ok O2 id -> (forall n Q ids, p_restrict_irrep O2 id sid = Ret ((n, Q), ids) -> sharp n Q) ->
  sound_restricted (pmember O2) (pmember (ps_group sg)) (irrep_ok (ps_group sg)) (p_irr O2) (p_irr (ps_group sg))
    (ps_incl sg) (o2_restrict linv sid (ps_group sg)) id.
Proof.
  intros linv sid sg id Hinv HD Es Hid Sh.
  destruct (p_restrict_ok O2 sid id HD Hid) as (sg' & r & x & Es' & Er & Ex & R).
  rewrite Es in Es'; apply Ret_inj in Es'; subst sg'.
  pose proof (ps_valid O2 sid sg HD Es) as Vs.
  assert (forall h, pmember (ps_group sg) h -> exists g, ps_incl sg h = Ret g /\ pmember O2 g) as Hin.
  { destruct (planar_embedding O2 sid HD) as (sg' & Es' & Em'). rewrite Es in Es'; apply Ret_inj in Es'; subst sg'.
    exact (emb_mem _ _ _ _ _ Em'). }
  pose proof (restricts_sound O2 (ps_group sg) (ps_incl sg) (fun id => p_restrict_irrep O2 id sid) id r x
      I Hid Vs Hin Er Ex R) as SR.
  exists (girrep_of r).
  assert (p_irr O2 id = Ret (girrep_of r)) as Ei by (unfold p_irr; rewrite Er; reflexivity).
  destruct (planar_irrep_repr O2 id (girrep_of r) I Hid Ei) as (Ne & Ok & Ts & Rep).
  assert (gi_id (girrep_of r) = id) as Eid.
  { destruct (irrep_is_rep O2 id I Hid) as (r' & E' & I' & _). rewrite Er in E'; apply Ret_inj in E'; subst r'. exact I'. }
  assert (r_irreps (repr_of_irrep (girrep_of r)) = [id]) as Eir by (cbn [repr_of_irrep r_irreps]; rewrite Eid; reflexivity).
  destruct (restrict_ok (p_irr O2) (p_irr (ps_group sg)) (pmember O2) (pmember (ps_group sg)) (pmul (ps_group sg)) (pid (ps_group sg))
     (ps_incl sg) (fun id => p_restrict_irrep O2 id sid) linv Hinv (repr_of_irrep (girrep_of r))
     Ne Rep Ts) as (d & Ed & Sd & (_ & Fd & _ & Rd) & V).
  - rewrite Eir. constructor; [exact SR|constructor].
  - rewrite Eir. intros parts Ep. cbn [mapM] in Ep. rewrite Ex in Ep. cbn [bind] in Ep. apply Ret_inj in Ep; subst parts.
    destruct x as [[n Q] ids]. cbn [map fst]. specialize (Sh n Q ids Ex). destruct R as [_ [Hn _]]; cbn [fst] in Hn; subst n.
    cbn [repr_of_irrep r_size r_cob girrep_of gi_size].
    assert (meq (ir_size r) (ir_size r) (mmul (ir_size r) mid (bdiag [(ir_size r, Q)])) Q) as EQ.
    { rewrite mid_l. intros a b Ha Hb. cbn [bdiag]. rewrite (proj2 (Nat.ltb_lt _ _) Ha), (proj2 (Nat.ltb_lt _ _) Hb). reflexivity. }
    destruct Sh as [Sh|Sh]; [left; rewrite EQ; exact Sh|right].
    rewrite <- Sh. apply allclose_ext; [exact EQ|reflexivity].
  - exists d. split; [exact Ei|]. split; [unfold o2_restrict; rewrite Ei; exact Ed|].
    split; [exact Sd|]. split; [exact Rd|]. split.
    + eapply Forall_impl; [|exact Fd]. intros i (q & Eq & _). apply p_irrep_accepts; [exact Vs|].
      unfold p_irr in Eq. destruct (p_irrep (ps_group sg) i) as [|q']; [discriminate|]. eauto.
    + intros h Hh. destruct (V h Hh) as (g & A & B & Eg & EA & EB & M).
      destruct (Hin h Hh) as (g' & Eg' & Mg). rewrite Eg in Eg'; apply Ret_inj in Eg'; subst g'.
      exists g, A, B. split; [exact Eg|]. split; [exact Mg|]. split; [rewrite Sd; exact EB|]. split; [exact EA|exact M].
Qed.

(** Without reflections the changes of basis are exact. *)
Lemma rot_restrict_sharp : forall M id, irrep_ok O2 id -> forall n Q ids,
  p_restrict_irrep O2 id (IO2 None M) = Ret ((n, Q), ids) -> sharp n Q.
Proof.
  intros M id Hid n Q ids E. cbn [p_restrict_irrep] in E. unfold o2_restrict_irrep in E.
  apply bind_Ret in E as (r & _ & E). apply bind_Ret in E as (sg & _ & E).
  destruct (M =? -1)%Z.
  - apply Ret_inj in E. injection E as <- <- _. left; reflexivity.
  - apply bind_Ret in E as (c & Ec & E). apply bind_Ret in E as (s & _ & E). apply Ret_inj in E.
    unfold chi in Ec; cbn [Z.eqb orb assert_ bind] in Ec. apply assert_Ret in Ec as [_ Ec]. apply Ret_inj in Ec; subst c.
    destruct (M <? 2 * (ir_freq r mod M))%Z; cbn [snd] in E; injection E as <- <- _.
    + right. destruct (allclose 2 2 (mat2 1 0 0 (rsign 1)) mid) eqn:A; [|reflexivity].
      exfalso. apply (allclose_true 2 2) with (i := 1%nat) (j := 1%nat) in A; [|lia|lia].
      unfold np_isclose in A. apply Rleb_true in A. unfold mat2, mid, rsign in A; cbn in A.
      rewrite Rabs_R1 in A. replace (-1 - 1) with (-(2)) in A by ring. rewrite Rabs_Ropp, (Rabs_pos_eq 2) in A by lra.
      lra.
    + left; reflexivity.
Qed.

Lemma circ_listed : forall L p s axis, mk_shells circular L p None = Ret (Some s) -> listed_attrs (circ_filters s axis).
Proof.
  intros L p s axis E id Hid. pose proof (built_of _ _ _ _ _ E) as B.
  cbn [circ_filters f_js] in Hid. rewrite (bu_js _ _ _ _ _ B), map_map in Hid. apply in_map_iff in Hid.
  destruct Hid as (j & <- & Hj); cbn [fst]. apply in_seq in Hj.
  rewrite (mult_at circular circ_inj (circ_filters s axis) L p None s j B) by (try reflexivity; lia).
  cbn [circ_filters f_attr f_attrs].
  eexists; split; [apply (attrs_j_iter_none circular circ_freq L p s j B); lia|].
  rewrite imap_length; split; [reflexivity|]. intros i Hi.
  destruct (nth_error (sub circular None p j) i) as [q|] eqn:Eq; [|apply nth_error_None in Eq; lia].
  eexists; split; [apply (attrs_j_at circular circ_inj circ_freq L None p s j i q B ltac:(lia) Eq)|].
  apply (imap_nth _ _ _ _ _ Eq).
Qed.

(** The whole construction of kernels_O2_subgroup_act_R2. *)
Theorem kernels_on_plane_ok : forall linv sid sg L radii sigma flt axis rin rout,
  correct_inverse linv -> pdocumented O2 sid -> p_subgroup O2 sid = Ret sg -> rotations (ps_group sg) ->
  (forall j n Q ids, (j <= L)%nat -> p_restrict_irrep O2 (ar_id circular j) sid = Ret ((n, Q), ids) -> sharp n Q) ->
  (exists p, mk_profile radii sigma = Ret p) -> sharp 2 (rot2 axis) ->
  planar_repr (ps_group sg) rin -> planar_repr (ps_group sg) rout ->
  sharp (r_size rin) (r_inv rin) -> sharp (r_size rout) (r_cob rout) ->
  exists o act, kernels_on_plane linv sid L radii sigma flt axis rin rout = Ret o /\ circ_action linv axis = Ret act /\
    forall sg' s k, o = Some (sg', s, k) -> sg' = sg /\
      (forall idx, (idx < sk_dim k)%nat ->
         steerable_kernel (pmember (ps_group sg)) (fun h => g <- ps_incl sg h ;; Ret (act_of act g))
           (r_size rout) (r_size rin) (r_fun rout) (r_fun rin)
           (fun x => sk_sample (p_irr O2) (circ_filters s axis) k x idx)) /\
      (flt = None -> index_agrees (sk_dim k) (sk_get k) (sk_iter k)).
Proof.
  intros linv sid sg L radii sigma flt axis rin rout Hinv HD Es HR Sh [p Ep] Sa Pin Pout Sin Sout.
  unfold kernels_on_plane. rewrite Es, Ep; cbn [bind].
  destruct (mk_shells_built circular L p flt) as (ob & Eo & B). rewrite Eo; cbn [bind].
  destruct (circ_action_ok linv axis Hinv Sa) as (act & Ea & _).
  destruct ob as [s|]; [|exists None, act; split; [reflexivity|split; [exact Ea|discriminate]]].
  specialize (B s eq_refl).
  destruct (circ_steerable linv axis L p flt s Hinv Sa Eo) as (act' & Ea' & SF).
  rewrite Ea in Ea'; apply Ret_inj in Ea'; subst act'.
  set (H := ps_group sg) in *. set (F := circ_filters s axis) in *.
  pose proof (ps_valid O2 sid sg HD Es) as Vs. fold H in Vs.
  pose proof (rotations_data H Vs HR) as KD.
  assert (forall id, In id (map fst (f_js F)) -> exists j, (j <= L)%nat /\ id = ar_id circular j) as Hjs.
  { intros id Hid. cbn [F circ_filters f_js] in Hid. rewrite (bu_js _ _ _ _ _ B), map_map in Hid. apply in_map_iff in Hid.
    destruct Hid as (j & <- & Hj); cbn [fst]. apply in_seq in Hj. exists j; split; [lia|reflexivity]. }
  assert (forall j, In j (map fst (f_js F)) ->
    sound_restricted (pmember O2) (pmember H) (irrep_ok H) (p_irr O2) (p_irr H) (ps_incl sg) (o2_restrict linv sid H) j) as SR.
  { intros id Hid. destruct (Hjs id Hid) as (j & Lj & ->).
    apply o2_restrict_sound; [exact Hinv|exact HD|exact Es|apply circ_ok|]. intros n Q ids; apply (Sh j n Q ids Lj). }
  assert (NoDup (map fst (f_js F))) as NF.
  { cbn [F circ_filters f_js]. rewrite (bu_js _ _ _ _ _ B). apply (js_nodup circular circ_inj). }
  destruct Pin as (_ & Oin & _ & Rin). destruct Pout as (_ & Oout & _ & Rout).
  destruct (mk_skb_good (pmember H) (fun h => g <- ps_incl sg h ;; Ret (act_of act g)) (p_irr O2) (p_irr H)
     (mk_rwe (p_irr O2) (p_irr H) (o2_restrict linv sid H) (p_tensor H) (p_cg H) F) [0%Z; 0%Z] F (irrep_ok H))
    with (rin := rin) (rout := rout) as (ok0 & Ek & Hk); try assumption.
  - intros j Hj. destruct (planar_irr_data H j Vs Hj) as (r & Er & _ & _ & _ & Hr). exists r; split; [exact Er|].
    intros g Hg. destruct (Hr g Hg) as (D & ED & OD & _). eauto.
  - intros i o Hi Ho. apply (mk_rwe_good (pmember O2) (pmember H) (irrep_ok H)); assumption.
  - rewrite Ek; cbn [bind]. destruct ok0 as [k|].
    + exists (Some (sg, s, k)), act. split; [reflexivity|]. split; [exact Ea|].
      intros sg' s' k' E. injection E as <- <- <-. split; [reflexivity|].
      destruct (Hk k eq_refl) as [St At]. split; [exact St|].
      intros ->. apply At. apply (circ_listed L p s axis Eo).
    + exists None, act. split; [reflexivity|]. split; [exact Ea|]. discriminate.
Qed.
