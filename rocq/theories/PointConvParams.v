(** The rings and the frequencies of R2PointConv. *)
From Coq Require Import String Ascii.
From Coq Require Import Reals ZArith Bool List Arith Lia Lra Permutation.
From Verif Require Import LibRes LibPy LibMat LibMatS LibTrig FieldModel ParamProofs FinGroupModel ParamModel PlanarModel IrrepModel RepModel RepProofs KernelModel KernelProofs PolarModel PolarProofs ParamProofs
  BlocksModel SamplerModel LayerModel GridModel ImageModel RdConvModel SpecPointConv PointConvModel.
Import ListNotations.
Open Scope R_scope.

Lemma locate_in : forall {B} (dim : B -> nat) l i a i', locate dim l i = Some (a, i') -> In a l.
Proof.
  intros B dim. induction l as [|b l IH]; intros i a i' H; cbn [locate] in H; [discriminate|]. destruct (Nat.ltb i (dim b)); [injection H as <- _; left; reflexivity|right; exact (IH _ _ _ H)].
Qed.
Lemma out_pairs_gen : forall {T B} (irr : list Z -> res (girrep T)) (gen : list Z -> list Z -> res (option (ibasis T B))) ii ip i os oo op l q,
  out_pairs irr gen ii ip i oo op os = Ret l -> In q l -> exists a b, gen a b = Ret (Some (sp_b q)).
Proof.
  intros T B irr gen ii ip i. induction os as [|o os IH]; intros oo op l q H Hq; cbn [out_pairs] in H; [apply Ret_inj in H; subst l; destruct Hq|].
  apply bind_Ret in H as (b & Eb & H). apply bind_Ret in H as (ro & _ & H). apply bind_Ret in H as (l' & El & H). apply Ret_inj in H. subst l.
  destruct b as [b|]; [|exact (IH _ _ _ _ El Hq)]. destruct Hq as [<-|Hq]; [|exact (IH _ _ _ _ El Hq)]. cbn [sp_b]. eauto.
Qed.
Lemma in_pairs_gen : forall {T B} (irr : list Z -> res (girrep T)) (gen : list Z -> list Z -> res (option (ibasis T B))) os is ii ip l q,
  in_pairs irr gen ii ip is os = Ret l -> In q l -> exists a b, gen a b = Ret (Some (sp_b q)).
Proof.
  intros T B irr gen os. induction is as [|i is IH]; intros ii ip l q H Hq; cbn [in_pairs] in H; [apply Ret_inj in H; subst l; destruct Hq|].
  apply bind_Ret in H as (l1 & E1 & H). apply bind_Ret in H as (ri & _ & H). apply bind_Ret in H as (l2 & E2 & H). apply Ret_inj in H. subst l.
  apply in_app_or in Hq. destruct Hq as [Hq|Hq]; [exact (out_pairs_gen irr gen _ _ _ _ _ _ _ _ E1 Hq)|exact (IH _ _ _ _ E2 Hq)].
Qed.
Lemma rwe_attr : forall {G T P B} irrF irr restr tpi cg (F : filters P B) m n b j idx a, @mk_rwe G T P B irrF irr restr tpi cg F m n = Ret (Some b) -> b_attr b j idx = Ret a ->
  exists i, f_attr F j i = Ret (ka_own a).
Proof.
  intros G T P B irrF irr restr tpi cg F m n b j idx a H Ha. unfold mk_rwe in H. do 4 apply bind_Ret in H as (? & _ & H). cbv zeta in H. destruct (Nat.eqb _ 0); [discriminate|].
  apply Ret_inj in H. injection H as <-. cbn [b_attr] in Ha. apply assert_Ret in Ha as (_ & Ha). apply bind_Ret in Ha as (st & _ & Ha).
  destruct (locate _ _ idx) as [[q i0]|]; [|discriminate]. apply bind_Ret in Ha as (h & Eh & Ha). apply Ret_inj in Ha. subst a. cbn [ka_own]. eauto.
Qed.
Lemma order_js_in : forall {P B} triv (F : filters P B) js j, In j (order_js triv F js) -> In j (map fst (f_js F)).
Proof.
  intros P B triv F js j. unfold order_js.
  assert (Rm : forall a l, In j (remove_first a l) -> In j l).
  { intros a. induction l as [|b l IH]; [auto|]. cbn [remove_first]. destruct (id_eqb b a); [right; assumption|]. intros [->|H]; [left; reflexivity|right; auto]. }
  destruct (id_mem triv _) eqn:E; [|intros H; apply filter_In in H; apply H].
  intros [<-|H].
  - unfold id_mem in E. apply existsb_exists in E. destruct E as (b & Hb & E). apply id_eqb_true in E. subst b. apply filter_In in Hb. apply Hb.
  - apply Rm in H. apply filter_In in H. apply H.
Qed.

(** Every element of the basis of kernels has a frequency up to [L] and a radius among the given ones. *)
Lemma element_frequency : forall linv sid L radii sigma axis rin rout sg s k idx a,
  kernels_on_plane linv sid L radii sigma None axis rin rout = Ret (Some (sg, s, k)) -> sk_get k idx = Ret a ->
  exists j, (j <= L)%nat /\ h_j (ka_own (sa_own a)) = ar_id circular j /\ In (ra_radius (h_radial (ka_own (sa_own a)))) radii.
Proof.
  intros linv sid L radii sigma axis rin rout sg s k idx a H Ha. unfold kernels_on_plane in H.
  apply bind_Ret in H as (sg' & _ & H). apply bind_Ret in H as (radial & Er & H). apply bind_Ret in H as ([s'|] & Hs & H); [|discriminate].
  apply bind_Ret in H as ([k'|] & Hk & H); [|discriminate]. apply Ret_inj in H. injection H as <- <- <-.
  unfold mk_skb in Hk. apply bind_Ret in Hk as (ps & Eps & Hk). destruct (Nat.eqb _ 0); [discriminate|]. apply Ret_inj in Hk. injection Hk as <-.
  unfold sk_get in Ha. apply assert_Ret in Ha as (_ & Ha). cbn [sk_js sk_pairs] in Ha.
  destruct (locate _ _ idx) as [[j i]|] eqn:E1; [|discriminate]. destruct (locate _ ps i) as [[q i']|] eqn:E2; [|discriminate].
  apply bind_Ret in Ha as (ka & Eka & Ha). apply Ret_inj in Ha. subst a. cbn [s_attr sa_own].
  apply locate_in in E1. apply locate_in in E2. apply order_js_in in E1.
  destruct (in_pairs_gen _ _ _ _ _ _ _ _ Eps E2) as (m & n & Eg). destruct (rwe_attr _ _ _ _ _ _ _ _ _ _ _ _ Eg Eka) as (i2 & Ef).
  unfold mk_shells in Hs. apply bind_Ret in Hs as (rs & _ & Hs). cbv zeta in Hs. destruct (Nat.eqb _ 0); [discriminate|]. apply Ret_inj in Hs. match type of Hs with Some ?x = Some _ => assert (Hs' : x = s') by congruence; clear Hs; subst s' end.
  cbn [circ_filters f_js sh_js f_attr] in E1, Ef. rewrite map_map in E1. cbn [fst] in E1. apply in_map_iff in E1. destruct E1 as (jj & <- & Hj). apply in_seq in Hj.
  exists jj. split; [lia|]. unfold steerable_attrs_j in Ef. apply bind_Ret in Ef as ([o|] & _ & Ef); [|discriminate].
  apply assert_Ret in Ef as (_ & Ef). apply bind_Ret in Ef as (p & _ & Ef). apply assert_Ret in Ef as (_ & Ef). apply bind_Ret in Ef as (ra & Era & Ef). apply assert_Ret in Ef as (_ & Ef).
  apply Ret_inj in Ef. rewrite <- Ef. cbn [h_j h_radial]. split; [reflexivity|].
  unfold mk_profile in Er. apply assert_Ret in Er as (_ & Er). do 3 apply assert_Ret in Er as (? & Er). apply Ret_inj in Er. subst radial.
  cbn [sh_radial] in Era. unfold gp_get in Era. apply assert_Ret in Era as (Lt & Era). apply Nat.ltb_lt in Lt. apply Ret_inj in Era. subst ra. cbn [ra_radius gp_radii]. apply nth_In. exact Lt.
Qed.

Lemma int_of_ok : forall x, cut_to (int_of x) x.
Proof.
  intros x. unfold cut_to, int_of. destruct (Rle_dec 0 x) as [H|H].
  - split; [|lra]. intros _. destruct (base_Int_part x). lra.
  - split; [lra|]. intros _. destruct (base_Int_part (- x)). rewrite opp_IZR. lra.
Qed.
Lemma spaced_ok : forall w n, (0 < n)%nat -> spaced w n (linspace w n).
Proof.
  intros w n Hn. unfold spaced, linspace. split; [rewrite map_length, seq_length; reflexivity|]. split; [intros ->; reflexivity|].
  intros i H1 Hi. set (f := fun i => if Nat.eqb n 1 then 0 else INR i * w / INR (n - 1)). rewrite (nth_indep _ 0 (f 0%nat)) by (rewrite map_length, seq_length; exact Hi).
  rewrite map_nth, seq_nth by exact Hi. unfold f. cbn [Nat.add]. destruct (Nat.eqb_spec n 1) as [E|_]; [lia|]. field. apply not_0_INR. lia.
Qed.
Lemma fold_max : forall l v, (In (fold_left Rmax l v) (v :: l)) /\ forall r, In r (v :: l) -> r <= fold_left Rmax l v.
Proof.
  induction l as [|a l IH]; intros v; cbn [fold_left]; [split; [left; reflexivity|intros r [->|[]]; lra]|].
  destruct (IH (Rmax v a)) as (H1 & H2). split.
  - destruct H1 as [H1|H1]; [|right; right; exact H1]. destruct (Rle_dec v a) as [L|L]; [right; left; rewrite <- H1; symmetry; apply Rmax_right; exact L|left; rewrite <- H1; symmetry; apply Rmax_left; lra].
  - intros r [->|[->|H]]; [|eapply Rle_trans; [|apply H2; left; reflexivity]|apply H2; right; exact H].
    + eapply Rle_trans; [apply (Rmax_l r a)|apply H2; left; reflexivity].
    + apply Rmax_r.
Qed.

(** The choices of compute_basis_params. *)
Theorem params_ok : forall cutoff rings sigma width n_rings custom bf radii sig L,
  point_params cutoff rings sigma width n_rings custom = Ret (bf, radii, sig, L) ->
  let cut := match cutoff with Some f => f | None => fun r => 3 * r end in
  radii <> [] /\
  (rings = Some radii /\ (width = None \/ n_rings = None) \/
   rings = None /\ exists w n, width = Some w /\ n_rings = Some n /\ 0 < w /\ (0 < n)%nat /\ spaced w n radii) /\
  match sigma with
  | SDefault => length sig = length radii /\ forall i, (i < length radii)%nat ->
      nth i sig 0 = (if Req_EM_T (nth i radii 0) 0 then 5 / 1000 else if Nat.eqb i (length radii - 1) then 4 / 10 else 6 / 10)
  | SFloat s => sig = repeat s (length radii)
  | SList l => sig = l
  end /\
  (exists v, largest cut radii v /\ cut_to L v) /\
  (forall r j, In r radii -> Rabs (IZR j) <= cut r -> (Z.abs j <= L)%Z) /\
  (forall a, bf a = true <-> (forall f, custom = Some f -> f a = true) /\
     Rabs (IZR (nth 1 (h_j (ka_own (sa_own (at_rest a)))) 0%Z)) <= cut (ra_radius (h_radial (ka_own (sa_own (at_rest a)))))).
Proof.
  intros cutoff rings sigma width n_rings custom bf radii sig L H cut. unfold point_params in H. fold cut in H.
  apply assert_Ret in H as (X & H). apply bind_Ret in H as (rg & Er & H). apply bind_Ret in H as (top & Et & H). apply Ret_inj in H.
  assert (bf = (fun a => (match custom with Some f => f a | None => true end) && Rleb (Rabs (IZR (nth 1 (h_j (ka_own (sa_own (at_rest a)))) 0%Z))) (cut (ra_radius (h_radial (ka_own (sa_own (at_rest a)))))))) as Eb by congruence.
  assert (rg = radii) as -> by congruence. assert (L = int_of top) as EL by congruence.
  assert (radii <> []) as Ne by (intros ->; discriminate). split; [exact Ne|].
  assert (La : largest cut radii top).
  { destruct radii as [|r0 rs]; [contradiction|]. cbn [map] in Et. apply Ret_inj in Et. destruct (fold_max (map cut rs) (cut r0)) as (H1 & H2). rewrite Et in H1, H2. split.
    - change (cut r0 :: map cut rs) with (map cut (r0 :: rs)) in H1. apply in_map_iff in H1. destruct H1 as (r & E & Hr). eauto.
    - intros r Hr. apply H2. change (cut r0 :: map cut rs) with (map cut (r0 :: rs)). apply in_map. exact Hr. }
  assert (Cu : cut_to L top) by (subst L; apply int_of_ok).
  split; [|split; [|split; [|split]]].
  - destruct rings as [l|]; [left|right].
    + apply Ret_inj in Er. subst l. split; [reflexivity|]. destruct width; [|left; reflexivity]. destruct n_rings; [discriminate X|right; reflexivity].
    + split; [reflexivity|]. destruct width as [w|]; [|discriminate]. destruct n_rings as [n|]; [|discriminate]. apply assert_Ret in Er as (W & Er). apply assert_Ret in Er as (Nn & Er). apply Ret_inj in Er. subst radii.
      apply Nat.ltb_lt in Nn. exists w, n. split; [reflexivity|]. split; [reflexivity|]. split; [|split; [exact Nn|apply spaced_ok; exact Nn]].
      destruct (Rleb w 0) eqn:E; [discriminate|]. destruct (Rle_dec w 0) as [K|K]; [apply Rleb_true in K; congruence|lra].
  - 
    match type of H with (_, _, ?s0, _) = _ => assert (Sg : s0 = sig) by congruence end. destruct sigma as [|s|l]; [|symmetry; exact Sg|symmetry; exact Sg].
    destruct (Nat.eqb_spec (length radii) 0) as [Z0|_]; [destruct radii; [contradiction|discriminate]|]. rewrite app_nil_r in Sg. rewrite <- Sg.
    split; [rewrite map_length, combine_length, seq_length; apply Nat.min_id|]. intros i Hi.
    set (f := fun ir : nat * R => if Req_EM_T (snd ir) 0 then 5 / 1000 else if Nat.eqb (fst ir) (length radii - 1) then 4 / 10 else 6 / 10).
    rewrite (nth_indep _ 0 (f (0%nat, 0))) by (rewrite map_length, combine_length, seq_length, Nat.min_id; exact Hi). rewrite map_nth, combine_nth by apply seq_length. rewrite seq_nth by exact Hi. reflexivity.
  - exists top. auto.
  - intros r j Hr Hj. destruct La as (_ & La). specialize (La r Hr). rewrite <- abs_IZR in Hj. destruct Cu as (C1 & _).
    pose proof (IZR_le 0 (Z.abs j) (Z.abs_nonneg j)) as P. specialize (C1 ltac:(lra)).
    assert (IZR (Z.abs j) < IZR (L + 1)) as Q by (rewrite plus_IZR; lra). apply lt_IZR in Q. lia.
  - intros a. rewrite Eb. rewrite andb_true_iff, Rleb_true. destruct custom as [f|]; [|intuition discriminate].
    split; intros (H1 & H2); (split; [|exact H2]); [intros f' E; injection E as <-; exact H1|exact (H1 f eq_refl)].
Qed.

(** When the parameters are accepted. *)
Theorem params_accepted : forall cutoff rings sigma width n_rings custom,
  (exists p, point_params cutoff rings sigma width n_rings custom = Ret p) <->
  (exists r l, rings = Some (r :: l) /\ (width = None \/ n_rings = None)) \/ (rings = None /\ exists w n, width = Some w /\ n_rings = Some n /\ 0 < w /\ (0 < n)%nat).
Proof.
  intros cutoff rings sigma width n_rings custom. split.
  - intros ([[[bf radii] sig] L] & H). pose proof (params_ok _ _ _ _ _ _ _ _ _ _ H) as (Ne & K & _). destruct K as [(-> & K)|(-> & w & n & -> & -> & W & Nn & _)]; [left|right].
    + destruct radii as [|r l]; [contradiction|]. eauto.
    + split; [reflexivity|]. exists w, n. auto.
  - intros [(r & l & -> & K)|(-> & w & n & -> & -> & W & Nn)]; unfold point_params.
    + assert (match width, n_rings with Some _, Some _ => true | _, _ => false end = false) as -> by (destruct K as [->| ->]; [reflexivity|destruct width; reflexivity]).
      cbn [xorb assert_ bind map]. eexists. reflexivity.
    + cbn [xorb assert_ bind]. assert (Rleb w 0 = false) as -> by (destruct (Rleb w 0) eqn:E; [apply Rleb_true in E; lra|reflexivity]). rewrite (proj2 (Nat.ltb_lt _ _) Nn). cbn [negb assert_ bind].
      unfold linspace. destruct n as [|n]; [lia|]. cbn [seq map bind]. eexists. reflexivity.
Qed.

(** With the defaults, or with rings that are not negative, the radial profile is built. *)
Theorem params_profile : forall cutoff rings sigma width n_rings custom bf radii sig L,
  point_params cutoff rings sigma width n_rings custom = Ret (bf, radii, sig, L) ->
  (forall l, rings = Some l -> Forall (fun r => 0 <= r) l) ->
  match sigma with SDefault => True | SFloat s => 0 < s | SList l => length l = length radii /\ Forall (fun s => 0 < s) l end ->
  exists p, mk_profile radii sig = Ret p.
Proof.
  intros cutoff rings sigma width n_rings custom bf radii sig L H HR HS. pose proof (params_ok _ _ _ _ _ _ _ _ _ _ H) as (Ne & K & Sg & _).
  assert (Rp : forall r, In r radii -> 0 <= r).
  { destruct K as [(-> & _)|(-> & w & n & _ & _ & W & Nn & Ln & L1 & Sp)].
    - specialize (HR radii eq_refl). rewrite Forall_forall in HR. exact HR.
    - intros r Hr. apply In_nth with (d := 0) in Hr. destruct Hr as (i & Hi & <-). rewrite Ln in Hi. destruct (Nat.eq_dec n 1) as [E|E].
      + rewrite (L1 E). subst n. assert (i = 0%nat) as -> by lia. cbn. lra.
      + specialize (Sp i ltac:(lia) Hi). assert (0 < INR (n - 1)) by (apply lt_0_INR; lia). pose proof (pos_INR i).
        apply Rmult_le_reg_r with (INR (n - 1)); [assumption|]. rewrite Sp, Rmult_0_l. apply Rmult_le_pos; lra. }
  assert (Sl : length sig = length radii /\ forall s, In s sig -> 0 < s).
  { destruct sigma as [|s|l].
    - destruct Sg as (Ls & Sg). split; [exact Ls|]. intros s Hs. apply In_nth with (d := 0) in Hs. destruct Hs as (i & Hi & <-). rewrite Ls in Hi. rewrite (Sg i Hi).
      destruct (Req_EM_T _ _); [lra|]. destruct (Nat.eqb _ _); lra.
    - subst sig. rewrite repeat_length. split; [reflexivity|]. intros s' Hs. apply repeat_spec in Hs. subst s'. exact HS.
    - subst sig. destruct HS as (H1 & H2). rewrite Forall_forall in H2. auto. }
  destruct Sl as (Ls & Sp). unfold mk_profile. rewrite Ls, Nat.eqb_refl. cbn [assert_ bind].
  assert (forallb (fun r => Rleb 0 r) radii = true) as -> by (apply forallb_forall; intros r Hr; apply Rleb_true, Rp, Hr). cbn [assert_ bind].
  assert (forallb (fun s => negb (Rleb s 0)) sig = true) as ->.
  { apply forallb_forall. intros s Hs. specialize (Sp s Hs). destruct (Rleb s 0) eqn:E; [apply Rleb_true in E; lra|reflexivity]. }
  cbn [assert_ bind]. destruct (Nat.eqb_spec (length radii) 0) as [Z0|_]; [destruct radii; [contradiction|discriminate]|]. cbn [negb assert_ bind]. eauto.
Qed.
