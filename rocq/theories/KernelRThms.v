(** Steerability of the bases built from a filter basis of a larger group. *)
From Coq Require Import Reals List ZArith Arith Bool Lia Lra.
From Verif Require Import LibRes LibMat LibMatS IrrepModel SpecRep SpecIrrep RepModel SpecRepr KernelModel SpecKernel KernelProofs DisThms KernelThms.
Import ListNotations.
Open Scope R_scope.

Definition off (bs : list (nat * mat)) (i : nat) : nat := list_sum (firstn i (map fst bs)).

Lemma bdiag_row : forall bs i s M a f, nth_error bs i = Some (s, M) -> (a < s)%nat ->
  sumn (bsize bs) (fun c => bdiag bs (off bs i + a)%nat c * f c) = sumn s (fun b => M a b * f (off bs i + b)%nat).
Proof.
  induction bs as [|[s0 M0] bs IH]; intros i s M a f E L; [destruct i; discriminate|].
  change (bsize ((s0, M0) :: bs)) with (s0 + bsize bs)%nat. rewrite sumn_app.
  destruct i as [|i]; cbn [nth_error] in E.
  - injection E as -> ->. unfold off; cbn [firstn list_sum fold_right map fst bdiag].
    rewrite (sumn_0 (bsize bs)).
    + rewrite Rplus_0_r. apply sumn_ext; intros c Lc. cbn [Nat.add].
      rewrite (proj2 (Nat.ltb_lt a s) L), (proj2 (Nat.ltb_lt c s) Lc). reflexivity.
    + intros c Lc. cbn [Nat.add]. rewrite (proj2 (Nat.ltb_lt a s) L), (proj2 (Nat.ltb_ge (s + c) s)) by lia. ring.
  - assert (off ((s0, M0) :: bs) (S i) = (s0 + off bs i)%nat) as Eo by reflexivity. rewrite Eo.
    rewrite sumn_0.
    + rewrite Rplus_0_l, (sumn_ext s _ (fun b => M a b * f (s0 + (off bs i + b))%nat)) by (intros; do 2 f_equal; lia).
      rewrite <- (IH i s M a (fun c => f (s0 + c)%nat) E L).
      apply sumn_ext; intros c Lc. cbn [bdiag].
      rewrite (proj2 (Nat.ltb_ge (s0 + off bs i + a) s0)), (proj2 (Nat.ltb_ge (s0 + c) s0)) by lia.
      f_equal; f_equal; lia.
    + intros c Lc. cbn [bdiag]. rewrite (proj2 (Nat.ltb_ge (s0 + off bs i + a) s0)), (proj2 (Nat.ltb_lt c s0)) by lia. ring.
Qed.
Lemma bdiag_col : forall bs i s M a f, nth_error bs i = Some (s, M) -> (a < s)%nat ->
  sumn (bsize bs) (fun c => f c * bdiag bs c (off bs i + a)%nat) = sumn s (fun b => f (off bs i + b)%nat * M b a).
Proof.
  intros bs i s M a f E L.
  pose (bt := map (fun p => (fst p, mtr (snd p))) bs).
  assert (map fst bt = map fst bs) as Em by (unfold bt; rewrite map_map; reflexivity).
  assert (bsize bt = bsize bs) as Eb by (rewrite !bsize_map, Em; reflexivity).
  assert (off bt i = off bs i) as Eo by (unfold off; rewrite Em; reflexivity).
  assert (forall x y, bdiag bs x y = bdiag bt y x) as Et.
  { clear. unfold bt. induction bs as [|[s M] bs IH]; intros x y; cbn [map fst snd bdiag]; [reflexivity|].
    destruct (Nat.ltb x s), (Nat.ltb y s); try reflexivity. apply IH. }
  rewrite (sumn_ext _ _ (fun c => bdiag bt (off bt i + a)%nat c * f c)) by (intros; rewrite Et, Eo; ring).
  rewrite <- Eb, (bdiag_row bt i s (mtr M) a f).
  - rewrite Eo. apply sumn_ext; intros; unfold mtr; ring.
  - unfold bt. rewrite (map_nth_error' _ _ _ _ E). reflexivity.
  - exact L.
Qed.

Lemma flat_concatM : forall {A B} (f : A -> list B) l, concatM (fun a => Ret (f a)) l = Ret (flat_map f l).
Proof. intros A B f; induction l as [|a l IH]; cbn [concatM bind flat_map]; [reflexivity|]; rewrite IH; reflexivity. Qed.

Lemma concatM_build : forall {A B} (f : A -> res (list B)) (Q : B -> Prop) l,
  (forall a, In a l -> exists x, f a = Ret x /\ Forall Q x) -> exists out, concatM f l = Ret out /\ Forall Q out.
Proof.
  intros A B f Q; induction l as [|a l IH]; intros H; cbn [concatM]; [exists []; auto|].
  destruct (H a) as (x & -> & Hx); [left; reflexivity|]. destruct IH as (y & -> & Hy); [intros; apply H; right; assumption|].
  cbn [bind]. exists (x ++ y); split; [reflexivity|]. apply Forall_app; auto.
Qed.

Lemma Forall2_in_l : forall {A B} (Q : A -> B -> Prop) l m a, Forall2 Q l m -> In a l -> exists b, In b m /\ Q a b.
Proof.
  intros A B Q l m a H; induction H as [|x y l m Hxy _ IH]; intros I; [contradiction|]. destruct I as [->|I].
  - exists y; split; [left; reflexivity|exact Hxy].
  - destruct (IH I) as (b & Ib & Hb). exists b; split; [right; exact Ib|exact Hb].
Qed.
Lemma Forall2_in_r : forall {A B} (Q : A -> B -> Prop) l m b, Forall2 Q l m -> In b m -> exists a, In a l /\ Q a b.
Proof.
  intros A B Q l m b H; induction H as [|x y l m Hxy _ IH]; intros I; [contradiction|]. destruct I as [->|I].
  - exists x; split; [left; reflexivity|exact Hxy].
  - destruct (IH I) as (a & Ia & Ha). exists a; split; [right; exact Ia|exact Ha].
Qed.

Section RWE.
Context {G T P A : Type}.
Variable memG : G -> Prop.
Variable mem : T -> Prop.
Variable ok : list Z -> Prop.
Variable irrF : list Z -> res (girrep G).
Variable irr : list Z -> res (girrep T).
Variable incl : T -> res G.
Variable restr : list Z -> res (repr T).
Variable tpi : list Z -> list Z -> res (list (list Z * nat)).
Variable cg : list Z -> list Z -> list Z -> res arr4.
Variable act : G -> P -> P.
Variable F : filters P A.
Hypothesis KD : kernel_data mem ok irr tpi cg.
Hypothesis SF : steerable_filters memG irrF act F.
Hypothesis SR : forall j, In j (map fst (f_js F)) -> sound_restricted memG mem ok irrF irr incl restr j.

Lemma offsets_spec : forall j ids p, Forall ok ids -> exists offs, offsets irr j ids p = Ret offs /\
  forall q, In q offs -> exists i, nth_error ids i = Some j /\
    forall h bs, mem h -> values irr ids h = Ret bs -> q = (p + off bs i)%nat.
Proof.
  intros j; induction ids as [|i0 ids IH]; intros p H; cbn [offsets].
  - exists []; split; [reflexivity|]; intros q [].
  - inversion H as [|? ? H1 H2]; subst. destruct (kd_irr _ _ _ _ _ KD i0 H1) as (r & Er & _ & _ & _ & Rr).
    rewrite Er; cbn [bind]. destruct (IH (p + gi_size r)%nat H2) as (offs & Eo & Ho). rewrite Eo; cbn [bind].
    eexists; split; [reflexivity|]. intros q Hq.
    assert (q = p /\ i0 = j \/ In q offs) as [[-> ->]|Hq'].
    { destruct (id_eqb i0 j) eqn:E; [apply id_eqb_true in E; destruct Hq as [<-|Hq]; auto|auto]. }
    + exists 0%nat; split; [reflexivity|]. intros h bs _ _. unfold off; cbn; lia.
    + destruct (Ho q Hq') as (i & Ei & Hv). exists (S i); split; [exact Ei|].
      intros h bs Mh Ev. unfold values in Ev; cbn [mapM] in Ev. rewrite Er in Ev; cbn [bind] in Ev.
      destruct (Rr h Mh) as (D & ED & _). rewrite ED in Ev; cbn [bind] in Ev.
      fold (values irr ids h) in Ev. destruct (values irr ids h) as [|bs'] eqn:Ev'; [discriminate|].
      cbn [bind] in Ev; injection Ev as <-. rewrite (Hv h bs' Mh Ev').
      change (off ((gi_size r, D) :: bs') (S i)) with (gi_size r + off bs' i)%nat. lia.
Qed.

Lemma values_nth : forall ids h bs i j, values irr ids h = Ret bs -> nth_error ids i = Some j ->
  exists r p, irr j = Ret r /\ gi_rep r h = Ret p /\ nth_error bs i = Some p.
Proof.
  induction ids as [|i0 ids IH]; intros h bs i j Ev E; [destruct i; discriminate|].
  unfold values in Ev; cbn [mapM] in Ev. apply bind_Ret in Ev; destruct Ev as (p & E1 & Ev).
  apply bind_Ret in E1; destruct E1 as (r & Er & Ep).
  apply bind_Ret in Ev; destruct Ev as (bs' & Ev & Eb). injection Eb as <-.
  destruct i as [|i]; cbn [nth_error] in E |- *.
  - injection E as <-. exists r, p; auto.
  - apply (IH h bs' i j Ev E).
Qed.

(** The rows of the inverse change of basis belonging to a constituent [j]
    intertwine the restricted irrep with [j]. *)
Lemma rows_intertwine : forall rj h D r Dj q i0, reproduces irr mem rj -> mem h -> r_fun rj h = Ret (r_size rj, D) ->
  nth_error (r_irreps rj) i0 = Some (gi_id r) -> irr (gi_id r) = Ret r -> gi_rep r h = Ret (gi_size r, Dj) ->
  (forall bs, values irr (r_irreps rj) h = Ret bs -> q = off bs i0) ->
  forall (Y : nat -> R) a, (a < gi_size r)%nat ->
    sumn (r_size rj) (fun y => r_inv rj (q + a)%nat y * mv (r_size rj) D Y y) =
    mv (gi_size r) Dj (fun b => sumn (r_size rj) (fun y => r_inv rj (q + b)%nat y * Y y)) a.
Proof.
  intros rj h D r Dj q i0 [[I1 I2] HR] Mh EfD En Er Ed Hq Y a La.
  destruct (HR h Mh) as (bs & D' & Ev & Eb & Ef & HD). rewrite EfD in Ef; injection Ef as <-.
  destruct (values_nth _ _ _ _ _ Ev En) as (r' & p & Er' & Ep & Enb). rewrite Er in Er'; injection Er' as <-.
  rewrite Ed in Ep; injection Ep as <-. specialize (Hq bs Ev). subst q.
  set (n := r_size rj) in *.
  assert (off bs i0 + a < n)%nat as Lq.
  { rewrite <- Eb. clear - Enb La. revert i0 Enb. induction bs as [|[s M] bs IH]; intros i0 E; [destruct i0; discriminate|].
    change (bsize ((s, M) :: bs)) with (s + bsize bs)%nat.
    destruct i0 as [|i0]; cbn [nth_error] in E; [injection E as -> ->; unfold off; cbn; lia|].
    change (off ((s, M) :: bs) (S i0)) with (s + off bs i0)%nat. specialize (IH i0 E). lia. }
  assert (meq n n (mmul n (r_inv rj) D) (mmul n (bdiag bs) (r_inv rj))) as HI.
  { rewrite HD, <- !mul_assoc, I2, mid_l. reflexivity. }
  transitivity (mv n (mmul n (r_inv rj) D) Y (off bs i0 + a)%nat).
  { rewrite mv_mmul. reflexivity. }
  transitivity (mv n (mmul n (bdiag bs) (r_inv rj)) Y (off bs i0 + a)%nat).
  { apply mv_ext; [|reflexivity]. intros o Lo; apply HI; assumption. }
  rewrite mv_mmul. unfold mv at 1. rewrite <- Eb, (bdiag_row bs i0 (gi_size r) Dj a _ Enb La). reflexivity.
Qed.

(** What is known about an entry of `_js_restriction[j']`. *)
Definition part_ok (m n : list Z) (l : list (list Z * nat)) (rj : repr T) (q : rpart) : Prop :=
  exists c C r offs, In (rp_j q, c) l /\ ok (rp_j q) /\ cg n m (rp_j q) = Ret C /\ irr (rp_j q) = Ret r /\
    offsets irr (rp_j q) (r_irreps rj) 0 = Ret offs /\ (0 < length offs)%nat /\
    rp_t q = length offs /\ rp_S q = a_d2 C /\ a_d2 C = c /\ (0 < c)%nat /\ rp_K q = length (gi_endo r) /\
    rp_coeffs q = flat_map (fun k => flat_map (fun s => map (fun p => rw_coeff C r (r_inv rj) k s p) offs)
                                              (seq 0 (a_d2 C))) (seq 0 (length (gi_endo r))).

Lemma part_length : forall m n l rj q, part_ok m n l rj q ->
  length (rp_coeffs q) = (rp_t q * rp_S q * rp_K q)%nat.
Proof.
  intros m n l rj q (c & C & r & offs & _ & _ & _ & _ & _ & _ & Et & ES & _ & _ & EK & Ec).
  rewrite Ec, Et, ES, EK. rewrite (length_flat _ (a_d2 C * length offs)%nat).
  - rewrite seq_length. lia.
  - intros k _. rewrite (length_flat _ (length offs)); [rewrite seq_length; reflexivity|].
    intros; apply map_length.
Qed.

Lemma part_in : forall m n l rj q c, part_ok m n l rj q -> In c (rp_coeffs q) ->
  exists C r offs k s p, In (rp_j q, a_d2 C) l /\ ok (rp_j q) /\ cg n m (rp_j q) = Ret C /\ irr (rp_j q) = Ret r /\
    offsets irr (rp_j q) (r_irreps rj) 0 = Ret offs /\ In p offs /\ (s < a_d2 C)%nat /\ (k < length (gi_endo r))%nat /\
    c = rw_coeff C r (r_inv rj) k s p.
Proof.
  intros m n l rj q c0 (c & C & r & offs & Il & Oj & EC & Er & Eo & _ & _ & _ & Ec2 & _ & _ & Ec) I.
  rewrite Ec in I. apply in_flat_map in I; destruct I as (k & Ik & I). apply in_flat_map in I; destruct I as (s & Is & I).
  apply in_map_iff in I; destruct I as (p & <- & Ip). apply in_seq in Ik; apply in_seq in Is.
  exists C, r, offs, k, s, p. rewrite Ec2. subst c. do 8 (split; [first [assumption|lia]|]). reflexivity.
Qed.

Lemma mk_rwe_good : forall m n, ok m -> ok n ->
  exists rm rn ob, irr m = Ret rm /\ irr n = Ret rn /\
  mk_rwe irrF irr restr tpi cg F m n = Ret ob /\
  forall b, ob = Some b -> b_in b = rm /\ b_out b = rn /\
    good_basis mem (fun h => g <- incl h ;; Ret (act g)) irrF F b.
Proof.
  intros m n Hm Hn. unfold mk_rwe.
  destruct (kd_irr _ _ _ _ _ KD m Hm) as (rm & Em & Sm & _ & _ & Rm).
  destruct (kd_irr _ _ _ _ _ KD n Hn) as (rn & En & Sn & _ & _ & Rn).
  destruct (kd_tpi _ _ _ _ _ KD m n Hm Hn) as (l & El & Nl & Ol). rewrite Forall_forall in Ol.
  exists rm, rn. rewrite Em, En, El; cbn [bind].
  set (cand := filter (fun j => Nat.ltb 0 (multiplicity F j)) (keep_js [] (map fst (f_js F)) (f_js F))).
  assert (forall j, In j cand -> In j (map fst (f_js F)) /\ (0 < multiplicity F j)%nat) as Hcand.
  { intros j H; apply filter_In in H; destruct H as [H1 H2]; apply keep_js_in in H1; apply Nat.ltb_lt in H2; tauto. }
  assert (NoDup cand) as Ncand by (apply NoDup_filter, keep_js_nodup).
  destruct (mapM_build (fun j' => s <- irrF j' ;; rj <- restr j' ;;
                   ps <- concatM (fun p => rw_part irr cg rn rm m n (gi_size s) rj (fst p)) l ;; Ret (j', ps))
              (fun j' q => exists rj, restr j' = Ret rj /\ fst q = j' /\ Forall (part_ok m n l rj) (snd q)) cand)
    as (parts0 & Ep & Hp).
  { intros j' Hj'. destruct (SR j' (proj1 (Hcand _ Hj'))) as (s & rj & Es & Erj & Esz & Rj & Oi & _).
    rewrite Es, Erj; cbn [bind].
    destruct (concatM_build (fun p => rw_part irr cg rn rm m n (gi_size s) rj (fst p)) (part_ok m n l rj) l) as (ps & Eps & Hps).
    { intros [j c] Hjc; cbn [fst]. unfold rw_part. destruct (offsets_spec j (r_irreps rj) 0 Oi) as (offs & Eo & _).
      rewrite Eo; cbn [bind]. destruct offs as [|o offs]; [exists []; auto|].
      destruct (Ol _ Hjc) as (Oj & Pc); cbn [fst snd] in *.
      destruct (kd_irr _ _ _ _ _ KD j Oj) as (r & Er & Sr & Ss & Le & _).
      destruct (kd_cg _ _ _ _ _ KD m n l j c rm rn r Hm Hn El Hjc Em En Er) as (C & EC & D0 & D1 & D2 & D3 & _).
      rewrite EC, Er; cbn [bind]. rewrite D3, D0, D1, Esz, !Nat.eqb_refl; cbn [andb assert_ bind].
      eexists; split; [reflexivity|]. constructor; [|constructor].
      exists c, C, r, (o :: offs); cbn [rp_j rp_t rp_S rp_K rp_coeffs].
      do 5 (split; [assumption|]). split; [cbn; lia|]. do 2 (split; [reflexivity|]).
      split; [assumption|]. split; [assumption|]. split; [symmetry; assumption|reflexivity]. }
    rewrite Eps; cbn [bind]. eexists; split; [reflexivity|]. exists rj; auto. }
  rewrite Ep; cbn [bind].
  set (parts := filter (fun q : list Z * list rpart => negb (Nat.eqb (length (snd q)) 0)) parts0).
  assert (map fst parts0 = cand) as Ef0.
  { clear - Hp. induction Hp as [|x y c0 p0 (rj & _ & E & _) _ IH]; cbn; [reflexivity|]; rewrite IH, E; reflexivity. }
  assert (NoDup (map fst parts)) as Nparts.
  { unfold parts. rewrite <- Ef0 in Ncand. clear - Ncand. induction parts0 as [|a ps IH]; cbn [filter]; [constructor|].
    cbn [map] in Ncand; inversion Ncand; subst. destruct (negb _); cbn [map]; [constructor|]; auto.
    intros K; apply H1. apply in_map_iff in K; destruct K as (q & <- & K); apply filter_In in K. apply in_map; tauto. }
  assert (forall q, In q parts -> In (fst q) cand /\ exists rj, restr (fst q) = Ret rj /\ Forall (part_ok m n l rj) (snd q)) as Hparts.
  { intros q Hq. apply filter_In in Hq; destruct Hq as [Hq _].
    destruct (Forall2_in_r _ _ _ _ Hp Hq) as (j & Ij & rj & Erj & Ej & Hok). subst j. eauto. }
  set (dim := list_sum (map (fun q : list Z * list rpart => (rw_dim (snd q) * multiplicity F (fst q))%nat) parts)).
  destruct (Nat.eqb dim 0) eqn:Ez.
  { exists None; split; [reflexivity|]; split; [reflexivity|]; split; [reflexivity|discriminate]. }
  set (js := keep_js [] (map fst parts) (f_js F)).
  set (dimh := fun j => (multiplicity F j * rw_dim (get_or [] parts j))%nat).
  assert (forall j, In j js <-> In j (map fst parts)) as Hjs.
  { intros j; unfold js; rewrite keep_js_in. split; [tauto|]. intros H; split; [|cbn; tauto].
    apply in_map_iff in H; destruct H as (q & <- & Hq). destruct (Hparts q Hq) as [Hc _]. apply (Hcand _ Hc). }
  assert (forall j, In j js -> exists ps rj, get_or [] parts j = ps /\ restr j = Ret rj /\ Forall (part_ok m n l rj) ps /\
            In j (map fst (f_js F)) /\ (0 < multiplicity F j)%nat) as Hj.
  { intros j H. apply Hjs in H. apply in_map_iff in H; destruct H as ([j' ps] & E & Hq); cbn in E; subst j'.
    destruct (Hparts _ Hq) as (Hc & rj & Erj & Hok); cbn [fst snd] in *. exists ps, rj.
    unfold get_or. rewrite (last_of_nodup parts j ps Nparts Hq). destruct (Hcand _ Hc). auto. }
  assert (NoDup js) as Njs by apply keep_js_nodup.
  assert (dim = list_sum (map dimh js)) as Edim.
  { rewrite (sum_same_ids dimh js (map fst parts)) by assumption. unfold dim. rewrite map_map. f_equal.
    apply map_ext_in. intros [j ps] H; cbn [fst snd]. unfold dimh, get_or.
    rewrite (last_of_nodup parts j ps Nparts H). lia. }
  assert (forall j, ~ In j js -> dimh j = 0%nat) as Hzero.
  { intros j H. unfold dimh, get_or. rewrite (proj2 (last_of_none parts j)); [cbn; lia|]. rewrite <- Hjs; exact H. }
  eexists; split; [reflexivity|]; split; [reflexivity|]; split; [reflexivity|].
  intros b Eb; injection Eb as <-; split; [reflexivity|]; split; [reflexivity|].
  constructor; cbn [b_js b_dim b_dimh b_harm b_in b_out b_attrs b_attr].
  - exact Njs.
  - intros j H; apply keep_js_in in H; tauto.
  - exact Edim.
  - exact Hzero.
  - (* steerability *)
    intros j idx H Li h x Mh. change (idx < dimh j)%nat in Li.
    destruct (Hj j H) as (ps & rj & Eps & Erj & Hok & IjF & Pm).
    destruct (SR j IjF) as (s & rj' & Es & Erj' & Esz & Rj & Oi & Hinc). rewrite Erj in Erj'; injection Erj' as <-.
    destruct (Hinc h Mh) as (g & D & Dr & Eg & Mg & EfD & EsD & HDr).
    destruct (SF j IjF) as (s' & Es' & HY). rewrite Es in Es'; injection Es' as <-.
    destruct (HY g x Mg) as (Y & Y' & D' & EY & EY' & ED' & HD).
    rewrite EsD in ED'; injection ED' as <-.
    destruct (Rm h Mh) as (B & EB & OB & _). destruct (Rn h Mh) as (A0 & EA & OA & _).
    set (mu := multiplicity F j) in *. set (i := (idx mod mu)%nat).
    assert (i < mu)%nat as Hi by (apply Nat.mod_upper_bound; lia).
    assert (idx / mu < length (flat_map rp_coeffs ps))%nat as Hd.
    { apply Nat.div_lt_upper_bound; [lia|]. unfold dimh in Li. rewrite Eps in Li. exact Li. }
    set (cc := nth (idx / mu)%nat (flat_map rp_coeffs ps) (fun _ _ _ => 0)).
    assert (In cc (flat_map rp_coeffs ps)) as Icc by (apply nth_In; exact Hd).
    apply in_flat_map in Icc; destruct Icc as (q & Iq & Icc). rewrite Forall_forall in Hok. specialize (Hok q Iq).
    destruct (part_in m n l rj q cc Hok Icc) as (C & r & offs & k & s0 & p & Il & Oj & EC & Er & Eo & Ip & Ls & Lk & Ecc).
    destruct (kd_cg _ _ _ _ _ KD m n l _ _ rm rn r Hm Hn El Il Em En Er) as (C' & EC' & D0 & D1 & D2 & D3 & HI).
    rewrite EC in EC'; injection EC' as <-.
    destruct (kd_irr _ _ _ _ _ KD _ Oj) as (r' & Er' & Sr & Ss & Le & Rr). rewrite Er in Er'; injection Er' as <-.
    destruct (Rr h Mh) as (Dj & EDj & ODj & CDj).
    destruct (offsets_spec (rp_j q) (r_irreps rj) 0 Oi) as (offs' & Eo' & Ho). rewrite Eo in Eo'; injection Eo' as <-.
    destruct (Ho p Ip) as (i0 & Ei0 & Hv).
    do 6 eexists. split; [rewrite Eg; reflexivity|].
    split; [rewrite EY; cbn [bind]; rewrite Es; reflexivity|].
    split; [rewrite EY'; cbn [bind]; rewrite Es; reflexivity|].
    split; [exact EA|]; split; [exact EB|]; split; [apply orthogonal_inverse; exact OB|].
    fold mu; fold i. rewrite Eps. fold cc. rewrite Ecc.
    set (E := nth k (gi_endo r) mzero).
    set (idY := fun (Z : nat -> nat -> R) a => sumn (gi_size s) (fun y => r_inv rj (p + a)%nat y * Z i y)).
    assert (forall Z u v, sumn (gi_size s) (fun y => rw_coeff C r (r_inv rj) k s0 p u v y * Z i y) =
              sumn (gi_size r) (fun i' => a_at C u v s0 i' * mv (gi_size r) (mtr E) (idY Z) i')) as Hre.
    { intros Z u v. unfold rw_coeff, mv, mtr, idY.
      rewrite (sumn_ext (gi_size s) _ (fun y => sumn (gi_size r) (fun i' => a_at C u v s0 i' *
                 sumn (gi_size r) (fun a => E a i' * (r_inv rj (p + a)%nat y * Z i y))))).
      - rewrite sumn_swap. apply sumn_ext; intros i' Li'. rewrite sumn_scal_l. f_equal.
        rewrite sumn_swap. apply sumn_ext; intros; apply sumn_scal_l.
      - intros y Ly; rewrite <- sumn_scal_r; apply sumn_ext; intros i' Li'.
        rewrite <- sumn_scal_r, <- sumn_scal_l. apply sumn_ext; intros; unfold E; ring. }
    intros u v Lu Lv.
    etransitivity; [apply Hre|].
    etransitivity; [apply (core_steer (gi_size rn) (gi_size rm) (gi_size r) C s0 A0 B Dj (mv (gi_size r) (mtr E) (idY Y))); try assumption|].
    + apply (HI h); assumption.
    + apply endo_vec; [exact ODj|apply endo_nth; assumption|]. intros o Lo. unfold idY.
      rewrite (sumn_ext (gi_size s) _ (fun y => r_inv rj (p + o)%nat y * mv (r_size rj) Dr (Y i) y)).
      2:{ intros y Ly. f_equal. rewrite Esz. rewrite (HD i y Hi Ly). apply mv_ext; [|reflexivity].
          intros o' Lo'; symmetry; apply HDr; assumption. }
      rewrite <- Esz.
      apply (rows_intertwine rj h Dr r Dj p i0); try assumption.
      * rewrite (kd_id _ _ _ _ _ KD _ _ Oj Er). exact Ei0.
      * rewrite (kd_id _ _ _ _ _ KD _ _ Oj Er). exact Er.
      * intros bs Ev. apply (Hv h bs Mh Ev).
    + apply sumn_ext; intros y Ly; f_equal. apply sumn_ext; intros z Lz; f_equal. symmetry; apply Hre.
  - (* attributes *)
    intros HF j. change (multiplicity F j * rw_dim (get_or [] parts j))%nat with (dimh j).
    destruct (in_dec (list_eq_dec Z.eq_dec) j js) as [H|H].
    2:{ rewrite (Hzero j H); cbn. exists []; split; [reflexivity|]; split; [reflexivity|]. intros i Hi; lia. }
    destruct (Nat.eqb (dimh j) 0) eqn:Ed0.
    { apply Nat.eqb_eq in Ed0. rewrite Ed0. exists []; split; [reflexivity|]; split; [reflexivity|]. intros i Hi; lia. }
    destruct (Hj j H) as (ps & rj & Eps & Erj & Hok & IjF & Pm). rewrite Forall_forall in Hok.
    destruct (start_some dimh js j H) as (st & Est & Lst).
    change (start_index (fun j0 => (multiplicity F j0 * rw_dim (get_or [] parts j0))%nat) js j) with (start_index dimh js j).
    rewrite Est; cbn [bind].
    destruct (HF j IjF) as (la & Ela & Lla & Hla). rewrite Ela; cbn [bind]. rewrite Eps.
    set (mu := multiplicity F j) in *.
    set (f1 := fun (q : rpart) (k s t : nat) => map (fun ia : nat * A => (rp_j q, t, s, k, ia)) (enumerate la)).
    set (f2 := fun (q : rpart) (k s : nat) => flat_map (f1 q k s) (seq 0 (rp_t q))).
    set (f3 := fun (q : rpart) (k : nat) => flat_map (f2 q k) (seq 0 (rp_S q))).
    set (f4 := fun (q : rpart) => flat_map (f3 q) (seq 0 (rp_K q))).
    assert (forall q k s t, length (f1 q k s t) = mu) as L1 by (intros; unfold f1; rewrite map_length, length_enumerate; exact Lla).
    assert (forall q k s, length (f2 q k s) = (rp_t q * mu)%nat) as L2.
    { intros; unfold f2; rewrite (length_flat _ mu) by (intros; apply L1); rewrite seq_length; reflexivity. }
    assert (forall q k, length (f3 q k) = (rp_S q * (rp_t q * mu))%nat) as L3.
    { intros; unfold f3; rewrite (length_flat _ (rp_t q * mu)%nat) by (intros; apply L2); rewrite seq_length; reflexivity. }
    assert (forall q, length (f4 q) = (rp_t q * rp_S q * rp_K q * mu)%nat) as L4.
    { intros; unfold f4; rewrite (length_flat _ (rp_S q * (rp_t q * mu))%nat) by (intros; apply L3); rewrite seq_length; lia. }
    match goal with |- context [enumerate ?x] => lazymatch x with flat_map _ ps => change x with (flat_map f4 ps) end end.
    destruct (locate_concat (fun q => Ret (f4 q)) (fun q => rp_t q * rp_S q * rp_K q * mu)%nat ps) as (out & Eout & Lout & Hout).
    { intros q _. exists (f4 q); split; [reflexivity|apply L4]. }
    rewrite flat_concatM in Eout; injection Eout as <-.
    assert (list_sum (map (fun q => rp_t q * rp_S q * rp_K q * mu)%nat ps) = dimh j) as Esum.
    { unfold dimh. rewrite Eps. fold mu. clear - Hok. unfold rw_dim. induction ps as [|q ps IH]; cbn [map flat_map]; [cbn; lia|].
      rewrite list_sum_cons, app_length, IH by (intros; apply Hok; right; assumption).
      rewrite (part_length m n l rj q) by (apply Hok; left; reflexivity). lia. }
    rewrite Esum in Lout.
    match goal with |- context [Nat.leb ?x ?y] => replace (Nat.leb x y) with true
      by (symmetry; apply Nat.leb_le; change y with dim; rewrite Lout, Edim; exact Lst) end.
    rewrite Lout, Nat.eqb_refl; cbn [assert_ bind].
    eexists; split; [reflexivity|]; split.
    { rewrite map_length, length_enumerate, Lout. reflexivity. }
    intros idx Li. rewrite (proj2 (Nat.ltb_lt _ _) Li); cbn [assert_ bind].
    rewrite <- Esum in Li. destruct (locate_some _ _ _ Li) as (q & i0 & Eq & Iq & Hi0). rewrite Eq.
    destruct (Hok q Iq) as (c & C & r & offs & _ & _ & _ & _ & _ & Po & Et & ES & Ec & Pc & EK & _).
    assert (i0 mod mu < mu)%nat as Hi by (apply Nat.mod_upper_bound; lia).
    destruct (Hla _ Hi) as (a & Ea & Na). rewrite Ea; cbn [bind].
    eexists; split; [reflexivity|].
    assert (rp_t q <> 0)%nat as Nt by lia. assert (rp_S q <> 0)%nat as NS by lia. assert (mu <> 0)%nat as Nm by lia.
    assert (rp_t q * mu <> 0)%nat as Ntm by (intros Q; apply Nat.mul_eq_0 in Q; lia).
    assert (rp_S q * (rp_t q * mu) <> 0)%nat as NStm by (intros Q; apply Nat.mul_eq_0 in Q; lia).
    destruct (mod_div_swap i0 (rp_t q * mu) (rp_S q)) as [M1 M2]; [assumption|assumption|].
    destruct (mod_div_swap i0 mu (rp_t q)) as [M3 M4]; [assumption|assumption|].
    assert (nth_error (flat_map f4 ps) idx = Some (rp_j q, ((i0 / mu) mod rp_t q)%nat, ((i0 / (mu * rp_t q)) mod rp_S q)%nat,
              (i0 / (mu * rp_t q * rp_S q))%nat, ((i0 mod mu)%nat, a))) as Ne.
    { rewrite (Hout idx q i0 (f4 q) Eq eq_refl). unfold f4.
      rewrite (nth_error_flat_seq _ (rp_S q * (rp_t q * mu))%nat); [|intros; apply L3|lia]. unfold f3.
      rewrite (nth_error_flat_seq _ (rp_t q * mu)%nat); [|intros; apply L2|apply Nat.mod_upper_bound; assumption]. unfold f2.
      rewrite M1, M2.
      rewrite (nth_error_flat_seq _ mu); [|intros; apply L1|apply Nat.mod_upper_bound; assumption]. unfold f1.
      rewrite M3, M4. rewrite (map_nth_error' _ _ _ ((i0 mod mu)%nat, a)) by (apply nth_enumerate; exact Na).
      rewrite (Nat.mul_comm (rp_t q) mu), (Nat.mul_comm (rp_S q)). reflexivity. }
    rewrite (map_nth_error' _ _ _ _ (nth_enumerate _ _ _ Ne)). reflexivity.
Qed.
End RWE.
