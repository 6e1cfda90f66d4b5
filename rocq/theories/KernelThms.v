(** Steerability of the bases for pairs of irreps, and indexing. *)
From Coq Require Import Reals List ZArith Arith Bool Lia Lra Permutation.
From Verif Require Import LibRes LibMat LibMatS IrrepModel SpecRep SpecIrrep RepModel SpecRepr KernelModel SpecKernel KernelProofs DisThms.
Import ListNotations.
Open Scope R_scope.

Definition mv (n : nat) (M : mat) (v : nat -> R) (i : nat) : R := sumn n (fun o => M i o * v o).

Lemma mv_mmul : forall n M N v i, mv n (mmul n M N) v i = mv n M (mv n N v) i.
Proof.
  intros n M N v i; unfold mv, mmul.
  rewrite (sumn_ext n _ (fun o => sumn n (fun k => M i k * N k o * v o))) by (intros; rewrite <- sumn_scal_r; reflexivity).
  rewrite sumn_swap; apply sumn_ext; intros k _. rewrite <- sumn_scal_l; apply sumn_ext; intros; ring.
Qed.
Lemma mv_ext : forall n M N v w i, (forall o, (o < n)%nat -> M i o = N i o) -> (forall o, (o < n)%nat -> v o = w o) ->
  mv n M v i = mv n N w i.
Proof. intros n M N v w i H K; apply sumn_ext; intros o L; rewrite H, K by exact L; reflexivity. Qed.

(** An endomorphism commuting with an orthogonal matrix: so does its transpose. *)
Lemma endo_tr : forall n E D, orthogonal n D -> meq n n (mmul n E D) (mmul n D E) ->
  meq n n (mmul n (mtr E) D) (mmul n D (mtr E)).
Proof.
  intros n E D HD HE. pose proof HD as HD'. rewrite orthogonal_inverse in HD. destruct HD as [H1 H2].
  assert (meq n n (mmul n (mtr D) (mtr E)) (mmul n (mtr E) (mtr D))) as HT.
  { intros i j Li Lj. etransitivity; [symmetry; apply mul_tr with (r := n) (c := n); assumption|].
    etransitivity; [|apply mul_tr with (r := n) (c := n); assumption]. apply HE; assumption. }
  assert (meq n n (mmul n (mtr E) D) (mmul n (mmul n D (mtr D)) (mmul n (mtr E) D))) as S1.
  { intros i j Li Lj. symmetry. unfold mmul at 1.
    rewrite (sumn_ext n _ (fun k => mid i k * mmul n (mtr E) D k j)).
    - rewrite (sumn_single n i); [unfold mid; rewrite Nat.eqb_refl; ring|exact Li|].
      intros k Lk Nk; unfold mid. rewrite (proj2 (Nat.eqb_neq i k)) by congruence; ring.
    - intros k Lk; rewrite H1 by assumption; reflexivity. }
  intros i j Li Lj. rewrite S1 by assumption.
  transitivity (mmul n (mmul n D (mmul n (mtr D) (mtr E))) D i j).
  { etransitivity; [|symmetry; apply (mul_assoc n n n n); assumption].
    etransitivity; [apply (mul_assoc n n n n); assumption|].
    apply sumn_ext; intros k Lk. f_equal. etransitivity; [|symmetry; apply (mul_assoc n n n n); assumption]. reflexivity. }
  transitivity (mmul n (mmul n D (mmul n (mtr E) (mtr D))) D i j).
  { apply sumn_ext; intros k Lk; f_equal. apply sumn_ext; intros l Ll; f_equal. apply HT; assumption. }
  etransitivity; [apply (mul_assoc n n n n); assumption|].
  apply sumn_ext; intros k Lk; f_equal.
  etransitivity; [apply (mul_assoc n n n n); assumption|].
  transitivity (mmul n (mtr E) mid k j).
  - apply sumn_ext; intros l Ll; f_equal; apply H2; assumption.
  - unfold mmul. rewrite (sumn_single n j); [unfold mid; rewrite Nat.eqb_refl; ring|exact Lj|].
    intros l Ll Nl; unfold mid. rewrite (proj2 (Nat.eqb_neq l j)) by exact Nl; ring.
Qed.

(** K = C_s . w with w transforming with D: K transforms with A and B. *)
Lemma core_steer : forall no ni nj (C : arr4) s A B D w w',
  a_d0 C = no -> a_d1 C = ni -> a_d3 C = nj -> (s < a_d2 C)%nat -> cg_intertwines C A B D ->
  (forall i, (i < nj)%nat -> w' i = mv nj D w i) ->
  meq no ni (fun p n => sumn nj (fun i => a_at C p n s i * w' i))
    (mmul ni (mmul no A (fun p n => sumn nj (fun i => a_at C p n s i * w i))) (mtr B)).
Proof.
  intros no ni nj C s A B D w w' E0 E1 E3 Hs H Hw p n Lp Ln. subst.
  symmetry. unfold mmul, mtr.
  rewrite (sumn_ext (a_d1 C) _ (fun y => sumn (a_d3 C) (fun i => sumn (a_d0 C) (fun x => A p x * B n y * a_at C x y s i) * w i))).
  2:{ intros y Ly. rewrite <- sumn_scal_r.
      rewrite (sumn_ext (a_d0 C) _ (fun x => sumn (a_d3 C) (fun i => A p x * B n y * a_at C x y s i * w i))).
      - rewrite sumn_swap. apply sumn_ext; intros i _. rewrite sumn_scal_r; reflexivity.
      - intros x Lx. rewrite <- sumn_scal_l, <- sumn_scal_r. apply sumn_ext; intros; ring. }
  rewrite sumn_swap.
  rewrite (sumn_ext (a_d3 C) _ (fun i => sumn (a_d3 C) (fun i' => a_at C p n s i' * D i' i) * w i)).
  2:{ intros i Li. rewrite <- (H p n s i Lp Ln Hs Li). rewrite sumn_swap, sumn_scal_r. reflexivity. }
  rewrite (sumn_ext (a_d3 C) _ (fun i => sumn (a_d3 C) (fun i' => a_at C p n s i' * (D i' i * w i)))).
  2:{ intros i _. rewrite <- sumn_scal_r. apply sumn_ext; intros; ring. }
  rewrite sumn_swap. apply sumn_ext; intros i' Li'. rewrite sumn_scal_l, (Hw i' Li'). reflexivity.
Qed.

(** E^T Y transforms with D when Y does. *)
Lemma endo_vec : forall n E D Y Y', orthogonal n D -> meq n n (mmul n E D) (mmul n D E) ->
  (forall o, (o < n)%nat -> Y' o = mv n D Y o) ->
  forall i, (i < n)%nat -> mv n (mtr E) Y' i = mv n D (mv n (mtr E) Y) i.
Proof.
  intros n E D Y Y' HD HE HY i Li.
  rewrite (mv_ext n (mtr E) (mtr E) Y' (mv n D Y)) by (auto). rewrite <- !mv_mmul.
  apply mv_ext; [|reflexivity]. intros o Lo; apply endo_tr; assumption.
Qed.

(** The part of [kernel_data] used for one irrep. *)
Lemma endo_nth : forall n (l : list mat) D k, Forall (fun E => meq n n (mmul n E D) (mmul n D E)) l ->
  (k < length l)%nat -> meq n n (mmul n (nth k l mzero) D) (mmul n D (nth k l mzero)).
Proof. intros n l D k H L. rewrite Forall_forall in H. apply H. apply nth_In; exact L. Qed.

(** What the constructors establish about a basis for a pair of irreps. *)
Record good_basis {G T P A} (mem : T -> Prop) (act : T -> res (P -> P)) (irrF : list Z -> res (girrep G))
    (F : filters P A) (b : ibasis T A) : Prop := {
  gb_js : NoDup (b_js b);
  gb_inF : forall j, In j (b_js b) -> In j (map fst (f_js F));
  gb_dim : b_dim b = list_sum (map (b_dimh b) (b_js b));
  gb_zero : forall j, ~ In j (b_js b) -> b_dimh b j = 0%nat;
  gb_steer : forall j idx, In j (b_js b) -> (idx < b_dimh b j)%nat ->
    steerable_kernel mem act (gi_size (b_out b)) (gi_size (b_in b)) (gi_rep (b_out b)) (gi_rep (b_in b))
      (fun x => Y <- harmonics irrF F x j ;; b_harm b j idx Y);
  gb_attrs : listed_attrs F -> forall j, exists l, b_attrs b j = Ret l /\ length l = b_dimh b j /\
    forall i, (i < b_dimh b j)%nat -> exists a, b_attr b j i = Ret a /\ nth_error l i = Some a
}.

Lemma good_sample : forall {G T P A} mem act (irrF : list Z -> res (girrep G)) (F : filters P A) (b : ibasis T A) idx,
  good_basis mem act irrF F b -> (idx < b_dim b)%nat ->
  steerable_kernel mem act (gi_size (b_out b)) (gi_size (b_in b)) (gi_rep (b_out b)) (gi_rep (b_in b))
    (fun x => b_sample irrF F b x idx).
Proof.
  intros G T P A mem act irrF F b idx H L. rewrite (gb_dim _ _ _ _ _ H) in L.
  destruct (locate_some _ _ _ L) as (j & i & E & Hj & Hi). unfold b_sample; rewrite E.
  apply (gb_steer _ _ _ _ _ H); assumption.
Qed.

Lemma good_index : forall {G T P A} mem act (irrF : list Z -> res (girrep G)) (F : filters P A) (b : ibasis T A),
  good_basis mem act irrF F b -> listed_attrs F -> index_agrees (b_dim b) (b_get b) (b_iter b).
Proof.
  intros G T P A mem act irrF F b H HF. pose proof (gb_attrs _ _ _ _ _ H HF) as HA.
  destruct (locate_concat (b_attrs b) (b_dimh b) (b_js b)) as (out & Eo & Lo & Ho).
  { intros j _. destruct (HA j) as (l & El & Ll & _). exists l; auto. }
  exists out; split; [exact Eo|]. rewrite (gb_dim _ _ _ _ _ H); split; [exact Lo|].
  intros i Li. unfold b_get. rewrite (gb_dim _ _ _ _ _ H), (proj2 (Nat.ltb_lt _ _) Li); cbn [assert_ bind].
  destruct (locate_some _ _ _ Li) as (j & i' & E & Hj & Hi). rewrite E.
  destruct (HA j) as (l & El & Ll & Hl). destruct (Hl i' Hi) as (a & Ea & En).
  exists a; split; [exact Ea|]. rewrite (Ho _ _ _ _ E El). exact En.
Qed.

(** sums over the same distinct ids in two orders *)
Lemma sum_same_ids : forall (d : list Z -> nat) l m, NoDup l -> NoDup m -> (forall j, In j l <-> In j m) ->
  list_sum (map d l) = list_sum (map d m).
Proof.
  intros d l m Hl Hm H. assert (Permutation l m) as P by (apply NoDup_Permutation; assumption).
  clear - P. induction P; cbn [map]; rewrite ?list_sum_cons; lia.
Qed.
Lemma sum_dict : forall (dh : list (list Z * nat)), NoDup (map fst dh) ->
  list_sum (map snd dh) = list_sum (map (get_or 0%nat dh) (map fst dh)).
Proof.
  intros dh N. rewrite map_map. f_equal. apply map_ext_in. intros [j d] H; cbn; unfold get_or.
  rewrite (last_of_nodup dh j d N H). reflexivity.
Qed.

Section WE.
Context {T P A : Type}.
Variable mem : T -> Prop.
Variable ok : list Z -> Prop.
Variable irr : list Z -> res (girrep T).
Variable tpi : list Z -> list Z -> res (list (list Z * nat)).
Variable cg : list Z -> list Z -> list Z -> res arr4.
Variable act : T -> P -> P.
Variable F : filters P A.
Hypothesis KD : kernel_data mem ok irr tpi cg.
Hypothesis SF : steerable_filters mem irr act F.

Lemma mult_pos_in : forall j, (0 < multiplicity F j)%nat -> In j (map fst (f_js F)).
Proof.
  intros j; unfold multiplicity, get_or. destruct (last_of (f_js F) j) eqn:E; [|lia].
  intros _. apply last_of_in in E. apply (in_map fst) in E; exact E.
Qed.

Lemma mk_we_good : forall m n, ok m -> ok n -> exists rm rn ob, irr m = Ret rm /\ irr n = Ret rn /\
  mk_we irr tpi cg F m n = Ret ob /\
  forall b, ob = Some b -> b_in b = rm /\ b_out b = rn /\
    good_basis mem (fun g => Ret (act g)) irr F b.
Proof.
  intros m n Hm Hn. unfold mk_we.
  destruct (kd_irr _ _ _ _ _ KD m Hm) as (rm & Em & Sm & _ & _ & Rm).
  destruct (kd_irr _ _ _ _ _ KD n Hn) as (rn & En & Sn & _ & _ & Rn).
  destruct (kd_tpi _ _ _ _ _ KD m n Hm Hn) as (l & El & Nl & Ol).
  exists rm, rn. rewrite Em, En, El; cbn [bind].
  set (tj := filter (fun p => Nat.ltb 0 (multiplicity F (fst p))) l).
  assert (Forall (fun p => ok (fst p) /\ (0 < snd p)%nat /\ (0 < multiplicity F (fst p))%nat /\ In p l) tj) as Ot.
  { apply Forall_forall; intros p Hp; apply filter_In in Hp; destruct Hp as [Hp Hq].
    rewrite Forall_forall in Ol. destruct (Ol p Hp). apply Nat.ltb_lt in Hq. auto. }
  assert (NoDup (map fst tj)) as Nt.
  { unfold tj; clear - Nl. induction l as [|a l IH]; cbn [filter]; [constructor|]. cbn [map] in Nl; inversion Nl; subst.
    destruct (Nat.ltb 0 (multiplicity F (fst a))); cbn [map]; [constructor|]; auto.
    intros K; apply H1. apply in_map_iff in K; destruct K as (q & <- & K); apply filter_In in K.
    apply in_map; tauto. }
  destruct (mapM_build (fun p => r <- irr (fst p) ;; Ret (fst p, (multiplicity F (fst p) * snd p * gi_sosc r)%nat))
              (fun p q => exists r, irr (fst p) = Ret r /\ q = (fst p, (multiplicity F (fst p) * snd p * gi_sosc r)%nat)) tj)
    as (dh & Edh & Hdh).
  { intros p Hp. rewrite Forall_forall in Ot. destruct (Ot p Hp) as (Op & _).
    destruct (kd_irr _ _ _ _ _ KD _ Op) as (r & Er & _). rewrite Er; cbn [bind]. eauto. }
  rewrite Edh; cbn [bind].
  assert (map fst dh = map fst tj) as Efst.
  { clear - Hdh. induction Hdh as [|p q tj dh (r & _ & ->) _ IH]; cbn; [reflexivity|]; rewrite IH; reflexivity. }
  destruct (Nat.eqb (list_sum (map snd dh)) 0) eqn:Ez.
  { exists None; split; [reflexivity|]; split; [reflexivity|]; split; [reflexivity|discriminate]. }
  set (js := keep_js [] (map fst tj) (f_js F)).
  set (dimh := get_or 0%nat dh).
  set (jJl := get_or 0%nat tj).
  assert (forall j, In j js <-> In j (map fst tj)) as Hjs.
  { intros j; unfold js; rewrite keep_js_in. split; [tauto|]. intros H; split; [|cbn; tauto].
    apply in_map_iff in H; destruct H as (p & <- & Hp). rewrite Forall_forall in Ot.
    destruct (Ot p Hp) as (_ & _ & H & _). apply mult_pos_in; exact H. }
  assert (forall j, In j js -> exists c r, In (j, c) l /\ ok j /\ irr j = Ret r /\ jJl j = c /\ (0 < c)%nat /\
            dimh j = (multiplicity F j * c * gi_sosc r)%nat /\ (0 < multiplicity F j)%nat) as Hj.
  { intros j H. apply Hjs in H. apply in_map_iff in H; destruct H as ([j' c] & E & Hp); cbn in E; subst j'.
    rewrite Forall_forall in Ot. destruct (Ot _ Hp) as (Oj & Pc & Mj & Il); cbn in *.
    assert (exists d, In (j, d) dh /\ exists r, irr j = Ret r /\ d = (multiplicity F j * c * gi_sosc r)%nat) as (d & Hd & r & Er & Ed).
    { clear - Hdh Hp. induction Hdh as [|p q tj dh Q _ IH]; cbn in Hp; [contradiction|].
      destruct Hp as [->|Hp].
      - destruct Q as (r & Er & ->); cbn in *. eexists; split; [left; reflexivity|]. eauto.
      - destruct (IH Hp) as (d & Hd & K). exists d; split; [right; exact Hd|exact K]. }
    exists c, r; split; [exact Il|]; split; [exact Oj|]; split; [exact Er|]; split.
    { unfold jJl, get_or. rewrite (last_of_nodup tj j c Nt Hp). reflexivity. }
    split; [exact Pc|]; split; [|exact Mj].
    unfold dimh, get_or. rewrite (last_of_nodup dh j d); [exact Ed|rewrite Efst; exact Nt|exact Hd]. }
  destruct (mapM_build (fun j => C <- cg n m j ;; r <- irr j ;; assert (Nat.eqb (a_d3 C) (gi_size r)) ;;
                           assert (Nat.eqb (jJl j) (a_d2 C)) ;; Ret (j, (C, r)))
              (fun j q => exists C r, cg n m j = Ret C /\ irr j = Ret r /\ q = (j, (C, r))) js) as (cf & Ecf & Hcf).
  { intros j H. destruct (Hj j H) as (c & r & Il & Oj & Er & Ec & Pc & Ed & Pm).
    destruct (kd_cg _ _ _ _ _ KD m n l j c rm rn r Hm Hn El Il Em En Er) as (C & EC & D0 & D1 & D2 & D3 & _).
    rewrite EC, Er; cbn [bind]. rewrite D3, D2, Ec, !Nat.eqb_refl; cbn [assert_ bind].
    exists (j, (C, r)); split; [reflexivity|]. exists C, r; auto. }
  rewrite Ecf; cbn [bind].
  assert (NoDup js) as Njs by apply keep_js_nodup.
  assert (map fst cf = js) as Fcf.
  { clear - Hcf. induction Hcf as [|p q js0 cf0 (C & r & _ & _ & ->) _ IH]; cbn; [reflexivity|]; rewrite IH; reflexivity. }
  assert (forall j, In j js -> exists C r, lookup cf j = Ret (C, r) /\ cg n m j = Ret C /\ irr j = Ret r) as Hlk.
  { intros j H. assert (exists C r, In (j, (C, r)) cf /\ cg n m j = Ret C /\ irr j = Ret r) as (C & r & I & EC & Er).
    { clear - Hcf H. induction Hcf as [|p q js0 cf0 Q _ IH]; cbn in H; [contradiction|]. destruct H as [->|H].
      - destruct Q as (C & r & EC & Er & ->). exists C, r; split; [left; reflexivity|]; auto.
      - destruct (IH H) as (C & r & I & K). exists C, r; split; [right; exact I|exact K]. }
    exists C, r; split; [|auto]. unfold lookup. rewrite (last_of_nodup cf j (C, r)); [reflexivity| |exact I].
    rewrite Fcf; exact Njs. }
  eexists; split; [reflexivity|]; split; [reflexivity|]; split; [reflexivity|].
  intros b Eb; injection Eb as <-; split; [reflexivity|]; split; [reflexivity|]. constructor; cbn [b_js b_dim b_dimh b_harm b_in b_out b_attrs b_attr].
  - exact Njs.
  - intros j H; apply keep_js_in in H; tauto.
  - rewrite (sum_dict dh) by (rewrite Efst; exact Nt). rewrite Efst. fold dimh. symmetry. apply sum_same_ids; assumption.
  - intros j H. unfold dimh, get_or. rewrite (proj2 (last_of_none dh j)); [reflexivity|]. rewrite Efst, <- Hjs; exact H.
  - (* steerability *)
    intros j idx H Li g x Mg.
    destruct (Hj j H) as (c & r & Il & Oj & Er & Ec & Pc & Ed & Pm).
    destruct (Hlk j H) as (C & r' & Elk & EC & Er'). rewrite Er in Er'; injection Er' as <-.
    destruct (kd_cg _ _ _ _ _ KD m n l j c rm rn r Hm Hn El Il Em En Er) as (C' & EC' & D0 & D1 & D2 & D3 & HI).
    rewrite EC in EC'; injection EC' as <-.
    destruct (kd_irr _ _ _ _ _ KD j Oj) as (r' & Er' & Sr & Ss & Le & Rr). rewrite Er in Er'; injection Er' as <-.
    destruct (Rm g Mg) as (B & EB & OB & _). destruct (Rn g Mg) as (A0 & EA & OA & _).
    destruct (SF j) as (r' & Er' & HY); [apply keep_js_in in H; tauto|]. rewrite Er in Er'; injection Er' as <-.
    destruct (HY g x Mg) as (Y & Y' & D & EY & EY' & ED & HD).
    destruct (Rr g Mg) as (D' & ED' & OD & CD). rewrite ED in ED'; injection ED' as <-.
    set (mu := multiplicity F j) in *. set (i := (idx mod mu)%nat). set (s := ((idx / mu) mod (a_d2 C))%nat).
    set (k := (idx / (mu * a_d2 C))%nat).
    assert (i < mu)%nat as Hi by (apply Nat.mod_upper_bound; lia).
    assert (s < a_d2 C)%nat as Hs by (apply Nat.mod_upper_bound; lia).
    assert (k < length (gi_endo r))%nat as Hk.
    { unfold k. apply Nat.div_lt_upper_bound; [rewrite D2; intros Q; apply Nat.mul_eq_0 in Q; lia|].
      rewrite Le, D2, <- Ed. exact Li. }
    do 6 eexists. split; [reflexivity|].
    split; [rewrite EY; cbn [bind]; rewrite Elk; cbn [bind fst snd]; unfold we_harm; rewrite D0, D1, Le, !Nat.eqb_refl; reflexivity|].
    split; [rewrite EY'; cbn [bind]; rewrite Elk; cbn [bind fst snd]; unfold we_harm; rewrite D0, D1, Le, !Nat.eqb_refl; reflexivity|].
    split; [exact EA|]; split; [exact EB|]; split; [apply orthogonal_inverse; exact OB|].
    set (E := nth k (gi_endo r) mzero).
    assert (forall Z : nat -> nat -> R, forall p q, sumn (gi_size r) (fun m0 => we_coeff C r k s p q m0 * Z i m0) =
              sumn (gi_size r) (fun i' => a_at C p q s i' * mv (gi_size r) (mtr E) (Z i) i')) as Hre.
    { intros Z p q. unfold we_coeff, mv, mtr.
      rewrite (sumn_ext (gi_size r) _ (fun m0 => sumn (gi_size r) (fun i' => a_at C p q s i' * (E m0 i' * Z i m0)))).
      - rewrite sumn_swap. apply sumn_ext; intros; apply sumn_scal_l.
      - intros; rewrite <- sumn_scal_r; apply sumn_ext; intros; unfold E; ring. }
    intros p q Lp Lq.
    etransitivity; [apply Hre|].
    etransitivity; [apply (core_steer (gi_size rn) (gi_size rm) (gi_size r) C s A0 B D (mv (gi_size r) (mtr E) (Y i))); try assumption|].
    + apply (HI g); assumption.
    + apply endo_vec; [exact OD|apply endo_nth; assumption|]. intros o Lo; apply (HD i o Hi Lo).
    + apply sumn_ext; intros y Ly; f_equal. apply sumn_ext; intros z Lz; f_equal. symmetry; apply Hre.
  - (* attributes *)
    intros HF j. destruct (in_dec (list_eq_dec Z.eq_dec) j js) as [H|H].
    2:{ assert (dimh j = 0)%nat as Zd.
        { unfold dimh, get_or. rewrite (proj2 (last_of_none dh j)); [reflexivity|]. rewrite Efst, <- Hjs; exact H. }
        rewrite Zd; cbn. exists []; split; [reflexivity|]; split; [reflexivity|]. intros i Hi; lia. }
    destruct (Hj j H) as (c & r & Il & Oj & Er & Ec & Pc & Ed & Pm).
    destruct (kd_irr _ _ _ _ _ KD j Oj) as (r' & Er' & Sr & Ss & Le & _). rewrite Er in Er'; injection Er' as <-.
    assert (dimh j <> 0)%nat as Nz.
    { rewrite Ed. intros Q. apply Nat.mul_eq_0 in Q. destruct Q as [Q|Q]; [apply Nat.mul_eq_0 in Q|]; lia. }
    rewrite (proj2 (Nat.eqb_neq _ _) Nz).
    destruct (start_some dimh js j H) as (st & Est & _). rewrite Est; cbn [bind].
    destruct (HF j) as (la & Ela & Lla & Hla); [apply keep_js_in in H; tauto|].
    rewrite Ela, Er; cbn [bind]. rewrite Ec. set (mu := multiplicity F j) in *.
    assert (forall s b, In b (seq 0 s) -> True) as _ by auto.
    assert (forall k s, length (map (fun ia : nat * A => (k : nat, s : nat, ia)) (enumerate la)) = mu) as L1.
    { intros; rewrite map_length, length_enumerate; exact Lla. }
    assert (forall k, length (flat_map (fun s => map (fun ia : nat * A => (k : nat, s, ia)) (enumerate la)) (seq 0 c)) = (c * mu)%nat) as L2.
    { intros k. rewrite (length_flat _ mu); [rewrite seq_length; reflexivity|]. intros; apply L1. }
    eexists; split; [reflexivity|]; split.
    { rewrite map_length, length_enumerate, (length_flat _ (c * mu)%nat) by (intros; apply L2).
      rewrite seq_length, Ed. fold mu. lia. }
    intros idx Li. rewrite (proj2 (Nat.ltb_lt _ _) Li); cbn [assert_ bind].
    assert (idx mod mu < mu)%nat as Hi by (apply Nat.mod_upper_bound; lia).
    destruct (Hla _ Hi) as (a & Ea & Na). rewrite Ea; cbn [bind].
    eexists; split; [reflexivity|].
    destruct (mod_div_swap idx mu c) as [M1 M2]; [lia|lia|].
    assert (idx < gi_sosc r * (c * mu))%nat as Li' by (rewrite Ed in Li; fold mu in Li; lia).
    assert (idx mod (c * mu) < c * mu)%nat as Lm by (apply Nat.mod_upper_bound; intros Q; apply Nat.mul_eq_0 in Q; lia).
    match goal with |- nth_error (map ?f (enumerate ?els)) idx = _ =>
      assert (nth_error els idx = Some ((idx / (mu * c))%nat, ((idx / mu) mod c)%nat, ((idx mod mu)%nat, a))) as Ne end.
    { rewrite (nth_error_flat_seq _ (c * mu)%nat) by (first [intros; apply L2|exact Li']).
      rewrite (nth_error_flat_seq _ mu) by (first [intros; apply L1|exact Lm]).
      rewrite M1, M2, (Nat.mul_comm c mu).
      rewrite (map_nth_error' _ _ _ ((idx mod mu)%nat, a)); [reflexivity|]. apply nth_enumerate; exact Na. }
    rewrite (map_nth_error' _ _ _ _ (nth_enumerate _ _ _ Ne)). reflexivity.
Qed.
End WE.
