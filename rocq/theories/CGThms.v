(** The tensor product decompositions of C_N and SO(2). *)
From Coq Require Import Reals ZArith Bool List Lia Lra Setoid Morphisms.
From Verif Require Import LibRes LibMat LibTrig SpecGroup FinGroupModel SpecFinGroup FinGroupProofs
  ParamModel ParamProofs PlanarModel SpecPlanar PlanarProofs IrrepModel SpecRep SpecIrrep IrrepProofs
  CGProofs.
Import ListNotations.
Open Scope R_scope.

(** cos and sin of sums and differences of frequencies *)
Lemma trig_add : forall m n t, cos (IZR (m + n) * t) = cos (IZR m * t) * cos (IZR n * t) - sin (IZR m * t) * sin (IZR n * t)
  /\ sin (IZR (m + n) * t) = sin (IZR m * t) * cos (IZR n * t) + cos (IZR m * t) * sin (IZR n * t).
Proof. intros; rewrite plus_IZR, Rmult_plus_distr_r; split; [apply cos_plus|apply sin_plus]. Qed.
Lemma trig_sub : forall m n t, cos (IZR (m - n) * t) = cos (IZR m * t) * cos (IZR n * t) + sin (IZR m * t) * sin (IZR n * t)
  /\ sin (IZR (m - n) * t) = sin (IZR m * t) * cos (IZR n * t) - cos (IZR m * t) * sin (IZR n * t).
Proof. intros; rewrite minus_IZR, Rmult_minus_distr_r; split; [apply cos_minus|apply sin_minus]. Qed.
Lemma trig_compl : forall N k r, (0 < N)%Z ->
  cos (IZR (N - k) * ang N r) = cos (IZR k * ang N r) /\ sin (IZR (N - k) * ang N r) = - sin (IZR k * ang N r).
Proof.
  intros N k r HN; rewrite minus_IZR, Rmult_minus_distr_r.
  assert (E : same_angle (IZR N * ang N r - IZR k * ang N r) (- (IZR k * ang N r))).
  { exists r; unfold ang; field; pose proof (IZR_pos N HN); lra. }
  rewrite E, cos_neg, sin_neg; split; reflexivity.
Qed.

Lemma rdim_so2 : forall k, rdim SO2 k = if (k =? 0)%Z then 1%nat else 2%nat.
Proof. intros k; unfold rdim; cbn [irrep_kind]; destruct (k =? 0)%Z; reflexivity. Qed.

Lemma finish_total : forall sj c, sj = 1%nat \/ sj = 2%nat -> exists a, cg_finish 2 2 sj c = Ret a /\ a_d2 a = (2 / sj)%nat.
Proof. intros sj c [-> | ->]; eexists; (split; [reflexivity|reflexivity]). Qed.
Lemma reshape_l_total : forall s E, s = 1%nat \/ s = 2%nat -> exists a, reshape4 s s E 1 s 1 s = Ret a /\ a_d2 a = 1%nat.
Proof. intros s c [-> | ->]; eexists; (split; [reflexivity|reflexivity]). Qed.
Lemma reshape_r_total : forall s E, s = 1%nat \/ s = 2%nat -> exists a, reshape4 s s E s 1 1 s = Ret a /\ a_d2 a = 1%nat.
Proof. intros s c [-> | ->]; eexists; (split; [reflexivity|reflexivity]). Qed.

Ltac zb := repeat match goal with
  | |- context [(?a =? ?b)%Z] => destruct (Z.eqb_spec a b); try lia
  end; cbn [orb andb].

Lemma so2_sizes : forall k, (0 <= k)%Z -> exists r, so2_irrep k = Ret r /\ ir_size r = rdim SO2 k.
Proof.
  intros k Hk; destruct (p_irrep_kind SO2 [k] I Hk) as (r & E & _ & _ & Es & _).
  exists r; split; [exact E|exact Es].
Qed.

(** coefficients, their multiplicity, and which of the two families they are *)
Lemma so2_core : forall m n j, (0 <= m)%Z -> (0 <= n)%Z -> (0 <= j)%Z -> exists a,
  so2_cg m n j = Ret a /\ cg_right (fun _ => True) (rdim SO2 m) (rdim SO2 n) (rdim SO2 j) m n j a /\
  a_d2 a = listed j (so2_tensor_irreps m n) /\
  (a_d2 a = 0%nat \/
   (j = m + n /\ ((m = 0 \/ n = 0) \/ exists cj, cg_finish 2 2 (rdim SO2 j) (cg_cols 2 cj) = Ret a))%Z \/
   (j = Z.abs (m - n) /\ ~ (m = 0 \/ n = 0) /\ exists cj, cg_finish 2 2 (rdim SO2 j) (cg_cols 0 cj) = Ret a)%Z).
Proof.
  intros m n j Hm Hn Hj; unfold so2_cg.
  destruct (so2_sizes m Hm) as (rm & -> & Sm), (so2_sizes n Hn) as (rn & -> & Sn), (so2_sizes j Hj) as (rj & -> & Sj).
  cbn [bind]; rewrite Sm, Sn, Sj; unfold so2_tensor_irreps.
  destruct (Z.eqb_spec m 0) as [-> | Nm]; [|destruct (Z.eqb_spec n 0) as [-> | Nn]]; cbn [orb].
  - replace (0 + n)%Z with n by ring; rewrite (rdim_so2 0); cbn [Z.eqb].
    destruct (Z.eqb_spec j n) as [-> | Nj].
    + destruct (reshape_l_total (rdim SO2 n) mid (rdim_cases SO2 n)) as (a & Ea & Ed).
      exists a; split; [exact Ea|split; [|split]].
      * refine (sign_left _ _ _ _ _ _ _ (rdim_cases SO2 n) _ Ea); left; split; [reflexivity|]; intros t _ _.
        rewrite Rmult_0_l, cos_0; split; intros; ring.
      * rewrite Ed; unfold listed; cbn [filter fst map snd]; rewrite Z.eqb_refl; reflexivity.
      * right; left; auto.
    + exists (zeros4 1 (rdim SO2 n) (rdim SO2 j)); split; [reflexivity|split; [apply zeros_right|]].
      split; [|left; reflexivity]; unfold listed; cbn [filter fst map snd].
      destruct (Z.eqb_spec n j); [congruence|reflexivity].
  - replace (m + 0)%Z with m by ring; rewrite (rdim_so2 0); cbn [Z.eqb].
    destruct (Z.eqb_spec j m) as [-> | Nj].
    + destruct (reshape_r_total (rdim SO2 m) mid (rdim_cases SO2 m)) as (a & Ea & Ed).
      exists a; split; [exact Ea|split; [|split]].
      * refine (sign_right _ _ _ _ _ _ _ (rdim_cases SO2 m) _ Ea); left; split; [reflexivity|]; intros t _ _.
        rewrite Rmult_0_l, cos_0; split; intros; ring.
      * rewrite Ed; unfold listed; cbn [filter fst map snd]; rewrite Z.eqb_refl; reflexivity.
      * right; left; auto.
    + exists (zeros4 (rdim SO2 m) 1 (rdim SO2 j)); split; [reflexivity|split; [apply zeros_right|]].
      split; [|left; reflexivity]; unfold listed; cbn [filter fst map snd].
      destruct (Z.eqb_spec m j); [congruence|reflexivity].
  - assert (E2 : rdim SO2 m = 2%nat /\ rdim SO2 n = 2%nat).
    { rewrite !rdim_so2; destruct (Z.eqb_spec m 0), (Z.eqb_spec n 0); try contradiction; split; reflexivity. }
    destruct E2 as [-> ->].
    assert (Lst : listed j (if (n =? m)%Z then [([0%Z], 2%nat); ([(n + m)%Z], 1%nat)]
      else [([Z.abs (n - m)], 1%nat); ([(n + m)%Z], 1%nat)]) =
      if (j =? m + n)%Z then 1%nat else if (j =? m - n)%Z || (j =? n - m)%Z then
      (2 / rdim SO2 j)%nat else 0%nat).
    { rewrite rdim_so2; destruct (Z.eqb_spec n m) as [-> |]; unfold listed; cbn [filter fst].
      - replace (m - m)%Z with 0%Z by ring; zb; reflexivity.
      - zb; reflexivity. }
    rewrite Lst; clear Lst.
    destruct (Z.eqb_spec j (m + n)) as [Ej|N1]; [|destruct (Z.eqb_spec j (m - n)) as [Ej|N2];
      [|destruct (Z.eqb_spec j (n - m)) as [Ej|N3]]]; cbn [orb].
    + destruct (finish_total (rdim SO2 j) (cg_cols 2 false) (rdim_cases SO2 j)) as (a & Ea & Ed).
      exists a; split; [exact Ea|split; [|split]].
      * refine (pair_right _ _ _ _ _ _ _ _ (rdim_cases SO2 j) (or_intror eq_refl) _ Ea).
        intros t _; subst j; destruct (trig_add m n t) as [-> ->]; cbn; split; ring.
      * rewrite Ed, rdim_so2; destruct (Z.eqb_spec j 0); [lia|reflexivity].
      * right; left; split; [exact Ej|right; exists false; exact Ea].
    + destruct (finish_total (rdim SO2 j) (cg_cols 0 false) (rdim_cases SO2 j)) as (a & Ea & Ed).
      exists a; split; [exact Ea|split; [|split; [exact Ed|]]].
      * refine (pair_right _ _ _ _ _ _ _ _ (rdim_cases SO2 j) (or_introl eq_refl) _ Ea).
        intros t _; subst j; destruct (trig_sub m n t) as [-> ->]; cbn; split; ring.
      * right; right; split; [lia|split; [lia|exists false; exact Ea]].
    + destruct (finish_total (rdim SO2 j) (cg_cols 0 true) (rdim_cases SO2 j)) as (a & Ea & Ed).
      exists a; split; [exact Ea|split; [|split; [exact Ed|]]].
      * refine (pair_right _ _ _ _ _ _ _ _ (rdim_cases SO2 j) (or_introl eq_refl) _ Ea).
        intros t _; subst j; destruct (trig_sub n m t) as [-> ->]; cbn; split; ring.
      * right; right; split; [lia|split; [lia|exists true; exact Ea]].
    + exists (zeros4 2 2 (rdim SO2 j)); split; [reflexivity|split; [apply zeros_right|]].
      split; [reflexivity|left; reflexivity].
Qed.

(** From the core of a group to the full statement. *)
Lemma assemble : forall G (T : R -> Prop) (cg : Z -> Z -> Z -> res arr4) tp m n,
  pvalid G -> is_rot G -> (forall g, pmember G g -> T (th G g)) ->
  irrep_ok G [m] -> irrep_ok G [n] ->
  Forall (fun p => irrep_ok G (fst p) /\ (0 < snd p)%nat) (tp m n) -> NoDup (map fst (tp m n)) ->
  list_sum (map (fun p => snd p * kdim (irrep_kind G (fst p)))%nat (tp m n)) = (rdim G m * rdim G n)%nat ->
  (forall j, irrep_ok G [j] -> exists a, cg m n j = Ret a /\
     cg_right T (rdim G m) (rdim G n) (rdim G j) m n j a /\ a_d2 a = listed j (tp m n)) ->
  (forall j j' a b, j <> j' -> irrep_ok G [j] -> irrep_ok G [j'] ->
      cg m n j = Ret a -> cg m n j' = Ret b -> cg_separated a b) ->
  exists rm rn,
    p_irrep G [m] = Ret rm /\ p_irrep G [n] = Ret rn /\
    Forall (fun p => irrep_ok G (fst p) /\ (0 < snd p)%nat) (tp m n) /\ NoDup (map fst (tp m n)) /\
    (exists ds, mapM (fun p => r <- p_irrep G (fst p) ;; Ret (snd p * ir_size r)%nat) (tp m n) = Ret ds /\
                list_sum ds = (ir_size rm * ir_size rn)%nat) /\
    (forall j, irrep_ok G [j] -> exists rj a,
      p_irrep G [j] = Ret rj /\ cg m n j = Ret a /\
      a_d0 a = ir_size rm /\ a_d1 a = ir_size rn /\ a_d3 a = ir_size rj /\
      a_d2 a = listed j (tp m n) /\ cg_orthonormal a /\
      forall g, pmember G g -> exists A B D,
        ir_rep rm g = Ret (ir_size rm, A) /\ ir_rep rn g = Ret (ir_size rn, B) /\
        ir_rep rj g = Ret (ir_size rj, D) /\ cg_intertwines a A B D) /\
    (forall j j' a b, j <> j' -> irrep_ok G [j] -> irrep_ok G [j'] ->
      cg m n j = Ret a -> cg m n j' = Ret b -> cg_separated a b).
Proof.
  intros G T cg tp m n HG HR HT Om On F ND Sum Core Sep.
  destruct (p_irrep_kind G [m] HG Om) as (rm & Em & Am), (p_irrep_kind G [n] HG On) as (rn & En & An).
  exists rm, rn; do 2 (split; [assumption|]); do 2 (split; [assumption|]).
  assert (Sm : ir_size rm = rdim G m) by apply Am; assert (Sn : ir_size rn = rdim G n) by apply An.
  split; [|split; [|exact Sep]].
  - exists (map (fun p => snd p * kdim (irrep_kind G (fst p)))%nat (tp m n)); split; [|rewrite Sm, Sn; exact Sum].
    apply mapM_Ret_map; intros p Hp; rewrite Forall_forall in F; destruct (F p Hp) as [Op _].
    destruct (p_irrep_kind G (fst p) HG Op) as (r & Er & _ & _ & Es & _); rewrite Er; cbn [bind]; rewrite Es; reflexivity.
  - intros j Oj; destruct (p_irrep_kind G [j] HG Oj) as (rj & Ej & Aj), (Core j Oj) as (a & Ea & (D0 & D1 & D3 & On1 & Int) & D2).
    assert (Sj : ir_size rj = rdim G j) by apply Aj.
    exists rj, a; rewrite Sm, Sn, Sj; do 7 (split; [assumption|]).
    intros g Hg.
    destruct (irrep_shape G m rm g HG HR Am (proj1 Am) Hg) as (A & EA & HA).
    destruct (irrep_shape G n rn g HG HR An (proj1 An) Hg) as (B & EB & HB).
    destruct (irrep_shape G j rj g HG HR Aj (proj1 Aj) Hg) as (D & ED & HD).
    rewrite Sm in *; rewrite Sn in *; rewrite Sj in *.
    exists A, B, D; do 3 (split; [assumption|]); exact (Int (th G g) A B D (HT g Hg) HA HB HD).
Qed.

Theorem so2_cg_correct : cg_correct SO2 so2_cg so2_tensor_irreps.
Proof.
  intros m n Om On.
  apply (assemble SO2 (fun _ => True)); auto.
  - exact I.
  - exact I.
  - cbn [irrep_ok] in *; unfold so2_tensor_irreps; zb; repeat constructor; cbn; try lia.
  - cbn [irrep_ok] in *; unfold so2_tensor_irreps; zb; repeat constructor; cbn; intros H; repeat destruct H as [H|H]; try injection H; try lia; contradiction.
  - cbn [irrep_ok] in *; rewrite !rdim_so2; unfold so2_tensor_irreps; zb;
      cbn [map fst snd irrep_kind list_sum fold_right]; zb; reflexivity.
  - intros j Oj; destruct (so2_core m n j Om On Oj) as (a & E & R & L & _); eauto.
  - intros j j' a b Hne Oj Oj' Ea Eb.
    destruct (so2_core m n j Om On Oj) as (a' & Ea' & _ & _ & Fa); rewrite Ea in Ea'; apply Ret_inj in Ea'; subst a'.
    destruct (so2_core m n j' Om On Oj') as (b' & Eb' & _ & _ & Fb); rewrite Eb in Eb'; apply Ret_inj in Eb'; subst b'.
    destruct Fa as [Z|Fa]; [apply zeros_sep; auto|]; destruct Fb as [Z|Fb]; [apply zeros_sep; auto|].
    destruct Fa as [[-> Fa]|[-> [N1 [c1 Fa]]]], Fb as [[-> Fb]|[-> [N2 [c2 Fb]]]]; try congruence.
    + destruct Fa as [Fa|[c1 Fa]]; [contradiction|].
      exact (proj1 (pair_sep _ _ _ _ _ _ (rdim_cases SO2 _) (rdim_cases SO2 _) Fa Fb)).
    + destruct Fb as [Fb|[c2 Fb]]; [contradiction|].
      exact (proj2 (pair_sep _ _ _ _ _ _ (rdim_cases SO2 _) (rdim_cases SO2 _) Fb Fa)).
Qed.

(** ** C_N *)

Notation CN N := (Fin (Cyc N)).

Lemma rdim_cn : forall N k, rdim (CN N) k = if (k =? 0)%Z || (2 * k =? N)%Z then 1%nat else 2%nat.
Proof. intros N k; unfold rdim; cbn [irrep_kind]; destruct (_ || _); reflexivity. Qed.

Lemma cn_sizes : forall N k, (0 < N)%Z -> (0 <= 2 * k <= N)%Z ->
  exists r, cn_irrep N k = Ret r /\ ir_size r = rdim (CN N) k.
Proof.
  intros N k HN Hk; destruct (p_irrep_kind (CN N) [k]) as (r & E & _ & _ & Es & _).
  - apply Z.ltb_lt; exact HN.
  - exact Hk.
  - exists r; split; [exact E|exact Es].
Qed.

Definition plusf (N m n : Z) : Z := if (m + n <=? N / 2)%Z then (m + n)%Z else (N - m - n)%Z.

Lemma plusf_trig : forall N m n r, (0 < N)%Z -> exists s, (s = 1 \/ s = -1) /\
  cos (IZR (plusf N m n) * ang N r) = cos (IZR (m + n) * ang N r) /\
  sin (IZR (plusf N m n) * ang N r) = s * sin (IZR (m + n) * ang N r) /\
  s = if (m + n <=? N / 2)%Z then 1 else -1.
Proof.
  intros N m n r HN; unfold plusf; destruct (m + n <=? N / 2)%Z.
  - exists 1; rewrite Rmult_1_l; auto.
  - exists (-1); replace (N - m - n)%Z with (N - (m + n))%Z by ring.
    destruct (trig_compl N (m + n) r HN) as [-> ->]; repeat split; auto; ring.
Qed.

Lemma cyc_core : forall N m n j, (0 < N)%Z -> (0 <= 2 * m <= N)%Z -> (0 <= 2 * n <= N)%Z ->
  (0 <= 2 * j <= N)%Z -> exists a,
  cn_cg N m n j = Ret a /\
  cg_right (fun t => exists r, t = ang N r) (rdim (CN N) m) (rdim (CN N) n) (rdim (CN N) j) m n j a /\
  a_d2 a = listed j (cn_tensor_irreps N m n) /\
  (a_d2 a = 0%nat \/
   (j = plusf N m n /\ ((rdim (CN N) m = 1 \/ rdim (CN N) n = 1)%nat \/
      exists cj, cg_finish 2 2 (rdim (CN N) j) (cg_cols 2 cj) = Ret a)) \/
   (j = Z.abs (m - n) /\ ~ (rdim (CN N) m = 1 \/ rdim (CN N) n = 1)%nat /\
      exists cj, cg_finish 2 2 (rdim (CN N) j) (cg_cols 0 cj) = Ret a)).
Proof.
  intros N m n j HN Hm Hn Hj; unfold cn_cg.
  destruct (cn_sizes N m HN Hm) as (rm & -> & Sm), (cn_sizes N n HN Hn) as (rn & -> & Sn),
    (cn_sizes N j HN Hj) as (rj & -> & Sj).
  cbn [bind]; rewrite Sm, Sn, Sj; unfold cn_tensor_irreps.
  assert (Half : (N mod 2 =? 0)%Z && ((m =? N / 2)%Z || (n =? N / 2)%Z) = (2 * m =? N)%Z || (2 * n =? N)%Z)
    by (rewrite andb_orb_distrib_r, !half_eq; reflexivity).
  rewrite Half; clear Half.
  assert (Pl : (if (m + n <=? N / 2)%Z then (m + n)%Z else (N - m - n)%Z) = plusf N m n) by reflexivity.
  rewrite Pl; clear Pl; pose proof (half_le N (m + n)) as HL.
  assert (HP : forall x, (x = m + n \/ x = N - m - n)%Z -> (0 <= 2 * x <= N)%Z -> x = plusf N m n).
  { intros x Hx Hb; unfold plusf; destruct (Z.leb_spec (m + n) (N / 2)); lia. }
  destruct (Z.eqb_spec m 0) as [-> | Nm]; [|destruct (Z.eqb_spec n 0) as [-> | Nn]]; cbn [orb].
  - rewrite (rdim_cn N 0); cbn [Z.eqb orb].
    replace (n + 0)%Z with n by ring; replace (0 + n)%Z with n in * by ring.
    destruct (Z.eqb_spec j n) as [-> | Nj].
    + destruct (reshape_l_total (rdim (CN N) n) mid (rdim_cases _ n)) as (a & Ea & Ed).
      exists a; split; [exact Ea|split; [|split]].
      * refine (sign_left _ _ _ _ _ _ _ (rdim_cases _ n) _ Ea); left; split; [reflexivity|]; intros t _ _.
        rewrite Rmult_0_l, cos_0; split; intros; ring.
      * rewrite Ed; unfold listed; cbn [filter fst map snd]; rewrite Z.eqb_refl; reflexivity.
      * right; left; split; [apply HP; lia|auto].
    + exists (zeros4 1 (rdim (CN N) n) (rdim (CN N) j)); split; [reflexivity|split; [apply zeros_right|]].
      split; [|left; reflexivity]; unfold listed; cbn [filter fst map snd].
      destruct (Z.eqb_spec n j); [congruence|reflexivity].
  - rewrite (rdim_cn N 0); cbn [Z.eqb orb].
    replace (0 + m)%Z with m by ring; replace (m + 0)%Z with m in * by ring.
    destruct (Z.eqb_spec j m) as [-> | Nj].
    + destruct (reshape_r_total (rdim (CN N) m) mid (rdim_cases _ m)) as (a & Ea & Ed).
      exists a; split; [exact Ea|split; [|split]].
      * refine (sign_right _ _ _ _ _ _ _ (rdim_cases _ m) _ Ea); left; split; [reflexivity|]; intros t _ _.
        rewrite Rmult_0_l, cos_0; split; intros; ring.
      * rewrite Ed; unfold listed; cbn [filter fst map snd]; rewrite Z.eqb_refl; reflexivity.
      * right; left; split; [apply HP; lia|auto].
    + exists (zeros4 (rdim (CN N) m) 1 (rdim (CN N) j)); split; [reflexivity|split; [apply zeros_right|]].
      split; [|left; reflexivity]; unfold listed; cbn [filter fst map snd].
      destruct (Z.eqb_spec m j); [congruence|reflexivity].
  - destruct (orb (2 * m =? N)%Z (2 * n =? N)%Z) eqn:EH.
    + (* one of the factors is the sign irrep *)
      assert (Hx : (2 * m = N \/ 2 * n = N)%Z).
      { apply orb_true_iff in EH as [E|E]; apply Z.eqb_eq in E; auto. }
      assert (EP : plusf N m n = (N - m - n)%Z).
      { unfold plusf; destruct (Z.leb_spec (m + n) (N / 2)); lia. }
      rewrite EP; unfold listed; cbn [filter fst map snd].
      rewrite (Z.eqb_sym (N - m - n) j).
      destruct (Z.eqb_spec j (m + n)) as [E|_]; [lia|].
      destruct (Z.eqb_spec j (N - m - n)) as [Ej|Nj].
      2:{ exists (zeros4 (rdim (CN N) m) (rdim (CN N) n) (rdim (CN N) j));
          split; [reflexivity|split; [apply zeros_right|split; [reflexivity|left; reflexivity]]]. }
      assert (D1 : (rdim (CN N) m = 1 \/ rdim (CN N) n = 1)%nat).
      { rewrite !rdim_cn; destruct Hx as [Hx|Hx]; [left|right];
        apply Z.eqb_eq in Hx; rewrite Hx, orb_true_r; reflexivity. }
      assert (Ctr : forall r, cos (IZR j * ang N r) = cos (IZR m * ang N r) * cos (IZR n * ang N r)
          - sin (IZR m * ang N r) * sin (IZR n * ang N r) /\
        sin (IZR j * ang N r) = - (sin (IZR m * ang N r) * cos (IZR n * ang N r)
          + cos (IZR m * ang N r) * sin (IZR n * ang N r))).
      { intros r; subst j; replace (N - m - n)%Z with (N - (m + n))%Z by ring.
        destruct (trig_compl N (m + n) r HN) as [-> ->], (trig_add m n (ang N r)) as [-> ->]; split; reflexivity. }
      destruct (Z.eq_dec (2 * m) N) as [Em|Nm2].
      * assert (Rm : rdim (CN N) m = 1%nat) by (rewrite rdim_cn; apply Z.eqb_eq in Em; rewrite Em, orb_true_r; reflexivity).
        assert (Rj : rdim (CN N) j = rdim (CN N) n) by (rewrite !rdim_cn; zb; reflexivity).
        rewrite Rm, Rj.
        destruct (reshape_l_total (rdim (CN N) n) (if (1 <? rdim (CN N) n)%nat then eye_conj else mid) (rdim_cases _ n)) as (a & Ea & Ed).
        exists a; split; [exact Ea|split; [|split]].
        -- refine (sign_left _ _ _ _ _ _ _ (rdim_cases _ n) _ Ea).
           destruct (rdim_cases (CN N) n) as [E|E]; rewrite E; cbn [Nat.ltb Nat.leb]; [left|right].
           ++ split; [reflexivity|]; intros t (r & ->) Hs; destruct (Ctr r) as [-> _]; rewrite Hs; split; [ring|discriminate].
           ++ split; [reflexivity|split; [reflexivity|]]; intros t (r & ->) Hs; destruct (Ctr r) as [-> ->]; rewrite Hs; split; ring.
        -- exact Ed.
        -- right; left; split; [exact Ej|left; auto].
      * assert (En : (2 * n = N)%Z) by lia.
        assert (Rm : rdim (CN N) n = 1%nat) by (rewrite rdim_cn; apply Z.eqb_eq in En; rewrite En, orb_true_r; reflexivity).
        assert (Rj : rdim (CN N) j = rdim (CN N) m) by (rewrite !rdim_cn; zb; reflexivity).
        rewrite Rm, Rj.
        destruct (reshape_r_total (rdim (CN N) m) (if (1 <? rdim (CN N) m)%nat then eye_conj else mid) (rdim_cases _ m)) as (a & Ea & Ed).
        exists a; split; [exact Ea|split; [|split]].
        -- refine (sign_right _ _ _ _ _ _ _ (rdim_cases _ m) _ Ea).
           destruct (rdim_cases (CN N) m) as [E|E]; rewrite E; cbn [Nat.ltb Nat.leb]; [left|right].
           ++ split; [reflexivity|]; intros t (r & ->) Hs; destruct (Ctr r) as [-> _]; rewrite Hs; split; [ring|discriminate].
           ++ split; [reflexivity|split; [reflexivity|]]; intros t (r & ->) Hs; destruct (Ctr r) as [-> ->]; rewrite Hs; split; ring.
        -- exact Ed.
        -- right; left; split; [exact Ej|left; auto].
    + (* two rotations *)
      apply orb_false_iff in EH as [E1 E2]; apply Z.eqb_neq in E1, E2.
      assert (Rd : rdim (CN N) m = 2%nat /\ rdim (CN N) n = 2%nat) by (rewrite !rdim_cn; zb; split; reflexivity).
      destruct Rd as [-> ->].
      assert (Lst : listed j (if (n =? m)%Z then
          [([0%Z], 2%nat); ([plusf N m n], if (2 * plusf N m n <? N)%Z then 1%nat else 2%nat)]
          else [([Z.abs (n - m)], 1%nat); ([plusf N m n], if (2 * plusf N m n <? N)%Z then 1%nat else 2%nat)]) =
        if (j =? plusf N m n)%Z || (j =? m - n)%Z || (j =? n - m)%Z then (2 / rdim (CN N) j)%nat else 0%nat).
      { assert (B : (0 < 2 * plusf N m n <= N)%Z /\ plusf N m n <> Z.abs (n - m)).
        { unfold plusf; destruct (Z.leb_spec (m + n) (N / 2)); lia. }
        set (p := plusf N m n) in *; clearbody p.
        rewrite rdim_cn; destruct (Z.eqb_spec n m); unfold listed; cbn [filter fst];
        destruct (Z.ltb_spec (2 * p) N); zb; reflexivity. }
      rewrite Lst; clear Lst.
      assert (R0 : ~ (2 = 1 \/ 2 = 1)%nat) by lia.
      destruct (Z.eqb_spec j (m + n)) as [Ej|N1]; [|destruct (Z.eqb_spec j (N - m - n)) as [Ej|N2];
        [|destruct (Z.eqb_spec j (m - n)) as [Ej|N3]; [|destruct (Z.eqb_spec j (n - m)) as [Ej|N4]]]].
      * rewrite <- (HP j) by lia; rewrite Z.eqb_refl; cbn [orb].
        destruct (finish_total (rdim (CN N) j) (cg_cols 2 false) (rdim_cases _ j)) as (a & Ea & Ed).
        exists a; split; [exact Ea|split; [|split; [exact Ed|]]].
        -- refine (pair_right _ _ _ _ _ _ _ _ (rdim_cases _ j) (or_intror eq_refl) _ Ea).
           intros t _; subst j; destruct (trig_add m n t) as [-> ->]; cbn; split; ring.
        -- right; left; split; [reflexivity|right; exists false; exact Ea].
      * rewrite <- (HP j) by lia; rewrite Z.eqb_refl; cbn [orb].
        destruct (finish_total (rdim (CN N) j) (cg_cols 2 true) (rdim_cases _ j)) as (a & Ea & Ed).
        exists a; split; [exact Ea|split; [|split; [exact Ed|]]].
        -- refine (pair_right _ _ _ _ _ _ _ _ (rdim_cases _ j) (or_intror eq_refl) _ Ea).
           intros t (r & ->); subst j; replace (N - m - n)%Z with (N - (m + n))%Z by ring.
           destruct (trig_compl N (m + n) r HN) as [-> ->], (trig_add m n (ang N r)) as [-> ->]; cbn; split; ring.
        -- right; left; split; [reflexivity|right; exists true; exact Ea].
      * rewrite orb_true_r; cbn [orb].
        destruct (finish_total (rdim (CN N) j) (cg_cols 0 false) (rdim_cases _ j)) as (a & Ea & Ed).
        exists a; split; [exact Ea|split; [|split; [exact Ed|]]].
        -- refine (pair_right _ _ _ _ _ _ _ _ (rdim_cases _ j) (or_introl eq_refl) _ Ea).
           intros t _; subst j; destruct (trig_sub m n t) as [-> ->]; cbn; split; ring.
        -- right; right; split; [lia|split; [exact R0|exists false; exact Ea]].
      * rewrite !orb_true_r; cbn [orb].
        destruct (finish_total (rdim (CN N) j) (cg_cols 0 true) (rdim_cases _ j)) as (a & Ea & Ed).
        exists a; split; [exact Ea|split; [|split; [exact Ed|]]].
        -- refine (pair_right _ _ _ _ _ _ _ _ (rdim_cases _ j) (or_introl eq_refl) _ Ea).
           intros t _; subst j; destruct (trig_sub n m t) as [-> ->]; cbn; split; ring.
        -- right; right; split; [lia|split; [exact R0|exists true; exact Ea]].
      * exists (zeros4 2 2 (rdim (CN N) j)); split; [reflexivity|split; [apply zeros_right|]].
        split; [|left; reflexivity].
        replace (j =? plusf N m n)%Z with false; [reflexivity|].
        symmetry; apply Z.eqb_neq; unfold plusf; destruct (m + n <=? N / 2)%Z; lia.
Qed.

Theorem cn_cg_correct : forall N, (0 < N)%Z -> cg_correct (CN N) (cn_cg N) (cn_tensor_irreps N).
Proof.
  intros N HN m n Om On.
  assert (TP : forall P : list (list Z * nat) -> Prop,
    ((m = 0 \/ n = 0)%Z -> P [([(n + m)%Z], 1%nat)]) ->
    (m <> 0 -> n <> 0 -> (2 * m = N \/ 2 * n = N) -> P [([(N - m - n)%Z], 1%nat)])%Z ->
    (m <> 0 -> n <> 0 -> 2 * m <> N -> 2 * n <> N -> n = m ->
       forall p, p = m + n \/ p = N - m - n -> 0 < 2 * p <= N ->
       P [([0%Z], 2%nat); ([p], if (2 * p <? N)%Z then 1%nat else 2%nat)])%Z ->
    (m <> 0 -> n <> 0 -> 2 * m <> N -> 2 * n <> N -> n <> m ->
       forall p, p = m + n \/ p = N - m - n -> 0 < 2 * p <= N ->
       P [([Z.abs (n - m)], 1%nat); ([p], if (2 * p <? N)%Z then 1%nat else 2%nat)])%Z ->
    P (cn_tensor_irreps N m n)).
  { intros P P1 P2 P3 P4; unfold cn_tensor_irreps; cbn [irrep_ok] in *.
    rewrite andb_orb_distrib_r, !half_eq; pose proof (half_le N (m + n)).
    destruct (Z.leb_spec (m + n) (N / 2)); zb; try (apply P1; lia);
      try (replace (m + n)%Z with (N - m - n)%Z by lia; apply P2; lia);
      try (apply P2; lia); try (apply P3; lia); try (apply P4; lia). }
  apply (assemble (CN N) (fun t => exists r, t = ang N r)); auto.
  - apply Z.ltb_lt; exact HN.
  - exact I.
  - intros g Hg; unpack; eexists; reflexivity.
  - cbn [irrep_ok] in *; apply TP; intros; try destruct (Z.ltb_spec (2 * p) N); repeat apply Forall_cons; try apply Forall_nil; split; cbn [fst snd]; lia.
  - cbn [irrep_ok] in *; apply TP; intros; repeat constructor; cbn; intros X;
      repeat match goal with H : _ \/ _ |- _ => destruct H end; try contradiction;
      match goal with H : [_] = [_] |- _ => injection H; lia end.
  - cbn [irrep_ok] in *; rewrite !rdim_cn; apply TP; intros; cbn [map fst snd irrep_kind list_sum fold_right];
      try (destruct (Z.ltb_spec (2 * p) N)); zb; reflexivity.
  - intros j Oj; destruct (cyc_core N m n j HN Om On Oj) as (a & E & R & L & _); eauto.
  - intros j j' a b Hne Oj Oj' Ea Eb.
    destruct (cyc_core N m n j HN Om On Oj) as (a' & Ea' & _ & _ & Fa); rewrite Ea in Ea'; apply Ret_inj in Ea'; subst a'.
    destruct (cyc_core N m n j' HN Om On Oj') as (b' & Eb' & _ & _ & Fb); rewrite Eb in Eb'; apply Ret_inj in Eb'; subst b'.
    destruct Fa as [Z|Fa]; [apply zeros_sep; auto|]; destruct Fb as [Z|Fb]; [apply zeros_sep; auto|].
    destruct Fa as [[-> Fa]|[-> [N1 [c1 Fa]]]], Fb as [[-> Fb]|[-> [N2 [c2 Fb]]]]; try congruence.
    + destruct Fa as [Fa|[c1 Fa]]; [contradiction|].
      exact (proj1 (pair_sep _ _ _ _ _ _ (rdim_cases _ _) (rdim_cases _ _) Fa Fb)).
    + destruct Fb as [Fb|[c2 Fb]]; [contradiction|].
      exact (proj2 (pair_sep _ _ _ _ _ _ (rdim_cases _ _) (rdim_cases _ _) Fb Fa)).
Qed.
