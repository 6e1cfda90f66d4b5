(** The columns of an induced representation's change of basis are orthonormal. *)
From Coq Require Import Reals ZArith Bool List Lia Lra Setoid Morphisms Arith Permutation.
From Verif Require Import LibRes LibList LibMat LibMatS LibTrig SpecGroup SpecRep ParamModel IrrepModel
  RepModel SpecRepr RepProofs SpecReg RegModel RegProofs IndModel SpecInd IndProofs SpecDis SpecSchur SchurProofs SchurThms SchurCor SchurFin.
Import ListNotations.
Open Scope R_scope.

Lemma sumn_two : forall A B B' (u : A -> B) (v : A -> B') db db' (f : B -> B' -> R) l,
  sumn (length l) (fun i => f (nth i (map u l) db) (nth i (map v l) db')) = fold_right Rplus 0 (map (fun x => f (u x) (v x)) l).
Proof.
  intros A B B' u v db db' f l; induction l as [|x l IH]; [reflexivity|].
  cbn [length map fold_right]; rewrite sumn_S_first; cbn [nth]; rewrite IH; reflexivity.
Qed.

Section Assemble.
Context {T S : Type}.
Variables (mem : T -> Prop) (op : T -> T -> res T) (inv : T -> res T) (e : T).
Variables (memH : S -> Prop) (opH : S -> S -> res S) (invH : S -> res S) (eH : S).
Variables (incl : S -> res T).
Variable irrH : list Z -> res (girrep S).
Variable restrict : list Z -> res (repr S).
Variable components : nat -> (nat -> nat -> bool) -> nat * (nat -> nat).
Variables (psi : girrep S) (reps : list T).
Hypothesis HG : is_group mem op inv e.
Hypothesis HH : is_group memH opH invH eH.
Hypothesis HI : is_embedding mem op memH opH incl.
Hypothesis Htr : transversal mem op memH incl reps.
Hypothesis Hpsi : orth_rep memH opH invH eH (gi_size psi) (gi_rep psi).
Hypothesis Epsi : irrH (gi_id psi) = Ret psi.
Hypothesis Ppsi : (0 < gi_size psi)%nat.
Hypothesis Dpsi : described memH psi.
Hypothesis Hsz : forall id r h b, irrH id = Ret r -> memH h -> gi_rep r h = Ret b -> fst b = gi_size r.
Hypothesis Hcomp : correct_components components.

Notation s := (gi_size psi).
Notation size := (s * length reps)%nat.

Lemma reps_nonempty : (0 < length reps)%nat.
Proof.
  destruct Htr as (_ & _ & Hu); destruct (Hu e (grp_id _ _ _ _ HG)) as (r & I & _).
  destruct reps; [destruct I|cbn; lia].
Qed.

Definition cdot (f g : nat -> R) : R := sumn size (fun row => f row * g row).

Definition col_c (rho : girrep T) : R := / sqrt (INR (length reps)) * / sqrt (INR s) * sqrt (INR (gi_size rho)).

Definition intertwines (rho : girrep T) (B : mat) : Prop :=
  forall h k A P, memH h -> incl h = Ret k -> gi_rep rho k = Ret (gi_size rho, A) -> gi_rep psi h = Ret (s, P) ->
    meq (gi_size rho) s (mmul (gi_size rho) A B) (mmul s B P).

Definition column (rho : girrep T) (B : mat) (o : nat) : nat -> R := fun row =>
  mmul (gi_size rho) (nth (row / s) (map (val rho) reps) mzero) B o (row mod s)
    / sqrt (INR (length (map (val rho) reps))) / sqrt (INR s) * sqrt (INR (gi_size rho)).

Lemma column_dot : forall rho rho' B B' o o',
  cdot (column rho B o) (column rho' B' o') = col_c rho * col_c rho' * total reps psi rho rho' B B' o o'.
Proof.
  intros rho rho' B B' o o'; unfold cdot; rewrite Nat.mul_comm, sumn_mul; unfold total, term.
  rewrite <- (sumn_two T mat mat (val rho) (val rho') mzero mzero
    (fun A A' => mmul s (mmul (gi_size rho) A B) (mtr (mmul (gi_size rho') A' B')) o o') reps).
  rewrite <- sumn_scal_l; apply sumn_ext; intros i Hi.
  transitivity (sumn s (fun p => col_c rho * col_c rho' *
    (mmul (gi_size rho) (nth i (map (val rho) reps) mzero) B o p * mmul (gi_size rho') (nth i (map (val rho') reps) mzero) B' o' p))).
  2:{ rewrite sumn_scal_l; reflexivity. }
  apply sumn_ext; intros p Hp; unfold column, col_c.
  assert (D : ((i * s + p) / s = i)%nat) by (rewrite Nat.div_add_l by lia; rewrite Nat.div_small by exact Hp; lia).
  assert (M : ((i * s + p) mod s = p)%nat) by (rewrite Nat.add_comm, Nat.mod_add by lia; apply Nat.mod_small; exact Hp).
  rewrite D, M, !map_length; unfold Rdiv; ring.
Qed.

Lemma col_c_sq : forall rho, (0 < gi_size rho)%nat -> col_c rho * col_c rho * (INR (length reps) * INR s / INR (gi_size rho)) = 1.
Proof.
  intros rho Pd; pose proof reps_nonempty as Pk; unfold col_c.
  apply lt_INR in Pd, Pk; assert (Ps := lt_INR _ _ Ppsi); cbn [INR] in Pd, Pk, Ps.
  set (k := INR (length reps)) in *; set (q := INR s) in *; set (d := INR (gi_size rho)) in *.
  assert (A : / sqrt k * / sqrt k = / k) by (rewrite <- Rinv_mult, sqrt_sqrt by lra; reflexivity).
  assert (B : / sqrt q * / sqrt q = / q) by (rewrite <- Rinv_mult, sqrt_sqrt by lra; reflexivity).
  assert (C : sqrt d * sqrt d = d) by (apply sqrt_sqrt; lra).
  transitivity ((/ sqrt k * / sqrt k) * (/ sqrt q * / sqrt q) * (sqrt d * sqrt d) * (k * q / d)); [ring|].
  rewrite A, B, C; field; lra.
Qed.

Definition proper_slice (r : repr S) (x : nat * nat) : Prop :=
  In (snd x) (nonnull psi) /\ occurs memH irrH psi (r_irreps r) (fst x).

Lemma nonnull_lt : forall j, In j (nonnull psi) -> (j < s)%nat.
Proof. intros j H; unfold nonnull in H; apply filter_In in H as [H _]; apply in_seq in H; lia. Qed.

Section Same.
Variables (rho : girrep T) (r : repr S).
Notation d := (gi_size rho).
Hypothesis Prho : (0 < d)%nat.
Hypothesis O : orth_rep mem op inv e d (gi_rep rho).
Hypothesis Drho : described mem rho.
Hypothesis Hres : restriction_of irrH memH incl rho r.
Hypothesis Hclear : clear_restriction rho r.

Notation slice x := (mmul d (r_cob r) (snd (mk psi x))).

Lemma total_same : forall x y, proper_slice r x -> proper_slice r y -> intertwines rho (slice x) -> intertwines rho (slice y) ->
  (x = y \/ (apart psi x y /\ ((1 < gi_sosc rho)%nat -> forall E, In E (gi_endo rho) -> conj_entry rho r E (fst x + snd x) (fst y + snd y) = 0))) ->
  exists t, meq d d (total reps psi rho rho (slice x) (slice y)) (mscal t mid) /\
    (x = y -> t = INR (length reps) * INR s / INR d) /\ (x <> y -> t = 0).
Proof.
  intros x y [Ix Ox] [Iy Oy] Nx Ny Hxy.
  destruct Dpsi as (Spsi & Upsi & _), Drho as (Srho & Urho & Lrho), Hclear as [Ocob _].
  destruct (ub_first _ _ Urho) as (F & Fs & EF & MF); rewrite EF in Srho, Urho, Lrho; cbn [length] in Lrho.
  set (W := total reps psi rho rho (slice x) (slice y)).
  assert (Com : forall g A, mem g -> gi_rep rho g = Ret (d, A) -> meq d d (mmul d A W) (mmul d W A)).
  { intros g A Hg EA; rewrite <- (val_eq rho g A EA).
    exact (total_intertwines mem op inv e memH opH invH eH incl reps HG HH HI Htr psi rho rho _ _ Hpsi O O Nx Ny g Hg). }
  assert (Dot : forall E, In E (F :: Fs) -> dotm d d E W = INR (length reps) * dotm d d E (mmul s (slice x) (mtr (slice y)))).
  { intros E IE; exact (total_dot mem op inv e memH incl reps Htr psi rho rho _ _ O E eq_refl
      (fun g A Hg EA => units_commute T mem d (gi_rep rho) (F :: Fs) E Srho IE g A Hg EA)). }
  assert (Sl : forall E, In E (F :: Fs) -> exists q, (x = y -> q = 1) /\
    dotm d d E (mmul s (slice x) (mtr (slice y))) = q * INR s * conj_entry rho r E (fst x + snd x) (fst y + snd y)).
  { intros E IE; exact (slice_dot mem op memH opH invH eH incl irrH psi HI Hpsi Ppsi Upsi Spsi HH rho r Hres Ocob E
      (fun g A Hg EA => units_commute T mem d (gi_rep rho) (F :: Fs) E Srho IE g A Hg EA) x y Ix Iy Ox Oy). }
  assert (Tail : forall G, In G Fs -> dotm d d G W = 0).
  { intros G IG; rewrite (Dot G (or_intror IG)).
    assert (Z : dotm d d G (mmul s (slice x) (mtr (slice y))) = 0); [|rewrite Z; ring].
    destruct Hxy as [<-|[_ Hc]].
    - pose proof (unit_tail d F Fs G Urho IG) as TG.
      assert (Y : dotm d d G (mmul s (slice x) (mtr (slice x))) = - dotm d d G (mmul s (slice x) (mtr (slice x)))).
      { rewrite dotm_tr at 1; rewrite (dotm_ext d d (mtr G) (mopp G) (mtr (mmul s (slice x) (mtr (slice x)))) (mmul s (slice x) (mtr (slice x)))).
        - unfold dotm, mopp; rewrite <- sumn_opp; apply sumn_ext; intros i _; rewrite <- sumn_opp; apply sumn_ext; intros j _; ring.
        - exact TG.
        - rewrite mul_tr, tr_tr; reflexivity. }
      lra.
    - destruct (Sl G (or_intror IG)) as (q & _ & ->); rewrite Hc; [ring| |rewrite EF; right; exact IG].
      rewrite <- Lrho; destruct Fs; [destruct IG|cbn; lia]. }
  pose proof (commutant_scalar T mem d (gi_rep rho) F Fs W Prho Srho Urho Com Tail) as Main.
  exists (trace d W / INR d); split; [exact Main|].
  assert (Tr : trace d W = dotm d d F W).
  { rewrite (dotm_ext d d F mid W W MF) by reflexivity; unfold dotm, trace; apply sumn_ext; intros i Hi.
    rewrite (sumn_single d i); [|exact Hi|intros j Hj N; unfold mid; destruct (Nat.eqb_spec i j); [congruence|ring]].
    unfold mid; rewrite Nat.eqb_refl; ring. }
  destruct (Sl F (or_introl eq_refl)) as (q & Eq & Dq).
  assert (Cj : conj_entry rho r F (fst x + snd x) (fst y + snd y) = mid (fst x + snd x)%nat (fst y + snd y)%nat).
  { pose proof (occurs_bound memH opH invH eH incl irrH psi Hpsi Ppsi HH rho r Hres _ Ox) as Bx.
    pose proof (occurs_bound memH opH invH eH incl irrH psi Hpsi Ppsi HH rho r Hres _ Oy) as By.
    pose proof (nonnull_lt _ Ix); pose proof (nonnull_lt _ Iy).
    destruct Hres as (Sr & [[_ Ri] _] & _); rewrite Sr in Ri.
    assert (Z : meq d d (mmul d (mmul d (r_inv r) F) (r_cob r)) mid) by (rewrite MF, mid_r; exact Ri).
    unfold conj_entry; apply Z; lia. }
  rewrite Tr, (Dot F (or_introl eq_refl)), Dq, Cj; unfold mid; split.
  - intros E; rewrite (Eq E); rewrite E, Nat.eqb_refl; f_equal; ring.
  - intros N; destruct Hxy as [E|[A _]]; [contradiction|].
    assert (D : (fst x + snd x <> fst y + snd y)%nat).
    { pose proof (nonnull_lt _ Ix); destruct A as [[E1 E2]|L]; lia. }
    apply Nat.eqb_neq in D; rewrite D; unfold Rdiv; ring.
Qed.
End Same.

Definition is_column (rho : girrep T) (f : nat -> R) : Prop :=
  exists B o, f = column rho B o /\ intertwines rho B /\ (o < gi_size rho)%nat.

Lemma vals_map : forall rho l vals, orth_rep mem op inv e (gi_size rho) (gi_rep rho) -> Forall mem l ->
  mapM (fun r => A <- gi_rep rho r ;; Ret (snd A)) l = Ret vals -> vals = map (val rho) l.
Proof.
  intros rho l vals O Hl E; pose proof (mapM_vals mem op inv e rho l vals O Hl E) as F; clear E Hl.
  induction F as [|r A l m E _ IH]; [reflexivity|]; cbn [map]; rewrite (val_eq rho r A E), IH; reflexivity.
Qed.

Definition orthonormal (l : list (nat -> R)) : Prop :=
  Forall (fun f => cdot f f = 1) l /\ ForallOrdPairs (fun f g => cdot f g = 0) l.

Lemma step_columns : forall rho out n, induced_step irrH restrict components psi reps n rho = Ret out ->
  (0 < gi_size rho)%nat -> orth_rep mem op inv e (gi_size rho) (gi_rep rho) -> described mem rho ->
  (forall r, restrict (gi_id rho) = Ret r -> restriction_of irrH memH incl rho r /\ clear_restriction rho r) ->
  Forall (is_column rho) (snd out) /\ orthonormal (snd out).
Proof.
  intros rho out n E Prho O Drho HR; unfold induced_step in E; apply bind_Ret in E as (B & EB & E).
  assert (Hend : endo_commutes memH psi).
  { intros h P E' Hh EP IE; exact (units_commute S memH s (gi_rep psi) (gi_endo psi) E' (proj1 Dpsi) IE h P Hh EP). }
  pose proof (dirac_intertwines memH incl irrH restrict components psi Epsi Hend Ppsi rho B EB (fun r Er => proj1 (HR r Er)) Hsz) as HB.
  unfold dirac_kernel_ft in EB; apply bind_Ret in EB as (r & Er & EB); apply bind_Ret in EB as (sl & Es & EB).
  apply bind_Ret in EB as (sl' & Es' & EB); apply Ret_inj in EB.
  destruct (HR r Er) as [Hres Hclear].
  destruct (slices_shape memH irrH psi Epsi Ppsi Hsz _ _ _ Es) as (l & -> & Fl & Al).
  assert (Pl : forall x, In x l -> proper_slice r x).
  { intros x Ix; destruct (proj1 (Forall_forall _ _) Fl x Ix) as (I & _ & Oc); rewrite Nat.sub_0_r in Oc; split; assumption. }
  assert (Bl : forall x, In x l -> (fst x + snd x < gi_size rho)%nat).
  { intros x Ix; destruct (Pl x Ix) as [I Oc]; pose proof (nonnull_lt _ I).
    pose proof (occurs_bound memH opH invH eH incl irrH psi Hpsi Ppsi HH rho r Hres _ Oc); lia. }
  destruct (select_shape components psi Ppsi Hcomp rho r l sl' Es' Al Hclear Bl) as (l' & -> & Sub & Ap).
  rewrite map_map in EB; subst B.
  assert (Out : snd out = flat_map (fun x => map (column rho (mmul (gi_size rho) (r_cob r) (snd (mk psi x)))) (seq 0 (gi_size rho))) l').
  { destruct l' as [|x0 l']; [apply Ret_inj in E; subst out; reflexivity|].
    cbn [map] in E; apply bind_Ret in E as (vals & Ev & E); apply assert_Ret in E as [_ E]; apply Ret_inj in E; subst out.
    apply vals_map in Ev; [|exact O|exact (proj1 (proj2 Htr))]; subst vals; cbn [snd]; unfold ift_columns.
    change (mmul (gi_size rho) (r_cob r) (snd (mk psi x0)) :: map (fun x => mmul (gi_size rho) (r_cob r) (snd (mk psi x))) l') with
      (map (fun x => mmul (gi_size rho) (r_cob r) (snd (mk psi x))) (x0 :: l')).
    rewrite !flat_map_concat_map, map_map; reflexivity. }
  assert (In' : forall x, In x l' -> intertwines rho (mmul (gi_size rho) (r_cob r) (snd (mk psi x)))).
  { intros x Ix h k A P Hh Ek EA EP; eapply HB; try eassumption; apply in_map_iff; exists x; split; [reflexivity|exact Ix]. }
  rewrite Out; split; [|split].
  - apply Forall_forall; intros f If; apply in_flat_map in If as (x & Ix & If); apply in_map_iff in If as (o & <- & Io).
    apply in_seq in Io; exists (mmul (gi_size rho) (r_cob r) (snd (mk psi x))), o; split; [reflexivity|split; [apply In'; exact Ix|lia]].
  - apply Forall_forall; intros f If; apply in_flat_map in If as (x & Ix & If); apply in_map_iff in If as (o & <- & Io); apply in_seq in Io.
    destruct (total_same rho r Prho O Drho Hres Hclear x x (Pl x (Sub x Ix)) (Pl x (Sub x Ix)) (In' x Ix) (In' x Ix) (or_introl eq_refl))
      as (t & M & Et & _); rewrite column_dot, (M o o) by lia; rewrite (Et eq_refl); unfold mscal, mid; rewrite Nat.eqb_refl, Rmult_1_r.
    apply col_c_sq; exact Prho.
  - apply fop_flat_map.
    + intros x Ix; apply fop_map; eapply fop_impl; [apply fop_seq|]; cbn beta; intros o o' Io Io' L; apply in_seq in Io, Io'.
      destruct (total_same rho r Prho O Drho Hres Hclear x x (Pl x (Sub x Ix)) (Pl x (Sub x Ix)) (In' x Ix) (In' x Ix) (or_introl eq_refl))
        as (t & M & _ & _); rewrite column_dot, (M o o') by lia; unfold mscal, mid.
      destruct (Nat.eqb_spec o o'); [lia|]; ring.
    + eapply fop_impl; [exact Ap|]; cbn beta; intros x y Ix Iy Hxy u v Iu Iv.
      apply in_map_iff in Iu as (o & <- & Io), Iv as (o' & <- & Io'); apply in_seq in Io, Io'.
      assert (N : x <> y).
      { intros ->; destruct Hxy as [[[_ N]|L] _]; [congruence|lia]. }
      destruct (total_same rho r Prho O Drho Hres Hclear x y (Pl x (Sub x Ix)) (Pl y (Sub y Iy)) (In' x Ix) (In' y Iy) (or_intror Hxy))
        as (t & M & _ & Et); rewrite column_dot, (M o o') by lia; rewrite (Et N); unfold mscal; ring.
Qed.

Lemma columns_disjoint : forall rho rho' f g, is_column rho f -> is_column rho' g ->
  orth_rep mem op inv e (gi_size rho) (gi_rep rho) -> orth_rep mem op inv e (gi_size rho') (gi_rep rho') ->
  disjoint_irreps mem rho rho' -> cdot f g = 0.
Proof.
  intros rho rho' f g (B & o & -> & HB & Ho) (B' & o' & -> & HB' & Ho') O O' D; rewrite column_dot.
  rewrite (D (total reps psi rho rho' B B')); [unfold mzero; ring| |exact Ho|exact Ho'].
  intros g A A' Hg EA EA'; rewrite <- (val_eq rho g A EA), <- (val_eq rho' g A' EA').
  exact (total_intertwines mem op inv e memH opH invH eH incl reps HG HH HI Htr psi rho rho' B B' Hpsi O O' HB HB' g Hg).
Qed.

Definition full_irrep (rho : girrep T) : Prop := (0 < gi_size rho)%nat /\ orth_rep mem op inv e (gi_size rho) (gi_rep rho) /\
  described mem rho /\ forall r, restrict (gi_id rho) = Ret r -> restriction_of irrH memH incl rho r /\ clear_restriction rho r.

Lemma parts_orthonormal : forall n rhos parts, mapM (induced_step irrH restrict components psi reps n) rhos = Ret parts ->
  Forall full_irrep rhos -> ForallOrdPairs (disjoint_irreps mem) rhos ->
  orthonormal (flat_map snd parts) /\ Forall (fun f => exists rho, In rho rhos /\ is_column rho f) (flat_map snd parts).
Proof.
  intros n rhos; induction rhos as [|rho rhos IH]; intros parts E F D; cbn [mapM] in E.
  - apply Ret_inj in E; subst parts; cbn; repeat split; constructor.
  - apply bind_Ret in E as (out & Eo & E); apply bind_Ret in E as (ps & Ep & E); apply Ret_inj in E; subst parts; cbn [flat_map].
    inversion F as [|? ? F1 F2]; inversion D as [|? ? D1 D2]; subst; destruct F1 as (P1 & O1 & De & R1).
    destruct (IH ps Ep F2 D2) as [[U V] C]; destruct (step_columns rho out n Eo P1 O1 De R1) as [C1 [U1 V1]].
    split; [split|].
    + apply Forall_app; split; assumption.
    + apply fop_app; [exact V1|exact V|]; intros f g If Ig.
      destruct (proj1 (Forall_forall _ _) C g Ig) as (rho' & Ir & Cg).
      destruct (proj1 (Forall_forall _ _) F2 rho' Ir) as (_ & O2 & _ & _).
      exact (columns_disjoint rho rho' f g (proj1 (Forall_forall _ _) C1 f If) Cg O1 O2 (proj1 (Forall_forall _ _) D1 rho' Ir)).
    + apply Forall_app; split.
      * eapply Forall_impl; [|exact C1]; cbn beta; intros f Cf; exists rho; split; [left; reflexivity|exact Cf].
      * eapply Forall_impl; [|exact C]; cbn beta; intros f (rho' & I & Cf); exists rho'; split; [right; exact I|exact Cf].
Qed.

Lemma cdot_comm : forall f g, cdot f g = cdot g f.
Proof. intros; unfold cdot; apply sumn_ext; intros; ring. Qed.

Lemma orthonormal_orthogonal : forall l, length l = size -> orthonormal l -> orthogonal size (columns_mat l).
Proof.
  intros l L [U V].
  assert (X : orthogonal size (mtr (columns_mat l))).
  { apply rows_orthogonal; intros i j Hi Hj.
    change (mmul size (mtr (columns_mat l)) (mtr (mtr (columns_mat l))) i j) with
      (cdot (nth i l (fun _ => 0)) (nth j l (fun _ => 0))); unfold mid.
    destruct (Nat.eqb_spec i j) as [<-|N].
    - apply (proj1 (Forall_forall _ _) U), nth_In; lia.
    - destruct (Nat.lt_ge_cases i j).
      + exact (fop_nth _ _ l (fun _ => 0) V i j ltac:(lia) ltac:(lia)).
      + rewrite cdot_comm; exact (fop_nth _ _ l (fun _ => 0) V j i ltac:(lia) ltac:(lia)). }
  destruct X as [X1 X2]; split; rewrite tr_tr in *; assumption.
Qed.

Variable irrG : list Z -> res (girrep T).
Variable linv : nat -> mat -> res mat.
Hypothesis Hinv : correct_inverse linv.

Lemma build_orthogonal : forall same index ids ids' cob cobi,
  Forall (inducible mem op inv e memH incl irrG irrH restrict) ids -> pairwise_disjoint mem irrG ids ->
  build_induced irrG irrH restrict components same index ids psi reps = Ret (ids', cob, cobi) -> orthogonal size cob.
Proof.
  intros same index ids ids' cob cobi F D E; unfold build_induced in E.
  apply bind_Ret in E as (_u & _ & E); apply bind_Ret in E as (_v & _ & E); apply bind_Ret in E as (rhos & Er & E).
  apply bind_Ret in E as (parts & Ep & E); apply assert_Ret in E as [El E]; apply Nat.eqb_eq in El.
  apply assert_Ret in E as [_ E]; apply assert_Ret in E as [_ E]; apply Ret_inj in E; injection E as _ <- _.
  apply orthonormal_orthogonal; [exact El|]; eapply (proj1 (parts_orthonormal size rhos parts Ep _ _)).
  Unshelve.
  - clear Ep D El; apply mapM_Ret_inv in Er; induction Er as [|id rho ids rhos Ei _ IH]; constructor; inversion F as [|? ? F1 F2]; subst.
    + destruct F1 as (rho' & Ei' & Id & (q & Eq & _ & Pq & _) & O & De & R); rewrite Ei in Ei'; apply Ret_inj in Ei'; subst rho'.
      rewrite Ei in Eq; apply Ret_inj in Eq; subst q; split; [exact Pq|split; [exact O|split; [exact De|]]].
      rewrite Id; exact R.
    + apply IH; exact F2.
  - clear Ep F El; unfold pairwise_disjoint in D; apply mapM_Ret_inv in Er; induction Er as [|id rho ids rhos Ei F IH]; constructor; inversion D as [|? ? D1 D2]; subst.
    + clear IH D D2; induction F as [|id' rho' ids rhos Ei' _ IH]; constructor; inversion D1 as [|? ? A B]; subst; [apply A; assumption|apply IH; assumption].
    + apply IH; exact D2.
Qed.

Theorem induced_full : forall same index ids ids' cob cobi,
  Forall (inducible mem op inv e memH incl irrG irrH restrict) ids -> pairwise_disjoint mem irrG ids ->
  build_induced irrG irrH restrict components same index ids psi reps = Ret (ids', cob, cobi) ->
  let n := (s * length reps)%nat in
  orthogonal n cob /\
  (sharp n cob -> exists r, induced_representation irrG irrH restrict components linv same index ids psi reps = Ret r /\
    r_size r = n /\ proper irrG mem op e r /\ r_irreps r = ids' /\
    forall g, mem g -> exists A, r_fun r g = Ret (n, A) /\ orthogonal n A /\ induced_value op memH incl psi reps g A).
Proof.
  intros same index ids ids' cob cobi F D E n.
  assert (Q : orthogonal n cob) by exact (build_orthogonal same index ids ids' cob cobi F D E).
  split; [exact Q|]; intros Sh.
  assert (Hend : endo_commutes memH psi).
  { intros h P E' Hh EP IE; exact (units_commute S memH s (gi_rep psi) (gi_endo psi) E' (proj1 Dpsi) IE h P Hh EP). }
  apply (induced_ok mem op inv e memH opH invH eH incl irrG irrH restrict components linv psi HG HI Hpsi Epsi Hend Ppsi reps
    (proj1 (proj2 Htr)) Hinv Htr same index ids ids' cob cobi); [|exact Hsz|exact E|exact Q|exact Sh].
  eapply Forall_impl; [|exact F]; cbn beta; intros id (rho & E1 & E2 & E3 & E4 & _ & E5).
  exists rho; split; [exact E1|split; [exact E2|split; [exact E3|split; [exact E4|]]]]; intros r Er; exact (proj1 (E5 r Er)).
Qed.
End Assemble.
