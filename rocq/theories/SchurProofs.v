(** Sums of intertwiners over cosets, commutants and their traces. *)
From Coq Require Import Reals ZArith Bool List Lia Lra Setoid Morphisms Arith Permutation.
From Verif Require Import LibRes LibList LibMat LibMatS SpecGroup SpecRep IrrepModel
  RepModel SpecRepr RepProofs SpecReg IndModel SpecInd SpecSchur SpecDis.
Import ListNotations.
Open Scope R_scope.

(** ** pairs of a list *)

Lemma fop_app : forall A (Q : A -> A -> Prop) l m, ForallOrdPairs Q l -> ForallOrdPairs Q m ->
  (forall x y, In x l -> In y m -> Q x y) -> ForallOrdPairs Q (l ++ m).
Proof.
  intros A Q l m Hl Hm H; induction Hl as [|x l Fx _ IH]; [exact Hm|]; cbn [app]; constructor.
  - apply Forall_app; split; [exact Fx|apply Forall_forall; intros y Hy; apply H; [left; reflexivity|exact Hy]].
  - apply IH; intros y z Hy Hz; apply H; [right; exact Hy|exact Hz].
Qed.

Lemma fop_impl : forall A (Q Q' : A -> A -> Prop) l, ForallOrdPairs Q l ->
  (forall x y, In x l -> In y l -> Q x y -> Q' x y) -> ForallOrdPairs Q' l.
Proof.
  intros A Q Q' l Hl; induction Hl as [|x l Fx _ IH]; intros H; constructor.
  - apply Forall_forall; intros y Hy; apply H; [left; reflexivity|right; exact Hy|exact (proj1 (Forall_forall _ _) Fx y Hy)].
  - apply IH; intros y z Hy Hz; apply H; right; assumption.
Qed.

Lemma fop_map : forall A B (f : A -> B) (Q : B -> B -> Prop) l,
  ForallOrdPairs (fun x y => Q (f x) (f y)) l -> ForallOrdPairs Q (map f l).
Proof.
  intros A B f Q l Hl; induction Hl as [|x l Fx _ IH]; cbn [map]; constructor; [apply Forall_map; exact Fx|exact IH].
Qed.

Lemma fop_nth : forall A (Q : A -> A -> Prop) l d, ForallOrdPairs Q l ->
  forall i j, (i < j)%nat -> (j < length l)%nat -> Q (nth i l d) (nth j l d).
Proof.
  intros A Q l d Hl; induction Hl as [|x l Fx _ IH]; intros i j Hij Hj; [cbn in Hj; lia|].
  destruct j as [|j]; [lia|]; cbn [length] in Hj; destruct i as [|i]; cbn [nth].
  - apply (proj1 (Forall_forall _ _) Fx), nth_In; lia.
  - apply IH; lia.
Qed.

Lemma fop_seq : forall n p, ForallOrdPairs lt (seq p n).
Proof.
  induction n as [|n IH]; intros p; cbn; constructor; [apply Forall_forall; intros x Hx; apply in_seq in Hx; lia|apply IH].
Qed.

Lemma fop_filter : forall A (Q : A -> A -> Prop) f l, ForallOrdPairs Q l -> ForallOrdPairs Q (filter f l).
Proof.
  intros A Q f l Hl; induction Hl as [|x l Fx _ IH]; cbn [filter]; [constructor|].
  destruct (f x); [|exact IH]; constructor; [|exact IH].
  apply Forall_forall; intros y Hy; apply filter_In in Hy; exact (proj1 (Forall_forall _ _) Fx y (proj1 Hy)).
Qed.

Lemma fop_flat_map : forall A B (f : A -> list B) (Q : B -> B -> Prop) l,
  (forall x, In x l -> ForallOrdPairs Q (f x)) ->
  ForallOrdPairs (fun x y => forall u v, In u (f x) -> In v (f y) -> Q u v) l -> ForallOrdPairs Q (flat_map f l).
Proof.
  intros A B f Q l; induction l as [|x l IH]; intros H1 H2; cbn [flat_map]; [constructor|].
  inversion H2 as [|? ? Fx H2']; subst; apply fop_app.
  - apply H1; left; reflexivity.
  - apply IH; [intros y Hy; apply H1; right; exact Hy|exact H2'].
  - intros u v Hu Hv; apply in_flat_map in Hv as (y & Hy & Hv); exact (proj1 (Forall_forall _ _) Fx y Hy u v Hu Hv).
Qed.

#[global] Instance mopp_proper r c : Proper (meq r c ==> meq r c) mopp.
Proof. intros A A' HA i j Hi Hj; unfold mopp; rewrite HA by assumption; reflexivity. Qed.

(** ** the Frobenius product *)

Definition dotm (r c : nat) (A B : mat) : R := sumn r (fun i => sumn c (fun j => A i j * B i j)).

Lemma dotm_ext : forall r c A A' B B', meq r c A A' -> meq r c B B' -> dotm r c A B = dotm r c A' B'.
Proof.
  intros r c A A' B B' HA HB; unfold dotm; apply sumn_ext; intros i Hi; apply sumn_ext; intros j Hj.
  rewrite HA, HB by assumption; reflexivity.
Qed.

#[global] Instance dotm_proper r c : Proper (meq r c ==> meq r c ==> eq) (dotm r c).
Proof. intros A A' HA B B' HB; apply dotm_ext; assumption. Qed.

Lemma dotm_trace : forall n c A B, dotm n c A B = trace n (mmul c A (mtr B)).
Proof. reflexivity. Qed.

Lemma dotm_comm : forall r c A B, dotm r c A B = dotm r c B A.
Proof. intros; unfold dotm; apply sumn_ext; intros i _; apply sumn_ext; intros j _; ring. Qed.

Lemma dotm_tr : forall r c A B, dotm r c A B = dotm c r (mtr A) (mtr B).
Proof. intros; unfold dotm; rewrite sumn_swap; reflexivity. Qed.

(** <Q A, B> = <A, Q^T B> *)
Lemma dotm_left : forall r k c Q A B, dotm r c (mmul k Q A) B = dotm k c A (mmul r (mtr Q) B).
Proof.
  intros; unfold dotm, mmul, mtr.
  transitivity (sumn r (fun i => sumn c (fun j => sumn k (fun l => Q i l * A l j * B i j)))).
  { apply sumn_ext; intros i _; apply sumn_ext; intros j _; rewrite <- sumn_scal_r; reflexivity. }
  transitivity (sumn r (fun i => sumn k (fun l => sumn c (fun j => Q i l * A l j * B i j)))).
  { apply sumn_ext; intros i _; apply sumn_swap. }
  rewrite sumn_swap; apply sumn_ext; intros l _; rewrite sumn_swap; apply sumn_ext; intros j _.
  rewrite <- sumn_scal_l; apply sumn_ext; intros i _; ring.
Qed.

(** <A Q, B> = <A, B Q^T> *)
Lemma dotm_right : forall r k c Q A B, dotm r c (mmul k A Q) B = dotm r k A (mmul c B (mtr Q)).
Proof.
  intros r k c Q A B; rewrite dotm_tr.
  rewrite (dotm_ext c r _ (mmul k (mtr Q) (mtr A)) _ (mtr B)) by (try apply mul_tr; reflexivity).
  rewrite dotm_left, dotm_tr; apply dotm_ext; [apply tr_tr|].
  intros i j _ _; unfold mtr, mmul; apply sumn_ext; intros; ring.
Qed.

Lemma dotm_zero : forall r c A, dotm r c mzero A = 0.
Proof. intros; unfold dotm, mzero; apply sumn_0; intros; apply sumn_0; intros; ring. Qed.

Lemma dotm_lincomb : forall n cs Fs A, dotm n n (lincomb cs Fs) A =
  fold_right Rplus 0 (map (fun p => fst p * dotm n n (snd p) A) (combine cs Fs)).
Proof.
  induction cs as [|c cs IH]; intros [|F Fs] A; cbn [lincomb combine map fold_right]; try apply dotm_zero.
  rewrite <- IH; cbn [fst snd]; unfold dotm; rewrite <- sumn_scal_l, <- sumn_plus; apply sumn_ext; intros i _.
  rewrite <- sumn_scal_l, <- sumn_plus; apply sumn_ext; intros j _; unfold madd, mscal; ring.
Qed.

(** ** unit bases *)

Lemma anti_trace : forall n F G, meq n n (mmul n F (mtr G)) (mopp (mmul n G (mtr F))) -> dotm n n F G = 0.
Proof.
  intros n F G H; assert (X : dotm n n F G = - dotm n n F G).
  { rewrite (dotm_comm n n F G) at 2; rewrite !dotm_trace; rewrite (trace_ext n _ _ H).
    unfold trace; rewrite <- sumn_opp; reflexivity. }
  lra.
Qed.

Lemma anti_row : forall n F G i, meq n n (mmul n F (mtr G)) (mopp (mmul n G (mtr F))) -> (i < n)%nat ->
  sumn n (fun j => F i j * G i j) = 0.
Proof.
  intros n F G i H Hi; pose proof (H i i Hi Hi) as X; unfold mopp, mmul, mtr in X.
  assert (Y : sumn n (fun l => G i l * F i l) = sumn n (fun j => F i j * G i j)) by (apply sumn_ext; intros; ring); lra.
Qed.

Lemma orth_dot : forall n F, orthogonal n F -> dotm n n F F = INR n.
Proof.
  intros n F [H _]; rewrite dotm_trace, (trace_ext n _ mid H); unfold trace, mid.
  rewrite (sumn_ext n _ (fun _ => 1)) by (intros i _; rewrite Nat.eqb_refl; reflexivity); rewrite sumn_const; ring.
Qed.

(** the units after the first are antisymmetric *)
Lemma unit_tail : forall n F Fs G, unit_basis n (F :: Fs) -> In G Fs -> meq n n (mtr G) (mopp G).
Proof.
  intros n F Fs G [(F' & Fs' & E & HF) _ Ha _] HG; injection E as <- <-.
  inversion Ha as [|? ? Hf _]; subst; pose proof (proj1 (Forall_forall _ _) Hf G HG) as X; cbn beta in X.
  rewrite HF, mid_l, tr_mid, mid_r in X; exact X.
Qed.

Lemma unit_sign : forall n Fs G, unit_basis n Fs -> In G Fs -> exists s : R, (s = 1 \/ s = -1) /\ meq n n (mtr G) (mscal s G).
Proof.
  intros n Fs G U HG; destruct (ub_first _ _ U) as (F & Fs' & -> & HF); destruct HG as [<-|HG].
  - exists 1; split; [left; reflexivity|]; rewrite HF, tr_mid; intros i j _ _; unfold mscal; ring.
  - exists (-1); split; [right; reflexivity|]; rewrite (unit_tail n F Fs' G U HG); intros i j _ _; unfold mopp, mscal; ring.
Qed.

(** a member of the commutant has equal diagonal entries *)
Lemma lincomb_diag : forall n cs F Fs i, length cs = length (F :: Fs) -> meq n n F mid -> (i < n)%nat ->
  (forall G, In G Fs -> meq n n (mtr G) (mopp G)) -> lincomb cs (F :: Fs) i i = hd 0 cs.
Proof.
  intros n cs F Fs i L HF Hi HG; destruct cs as [|c cs]; [discriminate|]; cbn [lincomb hd]; unfold madd, mscal.
  rewrite (HF i i Hi Hi); unfold mid; rewrite Nat.eqb_refl.
  assert (Z : forall cs, lincomb cs Fs i i = 0).
  { clear - HG Hi; induction Fs as [|G Fs IH]; intros [|c cs]; cbn [lincomb]; try reflexivity.
    unfold madd, mscal; rewrite IH by (intros; apply HG; right; assumption).
    pose proof (HG G (or_introl eq_refl) i i Hi Hi) as X; unfold mtr, mopp in X; assert (G i i = 0) as -> by lra; ring. }
  rewrite Z; ring.
Qed.

Lemma commutant_diag : forall T (mem : T -> Prop) n rho Fs W, spans_commutant mem n rho Fs -> unit_basis n Fs ->
  (forall g A, mem g -> rho g = Ret (n, A) -> meq n n (mmul n A W) (mmul n W A)) ->
  forall i, (i < n)%nat -> INR n * W i i = trace n W.
Proof.
  intros T mem n rho Fs W [Sp _] U HW i Hi; apply Sp in HW as (cs & L & E).
  destruct (ub_first _ _ U) as (F & Fs' & -> & HF).
  assert (D : forall k, (k < n)%nat -> W k k = hd 0 cs).
  { intros k Hk; rewrite (E k k Hk Hk); apply (lincomb_diag n); auto; intros G HG; exact (unit_tail n F Fs' G U HG). }
  unfold trace; rewrite (sumn_ext n _ (fun _ => hd 0 cs)) by exact D; rewrite sumn_const, D by exact Hi; reflexivity.
Qed.

(** the coefficients are Frobenius products *)
Lemma lincomb_coeff : forall n Fs, Forall (orthogonal n) Fs ->
  ForallOrdPairs (fun F G => meq n n (mmul n F (mtr G)) (mopp (mmul n G (mtr F)))) Fs ->
  forall cs c F, length cs = length Fs -> In (c, F) (combine cs Fs) -> dotm n n (lincomb cs Fs) F = c * INR n.
Proof.
  intros n Fs Ho Ha; induction Fs as [|F Fs IH]; intros [|c cs] c0 F0 L HI; try discriminate; [destruct HI|].
  inversion Ho as [|? ? HF Ho']; subst; inversion Ha as [|? ? HaF Ha']; subst; cbn [length] in L.
  assert (A1 : forall G, In G Fs -> dotm n n F G = 0).
  { intros G HG; apply anti_trace, (proj1 (Forall_forall _ _) HaF G HG). }
  assert (A2 : forall X, dotm n n (lincomb (c :: cs) (F :: Fs)) X = c * dotm n n F X + dotm n n (lincomb cs Fs) X).
  { intros X; rewrite !dotm_lincomb; reflexivity. }
  cbn [combine] in HI; destruct HI as [E|HI].
  - injection E as <- <-; rewrite A2, (orth_dot n F HF), dotm_lincomb.
    assert (Z : forall cs, fold_right Rplus 0 (map (fun p => fst p * dotm n n (snd p) F) (combine cs Fs)) = 0).
    { clear - A1; induction Fs as [|G Fs IH]; intros [|c cs]; cbn [combine map fold_right]; try reflexivity.
      cbn [fst snd]; rewrite IH by (intros; apply A1; right; assumption).
      rewrite dotm_comm, A1 by (left; reflexivity); ring. }
    rewrite Z; ring.
  - rewrite A2, (IH Ho' Ha' cs c0 F0 ltac:(lia) HI), A1 by exact (in_combine_r _ _ _ _ HI); ring.
Qed.

(** a member of the commutant orthogonal to all units but the first is scalar *)
Lemma commutant_scalar : forall T (mem : T -> Prop) n rho F Fs W, (0 < n)%nat -> spans_commutant mem n rho (F :: Fs) ->
  unit_basis n (F :: Fs) ->
  (forall g A, mem g -> rho g = Ret (n, A) -> meq n n (mmul n A W) (mmul n W A)) ->
  (forall G, In G Fs -> dotm n n G W = 0) ->
  meq n n W (mscal (trace n W / INR n) mid).
Proof.
  intros T mem n rho F Fs W Hn Sp U HW Hz.
  pose proof (commutant_diag T mem n rho (F :: Fs) W Sp U HW 0%nat Hn) as D.
  destruct Sp as [Sp _]; apply Sp in HW as (cs & L & E).
  destruct cs as [|c cs]; [discriminate|]; cbn [length] in L.
  assert (P : 0 < INR n) by (apply lt_0_INR; exact Hn).
  assert (Z : Forall (fun c => c = 0) cs).
  { assert (X : forall c0 G, In (c0, G) (combine cs Fs) -> c0 = 0).
    { intros c0 G HI.
      pose proof (lincomb_coeff n (F :: Fs) (ub_orth _ _ U) (ub_anti _ _ U) (c :: cs) c0 G) as Y.
      rewrite <- (dotm_ext n n W _ G G E (meq_refl n n G)), dotm_comm, (Hz G (in_combine_r _ _ _ _ HI)) in Y.
      specialize (Y ltac:(cbn [length]; lia) (or_intror HI)); symmetry in Y; apply Rmult_integral in Y as [Y|Y]; [exact Y|lra]. }
    clear - X L; revert Fs X L; induction cs as [|c0 cs IH]; intros [|G Fs] X L; try discriminate; constructor.
    - apply (X c0 G); left; reflexivity.
    - apply (IH Fs); [intros c1 G1 H1; apply (X c1 G1); right; exact H1|cbn in L; lia]. }
  assert (Z' : forall i j, lincomb cs Fs i j = 0).
  { clear - Z; revert Fs; induction Z as [|c cs -> _ IH]; intros [|G Fs] i j; cbn [lincomb]; try reflexivity.
    unfold madd, mscal; rewrite IH; ring. }
  destruct (ub_first _ _ U) as (F' & Fs' & E' & HF); injection E' as <- <-.
  assert (W' : meq n n W (mscal c mid)).
  { intros i j Hi Hj; rewrite (E i j Hi Hj); cbn [lincomb]; unfold madd, mscal; rewrite Z', (HF i j Hi Hj); ring. }
  intros i j Hi Hj; rewrite (W' i j Hi Hj); unfold mscal; f_equal.
  rewrite <- D, (W' 0%nat 0%nat Hn Hn); unfold mscal, mid; cbn; field; lra.
Qed.

Lemma unit_member : forall Fs (F : mat), In F Fs ->
  exists cs, length cs = length Fs /\ forall i j, lincomb cs Fs i j = F i j.
Proof.
  intros Fs F HF; induction Fs as [|G Fs IH]; [destruct HF|].
  assert (Z : forall i j, lincomb (repeat 0 (length Fs)) Fs i j = 0).
  { clear; induction Fs as [|G Fs IH]; intros i j; cbn [length repeat lincomb]; [reflexivity|]; unfold madd, mscal; rewrite IH; ring. }
  destruct HF as [->|HF].
  - exists (1 :: repeat 0 (length Fs)); split; [cbn; rewrite repeat_length; reflexivity|].
    intros i j; cbn [lincomb]; unfold madd, mscal; rewrite Z; ring.
  - destruct (IH HF) as (cs & L & E); exists (0 :: cs); split; [cbn; rewrite L; reflexivity|].
    intros i j; cbn [lincomb]; unfold madd, mscal; rewrite E; ring.
Qed.

(** the units commute *)
Lemma units_commute : forall T (mem : T -> Prop) n rho Fs F, spans_commutant mem n rho Fs -> In F Fs ->
  forall g A, mem g -> rho g = Ret (n, A) -> meq n n (mmul n A F) (mmul n F A).
Proof.
  intros T mem n rho Fs F [Sp _] HF; apply Sp.
  destruct (unit_member Fs F HF) as (cs & L & E).
  exists cs; split; [exact L|]; intros i j _ _; symmetry; apply E.
Qed.

(** the only unit with a given non-zero entry in its first row *)
Lemma unit_rows : forall n Fs F j, (0 < n)%nat -> unit_basis n Fs -> In F Fs -> (j < n)%nat -> F 0%nat j <> 0 ->
  (forall k, (k < n)%nat -> k <> j -> F 0%nat k = 0) /\ (F 0%nat j = 1 \/ F 0%nat j = -1).
Proof.
  intros n Fs F j Hn U HF Hj Nz; pose proof (ub_row _ _ U F j HF Hj) as V; split; [|destruct V as [V|V]; [contradiction|exact V]].
  intros k Hk Nk; destruct (proj1 (Forall_forall _ _) (ub_orth _ _ U) F HF) as [O _].
  pose proof (O 0%nat 0%nat Hn Hn) as X; unfold mmul, mtr, mid in X; cbn [Nat.eqb] in X.
  assert (Vj : F 0%nat j * F 0%nat j = 1) by (destruct V as [V|[V|V]]; [contradiction|rewrite V; ring|rewrite V; ring]).
  assert (Y : sumn n (fun l => if Nat.eqb l j then 0 else F 0%nat l * F 0%nat l) = 0).
  { rewrite (sumn_ext n _ (fun l => F 0%nat l * F 0%nat l - (if Nat.eqb l j then 1 else 0))).
    - rewrite sumn_minus, X, (sumn_single n j); [rewrite Nat.eqb_refl; ring|exact Hj|].
      intros l _ Nl; apply Nat.eqb_neq in Nl; rewrite Nl; reflexivity.
    - intros l _; destruct (Nat.eqb_spec l j) as [->|]; [rewrite Vj|]; ring. }
  apply (sumn_zero_inv n) with (i := k) in Y; [|intros l _; destruct (Nat.eqb l j); [lra|apply Rle_0_sqr]|exact Hk].
  cbn beta in Y; apply Nat.eqb_neq in Nk; rewrite Nk in Y; apply Rsqr_0_uniq in Y; exact Y.
Qed.

Lemma unit_rows_other : forall n Fs, (0 < n)%nat -> unit_basis n Fs -> forall j, (j < n)%nat ->
  ForallOrdPairs (fun F G : mat => F 0%nat j = 0 \/ G 0%nat j = 0) Fs.
Proof.
  intros n Fs Hn U j Hj; eapply fop_impl; [exact (ub_anti _ _ U)|]; cbn beta; intros F G HF HG H.
  destruct (Req_dec (F 0%nat j) 0) as [Z|Nz]; [left; exact Z|right].
  destruct (unit_rows n Fs F j Hn U HF Hj Nz) as [R _].
  pose proof (anti_row n F G 0%nat H Hn) as X; rewrite (sumn_single n j) in X; [|exact Hj|intros k Hk Nk; rewrite R by assumption; ring].
  apply Rmult_integral in X as [X|X]; [contradiction|exact X].
Qed.
