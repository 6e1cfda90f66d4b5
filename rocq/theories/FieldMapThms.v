(** Modules that restrict and that disentangle fields on images. *)
From Coq Require Import String Ascii.
From Coq Require Import Reals ZArith Lia Lra Bool List Arith Permutation.
From Verif Require Import LibRes LibPy LibMat LibMatS FieldModel SpecField FieldProofs BranchProofs SpecFNorm
  SpecGroup FinGroupModel SpecFinGroup PlanarModel SpecPlanar PlanarProofs IrrepModel SpecIrrep ParamModel RepModel SpecRepr RepProofs RepThms SpecDis DisModel DisThms
  SpecGrid GridModel GridProofs GridThms ImageModel SpecImage ImageProofs MaskThms ConvThms RdConvModel SpecBlocks RdConvProofs RdConvThms TensorModThms GSpaceModel SpecGSpace GSpaceProofs GSpaceThms FieldMapModel FieldMapProofs SpecFieldMap.
Import ListNotations.
Open Scope R_scope.

(** ** What transforms of images depend on *)
Lemma same_refl : forall {A} (x : array A), same_array x x.
Proof. intros A x; split; [reflexivity|intros; reflexivity]. Qed.

Lemma forallb_n_ext : forall n f g, (forall i, (i < n)%nat -> f i = g i) -> forallb_n n f = forallb_n n g.
Proof. induction n as [|n IH]; intros f g H; [reflexivity|]. cbn [forallb_n]. rewrite (IH f g) by (intros; apply H; lia). rewrite H by lia. reflexivity. Qed.

Lemma looks_exact_ext : forall n T T', meq n n T T' -> looks_exact n T = looks_exact n T'.
Proof.
  intros n T T' H. unfold looks_exact. f_equal; [f_equal|].
  - apply forallb_n_ext. intros j Hj. f_equal. apply sumn_ext. intros i Hi. rewrite (H i j Hi Hj). reflexivity.
  - apply forallb_n_ext. intros i Hi. f_equal. apply sumn_ext. intros j Hj. rewrite (H i j Hi Hj). reflexivity.
  - apply forallb_n_ext. intros i Hi. apply forallb_n_ext. intros j Hj. rewrite (H i j Hi Hj). reflexivity.
Qed.
Lemma signed_axes_ext : forall n T T', meq n n T T' -> signed_axes n T = signed_axes n T'.
Proof.
  intros n T T' H. unfold signed_axes. apply map_ext_in. intros i Hi. apply in_seq in Hi. f_equal. apply map_ext_in. intros j Hj. apply in_seq in Hj.
  rewrite (H i j) by lia. reflexivity.
Qed.

Lemma index_of_nth : forall a l, In a l -> (index_of a l < length l)%nat /\ nth (index_of a l) l 0%nat = a.
Proof.
  intros a l; induction l as [|b l IH]; intros H; [destruct H|]. cbn [index_of length]. destruct (Nat.eqb_spec a b) as [->|N]; [cbn; split; [lia|reflexivity]|].
  destruct H as [->|H]; [congruence|]. destruct (IH H) as (H1 & H2). cbn [nth]. split; [lia|exact H2].
Qed.

Lemma transpose_ext : forall {A} axs (x x' : array A), same_array x x' -> same_result (transpose axs x) (transpose axs x').
Proof.
  intros A axs x x' (Es & He). unfold transpose. rewrite <- Es. destruct (Nat.eqb_spec (length axs) (length (shape x))) as [L|L]; [|exact I]. cbn [assert_ bind].
  destruct (forallb (fun a => existsb (Nat.eqb a) axs) (seq 0 (length (shape x)))) eqn:Ef; [|exact I]. cbn [assert_ bind same_result]. split; [reflexivity|]. cbn [shape entry]. intros idx V.
  apply He. apply valid_nth. apply valid_nth in V as (Lv & V). rewrite map_length in Lv, V. split; [rewrite map_length, seq_length; reflexivity|]. intros a Ha'.
  rewrite forallb_forall in Ef. specialize (Ef a ltac:(apply in_seq; lia)). apply existsb_exists in Ef as (b & Ib & Eb). apply Nat.eqb_eq in Eb; subst b.
  destruct (index_of_nth a axs Ib) as (Li & Ei).
  rewrite (nth_indep _ 0%nat (nth (index_of 0 axs) idx 0%nat)) by (rewrite map_length, seq_length; exact Ha').
  rewrite (map_nth (fun a => nth (index_of a axs) idx 0%nat)), seq_nth by exact Ha'. cbn [Nat.add].
  specialize (V (index_of a axs) ltac:(lia)).
  rewrite (nth_indep (map (fun a => nth a (shape x) 0%nat) axs) 0%nat (nth 0 (shape x) 0%nat)) in V by (rewrite map_length; exact Li). rewrite (map_nth (fun a => nth a (shape x) 0%nat)), Ei in V. exact V.
Qed.

Lemma restride_ext : forall {A} d steps (y y' : array A), (length (shape y) = d + length steps)%nat -> same_array y y' -> same_array (restride d steps y) (restride d steps y').
Proof.
  intros A d steps y y' L (Es & He). unfold restride. rewrite <- Es. split; [reflexivity|]. cbn [shape entry]. intros idx V. apply He. pose proof V as V0.
  apply valid_nth. apply valid_nth in V as (Lv & V). assert (Lf : length (firstn d idx) = d) by (rewrite firstn_length; lia). split; [rewrite app_length, Lf, map_length, seq_length; lia|].
  intros a Ha. destruct (Nat.lt_ge_cases a d) as [H|H].
  - rewrite app_nth1 by lia. rewrite (nth_firstn_lt d a idx 0%nat H). apply V; exact Ha.
  - rewrite app_nth2 by lia. rewrite Lf.
    set (f := fun k : nat => if (nth k steps 0 <? 0)%Z then (nth (d + k) (shape y) 0 - 1 - nth (d + k) idx 0)%nat else nth (d + k) idx 0%nat).
    rewrite (nth_indep _ 0%nat (f 0%nat)) by (rewrite map_length, seq_length; lia). rewrite (map_nth f), seq_nth by lia. cbn [Nat.add]. unfold f.
    replace (d + (a - d))%nat with a by lia. specialize (V a Ha). destruct (nth (a - d) steps 0 <? 0)%Z; lia.
Qed.

Lemma linear_ext : forall {A} half (affine : array A -> mat -> nat -> res (array A)), reads_entries affine -> forall b n M M' x x', same_array x x' -> meq n n M M' ->
  same_result (linear_transform half affine x n n M b) (linear_transform half affine x' n n M' b).
Proof.
  intros A half affine Ha b n M M' x x' S HM. unfold linear_transform. rewrite Nat.eqb_refl. cbn [assert_ bind]. rewrite <- (proj1 S).
  destruct (Nat.leb_spec n (length (shape x))) as [L|L]; [|exact I]. cbn [assert_ bind].
  assert (HT : meq n n (fun i j => half (flip_axes n M i j)) (fun i j => half (flip_axes n M' i j))).
  { intros i j Hi Hj. unfold flip_axes. rewrite (HM (n - 1 - i)%nat (n - 1 - j)%nat) by lia. reflexivity. }
  rewrite (looks_exact_ext n _ _ HT), (signed_axes_ext n _ _ HT). destruct (b && _); [|apply Ha; assumption].
  set (axs := signed_axes n _). set (l := _ ++ _). pose proof (transpose_ext l x x' S) as Ht. destruct (transpose l x) as [|y] eqn:E1, (transpose l x') as [|y'] eqn:E2; try contradiction; [exact I|].
  cbn [bind]. destruct (forallb _ _); [|exact I]. cbn [assert_ bind same_result]. apply restride_ext; [|exact Ht].
  unfold transpose in E1. apply assert_Ret in E1 as (_ & E1). apply assert_Ret in E1 as (_ & E1). apply Ret_inj in E1. rewrite <- E1. cbn [shape].
  rewrite !map_length. unfold l. rewrite app_length, seq_length, map_length. reflexivity.
Qed.

Lemma transform_ext : forall half affine, reads_entries affine -> forall c rho rho' n M M' x, meq c c rho rho' -> meq n n M M' ->
  same_result (transform half affine c rho n M x) (transform half affine c rho' n M' x).
Proof.
  intros half affine Ha c rho rho' n M M' x Hr HM. unfold transform, transform_fibers. destruct (Nat.leb_spec 2 (length (shape x))) as [L|L]; [|exact I]. cbn [assert_ bind].
  destruct (Nat.eqb_spec (nth 1 (shape x) 0%nat) c) as [Ec|]; [|exact I]. cbn [assert_ bind]. apply linear_ext; [exact Ha| |exact HM].
  split; [reflexivity|]. cbn [shape entry]. intros idx V. apply valid_nth in V as (_ & V). apply sumn_ext. intros i Hi. rewrite Hr; [reflexivity| |exact Hi]. rewrite <- Ec. apply V; lia.
Qed.

(** ** DisentangleModule *)
Lemma has_dot_ok : forall s, has_dot s = true <-> dotted s.
Proof.
  induction s as [|ch s IH]; cbn [has_dot]; [split; [discriminate|intros (i & H); destruct i; discriminate H]|]. rewrite orb_true_iff, IH. split.
  - intros [H|(i & H)]; [apply Ascii.eqb_eq in H; exists 0%nat; cbn; congruence|exists (S i); exact H].
  - intros ([|i] & H); [left; apply Ascii.eqb_eq; cbn in H; congruence|right; exists i; exact H].
Qed.

Section Dis.
Context {A T : Type}.
Variables (irr : list Z -> res (girrep T)) (mem : T -> Prop) (op : T -> T -> res T) (e : T) (linv : nat -> mat -> res mat) (components : nat -> (nat -> nat -> bool) -> nat * (nat -> nat)).
Hypothesis Hinv : correct_inverse linv.
Hypothesis Hcomp : correct_components components.
Variable rep : A -> repr T.
Variable name : A -> string.
Variable teqb : list A -> list A -> bool.
Variables ft uniq : list A.
Hypothesis Lu : listing ft uniq.
Hypothesis Na : named_apart name ft.
Hypothesis Hp : Forall (fun a => proper irr mem op e (rep a) /\ clear_cut (r_size (rep a)) (r_cob (rep a))) ft.
Notation size := (rsize rep).
Let dis := disentangle irr linv components.
Let P a := match dis (rep a) with Ret q => fst q | Raise => mzero end.
Let rs a := match dis (rep a) with Ret q => snd q | Raise => [] end.

Lemma proper_pos : forall r, proper irr mem op e r -> (0 < r_size r)%nat.
Proof.
  intros r (Ne & F & (l & El & Sl) & _). destruct (r_irreps r) as [|id ids]; [congruence|]. apply Forall_inv in F as (s & Es & _ & Ps & _).
  cbn [mapM] in El. rewrite Es in El. cbn [bind] in El. apply bind_Ret in El as (l' & _ & El). apply Ret_inj in El. subst l. cbn in Sl. lia.
Qed.

Lemma one : forall a, In a ft -> dis (rep a) = Ret (P a, rs a) /\ list_sum (map r_size (rs a)) = size a /\ rs a <> [] /\ Forall (proper irr mem op e) (rs a) /\
  forall g, mem g -> exists X bs, r_fun (rep a) g = Ret (size a, X) /\ mapM (fun s => r_fun s g) (rs a) = Ret bs /\ bsize bs = size a /\ meq (size a) (size a) (mmul (size a) (P a) X) (mmul (size a) (bdiag bs) (P a)).
Proof.
  intros a Ha. rewrite Forall_forall in Hp. destruct (Hp a Ha) as (Pr & Cc).
  destruct (disentangle_ok T irr mem op e linv components Hinv Hcomp (rep a) Pr Cc) as (ss & P0 & rs0 & blocks & _ & E & Pb & Lb & HP & _ & F & H).
  assert (P a = P0) as -> by (unfold P, dis; rewrite E; reflexivity). assert (rs a = rs0) as -> by (unfold rs, dis; rewrite E; reflexivity).
  assert (list_sum (map r_size rs0) = size a) as Sz.
  { rewrite <- Lb. unfold rsize. rewrite <- (seq_length (r_size (rep a)) 0), <- (Permutation_length Pb). clear. induction blocks as [|b l IH]; [reflexivity|]. cbn [map concat list_sum fold_right]. rewrite app_length. unfold list_sum in IH. rewrite IH. reflexivity. }
  split; [exact E|]. split; [exact Sz|]. split; [intros ->; pose proof (proper_pos _ Pr); cbn in Sz; unfold rsize in Sz; lia|]. split; [exact F|].
  intros g Hg. destruct (H g Hg) as (X & bs & E1 & E2 & E3 & E4). exists X, bs. split; [exact E1|]. split; [exact E2|]. split; [exact E3|]. exact (perm_intertwines _ _ _ _ _ Pb HP E4).
Qed.

Lemma posf : Forall (fun a => (0 < size a)%nat) ft.
Proof. eapply Forall_impl; [|exact Hp]. intros a (H & _). exact (proper_pos _ H). Qed.

Lemma sumn_assoc : forall n (a : nat -> R) (b : nat -> nat -> R) v, sumn n (fun j => a j * sumn n (fun q => b j q * v q)) = sumn n (fun q => sumn n (fun j => a j * b j q) * v q).
Proof.
  intros n a b v. transitivity (sumn n (fun j => sumn n (fun q => a j * b j q * v q))).
  - apply sumn_ext. intros j _. rewrite <- sumn_scal_l. apply sumn_ext. intros q _. ring.
  - rewrite sumn_swap. apply sumn_ext. intros q _. rewrite <- sumn_scal_r. apply sumn_ext. intros; ring.
Qed.

Theorem dis_equivariant : ft <> [] -> teqb ft ft = true -> (forall a, In a ft -> ~ dotted (name a)) ->
  exists m, mk_dis rep name dis uniq ft = Ret m /\ dm_in m = ft /\ type_size r_size (dm_out m) = type_size size ft /\ Forall (proper irr mem op e) (dm_out m) /\
    forall junk, length junk = type_size size ft -> (forall x, exists y, dis_forward rep name teqb m junk ft x = Ret y /\ shape y = shape x) /\
    forall half, half 0 = 0 -> half 1 = 1 -> half (-1) = -1 -> forall affine base g n M, mem g -> base g = Ret (n, M) -> signed_perm n M ->
    forall x y B ws, shape x = B :: type_size size ft :: ws -> length ws = n -> dis_forward rep name teqb m junk ft x = Ret y ->
    exists x' y' z, field_transform rep half affine base ft g x = Ret x' /\ dis_forward rep name teqb m junk ft x' = Ret y' /\
      field_transform (fun r => r) half affine base (dm_out m) g y = Ret z /\ same_array y' z.
Proof.
  intros Ne Te Nd.
  assert (Nc : concat (map rs ft) <> []).
  { assert (exists a, In a ft) as (a & Ha) by (clear - Ne; destruct ft as [|a l]; [congruence|exists a; left; reflexivity]). destruct (one a Ha) as (_ & _ & N & _). intros E.
    destruct (rs a) as [|b bs] eqn:Er; [congruence|]. assert (Ib : In b (concat (map rs ft))) by (apply in_concat; exists (rs a); split; [apply in_map; exact Ha|rewrite Er; left; reflexivity]). rewrite E in Ib. destruct Ib. }
  destruct (dis_value rep name teqb ft uniq Lu Na posf dis P rs (fun a H => proj1 (one a H)) (fun a H => proj1 (proj2 (one a H)))
    (fun a H => match has_dot (name a) as b return has_dot (name a) = b -> b = false with true => fun E => False_ind _ (Nd a H (proj1 (has_dot_ok _) E)) | false => fun _ => eq_refl end eq_refl) Ne Nc Te)
    as (m & Em & Ei & Eo & So & Val).
  exists m. split; [exact Em|]. split; [exact Ei|]. split; [exact So|]. split.
  { rewrite Eo. apply Forall_concat, Forall_map, Forall_forall. intros a Ha. apply (one a Ha). }
  intros junk Lj. split. { intros x. destruct (Val junk x Lj) as (y & Ey & Sy & _). exists y. auto. }
  intros half H0 H1 Hm affine base g n M Hg EM SM x y B ws Ex Lw Hy.
  set (c := type_size size ft) in *. set (Dm := dg size P ft) in *.
  set (bsv := fun a => match mapM (fun s => r_fun s g) (rs a) with Ret bs => bs | Raise => [] end).
  assert (Hb : forall a, In a ft -> mapM (fun s => r_fun s g) (rs a) = Ret (bsv a) /\ bsize (bsv a) = size a /\ r_fun (rep a) g = Ret (size a, value_at g (rep a)) /\
     meq (size a) (size a) (mmul (size a) (P a) (value_at g (rep a))) (mmul (size a) (bdiag (bsv a)) (P a))).
  { intros a Ha. destruct (one a Ha) as (_ & _ & _ & _ & H). destruct (H g Hg) as (X & bs & E1 & E2 & E3 & E4). unfold bsv, value_at. rewrite E2, E1. auto. }
  set (Bi := dg size (fun a => value_at g (rep a)) ft). set (Bo := bdiag (concat (map bsv ft))).
  assert (Fi : fiber_matrix rep ft g = Ret Bi) by (apply fiber_matrix_ok, Forall_forall; intros a Ha; destruct (Hb a Ha) as (_ & _ & E & _); eauto).
  assert (Fo : fiber_matrix (fun r => r) (dm_out m) g = Ret Bo).
  { unfold fiber_matrix. rewrite Eo. assert (mapM (fun a => r_fun a g) (concat (map rs ft)) = Ret (concat (map bsv ft))) as ->; [|reflexivity].
    clear - Hb. induction ft as [|a l IH]; [reflexivity|]. cbn [map concat]. rewrite FieldProofs.mapM_app. destruct (Hb a (or_introl eq_refl)) as (-> & _). cbn [bind]. rewrite IH by (intros; apply Hb; right; assumption). reflexivity. }
  assert (Bo' : forall i j, Bo i j = dg size (fun a => bdiag (bsv a)) ft i j).
  { intros i j. unfold Bo, dg. rewrite bdiag_concat, map_map. assert (map (fun a => (bsize (bsv a), bdiag (bsv a))) ft = map (fun a => (size a, bdiag (bsv a))) ft) as ->; [|reflexivity].
    apply map_ext_in. intros a Ha. destruct (Hb a Ha) as (_ & -> & _). reflexivity. }
  assert (Cm : meq c c (mmul c Dm Bi) (mmul c Bo Dm)).
  { assert (Q1 : meq c c (mmul c Dm Bi) (bdiag (map (fun a => (size a, mmul (size a) (P a) (value_at g (rep a)))) ft))).
    { pose proof (bdiag_mul2 ft size P (fun a => value_at g (rep a))) as Q. cbv zeta in Q. rewrite LibMatS.bsize_map, map_map in Q. exact Q. }
    assert (Q2 : meq c c (mmul c (dg size (fun a => bdiag (bsv a)) ft) Dm) (bdiag (map (fun a => (size a, mmul (size a) (bdiag (bsv a)) (P a))) ft))).
    { pose proof (bdiag_mul2 ft size (fun a => bdiag (bsv a)) P) as Q. cbv zeta in Q. rewrite LibMatS.bsize_map, map_map in Q. exact Q. }
    intros i j Hi Hj. rewrite (Q1 i j Hi Hj). transitivity (mmul c (dg size (fun a => bdiag (bsv a)) ft) Dm i j).
    - rewrite (Q2 i j Hi Hj).
      destruct (bdiag_ext (map (fun a => (size a, mmul (size a) (P a) (value_at g (rep a)))) ft) (map (fun a => (size a, mmul (size a) (bdiag (bsv a)) (P a))) ft)) as [E _].
      + clear - Hb. induction ft as [|a l IH]; [constructor|]. cbn [map]. constructor; [cbn [fst snd]; split; [reflexivity|apply Hb; left; reflexivity]|apply IH; intros; apply Hb; right; assumption].
      + rewrite LibMatS.bsize_map, map_map in E. apply E; assumption.
    - unfold mmul. apply sumn_ext. intros q _. rewrite Bo'. reflexivity. }
  destruct (local_equivariant c c Bi Bo (fun u => dis_forward rep name teqb m junk ft u) (fun v k => sumn c (fun j => Dm k j * v j))) with (half := half) (affine := affine) (n := n) (M := M) (x := x) (y := y) (B := B) (sp := ws)
    as (x' & y' & z & E1 & E2 & E3 & E4); try assumption.
  - intros u B' sp Eu. destruct (Val junk u Lj) as (v & Ev & Sv & Vv). exists v. split; [exact Ev|]. split; [rewrite Sv; exact Eu|]. intros bt k p Hk. apply Vv; exact Hk.
  - intros v v' k _ H. apply sumn_ext. intros j Hj. rewrite H by exact Hj. reflexivity.
  - intros v k Hk. rewrite !sumn_assoc. apply sumn_ext. intros q Hq. f_equal. exact (Cm k q Hk Hq).
  - exists x', y', z. unfold field_transform. rewrite Fi, Fo, EM. cbn [bind fst snd]. change (type_size (asize rep) ft) with c.
    split; [exact E1|]. split; [exact E2|]. split; [|exact E4]. change (type_size (asize (fun r => r)) (dm_out m)) with (type_size r_size (dm_out m)). rewrite So. exact E3.
Qed.

Theorem disentangled : ft <> [] -> teqb ft ft = true -> (forall a, In a ft -> ~ dotted (name a)) ->
  exists m Ps pieces, (forall a, In a ft -> disentangle irr linv components (rep a) = Ret (Ps a, pieces a)) /\ mk_dis rep name dis uniq ft = Ret m /\ dm_out m = concat (map pieces ft) /\
    forall junk x y, length junk = type_size size ft -> dis_forward rep name teqb m junk ft x = Ret y -> shape y = shape x /\
    forall i a o bt p, nth_error ft i = Some a -> (o < r_size (rep a))%nat ->
      entry y (bt :: field_start size ft i + o :: p)%nat = sumn (r_size (rep a)) (fun j => Ps a o j * entry x (bt :: field_start size ft i + j :: p)%nat).
Proof.
  intros Ne Te Nd.
  assert (Nc : concat (map rs ft) <> []).
  { assert (exists a, In a ft) as (a & Ha) by (clear - Ne; destruct ft as [|a l]; [congruence|exists a; left; reflexivity]). destruct (one a Ha) as (_ & _ & N & _). intros E.
    destruct (rs a) as [|b bs] eqn:Er; [congruence|]. assert (Ib : In b (concat (map rs ft))) by (apply in_concat; exists (rs a); split; [apply in_map; exact Ha|rewrite Er; left; reflexivity]). rewrite E in Ib. destruct Ib. }
  destruct (dis_value rep name teqb ft uniq Lu Na posf dis P rs (fun a H => proj1 (one a H)) (fun a H => proj1 (proj2 (one a H)))
    (fun a H => match has_dot (name a) as b return has_dot (name a) = b -> b = false with true => fun E => False_ind _ (Nd a H (proj1 (has_dot_ok _) E)) | false => fun _ => eq_refl end eq_refl) Ne Nc Te)
    as (m & Em & Ei & Eo & So & Val).
  exists m, P, rs. split; [intros a Ha; apply (one a Ha)|]. split; [exact Em|]. split; [exact Eo|].
  intros junk x y Lj Hy. destruct (Val junk x Lj) as (y' & Ey & Sy & V). rewrite Hy in Ey. apply Ret_inj in Ey. subst y'. split; [exact Sy|]. intros i a o bt p Ea Ho.
  pose proof (start_bound size ft i a Ea) as Bd. rewrite V by (unfold rsize in *; lia). exact (dg_sum rep P ft i a o (fun j => entry x (bt :: j :: p)) Ea Ho).
Qed.

Theorem dis_refused : (exists a, In a ft /\ dotted (name a)) -> mk_dis rep name dis uniq ft = Raise.
Proof.
  intros (a & Ha & Hd). unfold mk_dis. rewrite (by_name_raise name ft uniq Lu _ a Ha); [reflexivity|]. destruct (one a Ha) as (E & _). rewrite E. cbn [bind].
  rewrite (proj2 (has_dot_ok _) Hd). reflexivity.
Qed.
End Dis.

(** ** RestrictionModule *)
Lemma pgrp_eqb_refl : forall G, pgrp_eqb G G = true.
Proof. intros [[N|N]| |]; cbn; try apply Z.eqb_refl; reflexivity. Qed.

Lemma any_restrict_ok : forall linv, correct_inverse linv -> forall G id r sg, pvalid G -> listed G id -> any_subgroup G id = Ret sg -> planar_repr G r ->
  (forall parts, mapM (any_restrict_irrep G id) (r_irreps r) = Ret parts -> sharp (r_size r) (mmul (r_size r) (r_cob r) (bdiag (map fst parts)))) ->
  exists d, any_restrict linv G id r = Ret (ps_group sg, d) /\ r_size d = r_size r /\
    forall h, pmember (ps_group sg) h -> exists g A B, ps_incl sg h = Ret g /\ r_fun r g = Ret (r_size r, A) /\ r_fun d h = Ret (r_size r, B) /\ meq (r_size r) (r_size r) B A.
Proof.
  intros linv Hi G id r sg V L Es Pr Sh. unfold any_restrict. rewrite Es. cbn [bind].
  destruct G as [G| |], id as [id|id]; cbn in L; try contradiction; cbn [any_subgroup any_restrict_irrep] in *.
  - destruct (fin_restrict_repr linv Hi G id r V L Pr Sh) as (s & d & E1 & E2 & E3 & E4). apply bind_Ret in Es as (s' & Es' & Es). apply Ret_inj in Es. subst sg. rewrite E1 in Es'. apply Ret_inj in Es'. subst s'.
    cbn [ps_group ps_incl]. exists d. change (any_restrict_irrep (Fin G) (IdF id)) with (fun i => fin_restrict_irrep G i id). rewrite E2. cbn [bind]. split; [reflexivity|]. split; [exact E3|]. intros [v|?|? ?] H; cbn in H; try contradiction. destruct (E4 v H) as (g & X & Y & Eg & Q). exists (VF g), X, Y. rewrite Eg. split; [reflexivity|exact Q].
  - destruct (p_restrict_repr linv Hi SO2 id r L Pr Sh) as (s & d & E1 & E2 & E3 & E4). rewrite Es in E1. apply Ret_inj in E1. subst s. exists d. change (any_restrict_irrep SO2 (IdP id)) with (fun i => p_restrict_irrep SO2 i id). rewrite E2. auto.
  - destruct (p_restrict_repr linv Hi O2 id r L Pr Sh) as (s & d & E1 & E2 & E3 & E4). rewrite Es in E1. apply Ret_inj in E1. subst s. exists d. change (any_restrict_irrep O2 (IdP id)) with (fun i => p_restrict_irrep O2 i id). rewrite E2. auto.
Qed.

Lemma same_result_sym : forall {X} (a b : res (array X)), same_result a b -> same_result b a.
Proof.
  intros X [|a] [|b] H; cbn in *; try contradiction; [exact I|]. destruct H as (Es & He). split; [congruence|]. intros idx V. symmetry. apply He. rewrite Es. exact V.
Qed.
Lemma bind_id : forall {X} (a : res X), (x <- a ;; Ret x) = a.
Proof. intros X [|x]; reflexivity. Qed.

Section Restriction.
Context {A : Type}.
Variable rep : A -> repr pval.
Variable name : A -> string.
Variable teqb : list A -> list A -> bool.
Variables ft uniq : list A.
Hypothesis Lu : listing ft uniq.
Hypothesis Na : named_apart name ft.

Theorem restriction_ok : ft <> [] -> teqb ft ft = true -> forall linv sid s id, correct_inverse linv -> pdocumented O2 sid -> clear_axis sid -> mk_gspace2 linv sid = Ret s -> listed (gs_group s) id ->
  (forall b, joint_axis sid id b -> b <= 2 * PI /\ (b = 0 \/ / 10000000 <= b)) ->
  Forall (fun a => planar_repr (gs_group s) (rep a) /\ forall parts, mapM (any_restrict_irrep (gs_group s) id) (r_irreps (rep a)) = Ret parts ->
     sharp (r_size (rep a)) (mmul (r_size (rep a)) (r_cob (rep a)) (bdiag (map fst parts)))) ft ->
  exists sg s' outs, any_subgroup (gs_group s) id = Ret sg /\ type_restrict rep name linv s uniq ft id = Ret (s', outs) /\ gs_group s' = ps_group sg /\
    map r_size outs = map (fun a => r_size (rep a)) ft /\
    forall h, pmember (ps_group sg) h -> exists g, ps_incl sg h = Ret g /\ pmember (gs_group s) g /\
      forall half affine x, reads_entries affine ->
        same_result (x' <- field_transform rep half affine (r_fun (gs_base s)) ft g x ;; restriction_forward teqb ft ft x')
          (y <- restriction_forward teqb ft ft x ;; field_transform (fun r => r) half affine (r_fun (gs_base s')) outs h y).
Proof.
  intros Ne Te linv sid s id Hi HD HC Es L J F.
  destruct (GSpaceThms.restrict_ok linv sid s id Hi HD HC Es L J) as (sg & s' & E1 & E2 & E3 & Emb & H).
  assert (V : pvalid (gs_group s)).
  { unfold mk_gspace2 in Es. apply bind_Ret in Es as (sg1 & Ep & Es). apply bind_Ret in Es as (? & _ & Es). apply Ret_inj in Es. subst s. exact (ps_valid _ _ _ HD Ep). }
  rewrite Forall_forall in F.
  set (R1 := fun a => match any_restrict linv (gs_group s) id (rep a) with Ret q => snd q | Raise => rep a end).
  assert (HR : forall a, In a ft -> any_restrict linv (gs_group s) id (rep a) = Ret (ps_group sg, R1 a) /\ r_size (R1 a) = r_size (rep a) /\
    forall h, pmember (ps_group sg) h -> exists g X Y, ps_incl sg h = Ret g /\ r_fun (rep a) g = Ret (r_size (rep a), X) /\ r_fun (R1 a) h = Ret (r_size (rep a), Y) /\ meq (r_size (rep a)) (r_size (rep a)) Y X).
  { intros a Ha. destruct (F a Ha) as (Pr & Sh). destruct (any_restrict_ok linv Hi _ id (rep a) sg V L E1 Pr Sh) as (d & Ed & Q). unfold R1. rewrite Ed. split; [reflexivity|exact Q]. }
  exists sg, s', (map R1 ft). split; [exact E1|]. split.
  { unfold type_restrict. rewrite E2. cbn [bind fst snd]. rewrite (by_name_ok name ft uniq Lu _ (fun a => (ps_group sg, R1 a)) (fun a Ha => proj1 (HR a Ha))). cbn [bind].
    rewrite (mapM_Ret_map _ _ _ (fun a => (ps_group sg, R1 a))) by (intros a Ha; apply (by_name_get name ft uniq Lu Na (fun a => (ps_group sg, R1 a))); exact Ha). cbn [bind].
    unfold mk_type. rewrite map_length. destruct (Nat.eqb_spec (length ft) 0) as [E0|_]; [apply length_zero_iff_nil in E0; contradiction|]. cbn [negb assert_ bind].
    replace (forallb _ (map _ ft)) with true; [cbn [assert_ bind]; rewrite map_map; reflexivity|].
    symmetry. apply forallb_forall. intros f Hf. apply in_map_iff in Hf as (a & <- & _). cbn [fst]. rewrite E3. apply pgrp_eqb_refl. }
  split; [exact E3|]. split. { rewrite map_map. apply map_ext_in. intros a Ha. apply (HR a Ha). }
  intros h Hh. destruct (H h Hh) as (g & q & B & B' & Eg & Mg & _ & _ & Eb' & Eb & HB & _). exists g. split; [exact Eg|]. split; [exact Mg|].
  intros half affine x Ha. unfold restriction_forward. rewrite Te. cbn [assert_ bind]. rewrite bind_id. apply same_result_sym. unfold field_transform. rewrite Eb', Eb. cbn [fst snd].
  rewrite (fiber_matrix_ok rep ft g) by (apply Forall_forall; intros a Ia; destruct (HR a Ia) as (_ & _ & K); destruct (K h Hh) as (g' & X & Y & Eg' & EX & _); rewrite Eg in Eg'; apply Ret_inj in Eg'; subst g'; eauto).
  rewrite (fiber_matrix_ok (fun r => r) (map R1 ft) h) by (apply Forall_map, Forall_forall; intros a Ia; destruct (HR a Ia) as (_ & S & K); destruct (K h Hh) as (g' & X & Y & _ & _ & EY & _); exists Y; unfold asize; rewrite S; exact EY).
  cbn [bind].
  assert (Sz : type_size (asize (fun r => r)) (map R1 ft) = type_size (asize rep) ft) by (unfold type_size; f_equal; rewrite map_map; apply map_ext_in; intros a Ia; apply (HR a Ia)).
  rewrite Sz. apply transform_ext; [exact Ha| |exact HB].
  unfold dg. rewrite map_map.
  destruct (bdiag_ext (map (fun a => (asize (fun r => r) (R1 a), value_at h (R1 a))) ft) (map (fun a => (asize rep a, value_at g (rep a))) ft)) as [E _].
  - clear - HR Eg Hh. induction ft as [|a l IH]; [constructor|]. cbn [map]. constructor.
    + cbn [fst snd]. destruct (HR a (or_introl eq_refl)) as (_ & S & K). destruct (K h Hh) as (g' & X & Y & Eg' & EX & EY & Q). rewrite Eg in Eg'. apply Ret_inj in Eg'. subst g'.
      unfold asize. split; [exact S|]. unfold value_at. rewrite EX, EY, S. exact Q.
    + apply IH. intros; apply HR; right; assumption.
  - rewrite LibMatS.bsize_map, map_map in E. rewrite <- Sz. unfold type_size. rewrite map_map. exact E.
Qed.
End Restriction.

(** ** Tensors of another type *)
Theorem other_types_refused : forall {A T} (rep : A -> repr T) name teqb dis uniq ft m xt, mk_dis rep name dis uniq ft = Ret m -> teqb xt ft = false ->
  (forall junk x, dis_forward rep name teqb m junk xt x = Raise) /\ forall x, restriction_forward teqb ft xt x = Raise.
Proof.
  intros A T rep name teqb dis uniq ft m xt Em Et. split.
  - intros junk x. unfold mk_dis in Em. do 5 (apply bind_Ret in Em as (? & _ & Em)). apply Ret_inj in Em. subst m. unfold dis_forward. cbn [dm_in]. rewrite Et. reflexivity.
  - intros x. unfold restriction_forward. rewrite Et. reflexivity.
Qed.
