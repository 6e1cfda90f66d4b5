(** Lemmas about sampling, regularised least squares and their symmetries. *)
From Coq Require Import Reals List ZArith Arith Bool Lia Lra Permutation.
From Verif Require Import LibRes LibMat LibMatS NonlinModel NonlinProofs SpecNonlin FourierModel.
Import ListNotations.
Open Scope R_scope.

(** ** sums over lists *)
Lemma lsum_perm : forall l m, Permutation l m -> lsum l = lsum m.
Proof. exact fold_right_Rplus_perm. Qed.
Lemma lsum_plus : forall {X} (f g : X -> R) l, lsum (map (fun x => f x + g x) l) = lsum (map f l) + lsum (map g l).
Proof. intros X f g l; induction l as [|x l IH]; cbn [map lsum fold_right]; [ring|]. unfold lsum in *; rewrite IH; ring. Qed.
Lemma lsum_scal : forall {X} c (f : X -> R) l, lsum (map (fun x => c * f x) l) = c * lsum (map f l).
Proof. intros X c f l; induction l as [|x l IH]; cbn [map lsum fold_right]; [ring|]. unfold lsum in *; rewrite IH; ring. Qed.
Lemma lsum_sumn : forall {X} n (F : X -> nat -> R) l,
  lsum (map (fun x => sumn n (F x)) l) = sumn n (fun i => lsum (map (fun x => F x i) l)).
Proof.
  intros X n F l; induction l as [|x l IH]; cbn [map lsum fold_right].
  - symmetry; apply sumn_0; reflexivity.
  - unfold lsum in *. rewrite IH, <- sumn_plus. reflexivity.
Qed.
Lemma lsum_ext : forall {X} (f g : X -> R) l, (forall x, In x l -> f x = g x) -> lsum (map f l) = lsum (map g l).
Proof. intros X f g l H; f_equal; apply map_ext_in; exact H. Qed.

Lemma dot_sumn : forall u v n, length u = n -> length v = n -> dot u v = sumn n (fun i => nth i u 0 * nth i v 0).
Proof.
  induction u as [|a u IH]; intros [|b v] n Lu Lv; cbn [length] in *; subst n; try discriminate; [reflexivity|].
  unfold dot in *; cbn [combine map lsum fold_right fst snd]. unfold lsum in IH. rewrite (IH v (length u) eq_refl ltac:(lia)), sumn_S_first. reflexivity.
Qed.

Lemma dot_orth : forall n M u v, orthogonal n M -> length u = n -> length v = n -> dot (mv n M u) (mv n M v) = dot u v.
Proof.
  intros n M u v [_ O] Lu Lv. rewrite (dot_sumn _ _ n) by apply mv_length. rewrite (dot_sumn _ _ n) by assumption.
  transitivity (sumn n (fun i => sumn n (fun j => sumn n (fun k => mtr M j i * M i k * (nth j u 0 * nth k v 0))))).
  { apply sumn_ext; intros i Hi. rewrite !mv_nth by exact Hi. rewrite <- sumn_scal_r. apply sumn_ext; intros j _.
    rewrite <- sumn_scal_l. apply sumn_ext; intros k _. unfold mtr; ring. }
  rewrite sumn_swap. apply sumn_ext; intros j Hj. rewrite sumn_swap.
  transitivity (sumn n (fun k => mid j k * (nth j u 0 * nth k v 0))).
  { apply sumn_ext; intros k Hk. rewrite <- (O j k Hj Hk). unfold mmul. rewrite <- sumn_scal_r. reflexivity. }
  rewrite (sumn_single n j) by (try exact Hj; intros k _ N; unfold mid; destruct (Nat.eqb_spec j k); try congruence; ring).
  unfold mid; rewrite Nat.eqb_refl; ring.
Qed.

(** ** symmetry of the regularised least squares *)
Section Core.
Variables (n n' : nat) (M M' Gi : mat) (fn : R -> R).
Variable P : list (list R * list R).
Hypothesis lengths : Forall (fun p => length (fst p) = n /\ length (snd p) = n') P.
Hypothesis (OM : orthogonal n M) (OM' : orthogonal n' M').
Hypothesis moved : Permutation (map (fun p => (mv n M (fst p), mv n' M' (snd p))) P) P.
Hypothesis GI : inverse_of n' (gram n' (map snd P)) Gi.

Definition answer (x : list R) (f : nat) : R :=
  lsum (map (fun p => fn (dot x (fst p)) * sumn n' (fun i => Gi f i * nth i (snd p) 0)) P).

Lemma over_moved : forall F : list R * list R -> R,
  lsum (map F P) = lsum (map (fun p => F (mv n M (fst p), mv n' M' (snd p))) P).
Proof.
  intros F. rewrite <- (lsum_perm _ _ (Permutation_map F moved)), map_map. reflexivity.
Qed.

Lemma gram_moved : meq n' n' (gram n' (map snd P)) (mmul n' (mmul n' M' (gram n' (map snd P))) (mtr M')).
Proof.
  destruct OM' as [O1 _]. intros i j Hi Hj.
  transitivity (mmul n' (mmul n' M' (fun a b => lsum (map (fun p : list R * list R => nth a (snd p) 0 * nth b (snd p) 0) P))) (mtr M') i j
    + / 10 ^ 8 * mid i j).
  - unfold gram at 1. f_equal. rewrite map_map.
    rewrite (over_moved (fun p => nth i (snd p) 0 * nth j (snd p) 0)). cbn [snd].
    unfold mmul.
    transitivity (lsum (map (fun p : list R * list R => sumn n' (fun b => sumn n' (fun a => M' i a * (nth a (snd p) 0 * nth b (snd p) 0) * M' j b))) P)).
    + apply lsum_ext; intros p _. rewrite !mv_nth by assumption. rewrite <- sumn_scal_l. apply sumn_ext; intros b _.
      rewrite <- sumn_scal_r. apply sumn_ext; intros a _. ring.
    + rewrite lsum_sumn. apply sumn_ext; intros b _. rewrite lsum_sumn. rewrite <- sumn_scal_r. apply sumn_ext; intros a _.
      unfold mtr. transitivity (M' i a * M' j b * lsum (map (fun p : list R * list R => nth a (snd p) 0 * nth b (snd p) 0) P)); [|ring].
      rewrite <- lsum_scal. apply lsum_ext; intros; ring.
  - rewrite <- (O1 i j Hi Hj). unfold mmul. rewrite <- sumn_scal_l, <- sumn_plus. apply sumn_ext; intros b Hb.
    set (K := fun a b => lsum (map (fun p : list R * list R => nth a (snd p) 0 * nth b (snd p) 0) P)).
    assert (E : sumn n' (fun a => M' i a * gram n' (map snd P) a b) = sumn n' (fun a => M' i a * K a b) + / 10 ^ 8 * M' i b).
    { transitivity (sumn n' (fun a => M' i a * K a b) + sumn n' (fun a => / 10 ^ 8 * (M' i a * mid a b))).
      - rewrite <- sumn_plus. apply sumn_ext; intros a _. unfold gram, K. rewrite map_map. ring.
      - f_equal. rewrite sumn_scal_l. f_equal. rewrite (sumn_single n' b (fun a => M' i a * mid a b) Hb).
        + unfold mid; rewrite Nat.eqb_refl; ring.
        + intros k _ N; unfold mid; destruct (Nat.eqb_spec k b); [congruence|ring]. }
    rewrite E. unfold K. ring.
Qed.

Lemma gram_commutes : meq n' n' (mmul n' M' (gram n' (map snd P))) (mmul n' (gram n' (map snd P)) M').
Proof.
  set (G := gram n' (map snd P)). destruct OM' as [_ O2].
  assert (H : meq n' n' (mmul n' G M') (mmul n' (mmul n' (mmul n' M' G) (mtr M')) M')) by (apply mmul_ext; [exact gram_moved|apply meq_refl]).
  apply meq_sym. apply (meq_trans _ _ _ _ _ H).
  apply (meq_trans _ _ _ (mmul n' (mmul n' M' G) (mmul n' (mtr M') M'))); [apply mmul_assoc_eq|].
  apply (meq_trans _ _ _ (mmul n' (mmul n' M' G) mid)); [apply mmul_ext; [apply meq_refl|exact O2]|apply mid_r].
Qed.

Lemma inverse_commutes : meq n' n' (mmul n' Gi M') (mmul n' M' Gi).
Proof.
  set (G := gram n' (map snd P)). pose proof gram_commutes as C. fold G in C. destruct GI as [G1 G2]. fold G in G1, G2.
  apply (meq_trans _ _ _ (mmul n' (mmul n' Gi M') (mmul n' G Gi))).
  { apply meq_sym. apply (meq_trans _ _ _ (mmul n' (mmul n' Gi M') mid)); [apply mmul_ext; [apply meq_refl|exact G1]|apply mid_r]. }
  apply (meq_trans _ _ _ (mmul n' (mmul n' Gi (mmul n' M' G)) Gi)).
  { apply (meq_trans _ _ _ (mmul n' (mmul n' (mmul n' Gi M') G) Gi)); [apply meq_sym, mmul_assoc_eq|].
    apply mmul_ext; [apply mmul_assoc_eq|apply meq_refl]. }
  apply (meq_trans _ _ _ (mmul n' (mmul n' (mmul n' Gi G) M') Gi)).
  { apply mmul_ext; [|apply meq_refl]. apply (meq_trans _ _ _ (mmul n' Gi (mmul n' G M'))); [apply mmul_ext; [apply meq_refl|exact C]|apply meq_sym, mmul_assoc_eq]. }
  apply mmul_ext; [|apply meq_refl]. apply (meq_trans _ _ _ (mmul n' mid M')); [apply mmul_ext; [exact G2|apply meq_refl]|apply mid_l].
Qed.

Lemma answer_moves : forall x f, length x = n -> (f < n')%nat -> answer (mv n M x) f = sumn n' (fun i => M' f i * answer x i).
Proof.
  intros x f Lx Hf. unfold answer.
  rewrite (over_moved (fun p => fn (dot (mv n M x) (fst p)) * sumn n' (fun i => Gi f i * nth i (snd p) 0))). cbn [fst snd].
  transitivity (lsum (map (fun p : list R * list R => sumn n' (fun i => M' f i * (fn (dot x (fst p)) * sumn n' (fun j => Gi i j * nth j (snd p) 0)))) P)).
  - apply lsum_ext; intros p Hp. rewrite Forall_forall in lengths. destruct (lengths p Hp) as [L1 L2].
    rewrite dot_orth by assumption.
    transitivity (fn (dot x (fst p)) * sumn n' (fun j => mmul n' Gi M' f j * nth j (snd p) 0)).
    + f_equal. unfold mmul. transitivity (sumn n' (fun i => sumn n' (fun j => Gi f i * M' i j * nth j (snd p) 0))).
      * apply sumn_ext; intros i Hi. rewrite mv_nth by exact Hi. rewrite <- sumn_scal_l. apply sumn_ext; intros; ring.
      * rewrite sumn_swap. apply sumn_ext; intros j _. rewrite sumn_scal_r. reflexivity.
    + transitivity (fn (dot x (fst p)) * sumn n' (fun j => mmul n' M' Gi f j * nth j (snd p) 0)).
      { f_equal. apply sumn_ext; intros j Hj. rewrite (inverse_commutes f j Hf Hj). reflexivity. }
      unfold mmul. rewrite <- sumn_scal_l.
      transitivity (sumn n' (fun j => sumn n' (fun i => fn (dot x (fst p)) * (M' f i * Gi i j * nth j (snd p) 0)))).
      * apply sumn_ext; intros j _. rewrite <- sumn_scal_r, <- sumn_scal_l. reflexivity.
      * rewrite sumn_swap. apply sumn_ext; intros i _. rewrite <- !sumn_scal_l. apply sumn_ext; intros; ring.
  - rewrite lsum_sumn. apply sumn_ext; intros i _. apply lsum_scal.
Qed.
End Core.
