(** Proofs about BlocksModel: what is reported about every weight. *)
From Coq Require Import String.
From Coq Require Import List ZArith Arith Bool Reals Lia Lra Permutation Sorted.
From Verif Require Import LibRes LibPy LibMat FieldModel SpecField FieldProofs BranchProofs LabelThms MergeThms GroupedModel GroupedProofs PoolProofs BlocksModel SpecBlocks BlocksProofs BlocksThms.
Import ListNotations.
Local Open Scope nat_scope.

Lemma imap_app : forall {B C} (f : nat -> B -> C) l m k, imap f k (l ++ m) = imap f k l ++ imap f (k + List.length l) m.
Proof.
  intros B C f l; induction l as [|x l IH]; intros m k; cbn [app imap List.length]; [rewrite Nat.add_0_r; reflexivity|].
  rewrite IH. do 3 f_equal. lia.
Qed.
Lemma imap_imap : forall {B C D E} (f : nat -> C -> E) (g : nat -> B -> C) (f' : nat -> D -> E) (g' : nat -> B -> D) l k j,
  (forall a b x, f a (g b x) = f' a (g' b x)) -> imap f k (imap g j l) = imap f' k (imap g' j l).
Proof. intros B C D E f g f' g' l; induction l as [|x l IH]; intros k j H; [reflexivity|]. cbn [imap]. rewrite H. f_equal. apply IH, H. Qed.
Lemma nth_flat : forall {B C} (f : B -> list C) d l k, 0 < d -> (forall x, In x l -> List.length (f x) = d) ->
  nth_error (flat_map f l) k = match nth_error l (k / d) with Some x => nth_error (f x) (k mod d) | None => None end.
Proof.
  intros B C f d l; induction l as [|x l IH]; intros k Pd Len.
  - cbn. destruct (k / d), k; reflexivity.
  - cbn [flat_map]. destruct (le_lt_dec d k) as [H|H].
    + rewrite nth_error_app2 by (rewrite Len by (left; reflexivity); exact H). rewrite Len by (left; reflexivity).
      rewrite IH; [|exact Pd|intros y Hy; apply Len; right; exact Hy].
      assert (k / d = S ((k - d) / d) /\ k mod d = (k - d) mod d) as [-> ->]; [|reflexivity].
      assert (k = (k - d) + 1 * d) as E by lia. split.
      * rewrite E at 1. rewrite Nat.div_add by lia. lia.
      * rewrite E at 1. rewrite Nat.mod_add by lia. reflexivity.
    + rewrite nth_error_app1 by (rewrite Len by (left; reflexivity); exact H). rewrite Nat.div_small, Nat.mod_small by lia. reflexivity.
Qed.
Lemma flat_length : forall {B C} (f : B -> list C) d l, (forall x, In x l -> List.length (f x) = d) -> List.length (flat_map f l) = List.length l * d.
Proof.
  intros B C f d l; induction l as [|x l IH]; intros Len; [reflexivity|]. cbn [flat_map List.length]. rewrite app_length, (Len x (or_introl eq_refl)).
  rewrite IH by (intros y Hy; apply Len; right; exact Hy). lia.
Qed.
Lemma NoDup_flat : forall {B C} (f : B -> list C) l, NoDup l -> (forall x, In x l -> NoDup (f x)) ->
  (forall x y c, In x l -> In y l -> In c (f x) -> In c (f y) -> x = y) -> NoDup (flat_map f l).
Proof.
  intros B C f l ND; induction ND as [|x l N ND IH]; intros F D; [constructor|]. cbn [flat_map]. apply NoDup_app_intro.
  - apply F. left. reflexivity.
  - apply IH; [intros y Hy; apply F; right; exact Hy|]. intros y z c Hy Hz. apply D; right; assumption.
  - intros c Hc Hc'. apply in_flat_map in Hc'. destruct Hc' as (y & Hy & Hc'). apply N. rewrite (D x y c); auto; [left; reflexivity|right; exact Hy].
Qed.
Lemma labelled_cons : forall x ls l, labelled String.eqb (x :: ls) l = (if String.eqb x l then [0] else []) ++ map S (labelled String.eqb ls l).
Proof.
  intros x ls l. rewrite !labelled_pos. cbn [pos]. rewrite pos_shift. reflexivity.
Qed.
Lemma irreps_counts_ok : forall {A} (nirreps : A -> nat) (l : list A), irreps_counts nirreps l = map (field_start nirreps l) (seq 0 (List.length l + 1)).
Proof.
  intros A nirreps l. induction l as [|r l IH] using rev_ind; [reflexivity|]. unfold irreps_counts. rewrite fold_left_app. cbn [fold_left].
  fold (irreps_counts nirreps l). rewrite IH. rewrite app_length. cbn [List.length].
  replace (List.length l + 1 + 1) with ((List.length l + 1) + 1) by lia. rewrite (seq_app (List.length l + 1) 1), map_app. f_equal.
  - apply map_ext_in. intros k Hk. apply in_seq in Hk. unfold field_start. rewrite firstn_app. replace (k - List.length l) with 0 by lia. cbn [firstn]. rewrite app_nil_r. reflexivity.
  - cbn [seq map]. f_equal. rewrite (seq_app (List.length l) 1), map_app. cbn [seq map]. rewrite last_last. unfold field_start.
    rewrite Nat.add_0_l. rewrite (firstn_all2 (n := List.length l + 1)) by (rewrite app_length; cbn; lia). rewrite firstn_all. rewrite map_app, list_sum_app. cbn. lia.
Qed.
Lemma irreps_count : forall {A} (nirreps : A -> nat) (l : list A) k, k < List.length l -> get_nth (irreps_counts nirreps l) k = Ret (field_start nirreps l k).
Proof.
  intros A nirreps l k H. apply get_nth_Ret. rewrite irreps_counts_ok. rewrite nth_error_map. rewrite nth_error_nth' with (d := 0) by (rewrite seq_length; lia).
  rewrite seq_nth by lia. reflexivity.
Qed.

Section Search.
Context {A : Type}.
Variable name : A -> string.
Variable nirreps : A -> nat.
Notation start := (field_start nirreps).
Lemma start_cons : forall r l k, start (r :: l) (S k) = nirreps r + start l k.
Proof. reflexivity. Qed.
Lemma search_in_ok : forall p target l cnt i iirr, cnt <= target ->
  search_in name nirreps p (snd p) target cnt i iirr l =
  match nth_error (labelled String.eqb (map name l) (fst p)) (target - cnt) with
  | Some q => inl (i + q, iirr + start l q)
  | None => inr (cnt + List.length (labelled String.eqb (map name l) (fst p)))
  end.
Proof.
  intros p target l; induction l as [|r l IH]; intros cnt i iirr H; cbn [map search_in].
  - cbn. destruct (target - cnt); cbn; rewrite Nat.add_0_r; reflexivity.
  - rewrite labelled_cons. unfold pair_eqb at 1. cbn [fst snd]. rewrite String.eqb_refl, andb_true_r, String.eqb_sym.
    destruct (String.eqb (name r) (fst p)).
    + destruct (Nat.eqb_spec cnt target) as [->|N].
      * rewrite Nat.sub_diag. cbn [app nth_error]. rewrite Nat.add_0_r. unfold field_start. cbn. rewrite Nat.add_0_r. reflexivity.
      * rewrite IH by lia. replace (target - cnt) with (S (target - (cnt + 1))) by lia. cbn [app nth_error List.length]. rewrite nth_error_map, map_length.
        destruct (nth_error (labelled String.eqb (map name l) (fst p)) (target - (cnt + 1))) as [q|]; cbn [option_map].
        -- rewrite start_cons. f_equal. f_equal; lia.
        -- f_equal. lia.
    + rewrite IH by lia. cbn [app]. rewrite nth_error_map, map_length.
      destruct (nth_error (labelled String.eqb (map name l) (fst p)) (target - cnt)) as [q|]; cbn [option_map].
      * rewrite start_cons. f_equal. f_equal; lia.
      * reflexivity.
Qed.
Lemma search_in_other : forall p oname target l cnt i iirr, oname <> snd p -> search_in name nirreps p oname target cnt i iirr l = inr cnt.
Proof.
  intros p oname target l; induction l as [|r l IH]; intros cnt i iirr H; cbn [search_in]; [reflexivity|].
  unfold pair_eqb at 1. cbn [fst snd]. rewrite (proj2 (String.eqb_neq (snd p) oname)) by congruence. rewrite andb_false_r. apply IH, H.
Qed.
Definition cells_of (p : string * string) (outs ins : list A) : list (nat * nat) :=
  flat_map (fun o => map (fun i => (o, i)) (labelled String.eqb (map name ins) (fst p))) (labelled String.eqb (map name outs) (snd p)).
Lemma search_out_ok : forall p target ins outs cnt o oirr oo ii, cnt <= target -> nth_error (cells_of p outs ins) (target - cnt) = Some (oo, ii) ->
  search_out name nirreps p target cnt o oirr outs ins = Ret ((o + oo, oirr + start outs oo), (ii, start ins ii)).
Proof.
  intros p target ins outs; induction outs as [|r outs IH]; intros cnt o oirr oo ii Hc Hn.
  - destruct (target - cnt); discriminate.
  - unfold cells_of in Hn. cbn [map] in Hn. rewrite labelled_cons, flat_map_app in Hn. cbn [search_out].
    assert (flat_map (fun o => map (fun i => (o, i)) (labelled String.eqb (map name ins) (fst p))) (map S (labelled String.eqb (map name outs) (snd p))) =
      map (fun c => (S (fst c), snd c)) (cells_of p outs ins)) as Em.
    { clear Hn IH. unfold cells_of. induction (labelled String.eqb (map name outs) (snd p)) as [|a t IHt]; [reflexivity|]. cbn [map flat_map]. rewrite map_app, <- IHt, map_map. reflexivity. }
    rewrite Em in Hn. clear Em. destruct (String.eqb_spec (name r) (snd p)) as [E|N].
    + rewrite E, search_in_ok by exact Hc. cbn [flat_map] in Hn. rewrite app_nil_r in Hn. set (m := labelled String.eqb (map name ins) (fst p)) in *.
      destruct (nth_error m (target - cnt)) as [q|] eqn:Eq.
      * rewrite nth_error_app1 in Hn by (rewrite map_length; apply nth_error_Some; congruence). rewrite nth_error_map, Eq in Hn. cbn in Hn. injection Hn as <- <-.
        unfold field_start. cbn. rewrite ?Nat.add_0_r. reflexivity.
      * apply nth_error_None in Eq. rewrite nth_error_app2 in Hn by (rewrite map_length; exact Eq). rewrite map_length, nth_error_map in Hn.
        replace (target - cnt - List.length m) with (target - (cnt + List.length m)) in Hn by lia.
        destruct (nth_error (cells_of p outs ins) (target - (cnt + List.length m))) as [[a b]|] eqn:Ec; [|discriminate]. cbn in Hn. injection Hn as <- <-.
        rewrite (IH _ _ _ a b); [|lia|exact Ec]. rewrite start_cons. do 3 f_equal; lia.
    + rewrite search_in_other by exact N. cbn [flat_map app] in Hn. rewrite nth_error_map in Hn.
      destruct (nth_error (cells_of p outs ins) (target - cnt)) as [[a b]|] eqn:Ec; [|discriminate]. cbn in Hn. injection Hn as <- <-.
      rewrite (IH _ _ _ a b); [|lia|exact Ec]. rewrite start_cons. do 3 f_equal; lia.
Qed.
End Search.
