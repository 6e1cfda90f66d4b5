(** The matrices built from the generators of the octahedral group. *)
From Coq Require Import Reals ZArith Bool List Lia Lra Arith Permutation.
From Verif Require Import LibRes LibMat LibMatS SpecGroup IrrepModel SpecRep PlanarModel SpaceModel SpecSpace SpaceProofs SpaceThms SphereProofs OctaModel SpecOcta
  OctaProofs OctaThms GenModel SpecGen GenProofs GenSame OctaIrrepModel SpecOctaIrrep OctaIrrep1.
Import ListNotations.
Open Scope R_scope.

(** the element behind a quaternion: its matrix *)
Definition entries (q : quat) : list R :=
  let M := as_matrix q in
  [M 0%nat 0%nat; M 0%nat 1%nat; M 0%nat 2%nat; M 1%nat 0%nat; M 1%nat 1%nat; M 1%nat 2%nat; M 2%nat 0%nat; M 2%nat 1%nat; M 2%nat 2%nat].

Lemma entries_same : forall p q, entries p = entries q <-> same_rotation p q.
Proof.
  intros p q; unfold entries, same_rotation; split.
  - intros E i j Hi Hj; injection E as E0 E1 E2 E3 E4 E5 E6 E7 E8.
    destruct i as [|[|[|i]]]; [| | |exfalso; lia]; (destruct j as [|[|[|j]]]; [| | |exfalso; lia]); assumption.
  - intros M; rewrite !M by lia; reflexivity.
Qed.

Lemma tuple_refl : forall l, tuple_eqb l l = true.
Proof. induction l as [|x l IH]; cbn; [reflexivity|]; destruct (Req_EM_T x x); [exact IH|contradiction]. Qed.

Lemma octa_decides : decides_by entries octahedral octa_eqb.
Proof.
  intros p q [Up Sp] [Uq Sq]; rewrite entries_same; unfold octa_eqb; split.
  - destruct (q_hash_key p) as [|h]; [discriminate|]; destruct (q_hash_key q) as [|k]; [discriminate|].
    destruct (q_equal p q) as [|b] eqn:E; [discriminate|]; rewrite andb_true_iff; intros [_ ->].
    intros i j Hi Hj; pose proof (q_equal_sound p q Up Uq E i j Hi Hj) as B.
    assert (Small : / 10 ^ 4 < 1 / 2) by lra.
    pose proof (Rle_abs (as_matrix p i j - as_matrix q i j)) as B1; pose proof (Rle_abs (- (as_matrix p i j - as_matrix q i j))) as B2.
    rewrite Rabs_Ropp in B2.
    destruct (Sp i j Hi Hj) as [X|[X|X]]; destruct (Sq i j Hi Hj) as [Y|[Y|Y]]; rewrite X, Y in *; lra.
  - intros S; destruct (hash_same p q Up Uq S) as (k & -> & ->); rewrite (q_equal_complete p q Up Uq S), tuple_refl; reflexivity.
Qed.

Lemma octa_enumerates : enumerates_by entries octahedral octa_elements.
Proof.
  destruct octa_list as (L & F & D & C); split.
  - apply NoDup_nth_error; intros i j Hi E; rewrite map_length, L in Hi.
    destruct (Nat.lt_ge_cases j 24) as [Hj|Hj].
    + apply D; [exact Hi|exact Hj|]; rewrite !nth_error_map in E.
      rewrite (nth_error_nth' _ so3_id), (nth_error_nth' _ so3_id) in E by lia; cbn [option_map] in E.
      apply entries_same; congruence.
    + rewrite (proj2 (nth_error_None (map entries octa_elements) j)) in E by (rewrite map_length; lia).
      apply nth_error_None in E; rewrite map_length in E; lia.
  - exact F.
  - intros x Hx; destruct (C x Hx) as (p & I & S); apply in_map_iff; exists p; split; [apply entries_same; intros i j Hi Hj; symmetry; apply S; assumption|exact I].
Qed.

Lemma octa_congruent : forall g x y a b, octahedral g -> octahedral x -> octahedral y -> entries x = entries y ->
  octa_mul g x = Ret a -> octa_mul g y = Ret b -> entries a = entries b.
Proof.
  intros g x y a b Hg Hx Hy E Ea Eb; rewrite octa_mul_ok in Ea, Eb by assumption; apply Ret_inj in Ea, Eb; subst.
  apply entries_same in E; apply entries_same; intros i j Hi Hj; rewrite !oct_mul_mat by assumption.
  rewrite !(E _ j) by lia; reflexivity.
Qed.

(** products of tables *)
Definition tmul (a b : list Z) : list Z :=
  flat_map (fun i => map (fun j => (nth (3 * i) a 0 * nth j b 0 + nth (3 * i + 1) a 0 * nth (3 + j) b 0 + nth (3 * i + 2) a 0 * nth (6 + j) b 0)%Z) [0; 1; 2]%nat) [0; 1; 2]%nat.

Definition tabled (q : quat) (l : list Z) : Prop := meq 3 3 (as_matrix q) (table_mat l).

Lemma tabled_mul : forall p q a b, tabled p a -> tabled q b -> tabled (qmul p q) (tmul a b).
Proof.
  intros p q a b A B i j Hi Hj; rewrite oct_mul_mat by assumption; rewrite !A, !B by lia; unfold table_mat, tmul.
  destruct i as [|[|[|i]]]; [| | |exfalso; lia]; (destruct j as [|[|[|j]]]; [| | |exfalso; lia]);
    cbn [flat_map map app nth Nat.mul Nat.add]; rewrite !plus_IZR, !mult_IZR; ring.
Qed.

Lemma tabled_nth : forall n, (n < 24)%nat -> tabled (nth n octa_elements so3_id) (nth n octa_tables []).
Proof. intros n Hn i j Hi Hj; apply octa_table; assumption. Qed.

Lemma tabled_conj : forall q a, tabled q a -> tabled (qconj q) (map (fun k => nth k a 0%Z) [0; 3; 6; 1; 4; 7; 2; 5; 8]%nat).
Proof.
  intros q a A i j Hi Hj; rewrite (mat_conj q i j Hi Hj); unfold mtr; rewrite A by assumption; unfold table_mat.
  destruct i as [|[|[|i]]]; [| | |exfalso; lia]; (destruct j as [|[|[|j]]]; [| | |exfalso; lia]); reflexivity.
Qed.

(** the generators *)
Definition el (n : nat) : quat := nth n octa_elements so3_id.
Lemma el_oct : forall n, (n < 24)%nat -> octahedral (el n).
Proof.
  intros n Hn; pose proof elements_octahedral as F; rewrite Forall_forall in F; apply F, nth_In; cbn; lia.
Qed.

Definition gen_t : quat := qmul (qmul (qmul (qconj (el 11)) (el 0)) (el 11)) (qmul (qmul (el 17) (el 17)) (el 17)).

Lemma gens_eq : octa_gens = Ret (gen_t, el 0, el 11).
Proof.
  unfold octa_gens; fold (el 17) (el 0) (el 11).
  pose proof (el_oct 17 ltac:(lia)) as H17; pose proof (el_oct 0 ltac:(lia)) as H0; pose proof (el_oct 11 ltac:(lia)) as H11.
  pose proof (octahedral_conj _ H11) as C11.
  rewrite (octa_mul_ok (el 17) (el 17)) by assumption; cbn [bind].
  rewrite octa_mul_ok by (try apply octahedral_mul; assumption); cbn [bind].
  rewrite octa_inv_ok by assumption; cbn [bind].
  rewrite octa_mul_ok by assumption; cbn [bind].
  rewrite octa_mul_ok by (try apply octahedral_mul; assumption); cbn [bind].
  rewrite octa_mul_ok by (repeat apply octahedral_mul; assumption); reflexivity.
Qed.

Lemma gen_t_oct : octahedral gen_t.
Proof.
  unfold gen_t; repeat apply octahedral_mul; try apply octahedral_conj; apply el_oct; lia.
Qed.

Lemma gen_t_same : same_rotation gen_t (el 19).
Proof.
  assert (H : tabled gen_t (nth 19 octa_tables [])).
  { unfold gen_t; change (nth 19 octa_tables []) with
      (tmul (tmul (tmul (map (fun k => nth k (nth 11 octa_tables []) 0%Z) [0; 3; 6; 1; 4; 7; 2; 5; 8]%nat) (nth 0 octa_tables [])) (nth 11 octa_tables []))
        (tmul (tmul (nth 17 octa_tables []) (nth 17 octa_tables [])) (nth 17 octa_tables []))).
    repeat apply tabled_mul; try apply tabled_conj; apply tabled_nth; lia. }
  intros i j Hi Hj; rewrite (H i j Hi Hj); symmetry; exact (tabled_nth 19 ltac:(lia) i j Hi Hj).
Qed.

(** every rotation is a product of generators *)
Definition gen_el (i : nat) : quat := match i with 0 => gen_t | 1 => el 0 | _ => el 11 end%nat.
Definition gen_table (i : nat) : list Z := nth (match i with 0 => 19 | 1 => 0 | _ => 11 end)%nat octa_tables [].
Definition word_el (w : list nat) : quat := fold_right (fun i q => qmul (gen_el i) q) so3_id w.
Definition word_table (w : list nat) : list Z := fold_right (fun i a => tmul (gen_table i) a) (nth 3 octa_tables []) w.

Definition words : list (list nat) := ([[1]; [2; 2; 1; 2]; [2; 1; 2; 2]; []; [2; 1; 2]; [2; 1]; [1; 2]; [2; 2]; [1; 2; 1]; [1; 2; 2]; [2; 2; 1]; [2];
  [2; 2; 1; 2; 0]; [2; 1; 0]; [1; 0; 2]; [0; 2; 1]; [1; 2; 0]; [2; 1; 0; 2]; [1; 0]; [0]; [1; 2; 1; 0]; [2; 0]; [2; 1; 2; 0]; [0; 2]])%nat.

Lemma words_ok : map word_table words = octa_tables.
Proof. vm_compute; reflexivity. Qed.

Lemma gen_el_oct : forall i, octahedral (gen_el i).
Proof. intros [|[|i]]; [exact gen_t_oct|apply el_oct; lia|apply el_oct; lia]. Qed.

Lemma gen_el_tabled : forall i, tabled (gen_el i) (gen_table i).
Proof.
  intros [|[|i]]; [|apply tabled_nth; lia|apply tabled_nth; lia].
  intros a b Ha Hb; cbn [gen_el]; rewrite (gen_t_same a b Ha Hb); exact (tabled_nth 19 ltac:(lia) a b Ha Hb).
Qed.

Lemma word_oct : forall w, octahedral (word_el w).
Proof. induction w as [|i w IH]; [exact octahedral_id|apply octahedral_mul; [apply gen_el_oct|exact IH]]. Qed.

Lemma word_tabled : forall w, tabled (word_el w) (word_table w).
Proof.
  induction w as [|i w IH]; cbn [word_el word_table fold_right]; [|apply tabled_mul; [apply gen_el_tabled|exact IH]].
  intros a b Ha Hb; change so3_id with (el 3); exact (tabled_nth 3 ltac:(lia) a b Ha Hb).
Qed.

Lemma word_generated : forall w, Forall (fun i => (i < 3)%nat) w -> generated octa_mul so3_id [gen_t; el 0; el 11] (word_el w).
Proof.
  induction w as [|i w IH]; intros F; [apply gen_id|]; inversion F as [|? ? Hi Fw]; subst.
  apply gen_mul with (gen_el i) (word_el w); [|exact (IH Fw)|apply octa_mul_ok; [apply gen_el_oct|apply word_oct]].
  destruct i as [|[|[|i]]]; [left; reflexivity|right; left; reflexivity|right; right; left; reflexivity|exfalso; lia].
Qed.

Lemma all_generated : forall x, octahedral x -> exists y, generated octa_mul so3_id [gen_t; el 0; el 11] y /\ entries y = entries x.
Proof.
  intros x Hx; destruct (elements_complete x Hx) as (p & I & S); apply (In_nth _ _ so3_id) in I as (n & Hn & <-).
  assert (Hn' : (n < 24)%nat) by exact Hn.
  exists (word_el (nth n words [])); split.
  - apply word_generated; do 24 (destruct n as [|n]; [cbn [nth words]; repeat constructor|]); exfalso; lia.
  - apply entries_same; intros i j Hi Hj; rewrite (S i j Hi Hj), (word_tabled _ i j Hi Hj).
    assert (E : word_table (nth n words []) = nth n octa_tables []).
    { rewrite <- words_ok, (nth_indep _ [] (word_table [])) by (rewrite map_length; exact Hn'); rewrite map_nth; reflexivity. }
    rewrite E; symmetry; apply (tabled_nth n Hn' i j Hi Hj).
Qed.
