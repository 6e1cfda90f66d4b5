(** The irreps the octahedral group builds are the five of the specification,
    which are irreducible, different and all. *)
From Coq Require Import Reals ZArith Bool List Lia Lra Arith Permutation.
From Verif Require Import LibRes LibMat LibMatS SpecGroup IrrepModel SpecRep PlanarModel SpaceModel SpecSpace SpaceProofs SpaceThms SphereProofs OctaModel SpecOcta
  OctaProofs OctaThms GenModel SpecGen GenProofs GenSame OctaIrrepModel SpecOctaIrrep OctaIrrep1 OctaIrrep2.
Import ListNotations.
Open Scope R_scope.

Definition vmat (l : Z) (M : mat) : mat :=
  if (l =? 0)%Z then mid
  else if (l =? 1)%Z then yzx M
  else if (l =? -1)%Z then mscal (axes_sign M) (yzx M)
  else if (l =? 2)%Z then on_plane (squares M)
  else fun _ _ => axes_sign M.

Lemma sign_ext : forall M N, meq 3 3 M N -> axes_sign M = axes_sign N.
Proof. intros M N E; unfold axes_sign, det3, dot, cross, squares; cbn [sumn]; rewrite !E by lia; reflexivity. Qed.

Lemma vmat_ext : forall l M N, in_range l -> meq 3 3 M N -> meq (octa_size l) (octa_size l) (vmat l M) (vmat l N).
Proof.
  intros l M N Hl E; pose proof (sign_ext M N E) as S; apply range_cases in Hl as [->|[->|[->|[->| ->]]]]; unfold octa_size, vmat; cbn [Z.eqb Pos.eqb orb];
    intros i j Hi Hj.
  - unfold mscal, yzx; rewrite S, E by (apply yzx_lt; assumption); reflexivity.
  - reflexivity.
  - unfold yzx; rewrite E by (apply yzx_lt; assumption); reflexivity.
  - unfold on_plane, squares; cbn [sumn]; rewrite !E by lia; reflexivity.
  - exact S.
Qed.

Lemma value_tabled : forall l q a, in_range l -> tabled q a -> meq (octa_size l) (octa_size l) (octa_value l q) (vmat l (table_mat a)).
Proof. intros l q a Hl H; exact (vmat_ext l (as_matrix q) (table_mat a) Hl H). Qed.

Ltac entry2 i j Hi Hj := destruct i as [|[|i]]; [| |exfalso; lia]; (destruct j as [|[|j]]; [| |exfalso; lia]).
Ltac entry3 i j Hi Hj := destruct i as [|[|[|i]]]; [| | |exfalso; lia]; (destruct j as [|[|[|j]]]; [| | |exfalso; lia]).

(** the matrices of octa.py are those of the generators *)
Definition given (l : Z) (d : nat) (q : quat) (A : mat) : Prop := d = octa_size l /\ meq d d A (octa_value l q).

Lemma given_by : forall l q a A, in_range l -> tabled q a -> meq (octa_size l) (octa_size l) A (vmat l (table_mat a)) -> given l (octa_size l) q A.
Proof. intros l q a A Hl H E; split; [reflexivity|]; eapply meq_trans; [exact E|apply meq_sym, value_tabled; assumption]. Qed.

Ltac tnorm := cbn [sumn nth Nat.mul Nat.add Nat.modulo Nat.divmod fst snd Nat.sub Nat.eqb].

Lemma tab_t : tabled gen_t [-1; 0; 0; 0; 0; -1; 0; -1; 0]%Z.
Proof. exact (gen_el_tabled 0). Qed.
Lemma tab_k : tabled (el 0) [1; 0; 0; 0; -1; 0; 0; 0; -1]%Z.
Proof. exact (gen_el_tabled 1). Qed.
Lemma tab_s : tabled (el 11) [0; 1; 0; 0; 0; 1; 1; 0; 0]%Z.
Proof. exact (gen_el_tabled 2). Qed.

Ltac value3 i j Hi Hj :=
  unfold mscal, axes_sign, det3, dot, cross, squares, yzx, table_mat, mmul, mtr, octa_cob, of_rows; entry3 i j Hi Hj; tnorm; lra.
Ltac value2 i j Hi Hj :=
  pose proof inv_sqrt3 as Hh; pose proof sqrt3_inv as Hs;
  unfold on_plane, squares, table_mat, mscal, of_rows, plane; set (h := / sqrt 3) in *; clearbody h; rewrite ?Hs;
  entry2 i j Hi Hj; tnorm; lra.
Ltac value1 i j Hi Hj :=
  unfold axes_sign, det3, dot, cross, squares, table_mat, of_rows; destruct i; [|lia]; destruct j; [|lia]; tnorm; lra.

Lemma matrices_given : forall l, (l = -1 \/ l = 2 \/ l = 3)%Z -> exists d A B C, octa_matrices l = Ret (d, (A, B, C)) /\
  given l d gen_t A /\ given l d (el 0) B /\ given l d (el 11) C.
Proof.
  intros l [->|[->| ->]]; (eexists _, _, _, _; split; [reflexivity|]); (split; [|split]).
  1: apply (given_by (-1) gen_t _ _ ltac:(unfold in_range; lia) tab_t).
  2: apply (given_by (-1) (el 0) _ _ ltac:(unfold in_range; lia) tab_k).
  3: apply (given_by (-1) (el 11) _ _ ltac:(unfold in_range; lia) tab_s).
  4: apply (given_by 2 gen_t _ _ ltac:(unfold in_range; lia) tab_t).
  5: apply (given_by 2 (el 0) _ _ ltac:(unfold in_range; lia) tab_k).
  6: apply (given_by 2 (el 11) _ _ ltac:(unfold in_range; lia) tab_s).
  7: apply (given_by 3 gen_t _ _ ltac:(unfold in_range; lia) tab_t).
  8: apply (given_by 3 (el 0) _ _ ltac:(unfold in_range; lia) tab_k).
  9: apply (given_by 3 (el 11) _ _ ltac:(unfold in_range; lia) tab_s).
  all: unfold octa_size, vmat; cbn [Z.eqb Pos.eqb orb]; intros i j Hi Hj.
  1-3: value3 i j Hi Hj.
  1-3: value2 i j Hi Hj.
  all: value1 i j Hi Hj.
Qed.

(** the dictionary *)
Lemma build_ok : forall order l, (forall x, Permutation x (order x)) -> (l = -1 \/ l = 2 \/ l = 3)%Z -> forall fuel, (24 < fuel)%nat ->
  exists rho, octa_build order fuel l = Ret (octa_size l, rho) /\
    Forall octahedral (map fst rho) /\
    forall q, octahedral q -> exists A, dget octa_eqb rho q = Ret A /\ meq (octa_size l) (octa_size l) A (octa_value l q).
Proof.
  intros order l Hord Hl fuel Hf; assert (Rl : in_range l) by (unfold in_range; lia).
  destruct (matrices_given l Hl) as (d & A & B & C & EM & [-> HA] & [_ HB] & [_ HC]).
  unfold octa_build; rewrite gens_eq, EM; cbn [bind].
  set (n := octa_size l) in *; set (gens := [(gen_t, (n, A)); (el 0, (n, B)); (el 11, (n, C))]).
  assert (Mg : Forall octahedral (map fst gens)).
  { cbn [gens map fst]; constructor; [exact gen_t_oct|constructor; [apply el_oct; lia|constructor; [apply el_oct; lia|constructor]]]. }
  destruct (generate_by entries octahedral octa_eqb octa_mul octa_inv so3_id octa_elements order octa_group octa_congruent octa_enumerates octa_decides Hord
    gens Mg n (octa_fun l)) with (fuel := fuel) as (rho & ER & FR & VR).
  - discriminate.
  - apply value_rep; exact Rl.
  - intros x y Hx Hy E; unfold octa_fun; rewrite (value_same l x y); auto; apply entries_same; exact E.
  - intros g D [E|[E|[E|[]]]]; injection E as <- <-; (eexists; split; [reflexivity|split; [reflexivity|]]); assumption.
  - exact all_generated.
  - exact Hf.
  - rewrite ER; cbn [bind].
    assert (EK : mapM (fun kv => g <- octa_element (fst kv) ;; Ret (g, snd kv)) rho = Ret rho).
    { rewrite <- (map_id rho) at 2; apply mapM_Ret_map; intros [g D] I; rewrite Forall_forall in FR; destruct (FR _ I) as [Hg _]; cbn [fst snd] in *.
      rewrite octa_element_ok by exact Hg; reflexivity. }
    rewrite EK; cbn [bind]; eexists; split; [reflexivity|].
    set (V := fun x (D : mat) => meq n n D (octa_value l x)).
    assert (HVc : forall x y D, octahedral x -> octahedral y -> entries x = entries y -> V x D -> V y D).
    { intros x y D Hx Hy E H; unfold V; rewrite <- (value_same l x y); auto; apply entries_same; exact E. }
    destruct (cinit_keys entries octahedral octa_eqb octa_decides V (map (fun kv => (fst kv, (n, snd kv))) rho) [] HVc) as [G K].
    + rewrite map_map; cbn [fst]; rewrite Forall_map; eapply Forall_impl; [|exact FR]; cbn; tauto.
    + intros g D I; apply in_map_iff in I as ([g' D'] & E & I); injection E as <- <-; cbn [snd fst] in *.
      rewrite Forall_forall in FR; destruct (FR _ I) as [_ (B' & E & M)]; cbn [snd fst] in *; unfold octa_fun in E; apply Ret_inj in E; injection E as <-; exact M.
    + constructor.
    + cbv zeta in G, K.
      assert (EF : forall acc, fold_left (fun rho0 ga => dset octa_eqb rho0 (fst ga) (snd (snd ga))) (map (fun kv : quat * mat => (fst kv, (n, snd kv))) rho) acc
        = fold_left (fun acc kv => dset octa_eqb acc (fst kv) (snd kv)) rho acc).
      { clear; induction rho as [|[x D] rho IH]; intros acc; cbn [map fold_left fst snd]; [reflexivity|apply IH]. }
      rewrite EF in G, K; clear EF; split; [apply (cg_mem octahedral V); exact G|].
      intros q Hq; assert (In (entries q) (ckeys entries (fold_left (fun acc kv => dset octa_eqb acc (fst kv) (snd kv)) rho []))) as I.
      { apply K; right; assert (KE : map fst (map (fun kv : quat * mat => (fst kv, (n, snd kv))) rho) = map fst rho) by (rewrite map_map; reflexivity).
        rewrite KE; destruct (VR q Hq) as (D & _ & ED & _).
        assert (KM : Forall octahedral (keys rho)) by (apply (cg_mem octahedral (fun _ _ => True)); eapply Forall_impl; [|exact FR]; cbn; tauto).
        apply (cdget_some entries octahedral octa_eqb octa_decides rho q Hq KM); exists D; exact ED. }
      apply (cdget_some entries octahedral octa_eqb octa_decides) in I as (D & ED); [|exact Hq|apply (cg_mem octahedral V); exact G].
      exists D; split; [exact ED|exact (cg_val entries octahedral octa_eqb octa_decides V HVc _ G q D Hq ED)].
Qed.

Lemma irrep_built : forall D1 order l, (forall q, octahedral q -> meq 3 3 (D1 q) (yzx (as_matrix q))) ->
  (forall x, Permutation x (order x)) -> in_range l -> forall fuel, (24 < fuel)%nat ->
  exists rep, octa_irrep D1 order fuel l = Ret (octa_size l, rep) /\
    forall q, octahedral q -> exists A, rep q = Ret A /\ meq (octa_size l) (octa_size l) A (octa_value l q).
Proof.
  intros D1 order l HD Hord Hl fuel Hf; unfold octa_irrep.
  rewrite (proj2 (Z.leb_le _ _)), (proj2 (Z.leb_le l 3)) by apply Hl; cbn [andb assert_ bind].
  destruct (range_cases l Hl) as [E|[E|[E|[E|E]]]]; rewrite E.
  1,4,5: cbn [Z.eqb Pos.eqb]; rewrite <- E; destruct (build_ok order l Hord ltac:(lia) fuel Hf) as (rho & EB & F & V); rewrite EB; cbn [bind];
    destruct (V so3_id octahedral_id) as (A & EA & _); rewrite EA; cbn [bind];
    assert (SS : same_set (map fst rho) octa_elements = true);
    [unfold same_set; rewrite andb_true_iff, !forallb_forall; pose proof octa_enumerates as EN; split; intros x I;
      [rewrite Forall_forall in F; apply (csmem_In entries octahedral octa_eqb octa_decides); [apply F; exact I|apply EN|apply (eb_all _ _ _ EN), F, I]
      |pose proof (eb_mem _ _ _ EN) as Q; rewrite Forall_forall in Q; specialize (Q x I);
       apply (csmem_In entries octahedral octa_eqb octa_decides); [exact Q|exact F|];
       apply (cdget_some entries octahedral octa_eqb octa_decides); [exact Q|exact F|]; destruct (V x Q) as (D & ED & _); exists D; exact ED]
    |rewrite SS; cbn [assert_ bind]; eexists; split; [reflexivity|exact V]].
  - eexists; split; [reflexivity|]; intros q Hq; eexists; split; [reflexivity|apply meq_refl].
  - eexists; split; [reflexivity|]; intros q Hq; eexists; split; [reflexivity|exact (HD q Hq)].
Qed.
