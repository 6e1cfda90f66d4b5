(** FieldDropout: what it computes. *)
From Coq Require Import Reals String List ZArith Arith Bool Lia Lra Permutation.
From Verif Require Import LibRes LibPy LibMat ParamModel ParamProofs FieldModel SpecField FieldProofs BranchProofs LabelThms MergeThms GroupedModel GroupedProofs
  NonlinModel SpecNonlin NonlinProofs NormThms DropoutModel SpecDropout.
Import ListNotations.
Open Scope R_scope.
Notation length := List.length.

(** *** runs *)
Section Runs.
Context {L : Type}.
Variable leqb : L -> L -> bool.
Hypothesis leqb_ok : forall a b, leqb a b = true <-> a = b.

Definition broken (ls : list L) (l : L) : Prop :=
  exists i j k q, (i < j < k)%nat /\ nth_error ls i = Some l /\ nth_error ls k = Some l /\ nth_error ls j = Some q /\ q <> l.

Lemma broken_app : forall ls l m, broken ls l -> broken (ls ++ m) l.
Proof.
  intros ls l m (i & j & k & q & H & E1 & E2 & E3 & N); exists i, j, k, q.
  assert (k < length ls)%nat by (apply nth_error_Some; congruence).
  rewrite !nth_error_app1 by lia; auto.
Qed.

Lemma contiguous_false : forall labels pre last d, last = nth_error (rev pre) 0 ->
  (forall l b, dget leqb d l = Some b -> In l pre /\ (b = false -> broken pre l)) ->
  forall l, dget leqb (contiguous_labels leqb d last labels) l = Some false -> broken (pre ++ labels) l.
Proof.
  induction labels as [|x labels IH]; intros pre last d Hl Hd l E; cbn [contiguous_labels] in E.
  - rewrite app_nil_r; exact (proj2 (Hd l false E) eq_refl).
  - replace (pre ++ x :: labels)%list with ((pre ++ [x]) ++ labels)%list by (rewrite <- app_assoc; reflexivity).
    eapply IH; [| |exact E]; [rewrite rev_app_distr; reflexivity|].
    intros a b Eab.
    set (same := match last with Some l' => leqb x l' | None => false end) in *.
    assert (Old : forall c, dget leqb d a = Some c -> In a (pre ++ [x]) /\ (c = false -> broken (pre ++ [x]) a)).
    { intros c Ec; destruct (Hd a c Ec) as [I B]; split; [apply in_or_app; left; exact I|]; intros Ef; apply broken_app; auto. }
    destruct same eqn:Es; [exact (Old b Eab)|].
    destruct (dget leqb d x) as [bx|] eqn:Ex; rewrite (dget_dset leqb leqb_ok) in Eab; destruct (leqb x a) eqn:E1; try exact (Old b Eab).
    + apply leqb_ok in E1; subst a; split; [apply in_or_app; right; left; reflexivity|]; intros _.
      destruct (Hd x bx Ex) as [I _]; apply In_nth_error in I as (i & Ei).
      assert (Hi : (i < length pre)%nat) by (apply nth_error_Some; congruence).
      assert (Hlast : last = nth_error pre (length pre - 1)).
      { rewrite Hl; destruct (rev pre) as [|y t] eqn:Er.
        - apply (f_equal (@length L)) in Er; rewrite rev_length in Er; cbn in Er; lia.
        - replace pre with (rev t ++ [y])%list at 1 by (rewrite <- (rev_involutive pre), Er; reflexivity).
          replace (length pre) with (length (rev t) + 1)%nat by (rewrite <- (rev_length pre), Er, rev_length; cbn; lia).
          rewrite nth_error_app2 by lia; replace (length (rev t) + 1 - 1 - length (rev t))%nat with 0%nat by lia; reflexivity. }
      destruct (nth_error pre (length pre - 1)) as [q|] eqn:Eq; [|apply nth_error_None in Eq; lia].
      unfold same in Es; rewrite Hlast in Es.
      assert (q <> x) as Nq by (intros ->; rewrite (proj2 (leqb_ok x x) eq_refl) in Es; discriminate).
      exists i, (length pre - 1)%nat, (length pre), q.
      assert (i <> length pre - 1)%nat by (intros ->; congruence).
      rewrite (nth_error_app1 _ _ (n := i)), (nth_error_app1 _ _ (n := (length pre - 1)%nat)) by lia; rewrite nth_error_app2, Nat.sub_diag by lia.
      cbn [nth_error]; split; [lia|]; repeat split; assumption.
    + apply leqb_ok in E1; subst a; injection Eab as <-; split; [apply in_or_app; right; left; reflexivity|discriminate].
Qed.

(** a buffer is a slice exactly when the label is not interrupted *)
Lemma buffer_kind : forall {A} (size : A -> nat) ft labels buf l c, buffers size leqb ft labels = Ret buf -> In l labels -> lookup leqb buf l = Ret c ->
  match c with Run _ _ => ~ broken labels l | Listed _ => broken labels l end.
Proof.
  intros A size ft labels buf l c Eb Hl Ec; unfold buffers in Eb.
  destruct (contiguous_ok leqb leqb_ok labels l Hl) as (b & Ed & Hb).
  destruct (dget_mapM leqb leqb_ok (buffer leqb _) _ _ Eb (buf_key leqb _) l b Ed) as (c' & Ei & Eix).
  unfold lookup in Ec; rewrite Eix in Ec; apply Ret_inj in Ec; subst c'.
  unfold buffer in Ei; cbn [fst snd] in Ei; apply bind_Ret in Ei as (ix & _ & Ei); destruct b.
  - apply bind_Ret in Ei as (u & _ & Ei); apply bind_Ret in Ei as (v & _ & Ei); injection Ei as <-.
    destruct (Hb eq_refl) as (a & k & Es); intros (i & j & k' & q & H & E1 & E2 & E3 & N).
    apply (labelled_In leqb leqb_ok) in E1, E2; rewrite Es in E1, E2; apply in_seq in E1, E2.
    assert (In j (labelled leqb labels l)) as K by (rewrite Es; apply in_seq; lia); apply (labelled_In leqb leqb_ok) in K; congruence.
  - injection Ei as <-; apply (contiguous_false labels [] None []); [reflexivity|discriminate|exact Ed].
Qed.
End Runs.

Section Dropout.
Context {A : Type}.
Variable size : A -> nat.
Variable teqb : list A -> list A -> bool.
Notation pos_sizes ft := (Forall (fun r => (0 < size r)%nat) ft).

Definition drop_num (p : R) (inplace : bool) (u : R) (a : num) : num :=
  if inplace then nmul a (ndiv (mask_of p u) (Some (1 - p))) else ndiv (nmul a (mask_of p u)) (Some (1 - p)).

Lemma dropout_group_ok : forall (m : @dropout_module A) us nf s next (bs : list (list num)), (0 < s)%nat -> Forall (fun b => length b = s) bs ->
  nf s = length bs -> (next + length bs <= length us)%nat ->
  dropout_group m us nf s next (concat bs) =
  Ret (concat (imap (fun k v => map (drop_num (dr_p m) (dr_inplace m) (nth k us 0)) v) next bs)).
Proof.
  intros m us nf s next bs Ps F En Hb; unfold dropout_group; rewrite (view_concat s bs Ps F); cbn [bind]; unfold dropout_field.
  rewrite En, (zip_slice _ bs us 0 next Hb); cbn [bind]; reflexivity.
Qed.

Lemma drop_num_some : forall p b u a, p < 1 -> drop_num p b u (Some a) = Some (drop_factor p u * a).
Proof.
  intros p b u a Hp; unfold drop_num, mask_of, drop_factor, Rleb; destruct b; cbn [nmul ndiv];
    (destruct (Req_EM_T (1 - p) 0) as [E|_]; [lra|]); destruct (Rle_dec u p); cbn [nmul]; f_equal; field; lra.
Qed.
Lemma drop_num_one : forall b u a, drop_num 1 b u a = None.
Proof.
  intros b u a; unfold drop_num, mask_of; destruct b; cbn [nmul ndiv].
  - destruct (Req_EM_T (1 - 1) 0) as [_|N]; [destruct a; reflexivity|exfalso; apply N; ring].
  - destruct a; cbn [nmul ndiv]; [|reflexivity]; destruct (Req_EM_T (1 - 1) 0) as [_|N]; [reflexivity|exfalso; apply N; ring].
Qed.

Lemma not_broken_adjacent : forall ft s, ~ broken (map size ft) s <-> adjacent size ft s.
Proof.
  intros ft s; split.
  - intros N i j k q H E1 E2 E3; destruct (Nat.eq_dec q s) as [E|Ne]; [exact E|]; exfalso; apply N; exists i, j, k, q; auto.
  - intros Ad (i & j & k & q & H & E1 & E2 & E3 & Ne); apply Ne; exact (Ad i j k q H E1 E2 E3).
Qed.

(** the loop that works in place *)
Lemma inplace_ok : forall (m : @dropout_module A) us ft, let labels := map size ft in
  pos_sizes ft -> buffers size Nat.eqb ft labels = Ret (dr_buffers m) ->
  forall order next x, NoDup order -> (forall s, In s order -> In s labels) -> length x = type_size size ft ->
  (next + length (flat_map (labelled Nat.eqb labels) order) <= length us)%nat ->
  exists out, inplace_loop m us (nfields Nat.eqb labels) order next x = Ret out /\ length out = type_size size ft /\
    (forall k i s, nth_error (flat_map (labelled Nat.eqb labels) order) k = Some i -> nth_error labels i = Some s ->
       (adjacent size ft s -> field_chans size ft out i = map (drop_num (dr_p m) (dr_inplace m) (nth (next + k) us 0)) (field_chans size ft x i)) /\
       (~ adjacent size ft s -> field_chans size ft out i = field_chans size ft x i)) /\
    (forall i, ~ In i (flat_map (labelled Nat.eqb labels) order) -> field_chans size ft out i = field_chans size ft x i).
Proof.
  intros m us ft labels P Eb; pose proof nat_eqb_ok as ok.
  assert (Len : length labels = length ft) by apply map_length.
  destruct (buffers_ok size Nat.eqb ok ft labels Len P) as (buf & Eb' & Hb); rewrite Eb in Eb'; apply Ret_inj in Eb'; subst buf.
  induction order as [|s order IH]; intros next x ND Io Lx Lu; cbn [inplace_loop flat_map] in *.
  - exists x; split; [reflexivity|split; [exact Lx|split; [intros [|k]; discriminate|reflexivity]]].
  - inversion ND as [|? ? Ns ND']; subst.
    assert (Is : In s labels) by (apply Io; left; reflexivity).
    destruct (Hb s (length x) Is ltac:(lia)) as (c & Ec & Pc); rewrite Ec; cbn [bind].
    assert (Lt : Forall (fun i => i < length ft)%nat (labelled Nat.eqb labels s)) by (rewrite <- Len; apply labelled_lt).
    rewrite (read_ok size ft x _ c Lx Lt Pc); cbn [bind].
    set (ls := labelled Nat.eqb labels s) in *; rewrite app_length in Lu.
    assert (Ff : Forall (fun b => length b = s) (map (field_chans size ft x) ls)).
    { apply Forall_forall; intros b Ib; apply in_map_iff in Ib as (i & <- & Hi); apply (labelled_In Nat.eqb ok) in Hi; unfold labels in Hi.
      rewrite nth_error_map in Hi; destruct (nth_error ft i) as [r|] eqn:Er; [|discriminate Hi]; injection Hi as <-.
      apply field_chans_length; assumption. }
    assert (Ps : (0 < s)%nat).
    { apply in_map_iff in Is as (r & <- & Ir); rewrite Forall_forall in P; apply P, Ir. }
    rewrite (dropout_group_ok m us _ s next _ Ps Ff) by (rewrite ?nfields_labelled, map_length by exact ok; try reflexivity; fold ls; lia).
    cbn [bind].
    set (ws := imap (fun k v => map (drop_num (dr_p m) (dr_inplace m) (nth k us 0)) v) next (map (field_chans size ft x) ls)).
    assert (Kind := buffer_kind Nat.eqb ok size ft labels _ s c Eb Is Ec).
    assert (Step : exists x1, match c with Run _ _ => write x c (concat ws) | Listed _ => Ret x end = Ret x1 /\ length x1 = type_size size ft /\
      (forall k i, nth_error ls k = Some i ->
        (adjacent size ft s -> field_chans size ft x1 i = map (drop_num (dr_p m) (dr_inplace m) (nth (next + k) us 0)) (field_chans size ft x i)) /\
        (~ adjacent size ft s -> field_chans size ft x1 i = field_chans size ft x i)) /\
      (forall i, ~ In i ls -> field_chans size ft x1 i = field_chans size ft x i)).
    { destruct c as [a e|ix].
      - apply not_broken_adjacent in Kind.
        destruct (write_ok size ft ls ws x (Run a e) Lx (labelled_NoDup Nat.eqb labels s)) as (x1 & Ew & L1 & In1 & Out1).
        { unfold ws; clear - Ff Lt Lx; revert next Ff; induction ls as [|i ls IHl]; intros next Ff; cbn [map imap]; constructor.
          - inversion Lt as [|? ? Hi _]; inversion Ff as [|? ? Hf _]; subst.
            destruct (nth_error ft i) as [r|] eqn:Er; [|apply nth_error_None in Er; lia]; exists r; split; [reflexivity|].
            rewrite map_length; apply field_chans_length; assumption.
          - inversion Lt; inversion Ff; subst; apply IHl; assumption. }
        { exact Pc. }
        exists x1; split; [exact Ew|split; [exact L1|split; [|exact Out1]]].
        intros k i Ek; split; [intros _|intros N; contradiction].
        apply (In1 k i); [exact Ek|]; unfold ws; rewrite imap_nth, nth_error_map, Ek; reflexivity.
      - exists x; split; [reflexivity|split; [exact Lx|split; [|reflexivity]]].
        intros k i Ek; split; [|reflexivity]; intros Ad; apply not_broken_adjacent in Ad; contradiction. }
    destruct Step as (x1 & E1 & L1 & S1 & O1); rewrite E1; cbn [bind].
    rewrite nfields_labelled by exact ok; fold ls.
    destruct (IH (next + length ls)%nat x1 ND') as (out & El & Lo & Ho & Oo); [intros t It; apply Io; right; exact It|exact L1|lia|].
    exists out; split; [exact El|split; [exact Lo|split]].
    + intros k i t Ei Et; destruct (Nat.lt_ge_cases k (length ls)) as [Hk|Hk].
      * rewrite nth_error_app1 in Ei by exact Hk.
        assert (t = s) as -> by (apply nth_error_In, (labelled_In Nat.eqb ok) in Ei; congruence).
        rewrite Oo; [exact (S1 k i Ei)|].
        intros K; apply in_flat_map in K as (t & It & K); apply nth_error_In in Ei.
        apply (labelled_In Nat.eqb ok) in Ei, K; assert (t = s) by congruence; subst t; contradiction.
      * rewrite nth_error_app2 in Ei by exact Hk.
        assert (Ni : ~ In i ls).
        { intros K; apply nth_error_In in Ei; apply in_flat_map in Ei as (t' & It & Ei); apply (labelled_In Nat.eqb ok) in Ei, K.
          assert (t' = s) by congruence; subst t'; contradiction. }
        rewrite <- (O1 i Ni); replace (next + k)%nat with (next + length ls + (k - length ls))%nat by lia; exact (Ho _ i t Ei Et).
    + intros i Ni; rewrite Oo, O1; [reflexivity|intros K; apply Ni, in_or_app; left; exact K|intros K; apply Ni, in_or_app; right; exact K].
Qed.

(** the loop that fills a fresh tensor, and both together *)
Lemma dropout_chans : forall ft p b m, pos_sizes ft -> mk_dropout size ft p b = Ret m -> 0 <= p <= 1 /\
  exists sel, Permutation sel (seq 0 (length ft)) /\
  forall (x : gtensor A num) us junk, g_type x = ft -> good size x -> teqb ft ft = true -> length us = length ft -> length junk = type_size size ft ->
  exists y, dropout_forward size teqb m true us junk x = Ret y /\ g_type y = ft /\ good size y /\
    forall k i r, nth_error sel k = Some i -> nth_error ft i = Some r ->
      (b = false \/ adjacent size ft (size r) -> field_chans size ft (g_chans y) i = map (drop_num p b (nth k us 0)) (field_chans size ft (g_chans x) i)) /\
      (b = true -> ~ adjacent size ft (size r) -> field_chans size ft (g_chans y) i = field_chans size ft (g_chans x) i).
Proof.
  intros ft p b m P Em; unfold mk_dropout in Em; apply assert_Ret in Em as [Ep Em]; apply bind_Ret in Em as (bufs & Eb & Em); apply Ret_inj in Em; subst m.
  apply andb_prop in Ep as [Ep1 Ep2]; apply Rleb_true in Ep1, Ep2; split; [lra|].
  exists (flat_map (labelled Nat.eqb (map size ft)) (map fst bufs)).
  set (m := {| dr_type := ft; dr_p := p; dr_inplace := b; dr_buffers := bufs; dr_order := map fst bufs |}).
  destruct (buffers_keys size Nat.eqb nat_eqb_ok ft (map size ft) bufs Eb) as [NDb Ib].
  assert (Ps : Permutation (flat_map (labelled Nat.eqb (map size ft)) (map fst bufs)) (seq 0 (length ft))).
  { rewrite <- (map_length size ft); apply labelled_cover; [exact nat_eqb_ok|exact NDb|]; intros l Hl; apply Ib, Hl. }
  split; [exact Ps|].
  intros x us junk Ex Gx Et Lu Lj; unfold dropout_forward; cbn [m dr_type dr_inplace dr_order dr_buffers negb].
  rewrite Ex, Et; cbn [assert_ bind].
  assert (Lx : length (g_chans x) = type_size size ft) by (rewrite <- Ex; exact Gx).
  destruct b.
  - destruct (inplace_ok m us ft P Eb (map fst bufs) 0 (g_chans x) NDb) as (out & El & Lo & Ho & _);
      [intros s; apply Ib|exact Lx|rewrite (Permutation_length Ps), seq_length; lia|].
    rewrite El; cbn [bind]; unfold mk_gtensor; rewrite Lo, Nat.eqb_refl; cbn [assert_ bind].
    eexists; split; [reflexivity|split; [reflexivity|split; [exact Lo|]]]; cbn [g_chans].
    intros k i r Ek Er; destruct (Ho k i (size r) Ek ltac:(rewrite nth_error_map, Er; reflexivity)) as [H1 H2].
    split; [intros [X|Ad]; [discriminate X|exact (H1 Ad)]|intros _; exact H2].
  - destruct (in_place size Nat.eqb nat_eqb_ok (fun s => s) ft (map size ft) bufs (map fst bufs)
      (dropout_group m us (nfields Nat.eqb (map size ft))) (fun s k v => map (drop_num p false (nth k us 0)) v) (g_chans x) junk
      (map_length size ft) P
      ltac:(intros i r s E1 E2; rewrite nth_error_map, E2 in E1; injection E1 as <-; reflexivity) Eb (Permutation_refl _) Lx Lj
      ltac:(intros s next B _ L1 L2 F Psz _; apply dropout_group_ok; [exact Psz|exact F|symmetry; exact L1|rewrite Lu; exact L2])
      ltac:(intros s k v _ Lv; cbn beta; rewrite map_length; exact Lv)) as (_ & out & El & Lo & Ho).
    fold m in El; rewrite El; cbn [bind]; unfold mk_gtensor; rewrite Lo, Nat.eqb_refl; cbn [assert_ bind].
    eexists; split; [reflexivity|split; [reflexivity|split; [exact Lo|]]]; cbn [g_chans].
    intros k i r Ek Er; split; [intros _|discriminate]; apply (Ho k i (size r) Ek); rewrite nth_error_map, Er; reflexivity.
Qed.

Definition real (x : gtensor A num) (v : list R) : Prop := g_chans x = map Some v.

Lemma all_some : forall {V} (ft : list A) (y : list (option V)) , length y = type_size size ft ->
  (forall i r, nth_error ft i = Some r -> exists w, field_chans size ft y i = map Some w) -> exists w, y = map Some w.
Proof.
  intros V ft y L H; pose proof (chans_range size ft y (length ft) 0 (le_n _)) as E; cbn [Nat.add] in E.
  rewrite (offset_all size ft (length ft) (le_n _)) in E; change (offset size ft 0) with 0%nat in E; rewrite Nat.sub_0_r in E; cbn [skipn] in E.
  rewrite firstn_all2 in E by lia; rewrite E; clear E.
  assert (Hs : forall i, In i (seq 0 (length ft)) -> exists w, field_chans size ft y i = map Some w).
  { intros i Hi; apply in_seq in Hi; destruct (nth_error ft i) as [r|] eqn:Er; [exact (H i r Er)|apply nth_error_None in Er; lia]. }
  clear H L; induction (seq 0 (length ft)) as [|i l IH]; [exists []; reflexivity|]; cbn [flat_map].
  destruct (Hs i (or_introl eq_refl)) as (w & ->), IH as (w' & E'); [intros j Hj; apply Hs; right; exact Hj|].
  exists (w ++ w')%list; rewrite map_app; f_equal; exact E'.
Qed.

Theorem dropout_value : forall ft p b m, pos_sizes ft -> mk_dropout size ft p b = Ret m -> p < 1 ->
  exists sel, Permutation sel (seq 0 (length ft)) /\
  forall (x : gtensor A num) v us junk, g_type x = ft -> good size x -> g_chans x = map Some v -> teqb ft ft = true ->
  length us = length ft -> length junk = type_size size ft ->
  exists y w, dropout_forward size teqb m true us junk x = Ret y /\ g_type y = ft /\ good size y /\ g_chans y = map Some w /\
    forall k i r, nth_error sel k = Some i -> nth_error ft i = Some r ->
      (b = false \/ adjacent size ft (size r) -> field_chans size ft w i = scaled (drop_factor p (nth k us 0)) (field_chans size ft v i)) /\
      (b = true -> ~ adjacent size ft (size r) -> field_chans size ft w i = field_chans size ft v i).
Proof.
  intros ft p b m P Em Hp; destruct (dropout_chans ft p b m P Em) as (_ & sel & Ps & H); exists sel; split; [exact Ps|].
  intros x v us junk Ex Gx Ev Et Lu Lj; destruct (H x us junk Ex Gx Et Lu Lj) as (y & Ey & Ty & Gy & Hy).
  assert (Inj : forall (l l' : list R), map Some l = map Some l' -> l = l').
  { intros l; induction l as [|a l IH]; intros [|a' l'] E; try discriminate E; [reflexivity|]; cbn in E; injection E as -> E; f_equal; exact (IH l' E). }
  assert (Sc : forall u i, map (drop_num p b u) (field_chans size ft (g_chans x) i) = map Some (scaled (drop_factor p u) (field_chans size ft v i))).
  { intros u i; rewrite Ev, field_map; unfold scaled; rewrite !map_map; apply map_ext; intros a; apply drop_num_some, Hp. }
  destruct (all_some ft (g_chans y)) as (w & Ew).
  - red in Gy; rewrite Ty in Gy; exact Gy.
  - intros i r Er.
    assert (Hi : In i sel).
    { apply (Permutation_in _ (Permutation_sym Ps)), in_seq; assert (i < length ft)%nat by (apply nth_error_Some; congruence); lia. }
    apply In_nth_error in Hi as (k & Ek); destruct (Hy k i r Ek Er) as [H1 H2].
    destruct b; [destruct (Classical_Prop.classic (adjacent size ft (size r))) as [Ad|N]|].
    + eexists; etransitivity; [exact (H1 (or_intror Ad))|apply Sc].
    + eexists; etransitivity; [exact (H2 eq_refl N)|]; rewrite Ev; apply (field_map size).
    + eexists; etransitivity; [exact (H1 (or_introl eq_refl))|apply Sc].
  - exists y, w; split; [exact Ey|split; [exact Ty|split; [exact Gy|split; [exact Ew|]]]].
    intros k i r Ek Er; destruct (Hy k i r Ek Er) as [H1 H2]; rewrite Ew in H1, H2; split.
    + intros C; specialize (H1 C); rewrite Sc in H1; apply Inj; rewrite <- H1; symmetry; apply (field_map size).
    + intros B N; specialize (H2 B N); rewrite Ev in H2; apply Inj; rewrite <- !(field_map size (@Some R)); exact H2.
Qed.

Theorem dropout_equivariant : forall ft p b m, pos_sizes ft -> mk_dropout size ft p b = Ret m -> p < 1 ->
  forall (rho : A -> mat) (x x' : gtensor A num) v v' us junk junk', g_type x = ft -> g_type x' = ft -> good size x ->
  g_chans x = map Some v -> g_chans x' = map Some v' -> teqb ft ft = true ->
  length us = length ft -> length junk = type_size size ft -> length junk' = type_size size ft -> acts size ft rho v v' ->
  exists y y' w w', dropout_forward size teqb m true us junk x = Ret y /\ dropout_forward size teqb m true us junk' x' = Ret y' /\
    g_chans y = map Some w /\ g_chans y' = map Some w' /\ acts size ft rho w w'.
Proof.
  intros ft p b m P Em Hp rho x x' v v' us junk junk' Ex Ex' Gx Ev Ev' Et Lu Lj Lj' Ha.
  destruct (dropout_value ft p b m P Em Hp) as (sel & Ps & H).
  assert (Gx' : good size x') by (red; rewrite Ex', Ev', map_length; exact (proj1 Ha)).
  destruct (H x v us junk Ex Gx Ev Et Lu Lj) as (y & w & Ey & Ty & Gy & Ew & Hy).
  destruct (H x' v' us junk' Ex' Gx' Ev' Et Lu Lj') as (y' & w' & Ey' & Ty' & Gy' & Ew' & Hy').
  exists y, y', w, w'; split; [exact Ey|split; [exact Ey'|split; [exact Ew|split; [exact Ew'|]]]].
  red in Gx, Gy'; rewrite Ex, Ev, map_length in Gx; rewrite Ty', Ew', map_length in Gy'.
  split; [exact Gy'|]; intros i r Er; destruct Ha as [_ Ha].
  assert (Hi : In i sel).
  { apply (Permutation_in _ (Permutation_sym Ps)), in_seq; assert (i < length ft)%nat by (apply nth_error_Some; congruence); lia. }
  apply In_nth_error in Hi as (k & Ek); destruct (Hy k i r Ek Er) as [H1 H2], (Hy' k i r Ek Er) as [H1' H2'].
  assert (Sc : forall u, scaled u (field_chans size ft v' i) = mv (size r) (rho r) (scaled u (field_chans size ft v i))).
  { intros u; rewrite (Ha i r Er); symmetry; apply scaled_mv, field_chans_length; assumption. }
  destruct b; [destruct (Classical_Prop.classic (adjacent size ft (size r))) as [Ad|N]|].
  - rewrite (H1 (or_intror Ad)), (H1' (or_intror Ad)); apply Sc.
  - rewrite (H2 eq_refl N), (H2' eq_refl N); exact (Ha i r Er).
  - rewrite (H1 (or_introl eq_refl)), (H1' (or_introl eq_refl)); apply Sc.
Qed.

(** p = 1 is accepted and produces no numbers *)
Theorem dropout_one : forall ft m, pos_sizes ft -> mk_dropout size ft 1 false = Ret m ->
  forall (x : gtensor A num) us junk, g_type x = ft -> good size x -> teqb ft ft = true -> length us = length ft -> length junk = type_size size ft ->
  exists y, dropout_forward size teqb m true us junk x = Ret y /\ g_chans y = repeat None (type_size size ft).
Proof.
  intros ft m P Em x us junk Ex Gx Et Lu Lj; destruct (dropout_chans ft 1 false m P Em) as (_ & sel & Ps & H).
  destruct (H x us junk Ex Gx Et Lu Lj) as (y & Ey & Ty & Gy & Hy); exists y; split; [exact Ey|].
  red in Gx, Gy; rewrite Ty in Gy; rewrite Ex in Gx.
  apply (fields_ext size ft); [exact Gy|apply repeat_length|]; intros i Hi.
  assert (Hs : In i sel) by (apply (Permutation_in _ (Permutation_sym Ps)), in_seq; lia).
  apply In_nth_error in Hs as (k & Ek); destruct (nth_error ft i) as [r|] eqn:Er; [|apply nth_error_None in Er; lia].
  rewrite (proj1 (Hy k i r Ek Er) (or_introl eq_refl)).
  pose proof (field_chans_length size ft (g_chans x) i r Gx Er) as L1.
  pose proof (field_chans_length size ft (repeat None (type_size size ft) : list num) i r (repeat_length _ _) Er) as L2.
  assert (F : forall a, In a (field_chans size ft (repeat None (type_size size ft) : list num) i) -> a = None).
  { intros a Ia; unfold field_chans in Ia; rewrite Er in Ia; apply (repeat_spec (type_size size ft)).
    assert (Sub : forall n m (l : list num), In a (firstn n (skipn m l)) -> In a l).
    { intros n0 k0 l0 I0; rewrite <- (firstn_skipn k0 l0); apply in_or_app; right; rewrite <- (firstn_skipn n0 (skipn k0 l0)); apply in_or_app; left; exact I0. }
    exact (Sub _ _ _ Ia). }
  revert L1 L2 F; generalize (field_chans size ft (g_chans x) i) as l, (field_chans size ft (repeat None (type_size size ft) : list num) i) as l'.
  generalize (size r) as n; clear; induction n as [|n IH]; intros [|a l] [|a' l'] L1 L2 F; try discriminate; [reflexivity|].
  cbn [map]; rewrite drop_num_one, (F a' (or_introl eq_refl)); f_equal; apply IH; [cbn in L1; lia|cbn in L2; lia|intros b Hb; apply F; right; exact Hb].
Qed.

Theorem dropout_eval : forall ft p b m, mk_dropout size ft p b = Ret m -> teqb ft ft = true -> forall (x : gtensor A num) us junk, g_type x = ft ->
  dropout_forward size teqb m false us junk x = Ret x.
Proof.
  intros ft p b m Em Et x us junk Ex; unfold mk_dropout in Em; apply assert_Ret in Em as [_ Em]; apply bind_Ret in Em as (bufs & _ & Em).
  apply Ret_inj in Em; subst m; unfold dropout_forward; cbn [dr_type]; rewrite Ex, Et; reflexivity.
Qed.

Theorem dropout_built : forall ft p b, pos_sizes ft -> ((exists m, mk_dropout size ft p b = Ret m) <-> 0 <= p <= 1).
Proof.
  intros ft p b P; split.
  - intros (m & Em); exact (proj1 (dropout_chans ft p b m P Em)).
  - intros Hp; destruct (buffers_ok size Nat.eqb nat_eqb_ok ft (map size ft) (map_length _ _) P) as (bufs & Eb & _).
    unfold mk_dropout; rewrite (proj2 (Rleb_true 0 p)), (proj2 (Rleb_true p 1)) by lra; cbn [andb assert_ bind]; rewrite Eb; eexists; reflexivity.
Qed.

(** torch's own dropout gives zeros at p = 1 *)
Theorem pw_dropout_one : forall supported ft (x : gtensor A num) v us, forallb (supports supported NL_pointwise) ft = true -> g_type x = ft ->
  good size x -> g_chans x = map Some v -> teqb ft ft = true -> length us = type_size size ft ->
  exists y, pw_dropout size supported teqb ft 1 true us x = Ret y /\ g_chans y = repeat (Some 0) (type_size size ft).
Proof.
  intros supported ft x v us Es Ex Gx Ev Et Lu; red in Gx; rewrite Ex in Gx; unfold pw_dropout.
  rewrite (proj2 (Rleb_true 0 1)), (proj2 (Rleb_true 1 1)) by lra; cbn [andb assert_ bind]; rewrite Es, Ex, Et; cbn [assert_ bind].
  unfold f_dropout; rewrite zip_with_ok by lia; cbn [bind]; unfold mk_gtensor.
  rewrite map_length, combine_length, Gx, Lu, Nat.min_id, Nat.eqb_refl; cbn [assert_ bind]; eexists; split; [reflexivity|]; cbn [g_chans].
  rewrite Ev in *; rewrite map_length in Gx; revert Gx Lu; generalize (type_size size ft) as n; clear; intros n; revert v us.
  induction n as [|n IH]; intros [|a v] [|u us] L1 L2; try discriminate; [reflexivity|]; cbn [map List.combine repeat fst snd].
  rewrite (IH v us) by (cbn in *; lia); f_equal; destruct (Req_EM_T 1 1) as [_|N]; [|congruence]; cbn [nmul]; f_equal; ring.
Qed.
End Dropout.

(** an example where working in place drops fewer fields *)
Lemma inplace_differs : exists m m' y y',
  mk_dropout (fun n : nat => n) [1; 2; 1]%nat (/ 2) false = Ret m /\ mk_dropout (fun n : nat => n) [1; 2; 1]%nat (/ 2) true = Ret m' /\
  dropout_forward (fun n : nat => n) (fun _ _ => true) m true [0; 0; 0] (repeat None 4) {| g_type := [1; 2; 1]%nat; g_chans := map Some [1; 1; 1; 1] |} = Ret y /\
  dropout_forward (fun n : nat => n) (fun _ _ => true) m' true [0; 0; 0] (repeat None 4) {| g_type := [1; 2; 1]%nat; g_chans := map Some [1; 1; 1; 1] |} = Ret y' /\
  g_chans y = map Some [0; 0; 0; 0] /\ g_chans y' = map Some [1; 0; 0; 1].
Proof.
  assert (P : Forall (fun r => (0 < r)%nat) [1; 2; 1]%nat) by (repeat constructor).
  destruct (proj2 (dropout_built (fun n : nat => n) (fun _ _ => true) [1; 2; 1]%nat (/ 2) false P) ltac:(lra)) as (m & Em).
  destruct (proj2 (dropout_built (fun n : nat => n) (fun _ _ => true) [1; 2; 1]%nat (/ 2) true P) ltac:(lra)) as (m' & Em').
  set (x := {| g_type := [1; 2; 1]%nat; g_chans := map Some [1; 1; 1; 1] |} : gtensor nat num).
  destruct (dropout_value (fun n : nat => n) (fun _ _ => true) _ _ _ m P Em ltac:(lra)) as (sel & Ps & H).
  destruct (H x [1; 1; 1; 1] [0; 0; 0] (repeat None 4) eq_refl eq_refl eq_refl eq_refl eq_refl eq_refl) as (y & w & Ey & _ & Gy & Ew & Hy).
  destruct (dropout_value (fun n : nat => n) (fun _ _ => true) _ _ _ m' P Em' ltac:(lra)) as (sel' & Ps' & H').
  destruct (H' x [1; 1; 1; 1] [0; 0; 0] (repeat None 4) eq_refl eq_refl eq_refl eq_refl eq_refl eq_refl) as (y' & w' & Ey' & Ty' & Gy' & Ew' & Hy').
  exists m, m', y, y'; split; [exact Em|split; [exact Em'|split; [exact Ey|split; [exact Ey'|]]]].
  assert (Z : forall k, drop_factor (/ 2) (nth k [0; 0; 0] 0) = 0).
  { intros k; replace (nth k [0; 0; 0] 0) with 0 by (destruct k as [|[|[|[|]]]]; reflexivity); unfold drop_factor; destruct (Rle_dec 0 (/ 2)); [reflexivity|lra]. }
  assert (At : forall sel, Permutation sel (seq 0 (length [1; 2; 1]%nat)) -> forall i, (i < 3)%nat -> exists k, nth_error sel k = Some i).
  { intros s0 Hs i Hi; apply In_nth_error, (Permutation_in _ (Permutation_sym Hs)), in_seq; cbn; lia. }
  assert (Ad2 : adjacent (fun n : nat => n) [1; 2; 1]%nat 2).
  { intros i j k q Hij E1 E2 _; assert (i < 3)%nat by (apply (nth_error_Some (map (fun n : nat => n) [1; 2; 1]%nat)); rewrite E1; discriminate).
    assert (k < 3)%nat by (apply (nth_error_Some (map (fun n : nat => n) [1; 2; 1]%nat)); rewrite E2; discriminate).
    assert (i = 0 /\ k = 2)%nat as [-> ->] by lia; discriminate E1. }
  assert (N1 : ~ adjacent (fun n : nat => n) [1; 2; 1]%nat 1).
  { intros Ad; specialize (Ad 0%nat 1%nat 2%nat 2%nat ltac:(lia) eq_refl eq_refl eq_refl); discriminate. }
  red in Gy, Gy'; rewrite Ew, map_length in Gy; rewrite Ew', Ty', map_length in Gy'.
  assert (Ty : g_type y = [1; 2; 1]%nat).
  { destruct (H x [1; 1; 1; 1] [0; 0; 0] (repeat None 4) eq_refl eq_refl eq_refl eq_refl eq_refl eq_refl) as (y0 & w0 & Ey0 & T0 & _).
    rewrite Ey in Ey0; apply Ret_inj in Ey0; subst y0; exact T0. }
  rewrite Ty in Gy; rewrite Ew, Ew'; split; f_equal; apply (fields_ext (fun n : nat => n) [1; 2; 1]%nat); try assumption; try reflexivity.
  - intros i Hi; cbn in Hi; destruct (At sel Ps i Hi) as (k & Ek).
    destruct i as [|[|[|i]]]; [| | |lia]; rewrite (proj1 (Hy k _ _ Ek eq_refl) (or_introl eq_refl)), Z; cbn; repeat (f_equal; try ring).
  - intros i Hi; cbn in Hi; destruct (At sel' Ps' i Hi) as (k & Ek).
    destruct i as [|[|[|i]]]; [| | |lia].
    + rewrite (proj2 (Hy' k _ _ Ek eq_refl) eq_refl N1); reflexivity.
    + rewrite (proj1 (Hy' k _ _ Ek eq_refl) (or_intror Ad2)), Z; cbn; repeat (f_equal; try ring).
    + rewrite (proj2 (Hy' k _ _ Ek eq_refl) eq_refl N1); reflexivity.
Qed.
