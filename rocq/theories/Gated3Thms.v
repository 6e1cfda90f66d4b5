(** GatedNonLinearityUniform. *)
From Coq Require Import Reals String List ZArith Arith Bool Lia Lra Permutation.
From Verif Require Import LibRes LibPy LibMat ParamModel ParamProofs FieldModel SpecField FieldProofs BranchProofs LabelThms MergeThms GroupedModel GroupedProofs
  NonlinModel SpecNonlin NonlinProofs NormThms INormThms GatedThms Gated1Thms.
Import ListNotations.
Open Scope R_scope.
Notation length := List.length.
Section Uniform.
Context {I : Type}.
Variable isize : I -> nat.
Variable itrivial : I -> bool.

Lemma expansion_block : forall gated p i0 j q a b, nth_error gated j = Some q -> (a < isize q)%nat ->
  expansion isize p i0 gated (p + offset isize gated j + a)%nat b = if Nat.eqb b (i0 + j) then 1 else 0.
Proof.
  intros gated; induction gated as [|r gated IH]; intros p i0 j q a b E Ha; [destruct j; discriminate|]. cbn [expansion]. destruct j as [|j]; cbn [nth_error] in E.
  - injection E as ->. change (offset isize (q :: gated) 0) with 0%nat. rewrite Nat.add_0_r, (proj2 (Nat.leb_le p (p + a))) by lia.
    rewrite (proj2 (Nat.ltb_lt (p + a) (p + isize q))) by lia. cbn [andb]. rewrite Nat.add_0_r. destruct (Nat.eqb_spec b i0) as [->|Ne]; [reflexivity|].
    (* other columns: the rest of the matrix is below *)
    assert (forall gated p i c b, (c < p)%nat -> expansion isize p i gated c b = 0) as Below.
    { clear. induction gated as [|r gated IH]; intros p i c b H; [reflexivity|]. cbn [expansion]. rewrite (proj2 (Nat.leb_gt p c)) by lia. cbn [andb]. apply IH. lia. }
    apply Below. lia.
  - change (offset isize (r :: gated) (S j)) with (isize r + offset isize gated j)%nat.
    rewrite (proj2 (Nat.ltb_ge (p + (isize r + offset isize gated j) + a) (p + isize r))) by lia. rewrite andb_false_r. cbn [andb].
    replace (p + (isize r + offset isize gated j) + a)%nat with (p + isize r + offset isize gated j + a)%nat by lia. rewrite (IH _ _ _ _ _ _ E Ha).
    replace (S i0 + j)%nat with (i0 + S j)%nat by lia. reflexivity.
Qed.
Theorem gated3_field_value : forall irreps n m gate bias x, mk_gated3 itrivial irreps n = Ret m -> Forall (fun q => itrivial q = true -> isize q = 1%nat) irreps ->
  length x = irr_size isize irreps -> length bias = g3_ngates m ->
  let k := (length irreps / 2)%nat in
  g3_ngates m = k /\ g3_gated m = skipn k irreps /\ length irreps = (k + k)%nat /\
  exists y, gated3_field isize m gate bias x = Ret y /\ length y = irr_size isize (g3_gated m) /\
    forall j, (j < k)%nat -> field_chans isize (g3_gated m) y j = scaled (gate (nth 0 (field_chans isize irreps x j) 0 - nth j bias 0)) (field_chans isize irreps x (k + j)).
Proof.
  intros irreps n m gate bias x Em T Lx Lb k. unfold mk_gated3 in Em. apply bind_Ret in Em. destruct Em as (u & E1 & Em). apply bind_Ret in Em. destruct Em as (u' & E2 & Em).
  fold k in E2, Em. apply Ret_inj in Em; subst m. cbn [g3_ngates g3_gated g3_irreps g3_fields] in *.
  destruct (Nat.eqb_spec (length irreps mod 2) 0) as [Ev|]; [|discriminate]. destruct (forallb itrivial (firstn k irreps)) eqn:Et; [|discriminate]. clear E1 E2 u u'.
  assert (length irreps = k + k)%nat as Lk by (unfold k; pose proof (Nat.div_mod (length irreps) 2 ltac:(lia)); lia).
  split; [reflexivity|]. split; [reflexivity|]. split; [exact Lk|].
  assert (Forall (fun q => isize q = 1%nat) (firstn k irreps)) as F1.
  { rewrite forallb_forall in Et. rewrite Forall_forall in *. intros q Hq. apply T; [|apply Et, Hq]. rewrite <- (firstn_skipn k irreps). apply in_or_app. left; exact Hq. }
  assert (irr_size isize irreps = k + irr_size isize (skipn k irreps))%nat as Si.
  { unfold irr_size. rewrite <- (firstn_skipn k irreps) at 1. rewrite map_app, list_sum_app. f_equal. change (type_size isize (firstn k irreps) = k). rewrite (type_size_ones isize _ F1), firstn_length. lia. }
  assert (offset isize irreps k = k) as Ok.
  { unfold offset. change (type_size isize (firstn k irreps) = k). rewrite (type_size_ones isize _ F1), firstn_length. lia. }
  assert (forall j, (j <= k)%nat -> offset isize irreps j = j) as Oj.
  { intros j Hj. unfold offset. change (type_size isize (firstn j irreps) = j).
    assert (firstn j irreps = firstn j (firstn k irreps)) as -> by (rewrite firstn_firstn; f_equal; lia).
    rewrite type_size_ones; [rewrite !firstn_length; lia|]. rewrite Forall_forall in *. intros q Hq. apply F1. rewrite <- (firstn_skipn j (firstn k irreps)). apply in_or_app; left; exact Hq. }
  unfold gated3_field. cbn [g3_ngates g3_gated]. set (gated := skipn k irreps) in *. set (s := irr_size isize gated) in *.
  rewrite zip_with_ok by (rewrite firstn_length; lia). cbn [bind]. set (gates := map (fun p => gate (fst p - snd p)) (List.combine (firstn k x) bias)).
  assert (length (skipn k x) = s) as Lf by (rewrite skipn_length; lia). rewrite Lf, Nat.eqb_refl. cbn [assert_ bind].
  set (ex := map (fun o => sumn k (fun i => expansion isize 0 0 gated o i * nth i gates 0)) (seq 0 s)).
  rewrite zip_with_ok by (unfold ex; rewrite map_length, seq_length; lia). eexists. split; [reflexivity|].
  assert (length ex = s) as Lex by (unfold ex; rewrite map_length, seq_length; reflexivity).
  split; [rewrite map_length, combine_length; lia|]. intros j Hj.
  assert (length gated = k) as Lga by (unfold gated; rewrite skipn_length; lia).
  destruct (nth_error gated j) as [q|] eqn:Eq; [|apply nth_error_None in Eq; lia].
  assert (nth_error irreps (k + j) = Some q) as Eq'. { rewrite <- (firstn_skipn k irreps), nth_error_app2 by (rewrite firstn_length; lia). rewrite firstn_length. replace (k + j - Nat.min k (length irreps))%nat with j by lia. exact Eq. }
  rewrite field_map, field_combine by lia.
  assert (field_chans isize gated (skipn k x) j = field_chans isize irreps x (k + j)) as Ef.
  { rewrite (field_chans_at isize _ _ _ _ Eq), (field_chans_at isize _ _ _ _ Eq'). rewrite skipn_skipn'. f_equal. f_equal.
    unfold offset. rewrite <- (firstn_skipn k irreps) at 1. rewrite firstn_app, firstn_length. replace (k + j - Nat.min k (length irreps))%nat with j by lia.
    rewrite (firstn_all2 (firstn k irreps)) by (rewrite firstn_length; lia). rewrite map_app, list_sum_app. f_equal. symmetry. change (type_size isize (firstn k irreps) = k). rewrite (type_size_ones isize _ F1), firstn_length. lia. }
  rewrite Ef.
  assert (field_chans isize gated ex j = repeat (gate (nth 0 (field_chans isize irreps x j) 0 - nth j bias 0)) (isize q)) as ->.
  { apply list_ext.
    - rewrite repeat_length. apply field_chans_length; [exact Lex|exact Eq].
    - intros a Ha. rewrite (field_chans_length isize gated ex j q Lex Eq) in Ha.
      assert (nth a (repeat (gate (nth 0 (field_chans isize irreps x j) 0 - nth j bias 0)) (isize q)) 0 = gate (nth 0 (field_chans isize irreps x j) 0 - nth j bias 0)) as ->.
      { clear - Ha. revert a Ha. induction (isize q) as [|c IH]; intros a Ha; [lia|]. destruct a; [reflexivity|]. cbn [repeat nth]. apply IH. lia. }
      rewrite (field_chans_at isize _ _ _ _ Eq).
      assert (offset isize gated j + a < s)%nat as Hs.
      { pose proof (offset_le isize gated (S j)) as H. rewrite (offset_S isize _ _ _ Eq) in H. change (type_size isize gated) with s in H. lia. }
      assert (nth a (firstn (isize q) (skipn (offset isize gated j) ex)) 0 = nth (offset isize gated j + a) ex 0) as ->.
      { rewrite <- (firstn_skipn (offset isize gated j) ex) at 2. rewrite app_nth2 by (rewrite firstn_length; lia). rewrite firstn_length.
        replace (offset isize gated j + a - Nat.min (offset isize gated j) (length ex))%nat with a by lia.
        generalize (skipn (offset isize gated j) ex) as w. revert Ha. clear. revert a. induction (isize q) as [|c IH]; intros a Ha w; [lia|]. destruct w as [|b w]; [destruct a; reflexivity|]. destruct a; [reflexivity|]. cbn [firstn nth]. apply IH. lia. }
      unfold ex. rewrite (nth_indep _ 0 ((fun o => sumn k (fun i => expansion isize 0 0 gated o i * nth i gates 0)) 0%nat)) by (rewrite map_length, seq_length; exact Hs).
      rewrite (map_nth (fun o => sumn k (fun i => expansion isize 0 0 gated o i * nth i gates 0))), seq_nth by exact Hs.
      rewrite (sumn_single k j); [|exact Hj|].
      + change (0 + (offset isize gated j + a))%nat with (0 + offset isize gated j + a)%nat. rewrite (expansion_block gated 0 0 j q a j Eq Ha), Nat.eqb_refl. unfold gates.
        rewrite (nth_indep _ 0 ((fun p => gate (fst p - snd p)) (0, 0))) by (rewrite map_length, combine_length, firstn_length; lia).
        rewrite (map_nth (fun p => gate (fst p - snd p))), combine_nth by (rewrite firstn_length; lia). cbn [fst snd]. rewrite Rmult_1_l. f_equal. f_equal.
        destruct (nth_error irreps j) as [t|] eqn:Etj; [|apply nth_error_None in Etj; lia]. rewrite (field_chans_at isize _ _ _ _ Etj), (Oj j) by lia.
        assert (isize t = 1%nat) as ->. { rewrite Forall_forall in F1. apply F1. apply (nth_error_In _ j). rewrite <- Etj. rewrite <- (firstn_skipn k irreps) at 2. rewrite nth_error_app1 by (rewrite firstn_length; lia). reflexivity. }
        assert (j < length x)%nat as Hjx by lia. clear - Hj Hjx. clearbody k. clear irreps. revert k Hj x Hjx. induction j as [|j IH]; intros [|k] Hk [|b x] Hx; cbn in *; try lia; [reflexivity|]. apply IH; lia.
      + intros i Hi Ne. change (0 + (offset isize gated j + a))%nat with (0 + offset isize gated j + a)%nat.
        rewrite (expansion_block gated 0 0 j q a i Eq Ha). rewrite (proj2 (Nat.eqb_neq i (0 + j))) by (cbn; lia). ring. }
  pose proof (field_chans_length isize irreps x (k + j) q Lx Eq') as Lq. revert Lq.
  generalize (field_chans isize irreps x (k + j)) as v, (gate (nth 0 (field_chans isize irreps x j) 0 - nth j bias 0)) as c. clear.
  intros v c. revert v. induction (isize q) as [|e IH]; intros [|a v] L; try discriminate; [reflexivity|]. cbn [repeat List.combine map fst snd scaled]. f_equal. unfold scaled in IH. apply IH. cbn in L. lia.
Qed.
Theorem gated3_field_equivariant : forall irreps n m gate bias x x' (rho : I -> mat), mk_gated3 itrivial irreps n = Ret m ->
  Forall (fun q => itrivial q = true -> isize q = 1%nat /\ rho q 0%nat 0%nat = 1) irreps -> length x = irr_size isize irreps -> length bias = g3_ngates m ->
  acts isize irreps rho x x' ->
  exists y y', gated3_field isize m gate bias x = Ret y /\ gated3_field isize m gate bias x' = Ret y' /\ length y = irr_size isize (g3_gated m) /\ acts isize (g3_gated m) rho y y'.
Proof.
  intros irreps n m gate bias x x' rho Em T Lx Lb Ha.
  assert (Forall (fun q => itrivial q = true -> isize q = 1%nat) irreps) as T' by (rewrite Forall_forall in *; intros q Hq Hi; apply (T q Hq Hi)).
  destruct (gated3_field_value irreps n m gate bias x Em T' Lx Lb) as (En & Eg & Lk & y & Ey & Ly & Hy).
  destruct (gated3_field_value irreps n m gate bias x' Em T' (proj1 Ha) Lb) as (_ & _ & _ & y' & Ey' & Ly' & Hy').
  set (k := (length irreps / 2)%nat) in *. exists y, y'. split; [exact Ey|]. split; [exact Ey'|]. split; [exact Ly|]. split; [exact Ly'|].
  intros j q Eq. assert (j < k)%nat as Hj. { assert (j < length (g3_gated m))%nat by (apply nth_error_Some; congruence). rewrite Eg, skipn_length in H. lia. }
  rewrite (Hy' j Hj), (Hy j Hj).
  assert (nth_error irreps (k + j) = Some q) as Eq'. { rewrite Eg in Eq. rewrite <- (firstn_skipn k irreps), nth_error_app2 by (rewrite firstn_length; lia). rewrite firstn_length. replace (k + j - Nat.min k (length irreps))%nat with j by lia. exact Eq. }
  rewrite (proj2 Ha _ _ Eq'). rewrite scaled_mv by (apply field_chans_length; assumption). f_equal. f_equal. f_equal.
  destruct (nth_error irreps j) as [t|] eqn:Etj; [|apply nth_error_None in Etj; lia]. rewrite (proj2 Ha _ _ Etj).
  assert (itrivial t = true) as Ht.
  { unfold mk_gated3 in Em. apply bind_Ret in Em. destruct Em as (u & E1 & Em). fold k in Em. destruct (forallb itrivial (firstn k irreps)) eqn:Et; [|discriminate]. rewrite forallb_forall in Et. apply Et.
    apply (nth_error_In _ j). rewrite <- Etj. rewrite <- (firstn_skipn k irreps) at 2. rewrite nth_error_app1 by (rewrite firstn_length; lia). reflexivity. }
  rewrite Forall_forall in T. destruct (T t (nth_error_In _ _ Etj) Ht) as [S1 R1]. rewrite S1. unfold mv. cbn [seq map sumn nth]. rewrite R1. ring.
Qed.
(** all the fields *)
Theorem gated3_equivariant : forall irreps n m gate bias x x' (rho : I -> mat), mk_gated3 itrivial irreps n = Ret m -> Forall (fun q => (0 < isize q)%nat) irreps -> irreps <> [] ->
  Forall (fun q => itrivial q = true -> isize q = 1%nat /\ rho q 0%nat 0%nat = 1) irreps ->
  let s := irr_size isize irreps in let t := irr_size isize (g3_gated m) in
  length x = (n * s)%nat -> length x' = (n * s)%nat -> length bias = n -> Forall (fun b => length b = g3_ngates m) bias ->
  (forall f, (f < n)%nat -> acts isize irreps rho (piece s f x) (piece s f x')) ->
  exists y y', gated3_forward isize m gate bias x = Ret y /\ gated3_forward isize m gate bias x' = Ret y' /\ length y = (n * t)%nat /\ length y' = (n * t)%nat /\
    (forall f, (f < n)%nat -> acts isize (g3_gated m) rho (piece t f y) (piece t f y')) /\
    (forall f b, (f < n)%nat -> nth_error bias f = Some b -> gated3_field isize m gate b (piece s f x) = Ret (piece t f y)).
Proof.
  intros irreps n m gate bias x x' rho Em Pq Ne T s t Lx Lx' Lb Fb Ha.
  assert (g3_irreps m = irreps /\ g3_fields m = n) as [Ei En].
  { unfold mk_gated3 in Em. apply bind_Ret in Em. destruct Em as (u & _ & Em). apply bind_Ret in Em. destruct Em as (u' & _ & Em). apply Ret_inj in Em; subst m. split; reflexivity. }
  assert (0 < s)%nat as Ps. { unfold s, irr_size. destruct irreps as [|q l]; [congruence|]. apply Forall_inv in Pq. cbn. lia. }
  assert (forall z, length z = (n * s)%nat -> view s z = Ret (pieces n s z)) as Hv.
  { intros z Lz. rewrite <- (concat_pieces n s z Lz) at 1. apply view_concat; [exact Ps|apply pieces_uniform, Lz]. }
  assert (forall z, length z = (n * s)%nat -> length (pieces n s z) = n) as Hl by (intros z _; unfold pieces; rewrite map_length, seq_length; reflexivity).
  unfold gated3_forward. rewrite Ei, En. fold s. rewrite (Hv x Lx), (Hv x' Lx'). cbn [bind]. rewrite (Hl x Lx), (Hl x' Lx'), Nat.eqb_refl. cbn [assert_ bind].
  rewrite !zip_with_ok by (rewrite Hl by assumption; lia). cbn [bind].
  (* induction over the fields *)
  assert (forall bs bs' bias, length bias = length bs -> length bs' = length bs -> Forall (fun b => length b = g3_ngates m) bias ->
     (forall f v v', nth_error bs f = Some v -> nth_error bs' f = Some v' -> length v = s /\ acts isize irreps rho v v') ->
     exists ys ys', mapM (fun r => r) (map (fun p => gated3_field isize m gate (snd p) (fst p)) (List.combine bs bias)) = Ret ys /\
       mapM (fun r => r) (map (fun p => gated3_field isize m gate (snd p) (fst p)) (List.combine bs' bias)) = Ret ys' /\
       length ys = length bs /\ length ys' = length bs /\ Forall (fun y => length y = t) ys /\ Forall (fun y => length y = t) ys' /\
       (forall f y y', nth_error ys f = Some y -> nth_error ys' f = Some y' -> acts isize (g3_gated m) rho y y') /\
       (forall f v b y, nth_error bs f = Some v -> nth_error bias f = Some b -> nth_error ys f = Some y -> gated3_field isize m gate b v = Ret y)) as Ind.
  { clear - Em T. induction bs as [|v bs IH]; intros [|v' bs'] [|b bias] L1 L2 F H; try discriminate.
    - exists [], []. split; [reflexivity|]. split; [reflexivity|]. split; [reflexivity|]. split; [reflexivity|]. split; [apply Forall_nil|]. split; [apply Forall_nil|]. split; intros [|f]; discriminate.
    - apply Forall_cons_iff in F. destruct F as [Lb F]. destruct (H 0%nat v v' eq_refl eq_refl) as [Lv Av].
      destruct (gated3_field_equivariant irreps n m gate b v v' rho Em T Lv Lb Av) as (y & y' & Ey & Ey' & Ly & Ay).
      destruct (IH bs' bias) as (ys & ys' & E1 & E2 & M1 & M2 & F1 & F2 & HA & HV); [cbn in L1; lia|cbn in L2; lia|exact F|intros f w w'; apply (H (S f))|].
      exists (y :: ys), (y' :: ys'). cbn [List.combine map fst snd mapM]. rewrite Ey, Ey', E1, E2. cbn [bind].
      split; [reflexivity|]. split; [reflexivity|]. split; [cbn; lia|]. split; [cbn; lia|]. split; [constructor; assumption|]. split; [constructor; [exact (proj1 Ay)|assumption]|]. split.
      + intros [|f] w w' E3 E4; cbn [nth_error] in *; [replace w' with y' by congruence; replace w with y by congruence; exact Ay|eapply HA; eassumption].
      + intros [|f] w c z E3 E4 E5; cbn [nth_error] in *; [congruence|eapply HV; eassumption]. }
  destruct (Ind (pieces n s x) (pieces n s x') bias) as (ys & ys' & E1 & E2 & M1 & M2 & F1 & F2 & HA & HV).
  - rewrite (Hl x Lx). exact Lb.
  - rewrite (Hl x Lx), (Hl x' Lx'). reflexivity.
  - exact Fb.
  - intros f v v' E1 E2. unfold pieces in E1, E2. rewrite nth_error_map in E1, E2. destruct (nth_error (seq 0 n) f) as [f'|] eqn:Ef; [|discriminate]. cbn [option_map] in E1, E2.
    assert (f < n)%nat as Hf by (rewrite <- (seq_length n 0); apply nth_error_Some; congruence). rewrite (nth_error_nth' _ 0%nat) in Ef by (rewrite seq_length; exact Hf). rewrite seq_nth in Ef by exact Hf.
    injection Ef as <-. injection E1 as <-. injection E2 as <-. split; [apply (piece_length n); assumption|apply Ha, Hf].
  - rewrite (Hl x Lx) in M1, M2. rewrite E1, E2. cbn [bind]. exists (concat ys), (concat ys'). split; [reflexivity|]. split; [reflexivity|].
    rewrite (concat_uniform t ys F1), (concat_uniform t ys' F2), M1, M2. split; [reflexivity|]. split; [reflexivity|]. split.
    + intros f Hf. rewrite !piece_concat by (try assumption; lia). apply (HA f); apply nth_error_nth'; lia.
    + intros f b Hf Eb. rewrite piece_concat by (try assumption; lia). apply (HV f).
      * unfold pieces. rewrite nth_error_map, (nth_error_nth' _ 0%nat) by (rewrite seq_length; exact Hf). rewrite seq_nth by exact Hf. reflexivity.
      * exact Eb.
      * apply nth_error_nth'. lia.
Qed.
End Uniform.
