(** Equivariance and value of FourierPointwise and QuotientFourierPointwise. *)
From Coq Require Import Reals String List ZArith Arith Bool Lia Lra Permutation.
From Verif Require Import LibRes LibPy LibMat LibMatS LibTrig ParamModel ParamProofs FieldModel GroupedModel NonlinModel PoolModel SpecRep IrrepModel RepModel RepProofs SpecRepr SpecInd IndModel IndProofs
  FieldProofs GroupedProofs NonlinProofs BatchThms SpecField SpecNonlin FourierModel SpecFourier FourierProofs FourierThms FourierCor FourierEqv FourierFin.
Import ListNotations.
Open Scope R_scope.

Section End.
Context {T S : Type}.
Variables (mem : T -> Prop) (op : T -> T -> res T) (inv : T -> res T) (e : T).
Variable irrG : list Z -> res (girrep T).
Variable restrict : list Z -> res (repr S).
Variable linv : nat -> mat -> res mat.
Variable psi : girrep S.
Variable order : list (list Z) -> list (list Z).
Variable teqb : list (repr T) -> list (repr T) -> bool.
Hypothesis linv_ok : correct_inverse linv.
Hypothesis order_ok : forall l, Permutation (order l) l.
Let usable := usable_irrep irrG mem op inv e.

Lemma order_In : forall l x, In x (order l) -> In x l.
Proof. intros l x I. exact (Permutation_in x (order_ok l) I). Qed.

Lemma regular_moved : forall grid h fl fo fr (k k' : list R), left_permuted op h grid -> samples_moved op grid fl fo fr k k' h.
Proof.
  intros grid h fl fo fr k k' (l & El & P). exists l, l. split; [exact El|]. split; [exact P|].
  clear. induction l as [|x l IH]; constructor; auto.
Qed.

(** any kernel: nothing about it is needed *)
Theorem pointwise_equivariant : forall build channels ids function out_ids normalize grid m, Forall mem grid -> Forall usable ids ->
  (forall o, out_ids = Some o -> Forall usable o) ->
  mk_fourier irrG restrict linv psi order build channels ids function out_ids normalize grid = Ret m ->
  teqb (fm_in_type m) (fm_in_type m) = true ->
  forall h x x', mem h -> left_permuted op h grid -> g_type x = fm_in_type m -> g_type x' = fm_in_type m ->
    length (g_chans x) = list_sum (map r_size (fm_in_type m)) ->
    acts r_size (fm_in_type m) (at_element h) (g_chans x) (g_chans x') ->
    exists y y', fourier_forward teqb m x = Ret y /\ fourier_forward teqb m x' = Ret y' /\ g_type y = fm_out_type m /\ g_type y' = fm_out_type m /\
      acts r_size (fm_out_type m) (at_element h) (g_chans y) (g_chans y').
Proof.
  intros build channels ids function out_ids normalize grid m Fg Fi Fo E TE h x x' Hh HP Ex Ex' Lx A.
  destruct (mk_inv mem op inv e irrG restrict linv psi order linv_ok order_In build _ _ _ _ _ _ _ Fg Fi Fo E) as (_ & _ & _ & rs & ms & rs' & ms' & fo & fr & k & k' & Gi & ids' & _ & _ & _ & _ & _ & _ & _ & SH).
  refine (forward_moves mem op inv e teqb grid m _ fo fr _ _ Gi Fg SH TE h x x' Hh _ Ex Ex' Lx A). apply regular_moved; exact HP.
Qed.

Lemma fixed_rows : forall fl k c y x, Forall (orth mem op inv e) fl -> mem y -> mem c -> op y c = Ret x -> row fl k c = k -> row fl k x = row fl k y.
Proof.
  intros fl k c y x F Hy Hc E K. rewrite (row_moves mem op inv e fl k y c x F Hy Hc E), K. reflexivity.
Qed.

Lemma normalised_fixed : forall b (fl : list (girrep T)) k g, row fl k g = k -> row fl (normalised b k) g = normalised b k.
Proof. intros [|] fl k g E; cbn [normalised]; [|exact E]. rewrite row_scaled, E. reflexivity. Qed.

Theorem quotient_equivariant : forall (memH : S -> Prop) (incl : S -> res T) irrH components,
  (forall c k, memH c -> incl c = Ret k -> mem k) -> irrH (gi_id psi) = Ret psi -> trivial_irrep memH psi ->
  (forall id r h b, irrH id = Ret r -> memH h -> gi_rep r h = Ret b -> fst b = gi_size r) ->
  (forall id r d, irrG id = Ret r -> restrict (gi_id r) = Ret d -> restriction_of irrH memH incl r d) ->
  forall channels ids function out_ids normalize grid m, Forall mem grid -> Forall usable ids ->
  (forall o, out_ids = Some o -> Forall usable o) ->
  mk_fourier irrG restrict linv psi order (quotient_kernel irrG irrH restrict components psi) channels ids function out_ids normalize grid = Ret m ->
  teqb (fm_in_type m) (fm_in_type m) = true ->
  forall h x x', mem h -> left_permuted_mod op memH incl h grid -> g_type x = fm_in_type m -> g_type x' = fm_in_type m ->
    length (g_chans x) = list_sum (map r_size (fm_in_type m)) ->
    acts r_size (fm_in_type m) (at_element h) (g_chans x) (g_chans x') ->
    exists y y', fourier_forward teqb m x = Ret y /\ fourier_forward teqb m x' = Ret y' /\ g_type y = fm_out_type m /\ g_type y' = fm_out_type m /\
      acts r_size (fm_out_type m) (at_element h) (g_chans y) (g_chans y').
Proof.
  intros memH incl irrH components Hincl Epsi Tpsi Hsz Hres channels ids function out_ids normalize grid m Fg Fi Fo E TE h x x' Hh HP Ex Ex' Lx A.
  destruct (mk_inv mem op inv e irrG restrict linv psi order linv_ok order_In _ _ _ _ _ _ _ _ Fg Fi Fo E) as (_ & _ & _ & rs & ms & rs' & ms' & fo & fr & k & k' & Gi & ids' & Pa & Pb & Ec & _ & Fi' & Ek & Ek' & SH).
  refine (forward_moves mem op inv e teqb grid m _ fo fr _ _ Gi Fg SH TE h x x' Hh _ Ex Ex' Lx A).
  assert (U : forall i r q, Forall usable i -> parts irrG restrict psi i r q -> Forall (orth mem op inv e) r /\ Forall (fun a => (0 < gi_sosc a)%nat) r).
  { intros i r q F [Er _]. destruct (usable_list mem op inv e irrG i F) as (r2 & Er2 & F2). rewrite Er in Er2. apply Ret_inj in Er2. subst r2.
    split; (eapply Forall_impl; [|exact F2]); intros a (_ & O & _ & P); assumption. }
  destruct (U ids rs ms Fi Pa) as [O1 P1]. destruct (U ids' rs' ms' Fi' Pb) as [O2 P2].
  pose proof SH as (_ & _ & _ & _ & FO1 & FO2 & _).
  destruct HP as (l & l' & El & Pl & F2). exists l, l'. split; [exact El|]. split; [exact Pl|].
  assert (Fl' : Forall mem l') by (apply (Permutation_Forall (Permutation_sym Pl)); exact Fg).
  clear El Pl. revert Fl'. induction F2 as [|a b l l' (c & g & Hc & Eg & Eo) F2 IH]; intros Fl'; [constructor|]. inversion Fl' as [|? ? Hb Fl0]; subst.
  constructor; [|apply IH; exact Fl0]. split.
  - apply (fixed_rows _ _ g b a FO1 Hb (Hincl c g Hc Eg) Eo). apply normalised_fixed.
    eapply (quotient_fixed mem op inv e memH incl irrG irrH restrict components psi Hincl Epsi Tpsi Hsz Hres); eassumption.
  - apply (fixed_rows _ _ g b a FO2 Hb (Hincl c g Hc Eg) Eo). apply normalised_fixed. rewrite <- Ec.
    eapply (quotient_fixed mem op inv e memH incl irrG irrH restrict components psi Hincl Epsi Tpsi Hsz Hres); eassumption.
Qed.

Theorem pointwise_value : gi_sosc psi = 1%nat ->
  (forall id r, irrG id = Ret r -> splits_fully restrict psi r /\ Nat.divide (gi_sosc r) (gi_size r)) ->
  forall channels ids function out_ids normalize grid m, Forall mem grid -> Forall usable ids ->
  (forall o, out_ids = Some o -> Forall usable o) ->
  mk_fourier irrG restrict linv psi order (regular_kernel irrG e) channels ids function out_ids normalize grid = Ret m ->
  teqb (fm_in_type m) (fm_in_type m) = true ->
  exists fn rs rs' ids', pointwise_function function = Ret fn /\ mapM irrG ids = Ret rs /\ mapM irrG ids' = Ret rs' /\
    match out_ids with
    | None => ids' = ids
    | Some o => exists more, ids' = o ++ more /\ forall id, In id more <-> In id ids /\ ~ In id o
    end /\
    fm_in_type m = repeat (fm_rho m) channels /\ r_size (fm_rho m) = total_size rs /\ fm_out_type m = repeat (fm_out m) channels /\
    forall x, g_type x = fm_in_type m -> length (g_chans x) = list_sum (map r_size (fm_in_type m)) ->
    exists y, fourier_forward teqb m x = Ret y /\ g_type y = fm_out_type m /\ length (g_chans y) = list_sum (map r_size (fm_out_type m)) /\
      forall i, (i < channels)%nat -> exists z,
        ridge (/ 10 ^ 8) (total_size rs') (map (fun g => (coefficients_by normalize rs' g,
           fn (inner (field_chans r_size (fm_in_type m) (g_chans x) i) (coefficients_by normalize rs g)))) grid) z /\
        field_chans r_size (fm_out_type m) (g_chans y) i = firstn (r_size (fm_out m)) z.
Proof.
  intros S1 HS channels ids function out_ids normalize grid m Fg Fi Fo E TE.
  destruct (mk_inv mem op inv e irrG restrict linv psi order linv_ok order_In _ _ _ _ _ _ _ _ Fg Fi Fo E) as (Cc & _ & Ef & rs & ms & rs' & ms' & fo & fr & k & k' & Gi & ids' & Pa & Pb & Ec & Ho & Fi' & Ek & Ek' & SH).
  assert (U : forall i r q, Forall usable i -> parts irrG restrict psi i r q -> Forall (orth mem op inv e) r /\ Forall2 (regular_like mem op inv e) r q).
  { intros i r q F [Er Fm]. destruct (usable_list mem op inv e irrG i F) as (r2 & Er2 & F2). rewrite Er in Er2. apply Ret_inj in Er2. subst r2.
    split; [eapply Forall_impl; [|exact F2]; intros a (_ & O & _ & P); assumption|].
    clear Er F. induction Fm as [|a b l l' Em Fm IH]; [constructor|]. inversion F2 as [|? ? (Ea & O & P1 & P2) F3]; subst. constructor; [|apply IH; exact F3].
    destruct (HS _ _ Ea) as [Sp D]. split; [exact O|]. split; [exact P2|]. exact (full_dimension restrict psi a b S1 Sp P2 D Em). }
  destruct (U ids rs ms Fi Pa) as [O1 R1]. destruct (U ids' rs' ms' Fi' Pb) as [O2 R2].
  assert (TS : forall r q, Forall2 (regular_like mem op inv e) r q -> tsize (copies r q) = total_size r).
  { intros r q F. rewrite copies_size by (clear - F; induction F; cbn; congruence). unfold total_size. f_equal.
    induction F as [|a b r q (_ & _ & ->) F IH]; [reflexivity|]. cbn [combine map fst snd]. rewrite IH; reflexivity. }
  rewrite (kernel_blocks mem op inv e irrG ids rs k (proj1 Pa) O1 Ek) in SH.
  rewrite (kernel_blocks mem op inv e irrG ids' rs' k' (proj1 Pb) O2 Ek') in SH.
  exists (fm_function m), rs, rs', ids'. split; [exact Ef|]. split; [apply Pa|]. split; [apply Pb|]. split.
  { destruct out_ids as [o|]; [|apply Ho]. eexists; split; [exact Ho|]. intros id. split.
    - intros I. apply order_In in I. apply filter_In in I as [I N]. apply nodup_In in I. split; [exact I|]. intros J. apply negb_true_iff in N.
      assert (X : existsb (fun i => if list_eq_dec Z.eq_dec i id then true else false) o = true) by (apply existsb_exists; exists id; split; [exact J|]; destruct (list_eq_dec Z.eq_dec id id); congruence).
      congruence.
    - intros [I N]. apply (Permutation_in id (Permutation_sym (order_ok _))). apply filter_In. split; [apply nodup_In; exact I|]. apply negb_true_iff.
      destruct (existsb _ o) eqn:X; [|reflexivity]. apply existsb_exists in X as (i & J & Q). destruct (list_eq_dec Z.eq_dec i id); [subst; contradiction|discriminate]. }
  split; [unfold fm_in_type; rewrite Cc; reflexivity|]. split; [rewrite <- (TS rs ms R1); apply SH|]. split; [unfold fm_out_type; rewrite Cc; reflexivity|].
  intros x Ex Lx. pose proof (uniform_size r_size (fm_rho m) (fm_channels m)) as US. fold (fm_in_type m) in US. unfold type_size in US.
  destruct (forward_ok mem op inv e teqb grid m _ fo fr _ _ Gi SH TE x Ex) as (y & Ey & Ty & Ly & Fy); [rewrite <- US; exact Lx|].
  exists y. split; [exact Ey|]. split; [exact Ty|]. split; [exact Ly|]. intros i Hi. rewrite <- Cc in Hi. rewrite (Fy i Hi).
  destruct (field_ridge mem op inv e grid m _ fo fr _ _ Gi SH (field_chans r_size (fm_in_type m) (g_chans x) i)) as (z & Rz & Ez).
  exists z. destruct SH as (_ & S2 & _). rewrite S2, Ez. split; [|reflexivity].
  rewrite <- Ec in Rz. rewrite (TS rs' ms' R2) in Rz.
  replace (map _ grid) with (map (fun g : T => (row (copies rs' ms') (normalised normalize (coefficients rs' e)) g,
           fm_function m (dot (field_chans r_size (fm_in_type m) (g_chans x) i) (row (copies rs ms) (normalised normalize (coefficients rs e)) g)))) grid); [exact Rz|].
  apply map_ext; intros g. rewrite (rows_by mem op inv e normalize rs' ms' g R2), (rows_by mem op inv e normalize rs ms g R1). reflexivity.
Qed.
End End.
