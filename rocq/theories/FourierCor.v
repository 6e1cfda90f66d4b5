(** The modules in the Fourier domain commute with the elements that permute the grid. *)
From Coq Require Import Reals String List ZArith Arith Bool Lia Lra Permutation.
From Verif Require Import LibRes LibPy LibMat LibMatS ParamModel FieldModel GroupedModel NonlinModel PoolModel SpecRep IrrepModel RepModel RepProofs SpecRepr
  FieldProofs GroupedProofs NonlinProofs BatchThms SpecField SpecNonlin FourierModel SpecFourier FourierProofs FourierThms.
Import ListNotations.
Open Scope R_scope.

Section Module.
Context {T S : Type}.
Variables (mem : T -> Prop) (op : T -> T -> res T) (inv : T -> res T) (e : T).
Variable irrG : list Z -> res (girrep T).
Variable restrict : list Z -> res (repr S).
Variable linv : nat -> mat -> res mat.
Variable psi : girrep S.
Variable order : list (list Z) -> list (list Z).
Hypothesis linv_ok : correct_inverse linv.
Hypothesis order_ok : forall l x, In x (order l) -> In x l.
Let usable := usable_irrep irrG mem op inv e.
Let orth := orth mem op inv e.

Definition copies (rs : list (girrep T)) (ms : list nat) : list (girrep T) := flat_map (fun p => repeat (fst p) (snd p)) (combine rs ms).

Lemma usable_list : forall ids, Forall usable ids -> exists rs, mapM irrG ids = Ret rs /\
  Forall (fun r => irrG (gi_id r) = Ret r /\ orth r /\ (0 < gi_size r)%nat /\ (0 < gi_sosc r)%nat) rs.
Proof.
  intros ids F; induction F as [|id ids (r & E & E' & O & P1 & P2) F (rs & Ers & Fr)]; [exists []; split; [reflexivity|constructor]|].
  exists (r :: rs). cbn [mapM]. rewrite E; cbn [bind]. rewrite Ers; cbn [bind]. split; [reflexivity|]. constructor; auto.
Qed.

Lemma copies_size : forall rs ms, length rs = length ms ->
  tsize (copies rs ms) = list_sum (map (fun p => snd p * gi_size (fst p))%nat (combine rs ms)).
Proof.
  intros rs ms; unfold copies, tsize. revert ms; induction rs as [|r rs IH]; intros [|m ms] L; try discriminate; [reflexivity|].
  cbn [combine flat_map map fst snd]. rewrite map_app, list_sum_app, IH by (cbn [length] in L; lia). cbn [list_sum fold_right]. f_equal.
  clear. induction m as [|m IH]; [reflexivity|]. cbn [repeat map list_sum fold_right]. unfold list_sum in IH; rewrite IH. reflexivity.
Qed.

Lemma mapM_repeat : forall {A B} (f : A -> res B) a b n, f a = Ret b -> mapM f (repeat a n) = Ret (repeat b n).
Proof. intros A B f a b n E; induction n as [|n IH]; [reflexivity|]. cbn [repeat mapM]. rewrite E; cbn [bind]. rewrite IH; reflexivity. Qed.

Lemma copies_irr : forall rs ms, Forall (fun r => irrG (gi_id r) = Ret r) rs -> length rs = length ms ->
  mapM irrG (flat_map (fun p => repeat (gi_id (fst p)) (snd p)) (combine rs ms)) = Ret (copies rs ms).
Proof.
  intros rs ms F; revert ms; induction F as [|r rs E F IH]; intros [|m ms] L; try discriminate; [reflexivity|].
  cbn [combine flat_map copies fst snd]. rewrite mapM_app, (mapM_repeat _ _ _ _ E), IH by (cbn [length] in L; lia). reflexivity.
Qed.

Lemma copies_Forall : forall (P : girrep T -> Prop) rs ms, Forall P rs -> Forall P (copies rs ms).
Proof.
  intros P rs ms F; unfold copies. apply Forall_forall. intros r I. apply in_flat_map in I. destruct I as ([r' m] & I & J).
  cbn [fst snd] in J. apply repeat_spec in J. subst r'. apply in_combine_l in I. rewrite Forall_forall in F. apply F; exact I.
Qed.

Lemma copies_app : forall rs ms rs' ms', length rs = length ms -> copies (rs ++ rs') (ms ++ ms') = copies rs ms ++ copies rs' ms'.
Proof.
  intros rs ms rs' ms'; unfold copies. revert ms; induction rs as [|r rs IH]; intros [|m ms] L; try discriminate; [reflexivity|].
  cbn [app combine flat_map]. rewrite IH by (cbn [length] in L; lia). rewrite app_assoc. reflexivity.
Qed.

Definition parts (ids : list (list Z)) (rs : list (girrep T)) (ms : list nat) : Prop :=
  mapM irrG ids = Ret rs /\ Forall2 (fun r m => dimension_basis restrict psi r = Ret m) rs ms.

Lemma spectral_inv : forall ids rho, Forall usable ids -> spectral irrG restrict linv psi ids = Ret (Some rho) ->
  exists rs ms, parts ids rs ms /\ Forall orth rs /\ r_size rho = tsize (copies rs ms) /\ (0 < r_size rho)%nat /\
    (forall g, mem g -> r_fun rho g = Ret (r_size rho, V (copies rs ms) g)).
Proof.
  intros ids rho F E. destruct (usable_list ids F) as (rs & Ers & Frs). unfold spectral in E.
  apply assert_Ret in E as [_ E]. rewrite Ers in E; cbn [bind] in E. apply assert_Ret in E as [_ E].
  apply bind_Ret in E as (ps & Eps & E).
  assert (K : exists ms, Forall2 (fun r m => dimension_basis restrict psi r = Ret m) rs ms /\
    ps = map (fun p => (repeat (gi_id (fst p)) (snd p), (snd p * gi_size (fst p))%nat)) (combine rs ms)).
  { clear E. apply mapM_Ret_inv in Eps. revert ps Eps. clear Ers.
    induction Frs as [|r rs (E1 & _) Frs IH]; cbn [map]; intros ps H; inversion H; subst; [exists []; split; [constructor|reflexivity]|].
    match goal with Q : _ = Ret ?y |- context [?y :: _] => rewrite E1 in Q; cbn [bind] in Q; apply bind_Ret in Q as (m & Em & Q); apply Ret_inj in Q; subst y end.
    match goal with Q : Forall2 _ _ ?l |- context [_ :: ?l] => destruct (IH l Q) as (ms & Fm & ->) end.
    exists (m :: ms). split; [constructor; assumption|reflexivity]. }
  destruct K as (ms & Fm & ->).
  assert (L : length rs = length ms) by (clear - Fm; induction Fm; cbn; congruence).
  assert (SZ : list_sum (map snd (map (fun p => (repeat (gi_id (fst p)) (snd p), (snd p * gi_size (fst p))%nat)) (combine rs ms))) = tsize (copies rs ms)).
  { rewrite map_map. cbn [snd]. symmetry. apply copies_size; exact L. }
  rewrite SZ in E. destruct (Nat.eqb_spec (tsize (copies rs ms)) 0) as [Z|Z]; [discriminate|].
  apply bind_Ret in E as (r & Er & E). apply Ret_inj in E. injection E as ->.
  assert (Ids : flat_map fst (map (fun p : girrep T * nat => (repeat (gi_id (fst p)) (snd p), (snd p * gi_size (fst p))%nat)) (combine rs ms))
     = flat_map (fun p => repeat (gi_id (fst p)) (snd p)) (combine rs ms)).
  { generalize (combine rs ms). intros l; induction l as [|a l IH]; [reflexivity|]. cbn [map flat_map fst]. rewrite IH; reflexivity. }
  rewrite Ids in Er.
  assert (C : mapM irrG (flat_map (fun p => repeat (gi_id (fst p)) (snd p)) (combine rs ms)) = Ret (copies rs ms)).
  { apply copies_irr; [|exact L]. eapply Forall_impl; [|exact Frs]. intros a (H & _); exact H. }
  destruct (mk_repr_eq irrG linv linv_ok (flat_map (fun p => repeat (gi_id (fst p)) (snd p)) (combine rs ms)) (tsize (copies rs ms)) mid None
     (copies rs ms) C eq_refl ltac:(lia)) as (i & _ & _ & Er').
  { exists mid. apply inverse_of_mid. }
  rewrite Er' in Er. apply Ret_inj in Er. subst rho. cbn [r_size r_fun].
  assert (FO : Forall orth rs) by (eapply Forall_impl; [|exact Frs]; intros a (_ & H & _); exact H).
  exists rs, ms. split; [split; assumption|]. split; [exact FO|]. split; [reflexivity|]. split; [lia|].
  intros g Hg. unfold values. rewrite (mapM_irr irrG (fun r => gi_rep r g) _ _ C).
  rewrite (mapM_Ret_map _ _ _ (fun r => (gi_size r, rval r g))).
  - cbn [bind].
    assert (NE : map (fun r => (gi_size r, rval r g)) (copies rs ms) <> []).
    { intros N. apply map_eq_nil in N. rewrite N in Z. apply Z; reflexivity. }
    destruct (map _ (copies rs ms)) as [|b bs] eqn:Eb; [congruence|]. rewrite <- Eb.
    rewrite (allclose_meq _ _ _ _ (meq_refl _ _ mid)). rewrite V_size. reflexivity.
  - intros r I. pose proof (copies_Forall orth rs ms FO) as FC. rewrite Forall_forall in FC.
    apply (rval_eq mem op inv e); [apply FC; exact I|exact Hg].
Qed.

(** [m] samples with the irreps [fl] and the kernel [k], and solves with the
    irreps [fo ++ fr] and the kernel [k'] *)
Definition shaped (grid : list T) (m : fourier_module (T := T)) (fl fo fr : list (girrep T)) (k k' : list R) (Gi : mat) : Prop :=
  r_size (fm_rho m) = tsize fl /\ r_size (fm_out m) = tsize fo /\
  (forall g, mem g -> r_fun (fm_rho m) g = Ret (tsize fl, V fl g)) /\
  (forall g, mem g -> r_fun (fm_out m) g = Ret (tsize fo, V fo g)) /\
  Forall orth fl /\ Forall orth (fo ++ fr) /\ length k = tsize fl /\ length k' = tsize (fo ++ fr) /\
  fm_A m = map (row fl k) grid /\
  inverse_of (tsize (fo ++ fr)) (gram (tsize (fo ++ fr)) (map (row (fo ++ fr) k') grid)) Gi /\
  fm_Ainv m = firstn (tsize fo) (pseudo_inverse (tsize (fo ++ fr)) Gi (map (row (fo ++ fr) k') grid)).

Definition normalised (normalize : bool) (k : list R) : list R := if normalize then map (fun a => a / vnorm k) k else k.

Lemma rows_inv : forall build normalize ids rho grid A fl, Forall mem grid -> r_size rho = tsize fl ->
  (forall g, mem g -> r_fun rho g = Ret (r_size rho, V fl g)) ->
  sample_rows build normalize ids rho grid = Ret A ->
  exists k, build ids = Ret k /\ length k = tsize fl /\ A = map (row fl (normalised normalize k)) grid.
Proof.
  intros build normalize ids rho grid A fl Fg Sz Rv E. unfold sample_rows in E.
  apply bind_Ret in E as (k & Ek & E). apply assert_Ret in E as [Lk E]. apply Nat.eqb_eq in Lk. apply assert_Ret in E as [_ E].
  exists k. split; [exact Ek|]. split; [congruence|].
  rewrite (mapM_Ret_map _ _ _ (row fl (normalised normalize k))) in E; [apply Ret_inj in E; auto|].
  intros g I. rewrite Forall_forall in Fg. rewrite (Rv g (Fg g I)). cbn [bind snd]. rewrite Sz. reflexivity.
Qed.

Lemma normalised_length : forall b k, length (normalised b k) = length k.
Proof. intros [|] k; cbn; [apply map_length|reflexivity]. Qed.

Lemma parts_split : forall ids ids' rs2 ms2, parts (ids ++ ids') rs2 ms2 -> exists rs ms rs' ms', rs2 = rs ++ rs' /\ ms2 = ms ++ ms' /\
  parts ids rs ms /\ parts ids' rs' ms'.
Proof.
  induction ids as [|id ids IH]; intros ids' rs2 ms2 [E F].
  - exists [], [], rs2, ms2. repeat split; try assumption; constructor.
  - cbn [app mapM] in E. apply bind_Ret in E as (r & Er & E). apply bind_Ret in E as (rs0 & Ers & E). apply Ret_inj in E. subst rs2.
    inversion F as [|? m ? ms0 Em F0]; subst. destruct (IH ids' rs0 ms0 (conj Ers F0)) as (rs & ms & rs' & ms' & -> & -> & [E1 F1] & P').
    exists (r :: rs), (m :: ms), rs', ms'. repeat split; try exact (proj1 P'); try exact (proj2 P').
    + cbn [mapM]. rewrite Er; cbn [bind]. rewrite E1; reflexivity.
    + constructor; assumption.
Qed.

Lemma parts_fun : forall ids rs ms rs' ms', parts ids rs ms -> parts ids rs' ms' -> rs = rs' /\ ms = ms'.
Proof.
  intros ids rs ms rs' ms' [E F] [E' F']. rewrite E in E'. apply Ret_inj in E'. subst rs'. split; [reflexivity|].
  clear E. revert ms' F'. induction F as [|r m rs0 ms0 Em F IH]; intros ms' F'; inversion F'; subst; [reflexivity|]. f_equal; [congruence|apply IH; assumption].
Qed.

Variable build : list (list Z) -> res (list R).

Lemma mk_inv : forall channels ids function out_ids normalize grid m, Forall mem grid ->
  Forall usable ids -> (forall o, out_ids = Some o -> Forall usable o) ->
  mk_fourier irrG restrict linv psi order build channels ids function out_ids normalize grid = Ret m ->
  fm_channels m = channels /\ (0 < channels)%nat /\ pointwise_function function = Ret (fm_function m) /\
  exists rs ms rs' ms' fo fr k k' Gi ids', parts ids rs ms /\ parts ids' rs' ms' /\ copies rs' ms' = fo ++ fr /\
    match out_ids with
    | None => fr = [] /\ ids' = ids /\ k' = k
    | Some o => ids' = o ++ order (filter (fun id => negb (existsb (fun i => if list_eq_dec Z.eq_dec i id then true else false) o))
                                     (nodup (list_eq_dec Z.eq_dec) ids))
    end /\ Forall usable ids' /\
    build ids = Ret k /\ build ids' = Ret k' /\
    shaped grid m (copies rs ms) fo fr (normalised normalize k) (normalised normalize k') Gi.
Proof.
  intros channels ids function out_ids normalize grid m Fg Fi Fo E. unfold mk_fourier in E.
  apply bind_Ret in E as (o1 & E1 & E). apply bind_Ret in E as (rho & E2 & E). destruct o1 as [r1|]; [|discriminate].
  apply Ret_inj in E2. subst r1. apply assert_Ret in E as [Hc E]. apply Nat.ltb_lt in Hc.
  destruct (spectral_inv ids rho Fi E1) as (rs & ms & Pa & FO & Sz & Pos & Rv).
  apply bind_Ret in E as (out & Eout & E). apply bind_Ret in E as (fn & Efn & E). apply bind_Ret in E as (A & EA & E).
  destruct (rows_inv _ _ _ _ _ _ (copies rs ms) Fg Sz Rv EA) as (k & Ek & Lk & ->).
  apply bind_Ret in E as (ext & Eext & E). apply bind_Ret in E as (Gi & EGi & E). apply Ret_inj in E. subst m. cbn [fm_channels fm_function].
  split; [reflexivity|]. split; [exact Hc|]. split; [exact Efn|].
  apply (proj1 (linv_ok _ _)) in EGi.
  destruct out_ids as [o|].
  - apply bind_Ret in Eout as (o2 & E2 & Eout). destruct o2 as [r2|]; [|discriminate]. apply Ret_inj in Eout. subst r2.
    destruct (spectral_inv o out (Fo o eq_refl) E2) as (rs2 & ms2 & Pa2 & FO2 & Sz2 & Pos2 & Rv2).
    set (missing := order _) in *.
    assert (Fm : Forall usable (o ++ missing)).
    { apply Forall_app; split; [apply Fo; reflexivity|]. apply Forall_forall; intros x I. unfold missing in I. apply order_ok in I.
      apply filter_In in I. destruct I as [I _]. apply nodup_In in I. rewrite Forall_forall in Fi. apply Fi; exact I. }
    apply bind_Ret in Eext as (o3 & E3 & Eext). apply bind_Ret in Eext as (rx & E4 & Eext). destruct o3 as [r3|]; [|discriminate]. apply Ret_inj in E4. subst r3.
    apply bind_Ret in Eext as (B & EB & Eext). apply Ret_inj in Eext. subst ext. cbn [fst snd] in *.
    destruct (spectral_inv (o ++ missing) rx Fm E3) as (rs3 & ms3 & Pa3 & FO3 & Sz3 & Pos3 & Rv3).
    destruct (rows_inv _ _ _ _ _ _ (copies rs3 ms3) Fg Sz3 Rv3 EB) as (k' & Ek' & Lk' & ->).
    destruct (parts_split o missing rs3 ms3 Pa3) as (ra & ma & rb & mb & -> & -> & Pa' & Pb').
    destruct (parts_fun o rs2 ms2 ra ma Pa2 Pa') as [<- <-].
    assert (L2 : length rs2 = length ms2) by (destruct Pa2 as [_ Q]; clear - Q; induction Q; cbn; congruence).
    exists rs, ms, (rs2 ++ rb), (ms2 ++ mb), (copies rs2 ms2), (copies rb mb), k, k', Gi, (o ++ missing).
    rewrite copies_app in * by exact L2.
    split; [exact Pa|]. split; [exact Pa3|]. split; [reflexivity|]. split; [reflexivity|]. split; [exact Fm|]. split; [exact Ek|]. split; [exact Ek'|].
    unfold shaped; cbn [fm_rho fm_out fm_A fm_Ainv]. rewrite Sz3 in EGi.
    split; [exact Sz|]. split; [exact Sz2|]. split; [intros g Hg; rewrite <- Sz; apply Rv; exact Hg|]. split; [intros g Hg; rewrite <- Sz2; apply Rv2; exact Hg|].
    split; [apply copies_Forall; exact FO|]. split; [apply Forall_app in FO3; apply Forall_app; split; apply copies_Forall, FO3|].
    split; [rewrite normalised_length; exact Lk|]. split; [rewrite normalised_length; exact Lk'|]. split; [reflexivity|]. split; [exact EGi|].
    rewrite Sz2, Sz3. reflexivity.
  - apply Ret_inj in Eout. subst out. apply Ret_inj in Eext. subst ext. cbn [fst snd] in *. rewrite Sz in EGi.
    exists rs, ms, rs, ms, (copies rs ms), [], k, k, Gi, ids. rewrite app_nil_r.
    split; [exact Pa|]. split; [exact Pa|]. split; [reflexivity|]. split; [auto|]. split; [exact Fi|]. split; [exact Ek|]. split; [exact Ek|].
    unfold shaped; cbn [fm_rho fm_out fm_A fm_Ainv]. rewrite app_nil_r.
    split; [exact Sz|]. split; [exact Sz|]. split; [intros g Hg; rewrite <- Sz; apply Rv; exact Hg|]. split; [intros g Hg; rewrite <- Sz; apply Rv; exact Hg|].
    split; [apply copies_Forall; exact FO|]. split; [apply copies_Forall; exact FO|].
    split; [rewrite normalised_length; exact Lk|]. split; [rewrite normalised_length; exact Lk|]. split; [reflexivity|]. split; [exact EGi|].
    rewrite Sz. rewrite firstn_all2; [reflexivity|]. unfold pseudo_inverse. rewrite map_length, seq_length. lia.
Qed.
End Module.
