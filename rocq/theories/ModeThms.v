(** Histories of train / eval calls. *)
From Coq Require Import List Bool.
From Verif Require Import LibRes LayerModel SpecLayer.
Import ListNotations.

Section Hist.
Context {W F : Type}.
Variable expand : W -> F.
Lemma hist_state : forall (train : bool -> @layer W F -> layer) h m, (forall b m, ly_training (train b m) = b) -> (forall b m, ly_params (train b m) = ly_params m) ->
  ly_training (fold_left (step train) h m) = hist_mode h (ly_training m) /\ ly_params (fold_left (step train) h m) = hist_params h (ly_params m).
Proof.
  intros train h. induction h as [|[b|w] h IH]; intros m H1 H2; cbn [fold_left hist_mode hist_params]; [auto| |].
  - destruct (IH (train b m) H1 H2) as [E1 E2]. cbn [step]. rewrite E1, E2, H1, H2. auto.
  - destruct (IH (set_params w m) H1 H2) as [E1 E2]. cbn [step]. rewrite E1, E2. auto.
Qed.

Lemma linear_state : forall h m at_eval,
  (ly_training m = false -> exists w, at_eval = Some w /\ ly_buffer m = Some (expand w)) ->
  let m' := fold_left (step (linear_train expand)) h m in
  ly_training m' = false -> exists w, hist_last_eval h (ly_params m) at_eval = Some w /\ ly_buffer m' = Some (expand w).
Proof.
  induction h as [|[b|w] h IH]; intros m at_eval H; cbn [fold_left hist_last_eval]; [exact H| |].
  - destruct b.
    + apply (IH (linear_train expand true m) at_eval). discriminate.
    + apply (IH (linear_train expand false m) (Some (ly_params m))). intros _. exists (ly_params m). split; reflexivity.
  - apply (IH (set_params w m) at_eval). exact H.
Qed.
Theorem linear_modes : forall h w z,
  used expand (run (linear_train expand) h w z) =
  if hist_mode h true then Ret (expand (hist_params h w))
  else match hist_last_eval h w None with Some w' => Ret (expand w') | None => Raise end.
Proof.
  intros h w z. destruct (hist_state (linear_train expand) h (new_layer w z)) as [E1 E2]; [reflexivity..|]. unfold used, run. cbn [new_layer ly_training ly_params] in E1, E2. rewrite E1, E2.
  destruct (hist_mode h true) eqn:M; [reflexivity|]. cbn [negb].
  destruct (linear_state h (new_layer w z) None) as (w' & E & ->); [discriminate|rewrite E1; reflexivity|]. cbn [new_layer ly_params] in E. rewrite E. reflexivity.
Qed.
Lemma linear_defined : forall h (w : W), hist_mode h true = false -> exists w', hist_last_eval h w None = Some w'.
Proof.
  assert (forall h (w : W) mode at_eval, (mode = false -> exists w', at_eval = Some w') -> hist_mode h mode = false -> exists w', hist_last_eval h w at_eval = Some w') as G.
  { induction h as [|[b|w0] h IH]; intros w mode at_eval H; cbn [hist_mode hist_last_eval]; [exact H| |].
    - destruct b; intros E; [apply (IH w true at_eval ltac:(discriminate) E)|apply (IH w false (Some w) ltac:(eauto) E)].
    - intros E. exact (IH w0 mode at_eval H E). }
  intros h w. apply G. discriminate.
Qed.

Lemma conv_state : forall h m at_switch,
  (ly_training m = false -> exists w, at_switch = Some w /\ ly_buffer m = Some (expand w)) ->
  let m' := fold_left (step (conv_train expand)) h m in
  ly_training m' = false -> exists w, hist_last_switch h (ly_training m) (ly_params m) at_switch = Some w /\ ly_buffer m' = Some (expand w).
Proof.
  induction h as [|[b|w] h IH]; intros m at_switch H; cbn [fold_left hist_last_switch]; [exact H| |].
  - apply (IH (conv_train expand b m) (if ly_training m then if b then at_switch else Some (ly_params m) else at_switch)).
    cbn [conv_train ly_training ly_buffer]. intros ->. destruct (ly_training m); [eexists; split; reflexivity|apply H; reflexivity].
  - apply (IH (set_params w m) at_switch). exact H.
Qed.
Theorem conv_modes : forall h w z,
  used expand (run (conv_train expand) h w z) =
  if hist_mode h true then Ret (expand (hist_params h w))
  else match hist_last_switch h true w None with Some w' => Ret (expand w') | None => Raise end.
Proof.
  intros h w z. destruct (hist_state (conv_train expand) h (new_layer w z)) as [E1 E2]; [reflexivity..|]. unfold used, run. cbn [new_layer ly_training ly_params] in E1, E2. rewrite E1, E2.
  destruct (hist_mode h true) eqn:M; [reflexivity|]. cbn [negb].
  destruct (conv_state h (new_layer w z) None) as (w' & E & ->); [discriminate|rewrite E1; reflexivity|]. cbn [new_layer ly_training ly_params] in E. rewrite E. reflexivity.
Qed.
Lemma switch_is_eval : forall h (w : W) mode at_, frozen_in_eval h mode -> (mode = false -> at_ = Some w) ->
  hist_mode h mode = false -> hist_last_switch h mode w at_ = Some (hist_params h w) /\ hist_last_eval h w at_ = Some (hist_params h w).
Proof.
  induction h as [|[b|w0] h IH]; intros w mode at_ Fz H; cbn [hist_mode hist_last_switch hist_last_eval hist_params frozen_in_eval] in *.
  - intros E. split; apply H, E.
  - intros E. destruct b.
    + destruct (IH w true at_ Fz ltac:(discriminate) E) as [A B]. split; [destruct mode; exact A|exact B].
    + destruct mode.
      * apply (IH w false (Some w) Fz ltac:(reflexivity) E).
      * rewrite (H eq_refl) in *. apply (IH w false (Some w) Fz ltac:(reflexivity) E).
  - destruct Fz as [-> Fz]. intros E. apply (IH w0 true at_ Fz ltac:(discriminate) E).
Qed.
(** without updates in evaluation mode the filter is always the current one *)
Theorem conv_modes_frozen : forall h w z, frozen_in_eval h true ->
  used expand (run (conv_train expand) h w z) = Ret (expand (hist_params h w)).
Proof.
  intros h w z Fz. rewrite conv_modes. destruct (hist_mode h true) eqn:M; [reflexivity|].
  destruct (switch_is_eval h w true None Fz ltac:(discriminate) M) as [-> _]. reflexivity.
Qed.
(** eval(), update, eval(): the layer still uses the old filter *)
Theorem conv_stale : forall w w' z, hist_last_eval [Mode false; Update w'; Mode false] w None = Some w' /\
  used expand (run (conv_train expand) [Mode false; Update w'; Mode false] w z) = Ret (expand w).
Proof. intros. split; reflexivity. Qed.
End Hist.

Section PointHist.
Context {W F B : Type}.
Variable expand_filter : W -> F.
Variable expand_b : W -> B.
Theorem point_modes : forall h w z,
  point_used expand_filter expand_b (run (point_train expand_b) h w z) =
  if hist_mode h true then Ret (expand_filter (hist_params h w), expand_b (hist_params h w))
  else match hist_last_switch h true w None with Some w' => Ret (expand_filter (hist_params h w), expand_b w') | None => Raise end.
Proof.
  intros h w z. unfold point_used, point_train. rewrite (conv_modes expand_b h w z).
  destruct (hist_state (conv_train expand_b) h (new_layer w z)) as [_ E2]; [reflexivity..|]. unfold run. rewrite E2. cbn [new_layer ly_params].
  destruct (hist_mode h true); [reflexivity|]. destruct (hist_last_switch h true w None); reflexivity.
Qed.
(** after an update in evaluation mode the filter is new and the bias is old *)
Theorem point_mixed : forall w w' z,
  point_used expand_filter expand_b (run (point_train expand_b) [Mode false; Update w'] w z) = Ret (expand_filter w', expand_b w).
Proof. reflexivity. Qed.
Theorem point_modes_frozen : forall h w z, frozen_in_eval h true ->
  point_used expand_filter expand_b (run (point_train expand_b) h w z) = Ret (expand_filter (hist_params h w), expand_b (hist_params h w)).
Proof.
  intros h w z Fz. unfold point_used, point_train. rewrite (conv_modes_frozen expand_b h w z Fz).
  destruct (hist_state (conv_train expand_b) h (new_layer w z)) as [_ E2]; [reflexivity..|]. unfold run. rewrite E2. reflexivity.
Qed.
End PointHist.
