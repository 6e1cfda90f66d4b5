(** Exports of trainable layers: the statements of the property. *)
From Coq Require Import String.
From Coq Require Import Reals ZArith Bool List Arith Lia.
From Verif Require Import LibRes LibMat FieldModel RepModel BlocksModel LayerModel GridModel ImageModel TransposedModel RdConvModel SeqModel ExportModel ExportThms.
Import ListNotations.

Theorem conv_export_ok : forall A X T (rep : A -> repr T) name aeqb order sort, (forall a b, aeqb a b = true <-> a = b) ->
  forall irr tid (generator : A -> A -> res (option (BlocksModel.kbasis X nat))) ins outs d k p stride dil groups bias bf c,
  mk_rdconv rep name aeqb order sort irr tid generator ins outs d k p PadZeros stride dil groups bias bf = Ret c ->
  forall w0 zeros ops m, obj_run (conv_expand rep name c) false ops (new_layer w0 zeros) = Ret m ->
  (forall m' t, conv_export rep name c m = Ret (m', t) ->
     ly_training m' = false /\ ly_params m' = ly_params m /\ (forall x, conv_call rep name aeqb c m' x = conv_call rep name aeqb c m x) /\
     forall x y, conv_call rep name aeqb c m (ins, x) = Ret (outs, y) <-> torch_conv_call t x = Ret y) /\
  (forall x y, conv_call rep name aeqb c m x = Ret y -> exists m' t, conv_export rep name c m = Ret (m', t)).
Proof.
  intros A X T rep name aeqb order sort Ok irr tid generator ins outs d k p stride dil groups bias bf c Ec w0 zeros ops m Em. split.
  - intros m' t E. destruct (conv_export_call rep name aeqb order sort Ok _ _ _ _ _ _ _ _ _ _ _ _ _ _ _ Ec _ _ _ _ Em m' t E) as (H1 & H2 & H3 & _).
    split; [exact H1|split; [exact H2|split; [exact H3|]]]. exact (conv_export_same rep name aeqb order sort Ok _ _ _ _ _ _ _ _ _ _ _ _ _ _ _ Ec _ _ _ _ Em eq_refl m' t E).
  - exact (conv_exports rep name aeqb order sort Ok _ _ _ _ _ _ _ _ _ _ _ _ _ _ _ Ec _ _ _ _ Em).
Qed.
Theorem convt_export_ok : forall A X T (rep : A -> repr T) name aeqb order sort, (forall a b, aeqb a b = true <-> a = b) ->
  forall irr tid (generator : A -> A -> res (option (BlocksModel.kbasis X nat))) ins outs d k p stride dil groups bias bf c,
  mk_rdconvt rep name aeqb order sort irr tid generator ins outs d k p 0 stride dil groups bias bf = Ret c ->
  forall w0 zeros ops m, obj_run (convt_expand rep name c) false ops (new_layer w0 zeros) = Ret m ->
  (forall m' t, convt_export rep name c m = Ret (m', t) ->
     ly_training m' = false /\ ly_params m' = ly_params m /\ (forall x, convt_call rep name aeqb c m' x = convt_call rep name aeqb c m x) /\
     forall x y, convt_call rep name aeqb c m (ins, x) = Ret (outs, y) <-> torch_convt_call t x = Ret y) /\
  (forall x y, convt_call rep name aeqb c m x = Ret y -> exists m' t, convt_export rep name c m = Ret (m', t)).
Proof.
  intros A X T rep name aeqb order sort Ok irr tid generator ins outs d k p stride dil groups bias bf c Ec w0 zeros ops m Em. split.
  - intros m' t E. destruct (convt_export_call rep name aeqb order sort Ok _ _ _ _ _ _ _ _ _ _ _ _ _ _ _ Ec _ _ _ _ Em m' t E) as (H1 & H2 & H3 & _).
    split; [exact H1|split; [exact H2|split; [exact H3|]]]. exact (convt_export_same rep name aeqb order sort Ok _ _ _ _ _ _ _ _ _ _ _ _ _ _ _ Ec _ _ _ _ Em eq_refl m' t E).
  - exact (convt_exports rep name aeqb order sort Ok _ _ _ _ _ _ _ _ _ _ _ _ _ _ _ Ec _ _ _ _ Em).
Qed.
Theorem linear_export_ok : forall A X T (rep : A -> repr T) name aeqb, (forall a b, aeqb a b = true <-> a = b) ->
  forall (c : @linear_layer A X) w0 zeros ops m, obj_run (linear_expand rep name c) true ops (new_layer w0 zeros) = Ret m ->
  (forall m' t, linear_export rep name c m = Ret (m', t) -> ly_training m' = false /\ ly_params m' = ly_params m /\
     (forall x y, linear_call rep name aeqb c m' (ll_in c, x) = Ret (ll_out c, y) <-> linear (fst t) (snd t) x = Ret y) /\
     (ly_training m = true -> forall x y, linear_call rep name aeqb c m (ll_in c, x) = Ret (ll_out c, y) <-> linear (fst t) (snd t) x = Ret y)) /\
  ((exists m' t, linear_export rep name c m = Ret (m', t)) <-> exists e, linear_expand rep name c (ly_params m) = Ret e).
Proof.
  intros A X T rep name aeqb Ok c w0 zeros ops m Em. split; [exact (linear_export_same rep name aeqb Ok c w0 zeros ops m Em)|exact (linear_exports rep name c m)].
Qed.
