(** TensorProductModule for groups of rotations. *)
From Coq Require Import String.
From Coq Require Import Reals ZArith Bool List Arith Lia Lra Permutation.
From Verif Require Import LibRes LibMat LibMatS FieldModel SpecField FinGroupModel ParamModel PlanarModel SpecPlanar PlanarProofs IrrepModel SpecRep SpecIrrep IrrepProofs RepModel SpecRepr RepProofs RepThms KernelModel SpecKernel KernelProofs PolarModel SpecPolar KernelPlanar KernelPoint
  BlocksModel SpecBlocks BlocksCor LayerModel SpecLayer BiasThms BiasCor GridModel SpecGrid ImageModel SpecImage SpecRdConv RdConvModel RdConvThms RdConvCor
  SeqModel ExportModel LinearModel StateThms StateCor TensorModel SpecTensor TensorThms TensorCor TensorModModel TensorModThms.
Import ListNotations.
Open Scope R_scope.

Lemma isclose_entry : forall a b c : R, a = b -> np_isclose (/ 10 ^ 8) a c = np_isclose (/ 10 ^ 8) b c.
Proof. intros a b c ->. reflexivity. Qed.
Lemma mid_sym : forall i j, mid i j = mid j i.
Proof. intros i j. unfold mid. destruct (Nat.eqb_spec i j), (Nat.eqb_spec j i); congruence || reflexivity. Qed.
Lemma sharp_transpose : forall n Q Qi, orthogonal n Q -> inverse_of n Q Qi -> sharp n Q -> sharp n Qi.
Proof.
  intros n Q Qi O I S. assert (E : meq n n Qi (mtr Q)) by (apply (inverse_unique n Q); [exact I|exact O]).
  destruct S as [S|S].
  - left. intros i j Hi Hj. rewrite (E i j Hi Hj). unfold mtr. rewrite (S j i Hj Hi). apply mid_sym.
  - right. destruct (allclose n n Qi mid) eqn:A; [|reflexivity]. rewrite <- S. symmetry. rewrite allclose_true in A. apply allclose_true. intros i j Hi Hj. rewrite mid_sym. rewrite <- (A j i Hj Hi). apply isclose_entry.
    rewrite (E j i Hj Hi). reflexivity.
Qed.

Section Rotations.
Context {A : Type}.
Variable rep : A -> repr pval.
Variable name : A -> string.
Variable hname : string.
Variable aeqb : A -> A -> bool.
Variable order : list (option A) -> list (option A).
Variable sort : list (string * string) -> list (string * string).
Hypothesis aeqb_ok : forall a b, aeqb a b = true <-> a = b.
Hypothesis order_ok : forall l, Permutation (order l) l.
Hypothesis sort_ok : forall l, Permutation (sort l) l.
Variables (G : pgrp) (linv : nat -> mat -> res mat).
Hypothesis HG : pvalid G.
Hypothesis HR : rotations G.
Hypothesis Hinv : correct_inverse linv.
Variables ins outs : list A.
Notation size := (asize rep).
Notation product := (tensor_product (p_irr G) linv (p_tensor G) (p_cg G)).
Notation gen := (fun rep' : option A -> repr pval => point_generator rep' (p_irr G) (p_tensor G) (p_cg G) (p_trivial_id G)).
Hypothesis Pin : Forall (fun a => planar_repr G (rep a) /\ orthogonal (size a) (r_cob (rep a)) /\ forall hid, product (rep a) (rep a) = Ret hid -> sharp (r_size hid) (r_cob hid)) ins.
Hypothesis Pout : Forall (fun a => planar_repr G (rep a) /\ sharp (size a) (r_cob (rep a))) outs.

Lemma mod_proper : Forall (fun a => proper (p_irr G) (pmember G) (pmul G) (pid G) (rep a) /\ (0 < r_size (rep a))%nat) (ins ++ outs).
Proof using HG Pin Pout.
  apply Forall_app. split.
  - eapply Forall_impl; [|exact Pin]. intros a [H _]. split; [exact (planar_proper _ _ HG H)|exact (planar_size _ _ HG H)].
  - eapply Forall_impl; [|exact Pout]. intros a [H _]. split; [exact (planar_proper _ _ HG H)|exact (planar_size _ _ HG H)].
Qed.
Lemma mod_hidden : forall i hid, In i ins -> product (rep i) (rep i) = Ret hid -> planar_repr G hid /\ sharp (r_size hid) (r_inv hid) /\ r_size hid = (size i * size i)%nat /\
  forall g B, pmember G g -> r_fun (rep i) g = Ret (size i, B) -> exists H, r_fun hid g = Ret (r_size hid, H) /\ is_tensor (size i) (size i) B B H.
Proof using HG HR Hinv Pin.
  intros i hid Hi Eh. rewrite Forall_forall in Pin. destruct (Pin i Hi) as (Pi & Oi & Si). specialize (Si hid Eh).
  destruct (rot_tensor_product G HG HR linv Hinv (rep i) (rep i) Pi Pi) as (r & Er & Sr & Or & _ & V). rewrite Eh in Er. apply Ret_inj in Er. subst r.
  destruct (V Si) as [Ph W]. split; [exact Ph|]. split; [|split; [exact Sr|]].
  - apply (sharp_transpose (r_size hid) (r_cob hid)); [exact (Or Oi Oi)| |exact Si]. destruct Ph as (_ & _ & _ & I & _). exact I.
  - intros g B Hg E. exact (W g B B Hg E E).
Qed.
Lemma mod_prod : forall i hid, In i ins -> product (rep i) (rep i) = Ret hid -> proper (p_irr G) (pmember G) (pmul G) (pid G) hid /\ r_size hid = (r_size (rep i) * r_size (rep i))%nat /\
  forall g B, pmember G g -> r_fun (rep i) g = Ret (r_size (rep i), B) -> exists H, r_fun hid g = Ret (r_size hid, H) /\ is_tensor (r_size (rep i)) (r_size (rep i)) B B H.
Proof using HG HR Hinv Pin. intros i hid Hi Eh. destruct (mod_hidden i hid Hi Eh) as (P & _ & S & V). split; [exact (planar_proper _ _ HG P)|]. split; [exact S|exact V]. Qed.
Lemma mod_gen : forall i o hid, In i ins -> In o outs -> product (rep i) (rep i) = Ret hid ->
  exists kb, gen (with_hidden hid rep) None (Some o) = Ret kb /\ forall q, kb = Some q -> kb_out q = r_size (rep o) /\ kb_in q = r_size hid /\
    forall el g H Bo, In el (kb_elements q) -> pmember G g -> r_fun hid g = Ret (r_size hid, H) -> r_fun (rep o) g = Ret (r_size (rep o), Bo) ->
    meq (r_size (rep o)) (r_size hid) (mmul (r_size hid) (fun a b => el_sample el a b 0%nat) H) (mmul (r_size (rep o)) Bo (fun a b => el_sample el a b 0%nat)).
Proof using HG HR Hinv Pin Pout.
  intros i o hid Hi Ho Eh. destruct (mod_hidden i hid Hi Eh) as (Ph & Sh & _). rewrite Forall_forall in Pout. destruct (Pout o Ho) as [Po So].
  destruct (point_works (with_hidden hid rep) G HG HR None (Some o) Ph Po Sh So) as (r & Er & K). exists r. split; [exact Er|]. intros q Q. destruct (K q Q) as (K1 & K2 & K3). split; [exact K1|]. split; [exact K2|].
  intros el g H Bo He Hg E1 E2. destruct (K3 el He g Hg) as (Bi' & Bo' & F1 & F2 & MK). cbn [with_hidden] in F1, F2, MK. rewrite E1 in F1. rewrite E2 in F2. apply Ret_inj in F1. apply Ret_inj in F2. injection F1 as <-. injection F2 as <-. exact MK.
Qed.

Notation mk := (mk_tensor_module rep name hname aeqb order sort product gen).

Theorem rotations_tensor_states : forall c w0 zeros ops m, mk ins outs = Ret c -> length (fst w0) = bb_dim (tp_expansion c) -> (forall w, In (SetParams w) ops -> length (fst w) = bb_dim (tp_expansion c)) ->
  obj_run (tensor_expand rep name hname c) true ops (new_layer w0 zeros) = Ret m ->
  forall half, half 0 = 0 -> half 1 = 1 -> half (-1) = -1 -> forall affine base g n M, pmember G g -> base g = Ret (n, M) -> signed_perm n M ->
  forall x y B ws, shape x = B :: type_size size ins :: ws -> length ws = n -> tensor_call rep name hname aeqb c m (ins, x) = Ret (outs, y) ->
  exists x' y' z, field_transform rep half affine base ins g x = Ret x' /\ tensor_call rep name hname aeqb c m (ins, x') = Ret (outs, y') /\
    field_transform rep half affine base outs g y = Ret z /\ same_array y' z.
Proof.
  exact (tensor_states rep name hname aeqb order sort product gen aeqb_ok (p_irr G) (pmember G) (pmul G) (pid G) no_info order_ok sort_ok ins outs mod_proper mod_prod mod_gen).
Qed.
Theorem rotations_tensor_states0 : forall c w0 zeros ops m, mk ins outs = Ret c -> length (fst w0) = bb_dim (tp_expansion c) -> (forall w, In (SetParams w) ops -> length (fst w) = bb_dim (tp_expansion c)) ->
  obj_run (tensor_expand rep name hname c) true ops (new_layer w0 zeros) = Ret m ->
  forall g x y B ws, pmember G g -> shape x = B :: type_size size ins :: ws -> tensor_call rep name hname aeqb c m (ins, x) = Ret (outs, y) ->
  exists x' y' z, transform0 rep ins g x = Ret x' /\ tensor_call rep name hname aeqb c m (ins, x') = Ret (outs, y') /\ transform0 rep outs g y = Ret z /\ same_array y' z.
Proof.
  exact (tensor_states0 rep name hname aeqb order sort product gen aeqb_ok (p_irr G) (pmember G) (pmul G) (pid G) no_info order_ok sort_ok ins outs mod_proper mod_prod mod_gen).
Qed.

(** every state that can be used answers every input with products of its entries *)
Theorem rotations_tensor_value : forall c w0 zeros ops m M, mk ins outs = Ret c -> length (fst w0) = bb_dim (tp_expansion c) -> (forall w, In (SetParams w) ops -> length (fst w) = bb_dim (tp_expansion c)) ->
  obj_run (tensor_expand rep name hname c) true ops (new_layer w0 zeros) = Ret m -> obj_used (tensor_expand rep name hname c) m = Ret M ->
  forall x B sp, shape x = B :: type_size size ins :: sp -> exists y, tensor_call rep name hname aeqb c m (ins, x) = Ret (outs, y) /\ shape y = B :: type_size size outs :: sp /\
    shape y = tensor_shape rep aeqb c (shape x) /\
    forall i o f b ch p, In i ins -> In o outs -> (f < length outs)%nat -> (ch < size o)%nat -> entry y (b :: (f * size o + ch)%nat :: p) =
      sumn (size i) (fun j => sumn (size i) (fun l => entry (fst M) [(f * size o + ch)%nat; (j * size i + l)%nat] * (entry x (b :: (f * size i + j)%nat :: p) * entry x (b :: (f * size i + l)%nat :: p)))).
Proof.
  intros c w0 zeros ops m M Ec L0 Fo Hr U x B sp Ex.
  destruct (state_local rep name hname aeqb order sort product gen aeqb_ok (p_irr G) (pmember G) (pmul G) (pid G) no_info order_ok sort_ok ins outs mod_proper mod_prod mod_gen c w0 zeros ops m M Ec L0 Fo Hr U) as (i & o & Ii & Io & Val & _ & _).
  destruct (Val x B sp Ex) as (y & Ey & Sy & Vy). exists y. split; [exact Ey|]. split; [exact Sy|].
  destruct (module_inv rep name hname aeqb order sort product gen aeqb_ok ins outs c Ec) as (i1 & o1 & C & hid & bl & PC & Ei & Eo & _ & _ & _ & Ecc). split.
  - rewrite Sy, Ex. unfold tensor_shape. rewrite Ecc. cbn [tp_in tp_out firstn skipn app]. destruct (same_type aeqb ins outs) eqn:Q; cbn [negb]; [|reflexivity]. apply (same_type_ok aeqb aeqb_ok) in Q. rewrite Q. reflexivity.
  - intros i' o' f b ch p Hi' Ho' Hf Hc. pose proof Ii as Ii'. pose proof Io as Io'. rewrite Ei in Hi', Ii'. rewrite Eo in Ho', Io'. apply repeat_spec in Hi', Ho', Ii', Io'. subst i' o' i1 o1.
    assert (L : length outs = C) by (rewrite Eo; apply repeat_length). assert (So : type_size size outs = (C * size o)%nat) by (rewrite Eo; apply size_repeat).
    rewrite Vy by (rewrite So; nia). unfold quadratic. rewrite sumn_mul. apply sumn_ext. intros j Hj. apply sumn_ext. intros l Hl.
    rewrite !Nat.div_add_l, !Nat.div_small, !Nat.add_0_r by lia. rewrite (Nat.add_comm (j * size i) l), Nat.mod_add, Nat.mod_small by lia. rewrite (Nat.add_comm l). reflexivity.
Qed.

(** the module exists exactly when the basis of its matrices is not empty, and then its
    states can always be used *)
Theorem rotations_tensor_built : forall i o C, (0 < C)%nat -> ins = repeat i C -> outs = repeat o C ->
  exists hid b, product (rep i) (rep i) = Ret hid /\
    mk_blocks 1 (with_hidden hname name) (asize (with_hidden hid rep)) (option_eqb aeqb) order sort [None] (map Some outs) (gen (with_hidden hid rep)) None = Ret b /\
    ((exists c, mk ins outs = Ret c) <-> bb_dim b <> 0%nat) /\
    forall c w, mk ins outs = Ret c -> length (fst w) = bb_dim (tp_expansion c) -> exists M, tensor_expand rep name hname c w = Ret M.
Proof.
  intros i o C PC Ei Eo. assert (Ii : In i ins) by (rewrite Ei; destruct C; [lia|left; reflexivity]).
  assert (Pi : planar_repr G (rep i)) by (rewrite Forall_forall in Pin; apply (Pin i Ii)).
  destruct (rot_tensor_product G HG HR linv Hinv (rep i) (rep i) Pi Pi) as (hid & Eh & _).
  destruct (module_built rep name hname aeqb order sort product gen aeqb_ok (p_irr G) (pmember G) (pmul G) (pid G) order_ok sort_ok ins outs mod_proper mod_prod mod_gen i o C hid PC Ei Eo Eh) as (b & Eb & Iff).
  exists hid, b. split; [exact Eh|]. split; [exact Eb|]. split; [exact Iff|].
  intros c w Ec Lw. destruct (module_inv rep name hname aeqb order sort product gen aeqb_ok ins outs c Ec) as (i1 & o1 & C1 & hid1 & b1 & _ & Ei1 & _ & Eh1 & Eb1 & Nz & ->).
  assert (i1 = i) by (rewrite Ei1 in Ii; symmetry; exact (repeat_spec _ _ _ Ii)). subst i1. rewrite Eh in Eh1. apply Ret_inj in Eh1. subst hid1. rewrite Eb in Eb1. apply Ret_inj in Eb1. subst b1.
  cbn [tp_expansion] in Lw. unfold tensor_expand. cbn [tp_hidden tp_expansion tp_out].
  pose proof (blocks_hyps rep product (p_irr G) (pmember G) (pmul G) (pid G) ins outs mod_proper mod_prod i hid Ii Eh (planar_size _ _ HG Pi)) as PB. apply Forall_app in PB as [PB1 PB2].
  destruct (blocks_ok 1 (with_hidden hname name) (asize (with_hidden hid rep)) (fun _ => 0%nat) (option_eqb aeqb) order sort (gen (with_hidden hid rep)) None [None] (map Some outs) (option_eqb_ok A aeqb aeqb_ok) order_ok sort_ok
    (hidden_apart name hname) ltac:(rewrite Eo; apply copies_apart) (Forall_impl _ (fun a H => proj2 H) PB1) (Forall_impl _ (fun a H => proj2 H) PB2)) as (b' & infos & Eb' & _ & _ & _ & _ & _ & _ & Hf & _).
  { intros i' o' [<-|[]] Ho'. apply in_map_iff in Ho' as (o'' & <- & Ho''). destruct (mod_gen i o'' hid Ii Ho'' Eh) as (kb & Ek & K). exists kb. split; [exact Ek|]. intros q Q. destruct (K q Q) as (K1 & K2 & _). split; [exact K1|exact K2]. }
  rewrite Eb in Eb'. apply Ret_inj in Eb'. subst b'. destruct (Hf (fst w) no_info Lw (fun _ => Nz)) as (F & EF & _). rewrite EF. cbn [bind]. eexists. reflexivity.
Qed.
End Rotations.

(** direct sums of irreps in their own basis meet the conditions on the inputs *)
Theorem plain_hidden : forall G linv, pvalid G -> rotations G -> correct_inverse linv -> forall r, planar_repr G r -> meq (r_size r) (r_size r) (r_cob r) mid ->
  orthogonal (r_size r) (r_cob r) /\ forall hid, tensor_product (p_irr G) linv (p_tensor G) (p_cg G) r r = Ret hid -> sharp (r_size hid) (r_cob hid).
Proof.
  intros G linv HG HR Hinv r P M. split.
  - split; intros i j Hi Hj; unfold mmul, mtr.
    + transitivity (sumn (r_size r) (fun k => mid i k * mid j k)); [apply sumn_ext; intros k Hk; rewrite (M i k), (M j k) by assumption; reflexivity|]. pose proof (LibMat.mid_r (r_size r) (r_size r) mid i j Hi Hj) as Q. unfold mmul in Q. rewrite <- Q. apply sumn_ext. intros k Hk. rewrite (mid_sym k j). reflexivity.
    + transitivity (sumn (r_size r) (fun k => mid k i * mid k j)); [apply sumn_ext; intros k Hk; rewrite (M k i), (M k j) by assumption; reflexivity|]. pose proof (LibMat.mid_l (r_size r) (r_size r) mid i j Hi Hj) as Q. unfold mmul in Q. rewrite <- Q. apply sumn_ext. intros k Hk. rewrite (mid_sym k i). reflexivity.
  - intros hid E. destruct (rot_tensor_product G HG HR linv Hinv r r P P) as (r' & E' & _ & _ & S & _). rewrite E in E'. apply Ret_inj in E'. subst r'. exact (S M M).
Qed.
