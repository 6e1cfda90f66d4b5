(** TensorProductModule: what it computes, and that it commutes with the group in every state. *)
From Coq Require Import String.
From Coq Require Import Reals ZArith Bool List Arith Lia Lra Permutation.
From Verif Require Import LibRes LibMat LibMatS FieldModel SpecField SpecRep SpecIrrep IrrepModel RepModel SpecRepr BlocksModel SpecBlocks BlocksCor LayerModel SpecLayer
  GridModel SpecGrid GridProofs GridThms ImageModel SpecImage ImageProofs MaskThms SpecRdConv RdConvModel RdConvProofs RdConvThms SeqModel ExportModel LinearModel StateThms
  TensorModel SpecTensor TensorProofs TensorModModel.
Import ListNotations.
Open Scope R_scope.

(** ** Maps that act on every fiber in the same way *)
Section Local.
Variables (cin cout : nat) (Bi Bo : mat) (F : array R -> res (array R)) (f : (nat -> R) -> nat -> R).
Hypothesis HF : forall u B sp, shape u = B :: cin :: sp -> exists v, F u = Ret v /\ shape v = B :: cout :: sp /\
  forall b k p, (k < cout)%nat -> entry v (b :: k :: p) = f (fun i => entry u (b :: i :: p)) k.
Hypothesis Ext : forall v v' k, (k < cout)%nat -> (forall i, (i < cin)%nat -> v i = v' i) -> f v k = f v' k.
Hypothesis Eqv : forall v k, (k < cout)%nat -> f (fun i => sumn cin (fun j => Bi i j * v j)) k = sumn cout (fun j => Bo k j * f v j).

Lemma local_fibers : forall x y B sp, shape x = B :: cin :: sp -> F x = Ret y ->
  exists x' y' z, transform_fibers cin Bi x = Ret x' /\ F x' = Ret y' /\ transform_fibers cout Bo y = Ret z /\ same_array y' z.
Proof.
  intros x y B sp Ex Ey. destruct (HF x B sp Ex) as (v & Ev & Sv & V). rewrite Ey in Ev. apply Ret_inj in Ev. subst v.
  unfold transform_fibers. rewrite Ex, Sv. cbn [length Nat.leb nth]. rewrite !Nat.eqb_refl. cbn [andb assert_ bind].
  set (x' := {| shape := _; entry := _ |}). destruct (HF x' B sp eq_refl) as (y' & Ey' & Sy' & V'). exists x', y'. eexists. split; [reflexivity|]. split; [exact Ey'|]. split; [reflexivity|].
  split; [exact Sy'|]. intros idx Vi. rewrite Sy' in Vi. destruct idx as [|b [|k p]]; try (apply valid_nth in Vi as (L & _); discriminate L).
  assert (Hk : (k < cout)%nat) by (apply valid_nth in Vi as (_ & Vi); apply (Vi 1%nat); cbn; lia).
  rewrite V' by exact Hk. refine (eq_trans (Eqv (fun i => entry x (b :: i :: p)) k Hk) _). cbn [entry]. apply sumn_ext. intros j Hj. rewrite V by exact Hj. reflexivity.
Qed.

Lemma local_equivariant : forall half, half 0 = 0 -> half 1 = 1 -> half (-1) = -1 -> forall affine n M x y B sp,
  signed_perm n M -> shape x = B :: cin :: sp -> length sp = n -> F x = Ret y ->
  exists x' y' z, transform half affine cin Bi n M x = Ret x' /\ F x' = Ret y' /\ transform half affine cout Bo n M y = Ret z /\ same_array y' z.
Proof.
  intros half H0 H1 Hm affine n M x y B sp HM Ex Ln Ey. destruct (HF x B sp Ex) as (v & Ev & Sv & V). rewrite Ey in Ev. apply Ret_inj in Ev. subst v.
  destruct (signed_perm_does n M HM) as (p & b & D). pose proof (proj1 D) as P.
  destruct (transform_ok half H0 H1 Hm affine cin Bi n M x B sp HM Ex Ln) as (x1 & x' & E1 & Ex' & Ex1 & F1 & M1).
  destruct (transform_ok half H0 H1 Hm affine cout Bo n M y B sp HM Sv Ln) as (y1 & z & E2 & Ez & Ey1 & F2 & M2). rewrite Ex in Ex1. rewrite Sv in Ey1.
  pose proof M1 as M1'. apply (moved_iff _ _ _ 2 n M p b [B; cin] sp D Ex1 eq_refl Ln) in M1'. destruct M1' as (Sx' & G1). cbn [app] in Sx'.
  destruct (HF x' B _ Sx') as (y' & Ey' & Sy' & V'). exists x', y', z. split; [exact Ex'|]. split; [exact Ey'|]. split; [exact Ez|].
  apply (moved_unique R y1 y' z 2 n M); [rewrite Ey1; cbn [length]; lia|exact HM| |exact M2].
  apply (moved_iff _ y1 y' 2 n M p b [B; cout] sp D Ey1 eq_refl Ln). split; [exact Sy'|]. intros l i Vl Vi.
  pose proof Vl as Vl'. apply valid_nth in Vl as (Ll & Vl). destruct l as [|a [|k [|? ?]]]; try discriminate. cbn [app].
  assert (Hk : (k < cout)%nat) by (apply (Vl 1%nat); cbn; lia). assert (Ha : (a < B)%nat) by (apply (Vl 0%nat); cbn; lia).
  rewrite V' by exact Hk. rewrite F2. transitivity (f (fun j => sumn cin (fun q => Bi j q * entry x (a :: q :: i))) k).
  - apply Ext; [exact Hk|]. intros j Hj. rewrite <- F1. apply (G1 [a; j] i); [|exact Vi]. apply valid_nth. split; [reflexivity|]. intros [|[|?]] Hq; cbn in *; lia.
  - rewrite Eqv by exact Hk. apply sumn_ext. intros j Hj. rewrite V by exact Hj. reflexivity.
Qed.
End Local.

(** ** The quadratic map *)
Definition quadratic (s so : nat) (W : nat -> nat -> R) (v : nat -> R) (k : nat) : R :=
  sumn (s * s) (fun h => W k h * (v (k / so * s + h / s)%nat * v (k / so * s + h mod s)%nat)).

Lemma repeats_sum : forall m c A B i a (v : nat -> R), repeats m c A B -> (i < m)%nat -> (a < c)%nat ->
  sumn (m * c) (fun j => A (i * c + a)%nat j * v j) = sumn c (fun d => B a d * v (i * c + d)%nat).
Proof.
  intros m c A B i a v Rp Hi Ha. rewrite sumn_mul. rewrite (sumn_single m i); [|exact Hi|].
  - apply sumn_ext. intros d Hd. rewrite (Rp (i * c + a)%nat (i * c + d)%nat) by nia.
    rewrite !Nat.div_add_l, !Nat.div_small, !Nat.add_0_r, Nat.eqb_refl by lia.
    rewrite !(Nat.add_comm (i * c)), !Nat.mod_add, !Nat.mod_small by lia. reflexivity.
  - intros i' Hi' Ni. apply sumn_0. intros d Hd. rewrite (Rp (i * c + a)%nat (i' * c + d)%nat) by nia.
    rewrite !Nat.div_add_l, !Nat.div_small, !Nat.add_0_r by lia. destruct (Nat.eqb_spec i i'); [congruence|]. ring.
Qed.

Lemma sumn_pairs : forall s (g : nat -> nat -> R), sumn (s * s) (fun h => g (h / s)%nat (h mod s)%nat) = sumn s (fun a => sumn s (fun b => g a b)).
Proof.
  intros s g. rewrite sumn_mul. apply sumn_ext. intros a Ha. apply sumn_ext. intros b Hb.
  rewrite Nat.div_add_l, Nat.div_small, Nat.add_0_r by lia. rewrite (Nat.add_comm (a * s)), Nat.mod_add, Nat.mod_small by lia. reflexivity.
Qed.

Lemma quadratic_commutes : forall C s so W Bi Bo A H O v k, (0 < so)%nat -> repeats C s Bi A -> repeats C so Bo O -> is_tensor s s A A H ->
  meq (C * so) (s * s) (mmul (s * s) W H) (mmul (C * so) Bo W) -> (k < C * so)%nat ->
  quadratic s so W (fun i => sumn (C * s) (fun j => Bi i j * v j)) k = sumn (C * so) (fun j => Bo k j * quadratic s so W v j).
Proof.
  intros C s so W Bi Bo A H O v k Po Ri Ro HT HW Hk. set (c := (k / so)%nat). set (o := (k mod so)%nat).
  assert (Ek : k = (c * so + o)%nat) by (unfold c, o; pose proof (Nat.div_mod k so); lia).
  assert (Ho : (o < so)%nat) by (apply Nat.mod_upper_bound; lia). assert (Hc : (c < C)%nat) by (apply Nat.div_lt_upper_bound; lia).
  set (u := fun d => v (c * s + d)%nat).
  transitivity (sumn (s * s) (fun h => mmul (s * s) W H k h * (u (h / s)%nat * u (h mod s)%nat))).
  - unfold quadratic. fold c. unfold mmul.
    transitivity (sumn (s * s) (fun h => sumn (s * s) (fun q => W k h * H h q * (u (q / s)%nat * u (q mod s)%nat)))).
    + apply sumn_ext. intros h Hh. assert (Ps : (0 < s)%nat) by nia.
      assert (Hd : (h / s < s)%nat) by (apply Nat.div_lt_upper_bound; lia). assert (Hm : (h mod s < s)%nat) by (apply Nat.mod_upper_bound; lia).
      rewrite (repeats_sum C s Bi A c (h / s)%nat v Ri Hc Hd), (repeats_sum C s Bi A c (h mod s)%nat v Ri Hc Hm). fold u.
      rewrite <- sumn_scal_r. rewrite <- sumn_scal_l.
      transitivity (sumn s (fun d => sumn s (fun e => W k h * H h (d * s + e)%nat * (u d * u e)))).
      * apply sumn_ext. intros d Hd'. rewrite <- !sumn_scal_l. apply sumn_ext. intros e He.
        pose proof (HT (h / s) d (h mod s) e Hd Hd' Hm He)%nat as Q. replace (h / s * s + h mod s)%nat with h in Q by (pose proof (Nat.div_mod h s); lia). rewrite Q. unfold u. ring.
      * rewrite sumn_mul. apply sumn_ext. intros d Hd'. apply sumn_ext. intros e He.
        rewrite Nat.div_add_l, Nat.div_small, Nat.add_0_r by lia. rewrite (Nat.add_comm (d * s)), Nat.mod_add, Nat.mod_small by lia. reflexivity.
    + rewrite sumn_swap. apply sumn_ext. intros q Hq. rewrite <- sumn_scal_r. reflexivity.
  - transitivity (sumn (s * s) (fun h => mmul (C * so) Bo W k h * (u (h / s)%nat * u (h mod s)%nat))).
    { apply sumn_ext. intros h Hh. rewrite (HW k h Hk Hh). reflexivity. }
    transitivity (sumn (C * so) (fun j => sumn (s * s) (fun h => Bo k j * W j h * (u (h / s)%nat * u (h mod s)%nat)))).
    { rewrite <- (sumn_swap (s * s)). apply sumn_ext. intros h Hh. unfold mmul. rewrite <- sumn_scal_r. reflexivity. }
    apply sumn_ext. intros j Hj. unfold quadratic. rewrite <- sumn_scal_l. apply sumn_ext. intros h Hh.
    rewrite (Ro k j Hk Hj). fold c. destruct (Nat.eqb_spec c (j / so)) as [E|]; [|ring]. rewrite <- E. unfold u. ring.
Qed.

(** ** The module *)
Lemma uniform_ok : forall A (aeqb : A -> A -> bool), (forall a b, aeqb a b = true <-> a = b) -> forall l u, uniform aeqb l = Ret u ->
  exists a, hd_error l = Some a /\ (u = true <-> l = repeat a (length l)).
Proof.
  intros A aeqb He [|a l] u H; [discriminate|]. unfold uniform in H. apply Ret_inj in H. subst u. exists a. split; [reflexivity|]. rewrite forallb_forall. split.
  - intros F. apply Forall_eq_repeat. apply Forall_forall. intros b Hb. symmetry. apply He. exact (F b Hb).
  - intros E b Hb. rewrite E in Hb. apply repeat_spec in Hb. apply He. exact Hb.
Qed.
Lemma option_eqb_ok : forall A (aeqb : A -> A -> bool), (forall a b, aeqb a b = true <-> a = b) -> forall a b, option_eqb aeqb a b = true <-> a = b.
Proof.
  intros A aeqb He [a|] [b|]; cbn; split; intros H; try discriminate; try reflexivity.
  - apply He in H. congruence.
  - apply He. congruence.
Qed.
Lemma size_repeat : forall A (size : A -> nat) a C, type_size size (repeat a C) = (C * size a)%nat.
Proof. intros A size a C. unfold type_size. induction C as [|C IH]; [reflexivity|]. cbn [repeat map list_sum fold_right Nat.mul]. change (size a + list_sum (map size (repeat a C)) = size a + C * size a)%nat. rewrite IH. reflexivity. Qed.
Lemma concat_one : forall A (a : A) C, concat (repeat [a] C) = repeat a C.
Proof. intros A a C. induction C as [|C IH]; [reflexivity|]. cbn. rewrite IH. reflexivity. Qed.
Lemma size_some : forall A T (rep : A -> repr T) hid l, type_size (asize (with_hidden hid rep)) (map Some l) = type_size (asize rep) l.
Proof. intros. unfold type_size. rewrite map_map. reflexivity. Qed.
Lemma dg_some : forall A T (rep : A -> repr T) hid g l, dg (asize (with_hidden hid rep)) (fun a => value_at g (with_hidden hid rep a)) (map Some l) = dg (asize rep) (fun a => value_at g (rep a)) l.
Proof. intros. unfold dg. rewrite map_map. reflexivity. Qed.
Lemma dg_one : forall A (size : A -> nat) rho a, meq (size a) (size a) (dg size rho [a]) (rho a).
Proof. intros A size rho a i j Hi Hj. unfold dg. cbn [map bdiag]. destruct (Nat.ltb_spec i (size a)), (Nat.ltb_spec j (size a)); try lia. reflexivity. Qed.
Lemma repeats_ext : forall m c X A B, (0 < c)%nat -> meq c c A B -> repeats m c X A -> repeats m c X B.
Proof. intros m c X A B P E H i j Hi Hj. rewrite (H i j Hi Hj). destruct (Nat.eqb _ _); [|reflexivity]. apply E; apply Nat.mod_upper_bound; lia. Qed.
Lemma dg_copies : forall A (size : A -> nat) rho a C, (0 < size a)%nat -> repeats C (size a) (dg size rho (repeat a C)) (rho a).
Proof.
  intros A size rho a C P. apply (repeats_ext _ _ _ (dg size rho [a])); [exact P|apply dg_one|].
  pose proof (dg_repeat size rho [a] C) as H. rewrite concat_one in H. replace (type_size size [a]) with (size a) in H; [exact H|]. unfold type_size. cbn. lia.
Qed.

Section Module.
Context {A X T : Type}.
Variable rep : A -> repr T.
Variable name : A -> string.
Variable hname : string.
Variable aeqb : A -> A -> bool.
Variable order : list (option A) -> list (option A).
Variable sort : list (string * string) -> list (string * string).
Variable product : repr T -> repr T -> res (repr T).
Variable generator : (option A -> repr T) -> option A -> option A -> res (option (BlocksModel.kbasis X nat)).
Hypothesis aeqb_ok : forall a b, aeqb a b = true <-> a = b.
Notation size := (asize rep).
Notation mk := (mk_tensor_module rep name hname aeqb order sort product generator).

Lemma module_inv : forall ins outs c, mk ins outs = Ret c -> exists i o C hid b, (0 < C)%nat /\ ins = repeat i C /\ outs = repeat o C /\ product (rep i) (rep i) = Ret hid /\
  mk_blocks 1 (with_hidden hname name) (asize (with_hidden hid rep)) (option_eqb aeqb) order sort [None] (map Some outs) (generator (with_hidden hid rep)) None = Ret b /\ bb_dim b <> 0%nat /\
  c = {| tp_in := ins; tp_out := outs; tp_hidden := hid; tp_expansion := b |}.
Proof.
  intros ins outs c H. unfold mk_tensor_module in H. apply bind_Ret in H as (u & Eu & H). apply bind_Ret in H as (v & Ev & H).
  apply assert_Ret in H as (Hu & H). apply assert_Ret in H as (Hv & H). apply assert_Ret in H as (L & H). apply Nat.eqb_eq in L.
  destruct (uniform_ok A aeqb aeqb_ok ins u Eu) as (i & Ei & Ui). destruct (uniform_ok A aeqb aeqb_ok outs v Ev) as (o & Eo & Uo). apply Ui in Hu. apply Uo in Hv.
  destruct ins as [|i' ins]; [discriminate|]. injection Ei as ->. apply bind_Ret in H as (hid & Eh & H). apply bind_Ret in H as (b & Eb & H). apply assert_Ret in H as (Nz & H). apply Ret_inj in H.
  exists i, o, (length (i :: ins)), hid, b. split; [cbn; lia|]. split; [exact Hu|]. split; [rewrite L; exact Hv|]. split; [exact Eh|]. split; [exact Eb|]. split; [|symmetry; exact H].
  intros Z. rewrite Z in Nz. discriminate.
Qed.

(** what a call computes, in terms of the matrix it uses *)
Lemma call_value : forall ins outs c m M x B sp, mk ins outs = Ret c -> obj_used (tensor_expand rep name hname c) m = Ret M -> shape (fst M) = [type_size size outs; r_size (tp_hidden c)] ->
  (forall i, In i ins -> r_size (tp_hidden c) = (size i * size i)%nat) -> (forall o, In o outs -> 0 < size o)%nat -> shape x = B :: type_size size ins :: sp ->
  exists y, tensor_call rep name hname aeqb c m (ins, x) = Ret (outs, y) /\ shape y = B :: type_size size outs :: sp /\
    forall i o, In i ins -> In o outs -> forall b k p, (k < type_size size outs)%nat -> entry y (b :: k :: p) = quadratic (size i) (size o) (fun k h => entry (fst M) [k; h]) (fun j => entry x (b :: j :: p)) k.
Proof.
  intros ins outs c m M x B sp H U SM Hh Po Ex. destruct (module_inv ins outs c H) as (i & o & C & hid & bl & PC & Ei & Eo & _ & _ & _ & ->). cbn [tp_hidden] in *.
  assert (Ii : In i ins) by (rewrite Ei; destruct C; [lia|left; reflexivity]). assert (Io : In o outs) by (rewrite Eo; destruct C; [lia|left; reflexivity]).
  pose proof (Hh i Ii) as Eh. pose proof (Po o Io) as Poo. assert (Si : type_size size ins = (C * size i)%nat) by (rewrite Ei; apply size_repeat). assert (So : type_size size outs = (C * size o)%nat) by (rewrite Eo; apply size_repeat).
  assert (Li : length ins = C) by (rewrite Ei; apply repeat_length).
  assert (Hy : tensor_call rep name hname aeqb {| tp_in := ins; tp_out := outs; tp_hidden := hid; tp_expansion := bl |} m (ins, x) =
    (y <- tensor_apply C (size i) (size o) (r_size hid) (fst M) x ;; Ret (outs, y))).
  { unfold tensor_call. cbn [fst snd tp_in tp_out tp_hidden]. rewrite (proj2 (same_type_ok aeqb aeqb_ok ins ins) eq_refl). cbn [assert_ bind]. rewrite U, Li. clear - PC Ei Eo. destruct C as [|C]; [lia|]. cbn [repeat] in Ei, Eo. destruct ins as [|i' ins]; [discriminate|]. destruct outs as [|o' outs]; [discriminate|]. injection Ei as -> _. injection Eo as -> _. reflexivity. }
  rewrite Hy. unfold tensor_apply. rewrite SM, Ex. cbn [length nth Nat.leb skipn]. rewrite Si, So, Eh, !Nat.eqb_refl. cbn [andb assert_ bind].
  eexists. split; [reflexivity|]. split; [cbn [shape]; reflexivity|]. intros i' o' Hi' Ho' b k p Hk. rewrite Ei in Hi'. rewrite Eo in Ho'. apply repeat_spec in Hi'. apply repeat_spec in Ho'. subst i' o'.
  cbn [entry nth skipn]. unfold quadratic. apply sumn_ext. intros h Hh'. f_equal.
  replace (k / size o * size o + k mod size o)%nat with k by (pose proof (Nat.div_mod k (size o)); lia). reflexivity.
Qed.

Variables (irr : list Z -> res (girrep T)) (mem : T -> Prop) (op : T -> T -> res T) (e : T) (d0 : info X).
Hypothesis order_ok : forall l, Permutation (order l) l.
Hypothesis sort_ok : forall l, Permutation (sort l) l.
Variables ins outs : list A.
Hypothesis Pr : Forall (fun a => proper irr mem op e (rep a) /\ (0 < r_size (rep a))%nat) (ins ++ outs).
(** the tensor product is one, and the generator gives intertwiners *)
Hypothesis Prod : forall i hid, In i ins -> product (rep i) (rep i) = Ret hid -> proper irr mem op e hid /\ r_size hid = (r_size (rep i) * r_size (rep i))%nat /\
  forall g B, mem g -> r_fun (rep i) g = Ret (r_size (rep i), B) -> exists H, r_fun hid g = Ret (r_size hid, H) /\ is_tensor (r_size (rep i)) (r_size (rep i)) B B H.
Hypothesis Gen : forall i o hid, In i ins -> In o outs -> product (rep i) (rep i) = Ret hid ->
  exists kb, generator (with_hidden hid rep) None (Some o) = Ret kb /\ forall q, kb = Some q -> kb_out q = r_size (rep o) /\ kb_in q = r_size hid /\
    forall el g H Bo, In el (kb_elements q) -> mem g -> r_fun hid g = Ret (r_size hid, H) -> r_fun (rep o) g = Ret (r_size (rep o), Bo) ->
    meq (r_size (rep o)) (r_size hid) (mmul (r_size hid) (fun a b => el_sample el a b 0%nat) H) (mmul (r_size (rep o)) Bo (fun a b => el_sample el a b 0%nat)).

Lemma copies_apart : forall (o : A) C, told_apart (with_hidden hname name) (map Some (repeat o C)).
Proof. intros o C a b Ha Hb _. apply in_map_iff in Ha as (a' & <- & Ha). apply in_map_iff in Hb as (b' & <- & Hb). apply repeat_spec in Ha. apply repeat_spec in Hb. congruence. Qed.
Lemma hidden_apart : told_apart (with_hidden hname name) [None].
Proof. intros a b [<-|[]] [<-|[]] _. reflexivity. Qed.

Lemma blocks_hyps : forall i hid, In i ins -> product (rep i) (rep i) = Ret hid -> (0 < r_size (rep i))%nat ->
  Forall (fun a => proper irr mem op e (with_hidden hid rep a) /\ (0 < r_size (with_hidden hid rep a))%nat) ([None] ++ map Some outs).
Proof.
  intros i hid Hi Eh Pi. destruct (Prod i hid Hi Eh) as (Ph & Sh & _). apply Forall_app in Pr as [_ Po]. constructor; [cbn; split; [exact Ph|rewrite Sh; nia]|].
  apply Forall_map. exact Po.
Qed.

(** the matrix of a call is one that the constructor's basis expands to *)
Lemma matrix_ok : forall c w M, mk ins outs = Ret c -> length (fst w) = bb_dim (tp_expansion c) -> tensor_expand rep name hname c w = Ret M ->
  shape (fst M) = [type_size size outs; r_size (tp_hidden c)] /\
  forall g H, mem g -> r_fun (tp_hidden c) g = Ret (r_size (tp_hidden c), H) ->
  meq (type_size size outs) (r_size (tp_hidden c)) (mmul (r_size (tp_hidden c)) (fun o i => entry (fst M) [o; i]) H)
      (mmul (type_size size outs) (dg size (fun a => value_at g (rep a)) outs) (fun o i => entry (fst M) [o; i])).
Proof.
  intros c w M Ec Lw EM. destruct (module_inv ins outs c Ec) as (i & o & C & hid & bl & PC & Ei & Eo & Eh & Eb & Nz & ->). cbn [tp_hidden tp_expansion] in *.
  assert (Ii : In i ins) by (rewrite Ei; destruct C; [lia|left; reflexivity]).
  assert (Pi : (0 < r_size (rep i))%nat) by (rewrite Forall_forall in Pr; apply (Pr i), in_or_app; left; exact Ii).
  unfold tensor_expand in EM. cbn [tp_hidden tp_expansion tp_out] in EM. apply bind_Ret in EM as (F & EF & EM). apply Ret_inj in EM. subst M. cbn [fst shape reshape_filter repeat]. split; [reflexivity|].
  intros g H Hg EH.
  pose proof (linear_filter (with_hidden hid rep) (with_hidden hname name) (option_eqb aeqb) order sort (generator (with_hidden hid rep)) (option_eqb_ok A aeqb aeqb_ok) order_ok sort_ok irr mem op e [None] (map Some outs)
    (blocks_hyps i hid Ii Eh Pi) hidden_apart ltac:(rewrite Eo; apply copies_apart)) as LF.
  assert (LF' : meq (type_size (asize (with_hidden hid rep)) (map Some outs)) (type_size (asize (with_hidden hid rep)) [None])
    (mmul (type_size (asize (with_hidden hid rep)) [None]) (fun o i => F o i 0%nat) (dg (asize (with_hidden hid rep)) (fun a => value_at g (with_hidden hid rep a)) [None]))
    (mmul (type_size (asize (with_hidden hid rep)) (map Some outs)) (dg (asize (with_hidden hid rep)) (fun a => value_at g (with_hidden hid rep a)) (map Some outs)) (fun o i => F o i 0%nat))).
  { apply (LF) with (b := bl) (w := fst w); [| exact d0 | exact Hg | | exact Eb | exact Lw | exact EF].
    - intros i' o' [<-|[]] Ho'. apply in_map_iff in Ho' as (o'' & <- & Ho''). destruct (Gen i o'' hid Ii Ho'' Eh) as (kb & Ek & K). exists kb. split; [exact Ek|]. intros q Q. destruct (K q Q) as (K1 & K2 & _). split; [exact K1|exact K2].
    - intros i' o' kb el Bi Bo [<-|[]] Ho' Eg He Ei' Eo'. apply in_map_iff in Ho' as (o'' & <- & Ho''). destruct (Gen i o'' hid Ii Ho'' Eh) as (kb' & Ek & K). rewrite Eg in Ek. apply Ret_inj in Ek. subst kb'.
      destruct (K kb eq_refl) as (_ & _ & K3). exact (K3 el g Bi Bo He Hg Ei' Eo'). }
  rewrite size_some, dg_some in LF'. assert (S1 : type_size (asize (with_hidden hid rep)) [None] = r_size hid) by (unfold type_size; cbn; unfold asize; cbn; lia).
  rewrite S1 in LF'. cbn [entry reshape_filter]. intros a b Ha Hb. change (sumn (r_size hid) (fun k => F a k 0%nat * H k b) = sumn (type_size size outs) (fun k => dg size (fun a0 => value_at g (rep a0)) outs a k * F k b 0%nat)).
  refine (eq_trans _ (LF' a b Ha Hb)). unfold mmul. apply sumn_ext. intros k Hk. f_equal. symmetry.
  transitivity (value_at g (with_hidden hid rep None) k b); [apply (dg_one _ (asize (with_hidden hid rep)) (fun a => value_at g (with_hidden hid rep a)) None); assumption|]. unfold value_at. cbn [with_hidden]. rewrite EH. reflexivity.
Qed.

Lemma fields_valued : forall g ft, mem g -> (forall a, In a ft -> In a (ins ++ outs)) -> Forall (fun a => exists B, r_fun (rep a) g = Ret (size a, B)) ft.
Proof.
  intros g ft Hg F. apply Forall_forall. intros a Ha. rewrite Forall_forall in Pr. destruct (Pr a (F a Ha)) as [(_ & _ & _ & _ & V) _]. destruct (V g Hg) as (_ & B & _ & _ & E & _). exists B. exact E.
Qed.

(** the matrix used in a state *)
Lemma state_matrix : forall (c : tensor_module A X T) w0 zeros ops m M, length (fst w0) = bb_dim (tp_expansion c) -> (forall w, In (SetParams w) ops -> length (fst w) = bb_dim (tp_expansion c)) ->
  obj_run (tensor_expand rep name hname c) true ops (new_layer w0 zeros) = Ret m -> obj_used (tensor_expand rep name hname c) m = Ret M ->
  exists w, length (fst w) = bb_dim (tp_expansion c) /\ tensor_expand rep name hname c w = Ret M.
Proof.
  intros c w0 zeros ops m M L0 Fo Hr U.
  exact (used_from _ _ m M (from_run _ _ _ ops _ _ Fo (from_new (tensor_expand rep name hname c) (fun w => length (fst w) = bb_dim (tp_expansion c)) w0 zeros L0) Hr) U).
Qed.

Lemma call_used : forall (c : tensor_module A X T) m x y, tensor_call rep name hname aeqb c m x = Ret y -> exists M, obj_used (tensor_expand rep name hname c) m = Ret M.
Proof.
  intros c m x y H. unfold tensor_call in H. apply assert_Ret in H as (_ & H). destruct (tp_in c) as [|i l]; [discriminate|]. destruct (tp_out c) as [|o l']; [discriminate|].
  apply bind_Ret in H as (M & E & _). exists M. exact E.
Qed.

(** the map a state applies to every fiber, and that it commutes *)
Lemma state_local : forall c w0 zeros ops m M, mk ins outs = Ret c -> length (fst w0) = bb_dim (tp_expansion c) -> (forall w, In (SetParams w) ops -> length (fst w) = bb_dim (tp_expansion c)) ->
  obj_run (tensor_expand rep name hname c) true ops (new_layer w0 zeros) = Ret m -> obj_used (tensor_expand rep name hname c) m = Ret M ->
  exists i o, In i ins /\ In o outs /\ (forall x B sp, shape x = B :: type_size size ins :: sp -> exists y, tensor_call rep name hname aeqb c m (ins, x) = Ret (outs, y) /\ shape y = B :: type_size size outs :: sp /\
    forall b k p, (k < type_size size outs)%nat -> entry y (b :: k :: p) = quadratic (size i) (size o) (fun k h => entry (fst M) [k; h]) (fun j => entry x (b :: j :: p)) k) /\
  (forall v v' k, (k < type_size size outs)%nat -> (forall j, (j < type_size size ins)%nat -> v j = v' j) ->
     quadratic (size i) (size o) (fun k h => entry (fst M) [k; h]) v k = quadratic (size i) (size o) (fun k h => entry (fst M) [k; h]) v' k) /\
  forall g v k, mem g -> (k < type_size size outs)%nat ->
    quadratic (size i) (size o) (fun k h => entry (fst M) [k; h]) (fun a => sumn (type_size size ins) (fun j => dg size (fun a => value_at g (rep a)) ins a j * v j)) k =
    sumn (type_size size outs) (fun j => dg size (fun a => value_at g (rep a)) outs k j * quadratic (size i) (size o) (fun k h => entry (fst M) [k; h]) v j).
Proof.
  intros c w0 zeros ops m M Ec L0 Fo Hr U. destruct (state_matrix c w0 zeros ops m M L0 Fo Hr U) as (w & Lw & Ew).
  destruct (matrix_ok c w M Ec Lw Ew) as (SM & HM). destruct (module_inv ins outs c Ec) as (i & o & C & hid & bl & PC & Ei & Eo & Eh & Eb & Nz & Ecc).
  assert (Ii : In i ins) by (rewrite Ei; destruct C; [lia|left; reflexivity]). assert (Io : In o outs) by (rewrite Eo; destruct C; [lia|left; reflexivity]).
  assert (Hh : tp_hidden c = hid) by (rewrite Ecc; reflexivity). rewrite Hh in *. destruct (Prod i hid Ii Eh) as (_ & Sh & V).
  assert (Si : type_size size ins = (C * size i)%nat) by (rewrite Ei; apply size_repeat). assert (So : type_size size outs = (C * size o)%nat) by (rewrite Eo; apply size_repeat).
  assert (Pos : forall a, In a (ins ++ outs) -> (0 < size a)%nat) by (intros a Ha; rewrite Forall_forall in Pr; apply (Pr a Ha)).
  pose proof (Pos i (in_or_app _ _ _ (or_introl Ii))) as Pi. pose proof (Pos o (in_or_app _ _ _ (or_intror Io))) as Po.
  exists i, o. split; [exact Ii|]. split; [exact Io|]. split; [|split].
  - intros x B sp Ex. destruct (call_value ins outs c m M x B sp Ec U) as (y & Ey & Sy & Vy); [rewrite Hh; exact SM| | |exact Ex|].
    + intros i' Hi'. rewrite Hh. rewrite Ei in Hi'. apply repeat_spec in Hi'. subst i'. exact Sh.
    + intros o' Ho'. apply Pos, in_or_app. right. exact Ho'.
    + exists y. split; [exact Ey|]. split; [exact Sy|]. exact (Vy i o Ii Io).
  - intros v v' k Hk E. unfold quadratic. apply sumn_ext. intros h Hh'. rewrite So in Hk. rewrite Si in E. assert (k / size o < C)%nat by (apply Nat.div_lt_upper_bound; lia).
    assert (h / size i < size i)%nat by (apply Nat.div_lt_upper_bound; lia). assert (h mod size i < size i)%nat by (apply Nat.mod_upper_bound; lia). rewrite !E by nia. reflexivity.
  - intros g v k Hg Hk. pose proof (fields_valued g (ins ++ outs) Hg (fun a H => H)) as FV. rewrite Forall_forall in FV. destruct (FV i (in_or_app _ _ _ (or_introl Ii))) as (Bi & EBi).
    destruct (V g Bi Hg EBi) as (H & EH & HT). pose proof (HM g H Hg EH) as Q. rewrite Si, So in *. rewrite Sh in Q. 
    apply (quadratic_commutes C (size i) (size o) (fun k h => entry (fst M) [k; h]) _ _ (value_at g (rep i)) H (value_at g (rep o)) v k Po).
    + rewrite Ei. apply (dg_copies _ size (fun a => value_at g (rep a))). exact Pi.
    + rewrite Eo. apply (dg_copies _ size (fun a => value_at g (rep a))). exact Po.
    + unfold value_at. rewrite EBi. exact HT.
    + exact Q.
    + exact Hk.
Qed.

Theorem tensor_states : forall c w0 zeros ops m, mk ins outs = Ret c -> length (fst w0) = bb_dim (tp_expansion c) -> (forall w, In (SetParams w) ops -> length (fst w) = bb_dim (tp_expansion c)) ->
  obj_run (tensor_expand rep name hname c) true ops (new_layer w0 zeros) = Ret m ->
  forall half, half 0 = 0 -> half 1 = 1 -> half (-1) = -1 -> forall affine base g n M, mem g -> base g = Ret (n, M) -> signed_perm n M ->
  forall x y B ws, shape x = B :: type_size size ins :: ws -> length ws = n -> tensor_call rep name hname aeqb c m (ins, x) = Ret (outs, y) ->
  exists x' y' z, field_transform rep half affine base ins g x = Ret x' /\ tensor_call rep name hname aeqb c m (ins, x') = Ret (outs, y') /\
    field_transform rep half affine base outs g y = Ret z /\ same_array y' z.
Proof.
  intros c w0 zeros ops m Ec L0 Fo Hr half H0 H1 Hm affine base g n M Hg EM SM x y B ws Ex Lw Hy. destruct (call_used c m _ _ Hy) as (W & U).
  destruct (state_local c w0 zeros ops m W Ec L0 Fo Hr U) as (i & o & Ii & Io & Val & Ext & Eqv).
  destruct (local_equivariant (type_size size ins) (type_size size outs) (dg size (fun a => value_at g (rep a)) ins) (dg size (fun a => value_at g (rep a)) outs)
    (fun u => r <- tensor_call rep name hname aeqb c m (ins, u) ;; Ret (snd r)) (quadratic (size i) (size o) (fun k h => entry (fst W) [k; h]))) with (half := half) (affine := affine) (n := n) (M := M) (x := x) (y := y) (B := B) (sp := ws)
    as (x' & y' & z & E1 & E2 & E3 & E4); try assumption.
  - intros u B' sp Eu. destruct (Val u B' sp Eu) as (v & Ev & Sv & Vv). exists v. rewrite Ev. cbn [bind snd]. auto.
  - intros v k Hk. exact (Eqv g v k Hg Hk).
  - rewrite Hy. reflexivity.
  - exists x', y', z. unfold field_transform.
    rewrite (fiber_matrix_ok rep ins g (fields_valued g ins Hg (fun a H => in_or_app _ _ _ (or_introl H)))), (fiber_matrix_ok rep outs g (fields_valued g outs Hg (fun a H => in_or_app _ _ _ (or_intror H)))). cbn [bind]. rewrite EM. cbn [bind fst snd].
    split; [exact E1|]. split; [|split; [exact E3|exact E4]].
    apply bind_Ret in E2 as ([t v] & E2 & Q). apply Ret_inj in Q. cbn [snd] in Q. subst v. rewrite E2. f_equal. f_equal.
    unfold tensor_call in E2. apply assert_Ret in E2 as (_ & E2). destruct (module_inv ins outs c Ec) as (i1 & o1 & C1 & hid & bl & _ & _ & _ & _ & _ & _ & ->). cbn [tp_in tp_out] in E2.
    destruct ins as [|? ?]; [discriminate|]. destruct outs as [|? ?]; [discriminate|]. apply bind_Ret in E2 as (? & _ & E2). apply bind_Ret in E2 as (? & _ & E2). apply Ret_inj in E2. congruence.
Qed.

Theorem tensor_states0 : forall c w0 zeros ops m, mk ins outs = Ret c -> length (fst w0) = bb_dim (tp_expansion c) -> (forall w, In (SetParams w) ops -> length (fst w) = bb_dim (tp_expansion c)) ->
  obj_run (tensor_expand rep name hname c) true ops (new_layer w0 zeros) = Ret m ->
  forall g x y B ws, mem g -> shape x = B :: type_size size ins :: ws -> tensor_call rep name hname aeqb c m (ins, x) = Ret (outs, y) ->
  exists x' y' z, transform0 rep ins g x = Ret x' /\ tensor_call rep name hname aeqb c m (ins, x') = Ret (outs, y') /\ transform0 rep outs g y = Ret z /\ same_array y' z.
Proof.
  intros c w0 zeros ops m Ec L0 Fo Hr g x y B ws Hg Ex Hy. destruct (call_used c m _ _ Hy) as (W & U).
  destruct (state_local c w0 zeros ops m W Ec L0 Fo Hr U) as (i & o & Ii & Io & Val & Ext & Eqv).
  destruct (local_fibers (type_size size ins) (type_size size outs) (dg size (fun a => value_at g (rep a)) ins) (dg size (fun a => value_at g (rep a)) outs)
    (fun u => r <- tensor_call rep name hname aeqb c m (ins, u) ;; Ret (snd r)) (quadratic (size i) (size o) (fun k h => entry (fst W) [k; h]))) with (x := x) (y := y) (B := B) (sp := ws)
    as (x' & y' & z & E1 & E2 & E3 & E4); try assumption.
  - intros u B' sp Eu. destruct (Val u B' sp Eu) as (v & Ev & Sv & Vv). exists v. rewrite Ev. cbn [bind snd]. auto.
  - intros v k Hk. exact (Eqv g v k Hg Hk).
  - rewrite Hy. reflexivity.
  - exists x', y', z. unfold transform0.
    rewrite (fiber_matrix_ok rep ins g (fields_valued g ins Hg (fun a H => in_or_app _ _ _ (or_introl H)))), (fiber_matrix_ok rep outs g (fields_valued g outs Hg (fun a H => in_or_app _ _ _ (or_intror H)))). cbn [bind].
    split; [exact E1|]. split; [|split; [exact E3|exact E4]].
    apply bind_Ret in E2 as ([t v] & E2 & Q). apply Ret_inj in Q. cbn [snd] in Q. subst v. rewrite E2. f_equal. f_equal.
    unfold tensor_call in E2. apply assert_Ret in E2 as (_ & E2). destruct (module_inv ins outs c Ec) as (i1 & o1 & C1 & hid & bl & _ & _ & _ & _ & _ & _ & ->). cbn [tp_in tp_out] in E2.
    destruct ins as [|? ?]; [discriminate|]. destruct outs as [|? ?]; [discriminate|]. apply bind_Ret in E2 as (? & _ & E2). apply bind_Ret in E2 as (? & _ & E2). apply Ret_inj in E2. congruence.
Qed.

(** the module can be built whenever the types are as required and the basis is not empty *)
Lemma module_built : forall i o C hid, (0 < C)%nat -> ins = repeat i C -> outs = repeat o C -> product (rep i) (rep i) = Ret hid ->
  exists b, mk_blocks 1 (with_hidden hname name) (asize (with_hidden hid rep)) (option_eqb aeqb) order sort [None] (map Some outs) (generator (with_hidden hid rep)) None = Ret b /\
    ((exists c, mk ins outs = Ret c) <-> bb_dim b <> 0%nat).
Proof.
  intros i o C hid PC Ei Eo Eh. assert (Ii : In i ins) by (rewrite Ei; destruct C; [lia|left; reflexivity]).
  assert (Pi : (0 < r_size (rep i))%nat) by (rewrite Forall_forall in Pr; apply (Pr i), in_or_app; left; exact Ii).
  pose proof (blocks_hyps i hid Ii Eh Pi) as PB. apply Forall_app in PB as [PB1 PB2].
  destruct (blocks_ok 1 (with_hidden hname name) (asize (with_hidden hid rep)) (fun _ => 0%nat) (option_eqb aeqb) order sort (generator (with_hidden hid rep)) None [None] (map Some outs) (option_eqb_ok A aeqb aeqb_ok) order_ok sort_ok
    hidden_apart ltac:(rewrite Eo; apply copies_apart) (Forall_impl _ (fun a H => proj2 H) PB1) (Forall_impl _ (fun a H => proj2 H) PB2)) as (b & infos & Eb & _).
  { intros i' o' [<-|[]] Ho'. apply in_map_iff in Ho' as (o'' & <- & Ho''). destruct (Gen i o'' hid Ii Ho'' Eh) as (kb & Ek & K). exists kb. split; [exact Ek|]. intros q Q. destruct (K q Q) as (K1 & K2 & _). split; [exact K1|exact K2]. }
  exists b. split; [exact Eb|]. split.
  - intros (c & Ec). destruct (module_inv ins outs c Ec) as (i' & o' & C' & hid' & b' & _ & Ei' & _ & Eh' & Eb' & Nz & _). 
    assert (i' = i) by (rewrite Ei in Ei'; destruct C; [lia|]; destruct C'; [discriminate|]; injection Ei' as <- _; reflexivity). subst i'. rewrite Eh in Eh'. apply Ret_inj in Eh'. subst hid'. rewrite Eb in Eb'. apply Ret_inj in Eb'. subst b'. exact Nz.
  - intros Nz. eexists. unfold mk_tensor_module.
    assert (U : forall (a : A), uniform aeqb (repeat a C) = Ret true).
    { intros a. destruct C; [lia|]. cbn [repeat uniform]. f_equal. apply forallb_forall. intros q Hq. apply aeqb_ok. destruct Hq as [<-|Hq]; [reflexivity|]. exact (repeat_spec _ _ _ Hq). }
    rewrite Ei at 1. rewrite U. cbn [bind]. rewrite Eo at 1. rewrite U. cbn [bind assert_]. rewrite Ei at 1. rewrite Eo at 1. rewrite !repeat_length, Nat.eqb_refl. cbn [assert_ bind].
    assert (Q : forall (R0 : Type) (d : R0) (f : A -> R0), match ins with [] => d | i0 :: _ => f i0 end = f i) by (intros; rewrite Ei; destruct C; [lia|reflexivity]).
    rewrite Q, Eh. cbn [bind]. rewrite Eb. cbn [bind]. destruct (Nat.eqb_spec (bb_dim b) 0); [contradiction|]. cbn [negb assert_ bind]. reflexivity.
Qed.
End Module.
