(** Proofs about RdConvModel: filters put together from steerable blocks. *)
From Coq Require Import String.
From Coq Require Import Reals ZArith Bool List Arith Lia Lra Permutation.
From Verif Require Import LibRes LibMat FieldModel SpecField FieldProofs RepModel SpecRepr BlocksModel SpecBlocks BlocksCor LayerModel SpecLayer SpecNonlin NonlinProofs BiasThms GridModel SpecGrid ImageModel SpecImage ImageProofs ConvThms RdConvModel.
Import ListNotations.
Open Scope R_scope.

Lemma sum_window : forall N a n f, (a + n <= N)%nat -> (forall j, (j < N)%nat -> (j < a \/ a + n <= j)%nat -> f j = 0) ->
  sumn N f = sumn n (fun j => f (a + j)%nat).
Proof.
  intros N a n f L Z. replace N with (a + (n + (N - a - n)))%nat by lia. rewrite sumn_app, sumn_app.
  rewrite (sumn_0 a) by (intros; apply Z; lia). rewrite (sumn_0 (N - a - n)) by (intros; apply Z; lia). ring.
Qed.

Section Diag.
Context {A : Type}.
Variable size : A -> nat.
Definition dg (rho : A -> mat) (ft : list A) : mat := bdiag (map (fun a => (size a, rho a)) ft).

Lemma start_bound : forall ft i r, nth_error ft i = Some r -> (field_start size ft i + size r <= type_size size ft)%nat.
Proof.
  unfold field_start, type_size, list_sum. induction ft as [|a ft IH]; intros [|i] r H; try discriminate; cbn in *.
  - injection H as ->. lia.
  - specialize (IH i r H). lia.
Qed.

Lemma dg_row : forall rho ft i r a c, nth_error ft i = Some r -> (a < size r)%nat ->
  dg rho ft (field_start size ft i + a)%nat c =
  if (Nat.leb (field_start size ft i) c && Nat.ltb c (field_start size ft i + size r)%nat) then rho r a (c - field_start size ft i)%nat else 0.
Proof.
  unfold dg, field_start, list_sum. induction ft as [|x ft IH]; intros [|i] r a c H L; try discriminate; cbn [nth_error] in H.
  - injection H as ->. cbn [firstn map fold_right bdiag]. rewrite Nat.add_0_l.
    destruct (Nat.ltb_spec a (size r)); [|lia]. rewrite Nat.add_0_l, Nat.sub_0_r. reflexivity.
  - cbn [firstn map fold_right bdiag]. specialize (IH i r a (c - size x)%nat H L).
    set (s := fold_right Nat.add 0%nat (map size (firstn i ft))) in *.
    destruct (Nat.ltb_spec (size x + s + a) (size x)); [lia|].
    destruct (Nat.ltb_spec c (size x)).
    + destruct (Nat.leb_spec (size x + s) c); [lia|reflexivity].
    + replace (size x + s + a - size x)%nat with (s + a)%nat by lia. rewrite IH.
      replace (Nat.leb s (c - size x)%nat) with (Nat.leb (size x + s)%nat c) by (destruct (Nat.leb_spec s (c - size x)), (Nat.leb_spec (size x + s) c); lia || reflexivity).
      replace (Nat.ltb (c - size x)%nat (s + size r)%nat) with (Nat.ltb c (size x + s + size r)%nat) by (destruct (Nat.ltb_spec (c - size x) (s + size r)), (Nat.ltb_spec c (size x + s + size r)); lia || reflexivity).
      replace (c - size x - s)%nat with (c - (size x + s))%nat by lia. reflexivity.
Qed.

Lemma dg_col : forall rho ft i r a c, nth_error ft i = Some r -> (c < size r)%nat ->
  dg rho ft a (field_start size ft i + c)%nat =
  if (Nat.leb (field_start size ft i) a && Nat.ltb a (field_start size ft i + size r)%nat) then rho r (a - field_start size ft i)%nat c else 0.
Proof.
  intros rho ft i r a c H L. pose proof (bdiag_mtr (map (fun a => (size a, rho a)) ft) (field_start size ft i + c)%nat a) as E.
  unfold mtr in E at 1. unfold dg. rewrite E, map_map. cbn [fst snd].
  exact (dg_row (fun r => mtr (rho r)) ft i r c a H L).
Qed.
End Diag.

(** A filter that samples a steerable kernel on the grid *)
Definition along (n k dil cout cin : nat) (M Bi Bo : mat) (f : nat -> nat -> nat -> R) : Prop :=
  exists K, kernel_on n cout cin K /\ steers n cout cin M Bi Bo K /\
    forall o i t, (o < cout)%nat -> (i < cin)%nat -> valid (repeat k n) t -> f o i (ravel k t) = K (grid_coords k dil (ravel k t)) o i.

Section Along.
Variables n k dil cout cin : nat.
Variables M Bi Bo : mat.
Notation along := (along n k dil cout cin M Bi Bo).

Lemma along_ext : forall f g, (forall o i p, (o < cout)%nat -> (i < cin)%nat -> f o i p = g o i p) -> along f -> along g.
Proof.
  intros f g E (K & HK & HS & HF). exists K. split; [exact HK|split; [exact HS|]].
  intros o i t Ho Hi V. rewrite <- E by assumption. apply HF; assumption.
Qed.
Lemma along_0 : along (fun _ _ _ => 0).
Proof.
  exists (fun _ _ _ => 0). split; [|split].
  - intros x y _ o i _ _. reflexivity.
  - intros x o i _ _. rewrite !sumn_0; [reflexivity|..]; intros; ring.
  - reflexivity.
Qed.
Lemma along_lin : forall f g w, along f -> along g -> along (fun o i p => f o i p + w * g o i p).
Proof.
  intros f g w (K & HK & HS & HF) (K' & HK' & HS' & HF'). exists (fun x o i => K x o i + w * K' x o i). split; [|split].
  - intros x y E o i Ho Hi. rewrite (HK x y E o i Ho Hi), (HK' x y E o i Ho Hi). reflexivity.
  - intros x o i Ho Hi.
    rewrite (sumn_ext cin _ (fun j => K (mvec n M x) o j * Bi j i + w * (K' (mvec n M x) o j * Bi j i))) by (intros; ring).
    rewrite (sumn_ext cout _ (fun j => Bo o j * K x j i + w * (Bo o j * K' x j i))) by (intros; ring).
    rewrite !sumn_plus, !sumn_scal_l, HS, HS' by assumption. reflexivity.
  - intros o i t Ho Hi V. rewrite HF, HF' by assumption. reflexivity.
Qed.
Lemma along_sum : forall m (w : nat -> R) F, (forall j, (j < m)%nat -> along (F j)) -> along (fun o i p => sumn m (fun j => w j * F j o i p)).
Proof.
  induction m as [|m IH]; intros w F H; cbn [sumn]; [exact along_0|].
  apply along_lin; [apply IH; intros; apply H; lia|apply H; lia].
Qed.
End Along.

(** A steerable block placed at its two fields *)
Section Place.
Context {A : Type}.
Variable size : A -> nat.
Variables n k dil : nat.
Variable M : mat.
Variable rho : A -> mat.
Variables ins outs : list A.

Lemma along_block : forall i o ri ro s, nth_error ins i = Some ri -> nth_error outs o = Some ro ->
  along n k dil (size ro) (size ri) M (rho ri) (rho ro) s ->
  along n k dil (type_size size outs) (type_size size ins) M (dg size rho ins) (dg size rho outs)
    (fun r c p => if (Nat.leb (field_start size outs o) r && Nat.ltb r (field_start size outs o + size ro)%nat) &&
                     (Nat.leb (field_start size ins i) c && Nat.ltb c (field_start size ins i + size ri)%nat)
                  then s (r - field_start size outs o)%nat (c - field_start size ins i)%nat p else 0).
Proof.
  intros i o ri ro s Ei Eo (K & HK & HS & HF).
  pose proof (start_bound size ins i ri Ei) as Li. pose proof (start_bound size outs o ro Eo) as Lo.
  set (r0 := field_start size outs o) in *. set (c0 := field_start size ins i) in *.
  exists (fun x r c => if (Nat.leb r0 r && Nat.ltb r (r0 + size ro)%nat) && (Nat.leb c0 c && Nat.ltb c (c0 + size ri)%nat) then K x (r - r0)%nat (c - c0)%nat else 0).
  assert (IN : forall a b m, reflect (a <= m < a + b)%nat (Nat.leb a m && Nat.ltb m (a + b)%nat)).
  { intros a b m. apply iff_reflect. rewrite andb_true_iff, Nat.leb_le, Nat.ltb_lt. reflexivity. }
  split; [|split].
  - intros x y E r c _ _. destruct (IN r0 (size ro) r), (IN c0 (size ri) c); cbn [andb]; try reflexivity. apply HK; [exact E|lia|lia].
  - intros x r c Hr Hc.
    rewrite (sum_window _ c0 (size ri)); [|lia|].
    2:{ intros j Hj Out. destruct (IN r0 (size ro) r), (IN c0 (size ri) j); cbn [andb]; try lia; ring. }
    rewrite (sum_window (type_size size outs) r0 (size ro)); [|lia|].
    2:{ intros j Hj Out. destruct (IN r0 (size ro) j), (IN c0 (size ri) c); cbn [andb]; try lia; ring. }
    destruct (IN r0 (size ro) r) as [Ir|Ir]; cbn [andb].
    + destruct (IN c0 (size ri) c) as [Ic|Ic].
      * specialize (HS x (r - r0)%nat (c - c0)%nat ltac:(lia) ltac:(lia)).
        transitivity (sumn (size ri) (fun j => K (mvec n M x) (r - r0)%nat j * rho ri j (c - c0)%nat)).
        { apply sumn_ext. intros j Hj. destruct (IN c0 (size ri) (c0 + j)%nat); [|lia].
          pose proof (dg_row size rho ins i ri j c Ei Hj) as D; fold c0 in D; rewrite D; clear D. destruct (IN c0 (size ri) c); [|lia]. f_equal. f_equal. lia. }
        rewrite HS. apply sumn_ext. intros j Hj. destruct (IN r0 (size ro) (r0 + j)%nat); [|lia]. cbn [andb].
        pose proof (dg_col size rho outs o ro r j Eo Hj) as D; fold r0 in D; rewrite D; clear D. destruct (IN r0 (size ro) r); [|lia]. f_equal. f_equal; lia.
      * rewrite !sumn_0; [reflexivity|..]; intros j Hj.
        -- rewrite andb_false_r. ring.
        -- pose proof (dg_row size rho ins i ri j c Ei Hj) as D; fold c0 in D; rewrite D; clear D. destruct (IN c0 (size ri) c); [lia|]. ring.
    + rewrite !sumn_0; [reflexivity|..]; intros j Hj; [|ring].
      pose proof (dg_col size rho outs o ro r j Eo Hj) as D; fold r0 in D; rewrite D; clear D. destruct (IN r0 (size ro) r); [lia|]. ring.
  - intros r c t Hr Hc V. destruct (IN r0 (size ro) r), (IN c0 (size ri) c); cbn [andb]; try reflexivity. apply HF; [lia|lia|exact V].
Qed.
End Place.
