(** Dictionaries filled by name, and what a disentangling module computes. *)
From Coq Require Import String Ascii.
From Coq Require Import Reals ZArith Lia Lra Bool List Arith Permutation.
From Verif Require Import LibRes LibPy LibMat LibMatS FieldModel SpecField FieldProofs BranchProofs MergeThms GroupedModel GroupedProofs NonlinModel NonlinProofs PoolModel PoolProofs BatchNormProofs SpecFNorm NamedProofs
  FinGroupModel PlanarModel IrrepModel RepModel SpecRepr SpecDis DisModel DisThms GridModel SpecGrid ImageModel RdConvModel SpecBlocks RdConvProofs RdConvThms GSpaceModel FieldMapModel.
Import ListNotations.
Open Scope R_scope.

Section By.
Context {A X : Type}.
Variable name : A -> string.
Variables ft uniq : list A.
Hypothesis Lu : listing ft uniq.
Hypothesis Na : named_apart name ft.

Lemma by_name_ok : forall (f : A -> res X) F, (forall a, In a ft -> f a = Ret (F a)) ->
  by_name name f uniq = Ret (fold_left (fun d a => dset String.eqb d (name a) (F a)) uniq []).
Proof.
  intros f F H. unfold by_name. assert (forall a, In a uniq -> f a = Ret (F a)) as K by (intros a Ha; apply H, (proj2 Lu), Ha). clear H Lu.
  generalize (@nil (string * X)). induction uniq as [|u l IH]; intros d; [reflexivity|]. cbn [fold_left bind]. rewrite (K u) by (left; reflexivity). cbn [bind].
  apply IH. intros a Ha; apply K; right; exact Ha.
Qed.
Lemma by_name_get : forall (F : A -> X) a, In a ft -> lookup String.eqb (fold_left (fun d a => dset String.eqb d (name a) (F a)) uniq []) (name a) = Ret (F a).
Proof. intros F a Ha. unfold lookup. rewrite (named_get name String.eqb String.eqb_eq ft uniq Lu Na F [] a Ha). reflexivity. Qed.
Lemma by_name_raise : forall (f : A -> res X) a, In a ft -> f a = Raise -> by_name name f uniq = Raise.
Proof.
  intros f a Ha E. apply (proj2 Lu) in Ha. clear Lu. unfold by_name. generalize (Ret (@nil (string * X))). induction uniq as [|u l IH]; intros r; [destruct Ha|]. cbn [fold_left].
  destruct Ha as [->|Ha]; [|apply IH; exact Ha]. rewrite E. assert ((d <- r ;; x <- Raise ;; Ret (dset String.eqb d (name a) x)) = Raise) as -> by (destruct r; reflexivity).
  clear. induction l as [|b l IH]; [reflexivity|exact IH].
Qed.
End By.

(** *** permutation matrices *)
Lemma perm_intertwines : forall n (c : list nat) P X B, Permutation c (seq 0 n) ->
  (forall i j, (i < n)%nat -> P i j = if Nat.eqb (nth i c 0%nat) j then 1 else 0) ->
  meq n n (mmul n (mmul n P X) (mtr P)) B -> meq n n (mmul n P X) (mmul n B P).
Proof.
  intros n c P X B Pc HP H i j Hi Hj. assert (Lc : length c = n) by (rewrite (Permutation_length Pc), seq_length; reflexivity).
  assert (Bd : forall q, (q < n)%nat -> (nth q c 0%nat < n)%nat).
  { intros q Hq; assert (I : In (nth q c 0%nat) (seq 0 n)) by (apply (Permutation_in _ Pc), nth_In; lia); apply in_seq in I; lia. }
  assert (Rw : forall (Y : mat) a b, (a < n)%nat -> mmul n P Y a b = Y (nth a c 0%nat) b).
  { intros Y a b Ha. unfold mmul. rewrite (sumn_single n (nth a c 0%nat)); [|apply Bd; exact Ha|intros q Hq Nq; rewrite HP by exact Ha; destruct (Nat.eqb_spec (nth a c 0%nat) q); [congruence|ring]].
    rewrite HP by exact Ha. rewrite Nat.eqb_refl. ring. }
  rewrite Rw by exact Hi.
  assert (In j c) as Ij by (apply (Permutation_in _ (Permutation_sym Pc)), in_seq; lia). apply (In_nth _ _ 0%nat) in Ij as (k & Hk & Ek). rewrite Lc in Hk.
  unfold mmul. rewrite (sumn_single n k); [|exact Hk|].
  - rewrite HP by exact Hk. rewrite Ek, Nat.eqb_refl. rewrite <- (H i k Hi Hk). unfold mmul at 1. rewrite (sumn_single n j); [|exact Hj|].
    + rewrite Rw by exact Hi. unfold mtr. rewrite HP by exact Hk. rewrite Ek, Nat.eqb_refl. ring.
    + intros q Hq Nq. unfold mtr. rewrite HP by exact Hk. rewrite Ek. destruct (Nat.eqb_spec j q); [congruence|ring].
  - intros q Hq Nq. rewrite HP by exact Hq. destruct (Nat.eqb_spec (nth q c 0%nat) j) as [E|E]; [|ring]. exfalso. apply Nq.
    assert (ND : NoDup c) by (apply (Permutation_NoDup (Permutation_sym Pc)), seq_NoDup). apply (proj1 (NoDup_nth c 0%nat) ND); lia || congruence.
Qed.

Lemma nth_skipn_add : forall {V} a o (l : list V) d, nth o (skipn a l) d = nth (a + o) l d.
Proof. induction a as [|a IH]; intros o [|v l] d; cbn; try reflexivity; [destruct o; reflexivity|apply IH]. Qed.
Lemma nth_firstn_lt : forall {V} n o (l : list V) d, (o < n)%nat -> nth o (firstn n l) d = nth o l d.
Proof. induction n as [|n IH]; intros [|o] [|v l] d H; cbn; try reflexivity; try lia. apply IH; lia. Qed.

Section Dis.
Context {A T : Type}.
Variable rep : A -> repr T.
Variable name : A -> string.
Variable teqb : list A -> list A -> bool.
Variables ft uniq : list A.
Hypothesis Lu : listing ft uniq.
Hypothesis Na : named_apart name ft.
Hypothesis Pos : Forall (fun a => (0 < rsize rep a)%nat) ft.
Notation size := (rsize rep).
Variable dis : repr T -> res (mat * list (repr T)).
Variables (P : A -> mat) (rs : A -> list (repr T)).
Hypothesis Hd : forall a, In a ft -> dis (rep a) = Ret (P a, rs a).
Hypothesis Hs : forall a, In a ft -> list_sum (map r_size (rs a)) = size a.
Hypothesis Dots : forall a, In a ft -> has_dot (name a) = false.
Let cob := fold_left (fun d a => dset String.eqb d (name a) (size a, (P a, rs a))) uniq [].

Lemma cob_get : forall a, In a ft -> lookup String.eqb (map (fun e => (fst e, (fst (snd e), fst (snd (snd e))))) cob) (name a) = Ret (size a, P a).
Proof.
  intros a Ha. assert (E : lookup String.eqb cob (name a) = Ret (size a, (P a, rs a))) by exact (by_name_get name ft uniq Lu Na (fun a => (size a, (P a, rs a))) a Ha). unfold lookup in *.
  assert (dget String.eqb (map (fun e => (fst e, (fst (snd e), fst (snd (snd e))))) cob) (name a) = option_map (fun v => (fst v, fst (snd v))) (dget String.eqb cob (name a))) as ->.
  { clear. induction cob as [|[k v] d IH]; [reflexivity|]. cbn [map dget fst snd]. destruct (String.eqb k (name a)); [reflexivity|exact IH]. }
  revert E; destruct (dget String.eqb cob (name a)) as [v|]; intros E; [|discriminate E]. apply Ret_inj in E; subst v. reflexivity.
Qed.

Lemma dis_built : ft <> [] -> concat (map rs ft) <> [] -> exists m, mk_dis rep name dis uniq ft = Ret m /\ dm_in m = ft /\ dm_out m = concat (map rs ft) /\
  dm_cob m = map (fun e => (fst e, (fst (snd e), fst (snd (snd e))))) cob /\ NoDup (dm_order m) /\ (forall s, In s (dm_order m) <-> In s (map name ft)) /\
  forall s, In s (map name ft) -> exists c, lookup String.eqb (dm_buffers m) s = Ret c /\ positions (type_size size ft) c = Ret (chan_list size ft (labelled String.eqb (map name ft) s)).
Proof.
  intros Ne Nc. unfold mk_dis. rewrite (by_name_ok name ft uniq Lu _ (fun a => (size a, (P a, rs a)))) by (intros a Ha; rewrite Hd by exact Ha; cbn [bind]; rewrite (Dots a Ha); reflexivity).
  cbn [bind]. fold cob.
  rewrite (mapM_Ret_map _ _ _ rs) by (intros a Ha; unfold cob; rewrite (by_name_get name ft uniq Lu Na (fun a => (size a, (P a, rs a))) a Ha); reflexivity). cbn [bind].
  unfold mk_type. destruct (concat (map rs ft)) as [|b bs] eqn:Ec; [congruence|]. cbn [length Nat.eqb negb assert_ bind].
  destruct (indexes_exact size String.eqb String.eqb_eq ft (map name ft) (map_length _ _) Pos) as (d & Ed & ND & Ik & _).
  rewrite Ed. cbn [bind]. destruct (pool_buffers size String.eqb String.eqb_eq ft (map name ft) d (map_length _ _) Pos Ed) as (bf & Eb & Hb). rewrite Eb. cbn [bind].
  eexists; split; [reflexivity|]. cbn. repeat split; try assumption; try apply Ik. intros s Hs0; apply (Hb s Hs0).
Qed.

Lemma dg_sum : forall (M : A -> mat) l i a o (v : nat -> R), nth_error l i = Some a -> (o < size a)%nat ->
  sumn (type_size size l) (fun j => dg size M l (field_start size l i + o)%nat j * v j) = sumn (size a) (fun j => M a o j * v (field_start size l i + j)%nat).
Proof.
  intros M l i a o v Ea Ho. pose proof (start_bound size l i a Ea) as B.
  transitivity (sumn (type_size size l) (fun j => (if Nat.leb (field_start size l i) j && Nat.ltb j (field_start size l i + size a)%nat then M a o (j - field_start size l i)%nat else 0) * v j)).
  { apply sumn_ext. intros j Hj. rewrite (dg_row size M l i a o j Ea Ho). reflexivity. }
  set (st := field_start size l i) in *. replace (type_size size l) with (st + (size a + (type_size size l - st - size a)))%nat by lia.
  rewrite !sumn_app. rewrite (sumn_0 st), (sumn_0 (type_size size l - st - size a)).
  - rewrite Rplus_0_l, Rplus_0_r. apply sumn_ext. intros j Hj. destruct (Nat.leb_spec st (st + j)); [|lia]. destruct (Nat.ltb_spec (st + j) (st + size a)); [|lia]. cbn [andb].
    replace (st + j - st)%nat with j by lia. reflexivity.
  - intros j Hj. destruct (Nat.ltb_spec (st + (size a + j)) (st + size a)); [lia|]. rewrite andb_false_r. ring.
  - intros j Hj. destruct (Nat.leb_spec st j); [lia|]. cbn [andb]. ring.
Qed.

Let c := type_size size ft.
Let D := dg size P ft.

Theorem dis_value : ft <> [] -> concat (map rs ft) <> [] -> teqb ft ft = true ->
  exists m, mk_dis rep name dis uniq ft = Ret m /\ dm_in m = ft /\ dm_out m = concat (map rs ft) /\ type_size r_size (dm_out m) = c /\
  forall junk x, length junk = c -> exists y, dis_forward rep name teqb m junk ft x = Ret y /\ shape y = shape x /\
    forall bt k p, (k < c)%nat -> entry y (bt :: k :: p) = sumn c (fun j => D k j * entry x (bt :: j :: p)).
Proof.
  intros Ne Nc Te. destruct (dis_built Ne Nc) as (m & Em & Ei & Eo & Ecb & ND & Io & Hb). exists m. split; [exact Em|split; [exact Ei|split; [exact Eo|]]].
  assert (So : type_size r_size (dm_out m) = c).
  { rewrite Eo. unfold type_size, c, type_size. clear - Hs. induction ft as [|a l IH]; [reflexivity|]. cbn [map concat list_sum fold_right]. rewrite map_app, list_sum_app.
    fold (list_sum (map size l)). rewrite <- IH by (intros; apply Hs; right; assumption). rewrite Hs by (left; reflexivity). reflexivity. }
  split; [exact So|]. intros junk x Lj. unfold dis_forward. rewrite Ei, Te. cbn [assert_ bind]. fold c.
  set (xs := map (fun o bt q => entry x (bt :: o :: q)) (seq 0 c)). set (nf := nfields String.eqb (map name ft)).
  assert (Lx : length xs = c) by (unfold xs; rewrite map_length, seq_length; reflexivity).
  set (lsize := fun s => match lookup String.eqb (dm_cob m) s with Ret e => fst e | Raise => 0%nat end).
  set (lmat := fun s => match lookup String.eqb (dm_cob m) s with Ret e => snd e | Raise => mzero end).
  assert (Ecob : forall a, In a ft -> lookup String.eqb (dm_cob m) (name a) = Ret (size a, P a)) by (intros a Ha; rewrite Ecb; apply cob_get; exact Ha).
  assert (Ls : forall i r s, nth_error (map name ft) i = Some s -> nth_error ft i = Some r -> size r = lsize s).
  { intros i r s H1 H2. rewrite (map_nth_error name i ft H2) in H1. injection H1 as <-. unfold lsize. rewrite Ecob by (eapply nth_error_In; eassumption). reflexivity. }
  set (turn := fun s (v : list chan) => map (fun (o : nat) bt q => sumn (lsize s) (fun i => lmat s o i * nth i v (fun _ _ => 0) bt q)) (seq 0 (lsize s))).
  destruct (local_loop size String.eqb String.eqb_eq ft (map name ft) lsize (map_length name ft) Ls (dm_buffers m) (dm_order m) ND Io Hb
    (fun s fm => dis_group (dm_cob m) nf s 0 fm) (fun s j v => turn s v) xs junk Lx Lj) as (out & El & Lo & Ho).
  - intros s Hs0. unfold dis_group, turn, chan. apply in_map_iff in Hs0 as (a & <- & Ha). rewrite Ecob by exact Ha. cbn [bind fst snd].
    set (L := labelled String.eqb (map name ft) (name a)).
    assert (F : Forall (fun b => length b = size a) (map (field_chans size ft xs) L)).
    { pose proof (group_fields size String.eqb String.eqb_eq ft (map name ft) lsize (map_length name ft) Ls xs (name a) Lx) as F. unfold lsize in F at 1. rewrite (Ecob a Ha) in F. exact F. }
    assert (Nf : nf (name a) = length (map (field_chans size ft xs) L)) by (unfold nf; rewrite (nfields_labelled String.eqb), map_length; reflexivity).
    rewrite Nf, (concat_uniform _ _ F), Nat.eqb_refl. cbn [assert_ bind]. rewrite (chunks_concat _ _ F). do 2 f_equal.
    unfold lsize, lmat. rewrite (Ecob a Ha). cbn [fst snd]. clear. generalize 0%nat at 3. induction (map (field_chans size ft xs) L) as [|b l IH]; intros n; [reflexivity|cbn [map imap]; f_equal; apply IH].
  - intros s j b _ Lb. unfold turn. rewrite map_length, seq_length. reflexivity.
  - assert (El' : grouped_loop String.eqb nf (dm_buffers m) (dm_buffers m) (dis_group (dm_cob m) nf) xs (dm_order m) 0 junk = Ret out) by exact El.
    rewrite El'. cbn [bind]. rewrite So, Nat.eqb_refl. cbn [assert_ bind]. eexists; split; [reflexivity|]. cbn [shape entry]. split; [reflexivity|]. intros bt k p Hk.
    assert (exists i a o, nth_error ft i = Some a /\ (o < size a)%nat /\ k = (field_start size ft i + o)%nat) as (i & a & o & Ea & Ho' & ->).
    { destruct (BlocksFwd.in_field size ft k Hk) as (i & a & Ea & B). exists i, a, (k - field_start size ft i)%nat. split; [exact Ea|]. lia. }
    assert (Ia : In a ft) by (eapply nth_error_In; eassumption).
    assert (Bo : (field_start size ft i + size a <= c)%nat) by (apply (start_bound size); exact Ea).
    assert (Nth : forall l : list chan, nth o (field_chans size ft l i) (fun _ _ => 0) = nth (field_start size ft i + o) l (fun _ _ => 0)).
    { intros l. rewrite (field_chans_at size ft l i a Ea). rewrite nth_firstn_lt by exact Ho'. apply nth_skipn_add. }
    rewrite <- Nth.
    assert (In i (labelled String.eqb (map name ft) (name a))) as Hl by (apply (labelled_In String.eqb String.eqb_eq); apply map_nth_error; exact Ea).
    apply In_nth_error in Hl as (j & Hj). rewrite (Ho (name a) j i Hj). unfold turn, lsize, lmat. rewrite (Ecob a Ia). cbn [fst snd].
    rewrite (nth_indep _ (fun _ _ => 0) ((fun (o : nat) (bt : nat) (q : list nat) => sumn (size a) (fun i0 => P a o i0 * nth i0 (field_chans size ft xs i) (fun _ _ => 0) bt q)) 0%nat))
      by (rewrite map_length, seq_length; exact Ho').
    rewrite (map_nth (fun (o : nat) (bt : nat) (q : list nat) => sumn (size a) (fun i0 => P a o i0 * nth i0 (field_chans size ft xs i) (fun _ _ => 0) bt q))), seq_nth by exact Ho'.
    rewrite Nat.add_0_l. refine (eq_trans _ (eq_sym (dg_sum P ft i a o (fun j => entry x (bt :: j :: p)) Ea Ho'))). apply sumn_ext. intros q Hq. f_equal.
    assert (nth q (field_chans size ft xs i) (fun _ _ => 0) = nth (field_start size ft i + q) xs (fun _ _ => 0)) as ->
      by (rewrite (field_chans_at size ft xs i a Ea), nth_firstn_lt by exact Hq; apply nth_skipn_add).
    unfold xs. rewrite (nth_indep _ (fun _ _ => 0) ((fun (o bt : nat) (q : list nat) => entry x (bt :: o :: q)) 0%nat)) by (rewrite map_length, seq_length; lia).
    rewrite (map_nth (fun (o bt : nat) (q : list nat) => entry x (bt :: o :: q))), seq_nth by lia. reflexivity.
Qed.
End Dis.
