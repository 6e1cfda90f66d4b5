(** Steerability of the kernels assembled for arbitrary representations, unions
    of bases, and indexing of both. *)
From Coq Require Import Reals List ZArith Arith Bool Lia Lra Permutation.
From Verif Require Import LibRes LibMat LibMatS IrrepModel SpecRep SpecIrrep RepModel SpecRepr RepProofs KernelModel SpecKernel KernelProofs DisThms KernelThms KernelRThms.
Import ListNotations.
Open Scope R_scope.

(** ** Embedded blocks *)

Definition emb (op s ip t : nat) (M : mat) : mat := fun a b =>
  if Nat.leb op a && Nat.ltb a (op + s) && Nat.leb ip b && Nat.ltb b (ip + t)
  then M (a - op)%nat (b - ip)%nat else 0.

Lemma emb_in : forall op s ip t M x y, (x < s)%nat -> (y < t)%nat -> emb op s ip t M (op + x)%nat (ip + y)%nat = M x y.
Proof.
  intros op s ip t M x y Lx Ly; unfold emb.
  rewrite (proj2 (Nat.leb_le op (op + x))), (proj2 (Nat.ltb_lt (op + x) (op + s))),
    (proj2 (Nat.leb_le ip (ip + y))), (proj2 (Nat.ltb_lt (ip + y) (ip + t))) by lia; cbn [andb].
  f_equal; lia.
Qed.
Lemma emb_row_out : forall op s ip t M a b, ~ (op <= a < op + s)%nat -> emb op s ip t M a b = 0.
Proof.
  intros op s ip t M a b H; unfold emb. destruct (Nat.leb op a) eqn:E1; [|reflexivity].
  destruct (Nat.ltb a (op + s)) eqn:E2; [|reflexivity].
  apply Nat.leb_le in E1; apply Nat.ltb_lt in E2; exfalso; apply H; lia.
Qed.
Lemma emb_col_out : forall op s ip t M a b, ~ (ip <= b < ip + t)%nat -> emb op s ip t M a b = 0.
Proof.
  intros op s ip t M a b H; unfold emb. destruct (Nat.leb ip b) eqn:E1; [|rewrite andb_false_r; reflexivity].
  destruct (Nat.ltb b (ip + t)) eqn:E2; [|rewrite andb_false_r; reflexivity].
  apply Nat.leb_le in E1; apply Nat.ltb_lt in E2; exfalso; apply H; lia.
Qed.

Lemma off_lt : forall bs i s M, nth_error bs i = Some (s, M) -> (off bs i + s <= bsize bs)%nat.
Proof.
  induction bs as [|[s0 M0] bs IH]; intros i s M E; [destruct i; discriminate|].
  change (bsize ((s0, M0) :: bs)) with (s0 + bsize bs)%nat. destruct i as [|i]; cbn [nth_error] in E.
  - injection E as -> ->. unfold off; cbn; lia.
  - change (off ((s0, M0) :: bs) (S i)) with (s0 + off bs i)%nat. specialize (IH i s M E). lia.
Qed.
Lemma bdiag_outside : forall bs i s M a b, nth_error bs i = Some (s, M) -> (b < s)%nat ->
  ~ (off bs i <= a < off bs i + s)%nat -> bdiag bs a (off bs i + b)%nat = 0 /\ bdiag bs (off bs i + b)%nat a = 0.
Proof.
  induction bs as [|[s0 M0] bs IH]; intros i s M a b E L H; [destruct i; discriminate|].
  destruct i as [|i]; cbn [nth_error] in E.
  - injection E as -> ->. unfold off in *; cbn [firstn list_sum fold_right map fst] in *. cbn [bdiag Nat.add].
    rewrite (proj2 (Nat.ltb_lt b s) L), (proj2 (Nat.ltb_ge a s)) by lia. auto.
  - change (off ((s0, M0) :: bs) (S i)) with (s0 + off bs i)%nat in *. cbn [bdiag].
    rewrite (proj2 (Nat.ltb_ge (s0 + off bs i + b) s0)) by lia.
    destruct (Nat.ltb a s0) eqn:Ea; [auto|]. apply Nat.ltb_ge in Ea.
    replace (s0 + off bs i + b - s0)%nat with (off bs i + b)%nat by lia. apply (IH i s M); auto. lia.
Qed.

Lemma emb_left : forall bs i s A ip t M c, nth_error bs i = Some (s, A) ->
  meq (bsize bs) c (mmul (bsize bs) (bdiag bs) (emb (off bs i) s ip t M)) (emb (off bs i) s ip t (mmul s A M)).
Proof.
  intros bs i s A ip t M c E a b La Lb.
  destruct (le_lt_dec (off bs i) a) as [H1|H1]; [destruct (le_lt_dec (off bs i + s) a) as [H2|H2]|].
  - rewrite emb_row_out by lia. apply sumn_0. intros k Lk.
    destruct (le_lt_dec (off bs i) k) as [K1|K1]; [destruct (le_lt_dec (off bs i + s) k) as [K2|K2]|].
    + rewrite emb_row_out by lia; ring.
    + replace k with (off bs i + (k - off bs i))%nat by lia.
      rewrite (proj1 (bdiag_outside bs i s A a (k - off bs i) E ltac:(lia) ltac:(lia))); ring.
    + rewrite emb_row_out by lia; ring.
  - replace a with (off bs i + (a - off bs i))%nat by lia. set (x := (a - off bs i)%nat).
    assert (x < s)%nat as Lx by lia. unfold mmul at 1. rewrite (bdiag_row bs i s A x _ E Lx).
    destruct (le_lt_dec ip b) as [B1|B1]; [destruct (le_lt_dec (ip + t) b) as [B2|B2]|].
    + rewrite emb_col_out by lia. apply sumn_0; intros; rewrite emb_col_out by lia; ring.
    + replace b with (ip + (b - ip))%nat by lia. rewrite emb_in by lia. apply sumn_ext; intros z Lz.
      rewrite emb_in by lia; reflexivity.
    + rewrite emb_col_out by lia. apply sumn_0; intros; rewrite emb_col_out by lia; ring.
  - rewrite emb_row_out by lia. apply sumn_0. intros k Lk.
    destruct (le_lt_dec (off bs i) k) as [K1|K1]; [destruct (le_lt_dec (off bs i + s) k) as [K2|K2]|].
    + rewrite emb_row_out by lia; ring.
    + replace k with (off bs i + (k - off bs i))%nat by lia.
      rewrite (proj1 (bdiag_outside bs i s A a (k - off bs i) E ltac:(lia) ltac:(lia))); ring.
    + rewrite emb_row_out by lia; ring.
Qed.

Lemma emb_right : forall bs i t B op s M r, nth_error bs i = Some (t, B) ->
  meq r (bsize bs) (mmul (bsize bs) (emb op s (off bs i) t M) (mtr (bdiag bs))) (emb op s (off bs i) t (mmul t M (mtr B))).
Proof.
  intros bs i t B op s M r E a b La Lb.
  pose proof (emb_left bs i t B op s (mtr M) r E b a Lb La) as H.
  assert (forall x y N, emb op s (off bs i) t (mtr N) x y = emb (off bs i) t op s N y x) as Hs.
  { intros x y N. unfold emb, mtr.
    destruct (Nat.leb op x), (Nat.ltb x (op + s)), (Nat.leb (off bs i) y), (Nat.ltb y (off bs i + t)); reflexivity. }
  transitivity (mmul (bsize bs) (bdiag bs) (emb (off bs i) t op s (mtr M)) b a).
  - apply sumn_ext; intros k Lk. unfold mtr at 1. rewrite <- (Hs a k (mtr M)). unfold mtr at 2. ring_simplify.
    rewrite Rmult_comm. reflexivity.
  - rewrite H, <- Hs. unfold emb. destruct (_ && _); [|reflexivity]. unfold mtr, mmul. apply sumn_ext; intros; ring.
Qed.
Lemma emb_ext : forall op s ip t M N, meq s t M N -> forall a b, emb op s ip t M a b = emb op s ip t N a b.
Proof.
  intros op s ip t M N H a b. unfold emb. destruct (_ && _) eqn:E; [|reflexivity].
  apply andb_true_iff in E; destruct E as [E E4]; apply andb_true_iff in E; destruct E as [E E3];
    apply andb_true_iff in E; destruct E as [E1 E2].
  apply Nat.leb_le in E1, E3; apply Nat.ltb_lt in E2, E4. apply H; lia.
Qed.

(** ** SteerableKernelBasis *)

Lemma remove_first_perm : forall a l, In a l -> Permutation l (a :: remove_first a l).
Proof.
  intros a; induction l as [|b l IH]; intros H; [contradiction|]; cbn [remove_first].
  destruct (id_eqb b a) eqn:E; [apply id_eqb_true in E; subst; reflexivity|].
  apply id_eqb_false in E. destruct H as [H|H]; [congruence|]. rewrite (IH H) at 1. apply perm_swap.
Qed.

Lemma sum_swap_nat : forall {A B} (f : A -> B -> nat) l m,
  list_sum (map (fun a => list_sum (map (f a) m)) l) = list_sum (map (fun b => list_sum (map (fun a => f a b) l)) m).
Proof.
  intros A B f; induction l as [|a l IH]; intros m; cbn [map].
  - induction m as [|b m IHm]; cbn in *; [reflexivity|exact IHm].
  - rewrite list_sum_cons, IH. clear IH. induction m as [|b m IHm]; cbn [map]; [reflexivity|].
    rewrite !list_sum_cons. cbn [map] in IHm. lia.
Qed.

Lemma sum_members : forall (d : list Z -> nat) L M, NoDup L -> NoDup M -> (forall j, In j M -> In j L) ->
  list_sum (map (fun j => if id_mem j M then d j else 0%nat) L) = list_sum (map d M).
Proof.
  intros d L M NL NM H.
  rewrite <- (sum_same_ids d (filter (fun j => id_mem j M) L) M).
  - clear. induction L as [|j L IH]; cbn [map filter]; [reflexivity|]. rewrite list_sum_cons, IH.
    destruct (id_mem j M); [rewrite <- list_sum_cons; reflexivity|reflexivity].
  - apply NoDup_filter; exact NL.
  - exact NM.
  - intros j; rewrite filter_In, id_mem_true. split; [tauto|auto].
Qed.

Section SKB.
Context {G T P A : Type}.
Variable mem : T -> Prop.
Variable act : T -> res (P -> P).
Variable irrF : list Z -> res (girrep G).
Variable irr : list Z -> res (girrep T).
Variable gen : list Z -> list Z -> res (option (ibasis T A)).
Variable triv : list Z.
Variable F : filters P A.
Variable ok : list Z -> Prop.
Hypothesis Hirr : forall j, ok j -> exists r, irr j = Ret r /\
  forall g, mem g -> exists D, gi_rep r g = Ret (gi_size r, D) /\ orthogonal (gi_size r) D.
Hypothesis Hgen : forall i o, ok i -> ok o -> exists ri ro ob, irr i = Ret ri /\ irr o = Ret ro /\ gen i o = Ret ob /\
  forall b, ob = Some b -> b_in b = ri /\ b_out b = ro /\ good_basis mem act irrF F b.
Hypothesis NF : NoDup (map fst (f_js F)).

(** What is known about an entry of `self.bases`. *)
Definition pair_ok (is os : list (list Z)) (ii0 ip0 oo0 op0 : nat) (q : spair T A) : Prop :=
  good_basis mem act irrF F (sp_b q) /\ irr (sp_in q) = Ret (b_in (sp_b q)) /\ irr (sp_out q) = Ret (b_out (sp_b q)) /\
  exists a b, sp_ii q = (ii0 + a)%nat /\ sp_oo q = (oo0 + b)%nat /\
    nth_error is a = Some (sp_in q) /\ nth_error os b = Some (sp_out q) /\
    (forall h bs, mem h -> values irr is h = Ret bs -> sp_ip q = (ip0 + off bs a)%nat) /\
    (forall h bs, mem h -> values irr os h = Ret bs -> sp_op q = (op0 + off bs b)%nat).

Lemma values_cons : forall i is r h bs, irr i = Ret r ->
  (forall g, mem g -> exists D, gi_rep r g = Ret (gi_size r, D) /\ orthogonal (gi_size r) D) -> mem h ->
  values irr (i :: is) h = Ret bs -> exists D bs', gi_rep r h = Ret (gi_size r, D) /\ values irr is h = Ret bs' /\
    bs = (gi_size r, D) :: bs'.
Proof.
  intros i is r h bs Er Rr Mh Ev. unfold values in Ev; cbn [mapM] in Ev. rewrite Er in Ev; cbn [bind] in Ev.
  destruct (Rr h Mh) as (D & ED & _). rewrite ED in Ev; cbn [bind] in Ev. fold (values irr is h) in Ev.
  destruct (values irr is h) as [|bs'] eqn:E; [discriminate|]. cbn [bind] in Ev. injection Ev as <-.
  exists D, bs'; auto.
Qed.

Lemma out_pairs_ok : forall i ii ip os oo op, ok i -> Forall ok os ->
  exists l, out_pairs irr gen ii ip i oo op os = Ret l /\
    forall q, In q l -> pair_ok [i] os ii ip oo op q.
Proof.
  intros i ii ip; induction os as [|o os IH]; intros oo op Hi Ho; cbn [out_pairs].
  - exists []; split; [reflexivity|]; intros q [].
  - inversion Ho as [|? ? H1 H2]; subst.
    destruct (Hgen i o Hi H1) as (ri & ro & ob & Ei & Eo & Eg & Hb). rewrite Eg, Eo; cbn [bind].
    destruct (IH (S oo) (op + gi_size ro)%nat Hi H2) as (l & El & Hl). rewrite El; cbn [bind].
    assert (forall q, In q l -> pair_ok [i] (o :: os) ii ip oo op q) as Hl'.
    { intros q Hq. destruct (Hl q Hq) as (Gq & E1 & E2 & a & b & Ea & Eb & Na & Nb & Pa & Pb).
      split; [exact Gq|]; split; [exact E1|]; split; [exact E2|]. exists a, (S b).
      split; [exact Ea|]; split; [rewrite Eb; lia|]; split; [exact Na|]; split; [exact Nb|]; split; [exact Pa|].
      intros h bs Mh Ev. destruct (Hirr o H1) as (r & Er & Rr). rewrite Eo in Er; injection Er as <-.
      destruct (values_cons o os ro h bs Eo Rr Mh Ev) as (D & bs' & _ & Ev' & ->).
      rewrite (Pb h bs' Mh Ev'). change (off ((gi_size ro, D) :: bs') (S b)) with (gi_size ro + off bs' b)%nat. lia. }
    destruct ob as [b|]; [|exists l; auto]. destruct (Hb b eq_refl) as (Ebi & Ebo & Gb).
    eexists; split; [reflexivity|]. intros q [<-|Hq]; [|auto].
    split; [exact Gb|]; cbn [sp_in sp_out sp_b sp_ii sp_oo sp_ip sp_op].
    split; [rewrite Ebi; exact Ei|]; split; [rewrite Ebo; exact Eo|].
    exists 0%nat, 0%nat. split; [lia|]; split; [lia|]; split; [reflexivity|]; split; [reflexivity|].
    split; intros h bs _ _; unfold off; cbn; lia.
Qed.

Lemma in_pairs_ok : forall os is ii ip, Forall ok is -> Forall ok os ->
  exists l, in_pairs irr gen ii ip is os = Ret l /\ forall q, In q l -> pair_ok is os ii ip 0 0 q.
Proof.
  intros os; induction is as [|i is IH]; intros ii ip Hi Ho; cbn [in_pairs].
  - exists []; split; [reflexivity|]; intros q [].
  - inversion Hi as [|? ? H1 H2]; subst.
    destruct (out_pairs_ok i ii ip os 0 0 H1 Ho) as (l & El & Hl). rewrite El; cbn [bind].
    destruct (Hirr i H1) as (ri & Ei & Ri). rewrite Ei; cbn [bind].
    destruct (IH (S ii) (ip + gi_size ri)%nat H2 Ho) as (l' & El' & Hl'). rewrite El'; cbn [bind].
    eexists; split; [reflexivity|]. intros q Hq. apply in_app_iff in Hq; destruct Hq as [Hq|Hq].
    + destruct (Hl q Hq) as (Gq & E1 & E2 & a & b & Ea & Eb & Na & Nb & Pa & Pb).
      destruct a as [|a]; [|destruct a; discriminate Na]. cbn [nth_error] in Na; injection Na as Na.
      split; [exact Gq|]; split; [exact E1|]; split; [exact E2|]. exists 0%nat, b.
      split; [exact Ea|]; split; [exact Eb|]; split; [cbn; rewrite Na; reflexivity|]; split; [exact Nb|].
      split; [|exact Pb]. intros h bs Mh _. unfold off; cbn.
      destruct (Ri h Mh) as (D & ED & _).
      rewrite (Pa h [(gi_size ri, D)] Mh); [unfold off; cbn; reflexivity|].
      unfold values; cbn [mapM]. rewrite Ei; cbn [bind]; rewrite ED; reflexivity.
    + destruct (Hl' q Hq) as (Gq & E1 & E2 & a & b & Ea & Eb & Na & Nb & Pa & Pb).
      split; [exact Gq|]; split; [exact E1|]; split; [exact E2|]. exists (S a), b.
      split; [rewrite Ea; lia|]; split; [exact Eb|]; split; [exact Na|]; split; [exact Nb|]; split; [|exact Pb].
      intros h bs Mh Ev. destruct (values_cons i is ri h bs Ei Ri Mh Ev) as (D & bs' & _ & Ev' & ->).
      rewrite (Pa h bs' Mh Ev'). change (off ((gi_size ri, D) :: bs') (S a)) with (gi_size ri + off bs' a)%nat. lia.
Qed.

Lemma order_js_spec : forall js, NoDup (order_js triv F js) /\
  forall j, In j (order_js triv F js) <-> In j (map fst (f_js F)) /\ In j js.
Proof.
  intros js. unfold order_js. set (l := filter (fun j => id_mem j js) (map fst (f_js F))).
  assert (NoDup l) as Nl by (apply NoDup_filter; exact NF).
  assert (forall j, In j l <-> In j (map fst (f_js F)) /\ In j js) as Hl by (intros; unfold l; rewrite filter_In, id_mem_true; reflexivity).
  destruct (id_mem triv l) eqn:E; [|auto]. apply id_mem_true in E.
  pose proof (remove_first_perm triv l E) as Pm. split; [apply (Permutation_NoDup Pm Nl)|].
  intros j. rewrite <- Hl. split; apply Permutation_in; [symmetry|]; exact Pm.
Qed.

Lemma in_pair_dimh : forall q j is os ii ip oo op, pair_ok is os ii ip oo op q -> pair_dimh j q = b_dimh (sp_b q) j.
Proof.
  intros q j is os ii ip oo op H. unfold pair_dimh. destruct (id_mem j (b_js (sp_b q))) eqn:E; [reflexivity|].
  apply id_mem_false in E. symmetry; apply (gb_zero _ _ _ _ _ (proj1 H)); exact E.
Qed.

Variable rin rout : repr T.
Hypothesis Rin : reproduces irr mem rin.
Hypothesis Rout : reproduces irr mem rout.
Hypothesis Oin : Forall ok (r_irreps rin).
Hypothesis Oout : Forall ok (r_irreps rout).
Hypothesis Shin : sharp (r_size rin) (r_inv rin).
Hypothesis Shout : sharp (r_size rout) (r_cob rout).

Lemma mid_left_meq : forall r c B M, meq r r B mid -> meq r c M (mmul r B M).
Proof. intros r c B M H. rewrite H, mid_l. reflexivity. Qed.

Lemma sk_cob_meq : forall k M, sk_size_out k = r_size rout -> sk_size_in k = r_size rin ->
  sk_A k = (if allclose (r_size rin) (r_size rin) (r_inv rin) mid then None else Some (r_inv rin)) ->
  sk_B k = (if allclose (r_size rout) (r_size rout) (r_cob rout) mid then None else Some (r_cob rout)) ->
  meq (r_size rout) (r_size rin) (sk_cob (T := T) (A := A) k M)
    (mmul (r_size rin) (mmul (r_size rout) (r_cob rout) M) (r_inv rin)).
Proof.
  intros k M Eo Ei EA EB. unfold sk_cob. rewrite Eo, Ei, EA, EB.
  assert (meq (r_size rout) (r_size rin) (match (if allclose (r_size rout) (r_size rout) (r_cob rout) mid then None else Some (r_cob rout)) with
            None => M | Some B => mmul (r_size rout) B M end) (mmul (r_size rout) (r_cob rout) M)) as H1.
  { destruct Shout as [S|S].
    - destruct (allclose _ _ (r_cob rout) mid); [|reflexivity]. rewrite S, mid_l. reflexivity.
    - rewrite S; reflexivity. }
  destruct Shin as [S|S].
  - destruct (allclose _ _ (r_inv rin) mid).
    + rewrite H1, S, mid_r. reflexivity.
    + rewrite H1; reflexivity.
  - rewrite S. rewrite H1; reflexivity.
Qed.

Lemma bdiag_orth : forall ids h bs, Forall ok ids -> mem h -> values irr ids h = Ret bs ->
  inverse_of (bsize bs) (bdiag bs) (mtr (bdiag bs)).
Proof.
  intros ids h bs Ho Mh Ev.
  assert (Forall (fun p => orthogonal (fst p) (snd p)) bs) as Hb.
  { revert bs Ev; induction ids as [|i ids IH]; intros bs Ev.
    - injection Ev as <-; constructor.
    - inversion Ho as [|? ? H1 H2]; subst. destruct (Hirr i H1) as (r & Er & Rr).
      destruct (values_cons i ids r h bs Er Rr Mh Ev) as (D & bs' & ED & Ev' & ->).
      constructor; [|apply (IH H2 _ Ev')]. destruct (Rr h Mh) as (D' & ED' & OD). rewrite ED in ED'; injection ED' as <-. exact OD. }
  pose proof (bdiag_inverse bs fst snd (fun p => mtr (snd p))) as H.
  rewrite Forall_forall in Hb.
  assert (forall a, In a bs -> inverse_of (fst a) (snd a) (mtr (snd a))) as Hb' by (intros a Ha; apply orthogonal_inverse, Hb, Ha).
  specialize (H Hb'). rewrite <- bsize_map in H.
  rewrite (map_ext (fun a : nat * mat => (fst a, snd a)) (fun a => a)), map_id in H by (intros [? ?]; reflexivity).
  eapply inverse_of_ext; [reflexivity| |exact H]. intros i j _ _. symmetry; apply bdiag_mtr.
Qed.

Lemma mk_skb_good : exists ok0, mk_skb irr gen triv F rin rout = Ret ok0 /\
  forall k, ok0 = Some k ->
    (forall idx, (idx < sk_dim k)%nat ->
      steerable_kernel mem act (r_size rout) (r_size rin) (r_fun rout) (r_fun rin) (fun x => sk_sample irrF F k x idx)) /\
    (listed_attrs F -> index_agrees (sk_dim k) (sk_get k) (sk_iter k)).
Proof.
  unfold mk_skb. destruct (in_pairs_ok (r_irreps rout) (r_irreps rin) 0 0 Oin Oout) as (pairs & Ep & Hp).
  rewrite Ep; cbn [bind]. set (dim := list_sum (map (fun q => b_dim (sp_b q)) pairs)).
  destruct (Nat.eqb dim 0); [exists None; split; [reflexivity|discriminate]|].
  eexists; split; [reflexivity|]. intros k Ek; injection Ek as <-.
  match goal with |- context [sk_sample irrF F ?x _ _] => set (k := x) end.
  set (js := order_js triv F (flat_map (fun q => b_js (sp_b q)) pairs)) in *.
  destruct (order_js_spec (flat_map (fun q => b_js (sp_b q)) pairs)) as [Njs Hjs]. fold js in Njs, Hjs.
  assert (sk_dim k = list_sum (map (sk_dimh k) (sk_js k))) as Edim.
  { unfold sk_dimh. rewrite (sum_swap_nat (fun j q => pair_dimh j q)). cbn [sk_dim sk_js sk_pairs k]. unfold dim. f_equal.
    apply map_ext_in. intros q Hq. rewrite (gb_dim _ _ _ _ _ (proj1 (Hp q Hq))). unfold pair_dimh. symmetry.
    apply sum_members; [exact Njs|apply (gb_js _ _ _ _ _ (proj1 (Hp q Hq)))|].
    intros j Hj. apply Hjs. split; [apply (gb_inF _ _ _ _ _ (proj1 (Hp q Hq))); exact Hj|].
    apply in_flat_map. exists q; auto. }
  split.
  - intros idx Li g x Mg. rewrite Edim in Li.
    destruct (locate_some _ _ _ Li) as (j & i & Ej & Ij & Hi). unfold sk_sample. rewrite Ej.
    change (sk_dimh k j) with (list_sum (map (pair_dimh j) (sk_pairs k))) in Hi.
    destruct (locate_some _ _ _ Hi) as (q & i' & Eq & Iq & Hi'). rewrite Eq.
    pose proof (Hp q Iq) as Pq. rewrite (in_pair_dimh q j _ _ _ _ _ _ Pq) in Hi'.
    destruct Pq as (Gq & Eri & Ero & a & b & _ & _ & Na & Nb & Pa & Pb).
    assert (In j (b_js (sp_b q))) as Ijb.
    { destruct (in_dec (list_eq_dec Z.eq_dec) j (b_js (sp_b q))) as [H|H]; [exact H|].
      rewrite (gb_zero _ _ _ _ _ Gq j H) in Hi'; lia. }
    destruct (gb_steer _ _ _ _ _ Gq j i' Ijb Hi' g x Mg) as (f & M & M' & Ao & Bo & Bi & Ef & EM & EM' & EA & EB & IB & HM).
    destruct (proj2 Rin g Mg) as (bsI & DI & EvI & EbI & EfI & HDI).
    destruct (proj2 Rout g Mg) as (bsO & DO & EvO & EbO & EfO & HDO).
    destruct (values_nth irr _ _ _ _ _ EvI Na) as (r1 & p1 & Er1 & Ep1 & Nn1). rewrite Eri in Er1; injection Er1 as <-.
    rewrite EB in Ep1; injection Ep1 as <-.
    destruct (values_nth irr _ _ _ _ _ EvO Nb) as (r2 & p2 & Er2 & Ep2 & Nn2). rewrite Ero in Er2; injection Er2 as <-.
    rewrite EA in Ep2; injection Ep2 as <-.
    pose proof (Pa g bsI Mg EvI) as Ea. pose proof (Pb g bsO Mg EvO) as Eb. cbn [Nat.add] in Ea, Eb.
    assert (meq (gi_size (b_in (sp_b q))) (gi_size (b_in (sp_b q))) Bi (mtr Bo)) as HBi.
    { apply (inverse_unique _ Bo); [exact IB|].
      assert (In (sp_in q) (r_irreps rin)) as Ii by (apply nth_error_In in Na; exact Na).
      rewrite Forall_forall in Oin. destruct (Hirr _ (Oin _ Ii)) as (r & Er & Rr). rewrite Eri in Er; injection Er as <-.
      destruct (Rr g Mg) as (D & ED & OD). rewrite EB in ED; injection ED as <-. apply orthogonal_inverse; exact OD. }
    set (no := r_size rout) in *. set (ni := r_size rin) in *.
    destruct Rin as [IAin _]. destruct Rout as [IAout _].
    pose proof (bdiag_orth _ _ _ Oin Mg EvI) as Oo. rewrite EbI in Oo. fold ni in Oo.
    apply bind_Ret in EM; destruct EM as (Y & EY & EM). apply bind_Ret in EM'; destruct EM' as (Y' & EY' & EM').
    exists f, (sk_cob k (embed q M)), (sk_cob k (embed q M')), DO, DI, (mmul ni (mmul ni (r_cob rin) (mtr (bdiag bsI))) (r_inv rin)).
    split; [exact Ef|]. split; [rewrite EY; cbn [bind]; rewrite EM; reflexivity|].
    split; [rewrite EY'; cbn [bind]; rewrite EM'; reflexivity|]. split; [exact EfO|]. split; [exact EfI|]. split.
    { apply (inverse_of_ext _ (mmul ni (r_cob rin) (mmul ni (bdiag bsI) (r_inv rin))) _
         (mmul ni (mmul ni (r_cob rin) (mtr (bdiag bsI))) (r_inv rin))); [rewrite HDI, mul_assoc; reflexivity|reflexivity|].
      apply inverse_of_mul; [exact IAin|]. apply inverse_of_mul; [exact Oo|]. apply inverse_of_sym; exact IAin. }
    rewrite !sk_cob_meq by reflexivity. fold no ni.
    assert (meq no ni (embed q M') (mmul ni (mmul no (bdiag bsO) (embed q M)) (mtr (bdiag bsI)))) as HK.
    { change (embed q M') with (emb (sp_op q) (gi_size (b_out (sp_b q))) (sp_ip q) (gi_size (b_in (sp_b q))) M').
      change (embed q M) with (emb (sp_op q) (gi_size (b_out (sp_b q))) (sp_ip q) (gi_size (b_in (sp_b q))) M).
      rewrite Ea, Eb. unfold no at 2. rewrite <- EbO. fold no.
      pose proof (emb_left bsO b _ Ao (off bsI a) (gi_size (b_in (sp_b q))) M ni Nn2) as HL. rewrite EbO in HL |- *. fold no in HL |- *.
      rewrite HL.
      pose proof (emb_right bsI a _ Bo (off bsO b) (gi_size (b_out (sp_b q))) (mmul (gi_size (b_out (sp_b q))) Ao M) no Nn1) as HR.
      rewrite EbI in HR. fold ni in HR. rewrite HR.
      intros u v _ _. apply emb_ext. rewrite HM, HBi. reflexivity. }
    rewrite HK, HDO.
    destruct IAin as [I1 I2]. destruct IAout as [J1 J2]. fold no in J1, J2. fold ni in I1, I2.
    rewrite !mul_assoc.
    rewrite <- (mul_assoc no no no ni (r_inv rout) (r_cob rout)), J2, mid_l.
    rewrite <- (mul_assoc ni ni ni ni (r_inv rin) (r_cob rin)), I2, mid_l. reflexivity.
  - intros HF.
    destruct (locate_concat (fun j => l <- concatM (fun q => xs <- b_attrs (sp_b q) j ;; Ret (map (fun a => (q, a)) xs)) (sk_pairs k) ;;
         Ret (map (fun x => (j, x)) (enumerate l))) (sk_dimh k) (sk_js k)) as (out & Eo & Lo & Ho).
    { intros j _.
      destruct (locate_concat (fun q => xs <- b_attrs (sp_b q) j ;; Ret (map (fun a => (q, a)) xs)) (pair_dimh j) (sk_pairs k))
        as (o & E & L & _).
      { intros q Hq. destruct (gb_attrs _ _ _ _ _ (proj1 (Hp q Hq)) HF j) as (l & El & Ll & _).
        rewrite El; cbn [bind]. eexists; split; [reflexivity|]. rewrite map_length, (in_pair_dimh q j _ _ _ _ _ _ (Hp q Hq)). exact Ll. }
      rewrite E; cbn [bind]. eexists; split; [reflexivity|]. rewrite map_length, length_enumerate. exact L. }
    unfold sk_iter. rewrite Eo; cbn [bind]. rewrite Lo, <- Edim, Nat.leb_refl; cbn [assert_ bind].
    eexists; split; [reflexivity|]. split; [rewrite map_length, length_enumerate, Lo, Edim; reflexivity|].
    intros i Li. unfold sk_get. rewrite (proj2 (Nat.ltb_lt _ _) Li); cbn [assert_ bind].
    rewrite Edim in Li. destruct (locate_some _ _ _ Li) as (j & i1 & Ej & Ij & Hi). rewrite Ej.
    change (sk_dimh k j) with (list_sum (map (pair_dimh j) (sk_pairs k))) in Hi.
    destruct (locate_some _ _ _ Hi) as (q & i2 & Eq & Iq & Hi').
    rewrite <- (locate_ext (pair_dimh j)) by (intros q' Hq'; apply (in_pair_dimh q' j _ _ _ _ _ _ (Hp q' Hq'))).
    rewrite Eq. rewrite (in_pair_dimh q j _ _ _ _ _ _ (Hp q Iq)) in Hi'.
    destruct (gb_attrs _ _ _ _ _ (proj1 (Hp q Iq)) HF j) as (l & El & Ll & Hl).
    destruct (Hl i2 Hi') as (a & Ea & Na). rewrite Ea; cbn [bind]. eexists; split; [reflexivity|].
    destruct (locate_concat (fun q => xs <- b_attrs (sp_b q) j ;; Ret (map (fun a => (q, a)) xs)) (pair_dimh j) (sk_pairs k))
      as (o & E & L & HH).
    { intros q' Hq. destruct (gb_attrs _ _ _ _ _ (proj1 (Hp q' Hq)) HF j) as (l' & El' & Ll' & _).
      rewrite El'; cbn [bind]. eexists; split; [reflexivity|]. rewrite map_length, (in_pair_dimh q' j _ _ _ _ _ _ (Hp q' Hq)). exact Ll'. }
    assert (nth_error o i1 = Some (q, a)) as No.
    { rewrite (HH i1 q i2 (map (fun a => (q, a)) l) Eq); [apply map_nth_error'; exact Na|]. rewrite El; reflexivity. }
    assert (nth_error out i = Some (j, (i1, (q, a)))) as Ni.
    { rewrite (Ho i j i1 (map (fun x => (j, x)) (enumerate o)) Ej); [|rewrite E; reflexivity].
      apply map_nth_error'. apply nth_enumerate; exact No. }
    rewrite (map_nth_error' _ _ _ _ (nth_enumerate _ _ _ Ni)). reflexivity.
Qed.
End SKB.

(** ** UnionBasis *)
Lemma union_good : forall {P X} (idx_of : X -> nat) (bs : list (kbasis P X)) u,
  mk_union idx_of bs = Ret (Some u) ->
  (Forall (fun b => index_agrees (k_dim b) (k_get b) (k_iter b)) bs -> index_agrees (k_dim u) (k_get u) (k_iter u)) /\
  (forall idx, (idx < k_dim u)%nat -> exists b i, In b bs /\ (i < k_dim b)%nat /\ k_shape b = k_shape u /\
     forall x, k_sample u x idx = k_sample b x i).
Proof.
  intros P X idx_of bs u E. destruct bs as [|b0 bs0]; [discriminate|]. set (bs := b0 :: bs0) in *.
  unfold mk_union in E. unfold bs at 1 in E. cbv beta iota in E. fold bs in E.
  apply assert_Ret in E; destruct E as [Es E]. destruct (Nat.eqb (list_sum (map k_dim bs)) 0); [discriminate|].
  match type of E with Ret (Some ?x) = _ => assert (x = u) as Hu by congruence end. clear E; subst u.
  assert (forall q, In q (enumerate bs) -> In (snd q) bs) as Hin.
  { intros [i b] Hq. unfold enumerate in Hq. apply in_combine_r in Hq. exact Hq. }
  assert (list_sum (map k_dim bs) = list_sum (map (fun q => k_dim (snd q)) (enumerate bs))) as Ed.
  { unfold enumerate. generalize 0%nat. clear. generalize bs as l. induction l as [|b l IH]; intros n; [reflexivity|].
    cbn [length seq combine map]. rewrite !list_sum_cons, (IH (S n)). reflexivity. }
  split; cbn [k_dim k_get k_iter k_sample k_shape]; fold bs.
  - intros H. rewrite Forall_forall in H.
    destruct (locate_concat (fun q : nat * kbasis P X => xs <- k_iter (snd q) ;; Ret (map (fun a => (fst q, a)) xs))
      (fun q => k_dim (snd q)) (enumerate bs)) as (out & Eo & Lo & Ho).
    { intros q Hq. destruct (H _ (Hin q Hq)) as (l & El & Ll & _). rewrite El; cbn [bind]. eexists; split; [reflexivity|].
      rewrite map_length. exact Ll. }
    rewrite Eo; cbn [bind]. rewrite Lo, <- Ed, Nat.leb_refl; cbn [assert_ bind].
    eexists; split; [reflexivity|]. split; [rewrite map_length, length_enumerate, Lo, Ed; reflexivity|].
    intros i Li. rewrite (proj2 (Nat.ltb_lt _ _) Li); cbn [assert_ bind]. rewrite Ed in Li.
    destruct (locate_some _ _ _ Li) as (q & i' & Eq & Iq & Hi). rewrite Eq.
    destruct (H _ (Hin q Iq)) as (l & El & Ll & Hl). destruct (Hl i' Hi) as (a & Ea & Na). rewrite Ea; cbn [bind].
    eexists; split; [reflexivity|].
    assert (nth_error out i = Some (fst q, a)) as Ni.
    { rewrite (Ho i q i' (map (fun a => (fst q, a)) l) Eq); [apply map_nth_error'; exact Na|]. rewrite El; reflexivity. }
    rewrite (map_nth_error' _ _ _ _ (nth_enumerate _ _ _ Ni)). reflexivity.
  - intros idx Li. rewrite Ed in Li. destruct (locate_some _ _ _ Li) as (q & i & Eq & Iq & Hi).
    exists (snd q), i. split; [apply Hin; exact Iq|]. split; [exact Hi|]. split.
    + rewrite forallb_forall in Es. specialize (Es _ (Hin q Iq)). apply andb_true_iff in Es; destruct Es as [E1 E2].
      apply Nat.eqb_eq in E1, E2. destruct (k_shape (snd q)), (k_shape b0); cbn in *; subst; reflexivity.
    + intros x. rewrite Eq. reflexivity.
Qed.
