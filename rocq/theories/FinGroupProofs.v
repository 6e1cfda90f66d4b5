From Coq Require Import List ZArith Bool Lia ZifyBool FinFun.
From Verif Require Import LibRes SpecGroup SpecFinGroup FinGroupModel.
Import ListNotations.
Open Scope Z_scope.

Lemma is_element_member : forall G v, is_element G v = true <-> member G v.
Proof.
  intros [N|N] [r|f r]; cbn [is_element member]; try (split; [discriminate|tauto]); lia.
Qed.

Lemma zrange_In : forall n x, In x (zrange n) <-> 0 <= x < n.
Proof.
  intros n x; unfold zrange; rewrite in_map_iff; split.
  - intros (k & <- & Hk); apply in_seq in Hk; lia.
  - intros H; exists (Z.to_nat x); split; [lia|]; apply in_seq; lia.
Qed.

Lemma zrange_NoDup : forall n, NoDup (zrange n).
Proof.
  intros n; unfold zrange; apply Injective_map_NoDup.
  - intros a b H; lia.
  - apply seq_NoDup.
Qed.

Lemma zrange_length : forall n, length (zrange n) = Z.to_nat n.
Proof. intros n; unfold zrange; rewrite map_length, seq_length; reflexivity. Qed.

Lemma element_Ret : forall G v w, element G v = Ret w <-> v = w /\ member G v.
Proof.
  intros G v w; rewrite <- is_element_member; unfold element.
  destruct (is_element G v) eqn:E;
    split; intros H; try (destruct H; congruence); try discriminate.
  injection H as <-; auto.
Qed.

Lemma element_member : forall G v, member G v -> element G v = Ret v.
Proof. intros G v H; apply element_Ret; auto. Qed.

Lemma member_C : forall N r, member (Cyc N) (VC r) <-> 0 <= r < N.
Proof. intros; unfold member; cbn; lia. Qed.

Lemma member_D : forall N f r,
  member (Dih N) (VD f r) <-> (f = 0 \/ f = 1) /\ 0 <= r < N.
Proof. intros; unfold member; cbn; lia. Qed.

Lemma member_C_inv : forall N v, member (Cyc N) v -> exists r, v = VC r /\ 0 <= r < N.
Proof.
  intros N [r|f r] H; [exists r; split; [reflexivity|apply member_C; exact H]|].
  contradiction H.
Qed.

Lemma member_D_inv : forall N v, member (Dih N) v ->
  exists f r, v = VD f r /\ (f = 0 \/ f = 1) /\ 0 <= r < N.
Proof.
  intros N [r|f r] H; [contradiction H|].
  exists f, r; split; [reflexivity|apply member_D; exact H].
Qed.

Local Opaque member.

Lemma valid_C : forall N, valid_grp (Cyc N) = true <-> 0 < N.
Proof. intros; cbn; lia. Qed.
Lemma valid_D : forall N, valid_grp (Dih N) = true <-> 0 < N.
Proof. intros; cbn; lia. Qed.

Lemma gmul_C : forall N a b, 0 < N -> gmul (Cyc N) (VC a) (VC b) = Ret (VC ((a + b) mod N)).
Proof.
  intros N a b HN; unfold gmul; cbn [combine bind].
  apply element_member, member_C, Z.mod_pos_bound; lia.
Qed.

Lemma ginv_C : forall N a, 0 < N -> ginv (Cyc N) (VC a) = Ret (VC ((- a) mod N)).
Proof.
  intros N a HN; unfold ginv; cbn [inverse bind].
  apply element_member, member_C, Z.mod_pos_bound; lia.
Qed.

Lemma gmul_D : forall N f a g b, 0 < N ->
  gmul (Dih N) (VD f a) (VD g b) =
  Ret (VD ((f + g) mod 2) ((a + pysign f * b) mod N)).
Proof.
  intros N f a g b HN; unfold gmul; cbn [combine bind].
  apply element_member, member_D.
  pose proof (Z.mod_pos_bound (f + g) 2 ltac:(lia)).
  pose proof (Z.mod_pos_bound (a + pysign f * b) N ltac:(lia)). lia.
Qed.

Lemma ginv_D : forall N f a, 0 < N -> (f = 0 \/ f = 1) ->
  ginv (Dih N) (VD f a) = Ret (VD f ((- a * pysign f) mod N)).
Proof.
  intros N f a HN Hf; unfold ginv; cbn [inverse bind].
  apply element_member, member_D.
  pose proof (Z.mod_pos_bound (- a * pysign f) N ltac:(lia)). lia.
Qed.

Lemma mod_unique_eq : forall N x y r, 0 < N -> x - y = N * r -> x mod N = y mod N.
Proof.
  intros N x y r HN H. replace x with (y + r * N) by lia.
  apply Z.mod_add; lia.
Qed.

(** x mod N = r when r is in range and congruent *)
Lemma mod_is : forall N x r q, 0 <= r < N -> x = N * q + r -> x mod N = r.
Proof. intros N x r q Hr H; symmetry; apply Z.mod_unique_pos with q; lia. Qed.

(** [mod_norm]: normal form of nested sums and differences modulo N *)
Lemma pysign_0 : pysign 0 = 1. Proof. reflexivity. Qed.
Lemma pysign_1 : pysign 1 = -1. Proof. reflexivity. Qed.
Lemma mul_m1 : forall x, -1 * x = - x. Proof. intros; lia. Qed.
Lemma mul_r1 : forall x, x * 1 = x. Proof. intros; lia. Qed.
Lemma mul_rm1 : forall x, x * -1 = - x. Proof. intros; lia. Qed.
Ltac mod_norm :=
  rewrite ?pysign_0, ?pysign_1, ?Z.mul_1_l, ?mul_m1, ?mul_r1, ?mul_rm1, ?Z.add_opp_r;
  rewrite ?Zplus_mod_idemp_l, ?Zplus_mod_idemp_r,
          ?Zminus_mod_idemp_l, ?Zminus_mod_idemp_r.

Theorem cyc_is_group : forall N, 0 < N ->
  is_group (member (Cyc N)) (gmul (Cyc N)) (ginv (Cyc N)) (gid (Cyc N)).
Proof.
  intros N HN; constructor; cbn [gid].
  - apply member_C; lia.
  - intros a b Ha Hb.
    apply member_C_inv in Ha as (x & -> & Hx).
    apply member_C_inv in Hb as (y & -> & Hy).
    rewrite gmul_C by lia; eexists; split; [reflexivity|].
    apply member_C, Z.mod_pos_bound; lia.
  - intros a Ha; apply member_C_inv in Ha as (x & -> & Hx).
    rewrite ginv_C by lia; eexists; split; [reflexivity|].
    apply member_C, Z.mod_pos_bound; lia.
  - intros a b c ab bc Ha Hb Hc.
    apply member_C_inv in Ha as (x & -> & Hx).
    apply member_C_inv in Hb as (y & -> & Hy).
    apply member_C_inv in Hc as (z & -> & Hz).
    rewrite !gmul_C by lia; intros E1 E2; injection E1 as <-; injection E2 as <-.
    rewrite !gmul_C by lia; do 2 f_equal.
    rewrite Zplus_mod_idemp_l, Zplus_mod_idemp_r; f_equal; lia.
  - intros a Ha; apply member_C_inv in Ha as (x & -> & Hx).
    rewrite gmul_C by lia; do 2 f_equal; apply Z.mod_small; lia.
  - intros a Ha; apply member_C_inv in Ha as (x & -> & Hx).
    rewrite gmul_C by lia; do 2 f_equal; rewrite Z.add_0_r; apply Z.mod_small; lia.
  - intros a b Ha; apply member_C_inv in Ha as (x & -> & Hx).
    rewrite ginv_C by lia; intros E; injection E as <-.
    rewrite gmul_C by lia; do 2 f_equal.
    rewrite Zplus_mod_idemp_l; replace (- x + x) with 0 by lia; apply Z.mod_0_l; lia.
  - intros a b Ha; apply member_C_inv in Ha as (x & -> & Hx).
    rewrite ginv_C by lia; intros E; injection E as <-.
    rewrite gmul_C by lia; do 2 f_equal.
    rewrite Zplus_mod_idemp_r; replace (x + - x) with 0 by lia; apply Z.mod_0_l; lia.
Qed.

Theorem dih_is_group : forall N, 0 < N ->
  is_group (member (Dih N)) (gmul (Dih N)) (ginv (Dih N)) (gid (Dih N)).
Proof.
  intros N HN; constructor; cbn [gid].
  - apply member_D; lia.
  - intros a b Ha Hb.
    apply member_D_inv in Ha as (f & x & -> & Hf & Hx).
    apply member_D_inv in Hb as (g & y & -> & Hg & Hy).
    rewrite gmul_D by lia; eexists; split; [reflexivity|].
    pose proof (Z.mod_pos_bound (f + g) 2 ltac:(lia)).
    pose proof (Z.mod_pos_bound (x + pysign f * y) N ltac:(lia)).
    apply member_D; lia.
  - intros a Ha; apply member_D_inv in Ha as (f & x & -> & Hf & Hx).
    rewrite ginv_D by lia; eexists; split; [reflexivity|].
    pose proof (Z.mod_pos_bound (- x * pysign f) N ltac:(lia)).
    apply member_D; lia.
  - intros a b c ab bc Ha Hb Hc.
    apply member_D_inv in Ha as (f & x & -> & Hf & Hx).
    apply member_D_inv in Hb as (g & y & -> & Hg & Hy).
    apply member_D_inv in Hc as (h & z & -> & Hh & Hz).
    rewrite !gmul_D by lia; intros E1 E2; injection E1 as <-; injection E2 as <-.
    rewrite !gmul_D by lia.
    assert (EA : (((f + g) mod 2) + h) mod 2 = (f + (g + h) mod 2) mod 2).
    { rewrite Zplus_mod_idemp_l, Zplus_mod_idemp_r; f_equal; lia. }
    rewrite EA; do 2 f_equal.
    destruct Hf as [-> | ->], Hg as [-> | ->];
      [change ((0 + 0) mod 2) with 0 | change ((0 + 1) mod 2) with 1
      | change ((1 + 0) mod 2) with 1 | change ((1 + 1) mod 2) with 0];
      mod_norm; f_equal; lia.
  - intros a Ha; apply member_D_inv in Ha as (f & x & -> & Hf & Hx).
    rewrite gmul_D by lia.
    destruct Hf as [-> | ->]; do 2 f_equal; mod_norm; apply Z.mod_small; lia.
  - intros a Ha; apply member_D_inv in Ha as (f & x & -> & Hf & Hx).
    rewrite gmul_D by lia.
    rewrite Z.mul_0_r, !Z.add_0_r, (Z.mod_small x N) by lia.
    destruct Hf as [-> | ->]; reflexivity.
  - intros a b Ha; apply member_D_inv in Ha as (f & x & -> & Hf & Hx).
    rewrite ginv_D by lia; intros E; injection E as <-.
    rewrite gmul_D by lia.
    destruct Hf as [-> | ->]; mod_norm; do 2 f_equal;
      match goal with |- ?t mod N = 0 => replace t with 0 by lia; apply Z.mod_0_l; lia end.
  - intros a b Ha; apply member_D_inv in Ha as (f & x & -> & Hf & Hx).
    rewrite ginv_D by lia; intros E; injection E as <-.
    rewrite gmul_D by lia.
    destruct Hf as [-> | ->]; mod_norm; do 2 f_equal;
      match goal with |- ?t mod N = 0 => replace t with 0 by lia; apply Z.mod_0_l; lia end.
Qed.

(** ** Element lists and orders *)

Lemma elements_C : forall N, 0 < N -> elements (Cyc N) = Ret (map VC (zrange N)).
Proof.
  intros N HN; cbn [elements]; apply mapM_Ret_map.
  intros a Ha; apply zrange_In in Ha; apply element_member, member_C; lia.
Qed.

Lemma elements_D : forall N, 0 < N ->
  elements (Dih N) = Ret (map (VD 0) (zrange N) ++ map (VD 1) (zrange N)).
Proof.
  intros N HN; cbn [elements].
  rewrite (mapM_Ret_map _ _ _ (VD 0)).
  2:{ intros a Ha; apply zrange_In in Ha; apply element_member, member_D; lia. }
  cbn [bind].
  rewrite (mapM_Ret_map _ _ _ (VD 1)).
  2:{ intros a Ha; apply zrange_In in Ha; apply element_member, member_D; lia. }
  reflexivity.
Qed.

Lemma NoDup_app_intro : forall A (l1 l2 : list A), NoDup l1 -> NoDup l2 ->
  (forall x, In x l1 -> In x l2 -> False) -> NoDup (l1 ++ l2).
Proof.
  intros A l1 l2 H1 H2 Hd; induction H1 as [|x l Hx Hl IH]; cbn; [exact H2|].
  constructor.
  - rewrite in_app_iff; intros [H|H]; [exact (Hx H)|].
    apply (Hd x); [left; reflexivity|exact H].
  - apply IH; intros y Hy; apply Hd; right; exact Hy.
Qed.

Theorem elements_enumerate : forall G, valid_grp G = true ->
  exists l, elements G = Ret l /\ enumerates (member G) l /\
            order G = Ret (Z.of_nat (length l)) /\
            Z.of_nat (length l) = match G with Cyc N => N | Dih N => 2 * N end.
Proof.
  intros [N|N] HG.
  - apply valid_C in HG.
    exists (map VC (zrange N)); rewrite elements_C by lia; split; [reflexivity|].
    split; [split|split].
    + apply Injective_map_NoDup; [intros a b H; congruence|apply zrange_NoDup].
    + intros x; rewrite in_map_iff; split.
      * intros (r & <- & Hr); apply zrange_In in Hr; apply member_C; lia.
      * intros Hx; apply member_C_inv in Hx as (r & -> & Hr); exists r; split;
          [reflexivity|apply zrange_In; lia].
    + unfold order; rewrite elements_C by lia; reflexivity.
    + rewrite map_length, zrange_length; lia.
  - apply valid_D in HG.
    exists (map (VD 0) (zrange N) ++ map (VD 1) (zrange N)).
    rewrite elements_D by lia; split; [reflexivity|].
    split; [split|split].
    + apply NoDup_app_intro.
      * apply Injective_map_NoDup; [intros a b H; congruence|apply zrange_NoDup].
      * apply Injective_map_NoDup; [intros a b H; congruence|apply zrange_NoDup].
      * intros x; rewrite !in_map_iff; intros (a & <- & _) (b & Hb & _); congruence.
    + intros x; rewrite in_app_iff, !in_map_iff; split.
      * intros [(r & <- & Hr)|(r & <- & Hr)]; apply zrange_In in Hr; apply member_D; lia.
      * intros Hx; apply member_D_inv in Hx as (f & r & -> & [-> | ->] & Hr);
          [left|right]; exists r; (split; [reflexivity|apply zrange_In; lia]).
    + unfold order; rewrite elements_D by lia; reflexivity.
    + rewrite app_length, !map_length, !zrange_length; lia.
Qed.

(** ** Generators *)

Lemma generators_C : forall N, 0 < N ->
  generators (Cyc N) = Ret (if 1 <? N then [VC 1] else []).
Proof.
  intros N HN; cbn [generators]; destruct (1 <? N) eqn:E; [|reflexivity].
  cbn [mapM]; rewrite element_member by (apply member_C; lia); reflexivity.
Qed.

Lemma generators_D : forall N, 0 < N ->
  generators (Dih N) = Ret (if 1 <? N then [VD 0 1; VD 1 0] else [VD 1 0]).
Proof.
  intros N HN; cbn [generators]; destruct (1 <? N) eqn:E; cbn [mapM];
    rewrite ?element_member by (apply member_D; lia); reflexivity.
Qed.

Theorem generators_generate : forall G, valid_grp G = true ->
  exists gens, generators G = Ret gens /\ Forall (member G) gens /\
    forall x, member G x -> generated (gmul G) (gid G) gens x.
Proof.
  intros [N|N] HG.
  - apply valid_C in HG; rewrite generators_C by lia.
    eexists; split; [reflexivity|]; split.
    + destruct (1 <? N) eqn:E; repeat apply Forall_cons; try apply Forall_nil; apply member_C; lia.
    + intros x Hx; apply member_C_inv in Hx as (r & -> & Hr).
      assert (H : forall n : nat, Z.of_nat n < N ->
                generated (gmul (Cyc N)) (gid (Cyc N))
                  (if 1 <? N then [VC 1] else []) (VC (Z.of_nat n))).
      { induction n as [|n IH]; intros Hn; [apply gen_id|].
        destruct (1 <? N) eqn:E; [|lia].
        apply gen_mul with (g := VC 1) (x := VC (Z.of_nat n)).
        - left; reflexivity.
        - apply IH; lia.
        - rewrite gmul_C by lia; do 2 f_equal; rewrite Z.mod_small by lia; lia. }
      specialize (H (Z.to_nat r)); rewrite Z2Nat.id in H by lia; apply H; lia.
  - apply valid_D in HG; rewrite generators_D by lia.
    eexists; split; [reflexivity|]; split.
    + destruct (1 <? N) eqn:E; repeat apply Forall_cons; try apply Forall_nil; apply member_D; lia.
    + intros x Hx; apply member_D_inv in Hx as (f & r & -> & Hf & Hr).
      set (gens := if 1 <? N then [VD 0 1; VD 1 0] else [VD 1 0]).
      assert (H0 : generated (gmul (Dih N)) (gid (Dih N)) gens (VD f 0)).
      { destruct Hf as [-> | ->]; [apply gen_id|].
        apply gen_mul with (g := VD 1 0) (x := VD 0 0).
        - unfold gens; destruct (1 <? N); cbn; auto.
        - apply gen_id.
        - rewrite gmul_D by lia; do 2 f_equal; reflexivity. }
      assert (H : forall n : nat, Z.of_nat n < N ->
                generated (gmul (Dih N)) (gid (Dih N)) gens (VD f (Z.of_nat n))).
      { induction n as [|n IH]; intros Hn; [exact H0|].
        apply gen_mul with (g := VD 0 1) (x := VD f (Z.of_nat n)).
        - unfold gens; destruct (1 <? N) eqn:E; [left; reflexivity|lia].
        - apply IH; lia.
        - rewrite gmul_D by lia; rewrite pysign_0.
          replace ((0 + f) mod 2) with f by (destruct Hf as [-> | ->]; reflexivity).
          do 2 f_equal; rewrite Z.mod_small by lia; lia. }
      specialize (H (Z.to_nat r)); rewrite Z2Nat.id in H by lia; apply H; lia.
Qed.

(** The flip conjugates every rotation to its inverse. *)
Theorem dih_flip_conj : forall N a r s t ri, 0 < N ->
  member (Dih N) (VD 0 r) -> member (Dih N) (VD 1 a) ->
  gmul (Dih N) (VD 1 a) (VD 0 r) = Ret s ->
  ginv (Dih N) (VD 1 a) = Ret ri ->
  gmul (Dih N) s ri = Ret t -> ginv (Dih N) (VD 0 r) = Ret t.
Proof.
  intros N a r s t ri HN Hr Ha.
  apply member_D in Hr as [_ Hr]; apply member_D in Ha as [_ Ha].
  rewrite gmul_D, !ginv_D by lia.
  intros E1 E2; apply Ret_inj in E1; apply Ret_inj in E2; subst s ri.
  rewrite gmul_D by lia; intros E; rewrite <- E; f_equal.
  change ((1 + 0) mod 2) with 1; change ((1 + 1) mod 2) with 0.
  f_equal; mod_norm; f_equal; lia.
Qed.

(** ** Subgroups *)

Lemma divide_ratio : forall N M, 0 < N -> 0 < M -> (M | N) ->
  exists q, N = q * M /\ 0 < q /\ N / M = q /\ N mod M = 0.
Proof.
  intros N M HN HM [q Hq]; exists q; subst N.
  repeat split; [nia|apply Z.div_mul; lia|apply Z.mod_mul; lia].
Qed.

Lemma documented_accepted : forall G id, valid_grp G = true ->
  documented G id -> exists sg, subgroup G id = Ret sg.
Proof.
  intros [N|N] [M|[a|] M] HG HD; cbn [documented] in HD; try contradiction.
  - apply valid_C in HG; destruct HD as [HM HD].
    destruct (divide_ratio N M HG HM HD) as (q & -> & Hq & Hr & Hm).
    cbn [subgroup]; rewrite Hm; replace (0 <? M) with true by lia; cbn; eauto.
  - apply valid_D in HG; destruct HD as (HM & HD & Ha).
    destruct (divide_ratio N M HG HM HD) as (q & -> & Hq & Hr & Hm).
    rewrite Hr in Ha.
    cbn [subgroup]; rewrite Hm; replace (1 <=? M) with true by lia.
    replace (0 <=? a) with true by lia.
    replace (a <? q * M) with true by (symmetry; apply Z.ltb_lt; nia); cbn.
    destruct (M =? 1); eauto.
  - apply valid_D in HG; destruct HD as (HM & HD).
    destruct (divide_ratio N M HG HM HD) as (q & -> & Hq & Hr & Hm).
    cbn [subgroup]; rewrite Hm; replace (1 <=? M) with true by lia; cbn; eauto.
Qed.

Definition good_subgroup (G : grp) (sg : subgroup_data) : Prop :=
  valid_grp (sg_group sg) = true /\
  is_embedding (member G) (gmul G) (member (sg_group sg)) (gmul (sg_group sg)) (sg_incl sg) /\
  is_restriction (member G) (member (sg_group sg)) (sg_incl sg) (sg_restr sg).

(** A convenient way to prove [is_restriction]. *)
Lemma restriction_intro : forall (memG memH : val -> Prop) incl restr,
  (forall g, memG g ->
     (exists h, restr g = Ret (Some h) /\ memH h /\ incl h = Ret g) \/
     (restr g = Ret None /\ forall h, memH h -> incl h <> Ret g)) ->
  (forall h1 h2, memH h1 -> memH h2 -> incl h1 = incl h2 -> h1 = h2) ->
  is_restriction memG memH incl restr.
Proof.
  intros memG memH incl restr H Hinj; constructor.
  - intros g Hg; destruct (H g Hg) as [(h & E & _)|[E _]]; eauto.
  - intros g h Hg; destruct (H g Hg) as [(h' & E & Hm & Hi)|[E Hn]]; rewrite E; split.
    + intros X; injection X as <-; auto.
    + intros [Hm' Hi']; do 2 f_equal; apply Hinj; auto; congruence.
    + discriminate.
    + intros [Hm' Hi']; exfalso; exact (Hn h Hm' Hi').
  - intros g Hg; destruct (H g Hg) as [(h' & E & Hm & Hi)|[E Hn]]; rewrite E; split.
    + discriminate.
    + intros X; exfalso; apply X; exists h'; auto.
    + intros _ (h & Hm & Hi); exact (Hn h Hm Hi).
    + reflexivity.
Qed.

Lemma incl_C : forall q M i, 0 < q -> 0 < M -> 0 <= i < M ->
  parent_c (q * M) M (VC i) = Ret (VC (i * q)).
Proof.
  intros q M i Hq HM Hi; cbn [parent_c].
  replace (i * (q * M)) with ((i * q) * M) by ring.
  rewrite Z.div_mul by lia; apply element_member, member_C; nia.
Qed.

Lemma incl_CD : forall q M i, 0 < q -> 0 < M -> 0 <= i < M ->
  cn_to_dn (q * M) M (VC i) = Ret (VD 0 (i * q)).
Proof.
  intros q M i Hq HM Hi; cbn [cn_to_dn]; rewrite Z.div_mul by lia.
  apply element_member, member_D; nia.
Qed.

Lemma incl_DD : forall q M a f i, 0 < q -> 0 < M -> 0 <= a < q ->
  (f = 0 \/ f = 1) -> 0 <= i < M ->
  dm_to_dn a (q * M) M (VD f i) = Ret (VD f (i * q + f * a)).
Proof.
  intros q M a f i Hq HM Ha Hf Hi; cbn [dm_to_dn]; rewrite Z.div_mul by lia.
  apply element_member, member_D; nia.
Qed.

Lemma good_C : forall q M, 0 < q -> 0 < M ->
  good_subgroup (Cyc (q * M))
    {| sg_group := Cyc M; sg_incl := parent_c (q * M) M; sg_restr := child_c (q * M) M |}.
Proof.
  intros q M Hq HM; split; [cbn; lia|]; cbn [sg_group sg_incl sg_restr].
  assert (Hinj : forall h1 h2, member (Cyc M) h1 -> member (Cyc M) h2 ->
     parent_c (q * M) M h1 = parent_c (q * M) M h2 -> h1 = h2).
  { intros h1 h2 H1 H2.
    apply member_C_inv in H1 as (x & -> & Hx); apply member_C_inv in H2 as (y & -> & Hy).
    rewrite !incl_C by lia; intros E; injection E as E; f_equal; nia. }
  split; [constructor; [| exact Hinj |]|].
  - intros h Hh; apply member_C_inv in Hh as (x & -> & Hx).
    rewrite incl_C by lia; eexists; split; [reflexivity|]; apply member_C; nia.
  - intros h1 h2 h12 g1 g2 H1 H2.
    apply member_C_inv in H1 as (x & -> & Hx); apply member_C_inv in H2 as (y & -> & Hy).
    rewrite gmul_C by lia; intros E; injection E as <-.
    rewrite !incl_C by (try apply Z.mod_pos_bound; lia).
    intros E1 E2; injection E1 as <-; injection E2 as <-.
    rewrite gmul_C by nia; do 2 f_equal.
    rewrite <- Z.mul_add_distr_r, <- Zmult_mod_distr_r. f_equal; ring.
  - apply restriction_intro; [|exact Hinj].
    intros g Hg; apply member_C_inv in Hg as (i & -> & Hi).
    cbn [child_c]; rewrite Z.div_mul by lia.
    destruct (i mod q =? 0) eqn:E; cbn [negb].
    + left. apply Z.eqb_eq in E.
      assert (Hd : i = q * (i / q)) by (pose proof (Z.div_mod i q ltac:(lia)); lia).
      exists (VC (i / q)).
      assert (Hm : member (Cyc M) (VC (i / q))) by (apply member_C; nia).
      rewrite element_member by exact Hm; split; [reflexivity|]; split; [exact Hm|].
      apply member_C in Hm; rewrite incl_C by lia; do 2 f_equal; lia.
    + right; split; [reflexivity|]; intros h Hh.
      apply member_C_inv in Hh as (x & -> & Hx); rewrite incl_C by lia.
      intros X; injection X as <-; rewrite Z.mod_mul in E by lia; lia.
Qed.

Lemma good_CD : forall q M, 0 < q -> 0 < M ->
  good_subgroup (Dih (q * M))
    {| sg_group := Cyc M; sg_incl := cn_to_dn (q * M) M; sg_restr := dn_to_cn (q * M) M |}.
Proof.
  intros q M Hq HM; split; [cbn; lia|]; cbn [sg_group sg_incl sg_restr].
  assert (Hinj : forall h1 h2, member (Cyc M) h1 -> member (Cyc M) h2 ->
     cn_to_dn (q * M) M h1 = cn_to_dn (q * M) M h2 -> h1 = h2).
  { intros h1 h2 H1 H2.
    apply member_C_inv in H1 as (x & -> & Hx); apply member_C_inv in H2 as (y & -> & Hy).
    rewrite !incl_CD by lia; intros E; injection E as E; f_equal; nia. }
  split; [constructor; [| exact Hinj |]|].
  - intros h Hh; apply member_C_inv in Hh as (x & -> & Hx).
    rewrite incl_CD by lia; eexists; split; [reflexivity|]; apply member_D; nia.
  - intros h1 h2 h12 g1 g2 H1 H2.
    apply member_C_inv in H1 as (x & -> & Hx); apply member_C_inv in H2 as (y & -> & Hy).
    rewrite gmul_C by lia; intros E; injection E as <-.
    rewrite !incl_CD by (try apply Z.mod_pos_bound; lia).
    intros E1 E2; injection E1 as <-; injection E2 as <-.
    rewrite gmul_D by nia; change ((0 + 0) mod 2) with 0; do 2 f_equal.
    rewrite pysign_0, Z.mul_1_l, <- Z.mul_add_distr_r, <- Zmult_mod_distr_r. f_equal; ring.
  - apply restriction_intro; [|exact Hinj].
    intros g Hg; apply member_D_inv in Hg as (f & i & -> & Hf & Hi).
    cbn [dn_to_cn]; rewrite Z.div_mul by lia.
    destruct ((f =? 0) && (i mod q =? 0)) eqn:E; cbn [negb].
    + left. apply andb_prop in E as [Ef E]; apply Z.eqb_eq in E, Ef; subst f.
      assert (Hd : i = q * (i / q)) by (pose proof (Z.div_mod i q ltac:(lia)); lia).
      exists (VC (i / q)).
      assert (Hm : member (Cyc M) (VC (i / q))) by (apply member_C; nia).
      rewrite element_member by exact Hm; split; [reflexivity|]; split; [exact Hm|].
      apply member_C in Hm; rewrite incl_CD by lia; do 2 f_equal; lia.
    + right; split; [reflexivity|]; intros h Hh.
      apply member_C_inv in Hh as (x & -> & Hx); rewrite incl_CD by lia.
      intros X; injection X as <- <-; rewrite Z.mod_mul in E by lia; cbn in E; lia.
Qed.

Lemma good_flip : forall N a, 0 < N -> 0 <= a < N ->
  good_subgroup (Dih N)
    {| sg_group := Cyc 2; sg_incl := flip_to_dn a N; sg_restr := dn_to_flip a |}.
Proof.
  intros N a HN Ha; split; [cbn; lia|]; cbn [sg_group sg_incl sg_restr].
  assert (Hi0 : flip_to_dn a N (VC 0) = Ret (VD 0 0)) by reflexivity.
  assert (Hi1 : flip_to_dn a N (VC 1) = Ret (VD 1 a)).
  { cbn [flip_to_dn]; change (1 =? 0) with false; cbn iota.
    apply element_member, member_D; lia. }
  assert (H2 : forall h, member (Cyc 2) h -> h = VC 0 \/ h = VC 1).
  { intros h Hh; apply member_C_inv in Hh as (x & -> & Hx).
    assert (x = 0 \/ x = 1) as [-> | ->] by lia; auto. }
  assert (Hinj : forall h1 h2, member (Cyc 2) h1 -> member (Cyc 2) h2 ->
     flip_to_dn a N h1 = flip_to_dn a N h2 -> h1 = h2).
  { intros h1 h2 Hh1 Hh2; destruct (H2 _ Hh1) as [-> | ->], (H2 _ Hh2) as [-> | ->];
      rewrite ?Hi0, ?Hi1; intros E; congruence. }
  split; [constructor; [| exact Hinj |]|].
  - intros h Hh; destruct (H2 _ Hh) as [-> | ->]; rewrite ?Hi0, ?Hi1;
      eexists; (split; [reflexivity|]); apply member_D; lia.
  - intros h1 h2 h12 g1 g2 Hh1 Hh2; destruct (H2 _ Hh1) as [-> | ->], (H2 _ Hh2) as [-> | ->];
      rewrite gmul_C by lia; intros E; apply Ret_inj in E; subst h12; rewrite ?Hi0, ?Hi1;
      intros E1 E2; apply Ret_inj in E1; apply Ret_inj in E2; subst g1 g2;
      rewrite gmul_D by lia; rewrite ?pysign_0, ?pysign_1;
      change ((0 + 0) mod 2) with 0; change ((0 + 1) mod 2) with 1;
      change ((1 + 0) mod 2) with 1; change ((1 + 1) mod 2) with 0;
      rewrite ?Hi0, ?Hi1; do 2 f_equal; symmetry;
      apply mod_is with (q := 0); lia.
  - apply restriction_intro; [|exact Hinj].
    intros g Hg; apply member_D_inv in Hg as (f & i & -> & Hf & Hi).
    cbn [dn_to_flip].
    destruct ((f =? 0) && (i =? 0)) eqn:E0; [|destruct ((f =? 1) && (i =? a)) eqn:E1].
    + left; exists (VC 0); split; [reflexivity|]; split; [apply member_C; lia|].
      rewrite Hi0; do 2 f_equal; lia.
    + left; exists (VC 1); split; [reflexivity|]; split; [apply member_C; lia|].
      rewrite Hi1; do 2 f_equal; lia.
    + right; split; [reflexivity|]; intros h Hh.
      destruct (H2 _ Hh) as [-> | ->]; rewrite ?Hi0, ?Hi1; intros X; injection X as <- <-; lia.
Qed.

Lemma good_DD : forall q M a, 0 < q -> 0 < M -> 0 <= a < q ->
  good_subgroup (Dih (q * M))
    {| sg_group := Dih M; sg_incl := dm_to_dn a (q * M) M; sg_restr := dn_to_dm a (q * M) M |}.
Proof.
  intros q M a Hq HM Ha; split; [cbn; lia|]; cbn [sg_group sg_incl sg_restr].
  assert (Hinj : forall h1 h2, member (Dih M) h1 -> member (Dih M) h2 ->
     dm_to_dn a (q * M) M h1 = dm_to_dn a (q * M) M h2 -> h1 = h2).
  { intros h1 h2 H1 H2.
    apply member_D_inv in H1 as (f & x & -> & Hf & Hx).
    apply member_D_inv in H2 as (g & y & -> & Hg & Hy).
    rewrite !incl_DD by lia; intros E; injection E as <- E; f_equal; nia. }
  split; [constructor; [| exact Hinj |]|].
  - intros h Hh; apply member_D_inv in Hh as (f & x & -> & Hf & Hx).
    rewrite incl_DD by lia; eexists; split; [reflexivity|]; apply member_D; nia.
  - intros h1 h2 h12 g1 g2 H1 H2.
    apply member_D_inv in H1 as (f & x & -> & Hf & Hx).
    apply member_D_inv in H2 as (g & y & -> & Hg & Hy).
    rewrite gmul_D by lia; intros E; injection E as <-.
    rewrite !incl_DD by (try lia; try (apply Z.mod_pos_bound; lia);
      destruct Hf as [-> | ->], Hg as [-> | ->]; cbn; lia).
    intros E1 E2; injection E1 as <-; injection E2 as <-.
    rewrite gmul_D by nia; do 2 f_equal.
    rewrite <- Zmult_mod_distr_l with (c := q) || idtac.
    assert (Hk : forall z, (z mod M) * q = (z * q) mod (q * M)).
    { intros z; rewrite (Z.mul_comm q M), Zmult_mod_distr_r; reflexivity. }
    rewrite Hk.
    destruct Hf as [-> | ->], Hg as [-> | ->];
      [change ((0 + 0) mod 2) with 0 | change ((0 + 1) mod 2) with 1
      | change ((1 + 0) mod 2) with 1 | change ((1 + 1) mod 2) with 0];
      rewrite ?pysign_0, ?pysign_1.
    + rewrite Z.add_0_r; f_equal; ring.
    + rewrite <- Hk.
      symmetry; apply mod_is with (q := (x + 1 * y) / M).
      * pose proof (Z.mod_pos_bound (x + 1 * y) M ltac:(lia)); nia.
      * pose proof (Z.div_mod (x + 1 * y) M ltac:(lia)); nia.
    + rewrite <- Hk.
      symmetry; apply mod_is with (q := (x + -1 * y) / M).
      * pose proof (Z.mod_pos_bound (x + -1 * y) M ltac:(lia)); nia.
      * pose proof (Z.div_mod (x + -1 * y) M ltac:(lia)); nia.
    + rewrite Z.add_0_r; f_equal; ring.
  - apply restriction_intro; [|exact Hinj].
    intros g Hg; apply member_D_inv in Hg as (f & i & -> & Hf & Hi).
    cbn [dn_to_dm]; rewrite Z.div_mul by lia.
    destruct ((i - f * a) mod q =? 0) eqn:E; cbn [negb].
    + left. apply Z.eqb_eq in E.
      assert (Hd : i - f * a = q * ((i - f * a) / q))
        by (pose proof (Z.div_mod (i - f * a) q ltac:(lia)); lia).
      set (r := (i - f * a) / q) in *; clearbody r.
      exists (VD f r).
      assert (Hm : member (Dih M) (VD f r)) by (apply member_D; nia).
      rewrite element_member by exact Hm; split; [reflexivity|]; split; [exact Hm|].
      apply member_D in Hm; rewrite incl_DD by lia; do 2 f_equal; lia.
    + right; split; [reflexivity|]; intros h Hh.
      apply member_D_inv in Hh as (g & x & -> & Hg & Hx); rewrite incl_DD by lia.
      intros X; injection X as -> <-.
      replace (x * q + f * a - f * a) with (x * q) in E by ring.
      rewrite Z.mod_mul in E by lia; lia.
Qed.

Theorem subgroup_good : forall G id sg, valid_grp G = true -> documented G id ->
  subgroup G id = Ret sg -> good_subgroup G sg.
Proof.
  intros [N|N] [M|[a|] M] sg HG HD; cbn [documented] in HD; try contradiction.
  - apply valid_C in HG; destruct HD as [HM HD].
    destruct (divide_ratio N M HG HM HD) as (q & -> & Hq & Hr & Hm).
    cbn [subgroup]; rewrite !assert_Ret; intros (_ & _ & E); injection E as <-.
    apply good_C; lia.
  - apply valid_D in HG; destruct HD as (HM & HD & Ha).
    destruct (divide_ratio N M HG HM HD) as (q & -> & Hq & Hr & Hm).
    rewrite Hr in Ha.
    cbn [subgroup]; rewrite !assert_Ret; intros (_ & _ & _ & E).
    destruct (M =? 1) eqn:E1; injection E as <-.
    + apply good_flip; nia.
    + apply good_DD; lia.
  - apply valid_D in HG; destruct HD as (HM & HD).
    destruct (divide_ratio N M HG HM HD) as (q & -> & Hq & Hr & Hm).
    cbn [subgroup]; rewrite !assert_Ret; intros (_ & _ & _ & E); injection E as <-.
    apply good_CD; lia.
Qed.

(** ** Accepted but undocumented axes *)

Lemma undocumented_breaks : forall N M a sg, 0 < N -> 1 < M ->
  subgroup (Dih N) (IdD (Some a) M) = Ret sg -> N / M <= a ->
  (exists h, member (sg_group sg) h /\ sg_incl sg h = Raise) /\
  (exists g, member (Dih N) g /\ sg_restr sg g = Raise).
Proof.
  intros N M a sg HN HM; cbn [subgroup]; rewrite !assert_Ret.
  intros (_ & Hdiv & Ha & E) Hge; apply Z.eqb_eq in Hdiv.
  apply andb_prop in Ha as [Ha0 HaN]; apply Z.leb_le in Ha0; apply Z.ltb_lt in HaN.
  replace (M =? 1) with false in E by (symmetry; apply Z.eqb_neq; lia).
  injection E as <-; cbn [sg_group sg_incl sg_restr].
  apply Z.mod_divide in Hdiv; [|lia].
  destruct (divide_ratio N M HN ltac:(lia) Hdiv) as (q & -> & Hq & Hr & _).
  rewrite Hr in Hge; split.
  - exists (VD 1 (M - 1)); split; [apply member_D; lia|].
    cbn [dm_to_dn]; rewrite Hr; unfold element; cbn [is_element].
    replace ((M - 1) * q + 1 * a <? q * M) with false; [now rewrite !andb_false_r|].
    symmetry; apply Z.ltb_ge; nia.
  - exists (VD 1 (a - q)); split; [apply member_D; lia|].
    cbn [dn_to_dm]; rewrite Hr.
    replace (a - q - 1 * a) with (-1 * q) by ring.
    rewrite Z.mod_mul, Z.div_mul by lia; cbn [Z.eqb negb].
    reflexivity.
Qed.

(** ** Nested subgroups *)

Theorem combine_subgroups_ok : forall G id1 id2 sg1 sg2,
  valid_grp G = true -> documented G id1 -> subgroup G id1 = Ret sg1 ->
  documented (sg_group sg1) id2 -> subgroup (sg_group sg1) id2 = Ret sg2 ->
  exists id sg, combine_subgroups G id1 id2 = Ret id /\ documented G id /\
    subgroup G id = Ret sg /\ sg_group sg = sg_group sg2 /\
    forall h, member (sg_group sg2) h ->
      sg_incl sg h = (m <- sg_incl sg2 h ;; sg_incl sg1 m).
Proof.
  intros [N|N] id1 id2 sg1 sg2 HG HD1 HS1 HD2 HS2.
  - apply valid_C in HG.
    destruct id1 as [M|a M]; [|contradiction]; cbn [documented] in HD1.
    destruct HD1 as [HM HD1].
    destruct (divide_ratio N M HG HM HD1) as (q & -> & Hq & Hr & Hm).
    cbn [subgroup] in HS1; rewrite !assert_Ret in HS1; destruct HS1 as (_ & _ & E).
    injection E as <-; cbn [sg_group] in *.
    destruct id2 as [K|a K]; [|contradiction]; cbn [documented] in HD2.
    destruct HD2 as [HK HD2].
    destruct (divide_ratio M K HM HK HD2) as (p & -> & Hp & Hr2 & Hm2).
    cbn [subgroup] in HS2; rewrite !assert_Ret in HS2; destruct HS2 as (_ & _ & E).
    injection E as <-; cbn [sg_group sg_incl].
    assert (HD : documented (Cyc (q * (p * K))) (IdC K)).
    { split; [lia|]. exists (q * p); ring. }
    assert (HG' : valid_grp (Cyc (q * (p * K))) = true) by (apply valid_C; lia).
    exists (IdC K).
    destruct (documented_accepted _ _ HG' HD) as (sg & Hsg).
    exists sg; split; [|split; [exact HD|split; [exact Hsg|]]].
    + cbn [combine_subgroups subgroup]; rewrite Hm.
      replace (0 <? p * K) with true by (symmetry; apply Z.ltb_lt; lia); reflexivity.
    + cbn [subgroup] in Hsg; rewrite !assert_Ret in Hsg; destruct Hsg as (_ & _ & E).
      injection E as <-; split; [reflexivity|]; cbn [sg_incl].
      intros h Hh; apply member_C_inv in Hh as (x & -> & Hx).
      rewrite (incl_C p K) by lia; cbn [bind].
      rewrite (incl_C q (p * K)) by nia.
      replace (q * (p * K)) with ((q * p) * K) by ring.
      rewrite incl_C by nia; do 2 f_equal; ring.
  - apply valid_D in HG.
    destruct id1 as [M|[a|] M]; [contradiction| |]; cbn [documented] in HD1.
    + destruct HD1 as (HM & HD1 & Ha).
      destruct (divide_ratio N M HG HM HD1) as (q & -> & Hq & Hr & Hm).
      rewrite Hr in Ha.
      pose proof HS1 as HS1'.
      cbn [subgroup] in HS1; rewrite !assert_Ret in HS1; destruct HS1 as (_ & _ & _ & E).
      destruct (M =? 1) eqn:EM.
      * (* a reflection: C_2 *)
        apply Z.eqb_eq in EM; subst M; injection E as <-; cbn [sg_group sg_incl] in *.
        destruct id2 as [K|b K]; [|contradiction]; cbn [documented] in HD2.
        destruct HD2 as [HK HD2].
        assert (K = 1 \/ K = 2) as HK2.
        { apply Z.divide_pos_le in HD2; lia. }
        cbn [subgroup] in HS2; rewrite !assert_Ret in HS2; destruct HS2 as (_ & _ & E).
        injection E as <-; cbn [sg_group sg_incl].
        assert (HG' : valid_grp (Dih (q * 1)) = true) by (apply valid_D; lia).
        destruct HK2 as [-> | ->].
        -- assert (HD : documented (Dih (q * 1)) (IdD None 1)).
           { split; [lia|]; exists q; ring. }
           destruct (documented_accepted _ _ HG' HD) as (sg & Hsg).
           exists (IdD None 1), sg; split; [|split; [exact HD|split; [exact Hsg|]]].
           ++ unfold combine_subgroups; rewrite HS1'; reflexivity.
           ++ cbn [subgroup] in Hsg; rewrite !assert_Ret in Hsg.
              destruct Hsg as (_ & _ & _ & E); injection E as <-.
              split; [reflexivity|]; cbn [sg_incl].
              intros h Hh; apply member_C_inv in Hh as (x & -> & Hx).
              assert (x = 0) by lia; subst x.
              rewrite incl_CD by lia; reflexivity.
        -- assert (HD : documented (Dih (q * 1)) (IdD (Some a) 1)).
           { split; [lia|]; split; [exists q; ring|]. rewrite Z.div_1_r; lia. }
           destruct (documented_accepted _ _ HG' HD) as (sg & Hsg).
           exists (IdD (Some a) 1), sg; split; [|split; [exact HD|split; [exact Hsg|]]].
           ++ unfold combine_subgroups; rewrite HS1'; reflexivity.
           ++ rewrite HS1' in Hsg; injection Hsg as <-.
              split; [reflexivity|]; cbn [sg_incl].
              intros h Hh; apply member_C_inv in Hh as (x & -> & Hx).
              change 2 with (1 * 2) at 1; rewrite incl_C by lia; cbn [bind].
              now replace (x * 1) with x by ring.
      * (* D_M *)
        apply Z.eqb_neq in EM.
        injection E as <-; cbn [sg_group sg_incl] in *.
        assert (HG' : valid_grp (Dih (q * M)) = true) by (apply valid_D; lia).
        destruct id2 as [K|[b|] K]; [contradiction| |]; cbn [documented] in HD2.
        -- destruct HD2 as (HK & HD2 & Hb).
           destruct (divide_ratio M K HM HK HD2) as (p & -> & Hp & Hr2 & Hm2).
           rewrite Hr2 in Hb.
           cbn [subgroup] in HS2; rewrite !assert_Ret in HS2; destruct HS2 as (_ & _ & _ & E).
           assert (HD : documented (Dih (q * (p * K))) (IdD (Some (a + b * q)) K)).
           { split; [lia|]; split; [exists (q * p); ring|].
             replace (q * (p * K)) with ((q * p) * K) by ring.
             rewrite Z.div_mul by lia; nia. }
           destruct (documented_accepted _ _ HG' HD) as (sg & Hsg).
           exists (IdD (Some (a + b * q)) K), sg; split; [|split; [exact HD|split; [exact Hsg|]]].
           ++ unfold combine_subgroups; rewrite HS1'; cbn [bind sg_group sg_incl].
              replace (p * K =? 1) with false by (symmetry; apply Z.eqb_neq; lia).
              rewrite element_member by (apply member_D; nia); cbn [bind].
              rewrite incl_DD by nia; cbn [bind]; do 3 f_equal; lia.
           ++ cbn [subgroup] in Hsg; rewrite !assert_Ret in Hsg.
              destruct Hsg as (_ & _ & _ & E').
              destruct (K =? 1) eqn:EK; injection E as <-; injection E' as <-;
                (split; [reflexivity|]); cbn [sg_group sg_incl].
              ** intros h Hh; apply member_C_inv in Hh as (x & -> & Hx).
                 cbn [flip_to_dn]; destruct (x =? 0) eqn:Ex; cbn [bind].
                 --- rewrite incl_DD by lia; do 2 f_equal; lia.
                 --- rewrite (element_member (Dih (p * K))) by (apply member_D; nia).
                     cbn [bind]; rewrite incl_DD by nia.
                     rewrite element_member by (apply member_D; nia).
                     do 2 f_equal; lia.
              ** intros h Hh; apply member_D_inv in Hh as (f & x & -> & Hf & Hx).
                 rewrite (incl_DD p K) by lia; cbn [bind].
                 rewrite (incl_DD q (p * K)) by nia.
                 replace (q * (p * K)) with ((q * p) * K) by ring.
                 rewrite incl_DD by nia; do 2 f_equal; ring.
        -- destruct HD2 as (HK & HD2).
           destruct (divide_ratio M K HM HK HD2) as (p & -> & Hp & Hr2 & Hm2).
           cbn [subgroup] in HS2; rewrite !assert_Ret in HS2; destruct HS2 as (_ & _ & _ & E).
           injection E as <-; cbn [sg_group sg_incl].
           assert (HD : documented (Dih (q * (p * K))) (IdD None K)).
           { split; [lia|]; exists (q * p); ring. }
           destruct (documented_accepted _ _ HG' HD) as (sg & Hsg).
           exists (IdD None K), sg; split; [|split; [exact HD|split; [exact Hsg|]]].
           ++ unfold combine_subgroups; rewrite HS1'; cbn [bind sg_group sg_incl].
              replace (p * K =? 1) with false by (symmetry; apply Z.eqb_neq; lia).
              reflexivity.
           ++ cbn [subgroup] in Hsg; rewrite !assert_Ret in Hsg.
              destruct Hsg as (_ & _ & _ & E'); injection E' as <-.
              split; [reflexivity|]; cbn [sg_incl].
              intros h Hh; apply member_C_inv in Hh as (x & -> & Hx).
              rewrite (incl_CD p K) by lia; cbn [bind].
              rewrite (incl_DD q (p * K)) by nia.
              replace (q * (p * K)) with ((q * p) * K) by ring.
              rewrite incl_CD by nia; do 2 f_equal; ring.
    + destruct HD1 as (HM & HD1).
      destruct (divide_ratio N M HG HM HD1) as (q & -> & Hq & Hr & Hm).
      pose proof HS1 as HS1'.
      cbn [subgroup] in HS1; rewrite !assert_Ret in HS1; destruct HS1 as (_ & _ & _ & E).
      injection E as <-; cbn [sg_group sg_incl] in *.
      assert (HG' : valid_grp (Dih (q * M)) = true) by (apply valid_D; lia).
      destruct id2 as [K|b K]; [|contradiction]; cbn [documented] in HD2.
      destruct HD2 as [HK HD2].
      destruct (divide_ratio M K HM HK HD2) as (p & -> & Hp & Hr2 & Hm2).
      cbn [subgroup] in HS2; rewrite !assert_Ret in HS2; destruct HS2 as (_ & _ & E).
      injection E as <-; cbn [sg_group sg_incl].
      assert (HD : documented (Dih (q * (p * K))) (IdD None K)).
      { split; [lia|]; exists (q * p); ring. }
      destruct (documented_accepted _ _ HG' HD) as (sg & Hsg).
      exists (IdD None K), sg; split; [|split; [exact HD|split; [exact Hsg|]]].
      * unfold combine_subgroups; rewrite HS1'; reflexivity.
      * cbn [subgroup] in Hsg; rewrite !assert_Ret in Hsg.
        destruct Hsg as (_ & _ & _ & E'); injection E' as <-.
        split; [reflexivity|]; cbn [sg_incl].
        intros h Hh; apply member_C_inv in Hh as (x & -> & Hx).
        rewrite (incl_C p K) by lia; cbn [bind].
        rewrite (incl_CD q (p * K)) by nia.
        replace (q * (p * K)) with ((q * p) * K) by ring.
        rewrite incl_CD by nia; do 2 f_equal; ring.
Qed.

(** ** Which subgroup is returned *)

Theorem subgroup_type_ok : forall G id sg, documented G id ->
  subgroup G id = Ret sg -> sg_group sg = subgroup_type id.
Proof.
  intros [N|N] [M|[a|] M] sg HD HS; cbn [documented] in HD; try contradiction;
    cbn [subgroup] in HS; rewrite !assert_Ret in HS.
  - destruct HS as (_ & _ & E); injection E as <-; reflexivity.
  - destruct HS as (_ & _ & _ & E); cbn [subgroup_type].
    destruct (M =? 1); injection E as <-; reflexivity.
  - destruct HS as (_ & _ & _ & E); injection E as <-; reflexivity.
Qed.

Theorem subgroup_image_ok : forall G id sg g, valid_grp G = true -> documented G id ->
  subgroup G id = Ret sg -> member G g ->
  ((exists h, sg_restr sg g = Ret (Some h)) <-> in_subgroup G id g).
Proof.
  intros G id sg g HG HD HS Hg.
  destruct (subgroup_good G id sg HG HD HS) as (_ & _ & HR).
  destruct (res_total _ _ _ _ HR g Hg) as (o & Ho).
  assert (Hiff : (exists h, sg_restr sg g = Ret (Some h)) <-> o <> None).
  { rewrite Ho; split.
    - intros (h & E) ->; discriminate E.
    - destruct o as [h|]; [eauto|congruence]. }
  rewrite Hiff; clear Hiff HR.
  destruct G as [N|N], id as [M|[a|] M]; cbn [documented] in HD; try contradiction;
    cbn [subgroup] in HS; rewrite !assert_Ret in HS.
  - apply valid_C in HG; destruct HD as [HM HD], HS as (_ & _ & E); injection E as <-.
    destruct (divide_ratio N M HG HM HD) as (q & -> & Hq & Hr & Hm).
    apply member_C_inv in Hg as (r & -> & Hr0); cbn [in_subgroup sg_restr child_c] in *.
    rewrite Hr in *; destruct (r mod q =? 0) eqn:E; cbn [negb] in Ho.
    + apply Z.eqb_eq in E.
      assert (o <> None) by (destruct (element (Cyc M) (VC (r / q))); cbn in Ho; congruence).
      split; [intros _; apply Z.mod_divide; lia|auto].
    + apply Z.eqb_neq in E; injection Ho as <-; split; [congruence|].
      intros H; apply Z.mod_divide in H; lia.
  - apply valid_D in HG; destruct HD as (HM & HD & Ha), HS as (_ & _ & _ & E).
    destruct (divide_ratio N M HG HM HD) as (q & -> & Hq & Hr & Hm).
    apply member_D_inv in Hg as (f & r & -> & Hf & Hr0); cbn [in_subgroup].
    rewrite Hr in *; destruct (M =? 1) eqn:EM; injection E as <-; cbn [sg_restr] in Ho.
    + apply Z.eqb_eq in EM; subst M; cbn [dn_to_flip] in Ho.
      destruct ((f =? 0) && (r =? 0)) eqn:E0; [|destruct ((f =? 1) && (r =? a)) eqn:E1].
      * injection Ho as <-; split; [intros _|congruence].
        assert (f = 0 /\ r = 0) as [-> ->] by lia. exists 0; ring.
      * cbn in Ho; injection Ho as <-; split; [intros _|congruence].
        assert (f = 1 /\ r = a) as [-> ->] by lia. exists 0; ring.
      * injection Ho as <-; split; [congruence|intros [k Hk]].
        assert (k = 0) by nia. subst k. lia.
    + cbn [dn_to_dm] in Ho; rewrite Hr in Ho.
      destruct ((r - f * a) mod q =? 0) eqn:E; cbn [negb] in Ho.
      * apply Z.eqb_eq in E.
        assert (o <> None) by (destruct (element (Dih M) _); cbn in Ho; congruence).
        split; [intros _; apply Z.mod_divide; lia|auto].
      * apply Z.eqb_neq in E; injection Ho as <-; split; [congruence|].
        intros H; apply Z.mod_divide in H; lia.
  - apply valid_D in HG; destruct HD as (HM & HD), HS as (_ & _ & _ & E); injection E as <-.
    destruct (divide_ratio N M HG HM HD) as (q & -> & Hq & Hr & Hm).
    apply member_D_inv in Hg as (f & r & -> & Hf & Hr0); cbn [in_subgroup sg_restr dn_to_cn] in *.
    rewrite Hr in *; destruct ((f =? 0) && (r mod q =? 0)) eqn:E.
    + assert (f = 0 /\ r mod q = 0) as [-> E'] by lia.
      assert (o <> None) by (destruct (element (Cyc M) _); cbn in Ho; congruence).
      split; [intros _; split; [reflexivity|apply Z.mod_divide; lia]|auto].
    + injection Ho as <-; split; [congruence|].
      intros [-> H]; apply Z.mod_divide in H; [|lia]. rewrite H in E; discriminate E.
Qed.

(** ** The statements used by the property file *)

Lemma cyc_full : forall N, 0 < N ->
  is_group (member (Cyc N)) (gmul (Cyc N)) (ginv (Cyc N)) (gid (Cyc N)) /\
  (exists l, elements (Cyc N) = Ret l /\ enumerates (member (Cyc N)) l /\
     order (Cyc N) = Ret N /\ Z.of_nat (length l) = N) /\
  (exists gens, generators (Cyc N) = Ret gens /\ (length gens <= 1)%nat /\
     Forall (member (Cyc N)) gens /\
     forall x, member (Cyc N) x -> generated (gmul (Cyc N)) (gid (Cyc N)) gens x).
Proof.
  intros N HN; assert (HG : valid_grp (Cyc N) = true) by (apply valid_C; lia).
  split; [apply cyc_is_group; lia|]; split.
  - destruct (elements_enumerate _ HG) as (l & E & He & Ho & Hl).
    exists l; rewrite Hl in Ho; auto.
  - destruct (generators_generate _ HG) as (l & E & Hf & Hg).
    exists l; repeat split; auto.
    rewrite generators_C in E by lia; injection E as <-.
    destruct (1 <? N); cbn; lia.
Qed.

Lemma dih_full : forall N, 0 < N ->
  is_group (member (Dih N)) (gmul (Dih N)) (ginv (Dih N)) (gid (Dih N)) /\
  (exists l, elements (Dih N) = Ret l /\ enumerates (member (Dih N)) l /\
     order (Dih N) = Ret (2 * N) /\ Z.of_nat (length l) = 2 * N) /\
  (exists gens, generators (Dih N) = Ret gens /\ Forall (member (Dih N)) gens /\
     forall x, member (Dih N) x -> generated (gmul (Dih N)) (gid (Dih N)) gens x) /\
  (forall a r s t ai,
     member (Dih N) (VD 0 r) -> member (Dih N) (VD 1 a) ->
     gmul (Dih N) (VD 1 a) (VD 0 r) = Ret s -> ginv (Dih N) (VD 1 a) = Ret ai ->
     gmul (Dih N) s ai = Ret t -> ginv (Dih N) (VD 0 r) = Ret t).
Proof.
  intros N HN; assert (HG : valid_grp (Dih N) = true) by (apply valid_D; lia).
  split; [apply dih_is_group; lia|]; split; [|split].
  - destruct (elements_enumerate _ HG) as (l & E & He & Ho & Hl).
    exists l; rewrite Hl in Ho; auto.
  - apply generators_generate, HG.
  - intros a r s t ai; intros; eapply dih_flip_conj; eauto.
Qed.

Lemma cyc_subgroups : forall N M, 0 < N -> 0 < M -> (M | N) ->
  exists sg, subgroup (Cyc N) (IdC M) = Ret sg /\ sg_group sg = Cyc M /\
    is_embedding (member (Cyc N)) (gmul (Cyc N)) (member (Cyc M)) (gmul (Cyc M))
      (sg_incl sg) /\
    is_restriction (member (Cyc N)) (member (Cyc M)) (sg_incl sg) (sg_restr sg) /\
    forall r, 0 <= r < N ->
      ((exists h, sg_restr sg (VC r) = Ret (Some h)) <-> (N / M | r)).
Proof.
  intros N M HN HM Hd; assert (HG : valid_grp (Cyc N) = true) by (apply valid_C; lia).
  assert (HD : documented (Cyc N) (IdC M)) by (split; assumption).
  destruct (documented_accepted _ _ HG HD) as (sg & Hsg); exists sg.
  pose proof (subgroup_type_ok _ _ _ HD Hsg) as Ht; cbn [subgroup_type] in Ht.
  destruct (subgroup_good _ _ _ HG HD Hsg) as (_ & H1 & H2).
  rewrite Ht in H1, H2; do 4 (split; [assumption|]).
  intros r Hr; apply (subgroup_image_ok _ _ _ (VC r) HG HD Hsg), member_C, Hr.
Qed.

Lemma any_is_group : forall G, valid_grp G = true ->
  is_group (member G) (gmul G) (ginv G) (gid G).
Proof.
  intros [N|N] HG; [apply cyc_is_group, valid_C, HG|apply dih_is_group, valid_D, HG].
Qed.

Lemma dih_subgroups : forall N id, 0 < N -> documented (Dih N) id ->
  exists sg, subgroup (Dih N) id = Ret sg /\ sg_group sg = subgroup_type id /\
    is_group (member (sg_group sg)) (gmul (sg_group sg)) (ginv (sg_group sg)) (gid (sg_group sg)) /\
    is_embedding (member (Dih N)) (gmul (Dih N)) (member (sg_group sg)) (gmul (sg_group sg))
      (sg_incl sg) /\
    is_restriction (member (Dih N)) (member (sg_group sg)) (sg_incl sg) (sg_restr sg) /\
    forall g, member (Dih N) g ->
      ((exists h, sg_restr sg g = Ret (Some h)) <-> in_subgroup (Dih N) id g).
Proof.
  intros N id HN HD; assert (HG : valid_grp (Dih N) = true) by (apply valid_D; lia).
  destruct (documented_accepted _ _ HG HD) as (sg & Hsg); exists sg.
  destruct (subgroup_good _ _ _ HG HD Hsg) as (Hv & H1 & H2).
  split; [exact Hsg|]; split; [eapply subgroup_type_ok; eauto|].
  split; [apply any_is_group, Hv|]; split; [exact H1|]; split; [exact H2|].
  intros g Hg; eapply subgroup_image_ok; eauto.
Qed.

Lemma accepted_axis_breaks : forall N M a, 0 < N -> 1 < M -> (M | N) ->
  N / M <= a < N ->
  exists sg, subgroup (Dih N) (IdD (Some a) M) = Ret sg /\ sg_group sg = Dih M /\
    (exists h, member (Dih M) h /\ sg_incl sg h = Raise) /\
    (exists g, member (Dih N) g /\ sg_restr sg g = Raise).
Proof.
  intros N M a HN HM Hd Ha.
  destruct (divide_ratio N M HN ltac:(lia) Hd) as (q & HNq & Hq & Hr & Hm).
  assert (Hsg : exists sg, subgroup (Dih N) (IdD (Some a) M) = Ret sg /\ sg_group sg = Dih M).
  { cbn [subgroup]; rewrite Hm.
    replace (1 <=? M) with true by lia; replace (0 <=? a) with true by lia.
    replace (a <? N) with true by lia; replace (M =? 1) with false by lia.
    eexists; split; reflexivity. }
  destruct Hsg as (sg & Hsg & Ht); exists sg.
  destruct (undocumented_breaks N M a sg HN HM Hsg ltac:(lia)) as [H1 H2].
  rewrite Ht in H1; auto.
Qed.

Lemma usable_iff_documented : forall N M a sg, 0 < N ->
  subgroup (Dih N) (IdD (Some a) M) = Ret sg ->
  ((forall g, member (Dih N) g -> exists o, sg_restr sg g = Ret o) <->
   documented (Dih N) (IdD (Some a) M)).
Proof.
  intros N M a sg HN Hsg; split.
  - intros H.
    pose proof Hsg as Hsg'; cbn [subgroup] in Hsg'; rewrite !assert_Ret in Hsg'.
    destruct Hsg' as (H1 & Hdiv & Ha & _); apply Z.eqb_eq in Hdiv; apply Z.leb_le in H1.
    apply Z.mod_divide in Hdiv; [|lia].
    cbn [documented]; split; [lia|]; split; [exact Hdiv|].
    destruct (Z.eq_dec M 1) as [-> | HM]; [rewrite Z.div_1_r; lia|].
    assert (~ N / M <= a); [|lia].
    intros Hge; destruct (undocumented_breaks N M a sg HN ltac:(lia) Hsg Hge) as (_ & g & Hg & Hr).
    destruct (H g Hg) as (o & Ho); congruence.
  - intros HD; apply res_total with (1 := proj2 (proj2 (subgroup_good _ _ _ (proj2 (valid_D N) HN) HD Hsg))).
Qed.
