(** Where upsampling does not commute with half turns, and examples. *)
From Coq Require Import Reals ZArith Lia Lra Bool List Arith.
From Verif Require Import LibRes LibMat LibList GridModel SpecGrid GridProofs GridThms ImageModel SpecImage ImageProofs MaskThms ShapeModel ShapeThms ConvThms SpecSPool SPoolModel SPoolProofs SPoolThms SPoolBlur ImageEx UpModel SpecUp UpProofs UpThms.
Import ListNotations.
Open Scope R_scope.

(** ** Half turns *)
Lemma turn_signed : forall n, signed_perm n mirror.
Proof. intros n. exists (fun i => i), (fun _ => -1); repeat split; auto. intros i j _ _; unfold mirror; rewrite Nat.eqb_sym; reflexivity. Qed.
Lemma pshape_id : forall n ws, length ws = n -> pshape n (fun i => i) ws = ws.
Proof. intros n ws L. apply (nth_ext _ _ 0%nat 0%nat); [rewrite pshape_length; lia|]. intros a Ha. rewrite pshape_length in Ha. rewrite pshape_nth by exact Ha. reflexivity. Qed.
Lemma turn_does : forall n, does n mirror (fun i => i) (fun _ => true).
Proof.
  intros n. split; [split; auto|]. intros d sh sh' idx idx' L L'. rewrite pshape_id by (rewrite skipn_length; lia). split.
  - split.
    + intros H. apply (nth_ext _ _ 0%nat 0%nat); [rewrite !skipn_length; lia|]. intros a Ha. rewrite skipn_length in Ha. rewrite !nth_skip.
      specialize (H (n - 1 - a)%nat (n - 1 - a)%nat ltac:(lia) ltac:(lia)). unfold mirror, axis in H. rewrite Nat.eqb_refl in H. replace (n - 1 - (n - 1 - a))%nat with a in H by lia. apply H. lra.
    + intros E k j Hk Hj N. unfold mirror in N. destruct (Nat.eqb_spec k j) as [->|]; [|lra]. unfold axis. rewrite <- !nth_skip, E. reflexivity.
  - intros Esh V V'. apply valid_nth in V as (Li & V). apply valid_nth in V' as (Li' & V').
    assert (Key : forall k, (k < n)%nat -> (coord d n sh' idx' k = sumn n (fun j => mirror k j * coord d n sh idx j) <-> nth (d + (n - 1 - k)) idx' 0%nat = (nth (d + (n - 1 - k)) sh 0 - 1 - nth (d + (n - 1 - k)) idx 0)%nat)).
    { intros k Hk. rewrite (sumn_single n k); [|exact Hk|intros j _ N; unfold mirror; rewrite (proj2 (Nat.eqb_neq k j)) by auto; ring]. unfold mirror, coord, axis. rewrite Nat.eqb_refl.
      assert (Ez : nth (d + (n - 1 - k)) sh' 0%nat = nth (d + (n - 1 - k)) sh 0%nat) by (rewrite <- !nth_skip, Esh; reflexivity).
      pose proof (V (d + (n - 1 - k))%nat ltac:(lia)) as H1. pose proof (V' (d + (n - 1 - k))%nat ltac:(lia)) as H2. rewrite Ez in *.
      set (w := nth (d + (n - 1 - k)) sh 0%nat) in *. set (i := nth (d + (n - 1 - k)) idx 0%nat) in *. set (i' := nth (d + (n - 1 - k)) idx' 0%nat) in *. rewrite (eq_sym Ez) in *. clear Ez.
      split; intros E.
      - apply INR_eq. rewrite !minus_INR by lia. cbn [INR]. destruct (Nat.eqb k 0); lra.
      - rewrite E, !minus_INR by lia. cbn [INR]. destruct (Nat.eqb k 0); lra. }
    split.
    + intros (F & C). split; [exact F|]. apply (nth_ext _ _ 0%nat 0%nat); [rewrite skipn_length, act_length; lia|]. intros a Ha. rewrite skipn_length in Ha. rewrite act_nth, !nth_skip by lia.
      specialize (proj1 (Key (n - 1 - a)%nat ltac:(lia)) (C (n - 1 - a)%nat ltac:(lia))). replace (n - 1 - (n - 1 - a))%nat with a by lia. auto.
    + intros (F & E). split; [exact F|]. intros k Hk. apply (Key k Hk). pose proof (f_equal (fun l => nth (n - 1 - k) l 0%nat) E) as G. cbv beta in G. rewrite act_nth, !nth_skip in G by lia. exact G.
Qed.

(** ** Ramps *)
(** [F] takes images of [w * w] pixels to images of [o * o] and reads ramps at [p] along
    the diagonal: if these places are not symmetric, [F] does not commute with the half
    turn. *)
Definition ramp_of (w : nat) : array R := {| shape := [1; 1; w; w]%nat; entry := fun idx => INR (nth 2 idx 0%nat) |}.
Lemma skewed : forall half, half 0 = 0 -> half 1 = 1 -> half (-1) = -1 -> forall affine (F : array R -> res (array R)) w o (p : nat -> R),
  (forall x a k, shape x = [1; 1; w; w]%nat -> (forall i j, (i < w)%nat -> (j < w)%nat -> entry x [0; 0; i; j]%nat = a + k * INR i) ->
     exists y, F x = Ret y /\ shape y = [1; 1; o; o]%nat /\ forall i, (i < o)%nat -> entry y [0; 0; i; i]%nat = a + k * p i) ->
  forall i, (i < o)%nat -> p (o - 1 - i)%nat + p i <> INR w - 1 ->
  exists y x' y' z, F (ramp_of w) = Ret y /\ transform half affine 1 mid 2 mirror (ramp_of w) = Ret x' /\ F x' = Ret y' /\ transform half affine 1 mid 2 mirror y = Ret z /\ ~ same_array y' z.
Proof.
  intros half H0 H1 Hm affine F w o p HF i Hi N.
  destruct (HF (ramp_of w) 0 1 eq_refl) as (y & Ey & Sy & Vy); [intros; cbn; ring|].
  pose proof (proj1 (turn_does 2)) as P.
  destruct (turned_transform 1 mid 2 _ _ 1 P half H0 H1 Hm affine mirror [w; w] (ramp_of w) (turn_signed 2) (turn_does 2) eq_refl eq_refl) as (x' & Ex & (_ & Sx' & Vx') & _).
  destruct (turned_transform 1 mid 2 _ _ 1 P half H0 H1 Hm affine mirror [o; o] y (turn_signed 2) (turn_does 2) eq_refl Sy) as (z & Ez & (_ & Sz & Vz) & _).
  rewrite pshape_id in Sx', Sz by reflexivity.
  destruct (HF x' (INR w - 1) (-1) Sx') as (y' & Ey' & Sy' & Vy').
  { intros a b Ha Hb. specialize (Vx' 0%nat 0%nat [w - 1 - a; w - 1 - b]%nat ltac:(lia) ltac:(lia) ltac:(repeat constructor; lia)). unfold act in Vx'. cbn [seq map nth] in Vx'.
    replace (w - 1 - (w - 1 - a))%nat with a in Vx' by lia. replace (w - 1 - (w - 1 - b))%nat with b in Vx' by lia. rewrite Vx'. cbn [sumn mid Nat.eqb ramp_of entry nth]. unfold mid. cbn [Nat.eqb]. rewrite rev_INR by exact Ha. ring. }
  exists y, x', y', z. split; [exact Ey|]. split; [exact Ex|]. split; [exact Ey'|]. split; [exact Ez|]. intros (_ & Q). specialize (Q [0; 0; i; i]%nat). rewrite Sy' in Q. specialize (Q ltac:(repeat constructor; lia)).
  rewrite (Vy' i Hi) in Q. specialize (Vz 0%nat 0%nat [o - 1 - i; o - 1 - i]%nat ltac:(lia) ltac:(lia) ltac:(repeat constructor; lia)). unfold act in Vz. cbn [seq map nth] in Vz.
  replace (o - 1 - (o - 1 - i))%nat with i in Vz by lia. rewrite Vz in Q. cbn [sumn] in Q. unfold mid in Q. cbn [Nat.eqb] in Q. rewrite Vy in Q by lia. apply N. lra.
Qed.
Definition read_at (u : upsampling) (w o i : nat) : R := rsum (map (fun wi => fst wi * INR (snd wi)) (axis_sources (u_mode u) (u_scale u) w o i)).
Lemma total_one : forall mode scale w o i, rsum (map (fun wi => fst wi * 1) (axis_sources mode scale w o i)) = 1.
Proof. intros mode scale w o i. destruct mode as [|align]; unfold axis_sources; cbv zeta; [|destruct (Nat.eqb o w)]; unfold rsum; cbn [map fold_right fst snd]; ring. Qed.
Lemma skewed_up : forall half, half 0 = 0 -> half 1 = 1 -> half (-1) = -1 -> forall affine u w o, u_d u = 2%nat -> u_channels u = 1%nat -> (0 < w)%nat -> (0 < o)%nat -> upsized (u_size u) (u_scale u) [w; w] [o; o] ->
  forall i, (i < o)%nat -> read_at u w o (o - 1 - i)%nat + read_at u w o i <> INR w - 1 ->
  exists y x' y' z, up_forward u (ramp_of w) = Ret y /\ transform half affine 1 mid 2 mirror (ramp_of w) = Ret x' /\ up_forward u x' = Ret y' /\ transform half affine 1 mid 2 mirror y = Ret z /\ ~ same_array y' z.
Proof.
  intros half H0 H1 Hm affine u w o Ed Ec Hw Ho U. apply (skewed half H0 H1 Hm affine (up_forward u) w o (read_at u w o)). intros x a k Sx Vx.
  assert (Fo : Forall (fun t => 0 < t)%nat [o; o]) by (repeat constructor; exact Ho). assert (Fw : Forall (fun t => 0 < t)%nat [w; w]) by (repeat constructor; exact Hw).
  destruct (proj2 (up_returns u x)) as (y & H); [exists 1%nat, [w; w], [o; o]; rewrite Ec, Ed; repeat split; auto|]. exists y. split; [exact H|].
  destruct (up_inv u x y H) as (B & ws & os & Ex & Lw & Lo & _ & _ & Fo' & U' & Sy & V). rewrite Sx in Ex. injection Ex as <- _ <-.
  assert (os = [o; o]) as ->.
  { apply up_sizes_ok in U; [|reflexivity|exact Fo]. apply up_sizes_ok in U'; [|cbn; lia|exact Fo']. rewrite U' in U. apply Ret_inj in U. apply (f_equal (map Z.to_nat)) in U.
    rewrite !map_map, !(map_ext (fun x => Z.to_nat (Z.of_nat x)) (fun t => t)), !map_id in U by apply Nat2Z.id. exact U. }
  rewrite Ec in Sy. split; [exact Sy|]. intros i Hi. rewrite (V 0%nat 0%nat [i; i]) by (repeat constructor; exact Hi). set (W := weight (u_mode u) (u_scale u)).
  transitivity (rsum (map (fun q => over_axes W [w; w] [o; o] [i; i] q * (fun q => a + k * INR (nth 0 q 0%nat)) q) (all_indices [w; w]))).
  { apply rsum_ext. intros q Hq. f_equal. apply all_indices_In in Hq. inversion Hq as [|q0 ? t ? Q0 Hq1]; subst. inversion Hq1 as [|q1 ? t1 ? Q1 Hq2]; subst. inversion Hq2; subst. cbn [nth]. apply Vx; assumption. }
  unfold W. rewrite <- (sources_sum (u_mode u) (u_scale u) [w; w] [o; o] [i; i] (fun q => a + k * INR (nth 0 q 0%nat)) eq_refl) by (repeat constructor; assumption).
  unfold all_axes. cbn [combine map fst snd]. unfold read_at. pose proof (total_one (u_mode u) (u_scale u) w o i) as T. set (S := axis_sources (u_mode u) (u_scale u) w o i) in *. clearbody S.
  cbn [sources]. rewrite rsum_flat_map. cbn [map app].
  assert (I : forall wi, rsum (map (fun wq => fst wq * (a + k * INR (nth 0 (snd wq) 0%nat))) (map (fun wq => (fst wi * fst wq, snd wi :: snd wq)) (flat_map (fun wj => [(fst wj * 1, [snd wj])]) S))) = fst wi * (a + k * INR (snd wi))).
  { intros wi. rewrite map_map. cbn [fst snd nth]. transitivity (fst wi * (a + k * INR (snd wi)) * rsum (map (fun wj => fst wj * 1) S)); [|rewrite T; ring]. rewrite <- rsum_scal. clear T. induction S as [|wj S IH]; [reflexivity|]. unfold rsum in *. cbn [flat_map map app fold_right fst snd]. rewrite IH. ring. }
  rewrite (rsum_ext _ _ (fun wi => a * (fst wi * 1) + k * (fst wi * INR (snd wi)))); [|intros wi _; rewrite I; ring].
  transitivity (a * rsum (map (fun wi => fst wi * 1) S) + k * rsum (map (fun wi => fst wi * INR (snd wi)) S)); [|rewrite T; ring]. clear. induction S as [|s S IH]; unfold rsum in *; cbn [map fold_right]; [ring|]. rewrite IH. ring.
Qed.

(** ** The modes *)
Definition sized (mode : up_mode) (o : nat) : upsampling := {| u_d := 2; u_channels := 1; u_size := Some [o; o]; u_scale := None; u_mode := mode |}.
Definition scaled (mode : up_mode) (s : R) : upsampling := {| u_d := 2; u_channels := 1; u_size := None; u_scale := Some s; u_mode := mode |}.
(** nearest, unless the sizes are multiples *)
Theorem nearest_skewed : forall half, half 0 = 0 -> half 1 = 1 -> half (-1) = -1 -> forall affine w o, (0 < w)%nat -> (0 < o)%nat -> ~ Nat.divide w o ->
  mk_upsampling 2 1 None (Some (inl o)) Nearest = Ret (sized Nearest o) /\
  exists y x' y' z, up_forward (sized Nearest o) (ramp_of w) = Ret y /\ transform half affine 1 mid 2 mirror (ramp_of w) = Ret x' /\ up_forward (sized Nearest o) x' = Ret y' /\
    transform half affine 1 mid 2 mirror y = Ret z /\ ~ same_array y' z.
Proof.
  intros half H0 H1 Hm affine w o Hw Ho N. split; [reflexivity|].
  assert (G : exists i, (i < o)%nat /\ ((o - 1 - i) * w / o + i * w / o <> w - 1)%nat).
  { destruct (Nat.lt_ge_cases o w) as [L|L].
    - exists 0%nat. split; [exact Ho|]. cbn [Nat.mul]. rewrite Nat.div_0_l, Nat.sub_0_r, Nat.add_0_r by lia. intros E. pose proof (Nat.mul_div_le ((o - 1) * w) o ltac:(lia)) as Q. rewrite E in Q. nia.
    - pose proof (Nat.div_mod o w ltac:(lia)) as E. pose proof (Nat.mod_upper_bound o w ltac:(lia)) as B. assert (D : (o mod w <> 0)%nat) by (intros Z; apply N; exists (o / w)%nat; lia).
      assert (1 < w)%nat by (destruct w as [|[|w]]; [lia|exfalso; apply N; exists o; lia|lia]). exists (o / w)%nat. split; [apply Nat.div_lt; lia|]. set (q := (o / w)%nat) in *.
      rewrite (Nat.div_small (q * w) o) by nia. intros E'. assert ((o - 1 - q) * w / o < w - 1)%nat; [|lia]. apply Nat.div_lt_upper_bound; nia. }
  destruct G as (i & Hi & G). apply (skewed_up half H0 H1 Hm affine (sized Nearest o) w o eq_refl eq_refl Hw Ho) with (i := i); [left; split; reflexivity|exact Hi|].
  assert (Rd : forall i, (i < o)%nat -> read_at (sized Nearest o) w o i = INR (i * w / o)).
  { intros j Hj. rewrite <- (nearest_div None w o j Hw Hj I). unfold read_at, rsum, axis_sources, nearest_index. cbn [u_mode u_scale sized map fold_right fst snd]. ring. }
  rewrite !Rd by lia. rewrite <- plus_INR. intros E. apply G. apply INR_eq. rewrite E, minus_INR by lia. reflexivity.
Qed.
(** align_corners with one output pixel *)
Theorem corner_skewed : forall half, half 0 = 0 -> half 1 = 1 -> half (-1) = -1 -> forall affine w, (1 < w)%nat ->
  mk_upsampling 2 1 None (Some (inl 1%nat)) (Linear true) = Ret (sized (Linear true) 1) /\
  exists y x' y' z, up_forward (sized (Linear true) 1) (ramp_of w) = Ret y /\ transform half affine 1 mid 2 mirror (ramp_of w) = Ret x' /\ up_forward (sized (Linear true) 1) x' = Ret y' /\
    transform half affine 1 mid 2 mirror y = Ret z /\ ~ same_array y' z.
Proof.
  intros half H0 H1 Hm affine w Hw. split; [reflexivity|]. apply (skewed_up half H0 H1 Hm affine (sized (Linear true) 1) w 1 eq_refl eq_refl) with (i := 0%nat); [lia|lia|left; split; reflexivity|lia|].
  assert (E : read_at (sized (Linear true) 1) w 1 0 = 0).
  { unfold read_at. rewrite (axis_weight (u_mode (sized (Linear true) 1)) (u_scale (sized (Linear true) 1)) w 1 0 INR) by lia. cbn [u_mode u_scale sized]. rewrite (sumn_single w 0); [cbn [INR]; ring|lia|].
    intros q Hq N. unfold weight. destruct (Nat.eqb_spec 1 w); [lia|]. unfold source_index. cbn [Nat.ltb Nat.leb INR]. apply (lt_INR 1 w) in Hw. cbn [INR] in Hw. rewrite Rmin_left by lra. rewrite tent_far; [ring|].
    assert (1 <= q)%nat as Q by lia. apply le_INR in Q. cbn [INR] in Q. replace (0 * 0 - INR q) with (- INR q) by ring. rewrite Rabs_Ropp, Rabs_right; lra. }
  cbn [Nat.sub]. rewrite E. apply (lt_INR 1 w) in Hw. cbn [INR] in Hw. lra.
Qed.
(** a scale that does not take the size to an integer: 3 pixels to 4 by 3 / 2 *)
Theorem scale_skewed : forall half, half 0 = 0 -> half 1 = 1 -> half (-1) = -1 -> forall affine,
  mk_upsampling 2 1 (Some (3 / 2)) None (Linear false) = Ret (scaled (Linear false) (3 / 2)) /\
  exists y x' y' z, up_forward (scaled (Linear false) (3 / 2)) (ramp_of 3) = Ret y /\ shape y = [1; 1; 4; 4]%nat /\ transform half affine 1 mid 2 mirror (ramp_of 3) = Ret x' /\ up_forward (scaled (Linear false) (3 / 2)) x' = Ret y' /\
    transform half affine 1 mid 2 mirror y = Ret z /\ ~ same_array y' z.
Proof.
  intros half H0 H1 Hm affine. split; [reflexivity|].
  assert (U : upsized None (Some (3 / 2)) [3; 3]%nat [4; 4]%nat) by (right; split; [reflexivity|]; exists (3 / 2); split; [reflexivity|]; repeat constructor; cbn [INR]; lra).
  destruct (skewed_up half H0 H1 Hm affine (scaled (Linear false) (3 / 2)) 3 4 eq_refl eq_refl) with (i := 0%nat) as (y & x' & y' & z & Q1 & Q2); [lia|lia|exact U|lia| |].
  - assert (E : forall i r, (i < 4)%nat -> (if Rlt_dec (1 / (3 / 2) * (INR i + 1 / 2) - 1 / 2) 0 then 0 else 1 / (3 / 2) * (INR i + 1 / 2) - 1 / 2) = r -> 0 <= r <= 2 -> read_at (scaled (Linear false) (3 / 2)) 3 4 i = tent (r - 1) + 2 * tent (r - 2)).
    { intros i r Hi Er Hr. unfold read_at. rewrite (axis_weight (u_mode (scaled (Linear false) (3 / 2))) (u_scale (scaled (Linear false) (3 / 2))) 3 4 i INR) by lia. cbn [u_mode u_scale scaled sumn]. unfold weight. cbn [Nat.eqb]. unfold source_index, up_step. destruct (Rlt_dec 0 (3 / 2)); [|lra]. rewrite Er. cbn [INR]. rewrite Rmin_left by lra. replace (1 + 1 + 1 - 1) with 2 by ring. replace (1 + 1) with 2 by ring. ring. }
    rewrite (E 0%nat 0), (E (4 - 1 - 0)%nat (11 / 6)); [|lia| |lra|lia| |lra].
    + rewrite (tent_far (0 - 1)), (tent_far (0 - 2)) by (rewrite Rabs_left; lra). unfold tent. rewrite (Rabs_right (11 / 6 - 1)), (Rabs_left (11 / 6 - 2)) by lra. rewrite !Rmax_right by lra. cbn [INR]. lra.
    + cbn [Nat.sub INR]. destruct (Rlt_dec _ 0); lra.
    + cbn [INR]. destruct (Rlt_dec _ 0); lra.
  - exists y, x', y', z. split; [exact Q1|]. split; [|exact Q2]. destruct (up_inv _ _ _ Q1) as (B & ws & os & Ex & Lw & Lo & _ & _ & Fo' & U' & Sy & _). cbn in Ex. injection Ex as <- <-.
    rewrite Sy. cbn [u_channels scaled]. do 2 f_equal. apply up_sizes_ok in U; [|reflexivity|repeat constructor; lia]. apply up_sizes_ok in U'; [|exact Lo|exact Fo']. cbn [u_size u_scale scaled] in U'. rewrite U' in U. apply Ret_inj in U. apply (f_equal (map Z.to_nat)) in U.
    rewrite !map_map, !(map_ext (fun x => Z.to_nat (Z.of_nat x)) (fun t => t)), !map_id in U by apply Nat2Z.id. exact U.
Qed.

(** ** Examples *)
Definition image46 : array R := {| shape := [2; 3; 4; 6]%nat; entry := fun idx => INR (nth 3 idx 0%nat) - INR (nth 1 idx 0%nat) |}.
Lemma up_example : exists u v w, mk_upsampling 2 3 (Some 2) None (Linear false) = Ret u /\ mk_upsampling 2 3 (Some (3 / 2)) None Nearest = Ret v /\ mk_upsampling 2 3 None (Some (inl 7%nat)) (Linear true) = Ret w /\
  signed_perm 2 quarter /\ whole (u_scale u) [4; 6]%nat /\ whole (u_scale v) [4; 6]%nat /\
  (exists y, up_forward u image46 = Ret y /\ shape y = [2; 3; 8; 12]%nat) /\ (exists y, up_forward v image46 = Ret y /\ shape y = [2; 3; 6; 9]%nat) /\ (exists y, up_forward w image46 = Ret y /\ shape y = [2; 3; 7; 7]%nat).
Proof.
  eexists _, _, _. split; [reflexivity|]. split; [reflexivity|]. split; [reflexivity|]. split; [apply quarter_signed|]. cbn [u_scale].
  assert (G : forall u os, u_d u = 2%nat -> u_channels u = 3%nat -> length os = 2%nat -> Forall (fun o => 0 < o)%nat os -> upsized (u_size u) (u_scale u) [4; 6]%nat os -> exists y, up_forward u image46 = Ret y /\ shape y = 2%nat :: 3%nat :: os).
  { intros u os Ed Ec Lo Fo U. destruct (proj2 (up_returns u image46)) as (y & H); [exists 2%nat, [4; 6]%nat, os; rewrite Ed, Ec; split; [reflexivity|split; [reflexivity|split; [exact Lo|split; [lia|split; [repeat constructor; lia|split; [exact Fo|exact U]]]]]]|].
    exists y. split; [exact H|]. destruct (up_inv u image46 y H) as (B & ws & os' & Ex & Lw & Lo' & _ & _ & Fo' & U' & Sy & _). cbn in Ex. injection Ex as <- _ <-. rewrite Sy, Ec. do 2 f_equal.
    apply up_sizes_ok in U; [|rewrite Lo; reflexivity|exact Fo]. apply up_sizes_ok in U'; [|rewrite Lo', Ed; reflexivity|exact Fo']. rewrite U' in U. apply Ret_inj in U. apply (f_equal (map Z.to_nat)) in U.
    rewrite !map_map, !(map_ext (fun x => Z.to_nat (Z.of_nat x)) (fun t => t)), !map_id in U by apply Nat2Z.id. exact U. }
  split; [|split; [|split; [|split]]].
  - intros s E. injection E as <-. constructor; [exists 8%nat; cbn [INR]; lra|constructor; [exists 12%nat; cbn [INR]; lra|constructor]].
  - intros s E. injection E as <-. constructor; [exists 6%nat; cbn [INR]; lra|constructor; [exists 9%nat; cbn [INR]; lra|constructor]].
  - apply G; [reflexivity|reflexivity|reflexivity|repeat constructor; lia|]. right. split; [reflexivity|]. exists 2. split; [reflexivity|]. repeat constructor; cbn [INR]; lra.
  - apply G; [reflexivity|reflexivity|reflexivity|repeat constructor; lia|]. right. split; [reflexivity|]. exists (3 / 2). split; [reflexivity|]. repeat constructor; cbn [INR]; lra.
  - apply G; [reflexivity|reflexivity|reflexivity|repeat constructor; lia|]. left. split; reflexivity.
Qed.
