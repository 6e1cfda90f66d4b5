(** The regular representation of C_N and D_N. *)
From Coq Require Import Reals ZArith Bool List Lia Lra.
From Verif Require Import LibRes LibList LibMat LibMatS LibTrig SpecGroup FinGroupModel SpecFinGroup FinGroupProofs
  ParamModel ParamProofs PlanarModel SpecPlanar PlanarProofs IrrepModel SpecRep SpecIrrep IrrepProofs IrrepThms ExhaustProofs
  RepModel SpecRepr RepProofs RepThms RegModel SpecReg RegProofs.
Import ListNotations.
Open Scope R_scope.

Lemma pmul_fin : forall G v w, pmul (Fin G) (VF v) (VF w) = (x <- gmul G v w ;; Ret (VF x)).
Proof. intros G v w; unfold pmul, pcombine, gmul; destruct (combine G v w); reflexivity. Qed.

Lemma pinv_fin : forall G v, pinv (Fin G) (VF v) = (x <- ginv G v ;; Ret (VF x)).
Proof. intros G v; unfold pinv, pinverse, ginv; destruct (inverse G v); reflexivity. Qed.

Lemma fin_group : forall G, valid_grp G = true -> is_group (member G) (gmul G) (ginv G) (gid G).
Proof. intros [N|N] H; [apply cyc_is_group, valid_C, H|apply dih_is_group, valid_D, H]. Qed.

Lemma pfin_group : forall G, valid_grp G = true -> is_group (pmember (Fin G)) (pmul (Fin G)) (pinv (Fin G)) (pid (Fin G)).
Proof.
  intros G H; pose proof (fin_group G H) as [A B C D E F I J]; split.
  - exact A.
  - intros [x| |] [y| |] Hx Hy; try contradiction; rewrite pmul_fin; destruct (B x y Hx Hy) as (z & -> & M); exists (VF z); split; [reflexivity|exact M].
  - intros [x| |] Hx; try contradiction; rewrite pinv_fin; destruct (C x Hx) as (z & -> & M); exists (VF z); split; [reflexivity|exact M].
  - intros [x| |] [y| |] [z| |] xy yz Hx Hy Hz; try contradiction; rewrite !pmul_fin; intros E1 E2.
    apply bind_Ret in E1 as (a & E1 & X); apply Ret_inj in X; subst xy.
    apply bind_Ret in E2 as (b & E2 & X); apply Ret_inj in X; subst yz.
    rewrite !pmul_fin, (D x y z a b Hx Hy Hz E1 E2); reflexivity.
  - intros [x| |] Hx; try contradiction; cbn [pid]; rewrite pmul_fin, (E x Hx); reflexivity.
  - intros [x| |] Hx; try contradiction; cbn [pid]; rewrite pmul_fin, (F x Hx); reflexivity.
  - intros [x| |] i Hx; try contradiction; rewrite pinv_fin; intros X; apply bind_Ret in X as (k & Ek & X); apply Ret_inj in X; subst i.
    rewrite pmul_fin, (I x k Hx Ek); reflexivity.
  - intros [x| |] i Hx; try contradiction; rewrite pinv_fin; intros X; apply bind_Ret in X as (k & Ek & X); apply Ret_inj in X; subst i.
    rewrite pmul_fin, (J x k Hx Ek); reflexivity.
Qed.

Lemma fin_enum : forall G l, enumerates (member G) l -> enumerates (pmember (Fin G)) (map VF l).
Proof.
  intros G l [N I]; split; [apply NoDup_map_inj_in; [intros a b _ _ E; injection E as ->; reflexivity|exact N]|].
  intros x; rewrite in_map_iff; split.
  - intros (v & <- & Hv); apply I; exact Hv.
  - destruct x as [v| |]; try contradiction; intros Hv; exists v; split; [reflexivity|apply I; exact Hv].
Qed.

Lemma peqb_decides : forall G, decides (pmember (Fin G)) (peqb G).
Proof. intros G x y Hx Hy; unfold peqb; destruct (pequal_fin G x y Hx Hy) as (b & -> & H); exact H. Qed.

Lemma built_typed : forall G id, valid_grp G = true -> irrep_ok (Fin G) id -> exists r, p_irr (Fin G) id = Ret r /\
  gi_id r = id /\ typed_irrep (pmember (Fin G)) (pmul (Fin G)) (pinv (Fin G)) (pid (Fin G)) r.
Proof.
  intros G id HG Hid; destruct (p_irrep_kind (Fin G) id HG Hid) as (r & E & A); exists (girrep_of r).
  unfold p_irr; rewrite E; split; [reflexivity|split; [apply A|]].
  destruct (kind_orth_rep (Fin G) id r _ HG A) as [O C].
  pose proof (ir_size_pos (Fin G) id r HG Hid E) as P.
  destruct A as (K & _ & Es & _ & Ec & _ & Hr).
  unfold typed_irrep; cbn [girrep_of gi_size gi_sosc gi_rep gi_char]; repeat split; try assumption; try apply O; try exact C.
  - unfold ir_sosc; destruct (ir_complex r); lia.
  - unfold ir_sosc; rewrite Ec, Es; destruct G as [N|N], (irrep_kind _ id); cbn; try (exists 1%nat; reflexivity); exists 2%nat; reflexivity.
  - intros g B Hg EB; destruct (Hr g Hg) as (B' & EB' & M & _).
    rewrite EB in EB'; apply Ret_inj in EB'; injection EB' as _ <-.
    unfold ir_sosc; rewrite Ec, Es; destruct G as [N|N], (irrep_kind _ id) as [s k|k]; cbn -[INR] in *; unfold trace; cbn; try ring.
    rewrite (M 0%nat 0%nat), (M 1%nat 1%nat) by lia.
    destruct g as [[a|f a]| |]; cbn in Hg; try contradiction; cbn; unfold rsign; cbn; ring.
Qed.

Lemma mapM_typed : forall G ids, valid_grp G = true -> Forall (irrep_ok (Fin G)) ids -> exists ss,
  mapM (p_irr (Fin G)) ids = Ret ss /\ Forall (fun s => p_irr (Fin G) (gi_id s) = Ret s) ss /\
  Forall (typed_irrep (pmember (Fin G)) (pmul (Fin G)) (pinv (Fin G)) (pid (Fin G))) ss /\
  map gi_id ss = ids.
Proof.
  intros G ids HG; induction 1 as [|id ids Hid _ (ss & E & I & H & M)]; [exists []; repeat split; constructor|].
  destruct (built_typed G id HG Hid) as (r & Er & Ir & Hr); exists (r :: ss); cbn [mapM map]; rewrite Er; cbn [bind]; rewrite E; cbn [bind].
  repeat split; [|constructor; assumption|rewrite Ir, M; reflexivity].
  constructor; [rewrite Ir; exact Er|exact I].
Qed.

Lemma mapM_char_irr : forall G g ids ss, mapM (p_irr (Fin G)) ids = Ret ss ->
  mapM (fun id => r <- p_irrep (Fin G) id ;; c <- ir_char r g ;; Ret (INR (ir_size r / ir_sosc r) * c)) ids =
  mapM (fun s => c <- gi_char s g ;; Ret (INR (gi_size s / gi_sosc s) * c)) ss.
Proof.
  intros G g; induction ids as [|id ids IH]; intros ss E; cbn [mapM] in E; [apply Ret_inj in E; subst; reflexivity|].
  apply bind_Ret in E as (s & Es & E); apply bind_Ret in E as (t & Et & E); apply Ret_inj in E; subst ss.
  cbn [mapM]; rewrite (IH t Et); unfold p_irr in Es; apply bind_Ret in Es as (r & Er & Es); apply Ret_inj in Es; subst s.
  rewrite Er; reflexivity.
Qed.

Lemma built_trivial : forall G, valid_grp G = true -> exists id s, In id (built_irreps G) /\ p_irr (Fin G) id = Ret s /\
  gi_size s = 1%nat /\ gi_sosc s = 1%nat /\ forall g A, pmember (Fin G) g -> gi_rep s g = Ret (1%nat, A) -> A 0%nat 0%nat = 1.
Proof.
  intros G HG.
  set (id := match G with Cyc _ => [0%Z] | Dih _ => [0%Z; 0%Z] end).
  assert (Hid : irrep_ok (Fin G) id) by (destruct G as [N|N]; apply Z.ltb_lt in HG; cbn; lia).
  destruct (p_irrep_kind (Fin G) id HG Hid) as (r & E & K & _ & Es & _ & Ec & _ & Hr).
  exists id, (girrep_of r); split; [apply built_irreps_exact; assumption|].
  unfold p_irr; rewrite E; split; [reflexivity|]; cbn [girrep_of gi_size gi_sosc gi_rep].
  assert (Ek : irrep_kind (Fin G) id = K1 0 0) by (destruct G; reflexivity).
  rewrite Ek in *; cbn [kdim] in *; split; [exact Es|split; [unfold ir_sosc; rewrite Ec; destruct G; reflexivity|]].
  intros g A Hg EA; destruct (Hr g Hg) as (A' & EA' & M & _); rewrite EA in EA'; apply Ret_inj in EA'; injection EA' as <-.
  rewrite (M 0%nat 0%nat) by lia; cbn; unfold rsign; cbn; rewrite Rmult_0_l, cos_0; unfold mat1; ring.
Qed.

Theorem regular_planar : forall G linv, valid_grp G = true -> correct_inverse linv -> exists l r,
  elements G = Ret l /\ enumerates (member G) l /\
  regular_representation (peqb G) (pmul (Fin G)) (pinv (Fin G)) (map VF l) (p_irr (Fin G)) linv (built_irreps G) = Ret r /\
  r_size r = length l /\ proper (p_irr (Fin G)) (pmember (Fin G)) (pmul (Fin G)) (pid (Fin G)) r /\
  forall g, pmember (Fin G) g -> exists A, r_fun r g = Ret (length l, A) /\ permutes (pmul (Fin G)) (map VF l) g A.
Proof.
  intros G linv HG Hi; destruct (elements_enumerate G HG) as (l & El & Hl & Eo & _); exists l.
  destruct (mapM_typed G (built_irreps G) HG) as (ss & Es & Hirr & Hty & Hm).
  { apply Forall_forall; intros id; apply built_irreps_exact; exact HG. }
  destruct (regular_ok (pmember (Fin G)) (pmul (Fin G)) (pinv (Fin G)) (pid (Fin G)) (peqb G) (map VF l) (p_irr (Fin G)) linv
    (built_irreps G) ss (pfin_group G HG) (fin_enum G l Hl) (peqb_decides G) Hi Es Hirr Hty) as (r & Er & Sr & Pr & _ & Hr).
  - intros g Hg; destruct (regular_character G g HG Hg) as (cs & n & En & Ec & C1 & C0).
    rewrite (mapM_char_irr G g _ _ Es) in Ec; exists cs; split; [exact Ec|split; [|exact C0]].
    intros X; rewrite (C1 X), map_length, INR_IZR_INZ; rewrite En in Eo; apply Ret_inj in Eo; subst n; reflexivity.
  - destruct (built_trivial G HG) as (id & s & Ii & E & S1 & S2 & H); exists s; repeat split; auto.
    apply mapM_Ret_inv in Es; clear - Es Ii E; induction Es as [|x y l l' Exy _ IH]; [contradiction|].
    destruct Ii as [->|Ii]; [left; rewrite E in Exy; apply Ret_inj in Exy; symmetry; exact Exy|right; exact (IH Ii)].
  - rewrite map_length in *; exists r; split; [exact El|split; [exact Hl|split; [exact Er|split; [exact Sr|split; [exact Pr|exact Hr]]]]].
Qed.

Theorem same_coset_iff : forall T S (mem : T -> Prop) op inv e (memH : S -> Prop) opH incl,
  is_group mem op inv e -> is_embedding mem op memH opH incl ->
  forall restr, is_restriction mem memH incl restr -> forall g1 g2, mem g1 -> mem g2 ->
  exists b, same_coset op inv restr g1 g2 = Ret b /\
    (b = true <-> exists h g, memH h /\ incl h = Ret g /\ op g1 g = Ret g2).
Proof. intros; eapply same_coset_ok; eassumption. Qed.
