From Coq Require Import List Ascii String Bool ZArith Lia.
From Verif Require Import LibRes NestModel SpecNest.
Import ListNotations.
Open Scope list_scope.

Lemma str_eqb_eq : forall a b, str_eqb a b = true <-> a = b.
Proof. intros a b; unfold str_eqb; destruct (list_eq_dec ascii_dec a b); split; congruence. Qed.

Lemma after_sep_Some : forall t r, after_sep t = Some r <-> t = sep ++ r.
Proof.
  intros t r; unfold after_sep; destruct t as [|a [|b [|c t]]]; try (split; [discriminate|intros E; discriminate E]).
  destruct (str_eqb [a; b; c] sep) eqn:E.
  - apply str_eqb_eq in E; split.
    + intros X; injection X as <-; change (a :: b :: c :: t) with ([a; b; c] ++ t).
      rewrite E; reflexivity.
    + intros X; injection X as -> -> -> ->; reflexivity.
  - split; [discriminate|]; intros X; injection X as -> -> -> ->.
    assert (Y : str_eqb sep sep = true) by (apply str_eqb_eq; reflexivity).
    unfold sep, s_ in *; cbn in *; congruence.
Qed.

Lemma after_sep_None_bar : forall t, ~ In bar t -> after_sep t = None.
Proof.
  intros t H; destruct (after_sep t) eqn:E; [|reflexivity].
  apply after_sep_Some in E; subst t; destruct H; right; left; reflexivity.
Qed.

(** no bar: no split *)
Lemma last_split_no_bar : forall t acc, ~ In bar t -> last_split acc t = None.
Proof.
  induction t as [|c t IH]; intros acc H; [reflexivity|]; cbn [last_split].
  rewrite IH by (intros X; apply H; right; exact X).
  destruct acc; [reflexivity|]; rewrite after_sep_None_bar by exact H; reflexivity.
Qed.

Lemma upto_last_close_end : forall t acc, (acc <> [] \/ t <> []) ->
  upto_last_close acc (t ++ [ch "]"]) = Some (rev acc ++ t).
Proof.
  induction t as [|c t IH]; intros acc H; cbn [app upto_last_close].
  - destruct acc as [|a acc]; [destruct H; contradiction|]; cbn [negb andb Ascii.eqb].
    rewrite Ascii.eqb_refl, app_nil_r; reflexivity.
  - rewrite IH by (left; discriminate); cbn [rev]; rewrite <- app_assoc; reflexivity.
Qed.

(** The separator is found at its last position. *)
Lemma last_split_at_sep : forall p q acc, q <> [] -> ~ In bar q ->
  (acc <> [] \/ p <> []) ->
  last_split acc (p ++ sep ++ q ++ [ch "]"]) = Some (rev acc ++ p, q).
Proof.
  induction p as [|c p IH]; intros q acc Hq Hb Hne.
  - destruct acc as [|a acc]; [destruct Hne; contradiction|].
    assert (N : forall acc', last_split acc' (q ++ [ch "]"]) = None).
    { intros acc'; apply last_split_no_bar; rewrite in_app_iff; intros [X|[X|[]]]; [auto|].
      discriminate X. }
    remember (a :: acc) as A eqn:EA.
    cbn [app sep s_ list_ascii_of_string last_split].
    rewrite N.
    assert (E1 : after_sep (" "%char :: q ++ [ch "]"]) = None).
    { apply after_sep_None_bar; cbn [In]; rewrite in_app_iff.
      intros [X|[X|[X|[]]]]; [discriminate X|auto|discriminate X]. }
    rewrite E1.
    assert (E2 : after_sep ("|"%char :: " "%char :: q ++ [ch "]"]) = None).
    { destruct (after_sep ("|"%char :: " "%char :: q ++ [ch "]"])) eqn:E; [|reflexivity]; apply after_sep_Some in E; discriminate E. }
    rewrite E2.
    assert (E3 : after_sep (" "%char :: "|"%char :: " "%char :: q ++ [ch "]"]) = Some (q ++ [ch "]"])).
    { apply after_sep_Some; reflexivity. }
    rewrite E3, upto_last_close_end by (right; exact Hq).
    rewrite app_nil_r; subst A; reflexivity.
  - cbn [app last_split]; rewrite IH by (try assumption; left; discriminate).
    cbn [rev]; rewrite <- app_assoc; reflexivity.
Qed.

Theorem split_pair_param : forall p q, p <> [] -> q <> [] -> ~ In bar q ->
  split_param (pair_param p q) = Ret (p, q).
Proof.
  intros p q Hp Hq Hb; unfold split_param, pair_param.
  rewrite Ascii.eqb_refl, last_split_at_sep by auto; reflexivity.
Qed.

(** Right-nested: the split happens inside the second component. *)
Theorem split_right_nested : forall p q r, r <> [] -> ~ In bar r ->
  split_param (pair_param p (pair_param q r)) = Ret (p ++ sep ++ ch "[" :: q, r ++ [ch "]"]).
Proof.
  intros p q r Hr Hb; unfold split_param.
  assert (E : pair_param p (pair_param q r) =
     pair_param (p ++ sep ++ ch "[" :: q) (r ++ [ch "]"])).
  { unfold pair_param; rewrite <- !app_assoc; cbn [app]; rewrite <- !app_assoc; reflexivity. }
  rewrite E; unfold pair_param; rewrite Ascii.eqb_refl, last_split_at_sep.
  - reflexivity.
  - destruct r; discriminate.
  - rewrite in_app_iff; intros [X|[X|[]]]; [auto|discriminate X].
  - right; destruct p; discriminate.
Qed.

Lemma default_param_nonempty : forall A (g : gtree A), wf g -> default_param g <> [].
Proof.
  intros A [p ps ok|l r]; cbn; [|discriminate].
  intros [Hin Hf]; rewrite Forall_forall in Hf; apply (Hf p Hin).
Qed.

Lemma atom_ok : forall A p ps (ok : str -> A -> bool) a, In p ps ->
  is_element_p (Atom p ps ok) (VAtom a) p = Ret (ok p a).
Proof.
  intros A p ps ok a Hin; cbn.
  assert (E : existsb (str_eqb p) ps = true)
    by (apply existsb_exists; exists p; split; [exact Hin|apply str_eqb_eq; reflexivity]).
  rewrite E; reflexivity.
Qed.

Theorem left_nested_ok : forall A (g : gtree A) v, wf g -> left_nested g ->
  valid_value g v -> is_element_p g v (default_param g) = Ret true.
Proof.
  intros A; induction g as [p ps ok|l IHl r IHr]; intros [a|x y] Hw Hl Hv; try contradiction.
  - cbn in Hw, Hv; cbn [default_param]; rewrite atom_ok by apply Hw; rewrite Hv; reflexivity.
  - destruct r as [p ps ok|]; [|contradiction].
    destruct y as [a|]; [|destruct Hv; contradiction].
    cbn in Hw, Hl, Hv; destruct Hw as [Hwl Hwr], Hv as [Hvx Hva].
    cbn [default_param is_element_p].
    destruct Hwr as [Hin Hf]; rewrite Forall_forall in Hf; destruct (Hf p Hin) as (Hne & Hb & _ & _).
    rewrite split_pair_param by (try assumption; apply default_param_nonempty, Hwl).
    cbn [bind fst snd]; rewrite IHl by assumption; cbn [bind].
    assert (E : existsb (str_eqb p) ps = true)
      by (apply existsb_exists; exists p; split; [exact Hin|apply str_eqb_eq; reflexivity]).
    rewrite E; cbn; rewrite Hva; reflexivity.
Qed.

(** The last component of a parametrisation string. *)
Fixpoint last_atom {A} (g : gtree A) : str :=
  match g with Atom p _ _ => p | Node _ r => last_atom r end.
Fixpoint depth_r {A} (g : gtree A) : nat :=
  match g with Atom _ _ _ => 0 | Node _ r => S (depth_r r) end.

Lemma last_atom_plain : forall A (g : gtree A), wf g -> plain (last_atom g).
Proof.
  intros A; induction g as [p ps ok|l IHl r IHr]; cbn; intros H.
  - destruct H as [Hin Hf]; rewrite Forall_forall in Hf; auto.
  - apply IHr, H.
Qed.

(** The string of a product ends with its last atom and closing brackets, after a
    prefix and a separator. *)
Lemma default_param_tail : forall A (g : gtree A), (0 < depth_r g)%nat ->
  exists pre, pre <> [] /\ hd_error pre = Some (ch "[") /\
    default_param g = pre ++ sep ++ last_atom g ++ repeat (ch "]") (depth_r g).
Proof.
  intros A; induction g as [p ps ok|l IHl r IHr]; cbn [depth_r]; intros H; [lia|].
  destruct r as [p ps ok|l' r'].
  - exists (ch "[" :: default_param l); split; [discriminate|]; split; [reflexivity|].
    cbn; reflexivity.
  - destruct IHr as (pre & Hne & _ & E); [cbn; lia|].
    exists (ch "[" :: default_param l ++ sep ++ pre); split; [discriminate|]; split; [reflexivity|].
    cbn [default_param last_atom]; cbn [default_param last_atom] in E; unfold pair_param at 1.
    rewrite E; cbn [depth_r]; cbn [depth_r] in *.
    set (d := S (depth_r r')); rewrite <- !app_assoc.
    cbn [app]; rewrite <- !app_assoc; do 6 f_equal.
    change [ch "]"] with (repeat (ch "]") 1); rewrite <- repeat_app; f_equal; lia.
Qed.

Theorem right_nested_raises : forall A (l r1 r2 : gtree A) v,
  wf (Node l (Node r1 r2)) -> make_element (Node l (Node r1 r2)) v = Raise.
Proof.
  intros A l r1 r2 v Hw; unfold make_element.
  destruct v as [a|x y]; [reflexivity|].
  assert (S : exists s q, split_param (default_param (Node l (Node r1 r2))) = Ret (s, q) /\
                hd_error q <> Some (ch "[")).
  { destruct (default_param_tail A (Node l (Node r1 r2))) as (pre & Hne & Hhd & E); [cbn; lia|].
    rewrite E; destruct pre as [|c pre]; [contradiction|]; injection Hhd as ->.
    set (d := depth_r (Node l (Node r1 r2))) in *.
    assert (Hd : exists d', d = S d' /\ (0 < d')%nat) by (exists (S (depth_r r2)); cbn; split; [reflexivity|lia]).
    destruct Hd as (d' & Hd & Hd'); rewrite Hd.
    pose proof (last_atom_plain A (Node l (Node r1 r2)) Hw) as (Pn & Pb & Po & Pc).
    set (z := last_atom _) in *.
    assert (Erep : repeat (ch "]") (S d') = repeat (ch "]") d' ++ [ch "]"]).
    { change [ch "]"] with (repeat (ch "]") 1); rewrite <- repeat_app; f_equal; lia. }
    destruct pre as [|c pre].
    { (* the prefix cannot be just the bracket *)
      exfalso; cbn [default_param] in E; unfold pair_param in E at 1.
      injection E as E.
      pose proof (default_param_nonempty A l (proj1 Hw)) as Hl.
      destruct l as [p ps ok|l1 l2].
      - cbn [default_param] in *; destruct Hw as [[Hin Hf] _]; rewrite Forall_forall in Hf.
        destruct (Hf p Hin) as (_ & Hb & _).
        assert (X := f_equal (fun t => nth_error t 1) E); cbv beta in X.
        destruct p as [|p0 [|p1 p]]; [contradiction| |].
        + cbn in X; discriminate X.
        + cbn in X; injection X as X; apply Hb; right; left; exact X.
      - cbn [default_param] in E; unfold pair_param in E; cbn in E; discriminate E. }
    exists (c :: pre), (z ++ repeat (ch "]") d'); split.
    - unfold split_param; cbn [app]; rewrite Ascii.eqb_refl, Erep.
      replace (c :: pre ++ sep ++ z ++ repeat (ch "]") d' ++ [ch "]"])
        with ((c :: pre) ++ sep ++ (z ++ repeat (ch "]") d') ++ [ch "]"])
        by (rewrite <- app_assoc; reflexivity).
      rewrite last_split_at_sep; [reflexivity| | |right; discriminate].
      + destruct z; [contradiction|discriminate].
      + rewrite in_app_iff; intros [X|X]; [auto|]; apply repeat_spec in X; discriminate X.
    - destruct z as [|z0 z]; [contradiction|]; cbn; intros X; injection X as ->.
      apply Po; left; reflexivity. }
  destruct S as (s & q & Es & Hq).
  cbn [is_element_p]; rewrite Es; cbn [bind fst snd].
  destruct (is_element_p l x s) as [|[|]]; cbn [bind]; [reflexivity| |reflexivity].
  destruct y as [a|y1 y2]; [reflexivity|].
  assert (E : split_param q = Raise).
  { unfold split_param; destruct q as [|c q]; [reflexivity|].
    destruct (Ascii.eqb c (ch "[")) eqn:Ec; [|reflexivity].
    apply Ascii.eqb_eq in Ec; subst c; cbn in Hq; congruence. }
  rewrite E; reflexivity.
Qed.

Lemma left_nested_make : forall A (g : gtree A) v, wf g -> left_nested g ->
  valid_value g v -> make_element g v = Ret v.
Proof. intros; unfold make_element; rewrite left_nested_ok by assumption; reflexivity. Qed.

Open Scope Z_scope.
Lemma c53_example :
  let atom N := Atom (s_ "int") [s_ "int"; s_ "radians"; s_ "MAT"]
                     (fun _ r => ((0 <=? r) && (r <? N))%bool) in
  let L := Node (Node (atom 2) (atom 3)) (atom 4) in
  let R := Node (atom 2) (Node (atom 3) (atom 4)) in
  wf L /\ left_nested L /\ wf R /\
  make_element L (VNode (VNode (VAtom 1) (VAtom 2)) (VAtom 3)) =
    Ret (VNode (VNode (VAtom 1) (VAtom 2)) (VAtom 3)) /\
  make_element R (VNode (VAtom 1) (VNode (VAtom 2) (VAtom 3))) = Raise.
Proof.
  intros atom L R.
  assert (W : forall N, wf (atom N)).
  { intros N; cbn; split; [left; reflexivity|].
    repeat apply Forall_cons; try apply Forall_nil;
      (split; [discriminate|]); (split; [|split]); cbn; intuition discriminate. }
  split; [exact (conj (conj (W 2) (W 3)) (W 4))|]; split; [exact I|].
  split; [exact (conj (W 2) (conj (W 3) (W 4)))|].
  split; vm_compute; reflexivity.
Qed.
