(** Scalars and vectors under a quarter turn, in parallel. *)
From Coq Require Import String Ascii.
From Coq Require Import Reals ZArith Lia Lra Bool List Arith.
From Verif Require Import LibRes LibPy LibMat LibMatS FieldModel SpecField RepModel GridModel SpecGrid ImageModel ImageEx RdConvModel FieldMapModel SeqModel NetModel SpecNet NetProofs NetThms NetMult NetPar NetRef.
Import ListNotations.
Open Scope R_scope.

(** strings in the order of their characters *)
Fixpoint string_leb (s t : string) : bool :=
  match s, t with
  | EmptyString, _ => true
  | String _ _, EmptyString => false
  | String a s', String b t' => if Nat.ltb (nat_of_ascii a) (nat_of_ascii b) then true else if Ascii.eqb a b then string_leb s' t' else false
  end.
Lemma ascii_apart : forall a b, nat_of_ascii a = nat_of_ascii b -> a = b.
Proof. intros a b H. rewrite <- (ascii_nat_embedding a), <- (ascii_nat_embedding b), H. reflexivity. Qed.
Lemma string_order : (forall s, string_leb s s = true) /\ (forall s t, string_leb s t = true \/ string_leb t s = true) /\
  (forall s t u, string_leb s t = true -> string_leb t u = true -> string_leb s u = true) /\ (forall s t, string_leb s t = true -> string_leb t s = true -> s = t).
Proof.
  assert (St : forall a b s t, string_leb (String a s) (String b t) = true <-> (nat_of_ascii a < nat_of_ascii b)%nat \/ a = b /\ string_leb s t = true).
  { intros a b s t. cbn [string_leb]. destruct (Nat.ltb_spec (nat_of_ascii a) (nat_of_ascii b)) as [L|L]; [split; auto|]. destruct (Ascii.eqb_spec a b) as [E|E]; [subst; split; [auto|intros [H|H]; [lia|tauto]]|split; [discriminate|intros [H|(H & _)]; [lia|contradiction]]]. }
  repeat split.
  - induction s as [|a s IH]; [reflexivity|]. apply St. auto.
  - induction s as [|a s IH]; [auto|]. intros [|b t]; [auto|]. rewrite !St. destruct (Nat.lt_trichotomy (nat_of_ascii a) (nat_of_ascii b)) as [L|[L|L]]; [auto| |auto]. apply ascii_apart in L. subst b. destruct (IH t); auto.
  - induction s as [|a s IH]; [reflexivity|]. intros [|b t] [|c u]; try discriminate. rewrite !St. intros [L|(-> & L)] [K|(-> & K)]; try (left; lia). right. eauto.
  - induction s as [|a s IH]; [intros [|]; [reflexivity|discriminate]|]. intros [|b t]; [discriminate|]. rewrite !St. intros [L|(-> & L)] [K|(E & K)]; try lia; [subst; lia|]. f_equal. apply IH; assumption.
Qed.

(** one element, that turns by a quarter: a scalar and a vector *)
Definition turned (v : bool) : repr unit :=
  {| r_size := if v then 2 else 1; r_irreps := []; r_cob := mid; r_inv := mid; r_fun := fun _ => Ret (if v then (2%nat, quarter) else (1%nat, mid)) |}.
Definition plane (u : unit) : res (nat * mat) := Ret (2%nat, quarter).
Definition same_types (a b : list bool) : bool := if list_eq_dec bool_dec a b then true else false.
Lemma same_types_ok : forall a b, same_types a b = true <-> a = b.
Proof. intros a b. unfold same_types. destruct (list_eq_dec bool_dec a b); split; congruence. Qed.
Lemma turned_defined : forall ft, defined_at turned tt ft.
Proof. intros ft. apply Forall_forall. intros [|] _; eexists; reflexivity. Qed.

(** the fields of one type, multiplied by a number *)
Definition scaler (ft : list bool) (c : R) : netmod bool :=
  {| nm_in := One ft; nm_out := ft; nm_shape := fun ss => match ss with [s] => Ret s | _ => Raise end;
     nm_run := fun xs => match xs with [x] => assert (same_types (fst x) ft) ;; Ret (t_scale c x) | _ => Raise end |}.
Lemma scaler_ok : forall n ft c, reliable turned n (scaler ft c).
Proof.
  intros n ft c. split.
  - intros xs xs' _ S. cbn [nm_run scaler]. destruct S as [|x x' l l' (Et & Es & Ee) S]; [exact I|]. destruct S; [|exact I]. rewrite <- Et. destruct (same_types (fst x) ft); [|exact I]. cbn. split; [exact Et|]. split; [exact Es|].
    intros idx V. cbn. rewrite (Ee idx V). reflexivity.
  - intros xs y F E. cbn [nm_run scaler] in E. destruct xs as [|x [|]]; try discriminate. apply assert_Ret in E as (Q & E). apply Ret_inj in E. subst y. apply same_types_ok in Q. split; [exact Q|]. split; [|reflexivity]. exact (Forall_inv F).
Qed.
Lemma scaler_commutes : forall half affine, half 0 = 0 -> half 1 = 1 -> half (-1) = -1 -> forall ft c xs, Forall (shaped turned 2) xs -> Forall (fun x => defined_at turned tt (fst x)) xs ->
  commutes_all turned half affine plane tt (nm_run (scaler ft c)) xs.
Proof.
  intros half affine H0 H1 Hm ft c xs F D y E. cbn [nm_run scaler] in E. destruct xs as [|x [|]]; try discriminate. apply assert_Ret in E as (Q & E). apply Ret_inj in E. subst y.
  destruct (sum_ok turned half affine plane tt H0 H1 Hm 2 quarter eq_refl quarter_signed same_types same_types_ok x x (Forall_inv F) (Forall_inv D)) as (_ & _ & S). destruct (S c) as (x' & w & Ex & Ew & Sw).
  exists [x'], (t_scale c x'), w. split; [cbn [mapM]; rewrite Ex; reflexivity|]. split; [|auto]. cbn [nm_run scaler].
  assert (fst x' = fst x) as ->; [|rewrite Q; reflexivity]. unfold moved_by in Ex. apply bind_Ret in Ex as (q & _ & Ex). apply Ret_inj in Ex. subst x'. reflexivity.
Qed.

(** a scalar, a vector and a scalar: the scalars doubled, the vector tripled *)
Definition parallel : list (netmod bool * labarg) := [(scaler [true] 3, LStr "vectors"); (scaler [false; false] 2, LStr "scalars")].
Definition three : list bool := [false; true; false].
Definition tags : list string := ["scalars"; "vectors"; "scalars"]%string.
Lemma parallel_built : exists mu mods', mk_multiple (asize turned) same_types string_leb three tags parallel 1 = Ret (mu, mods') /\ mu_out mu = [true; false; false] /\ mods' <> parallel.
Proof. eexists. eexists. split; [vm_compute; reflexivity|]. split; [reflexivity|]. discriminate. Qed.
Lemma parallel_ok : Forall (fun m => reliable turned 2 (fst m)) parallel /\ forall half affine, half 0 = 0 -> half 1 = 1 -> half (-1) = -1 ->
  Forall (fun m => defined_at turned tt (nm_out (fst m)) /\ forall xs, Forall (shaped turned 2) xs -> Forall (fun x => defined_at turned tt (fst x)) xs -> commutes_all turned half affine plane tt (nm_run (fst m)) xs) parallel.
Proof.
  split; [|intros half affine H0 H1 Hm]; apply Forall_forall; intros m Hin; (assert (exists ft c, fst m = scaler ft c) as (ft & c & ->) by (destruct Hin as [<-|[<-|[]]]; do 2 eexists; reflexivity)).
  - apply scaler_ok.
  - split; [apply turned_defined|]. apply scaler_commutes; assumption.
Qed.
Definition picture : tensor bool := (three, {| shape := [1; 4; 3; 5]%nat; entry := fun idx => INR (nth 1 idx 0%nat + nth 3 idx 0%nat) |}).
Lemma picture_ok : shaped turned 2 picture /\ fst picture = three /\ three <> [] /\ Forall (fun a => (0 < asize turned a)%nat) three /\ defined_at turned tt three.
Proof. split; [exists 1%nat, [3%nat; 5%nat]; split; reflexivity|]. split; [reflexivity|]. split; [discriminate|]. split; [repeat constructor; cbn; lia|apply turned_defined]. Qed.
Lemma parallel_runs : forall mu mods', mk_multiple (asize turned) same_types string_leb three tags parallel 1 = Ret (mu, mods') -> exists y, multiple_forward (asize turned) same_types mu picture = Ret y.
Proof.
  intros mu mods' E. vm_compute in E. apply Ret_inj in E. injection E as <- _. eexists. cbv -[Rmult INR IZR]. reflexivity.
Qed.
