(** Property C37: a SequentialModule runs the modules it was given. *)
From Coq Require Import String List ZArith Arith Bool Lia.
From Verif Require Import LibRes LibPy SeqModel SpecSeq SeqThms.
Import ListNotations.

Theorem C37_runs : forall M T X (tin tout : M -> T) (run : M -> X -> res X) (typ : X -> T) teqb refused,
  (forall a b, teqb a b = true <-> a = b) ->
  forall b ops s, NoDup (match b with Args _ => [] | Dict d => map fst d end) -> well_numbered b ops = true ->
  history tin tout teqb refused b ops = Ret s ->
  exists ms, all_supplied b ops = Ret ms /\ chained tin tout ms /\ map snd (s_mods s) = ms /\
  forall x y, forward run typ teqb s x = Ret y <->
    exists m m', hd_error ms = Some m /\ hd_error (rev ms) = Some m' /\ typ x = tin m /\ runs run ms x y /\ typ y = tout m'.
Proof. exact @seq_runs. Qed.
Print Assumptions C37_runs.

(** Modules are numbers 10 a + b that go from type a to type b *)
Example C37_runs_ex : well_numbered (Args [12; 23]) [Append 34; Slice None (Some (-1)%Z) None; Append 35; Slice (Some 1%Z) None None] = true /\
  exists s, history (fun m => Nat.div m 10) (fun m => Nat.modulo m 10) Nat.eqb (fun _ => false)
    (Args [12; 23]) [Append 34; Slice None (Some (-1)%Z) None; Append 35; Slice (Some 1%Z) None None] = Ret s /\ map snd (s_mods s) = [23; 35].
Proof. split; [reflexivity|]. eexists. split; reflexivity. Qed.

Theorem C37_get : forall M T (s : seq_state M T) z, seq_get s z = py_get (map snd (s_mods s)) z.
Proof. exact @seq_get_ok. Qed.
Print Assumptions C37_get.
Example C37_get_ex : seq_get {| s_in := Some 1; s_out := Some 3; s_mods := [("a"%string, 12); ("b"%string, 23)] |} (-2) = Ret 12.
Proof. reflexivity. Qed.

(** Appending to a slice that dropped the first k of n modules: the fate of the
    appended module depends on whether 2k <= n. *)
Theorem C37_append_after_drop : forall M T (tin tout : M -> T) teqb refused, (forall a b, teqb a b = true <-> a = b) ->
  forall ms k m s, 0 < k < List.length ms ->
  history tin tout teqb refused (Args ms) [Slice (Some (Z.of_nat k)) None None; Append m] = Ret s ->
  let n := List.length ms in
  map snd (s_mods s) = (if Nat.leb (2 * k) n then firstn (n - 2 * k) (skipn k ms) ++ m :: skipn (S (n - 2 * k)) (skipn k ms) else skipn k ms ++ [m])%list /\
  s_in s = option_map tin (hd_error (skipn k ms)) /\ s_out s = Some (tout m).
Proof. exact @append_after_drop. Qed.
Print Assumptions C37_append_after_drop.
Example C37_append_after_drop_ex : exists s, history (fun _ => 1) (fun _ => 1) Nat.eqb (fun _ => false)
    (Args [10; 20; 30; 40]) [Slice (Some (Z.of_nat 1)) None None; Append 50] = Ret s /\ map snd (s_mods s) = [20; 30; 50].
Proof. eexists. split; reflexivity. Qed.

Theorem C37_refuted : forall M T (tin tout : M -> T) teqb refused, (forall a b, teqb a b = true <-> a = b) ->
  (forall n, refused (str n) = false) -> forall a b c : M, tin a = tout a -> tin b = tin a -> tout b = tin a -> tin c = tin a ->
  exists s, history tin tout teqb refused (Args [a; b]) [Slice (Some 1%Z) None None; Append c] = Ret s /\
    all_supplied (Args [a; b]) [Slice (Some 1%Z) None None; Append c] = Ret [b; c] /\ map snd (s_mods s) = [c].
Proof. exact @append_overwrites. Qed.
Print Assumptions C37_refuted.
Example C37_refuted_ex : (fun _ : nat => 1) 0 = (fun _ : nat => 1) 0 /\ (fun _ : string => false) (str 12) = false.
Proof. split; reflexivity. Qed.
