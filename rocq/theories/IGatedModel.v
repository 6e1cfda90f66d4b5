(** Model of InducedGatedNonLinearity1
    (escnn/nn/modules/nonlinearities/induced_gated1.py).

    Simplifications, as in NonlinModel: the map treats every batch entry and
    every position separately, a tensor is the list of its channel values at one
    of them; only the number [b] of batch entries is kept, because the
    assignment of the gates (216-221) depends on it. Different representations
    have different names, so the dictionary subfield_sizes (102-113), keyed by
    the name, is a function of the representation. *)
From Coq Require Import Reals String List ZArith Arith Bool.
From Verif Require Import LibRes LibPy LibMat ParamModel FieldModel GroupedModel NonlinModel.
Import ListNotations.
Open Scope R_scope.

(** the dictionaries are keyed by GATES_ID ([None]) or by (size, sub-field size) *)
Definition ikey_eqb (a b : option (nat * nat)) : bool :=
  match a, b with None, None => true | Some s, Some t => pair_eqb s t | _, _ => false end.
Definition ikeep (drop : bool) (l : option (nat * nat)) : bool := match l with None => negb drop | Some _ => true end.
(** 78-79: nl.startswith("induced_gated") *)
Definition is_induced_gated (nl : nonlin) : bool := match nl with NL_induced_gated _ => true | _ => false end.

Section IGated.
Context {A : Type}.
Variable size : A -> nat.
Variable supported : A -> list nonlin.
Variable teqb : list A -> list A -> bool.

(** 93-100 *)
Fixpoint quotient_loop (l : list (gate * A)) (found : option nat) : res (option nat) :=
  match l with
  | [] => Ret found
  | (GateField, r) :: l' =>
      match found with
      | None => quotient_loop l' (Some (size r))
      | Some q => assert (Nat.eqb (size r) q) ;; quotient_loop l' found
      end
  | _ :: l' => quotient_loop l' found
  end.
(** 105-113; a quotient_size that is None differs from every number *)
Fixpoint isub_loop (n : nat) (quotient : option nat) (l : list nonlin) (found : option nat) : res (option nat) :=
  match l with
  | [] => Ret found
  | NL_induced_gated s :: l' =>
      match found with
      | Some _ => Raise
      | None =>
          assert (negb (Nat.eqb s 0)) ;; assert (Nat.eqb (n mod s) 0) ;;
          assert (match quotient with Some q => Nat.eqb (n / s) q | None => false end) ;;
          isub_loop n quotient l' (Some s)
      end
  | _ :: l' => isub_loop n quotient l' found
  end.
(** the key of a field 134-138 *)
Definition ikey (quotient : option nat) (gr : gate * A) : res (option (nat * nat)) :=
  if is_gate (fst gr) then Ret None else
  s <- isub_loop (size (snd gr)) quotient (supported (snd gr)) None ;;
  match s with Some s => Ret (Some (size (snd gr), s)) | None => Raise end.

Record igated_module := {
  ig_in : list A; ig_out : list A; ig_labels : list (option (nat * nat));
  ig_inb : list (option (nat * nat) * channels); ig_outb : list (option (nat * nat) * channels);
  ig_order : list (option (nat * nat)); ig_drop : bool; ig_ngates : nat; ig_quotient : nat }.
(** __init__ 24-188 *)
Definition mk_igated (ft : list A) (gates : option (list gate)) (drop : bool) : res igated_module :=
  (* 50-56 *)
  gates <- match gates with
           | Some g => Ret g
           | None => assert (Nat.eqb (List.length ft mod 2) 0) ;;
                     Ret (repeat GateField (List.length ft / 2) ++ repeat GatedField (List.length ft / 2))%list
           end ;;
  assert (Nat.eqb (List.length gates) (List.length ft)) ;;
  (* 72-84 *)
  assert (forallb (fun gr => match fst gr with
                             | GateField => supports supported NL_induced_gate (snd gr)
                             | GatedField => existsb is_induced_gated (supported (snd gr))
                             | OtherName => false
                             end) (List.combine gates ft)) ;;
  (* 86-91 *)
  let ngates := List.length (filter is_gate gates) in
  assert (Nat.eqb ngates (List.length (filter is_gated gates))) ;;
  quotient <- quotient_loop (List.combine gates ft) None ;;
  labels <- mapM (ikey quotient) (List.combine gates ft) ;;
  (* 117-122 *)
  out <- (if drop then
            index_select ft (map (fun gi => Z.of_nat (snd gi)) (filter (fun gi => is_gated (fst gi)) (List.combine gates (seq 0 (List.length gates)))))
          else Ret ft) ;;
  (* 130-155 *)
  let kept := filter (fun lr => ikeep drop (fst lr)) (List.combine labels ft) in
  let iidx := indices_by_label size ikey_eqb [] 0 labels ft in
  let oidx := indices_by_label size ikey_eqb [] 0 (map fst kept) (map snd kept) in
  let cont := contiguous_labels ikey_eqb [] None labels in
  (* 163-178 *)
  inb <- mapM (buffer ikey_eqb iidx) cont ;;
  outb <- mapM (buffer ikey_eqb oidx) (filter (fun lc => ikeep drop (fst lc)) cont) ;;
  (* 181-185 *)
  _ <- lookup ikey_eqb inb None ;;
  let keys := sort_by size_leb (flat_map (fun lc => match fst lc with Some s => [s] | None => [] end) inb) in
  match quotient with
  | None => Raise
  | Some q => Ret {| ig_in := ft; ig_out := out; ig_labels := labels; ig_inb := inb; ig_outb := outb;
                     ig_order := map Some keys; ig_drop := drop; ig_ngates := ngates; ig_quotient := q |}
  end.

(** 230-254: the gates of the fields of one key, as one list, multiply the sub-fields *)
Definition igated_group (gates : list (list R)) (nf : option (nat * nat) -> nat) (l : option (nat * nat)) (next : nat) (fm : list R) : res (list R) :=
  match l with
  | None => Raise
  | Some (_, sub) =>
      subfields <- view sub fm ;;
      out <- zip_with (fun v g => map (fun a => a * g) v) subfields (concat (slice_at next (nf l) gates)) ;;
      Ret (concat out)
  end.
(** 216-221 `output[:, gates_indices] = gates`: the value has the shape
    (b, ngates, quotient_size, ...) and the target (b, ngates * quotient_size, ...).
    torch drops the leading dimensions of length 1 of the value before it
    broadcasts it, so the assignment succeeds only for b = 1 and one gate *)
Definition assign_gates (b : nat) (m : igated_module) (junk : list R) (gi : channels) (gates : list (list R)) : res (list R) :=
  assert (Nat.eqb b 1 && Nat.eqb (List.length gates) 1) ;; write junk gi (concat gates).
(** forward 190-260; [bias] is the parameter of length ngates (188) *)
Definition igated_forward (b : nat) (m : igated_module) (bias junk : list R) (x : gtensor A R) : res (gtensor A R) :=
  assert (teqb (g_type x) (ig_in m)) ;;
  gi <- lookup ikey_eqb (ig_inb m) None ;;
  g <- read (g_chans x) gi ;;
  rows <- view (ig_quotient m) g ;;
  gates <- zip_with (fun row c => map (fun v => sigmoid (v - c)) row) rows bias ;;
  out <- (if ig_drop m then Ret junk else assign_gates b m junk gi gates) ;;
  let nf := nfields ikey_eqb (ig_labels m) in
  y <- grouped_loop ikey_eqb nf (ig_inb m) (ig_outb m) (igated_group gates nf) (g_chans x) (ig_order m) 0 out ;;
  mk_gtensor size (ig_out m) y.
End IGated.
