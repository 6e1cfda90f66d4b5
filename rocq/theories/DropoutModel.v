(** Model of FieldDropout, /repo/escnn/nn/modules/dropout/field.py, and
    PointwiseDropout, dropout/pointwise.py.

    Simplifications. The mask has one entry per batch entry, field and position,
    so as in NonlinModel a tensor is the list of its channel values at one batch
    entry and position. A value is [None] when the code divides by zero (the
    result is then NaN or infinite). The random numbers are an argument. *)
From Coq Require Import Reals List ZArith Arith Bool.
From Verif Require Import LibRes LibPy LibMat ParamModel FieldModel GroupedModel NonlinModel.
Import ListNotations.
Open Scope R_scope.

Definition num := option R.
Definition nmul (x y : num) : num := match x, y with Some a, Some b => Some (a * b) | _, _ => None end.
Definition ndiv (x y : num) : num :=
  match x, y with Some a, Some b => if Req_EM_T b 0 then None else Some (a / b) | _, _ => None end.

Section Dropout.
Context {A : Type}.
Variable size : A -> nat.
Variable supported : A -> list nonlin.
Variable teqb : list A -> list A -> bool.

Record dropout_module := {
  dr_type : list A; dr_p : R; dr_inplace : bool; dr_buffers : list (nat * channels); dr_order : list nat }.
(** __init__ 46-118; `self._order` lists the sizes in the order of their first fields *)
Definition mk_dropout (ft : list A) (p : R) (inplace : bool) : res dropout_module :=
  assert (Rleb 0 p && Rleb p 1) ;;
  bufs <- buffers size Nat.eqb ft (map size ft) ;;
  Ret {| dr_type := ft; dr_p := p; dr_inplace := inplace; dr_buffers := bufs; dr_order := map fst bufs |}.

(** 31-32: `mask.uniform_() > p` as a float *)
Definition mask_of (p u : R) : num := Some (if Rleb u p then 0 else 1).
(** dropout_field 20-41 in training mode on the fields of one size, with one
    random number per field: the two ways of multiplying *)
Definition dropout_field (p : R) (inplace : bool) (us : list R) (fields : list (list num)) : res (list (list num)) :=
  zip_with (fun f u => map (fun a => if inplace then nmul a (ndiv (mask_of p u) (Some (1 - p)))
                                     else ndiv (nmul a (mask_of p u)) (Some (1 - p))) f) fields us.
Definition dropout_group (m : dropout_module) (us : list R) (nf : nat -> nat) (s next : nat) (fm : list num) : res (list num) :=
  fields <- view s fm ;;
  fields <- dropout_field (dr_p m) (dr_inplace m) (slice_at next (nf s) us) fields ;;
  Ret (concat fields).

(** The loop 144-161 with inplace=True: `input[:, a:b].view(shape)` shares its
    storage with the input, `input[:, indices]` is a copy, which is thrown away *)
Fixpoint inplace_loop (m : dropout_module) (us : list R) (nf : nat -> nat) (order : list nat) (next : nat) (x : list num) : res (list num) :=
  match order with
  | [] => Ret x
  | s :: order' =>
      c <- lookup Nat.eqb (dr_buffers m) s ;;
      fm <- read x c ;;
      w <- dropout_group m us nf s next fm ;;
      x' <- match c with Run _ _ => write x c w | Listed _ => Ret x end ;;
      inplace_loop m us nf order' (next + nf s) x'
  end.

(** forward 120-167; [junk] is the content of torch.empty_like *)
Definition dropout_forward (m : dropout_module) (training : bool) (us : list R) (junk : list num) (x : gtensor A num) : res (gtensor A num) :=
  assert (teqb (g_type x) (dr_type m)) ;;
  if negb training then Ret x
  else
    let nf := nfields Nat.eqb (map size (dr_type m)) in
    out <- (if dr_inplace m then inplace_loop m us nf (dr_order m) 0 (g_chans x)
            else grouped_loop Nat.eqb nf (dr_buffers m) (dr_buffers m) (dropout_group m us nf) (g_chans x) (dr_order m) 0 junk) ;;
    mk_gtensor size (dr_type m) out.

(** ** PointwiseDropout dropout/pointwise.py *)
(** torch.nn.functional.dropout with one random number per channel: p = 1 gives zeros *)
Definition f_dropout (p : R) (us : list R) (x : list num) : res (list num) :=
  zip_with (fun a u => if Req_EM_T p 1 then nmul a (Some 0) else nmul a (ndiv (mask_of p u) (Some (1 - p)))) x us.
(** __init__ 18-49 and forward 51-70 *)
Definition pw_dropout (ft : list A) (p : R) (training : bool) (us : list R) (x : gtensor A num) : res (gtensor A num) :=
  assert (Rleb 0 p && Rleb p 1) ;;
  assert (forallb (supports supported NL_pointwise) ft) ;;
  assert (teqb (g_type x) ft) ;;
  y <- (if training then f_dropout p us (g_chans x) else Ret (g_chans x)) ;;
  mk_gtensor size ft y.
End Dropout.
