(** What it means for a change of parametrisation to lose nothing. *)
From Coq Require Import Reals ZArith.
From Verif Require Import LibRes ParamModel.
Open Scope R_scope.

(** Converting any valid value from the default parametrisation [d] to [p]
    succeeds, and converting the result back gives the value again. *)
Definition round_trips {A} (valid : A -> Prop) (change : A -> param -> param -> res A)
  (d p : param) : Prop :=
  forall v, valid v -> exists w, change v d p = Ret w /\ change w p d = Ret v.

(** Valid values in the default parametrisation. *)
Definition cn_value (N : Z) (v : pv) : Prop := exists r, v = Pint r /\ (0 <= r < N)%Z.
Definition dn_value (N : Z) (v : Z * pv) : Prop :=
  exists f r, v = (f, Pint r) /\ (f = 0 \/ f = 1)%Z /\ (0 <= r < N)%Z.
Definition so2_value (v : pv) : Prop := exists t, v = Pfloat t /\ 0 <= t < 2 * PI.
Definition o2_value (v : Z * pv) : Prop :=
  exists f t, v = (f, Pfloat t) /\ (f = 0 \/ f = 1)%Z /\ 0 <= t < 2 * PI.
