(** Vocabulary for the shapes of pooling layers. *)
From Coq Require Import ZArith List.
From Verif Require Import ShapeModel.
Import ListNotations.
Open Scope Z_scope.

(** Along every axis, the last of the [o] windows starts before the end of the input. *)
Definition last_windows_start_inside (ks : list window) (ws o : list Z) : Prop :=
  forall a k, nth_error ks a = Some k -> (nth a o 0 - 1) * w_stride k < nth a ws 0 + w_padding k.

(** [k] x ... x [k] windows, [stride] apart *)
Definition simple_window (k stride : Z) : window := {| w_kernel := k; w_stride := stride; w_padding := 0; w_dilation := 1 |}.
