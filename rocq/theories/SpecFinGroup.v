(** What the elements and the documented subgroups of C_N and D_N are, said
    without any of the functions of the model. *)
From Coq Require Import List ZArith.
From Verif Require Import FinGroupModel.
Open Scope Z_scope.

(** C_N has the elements 0..N-1, D_N the pairs (flip, rotation). *)
Definition member (G : grp) (v : val) : Prop :=
  match G, v with
  | Cyc N, VC r => 0 <= r < N
  | Dih N, VD f r => (f = 0 \/ f = 1) /\ 0 <= r < N
  | _, _ => False
  end.

(** The subgroup ids listed in the documentation
    (cyclicgroup.py:251-275, dihedralgroup.py:285-306). *)
Definition documented (G : grp) (id : sgid) : Prop :=
  match G, id with
  | Cyc N, IdC M => 0 < M /\ (M | N)
  | Dih N, IdD None M => 0 < M /\ (M | N)
  | Dih N, IdD (Some a) M => 0 < M /\ (M | N) /\ 0 <= a < N / M
  | _, _ => False
  end.

(** Which elements of G the documentation says the subgroup consists of:
    - C_M < C_N: rotations by multiples of N/M
    - (None, M): the rotations of D_N by multiples of N/M
    - (a, M): the same rotations and the reflections (1, r) whose rotation
      part is a plus a multiple of N/M. *)
Definition in_subgroup (G : grp) (id : sgid) (g : val) : Prop :=
  match G, id, g with
  | Cyc N, IdC M, VC r => (N / M | r)
  | Dih N, IdD None M, VD f r => f = 0 /\ (N / M | r)
  | Dih N, IdD (Some a) M, VD f r => (N / M | r - f * a)
  | _, _, _ => False
  end.

(** The abstract type of that subgroup. *)
Definition subgroup_type (id : sgid) : grp :=
  match id with
  | IdC M => Cyc M
  | IdD None M => Cyc M
  | IdD (Some _) M => if M =? 1 then Cyc 2 else Dih M
  end.
