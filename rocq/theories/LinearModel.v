(** Linear on the point space: the basis it samples and the action on its fields. *)
From Coq Require Import Reals ZArith List.
From Verif Require Import LibRes LibMat FieldModel IrrepModel RepModel KernelModel PolarModel BlocksModel GridModel ImageModel RdConvModel.
Import ListNotations.
Open Scope R_scope.

(** Linear.__init__ linear.py:163-166: GSpace.build_fiber_intertwiner_basis
    gspace.py:337-367 (kernels_on_point, without the dictionary that remembers it) sampled
    at the one point `np.zeros((1, 1))`; PointBasis ignores the coordinates. *)
Definition point_generator {A T} (rep : A -> repr T) (irr : list Z -> res (girrep T)) (tpi : list Z -> list Z -> res (list (list Z * nat)))
    (cg : list Z -> list Z -> list Z -> res arr4) (triv : list Z) (i o : A) : res (option (BlocksModel.kbasis (sattr unit) nat)) :=
  r <- kernels_on_point point irr tpi cg triv (rep i) (rep o) ;;
  match r with
  | None => Ret None
  | Some kb => b <- sampled irr (point_filters point triv) kb [(0, 0)] ;; Ret (Some b)
  end.

(** FieldType.transform field_type.py:338-346 without coords on GSpace0D, whose
    _interpolate_transform_basespace r0.py:34-41 returns its input *)
Definition transform0 {A T} (rep : A -> repr T) (ft : list A) (g : T) (x : array R) : res (array R) :=
  rho <- fiber_matrix rep ft g ;;
  transform_fibers (type_size (asize rep) ft) rho x.
