(** C58: transposed convolutions commute with grid symmetries. *)
From Coq Require Import Reals ZArith List Lia Lra.
From Verif Require Import LibRes LibMat GridModel SpecGrid ImageModel SpecImage TransposedModel TransposedThms ImageEx TransposedEx.
Import ListNotations.
Open Scope R_scope.

(** C58. Any dimension, stride, padding, dilation and number of groups, without
    output padding: for a kernel steered by the grid symmetry [M] and an invariant
    bias, the transposed convolution of the transformed input succeeds and is the
    transformed output. *)
Theorem C58_equivariant : forall half, half 0 = 0 -> half 1 = 1 -> half (-1) = -1 ->
  forall affine n M groups stride p dil cout cin k K bias A Bo rout x y B ws, signed_perm n M ->
  kernel_on n cout cin K -> steers n cout cin M A Bo K -> repeats groups cout rout Bo -> in_blocks groups cin A ->
  (forall v, bias = Some v -> forall o, (o < groups * cout)%nat -> sumn (groups * cout) (fun j => rout o j * nth j v 0) = nth o v 0) ->
  shape x = B :: cin :: ws -> length ws = n ->
  transposed_forward groups stride p 0 dil cout cin k n (fun o i q => K (grid_coords k dil q) o i) bias x = Ret y ->
  exists x' y' z, transform half affine cin A n M x = Ret x' /\
    transposed_forward groups stride p 0 dil cout cin k n (fun o i q => K (grid_coords k dil q) o i) bias x' = Ret y' /\
    transform half affine (groups * cout) rout n M y = Ret z /\ same_array y' z.
Proof. exact transposed_equivariant. Qed.
Print Assumptions C58_equivariant.

(** A quarter turn, a vector-valued radial kernel of size 3 and stride 2 on a 3 x 5
    image. *)
Example C58_ex : signed_perm 2 quarter /\ kernel_on 2 2 1 radial /\ steers 2 2 1 quarter mid quarter radial /\ repeats 1 2 quarter quarter /\ in_blocks 1 1 mid /\
  exists y, transposed_forward 1 2 1 0 1 2 1 3 2 (fun o i q => radial (grid_coords 3 1 q) o i) None
    {| shape := [1; 1; 3; 5]%nat; entry := fun idx => INR (nth 3 idx 0%nat) |} = Ret y.
Proof. exact transposed_example. Qed.

(** With output padding the claim fails, already for the mirrored line, one pixel
    and the constant kernel of size 1. *)
Theorem C58_output_padding_needed : forall half, half 0 = 0 -> half 1 = 1 -> half (-1) = -1 -> forall affine,
  exists x y x' y' z, kernel_on 1 1 1 (fun _ => mid) /\ steers 1 1 1 mirror mid mid (fun _ => mid) /\ shape x = [1; 1; 1]%nat /\
    transposed_forward 1 2 0 1 1 1 1 1 1 (fun o i q => mid o i) None x = Ret y /\
    transform half affine 1 mid 1 mirror x = Ret x' /\
    transposed_forward 1 2 0 1 1 1 1 1 1 (fun o i q => mid o i) None x' = Ret y' /\
    transform half affine 1 mid 1 mirror y = Ret z /\ ~ same_array y' z.
Proof. exact output_padding_breaks. Qed.
Print Assumptions C58_output_padding_needed.
