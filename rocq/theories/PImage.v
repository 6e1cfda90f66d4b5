(** Properties C41 and C52: layers on images commute with the symmetries of the grid. *)
From Coq Require Import Reals List Lia Lra.
From Verif Require Import LibRes LibMat GridModel SpecGrid ImageModel SpecImage MaskThms ConvThms ImageEx.
Import ListNotations.
Open Scope R_scope.

(** ** C41: convolution *)
Theorem C41_equivariant : forall half, half 0 = 0 -> half 1 = 1 -> half (-1) = -1 ->
  forall affine n M m p groups stride dil cout cin k K bias A Bo rin x y B ws, signed_perm n M ->
  kernel_on n cout cin K -> steers n cout cin M A Bo K -> repeats groups cin rin A -> in_blocks groups cout Bo ->
  (forall v, bias = Some v -> forall o, (o < cout)%nat -> sumn cout (fun j => Bo o j * nth j v 0) = nth o v 0) ->
  shape x = B :: (groups * cin)%nat :: ws -> length ws = n ->
  Forall (fun w => (w + 2 * p - (dil * (k - 1) + 1)) mod stride = 0)%nat ws ->
  conv_forward m p groups stride dil (reshape_filter cout cin k n (fun o i q => K (grid_coords k dil q) o i)) bias x = Ret y ->
  exists x' y' z, transform half affine (groups * cin) rin n M x = Ret x' /\
    conv_forward m p groups stride dil (reshape_filter cout cin k n (fun o i q => K (grid_coords k dil q) o i)) bias x' = Ret y' /\
    transform half affine cout Bo n M y = Ret z /\ same_array y' z.
Proof. exact conv_equivariant. Qed.
Print Assumptions C41_equivariant.

(** The kernel x |-> x from scalars to vectors, for the rotation by a right angle *)
Example C41_ex : signed_perm 2 quarter /\ kernel_on 2 2 1 radial /\ steers 2 2 1 quarter mid quarter radial /\ repeats 1 1 mid mid /\ in_blocks 1 2 quarter /\
  exists y, conv_forward PadCircular 1 1 2 1 (reshape_filter 2 1 3 2 (fun o i q => radial (grid_coords 3 1 q) o i)) None
    {| shape := [1; 1; 3; 5]%nat; entry := fun idx => INR (nth 3 idx 0%nat) |} = Ret y.
Proof. exact conv_example. Qed.

(** The condition on the sizes is needed: picking every second of two pixels does
    not commute with exchanging them. *)
Theorem C41_stride_needed : forall half, half 0 = 0 -> half 1 = 1 -> half (-1) = -1 -> forall affine,
  exists x y x' y' z, kernel_on 1 1 1 (fun _ => mid) /\ steers 1 1 1 mirror mid mid (fun _ => mid) /\ shape x = [1; 1; 2]%nat /\
    conv_forward PadZeros 0 1 2 1 (reshape_filter 1 1 1 1 (fun o i q => mid o i)) None x = Ret y /\
    transform half affine 1 mid 1 mirror x = Ret x' /\
    conv_forward PadZeros 0 1 2 1 (reshape_filter 1 1 1 1 (fun o i q => mid o i)) None x' = Ret y' /\
    transform half affine 1 mid 1 mirror y = Ret z /\ ~ same_array y' z.
Proof. exact stride_needed. Qed.
Print Assumptions C41_stride_needed.

(** ** C52: the mask *)
Theorem C52_built : forall s n margin sigma, (exists mask, build_mask s n margin sigma = Ret mask) <->
  sigma <> 0 \/ forall k, valid (repeat s n) k -> dist2 s k <= ((INR s - 1) / 2 * (1 - margin / 100)) ^ 2.
Proof. exact mask_built. Qed.
Print Assumptions C52_built.

Theorem C52_values : forall s n margin sigma mask, build_mask s n margin sigma = Ret mask ->
  (forall k, valid (repeat s n) k -> 0 < entry mask (0%nat :: 0%nat :: k) <= 1 /\
     (entry mask (0%nat :: 0%nat :: k) = 1 <-> dist2 s k <= ((INR s - 1) / 2 * (1 - margin / 100)) ^ 2)) /\
  (forall k k', valid (repeat s n) k -> valid (repeat s n) k' ->
     ((INR s - 1) / 2 * (1 - margin / 100)) ^ 2 <= dist2 s k ->
     entry mask (0%nat :: 0%nat :: k') = entry mask (0%nat :: 0%nat :: k) * exp ((dist2 s k - dist2 s k') / sigma ^ 2) \/ dist2 s k' < dist2 s k).
Proof. exact mask_values. Qed.
Print Assumptions C52_values.

Theorem C52_invariant : forall s n margin sigma mask M, build_mask s n margin sigma = Ret mask -> signed_perm n M -> moved 2 n M mask mask.
Proof. exact mask_invariant. Qed.
Print Assumptions C52_invariant.

Theorem C52_commutes : forall half, half 0 = 0 -> half 1 = 1 -> half (-1) = -1 -> forall affine s n margin sigma mask c rho M x B,
  build_mask s n margin sigma = Ret mask -> signed_perm n M -> shape x = B :: c :: repeat s n ->
  exists y my mx z, transform half affine c rho n M x = Ret y /\ mask_forward mask y = Ret my /\
    mask_forward mask x = Ret mx /\ transform half affine c rho n M mx = Ret z /\ same_array my z.
Proof. exact mask_commutes. Qed.
Print Assumptions C52_commutes.
Example C52_ex : signed_perm 2 quarter /\ exists mask, build_mask 3 2 0 2 = Ret mask /\ entry mask [0; 0; 0; 0]%nat < 1 /\ entry mask [0; 0; 0; 1]%nat = 1.
Proof. exact mask_example. Qed.
