(** Model of the nonlinearities that act on samples of a band-limited function on
    a group or a homogeneous space: escnn/nn/modules/nonlinearities/fourier.py and
    fourier_quotient.py, with the representations they use
    (escnn/group/homspace.py:245-277, 319-391, escnn/group/group.py:613-655).

    Simplifications. As in NonlinModel a tensor is the list of its channel values
    at one batch entry and position. The caches of representations by name are
    left out: the names list the irreps, so a cached representation is the one
    that would be built. [T] and [S] are the elements of the group and of the
    subgroup, which is the trivial one for FourierPointwise. *)
From Coq Require Import Reals String List ZArith Arith Bool.
From Verif Require Import LibRes LibPy LibMat LibTrig ParamModel FieldModel GroupedModel NonlinModel PoolModel IrrepModel RepModel RegModel IndModel.
Import ListNotations.
Open Scope R_scope.

Section Fourier.
Context {T S : Type}.
Variables (irrG : list Z -> res (girrep T)) (irrH : list Z -> res (girrep S)).
Variable restrict : list Z -> res (repr S).
Variable components : nat -> (nat -> nat -> bool) -> nat * (nat -> nat).
Variable linv : nat -> mat -> res mat.
(** self.H.trivial_representation *)
Variable psi : girrep S.
(** G.identity *)
Variable e : T.
(** The order in which Python iterates over a set of ids *)
Variable order : list (list Z) -> list (list Z).
(** equality of field types *)
Variable teqb : list (repr T) -> list (repr T) -> bool.

(** The multiplicity of dimension_basis homspace.py:245-277 *)
Definition dimension_basis (rho : girrep T) : res nat :=
  rho_H <- restrict (gi_id rho) ;;
  let m := INR (r_multiplicity rho_H (gi_id psi) * gi_sosc psi) / INR (gi_sosc rho) in
  assert (np_isclose (/ 10 ^ 8) m (IZR (pyround m))) ;;
  Ret (Z.to_nat (pyround m)).

Definition no_repetition (ids : list (list Z)) : bool :=
  Nat.eqb (List.length (nodup (list_eq_dec Z.eq_dec) ids)) (List.length ids).

(** HomSpace.induced_representation homspace.py:341-391 for a new name, and
    Group.spectral_quotient_representation group.py:633-655; [None] is `return None` *)
Definition spectral (ids : list (list Z)) : res (option (repr T)) :=
  assert (Nat.ltb 0 (List.length ids)) ;;
  rs <- mapM irrG ids ;;
  assert (no_repetition (map gi_id rs)) ;;
  ms <- mapM (fun id => r <- irrG id ;; m <- dimension_basis r ;; Ret (repeat id m, (m * gi_size r)%nat)) (map gi_id rs) ;;
  let size := list_sum (map snd ms) in
  if Nat.eqb size 0 then Ret None
  else r <- mk_repr irrG linv (flat_map fst ms) size mid None ;; Ret (Some r).

(** _build_kernel fourier.py:19-30 *)
Definition regular_kernel (ids : list (list Z)) : res (list R) :=
  ks <- mapM (fun id => r <- irrG id ;; M <- gi_rep r e ;;
                        Ret (flat_map (fun m => map (fun i => snd M i m * sqrt (INR (gi_size r))) (seq 0 (gi_size r)))
                               (seq 0 (gi_size r / gi_sosc r)))) ids ;;
  assert (Nat.ltb 0 (List.length ks)) ;; Ret (List.concat ks).
(** _build_kernel fourier_quotient.py:19-31; the transpose of an array of shape
    (size, m, psi.size) is flattened *)
Definition quotient_kernel (ids : list (list Z)) : res (list R) :=
  ks <- mapM (fun id => r <- irrG id ;; B <- dirac_kernel_ft irrH restrict components r psi ;;
                        Ret (flat_map (fun p => flat_map (fun Bm : mat => map (fun i => Bm i p) (seq 0 (gi_size r))) B)
                               (seq 0 (gi_size psi)))) ids ;;
  assert (Nat.ltb 0 (List.length ks)) ;; Ret (List.concat ks).

Definition some_repr (o : option (repr T)) : res (repr T) := match o with Some r => Ret r | None => Raise end.

(** `rho(g) @ kernel for g in grid`: the rows of A; 126-140, 146-158 *)
Definition sample_rows (build : list (list Z) -> res (list R)) (normalize : bool) (ids : list (list Z)) (rho : repr T)
    (grid : list T) : res (list (list R)) :=
  k <- build ids ;;
  assert (Nat.eqb (List.length k) (r_size rho)) ;;
  let k := if normalize then map (fun a => a / vnorm k) k else k in
  assert (Nat.ltb 0 (List.length grid)) ;;
  mapM (fun g => M <- r_fun rho g ;; Ret (matvec (r_size rho) (snd M) k)) grid.

(** A_out.T @ A_out + eps * np.eye(n), 164-165 *)
Definition gram (n : nat) (rows : list (list R)) : mat := fun i j =>
  lsum (map (fun a => nth i a 0 * nth j a 0) rows) + / 10 ^ 8 * mid i j.
(** the rows of np.linalg.inv(...) @ A_out.T *)
Definition pseudo_inverse (n : nat) (Gi : mat) (rows : list (list R)) : list (list R) :=
  map (fun f => map (fun a => sumn n (fun i => Gi f i * nth i a 0)) rows) (seq 0 n).

Record fourier_module := {
  fm_rho : repr T; fm_out : repr T; fm_channels : nat; fm_function : R -> R;
  fm_A : list (list R); fm_Ainv : list (list R) }.
Definition fm_in_type (m : fourier_module) : list (repr T) := repeat (fm_rho m) (fm_channels m).
Definition fm_out_type (m : fourier_module) : list (repr T) := repeat (fm_out m) (fm_channels m).

(** FourierPointwise.__init__ fourier.py:94-171 with [build = regular_kernel],
    QuotientFourierPointwise.__init__ fourier_quotient.py:115-194 with
    [build = quotient_kernel]; FieldType refuses an empty list of representations *)
Definition mk_fourier (build : list (list Z) -> res (list R)) (channels : nat) (ids : list (list Z)) (function : string)
    (out_ids : option (list (list Z))) (normalize : bool) (grid : list T) : res fourier_module :=
  rho <- spectral ids ;; rho <- some_repr rho ;;
  assert (Nat.ltb 0 channels) ;;
  out <- match out_ids with None => Ret rho | Some o => r <- spectral o ;; some_repr r end ;;
  fn <- pointwise_function function ;;
  A <- sample_rows build normalize ids rho grid ;;
  ext <- match out_ids with
         | None => Ret (rho, A)
         | Some o =>
             let missing := order (filter (fun id => negb (existsb (fun i => if list_eq_dec Z.eq_dec i id then true else false) o))
                                     (nodup (list_eq_dec Z.eq_dec) ids)) in
             r <- spectral (o ++ missing) ;; r <- some_repr r ;;
             B <- sample_rows build normalize (o ++ missing) r grid ;; Ret (r, B)
         end ;;
  let n := r_size (fst ext) in
  Gi <- linv n (gram n (snd ext)) ;;
  let Ainv := pseudo_inverse n Gi (snd ext) in
  Ret {| fm_rho := rho; fm_out := out; fm_channels := channels; fm_function := fn; fm_A := A;
         fm_Ainv := match out_ids with None => Ainv | Some _ => firstn (r_size out) Ainv end |}.

(** einsum over one axis *)
Definition dot (u v : list R) : R := lsum (map (fun p => fst p * snd p) (List.combine u v)).

(** forward 173-199, 196-222. The view fails when the number of channels is not
    the size of the type. *)
Definition fourier_field (m : fourier_module) (v : list R) : list R :=
  let y := map (fun a => fm_function m (dot v a)) (fm_A m) in
  map (fun b => dot y b) (fm_Ainv m).
Definition fourier_forward (m : fourier_module) (x : gtensor (repr T) R) : res (gtensor (repr T) R) :=
  assert (teqb (g_type x) (fm_in_type m)) ;;
  assert (Nat.eqb (List.length (g_chans x)) (fm_channels m * r_size (fm_rho m))) ;;
  mk_gtensor r_size (fm_out_type m) (flat_map (fourier_field m) (chunks (fm_channels m) (r_size (fm_rho m)) (g_chans x))).
End Fourier.
