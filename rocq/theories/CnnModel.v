(** Model of networks on the plane: the layers of a steerable CNN as functions of geometric
    tensors. Sources: /repo/escnn/nn/modules/conv/r2convolution.py:193-231,
    nonlinearities/norm.py:119-204, nonlinearities/pointwise.py:63-80,
    invariantmaps/gpool.py:82-125, pooling/pointwise_avg.py:84-102, pooling/pointwise_max.py:111-127,
    masking_module.py:96-106, sequential_module.py:74-90 (the loop of SequentialModule.forward).
    The nonlinearities and GroupPooling are modelled in NonlinModel and PoolModel on the channels
    at one pixel; torch applies them at all pixels at once, and so does [at_pixels]. They raise
    because of the type of the input only, so whether they raise is read off an input of
    zeros; the content of torch.empty ([junk]) is the same at all pixels. *)
From Coq Require Import Reals List.
From Verif Require Import LibRes FieldModel NonlinModel PoolModel GridModel ImageModel SPoolModel RepModel RdConvModel NetModel.
Import ListNotations.
Local Open Scope nat_scope.

Section Cnn.
Context {A : Type}.
Variable size : A -> nat.
Variable teqb : list A -> list A -> bool.

(** the channels tensor[b, :, p] *)
Definition fiber (x : tensor A) (b : nat) (p : list nat) : gtensor A R :=
  {| g_type := fst x; g_chans := map (fun i => entry (snd x) (b :: i :: p)) (seq 0 (nth 1 (shape (snd x)) 0)) |}.
Definition at_pixels (F : gtensor A R -> res (gtensor A R)) (x : tensor A) : res (tensor A) :=
  y0 <- F {| g_type := fst x; g_chans := repeat 0%R (nth 1 (shape (snd x)) 0) |} ;;
  Ret (g_type y0,
       {| shape := nth 0 (shape (snd x)) 0 :: type_size size (g_type y0) :: skipn 2 (shape (snd x));
          entry := fun idx => match idx with
                    | b :: k :: p => match F (fiber x b p) with Ret y => nth k (g_chans y) 0%R | Raise => 0%R end
                    | _ => 0%R end |}).
(** layers that keep the type: `assert input.type == self.in_type`, the result has the type out_type *)
Definition of_type (ft : list A) (F : array R -> res (array R)) (x : tensor A) : res (tensor A) :=
  assert (teqb (fst x) ft) ;; y <- F (snd x) ;; Ret (ft, y).
(** GroupPooling gpool.py:52, 125: the output has one field of the trivial representation per field *)
Definition invariants (triv : A) (F : gtensor A R -> res (list R)) (x : gtensor A R) : res (gtensor A R) :=
  out <- F x ;; Ret {| g_type := repeat triv (length out); g_chans := out |}.
End Cnn.

Section Layers.
Context {A X T : Type}.
Variables (rep : A -> repr T) (name : A -> String.string) (aeqb : A -> A -> bool).
Inductive layer :=
  | LConv (c : rdconv A X) (weights bias : list R)
  | LNorm (m : @norm_module A) (log_bias junk : list R)
  | LPoint (m : list A * (R -> R))
  | LGroupPool (m : @pool_module A) (triv : A) (junk : list R)
  | LAvg (ft : list A) (kernel : nat) (stride : option nat) (padding : nat) (ceil : bool)
  | LMax (ft : list A) (l : max_layer)
  | LMask (ft : list A) (mask : array R).
Definition layer_run (l : layer) : tensor A -> res (tensor A) :=
  let size := asize rep in
  let teqb := same_type aeqb in
  match l with
  | LConv c w b => rc_forward rep name aeqb c w b
  | LNorm m lb junk => at_pixels size (norm_forward size teqb m lb junk)
  | LPoint m => at_pixels size (pointwise_forward size teqb m)
  | LGroupPool m triv junk => at_pixels size (invariants triv (group_pooling size teqb m junk))
  | LAvg ft kernel stride padding ceil => of_type teqb ft (avg_forward kernel stride padding ceil)
  | LMax ft l => of_type teqb ft (max_forward l)
  | LMask ft mask => of_type teqb ft (mask_forward mask)
  end.
(** in_type and out_type of the modules *)
Definition layer_in (l : layer) : list A :=
  match l with
  | LConv c _ _ => rc_in c
  | LNorm m _ _ => NonlinModel.nm_type m
  | LPoint m => fst m
  | LGroupPool m _ _ => pl_type m
  | LAvg ft _ _ _ _ => ft
  | LMax ft _ => ft
  | LMask ft _ => ft
  end.
Definition layer_out (l : layer) : list A :=
  match l with
  | LConv c _ _ => rc_out c
  | LGroupPool m triv _ => repeat triv (length (pl_type m))
  | _ => layer_in l
  end.
End Layers.
