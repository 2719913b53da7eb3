(** What the gradients of replicated parameters should be, and the inner product of two
    distributed tensors. *)
From Coq Require Import List Arith Reals.
Import ListNotations.
From Verif Require Import TensorModel BigSum PrimSpec DistSHTModel DiscoSpec.
Local Open Scope nat_scope.

(** The ranks' tensors have the shape of [T] and add up to it: what an all-reduce over
    both axes of the grid returns. *)
Definition grid_total (P A : nat) (f : pfam (tensor R)) (T : tensor R) : Prop :=
  exists u : nat -> nat -> tensor R,
    (forall p a, p < P -> a < A -> f p a = Some (u p a) /\ shp (u p a) = shp T) /\
    (forall i, valid (shp T) i -> rsum P (fun p => rsum A (fun a => val (u p a) i)) = val T i).

(** [r] is the inner product of two tensors that are spread over the ranks. *)
Definition grid_inner (P A : nat) (f g : pfam (tensor R)) (r : R) : Prop :=
  exists F H : nat -> nat -> tensor R,
    (forall p a, p < P -> a < A -> f p a = Some (F p a) /\ g p a = Some (H p a) /\ shp (F p a) = shp (H p a)) /\
    r = rsum P (fun p => rsum A (fun a => dot (F p a) (H p a))).

(** [bwd g] is the gradient of an affine distributed operation for its input: between any
    two inputs the inner product of the output with [g] changes by the inner product of the
    change of the input with [bwd g]. *)
Definition grid_input_gradient (P A : nat) (fwd : pfam (tensor R) -> pfam (tensor R)) (bwd : pfam (tensor R) -> pfam (tensor R)) (x x' g : pfam (tensor R)) : Prop :=
  exists z z' i i', grid_inner P A (fwd x) g z /\ grid_inner P A (fwd x') g z' /\ grid_inner P A x (bwd g) i /\ grid_inner P A x' (bwd g) i' /\ (z' - z = i' - i)%R.
(** The ranks' gradients of a replicated weight and a replicated bias of [C] channels,
    summed over the ranks, are the gradients of the operation: [fwd] and [fwd'] are the
    outputs with the old and the new parameters. *)
Definition grid_parameter_gradient (P A C : nat) (fwd fwd' wgrad bgrad g : pfam (tensor R)) (weight weight' : tensor R) (bias bias' : option (tensor R)) : Prop :=
  exists z z' W b, grid_inner P A fwd g z /\ grid_inner P A fwd' g z' /\ grid_total P A wgrad W /\ shp W = shp weight /\ grid_total P A bgrad b /\ shp b = [C] /\
    (z' - z = (dot weight' W - dot weight W) + rsum C (fun o => (bias_at bias' o - bias_at bias o) * val b [o]))%R.
