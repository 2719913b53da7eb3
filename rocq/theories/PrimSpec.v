(** Independent specification of balanced block distribution. *)
From Coq Require Import List Arith Lia Bool Reals.
From Verif Require Import TensorModel PrimModel BigSum.
Import ListNotations.

(** First index owned by rank [r] when [size] elements are distributed over [n]
    ranks in contiguous blocks, the first [size mod n] blocks being one longer. *)
Definition chunk_lo (size n r : nat) : nat := r * (size / n) + Nat.min r (size mod n).
(** Number of elements owned by rank [r]. *)
Definition chunk_len (size n r : nat) : nat := chunk_lo size n (S r) - chunk_lo size n r.

(** The block of tensor [t] along dimension [d] owned by rank [r] of [n]. *)
Definition shard {A} (d n r : nat) (t : tensor A) : tensor A :=
  narrow d (chunk_lo (dimsz t d) n r) (chunk_len (dimsz t d) n r) t.

(** The [r]-th block along [d] for an arbitrary list of block sizes. *)
Definition shard_by {A} (sizes : list nat) (d r : nat) (t : tensor A) : tensor A :=
  narrow d (sum_list (firstn r sizes)) (nth r sizes 0) t.

(** [o] is a normal return with a tensor observationally equal to [t]. *)
Definition returns {A} (o : option (tensor A)) (t : tensor A) : Prop :=
  exists u, o = Some u /\ teq u t.

(** [t] extended by [r] rows of zeros on both sides of dimension [d]. *)
Definition zero_pad {A} (z : A) (d r : nat) (t : tensor A) : tensor A :=
  mkT (upd d (r + dimsz t d + r) (shp t))
      (fun i => if (r <=? nth d i 0) && (nth d i 0 <? r + dimsz t d)
                then val t (upd d (nth d i 0 - r) i) else z).

Definition holds {A} (n : nat) (x : fam (tensor A)) (g : nat -> tensor A) : Prop :=
  forall r, r < n -> returns (x r) (g r).

(** Extract the concrete outputs of a family. *)
Definition outs (n : nat) (f : fam (tensor R)) (y : nat -> tensor R) : Prop :=
  forall r, r < n -> f r = Some (y r).

Local Open Scope R_scope.
(** Sum over all valid multi-indices of a shape; inner product. *)
Fixpoint isum (s : list nat) (f : list nat -> R) : R :=
  match s with
  | [] => f []
  | n :: s' => rsum n (fun k => isum s' (fun i => f (k :: i)))
  end.
Definition dot (t u : tensor R) : R := isum (shp t) (fun i => val t i * val u i).

