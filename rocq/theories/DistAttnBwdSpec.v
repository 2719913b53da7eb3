(** Gradients of attention on a grid of ranks. *)
From Coq Require Import List Arith Reals.
From Verif Require Import TensorModel BigSum PrimSpec DistSHTModel.
Import ListNotations.

(** Channels-last with packed heads (B, H, W, nh*C) as the distributed layer keeps it: heads in
    the batch, channels first (B*nh, C, H, W). *)
Definition folded_heads (nh C : nat) (t : tensor R) : tensor R :=
  mkT [dimsz t 0 * nh; C; dimsz t 1; dimsz t 2] (fun i => val t [nth 0 i 0 / nh; nth 2 i 0; nth 3 i 0; nth 0 i 0 mod nh * C + nth 1 i 0]).
(** The block of rank (p, a). *)
Definition block (Np A : nat) (X : tensor R) (p a : nat) : tensor R := shard 2 Np p (shard 3 A a X).
(** Inner product over all ranks. *)
Definition rank_dot (Np A : nat) (x y : nat -> nat -> tensor R) : R := rsum Np (fun p => rsum A (fun a => dot (x p a) (y p a))).
(** Every rank has a key, a value and a query. *)
Definition triples (k v q : pfam (tensor R)) : pfam (tensor R * tensor R * tensor R) := fun p a =>
  do k <- k p a; do v <- v p a; do q <- q p a; Some (k, v, q).
Definition given (x : nat -> nat -> tensor R) : pfam (tensor R) := fun p a => Some (x p a).
