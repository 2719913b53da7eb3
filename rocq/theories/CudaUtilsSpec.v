(** What the helper kernels of the CUDA attention are expected to do. *)
From Coq Require Import List Arith Lia Bool Reals ZArith Permutation Sorted.
From Verif Require Import TensorModel GpuModel GpuSpec CudaDiscoModel.
Import ListNotations.
Local Open Scope nat_scope.

(** The conversions of a tensor with B samples, C channels and H x W points run on a GPU. [first]: the dimension along
    the blocks' x axis, [second]: along y. *)
Definition converts (dev : device) (B C H W first second : nat) : Prop :=
  1 <= B /\ 1 <= C /\ 1 <= H /\ 1 <= W /\ first <= 32 * d_gridx dev /\ second <= 32 * (64 * 1024 - 1) /\ B * H <= 64 * 1024 - 1 /\ (Z.of_nat (B * C * H * W) < 2147483648)%Z.

(** Rows by decreasing length; rows of the same length in their order. *)
Definition by_length (len : nat -> nat) (a b : nat) : Prop := len b < len a \/ len a = len b /\ a < b.
Definition row_order (n : nat) (len : nat -> nat) (idx : list nat) : Prop := Permutation idx (seq 0 n) /\ StronglySorted (by_length len) idx.

(** The rows fall into those with at least m entries, in front, and those with fewer; [a] is the number of the
    former, b and c the lengths of the longest rows of each kind (0: there is none). *)
Definition longest (len : nat -> nat) (l : list nat) : nat := list_max (map len l).
Definition splits (len : nat -> nat) (idx : list nat) (m : nat) (s : nat * nat * nat) : Prop :=
  let '(a, b, c) := s in exists long short, idx = long ++ short /\ length long = a /\ (forall r, In r long -> m <= len r) /\ (forall r, In r short -> len r < m) /\
    b = longest len long /\ c = longest len short.
