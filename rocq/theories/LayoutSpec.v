(** Specification of layouts: indices, row-major positions, owning a storage. *)
From Coq Require Import List Arith.
From Verif Require Import LayoutModel.
Import ListNotations.

(** An index of a shape *)
Definition inb (s i : list nat) : Prop := Forall2 lt i s.
(** The position of an index in row-major order *)
Fixpoint pos (s i : list nat) : nat := match s, i with n :: s, k :: i => k * fold_right Nat.mul 1 s + pos s i | _, _ => 0 end.
(** A tensor of a memory *)
Definition lives {A} (m : mem A) (t : ten) : Prop := st t < next A m /\ length (str t) = length (sh t).
(** Every tensor of the memory [m] has kept its elements in [m'] *)
Definition keeps {A} (m m' : mem A) : Prop := forall t i, lives m t -> lives m' t /\ elem A m' t i = elem A m t i.
(** Storages are not shared: writing any element of [t] changes no tensor of [m] *)
Definition owned {A} (m m' : mem A) (t : ten) : Prop := forall u i j v, lives m u -> elem A (write A m' t i v) u j = elem A m' u j.
(** [t] lies in memory as a kernel that counts in row-major order expects it *)
Definition rowmajor (t : ten) : Prop := forall i, inb (sh t) i -> addr t i = off t + pos (sh t) i.
