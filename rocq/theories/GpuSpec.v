(** What a kernel launch is expected to do, whatever the order in which threads run. *)
From Coq Require Import List Arith Lia Bool Reals.
From Verif Require Import TensorModel GpuModel.
Import ListNotations.
Local Open Scope nat_scope.

(** n steps, by any threads *)
Inductive path (k : kernel) : nat -> state -> state -> Prop :=
| path_refl : forall s, path k 0 s s
| path_step : forall n l s s' u, exec k l s = Some s' -> path k n s' u -> path k (S n) s u.

(** All threads of the grid have run to their end. *)
Definition finished (k : kernel) (s : state) : Prop := forall g t, g < k_groups k -> t < k_threads k -> s_code s g t = [].

(** No execution runs forever, and one that cannot go on has ended: no thread waits at a
    barrier its group does not reach, none attempts an access outside the arrays; the output
    then satisfies P. *)
Definition settles (k : kernel) (s : state) (P : (nat -> R) -> Prop) : Prop :=
  exists n, forall j u, path k j s u -> j <= n /\ ((forall l, exec k l u = None) -> finished k u /\ P (s_out u)).
