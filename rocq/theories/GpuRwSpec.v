(** What a launch of a kernel that reads its own output is expected to do, when [ws]
    consecutive threads at a time proceed together: ws = 32 is a warp whose threads run in
    lockstep, ws = 1 leaves the threads free to run in any order. *)
From Coq Require Import List Arith Lia Bool Reals.
From Verif Require Import TensorModel GpuModel GpuSpec GpuRwModel.
Import ListNotations.
Local Open Scope nat_scope.

(** how many instructions the thread has executed *)
Definition done (k : kernel) (s : state) (g t : nat) : nat := length (k_code k g t) - length (s_code s g t).
(** a thread may take its next step when none of the others has fallen behind it *)
Definition in_step (ws : nat) (k : kernel) (s : state) (l : label) : Prop :=
  match l with
  | LThread g t => forall t', t' < k_threads k -> t' / ws = t / ws -> s_code s g t' = [] \/ done k s g t <= done k s g t'
  | _ => True
  end.
Inductive lpath (ws base : nat) (k : kernel) : nat -> state -> state -> Prop :=
| lpath_refl : forall s, lpath ws base k 0 s s
| lpath_step : forall n l s s' u, in_step ws k s l -> rexec base k l s = Some s' -> lpath ws base k n s' u -> lpath ws base k (S n) s u.
(** as [settles] of GpuSpec *)
Definition lsettles (ws base : nat) (k : kernel) (s : state) (P : (nat -> R) -> Prop) : Prop :=
  exists n, forall j u, lpath ws base k j s u -> j <= n /\ ((forall l, in_step ws k u l -> rexec base k l u = None) -> finished k u /\ P (s_out u)).
(** some execution ends with an output that satisfies P *)
Definition may_end (ws base : nat) (k : kernel) (s : state) (P : (nat -> R) -> Prop) : Prop :=
  exists n u, lpath ws base k n s u /\ finished k u /\ P (s_out u).
