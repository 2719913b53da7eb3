(** What rescaling the running state means, in terms of the arrays the caller passes:
    qdotk_max [cells], sums [cells] each, accumulators [cells][n] each, one after the other. *)
From Coq Require Import List Arith Reals.
From Verif Require Import DistAttnModel.
Local Open Scope nat_scope.

Section Spec.
Variables (cells n ns : nat).
Definition the_max (o : nat -> R) (c : nat) : R := o c.
Definition the_sum (o : nat -> R) (i c : nat) : R := o (cells + i * cells + c).
Definition the_acc (o : nat -> R) (j c ch : nat) : R := o (cells + ns * cells + (j * cells + c) * n + ch).
(** [x] is [y] times exp(old - new), where minus infinity is the number [ninf] *)
Definition times_exp (ninf old new y x : R) : Prop :=
  (old = new -> x = y) /\ (old <> new -> old = ninf -> x = 0%R) /\ (old <> new -> old <> ninf -> x = (exp (old - new) * y)%R).
(** the cells of [cov] get the new maximum, their sums and the channels of [ok] are scaled;
    everything else is as before *)
Record rescaled (nv : nat) (ninf : R) (cov ok : nat -> Prop) (cur out o : nat -> R) : Prop := mkResc {
  re_max : forall c, cov c -> the_max o c = cur c;
  re_sum : forall c i, cov c -> i < ns -> times_exp ninf (the_max out c) (cur c) (the_sum out i c) (the_sum o i c);
  re_acc : forall c j ch, cov c -> j < nv -> ch < n -> ok ch -> times_exp ninf (the_max out c) (cur c) (the_acc out j c ch) (the_acc o j c ch);
  re_bad : forall c j ch, cov c -> j < nv -> ch < n -> ~ ok ch -> the_acc o j c ch = the_acc out j c ch;
  re_off : forall c, c < cells -> ~ cov c -> the_max o c = the_max out c /\ (forall i, i < ns -> the_sum o i c = the_sum out i c) /\ forall j ch, j < nv -> ch < n -> the_acc o j c ch = the_acc out j c ch }.
(** the arrays hold the state [st] of cell c (of the sequential kernels) *)
Definition as_num (ninf : R) (m : option R) : R := match m with None => ninf | Some m => m end.
Definition holds (ninf : R) (o : nat -> R) (c : nat) (st : rst) : Prop :=
  the_max o c = as_num ninf (r_max st) /\ the_sum o 0 c = r_sum st /\ forall ch, ch < n -> the_acc o 0 c ch = r_acc st ch.
End Spec.
(** the cells of the rows [rows] of every batch element *)
Definition row_cells (B Ho Wo : nat) (rows : list nat) (c : nat) : Prop := exists b ho wo, b < B /\ In ho rows /\ wo < Wo /\ c = (b * Ho + ho) * Wo + wo.
(** how many sums and accumulators the forward and the backward state have; the most channels
    for which there is a launch *)
Definition copies (bwd : bool) : nat := if bwd then 2 else 1.
Definition max_chans (bwd : bool) : nat := if bwd then 16 * 512 else 16 * 1024.
