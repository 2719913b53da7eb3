(** What a ring step of distributed attention in the gather direction means for the arrays the
    GPU kernels work on. *)
From Coq Require Import List Arith ZArith Reals.
From Verif Require Import AttnModel GpuModel GpuSpec GpuRwModel GpuRwSpec DistAttnModel CudaRescaleSpec CudaRingUpSpec AttnSpec.
Import ListNotations.
Local Open Scope nat_scope.

(** the launches for the long rows and the launch for the others *)
Definition long_launches : Type := ((nat -> R) -> kernel) * ((nat -> R) -> kernel) * ((nat -> R) -> kernel).
Definition ring_launches : Type := option long_launches * option kernel.
(** The three launches for the long rows, each in every possible execution: the first reads the old
    maxima and works on a copy of them, the second on all buffers (threads of a warp in lockstep),
    the third on the sums and accumulators; the last two read the copy. *)
Definition long_ends (ws cells : nat) (k : long_launches) (st : nat -> R) (Q : (nat -> R) -> Prop) : Prop :=
  let '(k1, k2, k3) := k in
  forall rg1 sh1, settles (k1 st) (start (k1 st) rg1 sh1 st) (fun m =>
  forall rg2 sh2, lsettles ws cells (k2 m) (start (k2 m) rg2 sh2 st) (fun s =>
  forall rg3 sh3, settles (k3 m) (start (k3 m) rg3 sh3 (fun a => s (cells + a))) (fun o =>
  Q (fun a => if a <? cells then s a else o (a - cells))))).
(** The launch for the other rows, which reads the buffers it writes: every thread runs on its own. *)
Definition short_ends (k : kernel) (st : nat -> R) (Q : (nat -> R) -> Prop) : Prop :=
  forall rg sh, lsettles 1 (k_insize k - k_outsize k) k (start k rg sh st) Q.
Definition if_any {A : Type} (run : A -> (nat -> R) -> ((nat -> R) -> Prop) -> Prop) (k : option A) (st : nat -> R) (Q : (nat -> R) -> Prop) : Prop :=
  match k with None => Q st | Some k => run k st Q end.
Definition ring_ends (ws cells : nat) (k : ring_launches) (st : nat -> R) (Q : (nat -> R) -> Prop) : Prop :=
  if_any (long_ends ws cells) (fst k) st (fun o => if_any short_ends (snd k) o Q).
(** one step after the other, each chunk with the launches [ks c] *)
Fixpoint rings_end (ws cells : nat) (ks : chunk -> option ring_launches) (l : list chunk) (st : nat -> R) (Q : (nat -> R) -> Prop) : Prop :=
  match l with
  | [] => Q st
  | c :: r => match ks c with None => False | Some k => ring_ends ws cells k st (fun o => rings_end ws cells ks r o Q) end
  end.
(** the first [nl] rows of the order have at most [max_len] entries, the others at most [mid_len] *)
Definition lengths_ok (P : pattern) (row_idx : list nat) (nl max_len mid_len : nat) : Prop :=
  (forall r, In r (firstn nl row_idx) -> length (nth r P []) <= max_len) /\ (forall r, In r (skipn nl row_idx) -> length (nth r P []) <= mid_len).
(** a chunk of keys and values and the pattern of the rank's outputs *)
Record gchunk_ok (B Ck Cv Ho Wo Wi nq : nat) (ninf : R) (qf : fld) (c : chunk) : Prop := mkGCO {
  gc_pat : pattern_ok (c_pat c) Ho (nq * Wi);
  gc_k : lays B (c_H c) (c_W c) Ck (c_kA c) (c_k c);
  gc_v : lays B (c_H c) (c_W c) Cv (c_vA c) (c_v c);
  gc_above : scores_above ninf B (c_H c) (c_W c) Ho Wo Ck (c_k c) qf }.
