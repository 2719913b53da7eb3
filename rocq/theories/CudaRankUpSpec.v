(** All launches of a rank in the upsampling direction, in every possible execution. *)
From Coq Require Import List Arith Reals.
From Verif Require Import GpuModel GpuSpec GpuRwModel GpuRwSpec CudaRingUpSpec CudaRingSpec CudaRingBwdSpec.
Import ListNotations.
Local Open Scope nat_scope.

(** one forward step after the other, on the same buffers *)
Fixpoint up_round_ends {A : Type} (ws cells : nat) (ks : A -> option (kernel * ((nat -> R) -> kernel) * ((nat -> R) -> kernel))) (l : list A) (st : nat -> R) (Q : (nat -> R) -> Prop) : Prop :=
  match l with
  | [] => Q st
  | c :: r => match ks c with None => False | Some k => step_ends ws cells k st (fun o => up_round_ends ws cells ks r o Q) end
  end.
(** one launch after the other, on the same buffers *)
Fixpoint chain_ends {A : Type} (ks : A -> option kernel) (l : list A) (st : nat -> R) (Q : (nat -> R) -> Prop) : Prop :=
  match l with
  | [] => Q st
  | c :: r => match ks c with None => False | Some k => ends k st (fun o => chain_ends ks r o Q) end
  end.
(** one launch after the other, each on fresh buffers of zeros: [Q] of what they leave *)
Fixpoint up_each_ends {A : Type} (ks : A -> option kernel) (l : list A) (Q : list (nat -> R) -> Prop) : Prop :=
  match l with
  | [] => Q []
  | c :: r => match ks c with None => False | Some k => ends k (fun _ => 0%R) (fun g => up_each_ends ks r (fun gs => Q (g :: gs))) end
  end.
