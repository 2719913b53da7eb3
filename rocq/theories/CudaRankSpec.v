(** All launches of a rank in every possible execution. *)
From Coq Require Import List Arith Reals.
From Verif Require Import GpuModel GpuSpec GpuRwModel GpuRwSpec AttnModel DistAttnModel CudaRingUpSpec CudaRingSpec CudaRingBwdSpec.
Import ListNotations.
Local Open Scope nat_scope.

(** one ring step after the other, on the same buffers *)
Fixpoint round_ends {A : Type} (ws cells : nat) (ks : A -> option ring_launches) (l : list A) (st : nat -> R) (Q : (nat -> R) -> Prop) : Prop :=
  match l with
  | [] => Q st
  | c :: r => match ks c with None => False | Some k => ring_ends ws cells k st (fun o => round_ends ws cells ks r o Q) end
  end.
(** one step after the other, each on fresh buffers of zeros: [Q] of what they leave *)
Fixpoint each_ends {A : Type} (ks : A -> option (option kernel * option kernel)) (l : list A) (Q : list (nat -> R) -> Prop) : Prop :=
  match l with
  | [] => Q []
  | c :: r => match ks c with None => False | Some k => pass2_ends k (fun _ => 0%R) (fun g => each_ends ks r (fun gs => Q (g :: gs))) end
  end.
(** the fields agree inside of the tensor *)
Definition same4 (B H W C : nat) (f g : fld) : Prop := forall b h w c, b < B -> h < H -> w < W -> c < C -> f b h w c = g b h w c.
