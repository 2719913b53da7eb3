(** What a backward ring step of distributed attention in the gather direction means for the arrays
    the GPU kernels work on. *)
From Coq Require Import List Arith ZArith Reals.
From Verif Require Import AttnModel GpuModel GpuSpec GpuRwModel GpuRwSpec DistAttnModel DistAttnBwdModel CudaRescaleSpec CudaRingUpSpec CudaRingSpec AttnSpec.
Import ListNotations.
Local Open Scope nat_scope.

(** a launch in every possible execution, whatever registers and shared memory hold before *)
Definition ends (k : kernel) (st : nat -> R) (Q : (nat -> R) -> Prop) : Prop := forall rg sh, settles k (start k rg sh st) Q.
(** the launch for the long rows, then the launch for the others *)
Definition pass2_ends (k : option kernel * option kernel) (st : nat -> R) (Q : (nat -> R) -> Prop) : Prop := if_any ends (fst k) st (fun o => if_any ends (snd k) o Q).
(** the gradients dkx [B][H][W][Ck] and dvx [B][H][W][Cv], one after the other, hold what they did
    plus [dk] and [dv] *)
Definition grads_add (B H W Ck Cv : nat) (st o : nat -> R) (dk dv : fld) : Prop :=
  forall b h w, b < B -> h < H -> w < W -> let c := (b * H + h) * W + w in
  (forall x, x < Ck -> o (c * Ck + x) = (st (c * Ck + x)%nat + dk b h w x)%R) /\
  (forall x, x < Cv -> o (B * H * W * Ck + (c * Cv + x)) = (st (B * H * W * Ck + (c * Cv + x))%nat + dv b h w x)%R).
(** every entry of the pattern leads to a row of the chunk *)
Definition rows_in_chunk (H Wi : nat) (lat0 : Z) (P : pattern) : Prop :=
  forall h c, In c (nth h P []) -> (lat0 <= Z.of_nat (c / Wi) < lat0 + Z.of_nat H)%Z.
(** the array [a] holds the maxima of cells that have seen an entry *)
Definition lays_max (B Ho Wo : nat) (a : nat -> R) (f : nat -> nat -> nat -> option R) : Prop :=
  forall b h w, b < B -> h < Ho -> w < Wo -> f b h w = Some (a ((b * Ho + h) * Wo + w)).
(** the arrays hold the state [st] of cell c: maxima; sums and integrals; alpha_k and alpha_kvw *)
Definition bholds (cells Ck : nat) (ninf : R) (o : nat -> R) (c : nat) (st : bst) : Prop :=
  the_max o c = as_num ninf (b_max st) /\ the_sum cells o 0 c = b_sum st /\ the_sum cells o 1 c = b_int st /\
  forall ch, ch < Ck -> the_acc cells Ck 2 o 0 c ch = b_k st ch /\ the_acc cells Ck 2 o 1 c ch = b_kvw st ch.
Definition all_bhold (B Ho Wo Ck : nat) (ninf : R) (o : nat -> R) (buf : bbuf) : Prop :=
  forall b h w, b < B -> h < Ho -> w < Wo -> bholds (B * Ho * Wo) Ck ninf o ((b * Ho + h) * Wo + w) (buf b h w).
Definition bmaxima_above (B Ho Wo : nat) (ninf : R) (buf : bbuf) : Prop :=
  forall b h w m, b < B -> h < Ho -> w < Wo -> b_max (buf b h w) = Some m -> (ninf < m)%R.
