(** What a ring step of distributed attention means for the arrays the GPU kernels work on. *)
From Coq Require Import List Arith ZArith Reals.
From Verif Require Import AttnModel GpuModel GpuSpec GpuRwModel GpuRwSpec DistAttnModel DistAttnBwdModel CudaRescaleSpec AttnSpec.
Import ListNotations.
Local Open Scope nat_scope.

(** the array [a] is a channels-last tensor [B][H][W][nc] with the entries of [f] *)
Definition lays (B H W nc : nat) (a : nat -> R) (f : nat -> nat -> nat -> nat -> R) : Prop :=
  forall b h w c, b < B -> h < H -> w < W -> c < nc -> a (((b * H + h) * W + w) * nc + c) = f b h w c.
(** the array [a] is a tensor [B][H][W] with the entries of [f] *)
Definition lays1 (B H W : nat) (a : nat -> R) (f : nat -> nat -> nat -> R) : Prop :=
  forall b h w, b < B -> h < H -> w < W -> a ((b * H + h) * W + w) = f b h w.
(** rows of the chunk with entries are rows of the sphere *)
Definition rows_inside (H : nat) (lat0 : Z) (P : pattern) (nq : nat) : Prop :=
  forall hi, hi < H -> nth hi P [] <> [] -> (0 <= lat0 + Z.of_nat hi)%Z /\ Z.to_nat (lat0 + Z.of_nat hi) < nq.
(** every product of a query and a key of the chunk is a number above [ninf], which stands for
    minus infinity *)
Definition scores_above (ninf : R) (B H W Ho Wo nci : nat) (kf qf : nat -> nat -> nat -> nat -> R) : Prop :=
  forall b h w ho wo, b < B -> h < H -> w < W -> ho < Ho -> wo < Wo -> (ninf < AttnModel.dot nci (qf b ho wo) (kf b h w))%R.
(** the forward buffers qdotk_max [B][Ho][Wo], alpha_sum [B][Ho][Wo], y_acc [B][Ho][Wo][nco],
    one after the other, hold a sequential state *)
Definition all_hold (B Ho Wo nco : nat) (ninf : R) (o : nat -> R) (buf : rbuf) : Prop :=
  forall b h w, b < B -> h < Ho -> w < Wo -> holds (B * Ho * Wo) nco 1 ninf o ((b * Ho + h) * Wo + w) (buf b h w).
Definition maxima_above (B Ho Wo : nat) (ninf : R) (buf : rbuf) : Prop :=
  forall b h w m, b < B -> h < Ho -> w < Wo -> r_max (buf b h w) = Some m -> (ninf < m)%R.
(** The three launches of one forward step, each in every possible execution: the first on a copy
    of the maxima, the second on all buffers (threads of a warp in lockstep), the third on the
    sums and accumulators, reading the maxima the second left. *)
Definition step_ends (ws cells : nat) (k : kernel * ((nat -> R) -> kernel) * ((nat -> R) -> kernel)) (st : nat -> R) (Q : (nat -> R) -> Prop) : Prop :=
  let '(k1, k2, k3) := k in
  forall rg1 sh1, settles k1 (start k1 rg1 sh1 st) (fun m =>
  forall rg2 sh2, lsettles ws cells (k2 m) (start (k2 m) rg2 sh2 st) (fun s =>
  forall rg3 sh3, settles (k3 s) (start (k3 s) rg3 sh3 (fun a => s (cells + a))) (fun o =>
  Q (fun a => if a <? cells then s a else o (a - cells))))).
(** a chunk of keys and values on its way round the ring *)
Record chunk := mkChunk { c_H : nat; c_W : nat; c_lon : nat; c_lat : Z; c_pat : pattern; c_kA : nat -> R; c_vA : nat -> R; c_k : fld; c_v : fld }.
Record chunk_ok (B nci nco Ho Wo WoG nq : nat) (ninf : R) (qf : fld) (c : chunk) : Prop := mkCO {
  co_W : 1 <= c_W c;
  co_pat : pattern_ok (c_pat c) (c_H c) (Ho * WoG);
  co_rows : rows_inside (c_H c) (c_lat c) (c_pat c) nq;
  co_k : lays B (c_H c) (c_W c) nci (c_kA c) (c_k c);
  co_v : lays B (c_H c) (c_W c) nco (c_vA c) (c_v c);
  co_above : scores_above ninf B (c_H c) (c_W c) Ho Wo nci (c_k c) qf }.
(** one step after the other, each chunk with the launches [ks c] *)
Fixpoint steps_end (ws cells : nat) (ks : chunk -> option (kernel * ((nat -> R) -> kernel) * ((nat -> R) -> kernel))) (l : list chunk) (st : nat -> R) (Q : (nat -> R) -> Prop) : Prop :=
  match l with
  | [] => Q st
  | c :: r => match ks c with None => False | Some k => step_ends ws cells k st (fun o => steps_end ws cells ks r o Q) end
  end.
(** the backward buffers integral [B][Ho][Wo], alpha_k and alpha_kvw [B][Ho][Wo][nci], one after
    the other, hold a sequential state *)
Definition stats_hold (B Ho Wo nci : nat) (o : nat -> R) (buf : bbuf) : Prop :=
  forall b h w, b < B -> h < Ho -> w < Wo -> let c := (b * Ho + h) * Wo + w in let cells := B * Ho * Wo in
  o c = b_int (buf b h w) /\ forall x, x < nci -> o (cells + (c * nci + x)) = b_k (buf b h w) x /\ o (cells + cells * nci + (c * nci + x)) = b_kvw (buf b h w) x.
