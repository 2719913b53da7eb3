(** What an attention layer computes, point by point. *)
From Coq Require Import List Arith Bool Reals.
From Verif Require Import TensorModel BigSum AttnSpec.
Import ListNotations.
Local Open Scope R_scope.

(** fields: batch, latitude, longitude, channel *)
Definition field := nat -> nat -> nat -> nat -> R.
Definition of_cfirst (t : tensor R) : field := fun b y x c => val t [b; c; y; x].
(** a learned pointwise linear map with optional bias *)
Definition affine (W : tensor R) (b : option (tensor R)) (Ci : nat) (f : field) : field :=
  fun n y x o => rsum Ci (fun c => val W [o; c; 0; 0]%nat * f n y x c) + match b with None => 0 | Some b => val b [o] end.
(** root-mean-square normalisation within each head of C channels *)
Definition normed (eps : R) (w : option (tensor R)) (C : nat) (f : field) : field :=
  match w with
  | None => f
  | Some w => fun n y x d =>
      f n y x d / sqrt (rsum C (fun c => f n y x (d / C * C + c)%nat * f n y x (d / C * C + c)%nat) / INR C + eps) * (1 + val w [d mod C]%nat)
  end.
(** multi-head attention over the neighbourhoods N, with weights quad by latitude *)
Definition multihead (Ck Cv : nat) (quad : nat -> R) (N : nat -> nat -> list (nat * nat)) (k v q : field) : field :=
  fun n y x d => let h := (d / Cv)%nat in
    attn_at Ck quad (N y x) (fun y x c => k n y x (h * Ck + c)%nat) (fun y x c => v n y x (h * Cv + c)%nat) (fun y x c => q n y x (h * Ck + c)%nat)
      y x (d mod Cv)%nat.
(** the weights of a layer *)
Record weights := mkW {
  w_q : tensor R; w_k : tensor R; w_v : tensor R; w_p : tensor R;
  w_qb : option (tensor R); w_kb : option (tensor R); w_vb : option (tensor R); w_pb : option (tensor R);
  w_qn : option (tensor R); w_kn : option (tensor R); w_scale : R }.
Definition layer_field (eps : R) (L : weights) (Ci Ck Cv nh : nat) (quad : nat -> R) (N : nat -> nat -> list (nat * nat)) (k v q : field) : field :=
  affine (w_p L) (w_pb L) (nh * Cv)
    (multihead Ck Cv quad N
      (normed eps (w_kn L) Ck (affine (w_k L) (w_kb L) Ci k))
      (affine (w_v L) (w_vb L) Ci v)
      (fun n y x c => normed eps (w_qn L) Ck (affine (w_q L) (w_qb L) Ci q) n y x c * w_scale L)).
Definition layer_spec (eps : R) (L : weights) (Ci Ck Cv nh B Co Ho Wo : nat) (quad : nat -> R) (N : nat -> nat -> list (nat * nat)) (kt vt qt : tensor R) : tensor R :=
  mkT [B; Co; Ho; Wo] (fun i =>
    layer_field eps L Ci Ck Cv nh quad N (of_cfirst kt) (of_cfirst vt) (of_cfirst qt) (nth 0 i 0%nat) (nth 2 i 0%nat) (nth 3 i 0%nat) (nth 1 i 0%nat)).

(** shapes of the weights: in_channels Ci, per-head widths Ck and Cv, Co outputs *)
Definition bias_shape (b : option (tensor R)) (n : nat) : Prop := match b with None => True | Some b => shp b = [n] end.
Record weights_ok (L : weights) (Ci Ck Cv nh Co : nat) : Prop := mkWOk {
  wo_q : shp (w_q L) = [nh * Ck; Ci; 1; 1]%nat; wo_k : shp (w_k L) = [nh * Ck; Ci; 1; 1]%nat;
  wo_v : shp (w_v L) = [nh * Cv; Ci; 1; 1]%nat; wo_p : shp (w_p L) = [Co; nh * Cv; 1; 1]%nat;
  wo_qb : bias_shape (w_qb L) (nh * Ck); wo_kb : bias_shape (w_kb L) (nh * Ck); wo_vb : bias_shape (w_vb L) (nh * Cv); wo_pb : bias_shape (w_pb L) Co;
  wo_qn : bias_shape (w_qn L) Ck; wo_kn : bias_shape (w_kn L) Ck }.
(** all points of a grid, row by row *)
Definition all_points (H W : nat) : list (nat * nat) := flat_map (fun y => map (fun x => (y, x)) (seq 0 W)) (seq 0 H).
