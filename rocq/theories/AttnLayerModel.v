(** The attention layers: projections, query/key normalisation, scaling, the attention
    operator, the output projection (torch_harmonics/attention/attention.py). *)
From Coq Require Import List Arith Bool Reals.
From Verif Require Import TensorModel BigSum AttnModel.
Import ListNotations.
Local Open Scope nat_scope.

(** F.linear(t, W.view(W.shape[0], -1), b) on a rank-4 channels-last tensor
    (attention.py:530-532, 569). *)
Definition bias_ok (b : option (tensor R)) (Co : nat) : bool :=
  match b with None => true | Some b => shape_eqb (shp b) [Co] end.
Definition bias_at (b : option (tensor R)) (o : nat) : R := match b with None => 0%R | Some b => val b [o] end.
Definition linear (W : tensor R) (b : option (tensor R)) (t : tensor R) : option (tensor R) :=
  do W2 <- reshape [dimsz W 0; prod_list (tl (shp W))] W;
  do _ <- guard ((1 <=? ndim W) && (ndim t =? 4) && (dimsz t 3 =? dimsz W2 1) && bias_ok b (dimsz W2 0));
  Some (mkT [dimsz t 0; dimsz t 1; dimsz t 2; dimsz W2 0]
    (fun i => rsum (dimsz W2 1) (fun c => val t [nth 0 i 0; nth 1 i 0; nth 2 i 0; c]%nat * val W2 [nth 3 i 0; c]%nat) + bias_at b (nth 3 i 0%nat))%R).
(** nn.functional.conv2d(t, W, bias=b) with a 1x1 kernel on a rank-4 channels-first
    tensor (attention.py:207-209, 248). *)
Definition conv1x1 (W : tensor R) (b : option (tensor R)) (t : tensor R) : option (tensor R) :=
  do _ <- guard ((ndim t =? 4) && shape_eqb (shp W) [dimsz W 0; dimsz t 1; 1; 1] && bias_ok b (dimsz W 0));
  Some (mkT [dimsz t 0; dimsz W 0; dimsz t 2; dimsz t 3]
    (fun i => rsum (dimsz t 1) (fun c => val t [nth 0 i 0; c; nth 2 i 0; nth 3 i 0]%nat * val W [nth 1 i 0; c; 0; 0]%nat) + bias_at b (nth 1 i 0%nat))%R).

(** F.rms_norm(t, normalized_shape=w.shape, weight=1 + w) over the last axis; [eps] is
    torch's default, the machine epsilon of the dtype (attention.py:227-230, 541, 547). *)
Definition rms_norm (eps : R) (w t : tensor R) : option (tensor R) :=
  do _ <- guard ((ndim w =? 1) && (1 <=? ndim t) && (dimsz t (ndim t - 1) =? dimsz w 0));
  Some (mkT (shp t) (fun i =>
    let n := dimsz w 0%nat in let pre := removelast i in let c := last i 0%nat in
    val t i * / sqrt (rsum n (fun d => val t (pre ++ [d]) * val t (pre ++ [d])) / INR n + eps) * (1 + val w [c]))%R).
(** attention.py:538-548: split the channels into heads, normalise, merge *)
Definition qk_norm (eps : R) (w : option (tensor R)) (nh : nat) (t : tensor R) : option (tensor R) :=
  match w with
  | None => Some t
  | Some w =>
    let B := dimsz t 0 in let H := dimsz t 1 in let W := dimsz t 2 in let C := dimsz t 3 in
    do a <- reshape [B; H; W; nh; C / nh] t; do a <- rms_norm eps w a; reshape [B; H; W; C] a
  end.

(** What NeighborhoodAttentionS2.__init__ (attention.py:314-451) leaves behind; [scale] is
    a number (a tensor with one element). *)
Record nalayer := mkNA {
  na_Hi : nat; na_Wi : nat; na_Ho : nat; na_Wo : nat; na_nh : nat;
  na_q : tensor R; na_k : tensor R; na_v : tensor R; na_p : tensor R;
  na_qb : option (tensor R); na_kb : option (tensor R); na_vb : option (tensor R); na_pb : option (tensor R);
  na_qn : option (tensor R); na_kn : option (tensor R);
  na_scale : R; na_quad : nat -> R; na_col : list nat; na_roff : list nat }.

(** attention.py:335-341, 413-416: the constructor's checks on grids and channels *)
Definition na_checks (Wi Wo nh Ck Cv : nat) : bool :=
  (1 <=? Wi) && (1 <=? Wo) && ((Wi mod Wo =? 0) || (Wo mod Wi =? 0)) && (1 <=? nh) && (Ck mod nh =? 0) && (Cv mod nh =? 0).
(** attention.py:425-428 *)
Definition na_scale_of (scale : option R) (Ck nh : nat) : R :=
  match scale with Some s => s | None => 1 / sqrt (INR (Ck / nh)) end%R.

(** attention.py:456-571 [NeighborhoodAttentionS2.forward]; [op] is the attention handle.
    The dtype check is not modelled; conversions shared between aliased inputs give the
    same values as separate ones. *)
Definition handle := tensor R -> tensor R -> tensor R -> (nat -> R) -> list nat -> list nat -> nat -> nat -> nat -> nat -> option (tensor R).
Definition extent (t : tensor R) (H W : nat) : bool := (ndim t =? 4) && (dimsz t 2 =? H) && (dimsz t 3 =? W).
Definition na_forward (op : handle) (eps : R) (L : nalayer) (query : tensor R) (key value : option (tensor R)) : option (tensor R) :=
  let key := match key with None => query | Some k => k end in
  let value := match value with None => query | Some v => v end in
  do _ <- guard (extent query (na_Ho L) (na_Wo L) && extent key (na_Hi L) (na_Wi L) && extent value (na_Hi L) (na_Wi L));
  do q <- to_nhwc query; do k <- to_nhwc key; do v <- to_nhwc value;
  do q <- linear (na_q L) (na_qb L) q; do k <- linear (na_k L) (na_kb L) k; do v <- linear (na_v L) (na_vb L) v;
  do q <- qk_norm eps (na_qn L) (na_nh L) q; do k <- qk_norm eps (na_kn L) (na_nh L) k;
  let q := map_t (fun x => x * na_scale L)%R q in
  do out <- op k v q (na_quad L) (na_col L) (na_roff L) (na_nh L) (na_Wi L) (na_Ho L) (na_Wo L);
  do out <- linear (na_p L) (na_pb L) out;
  to_nchw out.

(** F.scaled_dot_product_attention without dropout on (B, heads, L, E), (B, heads, S, E),
    (B, heads, S, Ev) with an additive mask over the keys: softmax(scale q k^T + mask) v.
    An external function; equal batch and head counts are required. *)
Definition sdpa (q k v : tensor R) (mask : tensor R) (scale : option R) : option (tensor R) :=
  let B := dimsz q 0 in let nh := dimsz q 1 in let Lq := dimsz q 2 in let E := dimsz q 3 in let S := dimsz k 2 in let Ev := dimsz v 3 in
  let sc := (match scale with Some s => s | None => 1 / sqrt (INR E) end)%R in
  do _ <- guard (shape_eqb (shp q) [B; nh; Lq; E] && shape_eqb (shp k) [B; nh; S; E] && shape_eqb (shp v) [B; nh; S; Ev] &&
                 (shape_eqb (shp mask) [1; 1; S] || shape_eqb (shp mask) [1; 1; 1]));
  let ms j := val mask [0; 0; if dimsz mask 2 =? 1 then 0 else j] in
  Some (mkT [B; nh; Lq; Ev] (fun i =>
    let b := nth 0 i 0%nat in let h := nth 1 i 0%nat in let l := nth 2 i 0%nat in let e := nth 3 i 0%nat in
    let a j := (rsum E (fun c => val q [b; h; l; c] * val k [b; h; j; c]) * sc + ms j)%R in
    rsum S (fun j => exp (a j) / rsum S (fun j' => exp (a j')) * val v [b; h; j; e]))%R).

(** AttentionS2.__init__ (attention.py:97-169): the same weights; the log quadrature
    weights flattened over the grid. *)
Record galayer := mkGA {
  ga_Hi : nat; ga_Wi : nat; ga_Ho : nat; ga_Wo : nat; ga_nh : nat;
  ga_q : tensor R; ga_k : tensor R; ga_v : tensor R; ga_p : tensor R;
  ga_qb : option (tensor R); ga_kb : option (tensor R); ga_vb : option (tensor R); ga_pb : option (tensor R);
  ga_qn : option (tensor R); ga_kn : option (tensor R);
  ga_scale : option R; ga_quad : nat -> R }.
(** attention.py:128-137: tile(quad.reshape(-1, 1), (1, nlon_in)).flatten(), log, reshape(1, 1, -1) *)
Definition log_quad (L : galayer) : tensor R :=
  mkT [1; 1; ga_Hi L * ga_Wi L] (fun i => ln (ga_quad L (nth 2 i 0 / ga_Wi L))).
(** attention.py:211-225: (B, heads*C, H, W) to (B, heads, H*W, C) *)
Definition to_tokens (nh : nat) (t : tensor R) : option (tensor R) :=
  let B := dimsz t 0 in let C := dimsz t 1 / nh in let H := dimsz t 2 in let W := dimsz t 3 in
  do _ <- guard (1 <=? nh);
  do a <- reshape [B; nh; C; H; W] t; reshape [B; nh; H * W; C] (permute [0; 1; 3; 4; 2] a).
Definition rms_opt (eps : R) (w : option (tensor R)) (t : tensor R) : option (tensor R) :=
  match w with None => Some t | Some w => rms_norm eps w t end.
(** attention.py:174-250 [AttentionS2.forward] in evaluation mode (no dropout) *)
Definition ga_forward (eps : R) (L : galayer) (query : tensor R) (key value : option (tensor R)) : option (tensor R) :=
  let key := match key with None => query | Some k => k end in
  let value := match value with None => query | Some v => v end in
  do _ <- guard ((ndim query =? 4) && (ndim key =? 4) && (ndim value =? 4));
  do q <- conv1x1 (ga_q L) (ga_qb L) query; do k <- conv1x1 (ga_k L) (ga_kb L) key; do v <- conv1x1 (ga_v L) (ga_vb L) value;
  do q <- to_tokens (ga_nh L) q; do k <- to_tokens (ga_nh L) k; do v <- to_tokens (ga_nh L) v;
  do q <- rms_opt eps (ga_qn L) q; do k <- rms_opt eps (ga_kn L) k;
  do out <- sdpa q k v (log_quad L) (ga_scale L);
  let C := dimsz out 3 in
  do out <- reshape [dimsz out 0; ga_nh L * C; ga_Ho L; ga_Wo L] (permute [0; 1; 3; 2] out);
  conv1x1 (ga_p L) (ga_pb L) out.
