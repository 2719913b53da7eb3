(** The CUDA kernels of one forward ring step of the distributed neighbourhood attention, self
    and downsampling direction (attention_cuda_fwd_ring.cu), on the interleaving machine.

    As in CudaAttnModel: exact reals, checked accesses, a group is a warp of a block of 32 x 2
    threads or a wider block.  Minus infinity is a number below all scores (see
    CudaRescaleModel).  Offsets do not overflow.  Every kernel first collects the entries of its
    row that lie in the chunk, in shared memory: of the lists it builds there the weights are in
    the shared array of the model, while the pointers are addresses known from the pattern.
    __compact (attention_cuda_utils.cuh:370-404, CudaCompactModel) gives each lane that found an
    entry the next free place, in the order of the lanes; here the entries are stored at the places it gives them, and
    its exchanges and barriers, which only add synchronisation, are left out. *)
From Coq Require Import List Arith Lia Bool ZArith Reals.
From Verif Require Import TensorModel AttnModel GpuModel CudaRescaleModel CudaDiscoModel CudaWarpModel CudaAttnModel.
Import ListNotations.
Local Open Scope nat_scope.

(** an entry in the chunk: row of the whole input, row and column of the chunk *)
Notation entry := (nat * (nat * nat))%type (only parsing).
Definition r_locy (c : nat) := 9 + c.

Section Ring.
(** BD threads in x, BY in y, vectors of V numbers, nci and nco vectors per point; H x W cells
    of the chunk, of which the first column is column lon_lo and the first row is row lat0 of
    the whole input with its Wi longitudes; Ho x Wo output cells of this rank *)
Variables (BD BY V nloc nci nco H W Wi ps lon_lo : nat) (lat0 : Z) (B Ho Wo : nat) (as_out : bool) (ninf : R) (roff col : list nat).
Notation cells := (B * Ho * Wo).

(** attention_cuda_fwd_ring.cu:304-325, 533-556, 816-838: the place of an entry in the chunk,
    if it is there *)
Definition active (wo c : nat) : list entry :=
  let hi := c / Wi in let wi := c - hi * Wi in let wi_wo := wi + ps * wo in let wip := wi_wo - wi_wo / Wi * Wi in
  if (lon_lo <=? wip) && (wip <? lon_lo + W) then
    let hl := (Z.of_nat hi - lat0)%Z in
    if (0 <=? hl)%Z && (hl <? Z.of_nat H)%Z then [(hi, (Z.to_nat hl, wip - lon_lo))] else []
  else [].
(** attention_cuda_fwd_ring.cu:289-302, 517-531: block [split] of [per] takes every per-th
    entry of the row; with per = 1 this is the row (808-814) *)
Definition share (per split : nat) (row : list nat) : list nat :=
  let rlen := length row in let n := rlen / per + (if split <? rlen mod per then 1 else 0) in
  map (fun i => nth (split + i * per) row 0) (seq 0 n).
(** attention_cuda_fwd_ring.cu:297-332, 525-566, 810-848: the entries found, in the order of
    the row, each with the thread that looks at it *)
Definition found (wo : nat) (es : list nat) : list (nat * entry) :=
  flat_map (fun x => map (pair (fst x mod BD)) (active wo (snd x))) (combine (seq 0 (length es)) es).
(** an entry found with its place in the lists *)
Definition listed (act : list (nat * entry)) : list (nat * (nat * entry)) := combine (seq 0 (length act)) act.

(** attention_cuda_fwd_ring.cu:245-255, 275, 489-499, 783-796: where a point's numbers are *)
Definition cell_of (batch ho wo : nat) : nat := batch * Ho * Wo + ho * Wo + wo.
Definition q_at (batch ho wo : nat) : nat := V * (batch * Ho * Wo * nci + ho * Wo * nci + wo * nci).
Definition k_at (batch : nat) (p : nat * nat) : nat := V * (batch * H * W * nci + (fst p * W * nci + snd p * nci)).
Definition v_at (batch : nat) (p : nat * nat) : nat := V * (batch * H * W * nco + (fst p * W * nco + snd p * nco)).
(** the channels of a thread *)
Definition rin_chans (t : nat) : list nat := floats V (if as_out then unrolled_chans BD nloc nci t else loop_chans BD nci t).
Definition rloop_chans (t : nat) : list nat := floats V (loop_chans BD nci t).
Definition rout_chans (t : nat) : list nat := floats V (unrolled_chans BD nloc nco t).

(** attention_cuda_fwd_ring.cu:240-243, 258-287, 486-515, 780-806: the cell of a group and the
    entries it found; more of them than the lists are long (shcol_len_max, here [mid]) would
    overrun the shared memory *)
Definition row_group (mid per nl : nat) (rows : list nat) (body : nat -> nat -> nat -> list (nat * entry) -> list gstep) (g : nat) : list gstep :=
  let width := long_width BY nl Wo in
  let ctaid := g mod width in let split := g / width mod per in let batch := g / width / per in
  if nl * Wo <=? ctaid then [] else
  let h := ctaid / Wo in let wo := ctaid - h * Wo in
  match nth_error rows h with
  | None => fault
  | Some ho =>
      match row_of roff col ho with
      | None => fault
      | Some row => let act := found wo (share per split row) in if length act <=? mid then body batch ho wo act else fault
      end
  end.
(** shq, then shweight, then the sums over the group *)
Definition w_sh (i : nat) : nat := V * nci + i.
Definition scratch (mid : nat) : nat := V * nci + mid.
(** q to the shared memory *)
Definition load_q (pq : nat * nat) (chans : nat -> list nat) (qb t : nat) : list instr :=
  flat_map (fun c => [get pq r_t (qb + c); IStore c (fun r => r r_t)]) (chans t).
(** attention_cuda_fwd_ring.cu:553, 561, 836, 845: quad_weights[hi_global] to its place *)
Definition stash (pw : nat * nat) (act : list (nat * entry)) (t : nat) : list instr :=
  flat_map (fun x => if fst (snd x) =? t then [get pw r_w (fst (snd (snd x))); IStore (w_sh (fst x)) (fun r => r r_w)] else []) (listed act).
(** attention_cuda_fwd_ring.cu:336-352, 572-582, 856-867: the product of q and k *)
Definition score (mid : nat) (pk : nat * nat) (chans : nat -> list nat) (kb : nat) : list gstep :=
  [Seg (fun t => ISet r_dot (fun _ => 0%R) :: flat_map (fun c => [ILoad r_t c; get pk r_u (kb + c); ISet r_dot (fun r => r r_dot + r r_t * r r_u)%R]) (chans t))] ++
  (if BD =? 32 then warp_sum (fun _ => true) r_dot else block_sum (BD / 32) (scratch mid) r_dot).
(** __group_sync *)
Definition group_sync : gstep := Bar (fun t all => all t).

(** ** The state: maxima, sums and accumulators, one after the other *)
Definition s_max : nat * nat := (0, cells).
Definition s_sum : nat * nat := (cells, cells).
Definition s_acc : nat * nat := (cells + cells, cells * (V * nco)).
Definition acc_at (batch ho wo c : nat) : nat := cell_of batch ho wo * (V * nco) + c.
(** reading it in a kernel that also writes it: [base] is the size of the other arrays *)
Definition get_s (base : nat) (p : nat * nat) (r i : nat) : instr := get (base + fst p, snd p) r i.

Section Special.
Variables (mid base : nat) (pk pv pq pw : nat * nat).
(** attention_cuda_fwd_ring.cu:869-879: expf(-inf - x) is 0 *)
Definition grow (i : nat) : list instr :=
  [ISet r_new (fun r => Rmax (r r_max) (r r_dot));
   ILoad r_w (w_sh i); ISet r_alpha (fun r => exp (r r_dot - r r_new) * r r_w)%R;
   ISet r_exp (fun r => if Req_EM_T (r r_max) ninf then 0%R else exp (r r_max - r r_new));
   ISet r_sum (fun r => r r_alpha + r r_sum * r r_exp)%R].
(** attention_cuda_fwd_ring.cu:855-881 *)
Definition rspecial_entry (batch : nat) (x : nat * (nat * entry)) : list gstep :=
  let '(i, (_, (_, p))) := x in
  score mid pk rin_chans (k_at batch p) ++
  [Seg (fun t => grow i ++
     flat_map (fun c => [get pv r_t (v_at batch p + c); ISet (r_locy c) (fun r => r r_exp * r (r_locy c) + r r_alpha * r r_t)%R]) (rout_chans t) ++
     [ISet r_max (fun r => r r_new)])].
(** attention_cuda_fwd_ring.cu:712-892 [s2_attn_fwd_ring_special_k] *)
Definition rspecial_body (batch ho wo : nat) (act : list (nat * entry)) : list gstep :=
  let cell := cell_of batch ho wo in
  [Seg (fun t => [get_s base s_sum r_sum cell; get_s base s_max r_max cell] ++
     map (fun c => get_s base s_acc (r_locy c) (acc_at batch ho wo c)) (rout_chans t) ++
     load_q pq rin_chans (q_at batch ho wo) t ++ stash pw act t); group_sync] ++
  (if length act =? 0 then [] else
   flat_map (rspecial_entry batch) (listed act) ++
   [Seg (fun t => (if t =? 0 then [set_out s_sum cell (fun r => r r_sum); set_out s_max cell (fun r => r r_max)] else []) ++
      map (fun c => set_out s_acc (acc_at batch ho wo c) (fun r => r (r_locy c))) (rout_chans t))]).
End Special.

Section Softmax.
(** [pp]: qdotk_max_prev; the output is qdotk_max_curr *)
Variables (mid : nat) (pk pq pp : nat * nat).
(** attention_cuda_fwd_ring.cu:210-356 [s2_attn_fwd_ring_softmax_k] *)
Definition rsoftmax_body (batch ho wo : nat) (act : list (nat * entry)) : list gstep :=
  let cell := cell_of batch ho wo in
  [Seg (fun t => load_q pq rloop_chans (q_at batch ho wo) t ++ [get pp r_max cell]); group_sync] ++
  flat_map (fun x => score mid pk rloop_chans (k_at batch (snd (snd (snd x)))) ++ [Seg (fun _ => [ISet r_max (fun r => Rmax (r r_max) (r r_dot))])]) (listed act) ++
  [Seg (fun t => if t =? 0 then [add_out AMax (0, cells) cell (fun r => r r_max)] else [])].
End Softmax.

Section Finalize.
(** [pm]: qdotk_max_curr; the output is alpha_sum_buf followed by y_acc *)
Variables (mid : nat) (pk pv pq pw pm : nat * nat).
Definition f_sum : nat * nat := (0, cells).
Definition f_acc : nat * nat := (cells, cells * (V * nco)).
(** attention_cuda_fwd_ring.cu:571-590 *)
Definition rfinal_entry (batch : nat) (x : nat * (nat * entry)) : list gstep :=
  let '(i, (_, (_, p))) := x in
  score mid pk rin_chans (k_at batch p) ++
  [Seg (fun t => [ILoad r_w (w_sh i); ISet r_alpha (fun r => exp (r r_dot - r r_max) * r r_w)%R; ISet r_sum (fun r => r r_sum + r r_alpha)%R] ++
     flat_map (fun c => [get pv r_t (v_at batch p + c); ISet (r_locy c) (fun r => r (r_locy c) + r r_alpha * r r_t)%R]) (rout_chans t))].
(** attention_cuda_fwd_ring.cu:418-617 [s2_attn_fwd_ring_finalize_k] *)
Definition rfinal_body (batch ho wo : nat) (act : list (nat * entry)) : list gstep :=
  let cell := cell_of batch ho wo in
  [Seg (fun t => [ISet r_sum (fun _ => 0%R); get pm r_max cell] ++
     map (fun c => ISet (r_locy c) (fun _ => 0%R)) (rout_chans t) ++
     load_q pq rin_chans (q_at batch ho wo) t ++ stash pw act t); group_sync] ++
  flat_map (rfinal_entry batch) (listed act) ++
  [Seg (fun t => (if t =? 0 then [add_out AAdd f_sum cell (fun r => r r_sum)] else []) ++
     map (fun c => add_out AAdd f_acc (acc_at batch ho wo c) (fun r => r (r_locy c))) (rout_chans t))].
End Finalize.

(** ** Launches.  Arrays: kx [B][H][W][C_k], vx [B][H][W][C_v], qy [B][Ho][Wo][C_k], nq
    quadrature weights; [rows]: the rows the kernel works on *)
Variables (nq : nat) (kA vA qA quadA : nat -> R).
Notation ksz := (B * H * W * (V * nci)).  Notation vsz := (B * H * W * (V * nco)).  Notation qsz := (cells * (V * nci)).
Notation NW := (if BD =? 32 then 0 else BD / 32).
Definition rsize : nat := cells + cells + cells * (V * nco).

(** attention_cuda_fwd_ring.cu:945-973 *)
Definition rspecial_kernel (mid nl : nat) (rows : list nat) : kernel :=
  let arr := [(ksz, kA); (vsz, vA); (qsz, qA); (nq, quadA)] in let base := list_sum (map fst arr) in
  mkKernel (B * 1 * long_width BY nl Wo) BD (scratch mid + NW) (base + rsize) (joined arr) rsize
    (fun g => code_of (row_group mid 1 nl rows (rspecial_body mid base (part arr 0) (part arr 1) (part arr 2) (part arr 3)) g)).
(** attention_cuda_fwd_ring.cu:656-676 *)
Definition rsoftmax_kernel (mid per nl : nat) (rows : list nat) (prev : nat -> R) : kernel :=
  let arr := [(ksz, kA); (qsz, qA); (cells, prev)] in
  mkKernel (B * per * long_width BY nl Wo) BD (scratch mid + NW) (list_sum (map fst arr)) (joined arr) cells
    (fun g => code_of (row_group mid per nl rows (rsoftmax_body mid (part arr 0) (part arr 1) (part arr 2)) g)).
(** attention_cuda_fwd_ring.cu:683-704 *)
Definition rfinal_kernel (mid per nl : nat) (rows : list nat) (cur : nat -> R) : kernel :=
  let arr := [(ksz, kA); (vsz, vA); (qsz, qA); (nq, quadA); (cells, cur)] in
  mkKernel (B * per * long_width BY nl Wo) BD (scratch mid + NW) (list_sum (map fst arr)) (joined arr) (cells + cells * (V * nco))
    (fun g => code_of (row_group mid per nl rows (rfinal_body mid (part arr 0) (part arr 1) (part arr 2) (part arr 3) (part arr 4)) g)).

(** A pointer takes two floats of the shared memory; NW more for the sums over a wide block and NW for
    __compact.  attention_cuda_fwd_ring.cu:619-705 [spc_attn_ring_fwd_long_rows]: the launches for the [nl] long rows,
    of at most [maxlen] entries; the second gets the new maxima, and so does the third. *)
Definition long_step (dev : device) (nl maxlen : nat) (row_idx : list nat) : option (((nat -> R) -> kernel) * ((nat -> R) -> kernel) * ((nat -> R) -> kernel)) :=
  let per := Nat.min 32 (div_up maxlen 32) in let mid := div_up maxlen per in let gx := div_up (nl * Wo) BY in
  do _ <- guard (launchable dev gx per ((V * nci + 2 * mid) * BY + 2 * NW) && (B <=? d_gridy dev) && (1 <=? B));
  do _ <- guard (launchable dev gx B 0);
  do _ <- guard (launchable dev gx per ((V * nci + V * nco + 5 * mid) * BY + 2 * NW));
  Some (rsoftmax_kernel mid per nl row_idx, fwd_rescale ninf B Ho Wo V nco BD BY nloc nl row_idx, rfinal_kernel mid per nl row_idx).
(** attention_cuda_fwd_ring.cu:932-973: the launch for the others, [row_idx + n_long_rows] *)
Definition short_step (dev : device) (nl mid : nat) (row_idx : list nat) : option kernel :=
  let gx := div_up ((Ho - nl) * Wo) BY in
  do _ <- guard (launchable dev gx B ((V * nci + 5 * mid) * BY + 2 * NW));
  Some (rspecial_kernel mid (Ho - nl) (skipn nl row_idx)).
(** attention_cuda_fwd_ring.cu:894-985 [launch_spc_attn_ring_fwd]: without long rows only the
    last launch, without others only the first three *)
Definition both_steps (dev : device) (nl maxlen mid : nat) (row_idx : list nat) : option (option (((nat -> R) -> kernel) * ((nat -> R) -> kernel) * ((nat -> R) -> kernel)) * option kernel) :=
  do l <- (if nl =? 0 then Some None else do l <- long_step dev nl maxlen row_idx; Some (Some l));
  do s <- (if Ho - nl =? 0 then Some None else do s <- short_step dev nl mid row_idx; Some (Some s));
  Some (l, s).
End Ring.

(** attention_cuda_fwd_ring.cu:989-1120 [s2_attn_fwd_ring_step_dispatch] for at most 16 * 1024 value
    channels.  With a length of the local array for which there is no instance nothing is
    launched: the model has no step then ([nloc_ok]). *)
Definition ring_fwd (dev : device) (vec : bool) (ninf : R) (B Ck Cv H W Wi ps lon_lo : nat) (lat0 : Z) (Ho Wo nq : nat) (kA vA qA quadA : nat -> R)
  (row_idx roff col : list nat) (n_long max_len mid_len : nat) : option (option (((nat -> R) -> kernel) * ((nat -> R) -> kernel) * ((nat -> R) -> kernel)) * option kernel) :=
  let V := vec_len vec Ck Cv in let nci := Ck / V in let nco := Cv / V in
  let BD := pick_bdimx Cv in
  do _ <- guard (BD <=? 1024);
  let nloc := div_up nco BD in
  do _ <- guard (nloc_ok BD V nloc);
  let BY := if BD =? 32 then 2 else 1 in
  let as_out := (BD * (nloc - 1) <=? nci) && (nci <=? BD * nloc) in
  both_steps BD BY V nloc nci nco H W Wi ps lon_lo lat0 B Ho Wo as_out ninf roff col nq kA vA qA quadA dev n_long max_len mid_len row_idx.
