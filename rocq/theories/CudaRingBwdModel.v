(** The CUDA kernels of the backward ring steps of the distributed neighbourhood attention, self
    and downsampling direction (attention_cuda_bwd_ring.cu), on the interleaving machine.

    As in CudaRingModel, whose entries, shares of rows and arrays are used here; the order of the
    gradients of a chunk and of the state is that of CudaAttnBwdModel and CudaRescaleModel.  What
    a thread keeps of q in registers (loc_qy) is here at the places of the shared memory with its
    channels, which no other thread reads unless the kernel itself keeps a copy of q there (below
    compute capability 9.0, [old]); the barrier after that copy, before the barrier that follows
    anyway, is left out. *)
From Coq Require Import List Arith Lia Bool ZArith Reals.
From Verif Require Import TensorModel AttnModel GpuModel CudaDiscoModel CudaWarpModel CudaAttnModel CudaAttnUpModel CudaAttnBwdModel CudaRescaleModel CudaRingModel.
Import ListNotations.
Local Open Scope nat_scope.

(** an entry as pass 2 lists it: row of the whole input, hi_local and wip_local *)
Notation zentry := (nat * (Z * Z))%type (only parsing).
(** accesses at an offset that may be negative *)
Definition getz (p : nat * nat) (r : nat) (z : Z) : instr := if (z <? 0)%Z then IFault else get p r (Z.to_nat z).
Definition add_outz (p : nat * nat) (z : Z) (f : (nat -> R) -> R) : instr := if (z <? 0)%Z then IFault else add_out AAdd p (Z.to_nat z) f.

Section Ring.
(** as in CudaRingModel; [as_in]: CHOUT_AS_IN *)
Variables (BD BY V nloc nci nco H W Wi ps lon_lo : nat) (lat0 : Z) (B Ho Wo : nat) (as_in old : bool) (ninf : R) (roff col : list nat).
Notation cells := (B * Ho * Wo).
Notation cin := (bin_chans BD V nloc nci).  Notation cout := (bout_chans BD V nloc nco as_in).

(** sh_dy, then q, then shweight, then the sums over the group *)
Definition bw_sh (i : nat) : nat := V * nco + V * nci + i.
Definition bscratch (mid : nat) : nat := V * nco + V * nci + mid.
Definition dy_at (batch ho wo : nat) : nat := V * (batch * Ho * Wo * nco + ho * Wo * nco + wo * nco).
(** attention_cuda_bwd_ring.cu:568-569, 907-908, 1564-1569: q and dy to the shared memory *)
Definition load_qd (pq pdy : nat * nat) (batch ho wo t : nat) : list instr :=
  flat_map (fun c => [get pq r_t (q_at V nci Ho Wo batch ho wo + c); IStore (V * nco + c) (fun r => r r_t)]) (cin t) ++
  flat_map (fun c => [get pdy r_t (dy_at batch ho wo + c); IStore (0 + c) (fun r => r r_t)]) (cout t).
(** __group_sum of one of the two products *)
Definition bring_sum (mid r : nat) : list gstep := if BD =? 32 then warp_sum (fun _ => true) r else block_sum (BD / 32) (bscratch mid) r.

(** ** Pass 2 *)
Section Pass2.
Variables (mid : nat) (pk pv pq pdy pw psum pmax pint : nat * nat).
(** attention_cuda_bwd_ring.cu:1599-1627: hi_local is set before its range is looked at, and an
    entry is kept whenever hi_local is not -1 *)
Definition activez (wo c : nat) : list zentry :=
  let hi := c / Wi in let wi := c - hi * Wi in let wi_wo := wi + ps * wo in let wip := wi_wo - wi_wo / Wi * Wi in
  if (lon_lo <=? wip) && (wip <? lon_lo + W) then
    let hl := (Z.of_nat hi - lat0)%Z in
    if (hl =? -1)%Z then [] else [(hi, (hl, if (0 <=? hl)%Z && (hl <? Z.of_nat H)%Z then Z.of_nat (wip - lon_lo) else (-1)%Z))]
  else [].
(** attention_cuda_bwd_ring.cu:1584-1630 *)
Definition foundz (wo : nat) (es : list nat) : list (nat * zentry) :=
  flat_map (fun x => map (pair (fst x mod BD)) (activez wo (snd x))) (combine (seq 0 (length es)) es).
Definition listedz (act : list (nat * zentry)) : list (nat * (nat * zentry)) := combine (seq 0 (length act)) act.
(** attention_cuda_bwd_ring.cu:1609-1612, 1623: the weight is 0 outside of the chunk *)
Definition stashz (act : list (nat * zentry)) (t : nat) : list instr :=
  flat_map (fun x => if fst (snd x) =? t then
     (if (0 <=? snd (snd (snd (snd x))))%Z then [get pw r_w (fst (snd (snd x)))] else [ISet r_w (fun _ => 0%R)]) ++ [IStore (bw_sh (fst x)) (fun r => r r_w)] else []) (listedz act).
(** attention_cuda_bwd_ring.cu:1538-1542, 1639-1643: offsets of a point *)
Definition kz_at (batch : nat) (p : Z * Z) : Z := (Z.of_nat V * (Z.of_nat (batch * H * W * nci) + (fst p * Z.of_nat (W * nci) + snd p * Z.of_nat nci)))%Z.
Definition vz_at (batch : nat) (p : Z * Z) : Z := (Z.of_nat V * (Z.of_nat (batch * H * W * nco) + (fst p * Z.of_nat (W * nco) + snd p * Z.of_nat nco)))%Z.
Definition dotz (rd base : nat) (p : nat * nat) (b : Z) (ch : list nat) : list instr :=
  ISet rd (fun _ => 0%R) :: flat_map (fun c => [ILoad r_t (base + c); getz p r_u (b + Z.of_nat c)%Z; ISet rd (fun r => r rd + r r_t * r r_u)%R]) ch.
(** dkx, then dvx *)
Definition o_dk : nat * nat := (0, B * H * W * (V * nci)).
Definition o_dv : nat * nat := (B * H * W * (V * nci), B * H * W * (V * nco)).
(** attention_cuda_bwd_ring.cu:1664-1690: the channels of the atomic additions *)
Definition p2_chans (n : nat) (mine : list nat) (t : nat) : list nat := if old && (V =? 4) then loop_chans BD (n * V) t else mine.
(** attention_cuda_bwd_ring.cu:1634-1690: one entry *)
Definition p2_entry (batch : nat) (x : nat * (nat * zentry)) : list gstep :=
  let '(i, (_, (_, p))) := x in
  [Seg (fun t => dotz r_dot (V * nco) pk (kz_at batch p) (cin t) ++ dotz r_gd 0 pv (vz_at batch p) (cout t))] ++ bring_sum mid r_dot ++ bring_sum mid r_gd ++
  [Seg (fun t => [ILoad r_w (bw_sh i); ISet r_alpha (fun r => exp (r r_dot - r r_max) * r r_w)%R; ISet r_alpha (fun r => r r_alpha * r r_inv)%R;
      ISet r_ag (fun r => (r r_gd - r r_int) * r r_alpha)%R] ++
     flat_map (fun c => [ILoad r_t (V * nco + c); add_outz o_dk (kz_at batch p + Z.of_nat c)%Z (fun r => r r_ag * r r_t)%R]) (p2_chans nci (cin t) t) ++
     flat_map (fun c => [ILoad r_t (0 + c); add_outz o_dv (vz_at batch p + Z.of_nat c)%Z (fun r => r r_alpha * r r_t)%R]) (p2_chans nco (cout t) t))].
(** attention_cuda_bwd_ring.cu:1472-1692 [s2_attn_bwd_ring_pass2_special_k] *)
Definition p2_body (batch ho wo : nat) (act : list (nat * zentry)) : list gstep :=
  let cell := cell_of Ho Wo batch ho wo in
  [Seg (fun t => [get psum r_sum cell; get pmax r_max cell; get pint r_int cell; ISet r_inv (fun r => 1 / r r_sum)%R] ++ load_qd pq pdy batch ho wo t ++ stashz act t); group_sync] ++
  flat_map (p2_entry batch) (listedz act) ++ [Seg (fun _ => [])].
(** attention_cuda_bwd_ring.cu:1507-1515, 1534-1536, 1584-1596: the cell of a group, as [row_group] *)
Definition row_groupz (per nl : nat) (rows : list nat) (g : nat) : list gstep :=
  let width := long_width BY nl Wo in
  let ctaid := g mod width in let split := g / width mod per in let batch := g / width / per in
  if nl * Wo <=? ctaid then [] else
  let h := ctaid / Wo in let wo := ctaid - h * Wo in
  match nth_error rows h with
  | None => fault
  | Some ho =>
      match row_of roff col ho with
      | None => fault
      | Some row => let act := foundz wo (share per split row) in if length act <=? mid then p2_body batch ho wo act else fault
      end
  end.
End Pass2.

(** ** Pass 1.  The state: maxima; sums and integrals; alpha_k and alpha_kvw; as in
    CudaRescaleModel with two sums and two accumulators *)
Notation Ck := (V * nci).
Definition b_smax : nat * nat := (0, cells).
Definition b_ssum : nat * nat := (cells, cells).
Definition b_sint : nat * nat := (2 * cells, cells).
Definition b_sk : nat * nat := (3 * cells, cells * Ck).
Definition b_skvw : nat * nat := (3 * cells + cells * Ck, cells * Ck).
Definition bsize : nat := 3 * cells + 2 * (cells * Ck).
Definition bk_at (batch ho wo c : nat) : nat := cell_of Ho Wo batch ho wo * Ck + c.
(** quad_weights[hi_global] to its place *)
Definition bstash (pw : nat * nat) (act : list (nat * entry)) (t : nat) : list instr :=
  flat_map (fun x => if fst (snd x) =? t then [get pw r_w (fst (snd (snd x))); IStore (bw_sh (fst x)) (fun r => r r_w)] else []) (listed act).
(** both products of an entry *)
Definition bdots (mid : nat) (pk pv : nat * nat) (batch : nat) (p : nat * nat) : list gstep :=
  [Seg (fun t => dot_loop r_dot (V * nco) pk (k_at V nci H W batch p) (cin t) ++ dot_loop r_gd 0 pv (v_at V nco H W batch p) (cout t))] ++ bring_sum mid r_dot ++ bring_sum mid r_gd.

Section Special.
Variables (mid base : nat) (pk pv pq pdy pw : nat * nat).
(** attention_cuda_bwd_ring.cu:971-981: expf(-inf - x) is 0 *)
Definition bgrow (i : nat) : list instr :=
  [ISet CudaAttnModel.r_new (fun r => Rmax (r r_max) (r r_dot));
   ILoad r_w (bw_sh i); ISet r_alpha (fun r => exp (r r_dot - r CudaAttnModel.r_new) * r r_w)%R;
   ISet r_exp (fun r => if Req_EM_T (r r_max) ninf then 0%R else exp (r r_max - r CudaAttnModel.r_new));
   ISet r_sum (fun r => r r_sum * r r_exp + r r_alpha)%R;
   ISet r_int (fun r => r r_int * r r_exp + r r_alpha * r r_gd)%R;
   ISet r_ag (fun r => r r_alpha * r r_gd)%R].
(** attention_cuda_bwd_ring.cu:947-991: one entry *)
Definition p1_entry (batch : nat) (x : nat * (nat * entry)) : list gstep :=
  let '(i, (_, (_, p))) := x in
  bdots mid pk pv batch p ++
  [Seg (fun t => bgrow i ++
     flat_map (fun c => [get pk r_t (k_at V nci H W batch p + c); ISet (r_lk c) (fun r => r r_exp * r (r_lk c) + r r_alpha * r r_t)%R;
                         ISet (r_lkvw c) (fun r => r r_exp * r (r_lkvw c) + r r_ag * r r_t)%R]) (cin t) ++
     [ISet r_max (fun r => r CudaAttnModel.r_new)])].
(** attention_cuda_bwd_ring.cu:802-1005 [s2_attn_bwd_ring_pass1_special_k] *)
Definition p1_body (batch ho wo : nat) (act : list (nat * entry)) : list gstep :=
  let cell := cell_of Ho Wo batch ho wo in
  [Seg (fun t => [get_s base b_ssum r_sum cell; get_s base b_smax r_max cell; get_s base b_sint r_int cell] ++
     flat_map (fun c => [get_s base b_sk (r_lk c) (bk_at batch ho wo c); get_s base b_skvw (r_lkvw c) (bk_at batch ho wo c)]) (cin t) ++
     load_qd pq pdy batch ho wo t ++ bstash pw act t); group_sync] ++
  flat_map (p1_entry batch) (listed act) ++
  [Seg (fun t => (if t =? 0 then [set_out b_ssum cell (fun r => r r_sum); set_out b_smax cell (fun r => r r_max); set_out b_sint cell (fun r => r r_int)] else []) ++
     flat_map (fun c => [set_out b_sk (bk_at batch ho wo c) (fun r => r (r_lk c)); set_out b_skvw (bk_at batch ho wo c) (fun r => r (r_lkvw c))]) (cin t))].
End Special.

Section Finalize.
(** [pm]: qdotk_max_curr; the output is the state without the maxima *)
Variables (mid : nat) (pk pv pq pdy pw pm : nat * nat).
Definition bf_sum : nat * nat := (0, cells).
Definition bf_int : nat * nat := (cells, cells).
Definition bf_k : nat * nat := (2 * cells, cells * Ck).
Definition bf_kvw : nat * nat := (2 * cells + cells * Ck, cells * Ck).
(** attention_cuda_bwd_ring.cu:639-677: one entry *)
Definition p1_final_entry (batch : nat) (x : nat * (nat * entry)) : list gstep :=
  let '(i, (_, (_, p))) := x in
  bdots mid pk pv batch p ++
  [Seg (fun t => [ILoad r_w (bw_sh i); ISet r_alpha (fun r => exp (r r_dot - r r_max) * r r_w)%R; ISet r_ag (fun r => r r_alpha * r r_gd)%R;
                  ISet r_sum (fun r => r r_sum + r r_alpha)%R; ISet r_int (fun r => r r_int + r r_ag)%R] ++
     flat_map (fun c => [get pk r_t (k_at V nci H W batch p + c); ISet (r_lk c) (fun r => r (r_lk c) + r r_alpha * r r_t)%R;
                         ISet (r_lkvw c) (fun r => r (r_lkvw c) + r r_ag * r r_t)%R]) (cin t))].
(** attention_cuda_bwd_ring.cu:468-708 [s2_attn_bwd_ring_pass1_finalize_k] *)
Definition p1_final_body (batch ho wo : nat) (act : list (nat * entry)) : list gstep :=
  let cell := cell_of Ho Wo batch ho wo in
  [Seg (fun t => [ISet r_sum (fun _ => 0%R); ISet r_int (fun _ => 0%R); get pm r_max cell] ++
     flat_map (fun c => [ISet (r_lk c) (fun _ => 0%R); ISet (r_lkvw c) (fun _ => 0%R)]) (cin t) ++
     load_qd pq pdy batch ho wo t ++ bstash pw act t); group_sync] ++
  flat_map (p1_final_entry batch) (listed act) ++
  [Seg (fun t => (if t =? 0 then [add_out AAdd bf_sum cell (fun r => r r_sum); add_out AAdd bf_int cell (fun r => r r_int)] else []) ++
     flat_map (fun c => [add_out AAdd bf_k (bk_at batch ho wo c) (fun r => r (r_lk c)); add_out AAdd bf_kvw (bk_at batch ho wo c) (fun r => r (r_lkvw c))]) (cin t))].
End Finalize.

(** ** Launches *)
Variables (nq : nat) (kA vA qA dyA quadA : nat -> R).
Notation ksz := (B * H * W * (V * nci)).  Notation vsz := (B * H * W * (V * nco)).  Notation qsz := (cells * (V * nci)).  Notation dsz := (cells * (V * nco)).
Notation NW := (if BD =? 32 then 0 else BD / 32).
(** attention_cuda_bwd_ring.cu:1769-1786 *)
Definition p2_kernel (sA mA iA : nat -> R) (mid per nl : nat) (rows : list nat) : kernel :=
  let arr := [(ksz, kA); (vsz, vA); (qsz, qA); (dsz, dyA); (nq, quadA); (cells, sA); (cells, mA); (cells, iA)] in
  mkKernel (B * per * long_width BY nl Wo) BD (bscratch mid + NW) (list_sum (map fst arr)) (joined arr) (ksz + vsz)
    (fun g => code_of (row_groupz mid (part arr 0) (part arr 1) (part arr 2) (part arr 3) (part arr 4) (part arr 5) (part arr 6) (part arr 7) per nl rows g)).
(** attention_cuda_bwd_ring.cu:1692-1822 [launch_spc_attn_ring_pass2_bwd]: the launches for the long and the other rows;
    two indices and a weight for each entry, q on older devices, and as in CudaRingModel NW floats
    for each sum over a wide block and NW for __compact *)
Definition p2_size (mid : nat) : nat := (V * nco + 3 * mid + (if old then V * nci else 0)) * BY + 3 * NW.
Definition pass2_steps (dev : device) (nl maxlen midlen : nat) (row_idx : list nat) (sA mA iA : nat -> R) : option (option kernel * option kernel) :=
  let per := Nat.max 1 (Nat.min 32 (div_up maxlen 32)) in
  let mid_lr := div_up maxlen per in let mid := div_up midlen 1 in
  do l <- (if nl =? 0 then Some None else
           do _ <- guard (launchable dev (div_up (nl * Wo) BY) per (p2_size mid_lr) && (B <=? d_gridy dev) && (1 <=? B)); Some (Some (p2_kernel sA mA iA mid_lr per nl row_idx)));
  do s <- (if Ho - nl =? 0 then Some None else
           do _ <- guard (launchable dev (div_up ((Ho - nl) * Wo) BY) 1 (p2_size mid) && (B <=? d_gridy dev) && (1 <=? B)); Some (Some (p2_kernel sA mA iA mid 1 (Ho - nl) (skipn nl row_idx))));
  Some (l, s).

(** attention_cuda_bwd_ring.cu:1077-1095 *)
Definition p1_kernel (mid nl : nat) (rows : list nat) : kernel :=
  let arr := [(ksz, kA); (vsz, vA); (qsz, qA); (dsz, dyA); (nq, quadA)] in let base := list_sum (map fst arr) in
  mkKernel (B * 1 * long_width BY nl Wo) BD (bscratch mid + NW) (base + bsize) (joined arr) bsize
    (fun g => code_of (row_group BD BY H W Wi ps lon_lo lat0 Wo roff col mid 1 nl rows (p1_body mid base (part arr 0) (part arr 1) (part arr 2) (part arr 3) (part arr 4)) g)).
(** attention_cuda_bwd_ring.cu:773-790 *)
Definition p1_final_kernel (mid per nl : nat) (rows : list nat) (cur : nat -> R) : kernel :=
  let arr := [(ksz, kA); (vsz, vA); (qsz, qA); (dsz, dyA); (nq, quadA); (cells, cur)] in
  mkKernel (B * per * long_width BY nl Wo) BD (bscratch mid + NW) (list_sum (map fst arr)) (joined arr) (2 * cells + 2 * (cells * Ck))
    (fun g => code_of (row_group BD BY H W Wi ps lon_lo lat0 Wo roff col mid per nl rows (p1_final_body mid (part arr 0) (part arr 1) (part arr 2) (part arr 3) (part arr 4) (part arr 5)) g)).
(** attention_cuda_bwd_ring.cu:247-392 [s2_attn_bwd_ring_pass1_softmax_k] and its launch 756-764: as the kernel of the
    forward step, with the loop over the channels unrolled, which for this length of the local array
    visits the same channels *)
Definition p1_softmax_kernel (mid per nl : nat) (rows : list nat) (prev : nat -> R) : kernel :=
  rsoftmax_kernel BD BY V nci H W Wi ps lon_lo lat0 B Ho Wo roff col kA qA mid per nl rows prev.
(** attention_cuda_bwd_ring.cu:711-796 [spc_attn_ring_pass1_bwd_long_rows] *)
Definition p1_long (dev : device) (nl maxlen : nat) (row_idx : list nat) : option (((nat -> R) -> kernel) * ((nat -> R) -> kernel) * ((nat -> R) -> kernel)) :=
  let per := Nat.min 32 (div_up maxlen 32) in let mid := div_up maxlen per in let gx := div_up (nl * Wo) BY in
  do _ <- guard (launchable dev gx per (2 * mid * BY + 2 * NW) && (B <=? d_gridy dev) && (1 <=? B));
  do _ <- guard (launchable dev gx B 0);
  do _ <- guard (launchable dev gx per ((V * nci + V * nco + 5 * mid) * BY + 3 * NW));
  Some (p1_softmax_kernel mid per nl row_idx, bwd_rescale ninf B Ho Wo V nci BD BY nloc nl row_idx, p1_final_kernel mid per nl row_idx).
(** attention_cuda_bwd_ring.cu:1060-1095 *)
Definition p1_short (dev : device) (nl mid : nat) (row_idx : list nat) : option kernel :=
  do _ <- guard (launchable dev (div_up ((Ho - nl) * Wo) BY) B ((V * nco + 5 * mid) * BY + 3 * NW));
  Some (p1_kernel mid (Ho - nl) (skipn nl row_idx)).
(** attention_cuda_bwd_ring.cu:1009-1112 [launch_spc_attn_ring_pass1_bwd] *)
Definition pass1_steps (dev : device) (nl maxlen mid : nat) (row_idx : list nat) : option (option (((nat -> R) -> kernel) * ((nat -> R) -> kernel) * ((nat -> R) -> kernel)) * option kernel) :=
  do l <- (if nl =? 0 then Some None else do l <- p1_long dev nl maxlen row_idx; Some (Some l));
  do s <- (if Ho - nl =? 0 then Some None else do s <- p1_short dev nl mid row_idx; Some (Some s));
  Some (l, s).
End Ring.

(** attention_cuda_bwd_ring.cu:1826-2010 [s2_attn_bwd_ring_step_pass2_dispatch] for at most
    16 * 512 key channels; more go to the generic kernel *)
Definition ring_pass2 (dev : device) (vec old : bool) (B Ck Cv H W Wi ps lon_lo : nat) (lat0 : Z) (Ho Wo nq : nat) (kA vA qA dyA quadA : nat -> R)
  (row_idx roff col : list nat) (n_long max_len mid_len : nat) (sA mA iA : nat -> R) : option (option kernel * option kernel) :=
  let V := vec_len vec Ck Cv in let nci := Ck / V in let nco := Cv / V in
  let BD := pick_bdimx Ck in
  do _ <- guard (BD <=? 512);
  let nloc := div_up nci BD in
  do _ <- guard (nloc_ok BD V nloc);
  let BY := if BD =? 32 then 2 else 1 in
  let as_in := (BD * (nloc - 1) <=? nco) && (nco <=? BD * nloc) in
  pass2_steps BD BY V nloc nci nco H W Wi ps lon_lo lat0 B Ho Wo as_in old roff col nq kA vA qA dyA quadA dev n_long max_len mid_len row_idx sA mA iA.
(** attention_cuda_bwd_ring.cu:1117-1300 [s2_attn_bwd_ring_step_pass1_dispatch], likewise *)
Definition ring_pass1 (dev : device) (vec : bool) (ninf : R) (B Ck Cv H W Wi ps lon_lo : nat) (lat0 : Z) (Ho Wo nq : nat) (kA vA qA dyA quadA : nat -> R)
  (row_idx roff col : list nat) (n_long max_len mid_len : nat) : option (option (((nat -> R) -> kernel) * ((nat -> R) -> kernel) * ((nat -> R) -> kernel)) * option kernel) :=
  let V := vec_len vec Ck Cv in let nci := Ck / V in let nco := Cv / V in
  let BD := pick_bdimx Ck in
  do _ <- guard (BD <=? 512);
  let nloc := div_up nci BD in
  do _ <- guard (nloc_ok BD V nloc);
  let BY := if BD =? 32 then 2 else 1 in
  let as_in := (BD * (nloc - 1) <=? nco) && (nco <=? BD * nloc) in
  pass1_steps BD BY V nloc nci nco H W Wi ps lon_lo lat0 B Ho Wo as_in ninf roff col nq kA vA qA dyA quadA dev n_long max_len mid_len row_idx.
