(** Neighbourhood attention: the torch reference kernels, the CPU kernels (forward
    and backward, gather and upsampling direction), the head folding and layout
    changes around them, and the layers.

    Numbers are exact reals; dtype casts are identities.  A quotient by zero (NaN in
    the code) makes the whole call return [None], as do an exception and an access
    outside an array.  OpenMP threads work on disjoint outputs: the loops are run in
    order. *)
From Coq Require Import List Arith Lia Bool Reals.
From Verif Require Import TensorModel BigSum DiscoModel.
Import ListNotations.
Local Open Scope nat_scope.

(** A field: batch (with heads folded in), latitude, longitude, channel. *)
Definition fld := nat -> nat -> nat -> nat -> R.
(** channels-first and channels-last tensors as fields *)
Definition cf (t : tensor R) : fld := fun b h w c => val t [b; c; h; w].
Definition hwc (t : tensor R) : fld := fun b h w c => val t [b; h; w; c].
Definition mk_cf (B C H W : nat) (f : fld) : tensor R :=
  mkT [B; C; H; W] (fun i => f (nth 0 i 0) (nth 2 i 0) (nth 3 i 0) (nth 1 i 0)).
Definition mk_hwc (B H W C : nat) (f : fld) : tensor R :=
  mkT [B; H; W; C] (fun i => f (nth 0 i 0) (nth 1 i 0) (nth 2 i 0) (nth 3 i 0)).

Definition nz (x : R) : bool := if Req_EM_T x 0 then false else true.
Definition dot (C : nat) (a b : nat -> R) : R := rsum C (fun c => (a c * b c)%R).
Definition enum {A} (l : list A) : list (nat * A) := combine (seq 0 (length l)) l.
Definition hdR (l : list R) (i : nat) : R := nth i l 0%R.

(** One value for each (b, h, w); an absent one is the failure of the whole. *)
Definition grid3 {A} (d : A) (B H W : nat) (f : nat -> nat -> nat -> option A) : option (nat -> nat -> nat -> A) :=
  do l <- mapM (fun n => f (n / (H * W)) (n / W mod H) (n mod W)) (seq 0 (B * (H * W)));
  Some (fun b h w => nth (b * (H * W) + h * W + w) l d).

(** The running-maximum softmax state: alpha_sum, qdotk_max and the accumulated
    values (attention_torch.py:96-120, attention_cpu_fwd.h:168-181) *)
Record osm := mkO { o_sum : R; o_max : R; o_acc : nat -> R }.
(** attention_torch.py:111-120 *)
Definition osm_step (s w : R) (v : nat -> R) (st : osm) : osm :=
  let m := Rmax (o_max st) s in
  let a := (exp (s - m) * w)%R in
  mkO (a + o_sum st * exp (o_max st - m)) m (fun c => (o_acc st c * exp (o_max st - m) + a * v c)%R).

(** torch.max(x, dim): raises when there is nothing to maximise *)
Definition rmax_list (l : list R) : option R :=
  match l with [] => None | x :: r => Some (fold_left Rmax r x) end.
(** a[h, w, :] += f *)
Definition add3 (h w : nat) (f : nat -> R) (a : nat -> nat -> nat -> R) : nat -> nat -> nat -> R :=
  fun h' w' c => if (h' =? h) && (w' =? w) then (a h' w' c + f c)%R else a h' w' c.
(** a[off : off + len(l)] = l, a flat buffer *)
Definition write_at (off : nat) (l : list R) (a : nat -> R) : nat -> R :=
  fun i => if (off <=? i) && (i <? off + length l) then hdR l (i - off) else a i.

Section Kernels.
(** Per-head channel counts of q/k and v, input and output grid, quadrature weights,
    and the sparsity pattern in CSR form. *)
Variables (Ck Cv Hi Wi Ho Wo : nat) (quad : nat -> R) (roff col : list nat).
(** key, value, query and output gradient *)
Variables (k v q dy : fld).

(** col_idx[row_off[r] : row_off[r + 1]] *)
Definition csr_row (r : nat) : list nat := slice col (nth r roff 0) (nth (r + 1) roff 0).
(** Accesses in range.  The code checks none of this: the reference raises, the CPU
    kernels read outside the arrays.  (Stricter than the code for entries no row
    refers to.) *)
Definition csr_ok (rows N : nat) : bool :=
  (rows + 1 <=? length roff) && forallb (fun o => o <=? length col) roff && forallb (fun c => c <? N) col.

(** ** Reference kernels, gather direction *)

(** attention_torch.py:98-108: stored column -> (hi, wip) for output longitude wo *)
Definition gather_pt (wo c : nat) : nat * nat := (c / Wi, (c mod Wi + Wi / Wo * wo) mod Wi).
Definition qdotk (b ho wo : nat) (p : nat * nat) : R := dot Ck (q b ho wo) (k b (fst p) (snd p)).
Definition gdotv (b ho wo : nat) (p : nat * nat) : R := dot Cv (dy b ho wo) (v b (fst p) (snd p)).

(** attention_torch.py:93-123: one output point *)
Definition torch_cell (b ho wo : nat) : option (nat -> R) :=
  let st := fold_left (fun st c => let p := gather_pt wo c in
              osm_step (qdotk b ho wo p) (quad (fst p)) (v b (fst p) (snd p)) st)
            (csr_row ho) (mkO 0 0 (fun _ => 0%R)) in
  do _ <- guard (nz (o_sum st));
  Some (fun c => (o_acc st c / o_sum st)%R).
(** attention_torch.py:74-125 [_neighborhood_s2_attention_fwd_torch] *)
Definition gather_fwd (B : nat) : option fld :=
  do _ <- guard ((1 <=? Wo) && (Wi mod Wo =? 0) && csr_ok Ho (Hi * Wi));
  grid3 (fun _ => 0%R) B Ho Wo torch_cell.

(** attention_torch.py:167-192 (and 243-282, 337-382): the scores of the neighbours,
    their maximum, the weights alpha and their sum *)
Definition gather_stats (b ho wo : nat) : option (list ((nat * nat) * R) * R) :=
  let pts := map (gather_pt wo) (csr_row ho) in
  let qs := map (qdotk b ho wo) pts in
  do m <- rmax_list qs;
  let al := map (fun x => (exp (snd x - m) * quad (fst (fst x)))%R) (combine pts qs) in
  let s := fold_left Rplus al 0%R in
  do _ <- guard (nz s);
  Some (combine pts al, s).
Definition cells : list (nat * nat) := flat_map (fun ho => map (pair ho) (seq 0 Wo)) (seq 0 Ho).
(** attention_torch.py:130-206 [_neighborhood_s2_attention_bwd_dv_torch], one batch *)
Definition dv_cell (b : nat) (acc : option (nat -> nat -> nat -> R)) (cell : nat * nat) : option (nat -> nat -> nat -> R) :=
  do a <- acc; let '(ho, wo) := cell in
  do st <- gather_stats b ho wo; let '(pa, s) := st in
  Some (fold_left (fun a x => add3 (fst (fst x)) (snd (fst x)) (fun c => (snd x / s * dy b ho wo c)%R) a) pa a).
Definition gather_dv (b : nat) : option (nat -> nat -> nat -> R) := fold_left (dv_cell b) cells (Some (fun _ _ _ => 0%R)).
(** attention_torch.py:211-301 [_neighborhood_s2_attention_bwd_dk_torch], one batch *)
Definition dk_cell (b : nat) (acc : option (nat -> nat -> nat -> R)) (cell : nat * nat) : option (nat -> nat -> nat -> R) :=
  do a <- acc; let '(ho, wo) := cell in
  do st <- gather_stats b ho wo; let '(pa, s) := st in
  let integral := (fold_left (fun i x => (i + snd x * gdotv b ho wo (fst x))%R) pa 0%R / s)%R in
  Some (fold_left (fun a x => add3 (fst (fst x)) (snd (fst x))
          (fun c => (q b ho wo c * (snd x / s) * (gdotv b ho wo (fst x) - integral))%R) a) pa a).
Definition gather_dk (b : nat) : option (nat -> nat -> nat -> R) := fold_left (dk_cell b) cells (Some (fun _ _ _ => 0%R)).
(** attention_torch.py:306-387 [_neighborhood_s2_attention_bwd_dq_torch], one cell *)
Definition gather_dq_cell (b ho wo : nat) : option (nat -> R) :=
  do st <- gather_stats b ho wo; let '(pa, s) := st in
  let alpha_k := fold_left (fun a x c => (a c + snd x * k b (fst (fst x)) (snd (fst x)) c)%R) pa (fun _ => 0%R) in
  let alpha_vw := fold_left (fun a x => (a + snd x * gdotv b ho wo (fst x))%R) pa 0%R in
  let alpha_kvw := fold_left (fun a x c => (a c + snd x * k b (fst (fst x)) (snd (fst x)) c * gdotv b ho wo (fst x))%R) pa (fun _ => 0%R) in
  Some (fun c => ((alpha_kvw c * s - alpha_vw * alpha_k c) / (s * s))%R).
Definition gather_bwd (B : nat) : option (fld * fld * fld) :=
  do _ <- guard ((1 <=? Wo) && (Wi mod Wo =? 0) && csr_ok Ho (Hi * Wi));
  do dks <- mapM gather_dk (seq 0 B);
  do dvs <- mapM gather_dv (seq 0 B);
  do dqs <- grid3 (fun _ => 0%R) B Ho Wo gather_dq_cell;
  Some (fun b => nth b dks (fun _ _ _ => 0%R), fun b => nth b dvs (fun _ _ _ => 0%R), dqs).

(** ** Reference kernels, upsampling direction *)

(** attention_torch.py:606-616: the triple loop over hi, wi and the entries of row
    hi, as the list of (hi, wi, ho, wop) it visits *)
Definition up_trips : list ((nat * nat) * (nat * nat)) :=
  flat_map (fun hi => flat_map (fun wi => map (fun c => ((hi, wi), (c / Wo, (c mod Wo + Wo / Wi * wi) mod Wo))) (csr_row hi)) (seq 0 Wi)) (seq 0 Hi).
Definition up_qdotk (b : nat) (t : (nat * nat) * (nat * nat)) : R := qdotk b (fst (snd t)) (snd (snd t)) (fst t).
Definition up_gdotv (b : nat) (t : (nat * nat) * (nat * nat)) : R := gdotv b (fst (snd t)) (snd (snd t)) (fst t).
(** Pass 1, 605-619 (652-662, 719-729, 796-806); [None] is -inf *)
Definition omax (m : option R) (x : R) : option R := match m with None => Some x | Some m => Some (Rmax m x) end.
Definition up_max (b : nat) : nat -> nat -> option R :=
  fold_left (fun m t h w => if (h =? fst (snd t)) && (w =? snd (snd t)) then omax (m h w) (up_qdotk b t) else m h w)
    up_trips (fun _ _ => None).
(** alpha of one visit (631, 673, 689, 743, 765, 825) *)
Definition up_alpha (b : nat) (m : nat -> nat -> option R) (t : (nat * nat) * (nat * nat)) : option R :=
  do mx <- m (fst (snd t)) (snd (snd t)); Some (exp (up_qdotk b t - mx) * quad (fst (fst t)))%R.
(** Pass 2: accumulate alpha times [f] in the visited output cell *)
Definition up_acc {C} (b : nat) (m : nat -> nat -> option R) (f : (nat * nat) * (nat * nat) -> C -> R) : option (nat -> nat -> C -> R) :=
  fold_left (fun acc t => do a <- acc; do al <- up_alpha b m t;
      Some (fun h w c => if (h =? fst (snd t)) && (w =? snd (snd t)) then (a h w c + al * f t c)%R else a h w c))
    up_trips (Some (fun _ _ _ => 0%R)).
Definition up_sum (b : nat) (m : nat -> nat -> option R) : option (nat -> nat -> R) :=
  do a <- @up_acc unit b m (fun _ _ => 1%R); Some (fun h w => a h w tt).
Definition sums_nz (s : nat -> nat -> R) : bool := forallb (fun c => nz (s (fst c) (snd c))) cells.
(** attention_torch.py:582-637 [_neighborhood_s2_attention_upsample_fwd_torch], one batch *)
Definition up_fwd_batch (b : nat) : option (nat -> nat -> nat -> R) :=
  let m := up_max b in
  do s <- up_sum b m;
  do y <- @up_acc nat b m (fun t c => v b (fst (fst t)) (snd (fst t)) c);
  do _ <- guard (sums_nz s);
  Some (fun h w c => (y h w c / s h w)%R).
Definition up_ok : bool := (1 <=? Wi) && (Wo mod Wi =? 0) && csr_ok Hi (Ho * Wo).
Definition up_fwd (B : nat) : option fld :=
  do _ <- guard up_ok;
  do ys <- mapM up_fwd_batch (seq 0 B);
  Some (fun b => nth b ys (fun _ _ _ => 0%R)).
(** attention_torch.py:640-705: dv.  The quotients are only taken at visited cells. *)
Definition up_dv (b : nat) : option (nat -> nat -> nat -> R) :=
  let m := up_max b in
  do s <- up_sum b m;
  fold_left (fun acc t => do a <- acc; do al <- up_alpha b m t;
      do _ <- guard (nz (s (fst (snd t)) (snd (snd t))));
      Some (add3 (fst (fst t)) (snd (fst t)) (fun c => (al / s (fst (snd t)) (snd (snd t)) * dy b (fst (snd t)) (snd (snd t)) c)%R) a))
    up_trips (Some (fun _ _ _ => 0%R)).
(** attention_torch.py:708-781: dk.  [integral = integral / alpha_sum] is taken at
    every cell, but a NaN at a cell nobody visits is never read. *)
Definition up_dk (b : nat) : option (nat -> nat -> nat -> R) :=
  let m := up_max b in
  do s <- up_sum b m;
  do g <- @up_acc unit b m (fun t _ => up_gdotv b t);
  fold_left (fun acc t => do a <- acc; do al <- up_alpha b m t;
      do _ <- guard (nz (s (fst (snd t)) (snd (snd t))));
      let integral := (g (fst (snd t)) (snd (snd t)) tt / s (fst (snd t)) (snd (snd t)))%R in
      Some (add3 (fst (fst t)) (snd (fst t))
        (fun c => (q b (fst (snd t)) (snd (snd t)) c * (al / s (fst (snd t)) (snd (snd t)) * (up_gdotv b t - integral)))%R) a))
    up_trips (Some (fun _ _ _ => 0%R)).
(** attention_torch.py:784-849: dq *)
Definition up_dq (b : nat) : option (nat -> nat -> nat -> R) :=
  let m := up_max b in
  do s <- up_sum b m;
  do vw <- @up_acc unit b m (fun t _ => up_gdotv b t);
  do ak <- @up_acc nat b m (fun t c => k b (fst (fst t)) (snd (fst t)) c);
  do akv <- @up_acc nat b m (fun t c => (up_gdotv b t * k b (fst (fst t)) (snd (fst t)) c)%R);
  do _ <- guard (sums_nz s);
  Some (fun h w c => ((akv h w c * s h w - vw h w tt * ak h w c) / (s h w * s h w))%R).
Definition up_bwd (B : nat) : option (fld * fld * fld) :=
  do _ <- guard up_ok;
  do dks <- mapM up_dk (seq 0 B);
  do dvs <- mapM up_dv (seq 0 B);
  do dqs <- mapM up_dq (seq 0 B);
  Some (fun b => nth b dks (fun _ _ _ => 0%R), fun b => nth b dvs (fun _ _ _ => 0%R), fun b => nth b dqs (fun _ _ _ => 0%R)).

(** ** CPU kernels, gather direction *)

(** [m0] is -FLT_MAX; the theorems hold whatever it is.  [BS] is CACHE_BLOCK_SIZE. *)
Variables (m0 : R) (BS : nat).

(** attention_cpu_fwd.h:153-186: one (entry, wo) of a block *)
Record blk := mkBlk { k_wip : nat; k_sum : nat -> R; k_max : nat -> R; k_tmp : nat -> R }.
Definition cpu_wo (b ho hi wo_start : nat) (st : blk) (wo : nat) : blk :=
  let wob := wo - wo_start in let wip := k_wip st in
  let s := dot Ck (q b ho wo) (k b hi wip) in
  let m := Rmax (k_max st wob) s in
  let discount := exp (k_max st wob - m) in
  let alpha := (exp (s - m) * quad hi)%R in
  mkBlk (if Wi <=? wip + Wi / Wo then wip + Wi / Wo - Wi else wip + Wi / Wo)
    (aset wob (alpha + k_sum st wob * discount)%R (k_sum st)) (aset wob m (k_max st))
    (fun j => if (wob * Cv <=? j) && (j <? wob * Cv + Cv) then (k_tmp st j * discount + alpha * v b hi wip (j - wob * Cv)%nat)%R else k_tmp st j).
(** attention_cpu_fwd.h:136-187: one entry over the block [wo_start, wo_end) *)
Definition cpu_entry (b ho wo_start wo_end : nat) (st : blk) (c : nat) : blk :=
  let hi := c / Wi in let wi := c mod Wi in
  fold_left (cpu_wo b ho hi wo_start) (seq wo_start (wo_end - wo_start))
    (mkBlk ((wi + Wi / Wo * wo_start) mod Wi) (k_sum st) (k_max st) (k_tmp st)).
(** attention_cpu_fwd.h:116-199: one block; [junk] is what the thread's y_tmp held *)
Definition cpu_block (junk : nat -> R) (b ho bwo : nat) : option (nat -> nat -> R) :=
  let wo_start := bwo * BS in let wo_end := Nat.min Wo (wo_start + BS) in
  let st := fold_left (cpu_entry b ho wo_start wo_end) (csr_row ho)
     (mkBlk 0 (fun _ => 0%R) (fun _ => m0) (fun j => if j <? (wo_end - wo_start) * Cv then 0%R else junk j)) in
  do _ <- guard (forallb (fun wo => nz (k_sum st (wo - wo_start))) (seq wo_start (wo_end - wo_start)));
  Some (fun wo c => let wob := wo - wo_start in (k_tmp st (wob * Cv + c)%nat * (1 / k_sum st wob))%R).
(** The blocks of one output row, written one after the other *)
Definition cpu_row (junk : nat -> R) (b ho : nat) : option (nat -> nat -> R) :=
  fold_left (fun acc bwo => do y <- acc; do blk <- cpu_block junk b ho bwo;
      Some (fun wo c => if (bwo * BS <=? wo) && (wo <? Nat.min Wo (bwo * BS + BS)) then blk wo c else y wo c))
    (seq 0 ((Wo + BS - 1) / BS)) (Some (fun _ _ => 0%R)).
(** attention_cpu_fwd.h:63-204 [s2_attn_fwd_kernel] *)
Definition cpu_fwd (junk : nat -> R) (B : nat) : option fld :=
  do _ <- guard (csr_ok Ho (Hi * Wi));
  do rows <- grid3 (fun _ _ => 0%R) B Ho 1 (fun b ho _ => cpu_row junk b ho);
  Some (fun b ho => rows b ho 0).

(** attention_cpu_bwd.h:168-171: wrap by one conditional subtraction *)
Definition cpu_pt (wo c : nat) : nat * nat :=
  let wip := c mod Wi + Wi / Wo * wo in (c / Wi, if Wi <=? wip then wip - Wi else wip).
(** attention_cpu_bwd.h:120-121 *)
Definition max_nnz (rows : nat) : nat :=
  fold_left (fun m r => Nat.max m (nth (r + 1) roff 0 - nth r roff 0)) (seq 0 rows) 0.
(** attention_cpu_bwd.h:136-139 *)
Definition nz_off (b ho wo : nat) : nat := ((b * Ho + ho) * Wo + wo) * max_nnz Ho.
Definition sc_off (b ho wo : nat) : nat := (b * Ho + ho) * Wo + wo.
Record bufs := mkBufs { alpha_nz : nat -> R; gdotv_nz : nat -> R; alpha_sum : nat -> R; alpha_gdotv : nat -> R }.
Definition bufs0 : bufs := mkBufs (fun _ => 0%R) (fun _ => 0%R) (fun _ => 0%R) (fun _ => 0%R).
(** attention_cpu_bwd.h:150-212: phase A, one cell.  The scratch arrays qdotk_local,
    a_nz, g_nz are lists here, copied to their place in the buffers. *)
Definition phase_a_cell (st : bufs) (cell : nat * nat * nat) : bufs :=
  let '(b, ho, wo) := cell in
  let pts := map (cpu_pt wo) (csr_row ho) in
  let qs := map (qdotk b ho wo) pts in
  let m := fold_left Rmax qs m0 in
  let al := map (fun x => (exp (snd x - m) * quad (fst (fst x)))%R) (combine pts qs) in
  let gs := map (gdotv b ho wo) pts in
  mkBufs (write_at (nz_off b ho wo) al (alpha_nz st)) (write_at (nz_off b ho wo) gs (gdotv_nz st))
    (aset (sc_off b ho wo) (fold_left Rplus al 0%R) (alpha_sum st))
    (aset (sc_off b ho wo) (fold_left (fun a x => (a + fst x * snd x)%R) (combine al gs) 0%R) (alpha_gdotv st)).
Definition cells3 (B : nat) : list (nat * nat * nat) :=
  flat_map (fun b => map (fun c => (b, fst c, snd c)) cells) (seq 0 B).
Definition phase_a (B : nat) : bufs := fold_left phase_a_cell (cells3 B) bufs0.
(** attention_cpu_bwd.h:241-277: phase B for one (b, ci) and one input row hi *)
Definition phase_b_hi (bf : bufs) (b ci hi : nat) (dqy : nat -> R) : (nat -> R) * (nat -> R) :=
  fold_left (fun st ho =>
    fold_left (fun st jc =>
      if negb (snd jc / Wi =? hi) then st else
      fold_left (fun (st : (nat -> R) * (nat -> R)) wo =>
        let '(drow, dqy) := st in
        let wip := snd (cpu_pt wo (snd jc)) in
        let inv_sum := (1 / alpha_sum bf (sc_off b ho wo))%R in
        let ag := (alpha_gdotv bf (sc_off b ho wo) * inv_sum)%R in
        let weight := (alpha_nz bf (nz_off b ho wo + fst jc)%nat * inv_sum * (gdotv_nz bf (nz_off b ho wo + fst jc)%nat - ag))%R in
        (aset wip (drow wip + q b ho wo ci * weight)%R drow,
         aset (ho * Wo + wo) (dqy (ho * Wo + wo)%nat + k b hi wip ci * weight)%R dqy))
      (seq 0 Wo) st)
    (enum (csr_row ho)) st)
  (seq 0 Ho) (fun _ => 0%R, dqy).
(** attention_cpu_bwd.h:233-292: phase B for one (b, ci): dkx[b, :, :, ci] and the
    flat dqy scratch *)
Definition phase_b (bf : bufs) (b ci : nat) : (nat -> nat -> R) * (nat -> R) :=
  fold_left (fun st hi => let '(dk, dqy) := st in
     let '(drow, dqy) := phase_b_hi bf b ci hi dqy in
     (fun h w => if (h =? hi) && (w <? Wi) then (dk h w + drow w)%R else dk h w, dqy))
    (seq 0 Hi) (fun _ _ => 0%R, fun _ => 0%R).
(** attention_cpu_bwd.h:307-343: phase C for one (b, co) *)
Definition phase_c_hi (bf : bufs) (b co hi : nat) : nat -> R :=
  fold_left (fun st ho =>
    fold_left (fun st jc =>
      if negb (snd jc / Wi =? hi) then st else
      fold_left (fun (drow : nat -> R) wo =>
        let wip := snd (cpu_pt wo (snd jc)) in
        aset wip (drow wip + alpha_nz bf (nz_off b ho wo + fst jc)%nat * (1 / alpha_sum bf (sc_off b ho wo)) * dy b ho wo co)%R drow)
      (seq 0 Wo) st)
    (enum (csr_row ho)) st)
  (seq 0 Ho) (fun _ => 0%R).
Definition phase_c (bf : bufs) (b co : nat) : nat -> nat -> R :=
  fold_left (fun dv hi h w => if (h =? hi) && (w <? Wi) then (dv h w + phase_c_hi bf b co hi w)%R else dv h w) (seq 0 Hi) (fun _ _ => 0%R).
(** attention_cpu_bwd.h:75-347 [s2_attn_bwd_kernel]: dk, dv, dq.  A row without
    entries takes no quotient. *)
Definition cpu_bwd (B : nat) : option (fld * fld * fld) :=
  do _ <- guard (csr_ok Ho (Hi * Wi));
  let bf := phase_a B in
  do _ <- guard (forallb (fun c => let '(b, ho, wo) := c in (length (csr_row ho) =? 0) || nz (alpha_sum bf (sc_off b ho wo))) (cells3 B));
  Some (fun b h w ci => fst (phase_b bf b ci) h w, fun b h w co => phase_c bf b co h w,
        fun b h w ci => snd (phase_b bf b ci) (h * Wo + w)).

(** ** CPU kernels, upsampling direction *)

(** attention_cpu_fwd_upsample.cpp:172-174, 210-212: the input longitude that reaches
    output longitude wo from the stored column, if there is one *)
Definition up_wi (wo c : nat) : option nat :=
  let d := (wo + Wo - c mod Wo) mod Wo in
  if d mod (Wo / Wi) =? 0 then Some (d / (Wo / Wi)) else None.
(** The scan over all rows: the entries (hi, position in the row, column) whose
    output latitude is ho (attention_cpu_fwd_upsample.cpp:155-166, 194-207) *)
Definition up_scan (ho : nat) : list (nat * (nat * nat)) :=
  flat_map (fun hi => map (pair hi) (filter (fun jc => snd jc / Wo =? ho) (enum (csr_row hi)))) (seq 0 Hi).
(** attention_cpu_fwd_upsample.cpp:155-188: pass 1 on a block *)
Definition cpu_up_max (b ho wo_start wo_end : nat) : nat -> R :=
  fold_left (fun mx e => fold_left (fun mx wo =>
      match up_wi wo (snd (snd e)) with
      | None => mx
      | Some wi => aset (wo - wo_start) (Rmax (mx (wo - wo_start)) (qdotk b ho wo (fst e, wi))) mx
      end) (seq wo_start (wo_end - wo_start)) mx)
    (up_scan ho) (fun _ => m0).
(** attention_cpu_fwd_upsample.cpp:194-236: pass 2 on a block *)
Definition cpu_up_acc (b ho wo_start wo_end : nat) (mx : nat -> R) (tmp : nat -> R) : (nat -> R) * (nat -> R) :=
  fold_left (fun st e => fold_left (fun (st : (nat -> R) * (nat -> R)) wo =>
      match up_wi wo (snd (snd e)) with
      | None => st
      | Some wi =>
          let '(sum, tmp) := st in let wob := wo - wo_start in
          let alpha := (exp (qdotk b ho wo (fst e, wi) - mx wob) * quad (fst e))%R in
          (aset wob (sum wob + alpha)%R sum,
           fun j => if (wob * Cv <=? j) && (j <? wob * Cv + Cv) then (tmp j + alpha * v b (fst e) wi (j - wob * Cv)%nat)%R else tmp j)
      end) (seq wo_start (wo_end - wo_start)) st)
    (up_scan ho) (fun _ => 0%R, tmp).
Definition cpu_up_block (junk : nat -> R) (b ho bwo : nat) : option (nat -> nat -> R) :=
  let wo_start := bwo * BS in let wo_end := Nat.min Wo (wo_start + BS) in
  let mx := cpu_up_max b ho wo_start wo_end in
  let '(sum, tmp) := cpu_up_acc b ho wo_start wo_end mx (fun j => if j <? (wo_end - wo_start) * Cv then 0%R else junk j) in
  do _ <- guard (forallb (fun wo => nz (sum (wo - wo_start))) (seq wo_start (wo_end - wo_start)));
  Some (fun wo c => let wob := wo - wo_start in (tmp (wob * Cv + c)%nat * (1 / sum wob))%R).
Definition cpu_up_row (junk : nat -> R) (b ho : nat) : option (nat -> nat -> R) :=
  fold_left (fun acc bwo => do y <- acc; do blk <- cpu_up_block junk b ho bwo;
      Some (fun wo c => if (bwo * BS <=? wo) && (wo <? Nat.min Wo (bwo * BS + BS)) then blk wo c else y wo c))
    (seq 0 ((Wo + BS - 1) / BS)) (Some (fun _ _ => 0%R)).
(** attention_cpu_fwd_upsample.cpp:80-253 [s2_attn_fwd_upsample_kernel] *)
Definition cpu_up_fwd (junk : nat -> R) (B : nat) : option fld :=
  do _ <- guard (csr_ok Hi (Ho * Wo));
  do rows <- grid3 (fun _ _ => 0%R) B Ho 1 (fun b ho _ => cpu_up_row junk b ho);
  Some (fun b ho => rows b ho 0).

(** attention_cpu_bwd_upsample.cpp:132-134 *)
Definition up_nz_off (b hi j wi : nat) : nat := ((b * Hi + hi) * max_nnz Hi + j) * Wi + wi.
(** attention_cpu_bwd_upsample.cpp:158-169, 187-199: the matches of one output cell,
    as (hi, position in the row, wi); [wo_diff] wraps by one conditional addition *)
Definition up_match (ho wo : nat) : list (nat * nat * nat) :=
  flat_map (fun e => let wc := snd (snd e) mod Wo in
      let d := if wo <? wc then wo + Wo - wc else wo - wc in
      if d mod (Wo / Wi) =? 0 then [(fst e, fst (snd e), d / (Wo / Wi))] else []) (up_scan ho).
(** attention_cpu_bwd_upsample.cpp:151-220: phase A, one cell *)
Definition up_phase_a_cell (st : bufs) (cell : nat * nat * nat) : bufs :=
  let '(b, ho, wo) := cell in
  let ms := up_match ho wo in
  let qs := map (fun e => qdotk b ho wo (fst (fst e), snd e)) ms in
  let m := fold_left Rmax qs m0 in
  let al := map (fun x => (exp (snd x - m) * quad (fst (fst (fst x))))%R) (combine ms qs) in
  let gs := map (fun e => gdotv b ho wo (fst (fst e), snd e)) ms in
  let put := fun (l : list R) a => fold_left (fun a (x : (nat * nat * nat) * R) =>
                let '((hi, j, wi), r) := x in aset (up_nz_off b hi j wi) r a) (combine ms l) a in
  mkBufs (put al (alpha_nz st)) (put gs (gdotv_nz st))
    (aset (sc_off b ho wo) (fold_left Rplus al 0%R) (alpha_sum st))
    (aset (sc_off b ho wo) (fold_left (fun a x => (a + fst x * snd x)%R) (combine al gs) 0%R) (alpha_gdotv st)).
Definition up_phase_a (B : nat) : bufs := fold_left up_phase_a_cell (cells3 B) bufs0.
(** attention_cpu_bwd_upsample.cpp:258-259: wrap by one conditional subtraction *)
Definition up_wo (wi c : nat) : nat :=
  let wo := c mod Wo + Wo / Wi * wi in if Wo <=? wo then wo - Wo else wo.
(** attention_cpu_bwd_upsample.cpp:238-287: phase B, one (b, ci), one input row *)
Definition up_phase_b_hi (bf : bufs) (b ci hi : nat) (dqy : nat -> R) : (nat -> R) * (nat -> R) :=
  fold_left (fun st jc =>
      fold_left (fun (st : (nat -> R) * (nat -> R)) wi =>
        let '(drow, dqy) := st in
        let ho := snd jc / Wo in let wo := up_wo wi (snd jc) in
        let inv_sum := (1 / alpha_sum bf (sc_off b ho wo))%R in
        let integral := (alpha_gdotv bf (sc_off b ho wo) * inv_sum)%R in
        let alpha_norm := (alpha_nz bf (up_nz_off b hi (fst jc) wi) * inv_sum)%R in
        let weight := (alpha_norm * (gdotv_nz bf (up_nz_off b hi (fst jc) wi) - integral))%R in
        (aset wi (drow wi + q b ho wo ci * weight)%R drow,
         aset (ho * Wo + wo) (dqy (ho * Wo + wo)%nat + k b hi wi ci * weight)%R dqy))
      (seq 0 Wi) st)
    (enum (csr_row hi)) (fun _ => 0%R, dqy).
Definition up_phase_b (bf : bufs) (b ci : nat) : (nat -> nat -> R) * (nat -> R) :=
  fold_left (fun st hi => let '(dk, dqy) := st in
     let '(drow, dqy) := up_phase_b_hi bf b ci hi dqy in
     (fun h w => if (h =? hi) && (w <? Wi) then (dk h w + drow w)%R else dk h w, dqy))
    (seq 0 Hi) (fun _ _ => 0%R, fun _ => 0%R).
(** attention_cpu_bwd_upsample.cpp:309-343: phase C *)
Definition up_phase_c_hi (bf : bufs) (b co hi : nat) : nat -> R :=
  fold_left (fun st jc =>
      fold_left (fun (drow : nat -> R) wi =>
        let ho := snd jc / Wo in let wo := up_wo wi (snd jc) in
        aset wi (drow wi + alpha_nz bf (up_nz_off b hi (fst jc) wi) * (1 / alpha_sum bf (sc_off b ho wo)) * dy b ho wo co)%R drow)
      (seq 0 Wi) st)
    (enum (csr_row hi)) (fun _ => 0%R).
Definition up_phase_c (bf : bufs) (b co : nat) : nat -> nat -> R :=
  fold_left (fun dv hi h w => if (h =? hi) && (w <? Wi) then (dv h w + up_phase_c_hi bf b co hi w)%R else dv h w) (seq 0 Hi) (fun _ _ => 0%R).
(** attention_cpu_bwd_upsample.cpp:81-347 [s2_attn_bwd_upsample_kernel] *)
Definition cpu_up_bwd (B : nat) : option (fld * fld * fld) :=
  do _ <- guard (csr_ok Hi (Ho * Wo));
  let bf := up_phase_a B in
  do _ <- guard (forallb (fun c => let '(b, ho, wo) := c in (length (up_match ho wo) =? 0) || nz (alpha_sum bf (sc_off b ho wo))) (cells3 B));
  Some (fun b h w ci => fst (up_phase_b bf b ci) h w, fun b h w co => up_phase_c bf b co h w,
        fun b h w ci => snd (up_phase_b bf b ci) (h * Wo + w)).

End Kernels.

(** ** Layout changes and head folding *)

(** torch.Tensor.reshape with all sizes given *)
Definition reshape {A} (s : list nat) (t : tensor A) : option (tensor A) :=
  do _ <- guard (prod_list s =? prod_list (shp t));
  Some (mkT s (fun i => val t (unravel (shp t) (ravel s i)))).
(** torch.Tensor.permute: dimension j of the result is dimension p[j] of the input *)
Fixpoint index_of (d : nat) (p : list nat) : nat :=
  match p with [] => 0 | x :: p' => if x =? d then 0 else S (index_of d p') end.
Definition permute {A} (p : list nat) (t : tensor A) : tensor A :=
  mkT (map (fun d => dimsz t d) p) (fun i => val t (map (fun d => nth (index_of d p) i 0) (seq 0 (length p)))).

(** _layout.py:127-154, 157-184 and attention_cpu_permute.cpp:50-72 [to_nhwc], [to_nchw] *)
Definition to_nhwc (x : tensor R) : option (tensor R) := do _ <- guard (ndim x =? 4); Some (permute [0; 2; 3; 1] x).
Definition to_nchw (x : tensor R) : option (tensor R) := do _ <- guard (ndim x =? 4); Some (permute [0; 3; 1; 2] x).

(** attention_cpu_fwd.cpp:49-64 [fold_heads], [unfold_heads] *)
Definition fold_heads (t : tensor R) (nh : nat) : option (tensor R) :=
  if nh =? 1 then Some t else
  let B := dimsz t 0 in let H := dimsz t 1 in let W := dimsz t 2 in let C := dimsz t 3 / nh in
  do a <- reshape [B; H; W; nh; C] t; reshape [B * nh; H; W; C] (permute [0; 3; 1; 2; 4] a).
Definition unfold_heads (t : tensor R) (nh : nat) : option (tensor R) :=
  if nh =? 1 then Some t else
  let BH := dimsz t 0 in let H := dimsz t 1 in let W := dimsz t 2 in let C := dimsz t 3 in let B := BH / nh in
  do a <- reshape [B; nh; H; W; C] t; reshape [B; H; W; nh * C] (permute [0; 2; 3; 1; 4] a).
(** attention_torch.py:416-421 (and _to_cf, 481-483): the inferred size is that of the
    last dimension divided by nh *)
Definition to_cf (t : tensor R) (nh : nat) : option (tensor R) :=
  do _ <- guard ((ndim t =? 4) && (1 <=? nh) && (1 <=? dimsz t 0 * dimsz t 1 * dimsz t 2));
  let B := dimsz t 0 in let H := dimsz t 1 in let W := dimsz t 2 in let C := dimsz t 3 / nh in
  do a <- reshape [B; H; W; nh; C] t; reshape [B * nh; C; H; W] (permute [0; 3; 4; 1; 2] a).
(** attention_torch.py:443-445 (and _to_nhwc, 485-487) *)
Definition of_cf (t : tensor R) (nh : nat) : option (tensor R) :=
  let BH := dimsz t 0 in let C := dimsz t 1 in let H := dimsz t 2 in let W := dimsz t 3 in
  do a <- reshape [BH / nh; nh; C; H; W] t; reshape [BH / nh; H; W; nh * C] (permute [0; 3; 4; 1; 2] a).

(** ** The operators *)

(** What the kernels need of k, v, q after head folding.  The code leaves these
    equalities to indexing errors; a query tensor larger than (nlat_out, nlon_out) is
    accepted by the operators (not by the layers) and is rejected here. *)
Record ashape := mkA { a_B : nat; a_Ck : nat; a_Cv : nat; a_Hi : nat }.
Definition op_shapes (nh : nat) (kw vw qw : tensor R) (nlon_in nlat_out nlon_out : nat) : option ashape :=
  let B := dimsz qw 0 in let Dk := dimsz qw 3 in let Dv := dimsz vw 3 in let Hi := dimsz kw 1 in
  do _ <- guard (shape_eqb (shp kw) [B; Hi; nlon_in; Dk] && shape_eqb (shp vw) [B; Hi; nlon_in; Dv] &&
                 shape_eqb (shp qw) [B; nlat_out; nlon_out; Dk] &&
                 (1 <=? nh) && (Dk mod nh =? 0) && (Dv mod nh =? 0));
  Some (mkA B (Dk / nh) (Dv / nh) Hi).

(** attention_torch.py:391-447 [_neighborhood_s2_attention_torch] *)
Definition attn_torch (kw vw qw : tensor R) (quad : nat -> R) (col roff : list nat) (nh nlon_in nlat_out nlon_out : nat) : option (tensor R) :=
  do sh <- op_shapes nh kw vw qw nlon_in nlat_out nlon_out;
  do kt <- to_cf kw nh; do vt <- to_cf vw nh; do qt <- to_cf qw nh;
  do _ <- guard ((1 <=? nlon_in) && (1 <=? nlon_out));
  do y <- (if nlon_in mod nlon_out =? 0
           then gather_fwd (a_Ck sh) (a_Hi sh) nlon_in nlat_out nlon_out quad roff col (cf kt) (cf vt) (cf qt) (a_B sh * nh)
           else if nlon_out mod nlon_in =? 0
           then up_fwd (a_Ck sh) (a_Hi sh) nlon_in nlat_out nlon_out quad roff col (cf kt) (cf vt) (cf qt) (a_B sh * nh)
           else None);
  of_cf (mk_cf (a_B sh * nh) (a_Cv sh) nlat_out nlon_out y) nh.
(** attention_torch.py:467-538 [_neighborhood_s2_attention_bwd_torch] with all three
    gradients requested: dk, dv, dq *)
Definition attn_bwd_torch (kw vw qw dyw : tensor R) (quad : nat -> R) (col roff : list nat) (nh nlon_in nlat_out nlon_out : nat)
  : option (tensor R * tensor R * tensor R) :=
  do sh <- op_shapes nh kw vw qw nlon_in nlat_out nlon_out;
  do _ <- guard (shape_eqb (shp dyw) [dimsz qw 0; nlat_out; nlon_out; dimsz vw 3]);
  do kt <- to_cf kw nh; do vt <- to_cf vw nh; do qt <- to_cf qw nh; do dyt <- to_cf dyw nh;
  do _ <- guard ((1 <=? nlon_in) && (1 <=? nlon_out));
  do g <- (if nlon_in mod nlon_out =? 0
           then gather_bwd (a_Ck sh) (a_Cv sh) (a_Hi sh) nlon_in nlat_out nlon_out quad roff col (cf kt) (cf vt) (cf qt) (cf dyt) (a_B sh * nh)
           else if nlon_out mod nlon_in =? 0
           then up_bwd (a_Ck sh) (a_Cv sh) (a_Hi sh) nlon_in nlat_out nlon_out quad roff col (cf kt) (cf vt) (cf qt) (cf dyt) (a_B sh * nh)
           else None);
  let '(dk, dv, dq) := g in
  do dkw <- of_cf (mk_cf (a_B sh * nh) (a_Ck sh) (a_Hi sh) nlon_in dk) nh;
  do dvw <- of_cf (mk_cf (a_B sh * nh) (a_Cv sh) (a_Hi sh) nlon_in dv) nh;
  do dqw <- of_cf (mk_cf (a_B sh * nh) (a_Ck sh) nlat_out nlon_out dq) nh;
  Some (dkw, dvw, dqw).

(** attention_cpu_fwd.cpp:69-140 [s2_attention_fwd_cpu], with CACHE_BLOCK_SIZE [BS] and
    -FLT_MAX [m0] *)
Definition attn_cpu (m0 : R) (BS : nat) (junk : nat -> R) (kw vw qw : tensor R) (quad : nat -> R) (col roff : list nat)
  (nh nlon_in nlat_out nlon_out : nat) : option (tensor R) :=
  do sh <- op_shapes nh kw vw qw nlon_in nlat_out nlon_out;
  do _ <- guard ((1 <=? nlon_in) && (1 <=? nlon_out) && ((nlon_in mod nlon_out =? 0) || (nlon_out mod nlon_in =? 0)));
  do kt <- fold_heads kw nh; do vt <- fold_heads vw nh; do qt <- fold_heads qw nh;
  do y <- (if nlon_in mod nlon_out =? 0
           then cpu_fwd (a_Ck sh) (a_Cv sh) (a_Hi sh) nlon_in nlat_out nlon_out quad roff col (hwc kt) (hwc vt) (hwc qt) m0 BS junk (a_B sh * nh)
           else cpu_up_fwd (a_Ck sh) (a_Cv sh) (a_Hi sh) nlon_in nlat_out nlon_out quad roff col (hwc kt) (hwc vt) (hwc qt) m0 BS junk (a_B sh * nh));
  unfold_heads (mk_hwc (a_B sh * nh) nlat_out nlon_out (a_Cv sh) y) nh.
(** attention_cpu_bwd.cpp:40-138 [s2_attention_bwd_cpu] *)
Definition attn_bwd_cpu (m0 : R) (kw vw qw dyw : tensor R) (quad : nat -> R) (col roff : list nat) (nh nlon_in nlat_out nlon_out : nat)
  : option (tensor R * tensor R * tensor R) :=
  do sh <- op_shapes nh kw vw qw nlon_in nlat_out nlon_out;
  do _ <- guard (shape_eqb (shp dyw) [dimsz qw 0; nlat_out; nlon_out; dimsz vw 3]);
  do _ <- guard ((1 <=? nlon_in) && (1 <=? nlon_out) && ((nlon_in mod nlon_out =? 0) || (nlon_out mod nlon_in =? 0)));
  do kt <- fold_heads kw nh; do vt <- fold_heads vw nh; do qt <- fold_heads qw nh; do dyt <- fold_heads dyw nh;
  do g <- (if nlon_in mod nlon_out =? 0
           then cpu_bwd (a_Ck sh) (a_Cv sh) (a_Hi sh) nlon_in nlat_out nlon_out quad roff col (hwc kt) (hwc vt) (hwc qt) (hwc dyt) m0 (a_B sh * nh)
           else cpu_up_bwd (a_Ck sh) (a_Cv sh) (a_Hi sh) nlon_in nlat_out nlon_out quad roff col (hwc kt) (hwc vt) (hwc qt) (hwc dyt) m0 (a_B sh * nh));
  let '(dk, dv, dq) := g in
  do dkw <- unfold_heads (mk_hwc (a_B sh * nh) (a_Hi sh) nlon_in (a_Ck sh) dk) nh;
  do dvw <- unfold_heads (mk_hwc (a_B sh * nh) (a_Hi sh) nlon_in (a_Cv sh) dv) nh;
  do dqw <- unfold_heads (mk_hwc (a_B sh * nh) nlat_out nlon_out (a_Ck sh) dq) nh;
  Some (dkw, dvw, dqw).
