(** The helper kernels of the CUDA attention (attention_cuda_utils.cu, attention_cuda_utils.cuh):
    layout conversions, sorting the output rows by length, splitting them into long and short.

    Tensors are contiguous (attention_cuda_utils.cu:210, 218); the elements are only moved, so the element
    type is dropped. *)
From Coq Require Import List Arith Lia Bool Reals ZArith.
From Verif Require Import TensorModel GpuModel CudaDiscoModel.
Import ListNotations.
Local Open Scope nat_scope.

(** attention_cuda_utils.cuh:41 [DIV_UP] *)
Definition div_up' (a b : nat) : nat := (a + (b - 1)) / b.

(** ** Layout conversions *)
(** The two kernels are the same code with the roles of channels and longitudes exchanged: a tile of a
    matrix with [nrow] rows and [ncol] columns is copied to the shared array row by row and written
    transposed.  src r c and dst c r: the addresses of element (r, c) before and after. *)
Section Tile.
Variables (BX BY nrow ncol roff coff : nat) (src dst : nat -> nat -> nat).
(** sh[i][j], declared as sh[BDIM_X][BDIM_X + 1] *)
Definition tcell (i j : nat) : nat := i * (BX + 1) + j.
(** threadIdx.x, threadIdx.y *)
Definition tx (t : nat) : nat := t mod BX.
Definition ty (t : nat) : nat := t / BX.
Definition steps : list nat := strided BX 0 BX BY.
(** attention_cuda_utils.cuh:438-439, 517-518 *)
Definition tile_full : bool := (BX <=? nrow - roff) && (BX <=? ncol - coff).
(** attention_cuda_utils.cuh:442-445, 453-459; 521-524, 532-538 *)
Definition tile_load (t : nat) : list instr :=
  if tile_full then
    flat_map (fun j => [IGet 0 (src (roff + j + ty t) (coff + tx t)); IStore (tcell (j + ty t) (tx t)) (fun r => r 0)]) steps
  else if coff + tx t <? ncol then
    flat_map (fun j => [if roff + j + ty t <? nrow then IGet 0 (src (roff + j + ty t) (coff + tx t)) else ISet 0 (fun _ => 0%R);
                        IStore (tcell (j + ty t) (tx t)) (fun r => r 0)]) steps
  else [].
(** attention_cuda_utils.cuh:448-451, 462-467; 527-530, 541-548 *)
Definition tile_store (t : nat) : list instr :=
  if tile_full then
    flat_map (fun j => [ILoad 0 (tcell (tx t) (j + ty t)); IOut (dst (coff + j + ty t) (roff + tx t)) (fun r => r 0)]) steps
  else if roff + tx t <? nrow then
    flat_map (fun j => if coff + j + ty t <? ncol then [ILoad 0 (tcell (tx t) (j + ty t)); IOut (dst (coff + j + ty t) (roff + tx t)) (fun r => r 0)] else []) steps
  else [].
Definition tile : list gstep := [Seg tile_load; Bar (fun t all => all t); Seg tile_store].
End Tile.

(** Row-major addresses in a tensor with four dimensions *)
Definition addr4 (d1 d2 d3 a b c d : nat) : nat := ((a * d1 + b) * d2 + c) * d3 + d.

(** attention_cuda_utils.cuh:417-470 [permute_to0231_k], block (bx, by, bz): rows are channels, columns are longitudes *)
Definition permute_to0231_k (BX BY nchn nlat nlon bx by_ bz : nat) : list gstep :=
  let batch := bz / nlat in let h := bz - batch * nlat in
  tile BX BY nchn nlon (bx * BX) (by_ * BX)
    (fun c w => addr4 nchn nlat nlon batch c h w) (fun w c => addr4 nlat nlon nchn batch h w c).
(** attention_cuda_utils.cuh:496-552 [permute_to0312_k]: rows are longitudes, columns are channels *)
Definition permute_to0312_k (BX BY nchn nlat nlon bx by_ bz : nat) : list gstep :=
  let batch := bz / nlat in let h := bz - batch * nlat in
  tile BX BY nlon nchn (bx * BX) (by_ * BX)
    (fun w c => addr4 nlat nlon nchn batch h w c) (fun c w => addr4 nchn nlat nlon batch c h w).

(** at::Tensor::packed_accessor32: at most 2^31 - 1 elements *)
Definition fits32 (n : nat) : bool := (Z.of_nat n <=? 2147483647)%Z.
(** attention_cuda_utils.cuh:483-486, 565-568 (TORCH_CHECK) and the launch check (attention_cuda_utils.cu:172, 197): an
    empty grid or one that is too wide raises *)
Definition permute_grid (dev : device) (gx gy gz : nat) : bool :=
  (gy <? 64 * 1024) && (gz <? 64 * 1024) && (1 <=? gx) && (gx <=? d_gridx dev) && (1 <=? gy) && (1 <=? gz).
(** attention_cuda_utils.cu:52-53, 161, 186: warps per tile, by the version of the code that was loaded *)
Definition tile_warps (ptxv : nat) : nat := if ptxv <? 100 then 32 else 4.

(** attention_cuda_utils.cuh:472-494 [launch_permute_to0231], attention_cuda_utils.cu:152-175, 206-212 [permute_to_nhwc_cuda].
    The result is [tensor_of [B; H; W; C]] of the output, which is not initialised.  Block
    (bx, by, bz) of a grid (gx, gy, gz) is group (bz * gy + by) * gx + bx. *)
Definition permute_to_nhwc_cuda (dev : device) (ptxv : nat) (x : tensor R) : option kernel :=
  do _ <- guard (ndim x =? 4);
  let B := dimsz x 0 in let C := dimsz x 1 in let H := dimsz x 2 in let W := dimsz x 3 in
  let gx := div_up' C warp_size in let gy := div_up' W warp_size in let gz := H * B in
  do _ <- guard (fits32 (prod_list (shp x)) && permute_grid dev gx gy gz);
  let n := B * C * H * W in
  Some (mkKernel (gz * gy * gx) (warp_size * tile_warps ptxv) (warp_size * (warp_size + 1)) n (flat x) n
          (fun g => code_of (permute_to0231_k warp_size (tile_warps ptxv) C H W (g mod gx) (g / gx mod gy) (g / gx / gy)))).
(** attention_cuda_utils.cuh:554-576 [launch_permute_to0312], attention_cuda_utils.cu:177-200, 214-220 [permute_to_nchw_cuda] *)
Definition permute_to_nchw_cuda (dev : device) (ptxv : nat) (x : tensor R) : option kernel :=
  do _ <- guard (ndim x =? 4);
  let B := dimsz x 0 in let H := dimsz x 1 in let W := dimsz x 2 in let C := dimsz x 3 in
  let gx := div_up' W warp_size in let gy := div_up' C warp_size in let gz := H * B in
  do _ <- guard (fits32 (prod_list (shp x)) && permute_grid dev gx gy gz);
  let n := B * C * H * W in
  Some (mkKernel (gz * gy * gx) (warp_size * tile_warps ptxv) (warp_size * (warp_size + 1)) n (flat x) n
          (fun g => code_of (permute_to0312_k warp_size (tile_warps ptxv) C H W (g mod gx) (g / gx mod gy) (g / gx / gy)))).

(** ** Sorting the rows *)
(** attention_cuda_utils.cu:50 [THREADS] *)
Definition sort_threads : nat := 64.
(** attention_cuda_utils.cu:59-72 [set_rlen_rids_k]: row numbers in out[0..n), lengths in out[n..2n) (two arrays in the
    code); the offsets are the input *)
Definition set_rlen_rids_k (n nth tid : nat) : list instr :=
  flat_map (fun i => [IOut i (fun _ => INR i); IGet 0 (i + 1); IGet 1 i; IOut (n + i) (fun r => r 0%nat - r 1%nat)%R]) (strided n tid n nth).
(** attention_cuda_utils.cu:87-90: the launch; no rows are an empty grid *)
Definition set_rlen_rids (dev : device) (n : nat) (roff : list nat) : option kernel :=
  let grid := div_up' n sort_threads in
  do _ <- guard ((1 <=? grid) && (grid <=? d_gridx dev));
  Some (mkKernel grid sort_threads 0 (length roff) (fun i => INR (nth i roff 0)) (n + n)
          (fun g t => set_rlen_rids_k n (grid * sort_threads) (g * sort_threads + t))).
(** cub::DeviceRadixSort::SortPairsDescending, an external: stable, by decreasing key.  Pairs are
    (key, value). *)
Fixpoint insert_desc (p : nat * nat) (l : list (nat * nat)) : list (nat * nat) :=
  match l with [] => [p] | q :: l' => if fst p <? fst q then q :: insert_desc p l' else p :: l end.
Definition sort_pairs_desc (l : list (nat * nat)) : list (nat * nat) := fold_right insert_desc [] l.
(** attention_cuda_utils.cu:74-114 [sortRows]: the second components of the sorted pairs of what the kernel wrote *)
Definition row_len (roff : list nat) (i : nat) : nat := nth (i + 1) roff 0 - nth i roff 0.
Definition sort_rows (n : nat) (roff : list nat) : list nat :=
  map snd (sort_pairs_desc (map (fun i => (row_len roff i, i)) (seq 0 n))).

(** ** Splitting the rows *)
(** attention_cuda_utils.cuh:43-44.  [thres m] is int64_t(m * 0.1f), a rounded product that both versions compute in
    the same way; the model only assumes it to be a function of m. *)
Definition split_min_len : nat := 1024.
Definition min_long (thres : nat -> nat) (m : nat) : nat := Nat.max split_min_len (thres m).
(** attention_cuda_utils.cu:350-380: the host version; None: row_idx or row_off too short *)
Fixpoint long_prefix (m : nat) (roff idx : list nat) : nat :=
  match idx with [] => 0 | r :: idx' => if m <=? row_len roff r then S (long_prefix m roff idx') else 0 end.
Definition split_of (roff idx : list nat) (n tot : nat) : nat * nat * nat :=
  (tot, if 1 <=? tot then row_len roff (nth 0 idx 0) else 0, if tot <? n then row_len roff (nth tot idx 0) else 0).
Definition split_cpu (thres : nat -> nat) (idx roff : list nat) (n : nat) : nat * nat * nat :=
  if n =? 0 then (0, 0, 0) else
  split_of roff idx n (long_prefix (min_long thres (row_len roff (nth 0 idx 0))) roff (firstn n idx)).
(** attention_cuda_utils.cu:230-269 [get_rlen_boundary_k]: one block of BD threads; in every iteration all of them learn
    the number of threads whose row is long (__syncthreads_count), so they leave the loop together.  The
    count of rows before row i is [tot]; at most n iterations. *)
Definition count_long (m BD n i : nat) (roff idx : list nat) : nat :=
  length (filter (fun tid => m <=? (if i + tid <? n then row_len roff (nth (i + tid) idx 0) else 0)) (seq 0 BD)).
Fixpoint long_scan (fuel m BD n i tot : nat) (roff idx : list nat) : nat :=
  match fuel with
  | 0 => tot
  | S fuel' => if i <? n then let c := count_long m BD n i roff idx in if c =? 0 then tot else long_scan fuel' m BD n (i + BD) (tot + c) roff idx else tot
  end.
(** attention_cuda_utils.cu:286-317 [split_csr_rows] with <<<1, 1024>>> *)
Definition split_cuda (thres : nat -> nat) (idx roff : list nat) (n : nat) : nat * nat * nat :=
  if n =? 0 then (0, 0, 0) else
  split_of roff idx n (long_scan n (min_long thres (row_len roff (nth 0 idx 0))) 1024 n 0 0 roff idx).
