# Formal model of torch-harmonics in Rocq (Coq 8.16.1)

## 1. What this is

`/verif/rocq/theories` holds a shallow functional model of the Python / C++ code of
torch-harmonics and machine-checked proofs of the properties in `/verif/properties.jsonl`.
`/verif/MANIFEST.json` maps each property to theorem names and a status.

* `*Model*.v` files contain definitions only; each cites the file and lines of `/repo` it follows
  and names its simplifications.
* `*Spec*.v` files contain small independent specifications.
* `*Proofs*.v` files contain lemmas.
* `Props_*.v` files contain only the property theorems, `Print Assumptions`, and an `Example`
  showing that the hypotheses of the theorem are met by a concrete, non-trivial case.

## 2. Trusted base

* Coq 8.16.1's kernel (no `vm_compute`-only tricks, no plugins beyond those shipped with Coq,
  no kernel check switched off).
* Axioms, all of the standard library: `ClassicalDedekindReals.sig_forall_dec`,
  `ClassicalDedekindReals.sig_not_dec`, `FunctionalExtensionality.functional_extensionality_dep`
  and `Classical_Prop.classic` (the last through Coquelicot's limits, derivatives and integrals).
  `ASSUMPTIONS.md` lists them per theorem, as printed by `Print Assumptions` in the `Props_*.v`
  files; 123 of the theorems use none. No axiom is added here.
* Libraries used: the standard library, Coquelicot (real analysis, complex numbers), Flocq (rounding, in C81 only). No functors,
  module types, plugins or disabled checks.
* The correspondence between the model and the code is by reading; each definition cites its source.

### Idealisations that hold throughout

* Floating-point arithmetic is replaced by exact real / complex arithmetic. Rounding, overflow,
  NaN and infinities are not modelled; dtype casts (`.to(float32)`, autocast) are identities.
  Exceptions: C74, C79 and C82 track element types, C81 rounds converted values.
* Devices, streams, memory layout (`contiguous`, aliasing) are not modelled except where a property
  is about them (cache copies, layout permutations, C80, C81, C82).
* Collectives are modelled as total functions on the family of all ranks' buffers: a collective
  succeeds with the mathematically specified content if all posted shapes agree and is an error
  otherwise. Deadlock, timeouts and network failure are not modelled.
* `torch.fft`, `numpy.polynomial.legendre.leggauss`, `torch.sort` and similar externals are
  represented by their mathematical specification.

### Which code is modelled

Modelled (paths under torch_harmonics/ unless stated; per definition the cited lines):

* fft.py, legendre.py, quadrature.py, truncation.py, sht.py, resample.py, spectral_convolution.py,
  random_fields.py, filter_basis.py, cache.py
* disco/convolution.py, disco/_disco_utils.py, disco/kernels_torch/disco_torch.py,
  disco/optimized/disco_optimized.py, disco/optimized/disco_helpers.*, disco/optimized/kernels_cpu/*
* attention/attention.py, attention/_layout.py, attention/kernels_torch/attention_torch.py,
  attention/optimized/kernels_cpu/*, and the generic ring kernels (forward, forward upsample, backward,
  backward upsample) of attention/optimized/kernels_cuda
* distributed/primitives.py, utils.py, distributed_sht.py, distributed_quadrature.py,
  distributed_resample.py, distributed_spectral_convolution.py, distributed_convolution.py (with
  kernels/distributed_convolution_kernels.py), distributed_attention.py
* disco/optimized/kernels_cuda/disco_cuda_fwd.cu, disco_cuda_bwd.cu, disco_cuda.cuh: kernels and launchers, as
  per-thread instruction lists for an interleaving machine
* attention/optimized/kernels_cuda/attention_cuda_fwd.cu, attention_cuda_bwd.cu, attention_cuda_fwd_upsample.cu, attention_cuda_bwd_upsample.cu
  (kernels, launchers, dispatch) with the rescale kernels of the ring attention (forward, backward, forward upsample) and all kernels of
  the ring attention in the upsampling direction (attention_cuda_fwd_ring_upsample.cu, attention_cuda_bwd_ring_upsample.cu), the
  ring attention in the other direction (attention_cuda_fwd_ring.cu, without s2_attn_fwd_ring_generic_k, which serves more than 16384 channels,
  and attention_cuda_bwd_ring.cu, whose generic kernels, for more than 8192 channels, are modelled cell by cell only)
  and attention_cuda_utils (all kernels and host functions except ensure_dyn_shmem and getPtxver; cub's sort is an external): likewise
* disco/optimized/disco_optimized.py and attention/optimized/attention_optimized.py once more as shapes and element types: custom ops, fakes,
  autocast rules and backward functions
* random_fields.py: moving and converting the sampler
* plotting.py: the mesh of plot_sphere
* utils.py: load_mola_elevation, ensure_contiguous; attention/_layout.py with strides and storages
* distributed/_amp_utils.py and the attention layers as element types; the type handling of the CUDA attention launchers
* examples/losses.py, examples/metrics.py, examples/shallow_water_equations.py, examples/pde_sphere.py, examples/pde_dataset.py
  (the shallow-water branch)
* examples/stanford_2d3ds_dataset.py: downloader, checksums, unpacking fallback, label classes, statistics, items (without image decoding, HDF5
  storage and the torchvision transforms)
* examples/models/_layers.py (without the weight initialisers), sfno.py, lsno.py,
  s2transformer.py, s2unet.py, s2segformer.py: constructors and forward passes in evaluation mode

Not modelled: the other CUDA kernels (s2_attn_fwd_ring_generic_k, disco_cuda_fwd_dense_kpacked_sm*, ensure_dyn_shmem), the C++ registration code, the ring-step fakes of attention_optimized.py, channels_last memory formats, plotting.py except the mesh of plot_sphere,
plotting of the solvers, the training scripts and notebooks in examples/, benchmarks/, setup.py. Parameter
initialisation is modelled only where a property mentions it. Externals taken by their mathematical
specification: torch tensor operations, torch.fft, numpy's leggauss (an arbitrary rule `gl`), scipy's Bessel
functions and zeros, random number generators, process groups and point-to-point transfers.

## 3. Plan per property

| id | modelled | proof idea |
|----|----------|------------|
| C01 | `compute_split_shapes` branch by branch | arithmetic on div/mod |
| C02 | `split_tensor_along_dim`, `_split`, `_gather` on tensors of arbitrary rank | index arithmetic over chunk offsets |
| C03 | `_transpose` as an all-to-all over rank families with posted buffer shapes | chunk-of-chunk lemma |
| C04 | backward of the transpose autograd function | sum over ranks of inner products re-indexed |
| C05 | flatten / pad / unpad on row-major shapes | row-major index bijection |
| C06 | `_reduce_scatter` both branches | narrow commutes with sum |
| C07 | forward/backward pairs of each autograd function | finite sums exchanged |
| C08 | `_PolarHaloExchangeFn` forward/backward | case analysis on ranks |
| C09 | `get_group_neighbors`, ring step iteration | modular arithmetic, permutation |
| C10 | module state of `distributed/utils.py` | invariant by induction over histories |
| C11-C13 | forward passes of the distributed transforms as SPMD programs on P x A rank families | compose C03 with locality of FFT / Legendre stages |
| C14-C16 | forward passes as SPMD programs | same |
| C17 | filter split by latitude, local contraction, reduce-scatter, standard and reordered all-to-all schedules, transposed layer (DistDiscoModel) | linearity over latitude shards; needs every latitude slice to hold two entries and to keep kernels separated, which is proved for bases with a common support and refuted for the default basis |
| C18 | constructor (halo radius, local patterns, width check), halo exchange, ring, generic ring kernels in both directions, projections (DistAttnModel) | each ring step adds its chunk's share to the softmax sums a cell stands for; the shares of all chunks add up to the serial sums; radius least; completion decided |
| C19 | `truncate_sht` | integer arithmetic |
| C20 | `rfft` / `irfft` wrappers over the explicit DFT | orthogonality of roots of unity |
| C21 | `clenshaw_curtiss_weights` (Waldvogel's FFT form) over R | closed form of the weights, Chebyshev exactness, linearity |
| C22 | all weight generators | sums, symmetry |
| C23 | `lobatto_weights` Newton iteration with arbitrary iteration count | parity invariant |
| C24 | `legpoly` | polynomial factorisation, Legendre ODE/orthogonality |
| C25-C29 | `RealSHT`/`InverseRealSHT`/vector versions with exact reals | C20 + C21 + C24 |
| C30-C32 | `ResampleS2` index/weight construction and forward | searchsorted spec, convexity |
| C33 | `SpectralConvS2.forward` | non-interference, equivariance |
| C34-C37 | torch reference, CSR kernels, adjoint | sums over entry lists, invariants of the kernel loops |
| C38 | `_normalize_convolution_tensor_s2` | algebra on sums with guards |
| C39 | `filter_basis.py` index maps and hat functions | arithmetic |
| C40-C45 | attention kernels | running-max invariant, permutation invariance, calculus |
| C46 | `lru_cache` wrapper, functools key making and LRU order, `copy.deepcopy` on graphs with sharing and cycles, over a heap with aliasing (CacheModel) | invariant by induction over histories of calls, writes and allocations; arguments must be frozen when the function reads them through identity keys (stale results refuted otherwise) |
| C47 | `GaussianRandomFieldS2` constructor and forward (noise given, sampler external) | values through the inverse SHT; RealSHT round trip for the spectrum; Unsold's theorem (proved by addition of squares of the Legendre table) for the variance; isotropy and the documented spectrum refuted |
| C48 | `get_quadrature_weights`, `SphericalLossBase`, `SquaredL2LossS2`, `L1LossS2`, `L2LossS2` of examples/losses.py with torch broadcasting of weights and masks (LossModel) | sums over index lists; the spec averages over the area (LossSpec); Cauchy-Schwarz and Minkowski for the norm laws; positivity of weights is not claimed on Lobatto grids |
| C49 | `_get_stats_multiclass`, `IntersectionOverUnionS2`, `AccuracyS2` of examples/metrics.py (MetricModel) | the four counts are areas of pixel sets (MetricSpec), for all labels and weights; scores follow by algebra; division modelled with nan and inf; that accuracy is the correct fraction, ignores ignored pixels' area, and that macro IoU of a perfect prediction is 1 are refuted |
| C50 | SolverModel: `ShallowWaterSolver` (init, vrtdivspec, getuv, gethuv, dudtspec, timestep, integrate_grid) and `SphereSolver` (init, dudtspec of both equations) | induction over steps: the slots hold the last three tendencies; degree 0 has no tendency; equivariance, rest and zonal states; the second step and lmax = 1 refuted. Initial conditions, plotting, potential vorticity and `dimensionless` are not modelled |
| C51 | `_precompute_convolution_tensor_s2`, layer constructors | rotated coordinates are distance/bearing (`polar_about`), induction over rows |
| C52 | `NeighborhoodAttentionS2.__init__` | C51 for the one-function basis, plus rotation by longitude |
| C53 | SegLossModel: `DiceLossS2`, `CrossEntropyLossS2`, `FocalLossS2` and the pixelwise `torch.nn.functional.cross_entropy`, `softmax`, `log_softmax`, `one_hot` | closed form in terms of class probabilities characterised by positivity, total and ratios; ranges; dependence; the treatment of ignored pixels refuted. Shapes torch would broadcast and negative class weights in the focal loss are not modelled |
| C54 | GradLossModel: `W11LossS2`, `NormalLossS2` with `torch.fft.fft2`/`ifft2`, `fftfreq`, `meshgrid`, `F.normalize` | gradients as derivatives of trigonometric interpolants (existence and uniqueness); closed forms; pseudo-metric, kernel, range; latitude spacing, masks and the missing L1 term refuted. float32 casts and prd/tar of different shapes are not covered; the `eps` of `F.normalize` never acts since normals have length >= 1 |
| C55 | DistAttnBwdModel: backward of the ring attention (both directions): saved sums and maxima, pass 1 (integrals, key sums), pass 2 (key/value gradients), `all_reduce`, own columns, `_PolarHaloExchangeFn.backward` | per visited chunk the kept sums grow by the chunk's part of the neighbourhood; the parts make up the neighbourhood; azimuth sum and halo sum collect all output points; equal to the blocks of the serial gradients, and derivatives of the distributed forward pass. The specialised CUDA kernels, stream overlap and the backward of the 1x1 projections (plain autograd) are not modelled |
| C56 | DistDiscoBwdModel: what autograd runs for both schedules and the transposed layer: backward of all-to-all, reduce-scatter (all-gather), einsum, slicing and padding, the CPU kernels of C36 | the local gradient on the gathered output gradient is the shard of the serial one (filter rows of a latitude shard partition the filter); weight gradients are sums over batch, pixels and ranks; derivative property from the serial adjointness and the inner product of shards. The data-parallel reduction of the parameter gradients over ranks is the caller's; the torch path (`optimized_kernel=False`) of the distributed layer is not differentiated here |
| C57 | NetModel/NetModels: layers of examples/models/_layers.py (1x1 convolutions, activations, batch/instance/layer norms, embeddings, MLP, spectral convolution, resampling, DISCO and attention layers) and the five networks in evaluation mode, with their constructors; parameters are an arbitrary assignment of names to tensors | each layer commutes with rotation (from C12, C30, C33, C34, C40, C51, C52), then induction over blocks; an abstract forward pass shared by values and kinds carries shapes along; refutations by explicit small networks. Training mode (dropout, batch statistics) and float error are not modelled |
| C58 | the same, with `fit`: the kind (channels and grid with latitude type) a layer produces from a kind | constructors: totality lemma per component; shapes and strict grids by running the network on kinds; the two places where grid types are mixed and the residual with unequal channels refuted for all such configurations. The condition on filters (`filter_ready`, from C34) is proved for equiangular grids and the harmonic and Zernike bases; in `*_built` it is a hypothesis |
| C59 | GpuModel: a machine for CUDA kernels (threads interleave arbitrarily, uninitialised shared memory, barriers, atomics, bounds); CudaDiscoModel: both kernels as one instruction list per thread, the launchers with their block-size and shared-memory choice | confluence theorem of the machine (GpuProofs: if between two barriers no thread touches what another writes, and the output is only written once per cell or only updated by one atomic operation, all executions agree with the one that runs threads in turn), then invariants per entry of the filter; sorted entries give the sums, unsorted ones make every execution get stuck at an out-of-bounds access; launch conditions as equivalences |
| C60 | GpuModel with warp exchanges; CudaWarpModel: warp and block sums; CudaAttnModel: both forward kernels (special with its channel distribution in registers, generic), launchers and dispatch (next_pow2, block width, instance table) | butterfly and two-level sums proved equal to the sum over threads; per-thread programs refined to sequential lanes (WarpProofs.lanes_settle), the lanes run the online softmax of C40; dispatch: next_pow2 by bit invariants, every channel count up to 16384 finds an instance; launch conditions as equivalences |
| C61 | CudaAttnUpModel: the forward upsampling kernels (maximum, accumulation, division) and their launcher as a sequence of launches | each kernel: lanes with an own part of the shared memory (WarpKernelProofs.fsteps_settle), atomics collected in a trace whose sums at an address are the sums over the neighbourhood (CudaAttnUpProofs3.trace_hits); sequences by CudaJobSpec.job_settles |
| C62 | CudaAttnUpModel: the backward upsampling kernels (maximum, statistics, queries, keys and values) | as C61; the written cells of the last launches by CudaKeyProofs.written; values equal to GK, GV, GQ of C42 |
| C63 | CudaAttnBwdModel: the special and generic backward kernels (both passes over a row, vectors, atomic additions of old and new architectures) and the dispatch on block width | one group: the online sums equal the softmax averages (CudaAttnBwdProofs.body_trace); launch: fsteps_settle, atomic additions summed over all groups (added), written cells (written); values equal to GK, GV, GQ of C42 |
| C64 | CudaUtilsModel: both conversion kernels (whole and partial tiles, padded shared tile, barrier), their launchers, set_rlen_rids_k, sortRows, the host and the device scan of split_csr_rows | one tile: CudaTileProofs.tile_run; launch: tiles_settle for any pair of addresses with an inverse; sort: insertion order, unique (order_unique); split: falling_split, scan_at |
| C65 | SHTGradModel: gradients of fft.py's rfft/irfft (torch's formulas), of the contractions and of the four transforms; DistSHTBwdModel: the backward pass of the distributed transforms step by step over the saved forward steps (dist_forward_steps, dist_inverse_steps) | one line: rfft_adj, irfft_adj; tensors: along_adjoint, legK_adjoint, vecK_adjoint; distributed: dist_forward_bwd_ok, dist_inverse_bwd_ok generic in the contraction |
| C66 | GpuRwModel: the interleaving machine of C59 with reads of the output array; CudaRescaleModel: the three rescale kernels of the ring attention with their launches and block sizes | CudaRescaleSpec states the result on the arrays and, for one cell, as the sequential `rescale`. snapshot_settles: if all reads of a group happen before its first write to what it reads, the run equals one on a snapshot; in lockstep the read phase comes first. may_split: running the first warp to the end, then the others, is an execution; it leaves the other warps a factor of one (C66_*_refuted) |
| C67 | CudaRingUpModel: the launches of a ring step in the upsampling direction on the interleaving machine: maximum by atomics, rescaling (C66), accumulation by atomics; backward: statistics, key and value gradients | each launch reduced to the list of its updates (as C60, C61), summed over the visits `chunk_trips` of the sequential step of C18/C55; by induction round the ring. CudaRingUpSpec states what the arrays hold. The pattern a rank builds meets the hypotheses (C67_layer_chunks) |
| C68 | CudaRingModel: the launches of a forward ring step in the self and downsampling direction (attention_cuda_fwd_ring.cu) on the interleaving machine: long rows by maxima, rescaling (C66), accumulation; short rows by one kernel; special kernels for every block width and vector length | each group proved to end with the step's result by the machine's rules for warps and blocks (GroupKernelProofs, GpuRwSyncProofs), then all groups of a launch, all launches of a step (CudaRingSpec), all steps round the ring, and the link to `ring_state` and the constructor of C18 (C68_forward_pass, C68_layer) |
| C69 | CudaRingBwdModel: the second backward pass of a ring step in the self and downsampling direction (attention_cuda_bwd_ring.cu) on the interleaving machine: products by group sums, gradients by atomics, offsets that may be negative as the kernel computes them | each launch reduced to the list of its atomic updates (GroupKernelProofs), summed over the entries of the rows and the two launches to `dkv_step` of C55 (CudaRingBwdProofs4, 5); the halo of C18 covers the rows (C69_halo_rows); refutation for a row outside by a fault in the code of a thread |
| C70 | CudaRingBwdModel: the first backward pass of a ring step in the self and downsampling direction (attention_cuda_bwd_ring.cu) on the interleaving machines: the kernel for short rows keeps its cell in registers and shared memory, the long rows go through maxima by atomics, rescaling and atomic sums | one group of the short kernel run by hoare-style block lemmas (Proofs, 2, 6, 7), then all groups; for the long rows the closed form of the sequential state (Proofs9) split over the slices of a row; the launches dispatched and chained round the ring to `bwd_state` of DistAttnBwdModel (Proofs10) |
| C71 | CudaRankModel: the forward and backward pass of one GPU rank in the self and downsampling direction (distributed_attention.py:96-446): empty buffers, the launches of every ring step, y_acc / alpha_sum, the normalised integral, the query gradient, the addition of each chunk's key and value gradients into its columns | the ring of launches ends with `ring_state` and `bwd_state` (C68, C70), each second pass adds what `dkv_step` adds (C69); so the rank's results are those of `ring_output` and `ring_bwd_local`, and C55 makes them blocks of the serial ones; a cell whose sum is not 0 has a maximum, by induction on the visits |
| C72 | CudaRankUpModel: the same in the upsampling direction (distributed_attention.py:461-798): three launches per forward step, one launch per step of each backward pass, the first backward pass with the saved maxima | the ring of launches ends with `ring_state` (C67), the first pass with `bwd_state`, each second pass with `dkv_step_up`; a cell whose sum is not 0 has a maximum, so no entry of the backward passes meets a maximum of minus infinity; C55 makes the results blocks of the serial ones |
| C73 | RealFFT2Model: rfft2 / irfft2 with norm="ortho" by their defining sums, the slices of RealFFT2.forward on lists of rows, padding and cutting by s= (_layers.py:275-338) | the two one-dimensional sums give the double sum `dft2`; orthogonality of the characters (FFTProofs) inverts first along latitude, then along longitude; missing bins are zeros; two refutations (finding 46) |
| C74 | MixedPrecModel: tensors as shape and element type; einsum, the CPU/CUDA kernel entry points, the custom ops, their fakes, autocast rules and backward functions, the paths of the layers' forward (disco_optimized.py, convolution.py:680-844, 974-1007), the attention op (attention_optimized.py:43-59, 229-322) | evaluation of each op on a well-formed input by case analysis on path, device and autocast; fakes compared with the result for every input on which the kernel succeeds; three refutations (finding 47) |
| C75 | DatasetModel: Welford updates of compute_stats_s2 and the pairwise merges of convert_dataset on lists of images, label numbers and class names as strings, histogram, masks of the items (stanford_2d3ds_dataset.py:226-491, 605-643, 742-841) | Welford's recursion keeps (mean, sum of squared deviations) of the images seen; merges likewise; sorted_set is strictly sorted; area weights add up to 1; five refutations (finding 48) |
| C76 | DownloadModel: part file and final file as a state, one call per server behaviour, unpacked folder, interruptions; archive members, lexical normalisation against the system's walk through links (stanford_2d3ds_dataset.py:114-220) | invariant `good`: the part file is a prefix of the server's file; induction over calls; without links the walk equals the normalised path; five refutations (finding 49) |
| C77 | PdeDataModel: random and Galewsky initial states, dimensionless (shallow_water_equations.py:173-178, 205-288), constructor, statistics and items of the PDE dataset (pde_dataset.py:72-160) on top of the C50 solver | the zonal jet's transform has order 0 only and no divergence; degree 0 of any vorticity is 0; the balance equation by lap * invlap = 1; statistics by linearity of finite sums; four refutations (finding 50) |
| C78 | MolaModel: cache file as a state, one call per behaviour of network and disk, bilinear resizing with align_corners=False (utils.py:49-103) | resizing meets a relational specification of piecewise linear interpolation with a unique value, from which bounds, identity and flip follow; three refutations (finding 51) |
| C79 | RingTypesModel: tensors as element types through both attention layers, autocast, promotion by the scale, conversion of the layer, reads of n elements in another type (attention.py, distributed_attention.py, _amp_utils.py, the type handling of the CUDA launchers) | case analysis over the types for every size and every behaviour of rms_norm; two refutations |
| C80 | LayoutModel: a memory of storages, tensors as storage, offset, shape and strides; is_contiguous, contiguous, clone, permute, pointer access, both layout conversions with gradients, ensure_contiguous (_layout.py, utils.py:103-121) | is_contiguous is equivalent to lying in row-major order; element, freshness and frame lemmas for every allocation |
| C81 | ConvertModel: a layer as buffer, plain attribute, devices and flag; Module._apply as moves and roundings; the filter each path multiplies with (convolution.py:556-678, 830, disco_torch.py:58-74, sht.py:146-179) | invariants over lists of moves; Flocq's rounding, tied by C81_rounding to the types given by their field widths (ConvertSpec); a refutation with 1 + 2^-20 |
| C82 | GrfMoveModel: the buffers and the noise distribution of a sampler as device and type; the overridden to and cuda against moves that go through Module._apply alone (random_fields.py:88-149) | invariant over histories of calls; every history split at the last own call; counterexamples |
| C83 | PlotModel: the mesh of plot_sphere (plotting.py:158-166) | points of the sphere from map coordinates against points of the grid (PlotSpec); the Gauss-Legendre and trapezoidal grids refuted |

## 4. Findings

Behaviour of the code that contradicts its documentation or what a caller would expect. Where a theorem is
named, the statement is machine-checked on the model; the others were noticed while reading.

Transforms, quadrature, truncation

1. `truncate_sht` treats a requested 0 as "not requested" (C19_zero_request_refuted); the default can include the
   Nyquist order (C19_nyquist_refuted), where the vector transform does not invert (C27_nyquist_refuted).
2. The nodes of "equiangular-trapezoidal" are equispaced in cos(theta), and the default truncation is not safe there
   (C19_trapezoidal_refuted). The SHT classes and DistributedQuadratureS2 reject the grid although it is
   documented (C14_trapezoidal_refuted).
3. Lobatto weights (n = 4) do not sum to the interval length for any tolerance and number of sweeps (C22_lobatto_total_refuted): Newton sweeps
   leave rational nodes. That the rule is exact to degree 2n-3 in the limit is taken from the literature where
   C19 speaks of Lobatto grids.
4. `RealSHT` flips nodes but not weights; harmless because the weights are symmetric (C22).
5. `QuadratureS2` on a rank-3 input returns shape (1, C), on rank 2 (1, 1).

Resampling, spectral convolution, random fields

6. Slerp mode: the guard is one-sided, so decreasing pairs are interpolated linearly
   (C32_decreasing_pairs_linear, C32_documented_fallback_refuted); the combination is not symmetric and violates the maximum
   principle (C32_symmetry_refuted, C32_maximum_principle_refuted).
7. `ResampleS2` with one input longitude divides by zero (C30_one_longitude_refuted); nlat_in = nlat_out = 1 with
   different nlon raises.
8. `SpectralConvS2` with bias does not commute with rotations unless the bias lives on m = 0
   (C33_rotation_with_bias_refuted). Its documentation announces AssertionError where ValueError is raised.
9. `DistributedSpectralConvS2` scales the first local degree by sqrt 2 on every polar rank (initialisation only).
10. `DistributedResampleS2` does not pad channels and fails with fewer channels than ranks (C15_few_channels_refuted).
11. `GaussianRandomFieldS2`: norm="backward" acts like the four-pi convention (C47_orthonormal_spectrum_refuted) and
   the noise is not isotropic (C47_isotropy_refuted).

DISCO convolutions and filter bases

12. `preprocess_psi` detects row boundaries by the row index only, so rows of different kernels merge when adjacent
   (C35_merged_rows_refuted); on the full filter of the library this cannot happen for bases with a common support, but slices
   of the default basis do it on a process grid (C17_merged_kernels_refuted, C17_default_basis_refuted).
13. An empty filter reads out of bounds (C35_empty_refuted, C17_empty_slice_refuted); a slice with one entry is squeezed
   to rank 1 and breaks the distributed split (C17_single_entry_refuted).
14. The torch reference needs nlon_in >= nlat_out (C34_reference_rejects_refuted). With unsorted rows the CPU
   kernel would overwrite (C34_unsorted_rows_refuted; not reachable through the layers).
15. "geometric" normalisation uses (1-cos)/4 where the area fraction is (1-cos)/2 (C38_geometric_area_refuted).
16. `get_filter_basis` documents 16 functions for (5,4); there are 9 (C39_documented_size_refuted). The isotropic
   piecewise linear basis with an even number of rings is no partition of unity (C39_even_radial_refuted). A tuple
   kernel_shape for Zernike silently uses its first element (C39_zernike).
17. theta_cutoff=None with nlat_out = 1 raises ZeroDivisionError. The k-pack block appears twice in the constructor
   (harmless). `preprocess_psi` on non-CPU tensors sorts copies and discards them.
18. The distributed DISCO constructors do not check that nlon is divisible; distributed attention does
   (C18_uneven_split_refuted).

Attention

19. An empty neighbourhood gives 0/0 (C40_empty_neighborhood_refuted), reachable when the cutoff is small
   (C52_uncovered_refuted). The torch backward raises there, the CPU backward returns zeros.
20. `AttentionS2` has no extent checks, so a transposed grid is accepted (C40_transposed_grid_refuted).
21. The default cutoff of the gather direction uses the output spacing though the coarser grid is documented.

Distributed primitives

22. Halo width 0 sends whole shards, and a halo wider than the neighbour's shard delivers too few rows
   (C08_halo_zero_refuted, C08_halo_too_wide_refuted); distributed attention runs exactly if the halo fits
   (C18_runs_iff_halo_fits).
23. `init` twice drops the earlier groups without destroying them (C10_reinit_leaks_refuted); finalize with the same group
   on both axes raises (C10_finalize_raises_iff).
24. The transpose backward assumes that dim1 was sharded by the balanced split. The debug message of `_transpose`
   would call torch.sum on a list.

Cache

25. Tensors and other identity-hashed arguments give stale results after mutation (C46_mutated_argument_refuted);
   typed=True does not look into tuples (C46_nested_types_refuted); list arguments raise (C46_unhashable_raises); results
   without copying are shared (C46_leak_without_copy).

Example losses, metrics, solvers

26. Ignored pixels count as true negatives, so accuracy is not the correct fraction and depends on ignored area
   (C49_accuracy_fraction_refuted, C49_accuracy_ignored_area_refuted); macro IoU of a perfect prediction is below 1 when a class is
   absent (C49_macro_perfect_refuted).
27. Dice: ignored targets become class 0 (C53_dice_ignored_refuted, C53_dice_floor), absent classes cost 1/n
   (C53_dice_macro_absent), an unknown mode acts as unweighted macro (C53_dice_other). Cross entropy is not renormalised over the valid
   pixels (C53_cross_entropy_mean_refuted). The class weight enters the focal exponent (C53_focal_weight_refuted).
28. The spherical losses do not check nlon (C48_width_unchecked_refuted).
29. W11/Normal losses: the latitude derivative treats pole-to-pole columns as periodic with the wrong spacing
   (C54_latitude_refuted); shortest waves are invisible (C54_w11_blind_refuted); masked-out pixels still
   change the value (C54_w11_masked_out_refuted); NormalLossS2 returns only the normal term (C54_normal_l1_refuted) and
   mixes samples and masks without a channel dimension (C54_normal_mask_crosses, C54_normal_mask_refuted).
30. Shallow water: the second step's weights are not those of a second-order scheme (C50_second_step_order_refuted); lmax = 1 gives
   0/0 (C50_single_degree_refuted); `dimensionless` modifies its argument.
31. Ginzburg-Landau: spectra are multiplied by complex constants while spec2grid returns real fields
   (C50_ginzburg_landau_real_refuted).

Example networks

32. `SphericalUNet` builds the convolutions of both block types with grid_out on both sides (s2unet.py:114-143); since the
   defaults grid="equiangular" and grid_internal="legendre-gauss" differ, the first level applies Gauss filters to
   equiangular samples without an error (C58_unet_grids_refuted).
33. `SpectralConvS2.scale_residual` compares sizes only (_layers.py:412): with scale_factor = 1 and different grid types
   the residual on equiangular latitudes is added to a field on Gauss latitudes (C58_sfno_grids_refuted).
34. residual_prediction adds the raw input: with different channel counts the LSNO and the transformer raise, or
   broadcast to the input's channels (C58_lsno_residual_refuted).
35. Sequence and learnable lat-lon embeddings and the layer norm with one factor per pixel break rotation equivariance
   (C57_sequence_refuted, C57_latlon_refuted, C57_layer_norm_refuted).
36. Noticed while reading: the LayerNorm wrapper drops its eps argument; `_compute_cutoff_radius` raises KeyError for other
   bases and TypeError for an integer kernel_shape; a U-Net level of depth 0 with in != out channels fails when run.
37. The CUDA DISCO launchers request 2*Wi (forward) or at least 2*Wo (backward) elements of dynamic shared memory without
   opting in to more than the default 48 KB: 8192 longitudes in float32 or 4096 in float64 cannot be launched
   (C59_fine_grid_refuted); batch times channels is the grid's y dimension, so more than 65535 fails
   (C59_large_batch_refuted); an output wider than 32768 ends the process. The CPU kernels have none of these limits.
38. The CUDA DISCO kernels rely on entries sorted by input latitude within a row: with an unsorted row the cached image row
   is not reloaded and every execution reads in front of or behind the shared array (C59_forward, C59_backward). The CPU
   kernels do not. All bases of the library produce sorted entries (C59_filters_ordered).
39. The generic CUDA attention kernel, the fallback above 16384 value channels per head, requests two times the value
   channels of shared memory; only the ring kernels raise the 48 KB limit, so it can never be launched
   (C60_generic_kernel_refuted). The special kernels hold the key channels of two points: more than 6144 key channels
   per head fail (C60_forward_launches). Batch times heads is the grid's y dimension (C60_large_batch_refuted).
40. The CUDA upsampling attention keeps two keys and two values per block in shared memory, its backward pass also their
   gradients: with more than 3072 key and value channels per head together (48 KB of float32) the forward pass can be
   launched while the backward pass fails (C61_forward_launches, C62_forward_without_backward_refuted).
41. The CUDA attention backward pass (self and downsampling direction) keeps queries and output gradients of its points
   in shared memory, the generic kernel three sums as well: above 8192 key channels per head it needs more than 256 KB
   and cannot be launched on any device (C63_generic_kernel_refuted), while the forward pass can, with up to 12256 key
   channels in 48 KB (C63_forward_without_backward_refuted, example cuda_attn_bwd_48k).
42. The layout conversions on the GPU refuse an empty tensor (empty grid) and tensors with 65536 or more latitude rings
   in the batch (grid.z = nlat * batch); the CPU operators convert both (C64_conversion_refuted). The message of the
   check on grid.y in permute_to0312 names nlon, but that dimension counts channels.
43. The host version of split_csr_rows is documented to mirror the device version exactly; it does for rows in the order
   of sortRows (C64_split, the only order the library passes), but not in general: on other rows the device counts all long rows of the first 1024 while the host stops at
   the first short one (C64_unsorted_split_refuted).
44. The three rescale kernels of the ring attention have a race: every thread of a cell reads qdotk_max_prev[cell] and
   returns if it equals the new maximum, while thread 0 stores the new maximum there with no barrier in between. With more than 512
   channels a cell has several warps, and a warp that starts after warp 0 has finished skips its channels; they keep the scale of the old
   maximum (C66_wide_block_refuted, warps in lockstep). With up to 512 channels, and in the upsample kernel, the same
   needs threads of one warp to drift apart (C66_free_threads_refuted, C66_upsample_free_threads_refuted). A __syncthreads
   (or __syncwarp) before the store repairs it.
45. **Row outside the chunk in the second backward ring pass** (attention_cuda_bwd_ring.cu:1599-1627). s2_attn_bwd_ring_pass2_special_k sets
   hi_local before it checks its range, and keeps an entry whenever hi_local is not -1. An entry whose longitude lies in the chunk but
   whose row does not is kept with that row, column -1 and weight 0: the kernel reads kx and vx and adds 0 to dkx and dvx outside
   of the chunk. Pass 1 and the generic kernel skip such an entry. The layer never makes one, because its halo covers the
   pattern (C69_halo_rows); a direct call of the op can (C69_row_outside_refuted). Setting hi_local only inside the range check repairs it.
46. **RealFFT2 / InverseRealFFT2 with lmax below nlat** (examples/models/_layers.py:302-306, 336-338). With lmax = 1 the second slice is
   y[..., -0:, :], all rows, so the spectrum has nlat + 1 rows instead of one (C73_lmax_one_refuted). With 2 <= lmax < nlat the negative
   latitude frequencies follow the non-negative ones directly, but irfft2(s=...) pads with zeros at the end, so it reads them as other
   (higher) frequencies: a field all of whose frequencies are kept is not given back (C73_truncation_refuted). Padding between the two
   halves before irfft2 repairs it. Nothing else in the repository uses these classes.
47. **Element types of the DISCO layer** (disco_optimized.py:632-678, convolution.py:832-844). (a) The fused op registers a rule for
   AutocastCUDA only, the contraction op for both devices. Under CPU autocast the body of the fused op runs as it is, its einsum in
   bfloat16, and it returns bfloat16 where its fake promises the type of the input (C74_fused_cpu_autocast_refuted). (b) A half-precision
   input of a float32 layer without autocast works with fused=True, which converts the weight, and raises an error with fused=False
   (C74_path_refuted). (c) Under autocast adding the float32 bias promotes the result, so the output type depends on whether the layer
   has a bias (C74_bias_refuted).
48. The 2D3DS dataset (torch_harmonics/examples/stanford_2d3ds_dataset.py). (a) convert_dataset merges the maxima of the images with
   np.minimum (419, 464), so the recorded maximum is the smallest of them (C75_max_refuted). (b) The sum of squared deviations of the colours
   has no axis (408), so every channel's standard deviation contains those of the others (C75_std_refuted). (c) The depth statistics are
   of the raw values, 65536 times those of the stored ones (448-456; C75_depth_scale, C75_depth_scale_refuted). (d) The standard deviation
   divides by n - 1, which fails for one sample (C75_single_refuted) and differs from compute_stats_s2. (e) The depth item erases the
   largest depth of every image, also when no pixel is invalid (C75_depth_item_refuted); an image of uniform depth is erased entirely and
   makes compute_stats_s2 return nan (C75_uniform_depth_refuted, C75_empty_target). Read in the text and not modelled: `_id_to_class` uses
   an attribute that is never set.
49. Downloader of the same file. (a) A download interrupted after the last byte and before the renaming leaves a complete .part file; the
   next Range request starts at the end of the file, the server answers 416, and every later call raises (C76_resume_refuted). (b) An
   interrupted unpacking leaves the folder, which the next call takes for the complete dataset (215; C76_folder_refuted). (c) In the fallback
   for Pythons without tarfile.data_filter, two symbolic links that pass `_check_tar_members` lead a later member out of local_dir
   (C76_symlink_refuted). (d) It checks the target of a hard link from the link's directory (175), while tarfile looks it up from the
   extraction directory, so a target outside passes (C76_hardlink_refuted). (e) With local_dir = "/" every member is refused
   (C76_root_refuted). The default checksums keep (c) and (d) out of reach unless a mirror without checksums is used.
50. Initial conditions and PDE dataset. (a) With two or three latitudes ceil(nlat / 3) keeps degree 0 only; the constructor accepts and every
   item is nan, since the hyperdiffusion divides by the eigenvalue of the last degree, which is then 0 (C77_small_refuted). (b) The Galewsky jet has exactly no
   divergence, so normalize=True divides the third channel by a zero variance (C77_galewsky_normalised_refuted); in floating point the channel
   is rounding noise scaled to variance 1. (c) The random vorticity and divergence have a mean, which no velocity field has, and keep it for ever
   (C77_random_mean_refuted, C77_velocity_mean). (d) `dimensionless` subtracts the mean geopotential from every spectral
   coefficient instead of sqrt(4 pi) times it from the first one (C77_dimensionless_refuted), and overwrites its argument.
51. load_mola_elevation. (a) The bilinear interpolation clamps at the first and last column, so the map has a seam at the date line and turning
   the image does not turn the map (C78_seam_refuted). (b) One of nlat and nlon alone is ignored without a warning (C78_one_size_refuted;
   documented for nlat). (c) The cache file is created before the response is read and is never checked; a transfer that breaks off leaves an
   empty or cut file, and every later call fails until it is deleted by hand (C78_interrupted_refuted).
52. Attention kernels and element types. (a) quad_weights is a registered float32 buffer, so half(), bfloat16() and double() convert it, and the
   GPU kernels, serial and distributed, read it as float without looking: twice the length of the array after half() or bfloat16(), wrong
   numbers after double() (C79_converted_refuted). The CPU kernel raises. torch's allocator rounds blocks up, so the read need not fault. (b) The
   ring kernels check no element types. A float64 scale tensor with dimensions, without autocast, promotes the query; the serial layer raises,
   the ring kernels read keys and values as float64, outside their arrays (C79_scale_refuted).
53. Converting layers. The precomputed filter, quadrature and Legendre values are registered buffers. half() and bfloat16() round them, and
   float() or double() afterwards does not bring them back; the optimized and the reference DISCO path, whose filter is a plain attribute, then
   multiply with different filters (C81_half_refuted). Recomputing the values, or keeping the buffers out of type conversions, repairs it, and
   finding 52 (a) with it.
54. The random field sampler. (a) Only its own to and cuda rebuild the noise distribution. cpu(), and every move of a module that contains the
   sampler, go through Module._apply and leave the distribution on the old device; the next draw raises (C82_moved_refuted, C82_back_refuted,
   exactly when: C82_draw). Overriding _apply instead repairs it. (b) The eigenvalues are computed in torch's default type whatever dtype is,
   so dtype=float64 draws double-precision fields from single-precision eigenvalues, dtype=float16 draws single-precision fields, and
   dtype=bfloat16 raises in view_as_complex (C82_type_refuted, C82_constructed).
55. plot_sphere takes any field and makes latitudes that include the poles; they are those of the equiangular grid only. On a Gauss-Legendre grid
   every field is drawn stretched, its first row at the pole (C83_gauss_refuted), on a trapezoidal grid with wrong latitudes in between
   (C83_trapezoidal_refuted), unless the caller passes lat (C83_given). The documentation does not say so.
