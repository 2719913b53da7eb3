{
 "C01": {
  "note": "Raises exactly for size < n (or n = 0); otherwise positive, summing, balanced, non-increasing."
 },
 "C02": {
  "note": "Arbitrary rank, dimension and group size; debug checks on or off; shapes supplied or exchanged."
 },
 "C03": {
  "note": "Arbitrary announced split of dim1; a mismatch of posted buffers would make the model return None."
 },
 "C04": {
  "note": "Adjointness for arbitrary rank-local inputs and gradients of the balanced shapes."
 },
 "C08": {
  "note": "Proved for 1 <= r <= local height; the cases r = 0 and r > neighbour height are refuted (see DESIGN findings)."
 },
 "C10": {
  "note": "History induction; includes when finalize raises and a refutation: re-init leaks the earlier groups."
 },
 "C14": {
  "note": "For the grids both accept; the documented trapezoidal grid is rejected by the distributed class (refuted)."
 },
 "C15": {
  "note": "Needs at least as many channels as ranks per axis; with fewer the module fails (refuted)."
 },
 "C17": {
  "note": "Under the stated condition on latitude slices (two entries, kernels kept apart); shown to hold for bases with a common support and to fail for the default basis, for one-entry and for empty slices (refuted theorems)."
 },
 "C18": {
  "note": "Generic ring kernels of both directions; runs exactly if the halo fits into every shard. Specialised CUDA kernels are not modelled."
 },
 "C19": {
  "note": "The degrees to which the latitude rules are exact are those of the literature (proved in C21 for equiangular); trapezoidal, Nyquist and request 0 are refuted."
 },
 "C22": {
  "note": "Totals, symmetry and positivity for equiangular, Legendre-Gauss (relative to numpy's rule) and trapezoidal; Lobatto total refuted."
 },
 "C27": {
  "note": "Orders below Nyquist; at the Nyquist order the round trip fails (refuted)."
 },
 "C30": {
  "note": "Needs at least two input longitudes (refuted otherwise)."
 },
 "C32": {
  "note": "End points and the exact guard proved; documented fallback, symmetry and maximum principle refuted."
 },
 "C33": {
  "note": "Rotation equivariance without bias or with zonal bias; refuted for general bias."
 },
 "C34": {
  "note": "Row condition: rows sorted by output latitude and kernels separated; established for the layers' filters in C51."
 },
 "C35": {
  "note": "Separation of kernels stated exactly (C35_separation_exact); merged rows and empty filters refuted."
 },
 "C38": {
  "note": "All normalisation modes; geometric area refuted."
 },
 "C39": {
  "note": "Bessel functions and zeros are external; Zernike clamp inactive for kernel_shape <= 1e24; documented size and even isotropic rings refuted."
 },
 "C40": {
  "note": "Non-empty neighbourhoods; the empty one is 0/0 (refuted)."
 },
 "C46": {
  "note": "Arguments read through identity keys must be frozen; stale results refuted otherwise."
 },
 "C47": {
  "note": "Noise is given (sampler external), tau > 0; isotropy and orthonormal spectrum refuted."
 },
 "C48": {
  "note": "Positivity of weights not claimed on Lobatto grids; the width check is missing in the code (refuted)."
 },
 "C49": {
  "note": "Counts as areas for all labels and weights; accuracy and macro claims about ignored or absent classes refuted. Class weights of other lengths not modelled."
 },
 "C50": {
  "note": "Initial conditions not modelled; second step order, lmax = 1 and the Ginzburg-Landau reality claim refuted."
 },
 "C53": {
  "note": "Shapes torch would broadcast and negative class weights in the focal loss not modelled."
 },
 "C54": {
  "note": "float32 casts and prd/tar of different shapes not covered."
 },
 "C55": {
  "note": "Generic ring kernels, halo at most as tall as every shard; backward of the 1x1 projections is plain autograd."
 },
 "C56": {
  "note": "Optimised path; same slice conditions as C17; parameter gradients are the sum over ranks, which the caller has to form."
 },
 "C57": {
  "note": "Evaluation mode (dropout and drop path are identities), exact arithmetic; longitude-dependent embeddings and the per-pixel layer norm refuted."
 },
 "C58": {
  "note": "Sufficient conditions for construction (NetSpec: sfno_ok etc., tables as embeddings, harmonic or Zernike filters); grid mixing in the U-Net and SFNO and residuals with unequal channels refuted."
 },
 "C59": {
  "note": "Machine with interleaved single steps (sequentially consistent), exact arithmetic, no 32-bit overflow; float atomics are exact additions."
 },
 "C60": {
  "note": "Same machine as C59 with lock-step warp exchanges. sortRows enters as an arbitrary permutation of the rows; zero value channels are excluded (empty output)."
 },
 "C61": {
  "note": "Same machine as C59 and C60; each launch starts after the previous one has ended (one stream). atomicAdd and the compare-and-swap maximum are exact atomic updates."
 },
 "C62": {
  "note": "As C61. Some channel counts can be run forward but not backward (C62_forward_without_backward_refuted)."
 },
 "C63": {
  "note": "Exact reals; atomicAdd of a float4 is four atomic additions. Some channel counts can be run forward but not backward (C63_forward_without_backward_refuted)."
 },
 "C64": {
  "note": "cub's radix sort is an external (stable, decreasing). Empty tensors and 65536 or more rings per batch are refused by the GPU conversions (C64_conversion_refuted); host and device split unsorted rows differently (C64_unsorted_split_refuted)."
 },
 "C65": {
  "note": "PyTorch's own gradient formulas of torch.fft.rfft/irfft, einsum, narrow, pad, reshape and torch.complex are taken as given (SHTGradModel); proved is that their composition is the adjoint of the modelled forward pass and that the distributed composition gives its blocks."
 },
 "C66": {
  "note": "Right when the threads of a point run in lockstep; refuted for blocks of several warps (C66_wide_block_refuted) and for free-running threads (C66_free_threads_refuted, C66_upsample_free_threads_refuted). The kernels before and after the rescaling (scores, accumulation) of the long-row path are not modelled."
 },
 "C67": {
  "note": "The rescaling launch needs the threads of a point in lockstep (see C66); the other launches hold for every schedule. Minus infinity is a number below all scores; device limits enter as a successful launch."
 },
 "C68": {
  "note": "Long rows need the threads of an output point in lockstep (block_width Cv <= ws; see C66). Minus infinity is a number below all scores; device limits enter as a successful launch; the compaction of the neighbour list is taken at its result (C68_compact for its arithmetic)."
 },
 "C69": {
  "note": "Saved maxima are numbers (every output point has a neighbour); device limits enter as a successful launch; the compaction of the neighbour list is taken at its result (C68_compact). The rows of the chunk cover the pattern (C69_halo_rows for the layer; C69_row_outside_refuted without)."
 },
 "C70": {
  "note": "Numbers are exact reals and minus infinity is a number below every score; device limits enter as a successful launch; the compaction of the neighbour list is taken at its result (C68_compact). With long rows the threads of one output point are taken in lockstep, as the rescale kernel needs (C66)."
 },
 "C71": {
  "note": "Combines C68, C69 and C70 with C55 into one statement per rank: launches on empty buffers, the tensor operations around them (CudaRankModel), and the exchange of the key and value gradients. In exact arithmetic, with a number below all scores for minus infinity (one exists for all inputs: C71_some_minus_infinity). Launches that fail are excluded by hypothesis; with long rows the channels have to fit one warp or the block runs in lockstep (C66)."
 },
 "C72": {
  "note": "Combines C67 with C55 into one statement per rank: launches on empty buffers and the tensor operations around them (CudaRankUpModel); the exchange of the key and value gradients is C71_exchange, which holds in both directions. In exact arithmetic, with a number below all scores for minus infinity (one exists for all inputs: C71_some_minus_infinity). Launches that fail are excluded by hypothesis; the rescaling kernel needs its warps in lockstep (C66)."
 },
 "C73": {
  "note": "Exact real arithmetic; torch.fft by its defining sums; leading dimensions left out. Two findings: lmax = 1 gives nlat + 1 rows (C73_lmax_one_refuted), and for lmax < nlat the inverse puts the negative latitude frequencies at the wrong index (C73_truncation_refuted), so the round trip is stated with all latitude frequencies kept."
 },
 "C74": {
  "note": "Shapes and element types only. Refuted parts: fused op on the CPU under autocast, half input without autocast on the unfused path, bias under autocast (finding 47)."
 },
 "C75": {
  "note": "Exact real arithmetic; image decoding, HDF5 files and tensor transforms left out. Refuted parts: recorded maxima, recorded standard deviation of the colours, scale of the recorded depth statistics, a single sample, depth images without an invalid pixel (finding 48)."
 },
 "C76": {
  "note": "Contents of files as lists, the archive as a list of members; the server, the digest function and the interruptions are arbitrary. Only the fallback for Pythons without tarfile.data_filter is modelled for unpacking. Refuted parts: resuming a complete part file, an interrupted unpacking, symbolic and hard links in the archive, the root as directory (finding 49)."
 },
 "C77": {
  "note": "Exact arithmetic; the random numbers are an arbitrary tensor; division by a zero variance counts as no result. Only the shallow-water branch of PdeDataset. Refuted parts: items on two or three latitudes, the normalised Galewsky dataset, the mean of the random vorticity and divergence, dimensionless (finding 50)."
 },
 "C78": {
  "note": "The image decoder is an arbitrary function, the interpolation exact. Refuted parts: a transfer that breaks off leaves a file all later calls fail on, the interpolation is not continued across the date line, one size alone is ignored (finding 51)."
 },
 "C79": {
  "note": "Proved for the layer as constructed, with or without autocast, and for any scale that does not promote the query. Refuted for a converted layer: the quadrature weights are a float32 buffer that half(), bfloat16() and double() convert, and the GPU kernels read it as float without a check (C79_converted_refuted; the CPU kernel raises). Refuted for a float64 scale tensor with dimensions without autocast: the serial layer raises, the ring kernels, which check no types, read the keys outside their array (C79_scale_refuted). Shapes and values are not part of this model; torch's conversion rules for Module.to, autocast and promotion are trusted as modelled; the torch reference path is not included."
 },
 "C80": {
  "note": "Proved on a memory of storages, offsets, shapes and strides, for both paths. torch's contiguous(), clone() and permute() and c10's contiguity test are modelled as documented; the tiled transposition is given by its index map here and proved in CudaUtilsModel. C80_alias shows why _permuted_copy does not use permute().contiguous(). Negative strides do not exist in torch."
 },
 "C81": {
  "note": "Proved with IEEE rounding to nearest even with gradual underflow (Flocq's round; overflow left out). The last part is refuted: the precomputed values are registered buffers, which half() and bfloat16() round, and nothing recomputes them, while the reference path's psi is a plain attribute and keeps its values (C81_half_refuted); C81_half bounds the error. Module._apply is trusted as modelled; the K-packed path, which converts its copy of the values to the input's type, is not included."
 },
 "C82": {
  "note": "Two parts are refuted: only the sampler's own to and cuda rebuild the noise distribution, so cpu() and moves of a containing module leave it on the old device and the draw raises (C82_moved_refuted, C82_back_refuted), and the eigenvalues have torch's default type whatever dtype is (C82_type_refuted). C82_draw says exactly when a draw succeeds and with what. Tensors are reduced to device and type; Module._apply and Normal are trusted as modelled."
 },
 "C83": {
  "note": "Proved for the equiangular grid and for latitudes passed by the caller. With the coordinates plot_sphere makes itself it is refuted for every Gauss-Legendre grid (C83_gauss_refuted) and for the trapezoidal grid (C83_trapezoidal_refuted). Only the mesh given to pcolormesh is modelled."
 }
}
