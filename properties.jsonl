{"id": "C01", "title": "Balanced split shapes", "statement": "compute_split_shapes(size, n) either raises (exactly when size < n) or returns n positive chunk sizes that add up to size, differ pairwise by at most one and never increase along the list.", "quantifier": "every size and every number of chunks", "why_tests_cant": "Only finitely many (size, n) pairs can be tried; uneven remainders are the failure mode.", "anchors": ["torch_harmonics/distributed/primitives.py:compute_split_shapes"]}
{"id": "C02", "title": "Split and gather are inverse", "statement": "Splitting a tensor along any dimension over the ranks of a group and gathering the shards along that dimension returns the original tensor on every rank; each shard is the contiguous slice that the split shapes announce, and no collective is posted with mismatched sizes.", "quantifier": "every tensor rank, shape, dimension and group size", "why_tests_cant": "Unit tests use a few fixed shapes and at most a handful of ranks.", "anchors": ["torch_harmonics/distributed/primitives.py:split_tensor_along_dim", "torch_harmonics/distributed/primitives.py:_split", "torch_harmonics/distributed/primitives.py:_gather"]}
{"id": "C03", "title": "Distributed transpose moves the sharded dimension", "statement": "If a tensor is sharded along dim1 with the announced split sizes, distributed_transpose yields on every rank exactly the balanced shard of the same global tensor along dim0 with dim1 complete; transposing back restores the original shards. Send and receive buffers always have matching shapes.", "quantifier": "every tensor, pair of distinct dimensions and group size", "why_tests_cant": "The all-to-all with uneven chunk sizes has unboundedly many layouts.", "anchors": ["torch_harmonics/distributed/primitives.py:_transpose", "torch_harmonics/distributed/primitives.py:distributed_transpose_azimuth"]}
{"id": "C04", "title": "Transpose backward is the adjoint of forward", "statement": "The gradient computed by the backward pass of the distributed transpose is the adjoint of the forward map with respect to the sum over ranks of elementwise products, whenever dim1 was sharded by the balanced split.", "quantifier": "every input, every output gradient, every shape and group size", "why_tests_cant": "A gradient check samples a few inputs and ranks; adjointness is a statement about all of them.", "anchors": ["torch_harmonics/distributed/primitives.py:distributed_transpose_azimuth", "torch_harmonics/distributed/primitives.py:distributed_transpose_polar"]}
{"id": "C05", "title": "Leading-dimension padding is invisible", "statement": "flatten_and_pad_leading_dims followed by unpad_and_unflatten_leading_dims returns the input unchanged; the padded leading size is at least the requested minimum and padded rows are zero.", "quantifier": "every leading shape (including none) and every minimum size", "why_tests_cant": "Unbounded family of shapes, the no-padding and the padding branch both matter.", "anchors": ["torch_harmonics/distributed/primitives.py:flatten_and_pad_leading_dims", "torch_harmonics/distributed/primitives.py:unpad_and_unflatten_leading_dims"]}
{"id": "C06", "title": "Reduce-scatter equals all-reduce then split", "statement": "Reduce-scatter along a dimension returns on rank r the r-th balanced chunk of the elementwise sum over ranks, for both the even fast path and the padded uneven path.", "quantifier": "every family of equally shaped tensors, dimension and group size", "why_tests_cant": "The uneven path is exercised only when the size is not divisible by the group size.", "anchors": ["torch_harmonics/distributed/primitives.py:_reduce_scatter", "torch_harmonics/distributed/primitives.py:reduce_from_scatter_to_polar_region"]}
{"id": "C07", "title": "Autograd pairs of the collectives are adjoint", "statement": "For copy, reduce, scatter, gather, reduce-scatter and gather-from-copy, forward and backward satisfy the adjoint relation with respect to the documented inner products (replicated tensors counted once where the primitive's contract says the gradient is replicated).", "quantifier": "every input family, every gradient family, every group size", "why_tests_cant": "Numerical gradient checks only sample.", "anchors": ["torch_harmonics/distributed/primitives.py:_CopyToPolarRegion", "torch_harmonics/distributed/primitives.py:_ScatterToPolarRegion", "torch_harmonics/distributed/primitives.py:_GatherFromPolarRegion", "torch_harmonics/distributed/primitives.py:_ReduceFromPolarRegion"]}
{"id": "C08", "title": "Halo exchange delivers the neighbouring rows", "statement": "polar_halo_exchange with halo width r gives each rank the rows [lo-r, hi+r) of the global tensor, with zeros outside the globe; its backward is the adjoint. Requires 1 <= r <= every local height.", "quantifier": "every global height, partition into shards and halo width", "why_tests_cant": "Halo widths and uneven shards form an unbounded family; boundary ranks behave differently.", "anchors": ["torch_harmonics/distributed/primitives.py:polar_halo_exchange"]}
{"id": "C09", "title": "Ring schedule visits every chunk exactly once", "statement": "Sending to the previous and receiving from the next neighbour s times leaves rank r with the chunk of rank (r+s) mod n; over n steps each rank sees each chunk exactly once.", "quantifier": "every group size, rank and number of steps", "why_tests_cant": "Schedules are unbounded in the number of ranks.", "anchors": ["torch_harmonics/distributed/primitives.py:get_group_neighbors", "torch_harmonics/distributed/distributed_attention.py:_ring_kv"]}
{"id": "C10", "title": "Process-group registry state machine", "statement": "After any sequence of init and finalize calls: is_initialized is true iff the last effective call was init; after finalize the group sizes are 1 and ranks 0; querying sizes and ranks before init returns 1 and 0; finalize when uninitialised is a no-op.", "quantifier": "every finite history of init/finalize/query calls", "why_tests_cant": "Histories are unbounded.", "anchors": ["torch_harmonics/distributed/utils.py:init", "torch_harmonics/distributed/utils.py:finalize", "torch_harmonics/distributed/utils.py:polar_group_size"]}
{"id": "C11", "title": "Distributed scalar SHT equals serial SHT", "statement": "Running DistributedRealSHT on the shards of x over any polar x azimuth process grid yields on each rank exactly the corresponding shard of RealSHT(x), without any shape mismatch or split error, whenever the grid has at least as many rows, columns, degrees and orders as ranks.", "quantifier": "every input, batch shape, grid, truncation, normalisation and process grid", "why_tests_cant": "Process grids and uneven shards are unbounded; CI runs a few.", "anchors": ["torch_harmonics/distributed/distributed_sht.py:DistributedRealSHT.forward", "torch_harmonics/sht.py:RealSHT.forward"]}
{"id": "C12", "title": "Distributed inverse SHT equals serial inverse SHT", "statement": "Same as the previous property for DistributedInverseRealSHT: shards of coefficients are mapped to shards of InverseRealSHT of the global coefficients.", "quantifier": "every coefficient tensor, batch shape, grid, truncation and process grid", "why_tests_cant": "See above.", "anchors": ["torch_harmonics/distributed/distributed_sht.py:DistributedInverseRealSHT.forward", "torch_harmonics/sht.py:InverseRealSHT.forward"]}
{"id": "C13", "title": "Distributed vector SHT equals serial vector SHT", "statement": "DistributedRealVectorSHT and DistributedInverseRealVectorSHT map shards to the shards of the serial vector transforms.", "quantifier": "every input, batch shape, truncation and process grid", "why_tests_cant": "See above.", "anchors": ["torch_harmonics/distributed/distributed_sht.py:DistributedRealVectorSHT", "torch_harmonics/distributed/distributed_sht.py:DistributedInverseRealVectorSHT"]}
{"id": "C14", "title": "Distributed quadrature equals serial quadrature", "statement": "DistributedQuadratureS2 applied to the shards returns on every rank the value QuadratureS2 returns for the global field, for the grids both accept.", "quantifier": "every field, grid size and process grid", "why_tests_cant": "Unbounded process grids.", "anchors": ["torch_harmonics/distributed/distributed_quadrature.py:DistributedQuadratureS2", "torch_harmonics/quadrature.py:QuadratureS2"]}
{"id": "C15", "title": "Distributed resampling equals serial resampling", "statement": "DistributedResampleS2 maps shards of the input to shards of ResampleS2 of the global input, including the pole-expansion rows.", "quantifier": "every input, pair of grids and process grid with at least as many channels as ranks per axis", "why_tests_cant": "Unbounded process grids; pole means combine all azimuth ranks.", "anchors": ["torch_harmonics/distributed/distributed_resample.py:DistributedResampleS2"]}
{"id": "C16", "title": "Distributed spectral convolution equals serial", "statement": "With weights that are the degree-wise shards of a global weight, DistributedSpectralConvS2 maps shards to shards of SpectralConvS2.", "quantifier": "every input, weight and process grid", "why_tests_cant": "Unbounded process grids.", "anchors": ["torch_harmonics/distributed/distributed_spectral_convolution.py:DistributedSpectralConvS2"]}
{"id": "C17", "title": "Distributed DISCO convolution equals serial", "statement": "The distributed DISCO convolution (filter split by input latitude, contraction on local latitudes, reduce-scatter, grouped weight contraction) maps shards to shards of the serial DISCO convolution, for both the standard and the reordered all-to-all schedule, whenever every rank's latitude slice of the filter holds at least two entries and does not make rows of different kernels adjacent; bases whose functions share one support always qualify. Whether the default basis always qualifies is decided (it does not).", "quantifier": "every input, filter tensor, weight, channel/group structure and process grid", "why_tests_cant": "Unbounded process grids and group boundaries inside channel shards.", "anchors": ["torch_harmonics/distributed/distributed_convolution.py:DistributedDiscreteContinuousConvS2", "torch_harmonics/distributed/kernels/distributed_convolution_kernels.py"]}
{"id": "C18", "title": "Distributed neighbourhood attention equals serial", "statement": "Ring attention with polar halo computes on each rank the shard of the serial neighbourhood attention output: every neighbour of every output point is visited exactly once, with the right key, value and quadrature weight, in whatever order the ring delivers chunks.", "quantifier": "every q, k, v, neighbourhood structure and process grid with shards at least as tall as the halo", "why_tests_cant": "Ring orders, halo widths and process grids are unbounded.", "anchors": ["torch_harmonics/distributed/distributed_attention.py:DistributedNeighborhoodAttentionS2"]}
{"id": "C19", "title": "Truncation is triangular, bounded and safe", "statement": "truncate_sht returns lmax = mmax; never more than a requested positive value, never more than floor(nlon/2)+1 when mmax is not requested, and by default, on the grids the transforms accept, never a degree whose square the latitude rule of that grid cannot integrate exactly. Whether this also holds on trapezoidal grids, whether the Nyquist order can be included and what a request of 0 does is decided.", "quantifier": "every nlat, nlon, request and grid", "why_tests_cant": "Integer inequality over all sizes.", "anchors": ["torch_harmonics/truncation.py:truncate_sht"]}
{"id": "C20", "title": "Real FFT wrappers", "statement": "rfft(x, nmodes) returns exactly nmodes coefficients: the first ones of the discrete Fourier transform, followed by zeros. irfft ignores the imaginary part of the zero and Nyquist bins, returns n real samples, and inverts rfft whenever at least floor(n/2)+1 modes are kept; rfft inverts irfft on Hermitian-consistent spectra of fewer modes.", "quantifier": "every signal length, parity and number of modes", "why_tests_cant": "Infinite family of lengths; parity dependent branches.", "anchors": ["torch_harmonics/fft.py:rfft", "torch_harmonics/fft.py:irfft"]}
{"id": "C21", "title": "Clenshaw-Curtis exactness", "statement": "For every n >= 2 the nodes and weights returned by clenshaw_curtiss_weights integrate every polynomial of degree at most n-1 exactly over [a,b].", "quantifier": "every n, interval and polynomial", "why_tests_cant": "A test can only check a few n up to rounding.", "anchors": ["torch_harmonics/quadrature.py:clenshaw_curtiss_weights"]}
{"id": "C22", "title": "Latitude weights: total, symmetry, positivity", "statement": "The latitude weights of the supported grids sum to the interval length (2 for the sphere, hence 4*pi after the longitude factor, 1 when normalised), are symmetric under reversal (so flipping nodes but not weights is harmless), and are positive. Whether the Lobatto weights, the result of finitely many Newton sweeps, also sum exactly is decided (they do not).", "quantifier": "every n and interval", "why_tests_cant": "Unbounded n.", "anchors": ["torch_harmonics/quadrature.py:trapezoidal_weights", "torch_harmonics/quadrature.py:QuadratureS2", "torch_harmonics/quadrature.py:precompute_latitudes"]}
{"id": "C23", "title": "Lobatto nodes and weights", "statement": "lobatto_weights keeps both endpoints exactly, returns antisymmetric nodes and symmetric positive weights whatever the number of Newton iterations; at a fixed point of the iteration the interior nodes are zeros of the derivative of the Legendre polynomial.", "quantifier": "every n, tolerance and iteration limit", "why_tests_cant": "Holds for all iteration counts, which tests cannot enumerate.", "anchors": ["torch_harmonics/quadrature.py:lobatto_weights"]}
{"id": "C24", "title": "Associated Legendre recurrence", "statement": "legpoly returns, for all degrees l and orders m, the orthonormalised associated Legendre function (closed form from the Rodrigues formula); it vanishes for m > l, has parity (-1)^(l+m), and functions of equal order are orthonormal on [-1,1] up to the stated factor.", "quantifier": "every degree, order, argument and normalisation", "why_tests_cant": "Infinitely many degrees, orders and arguments.", "anchors": ["torch_harmonics/legendre.py:legpoly"]}
{"id": "C25", "title": "SHT inverts inverse SHT", "statement": "For every set of coefficients within the default truncation, RealSHT(InverseRealSHT(c)) = c (up to the imaginary part of m = 0 coefficients, which carries no information), for all normalisations and both phase conventions, on the equiangular grid, and on any grid whose latitude rule is exact to degree 2*lmax-2.", "quantifier": "every coefficient array, grid size and normalisation", "why_tests_cant": "Exact identity over all inputs and sizes.", "anchors": ["torch_harmonics/sht.py:RealSHT", "torch_harmonics/sht.py:InverseRealSHT"]}
{"id": "C26", "title": "Inverse SHT after SHT is a projection", "statement": "InverseRealSHT(RealSHT(.)) is idempotent and reproduces every band-limited field exactly.", "quantifier": "every field and grid size", "why_tests_cant": "Exact identity over all inputs and sizes.", "anchors": ["torch_harmonics/sht.py:RealSHT", "torch_harmonics/sht.py:InverseRealSHT"]}
{"id": "C27", "title": "Vector SHT inverts inverse vector SHT", "statement": "For every pair of spheroidal/toroidal coefficient arrays (degree >= 1) within a truncation the quadrature integrates exactly, RealVectorSHT(InverseRealVectorSHT(c)) = c.", "quantifier": "every coefficient array, size and normalisation", "why_tests_cant": "Exact identity over all inputs and sizes.", "anchors": ["torch_harmonics/sht.py:RealVectorSHT", "torch_harmonics/sht.py:InverseRealVectorSHT", "torch_harmonics/legendre.py:_precompute_dlegpoly"]}
{"id": "C28", "title": "Normalisation and phase conventions cancel", "statement": "InverseRealSHT(RealSHT(x)) does not depend on the norm or csphase option; coefficients under different options differ by the documented factor of the degree or the sign (-1)^m.", "quantifier": "every input and option pair", "why_tests_cant": "All inputs.", "anchors": ["torch_harmonics/legendre.py:legpoly", "torch_harmonics/sht.py"]}
{"id": "C29", "title": "SHT is linear and equivariant under longitude rotation", "statement": "RealSHT is linear, and rotating the field by j grid points in longitude multiplies the coefficient of order m by exp(-2 pi i m j / nlon).", "quantifier": "every field, scalar, rotation and size", "why_tests_cant": "All inputs and rotations.", "anchors": ["torch_harmonics/sht.py:RealSHT.forward"]}
{"id": "C30", "title": "Resampling indices and weights are safe; maximum principle", "statement": "For every pair of grids (with at least two input longitudes) the precomputed latitude and longitude indices are in range, interpolation weights lie in [0,1], hence bilinear output values lie between the minimum and maximum of the input, and constants are preserved.", "quantifier": "every pair of grid sizes and types, every field", "why_tests_cant": "All sizes and fields.", "anchors": ["torch_harmonics/resample.py:ResampleS2"]}
{"id": "C31", "title": "Resampling reproduces coincident nodes", "statement": "Where an output node coincides with an input node the bilinear output equals the input there; on identical grids the module is the identity.", "quantifier": "every pair of grids and every field", "why_tests_cant": "All sizes and fields.", "anchors": ["torch_harmonics/resample.py:ResampleS2"]}
{"id": "C32", "title": "Slerp mode", "statement": "In bilinear-spherical mode the combination reproduces the end points at weights 0 and 1 and falls back to linear interpolation exactly where the code's guard says so; the documented fallback (only when the angle is near 0) is compared with the actual one-sided guard.", "quantifier": "every pair of values and weight", "why_tests_cant": "All reals.", "anchors": ["torch_harmonics/resample.py:ResampleS2._upscale_latitudes"]}
{"id": "C33", "title": "Spectral convolution acts degree-wise and respects groups", "statement": "SpectralConvS2 output coefficients of degree l and group g depend only on input coefficients of degree l in channels of group g; the operator commutes with longitude rotations; incompatible group counts are rejected.", "quantifier": "every input, weight and group count", "why_tests_cant": "Non-interference over all inputs.", "anchors": ["torch_harmonics/spectral_convolution.py:SpectralConvS2"]}
{"id": "C34", "title": "DISCO kernels agree with the reference", "statement": "The optimised CPU forward and backward DISCO kernels, run on the CSR data produced by the preprocessing step, return the same result as the reference torch implementation and as the mathematical definition, for every sparse filter that meets the stated row condition.", "quantifier": "every sparse filter, input and grid sizes", "why_tests_cant": "All sparsity patterns.", "anchors": ["torch_harmonics/disco/kernels_torch/disco_torch.py", "torch_harmonics/disco/optimized/kernels_cpu/disco_cpu_fwd.h", "torch_harmonics/disco/optimized/kernels_cpu/disco_cpu_bwd.h"]}
{"id": "C35", "title": "psi preprocessing preserves entries", "statement": "preprocess_psi returns a permutation of the input entries, stably sorted by kernel index, with row offsets that partition the entries into runs of equal kernel and row; pack_psi_dense keeps each entry exactly once. Stated with the exact condition under which runs do not mix kernels.", "quantifier": "every list of entries", "why_tests_cant": "All sparsity patterns.", "anchors": ["torch_harmonics/disco/optimized/disco_helpers.h:preprocess_psi_kernel", "torch_harmonics/disco/optimized/disco_helpers.h:pack_psi_dense_kernel"]}
{"id": "C36", "title": "DISCO transpose is the adjoint of DISCO forward", "statement": "The transposed contraction is the adjoint of the forward contraction with the same filter, so the backward pass used by autograd is the true gradient.", "quantifier": "every filter, input, output gradient and grid sizes", "why_tests_cant": "All inputs.", "anchors": ["torch_harmonics/disco/optimized/disco_optimized.py", "torch_harmonics/disco/kernels_torch/disco_torch.py"]}
{"id": "C37", "title": "DISCO convolution is equivariant under longitude rotation", "statement": "Rotating the input by pscale*j longitude points rotates the output by j points, where pscale = nlon_in/nlon_out.", "quantifier": "every filter, input and rotation", "why_tests_cant": "All inputs and rotations.", "anchors": ["torch_harmonics/disco/kernels_torch/disco_torch.py"]}
{"id": "C38", "title": "Filter normalisation post-conditions", "statement": "Each normalisation mode of the DISCO filter delivers what it promises (nodal: unit weighted sum of each basis function at each output latitude up to the eps guard; mean: after averaging; none: unchanged up to quadrature weighting), and never changes the sparsity pattern.", "quantifier": "every filter tensor, quadrature and grid size", "why_tests_cant": "All inputs.", "anchors": ["torch_harmonics/disco/convolution.py:_normalize_convolution_tensor_s2"]}
{"id": "C39", "title": "Filter basis indexing", "statement": "kernel_size equals the number of distinct basis functions enumerated, index maps are bijections onto [0, kernel_size), hat functions are supported inside the cutoff, take values in [0,1] and form a partition of unity up to the outermost ring when the ring count is odd or there are several angles; whether they do for even counts without angles and whether get_filter_basis's documented size is right is decided.", "quantifier": "every kernel shape and evaluation point", "why_tests_cant": "All shapes and points.", "anchors": ["torch_harmonics/filter_basis.py"]}
{"id": "C40", "title": "Online softmax equals weighted softmax", "statement": "The single-pass running-maximum accumulation used by the attention kernels equals the quadrature-weighted softmax average of the values over the neighbourhood, independently of the order of the neighbours, of how they are chunked, and of the starting value of the running maximum.", "quantifier": "every non-empty neighbourhood, order, chunking, queries, keys, values and positive weights", "why_tests_cant": "All orders and lengths.", "anchors": ["torch_harmonics/attention/kernels_torch/attention_torch.py", "torch_harmonics/attention/optimized/kernels_cpu/attention_cpu_fwd.h"]}
{"id": "C41", "title": "Attention output is a convex combination", "statement": "Every attention output channel lies between the minimum and maximum of the value channel over the neighbourhood; constant values are reproduced exactly.", "quantifier": "every q, k, v and neighbourhood", "why_tests_cant": "All inputs.", "anchors": ["torch_harmonics/attention/attention.py"]}
{"id": "C42", "title": "Attention gradients are the true derivatives", "statement": "The hand-written gradients with respect to values, keys and queries are the partial derivatives of the forward map paired with the output gradient.", "quantifier": "every q, k, v, output gradient and neighbourhood", "why_tests_cant": "Gradient checks only sample.", "anchors": ["torch_harmonics/attention/kernels_torch/attention_torch.py", "torch_harmonics/attention/optimized/kernels_cpu/attention_cpu_bwd.h"]}
{"id": "C43", "title": "Head folding and layout changes are lossless", "statement": "Folding heads into the batch dimension and unfolding, and permuting NCHW to NHWC and back, are inverse bijections that keep each element with its batch, head, channel and position.", "quantifier": "every shape and number of heads", "why_tests_cant": "All shapes.", "anchors": ["torch_harmonics/attention/_layout.py", "torch_harmonics/attention/optimized/kernels_cpu/attention_cpu_fwd.cpp"]}
{"id": "C44", "title": "Attention kernels index the right neighbour", "statement": "The incremental wrap-around index used by the CPU kernel equals (wi + pscale*wo) mod nlon_in; the blocked kernel equals the reference; the upsampling (scatter) kernel equals attention over the transposed neighbourhood relation.", "quantifier": "every grid size, block width, neighbourhood structure", "why_tests_cant": "All sizes.", "anchors": ["torch_harmonics/attention/optimized/kernels_cpu/attention_cpu_fwd.h", "torch_harmonics/attention/kernels_torch/attention_torch.py"]}
{"id": "C45", "title": "Attention is equivariant under longitude rotation", "statement": "Rotating q by j points and k, v by pscale*j points rotates the attention output by j points.", "quantifier": "every input, neighbourhood and rotation", "why_tests_cant": "All inputs and rotations.", "anchors": ["torch_harmonics/attention/kernels_torch/attention_torch.py"]}
{"id": "C46", "title": "Cache transparency", "statement": "Any sequence of calls to a function wrapped with the copying lru_cache returns what direct calls would return, even if the caller mutates returned objects in between, whatever gets evicted; the cache never holds more than maxsize entries. Without copying, mutation leaks.", "quantifier": "every call/mutation history, every cache size", "why_tests_cant": "Histories are unbounded.", "anchors": ["torch_harmonics/cache.py:lru_cache"]}
{"id": "C47", "title": "Gaussian random field spectrum", "statement": "The random field generator rejects alpha <= 1 without sigma, never excites the constant mode nor orders above the degree, is linear in the noise, and has the documented decaying spectrum in the normalisation its transforms use. Whether the noise is isotropic and whether the spectrum is the documented one for norm='backward' as orthonormal coefficients is decided.", "quantifier": "every size and parameter", "why_tests_cant": "All sizes.", "anchors": ["torch_harmonics/random_fields.py:GaussianRandomFieldS2"]}
{"id": "C48", "title": "Loss quadrature weights and masking", "statement": "Normalised quadrature weights sum to one over the grid; spherical L1/L2/squared losses are non-negative and vanish exactly on equal fields where the weights are positive; masked integration equals integration restricted to the mask.", "quantifier": "every field, mask and grid size", "why_tests_cant": "All inputs.", "anchors": ["torch_harmonics/examples/losses.py"]}
{"id": "C49", "title": "Segmentation metrics", "statement": "tp+fp+fn+tn equals the total weight for every class; IoU is in [0,1] and is unaffected by ignored pixels; whether accuracy is unaffected by ignored pixels is decided.", "quantifier": "every prediction, target, weight and class count", "why_tests_cant": "All inputs.", "anchors": ["torch_harmonics/examples/metrics.py"]}
{"id": "C50", "title": "Spectral solvers: Laplacian inverse, conservation and history slots", "statement": "invlap inverts lap on all degrees >= 1; the shallow-water time step keeps the global means of all prognostic fields constant over any number of steps; the cyclic history slots always hold the last three tendencies, so that from the third step on the scheme is third-order Adams-Bashforth; what the first two steps compute is stated exactly.", "quantifier": "every state, parameter and number of steps", "why_tests_cant": "Step counts are unbounded.", "anchors": ["torch_harmonics/examples/pde_sphere.py", "torch_harmonics/examples/shallow_water_equations.py:ShallowWaterSolver.timestep"]}
{"id": "C51", "title": "The filter samples the basis functions within the cutoff", "statement": "Constructing a DISCO layer yields entries exactly for those (basis function, output latitude, input point) whose great-circle distance is at most 1.001*theta_cutoff and where the basis function is supported, each valued at the true distance and bearing, sorted and in range, so that the kernels' requirements hold.", "quantifier": "every grid, cutoff, shape and each basis of the library", "why_tests_cant": "A continuum of cutoffs and unbounded grids.", "anchors": ["torch_harmonics/disco/convolution.py:_precompute_convolution_tensor_s2", "torch_harmonics/disco/convolution.py:DiscreteContinuousConvS2.__init__"]}
{"id": "C52", "title": "Neighbourhood attention attends to exactly the points within the cutoff", "statement": "The neighbours of every output point are exactly the input points within 1.001*theta_cutoff great-circle distance, each once, both when down- and when upsampling; the softmax weight of each is its quadrature weight. Whether every output point has a neighbour is decided.", "quantifier": "every pair of grids and cutoff", "why_tests_cant": "A continuum of cutoffs and unbounded grids.", "anchors": ["torch_harmonics/attention/attention.py:NeighborhoodAttentionS2.__init__", "torch_harmonics/disco/convolution.py:_precompute_convolution_tensor_s2"]}
{"id": "C53", "title": "Segmentation losses", "statement": "DiceLossS2, CrossEntropyLossS2 and FocalLossS2 are batch means of integrals over the sphere of the documented scores of the class probabilities; they are defined for exactly the labels that are classes or ignored, lie in the documented ranges, do not depend on the predictions at ignored pixels, on adding a constant to the logits of a pixel, or on a rotation about the axis. Whether ignored pixels change the value otherwise is decided.", "quantifier": "every prediction, target, class weight, smoothing, ignored label and grid size", "why_tests_cant": "All inputs.", "anchors": ["torch_harmonics/examples/losses.py:DiceLossS2", "torch_harmonics/examples/losses.py:CrossEntropyLossS2", "torch_harmonics/examples/losses.py:FocalLossS2"]}
{"id": "C54", "title": "Losses on gradients", "statement": "W11LossS2 and NormalLossS2 differentiate the trigonometric interpolants of rows and columns; along rows this is the exact longitude derivative of band-limited fields. W11LossS2 is the mean over sphere or mask of the absolute gradient differences, a pseudo-metric blind to offsets; NormalLossS2 is the mean cosine distance of the surface normals, between 0 and 2 and zero exactly where W11LossS2 is; both are invariant under rotation about the axis. Whether the latitude derivative matches the grid, whether masked-out pixels count and whether the documented L1 term is present is decided.", "quantifier": "every field, mask and grid size", "why_tests_cant": "All inputs.", "anchors": ["torch_harmonics/examples/losses.py:W11LossS2", "torch_harmonics/examples/losses.py:NormalLossS2"]}
{"id": "C55", "title": "Gradients of distributed attention", "statement": "On any grid of ranks whose shards are at least as tall as the neighbourhoods reach, the backward pass of the ring attention (saved softmax statistics, two ring passes, all-reduce over the azimuth group, halo exchange backward) leaves on every rank its block of the serial gradients of keys, values and queries; these are the directional derivatives of the distributed forward pass with inner products summed over all ranks.", "quantifier": "every grid of ranks, neighbourhood pattern, input, head and channel count, both directions", "why_tests_cant": "The gradient of one shard depends on all ranks; rank grids and patterns are unbounded.", "anchors": ["torch_harmonics/distributed/distributed_attention.py:_RingNeighborhoodAttentionFn.backward", "torch_harmonics/distributed/distributed_attention.py:_RingNeighborhoodAttentionUpsampleFn.backward", "torch_harmonics/distributed/primitives.py:_PolarHaloExchangeFn.backward"]}
{"id": "C56", "title": "Gradients of the distributed DISCO convolutions", "statement": "On any grid of ranks meeting the conditions of the forward theorem, the backward passes of DistributedDiscreteContinuousConvS2 (both schedules) and of its transpose leave on every rank its block of the serial layer's input gradient, and the ranks' weight and bias gradients add up to the serial ones; these are the derivatives of the distributed forward pass with inner products summed over all ranks.", "quantifier": "every grid of ranks, layer, group count, input and output gradient", "why_tests_cant": "The gradient of one shard depends on all ranks; rank grids are unbounded, and the reordered schedule splits groups over ranks in ways that depend on all sizes.", "anchors": ["torch_harmonics/distributed/distributed_convolution.py:DistributedDiscreteContinuousConvS2.forward", "torch_harmonics/distributed/distributed_convolution.py:DistributedDiscreteContinuousConvTransposeS2.forward", "torch_harmonics/distributed/kernels/distributed_convolution_kernels.py", "torch_harmonics/distributed/primitives.py"]}
{"id": "C57", "title": "Example networks commute with rotations about the axis", "statement": "In evaluation mode the spherical Fourier neural operator, local spherical neural operator, spherical transformer, spherical U-Net and spherical Segformer commute with every rotation about the polar axis by k/n of a turn, n dividing the longitudes of all internal grids, provided no parameter depends on the longitude; which embeddings and norms break this is decided.", "quantifier": "every configuration, parameter value, batch, image and rotation", "why_tests_cant": "Depths, sizes and parameters are unbounded; a test samples one random network.", "anchors": ["torch_harmonics/examples/models/sfno.py", "torch_harmonics/examples/models/lsno.py", "torch_harmonics/examples/models/s2transformer.py", "torch_harmonics/examples/models/s2unet.py", "torch_harmonics/examples/models/s2segformer.py", "torch_harmonics/examples/models/_layers.py"]}
{"id": "C58", "title": "Example networks accept their configurations and keep grids apart", "statement": "The constructors succeed on every documented configuration; the built network accepts every batch of images of the configured size and channels and returns the configured number of output channels on the image grid; every layer is applied to samples on the grid (sizes and latitude type) it was built for, and only samples on one grid are added or concatenated. Where grid types are mixed is decided.", "quantifier": "every configuration, parameter value and batch", "why_tests_cant": "Configurations are unbounded and a wrong latitude type raises no error.", "anchors": ["torch_harmonics/examples/models/sfno.py", "torch_harmonics/examples/models/lsno.py", "torch_harmonics/examples/models/s2transformer.py", "torch_harmonics/examples/models/s2unet.py", "torch_harmonics/examples/models/s2segformer.py", "torch_harmonics/examples/models/_layers.py"]}
{"id": "C59", "title": "The CUDA DISCO kernels compute the CPU kernels' sums under every thread schedule", "statement": "A launch of the CUDA forward or backward DISCO contraction ends, without data-race dependence, deadlock or out-of-bounds access, with the same tensor as the CPU kernel and the defining sum, for every interleaving of threads and blocks and whatever registers and shared memory held before. Which inputs can be launched at all, and which orders of the filter entries the kernels tolerate, is decided; the library's filters have a tolerated order.", "quantifier": "every schedule, grid, filter, input and device limits", "why_tests_cant": "Schedules cannot be enumerated; a test sees a few interleavings on one device.", "anchors": ["torch_harmonics/disco/optimized/kernels_cuda/disco_cuda_fwd.cu", "torch_harmonics/disco/optimized/kernels_cuda/disco_cuda_bwd.cu", "torch_harmonics/disco/optimized/kernels_cuda/disco_cuda.cuh"]}
{"id": "C60", "title": "The CUDA attention forward kernels compute the softmax averages under every thread schedule", "statement": "A launch of the CUDA forward attention in the downsampling direction (special kernel for any block width and vector length, or generic kernel) ends, without data-race dependence, deadlock, divergent warp exchange or out-of-bounds access, with the same tensor as the CPU and reference operators, for every interleaving of threads, warps and blocks, every order of the output rows and whatever registers, shared memory and the uninitialised output held before. Which inputs can be launched is decided.", "quantifier": "every schedule, grid, neighbourhood pattern, input, head and channel count and device limits", "why_tests_cant": "Schedules cannot be enumerated, and each channel count selects another kernel instance.", "anchors": ["torch_harmonics/attention/optimized/kernels_cuda/attention_cuda_fwd.cu", "torch_harmonics/attention/optimized/kernels_cuda/attention_cuda_utils.cuh"]}
{"id": "C61", "title": "The CUDA attention forward pass in the upsampling direction computes the softmax averages under every thread schedule", "statement": "The three launches of the CUDA forward attention when the output longitudes are a multiple of the input longitudes (maximum by atomics, accumulation by atomics, division) end, without data-race dependence, deadlock, divergent warp exchange or out-of-bounds access, with the same tensor as the CPU and reference operators, for every interleaving of threads and blocks of every launch; the first launch leaves the largest score, so no exponent is positive. Which inputs can be launched is decided.", "quantifier": "every schedule, grid, neighbourhood pattern, input, head and channel count and device limits", "why_tests_cant": "Schedules and orders of atomic updates cannot be enumerated.", "anchors": ["torch_harmonics/attention/optimized/kernels_cuda/attention_cuda_fwd_upsample.cu", "torch_harmonics/attention/optimized/kernels_cuda/attention_cuda_fwd.cu"]}
{"id": "C62", "title": "The CUDA attention backward pass in the upsampling direction computes the gradients under every thread schedule", "statement": "The four launches of the CUDA backward attention when the output longitudes are a multiple of the input longitudes end, under the same conditions, with the gradients of keys, values and queries of the CPU and reference operators, which are the directional derivatives of the forward pass. Which inputs can be launched is decided.", "quantifier": "every schedule, grid, neighbourhood pattern, input, output gradient, head and channel count and device limits", "why_tests_cant": "Schedules and orders of atomic updates cannot be enumerated.", "anchors": ["torch_harmonics/attention/optimized/kernels_cuda/attention_cuda_bwd_upsample.cu", "torch_harmonics/attention/optimized/kernels_cuda/attention_cuda_bwd.cu"]}
{"id": "C63", "title": "The CUDA attention backward kernels compute the gradients under every thread schedule", "statement": "A launch of the CUDA backward attention in the self and downsampling direction (special kernel for any block width and vector length, or generic kernel, compiled for an old or a new architecture) ends, without data-race dependence, deadlock, divergent warp exchange or out-of-bounds access, with the gradients of keys, values and queries of the CPU and reference operators, which are the directional derivatives of the forward pass - for every interleaving of threads, warps and blocks, every order of the atomic additions and of the output rows, and whatever registers and shared memory held before. Which inputs can be launched, and whether those are the inputs the forward pass accepts, is decided.", "quantifier": "every schedule, grid, neighbourhood pattern, input, output gradient, head and channel count and device limits", "why_tests_cant": "Schedules and orders of atomic updates cannot be enumerated, and each channel count selects another kernel instance.", "anchors": ["torch_harmonics/attention/optimized/kernels_cuda/attention_cuda_bwd.cu", "torch_harmonics/attention/optimized/kernels_cuda/attention_cuda_utils.cuh"]}
{"id": "C64", "title": "The helper kernels of the CUDA attention convert layouts, sort and split rows as required", "statement": "The layout conversions (B,C,H,W) <-> (B,H,W,C) on the GPU move every element to its place and write the whole uninitialised result, for every interleaving of threads and blocks and both tile shapes; they agree with the CPU operators and undo each other; which shapes can be launched is decided. The row sort is the one order of the output rows by decreasing length, so the attention kernels need no assumption about it. The split into long and short rows on the host and on the device agree on sorted rows and find exactly the rows at or above the threshold.", "quantifier": "every schedule, shape, tensor, row offsets, threshold function and device limits", "why_tests_cant": "Schedules cannot be enumerated, and tiles that are partly outside of the tensor, empty tensors and ties in the sort are easily missed.", "anchors": ["torch_harmonics/attention/optimized/kernels_cuda/attention_cuda_utils.cu", "torch_harmonics/attention/optimized/kernels_cuda/attention_cuda_utils.cuh"]}
{"id": "C65", "title": "Gradients of the spherical harmonic transforms, serial and distributed", "statement": "The gradient autograd computes for RealSHT, InverseRealSHT, RealVectorSHT and InverseRealVectorSHT is the adjoint of the transform: the derivative of any loss along any input perturbation equals the inner product of the perturbation with the returned gradient, whatever lmax, mmax, grid, normalisation and (even or odd) number of longitudes, including truncated, padded and zero-imaginary bins. On any admissible grid of ranks the backward pass of the distributed transforms leaves on every rank its block of that gradient.", "quantifier": "every size, grid, normalisation, leading shape, input, output gradient and rank grid", "why_tests_cant": "A finite-difference test samples one size; the factor of doubled bins and the Nyquist bin depend on the parity of nlon and on mmax.", "anchors": ["torch_harmonics/sht.py:RealSHT.forward", "torch_harmonics/sht.py:InverseRealSHT.forward", "torch_harmonics/sht.py:RealVectorSHT.forward", "torch_harmonics/sht.py:InverseRealVectorSHT.forward", "torch_harmonics/fft.py", "torch_harmonics/distributed/distributed_sht.py", "torch_harmonics/distributed/primitives.py"]}
{"id": "C66", "title": "Rescaling of the ring-attention state on the GPU", "statement": "When a ring step of the distributed attention raises the maximum score of an output point, the CUDA rescale kernels leave that point with the new maximum and with its sum (backward: both sums) and every accumulated channel multiplied by exp(old - new), 0 for a point that had no neighbour yet; every other point is untouched, every execution ends without a fault, and the result is that of the sequential state update. This holds when all threads of a point proceed together. It fails for blocks of several warps (more than 512 channels) and for warps whose threads drift apart: some executions store the new maximum and leave channels unscaled.", "quantifier": "every batch size, grid, channel count, list of long rows, state, new maxima and thread schedule", "why_tests_cant": "The failure needs one warp to finish before another has read the old maximum; a test sees whichever order the hardware happened to choose.", "anchors": ["torch_harmonics/attention/optimized/kernels_cuda/attention_cuda_fwd_ring.cu:s2_attn_fwd_ring_rescale_k", "torch_harmonics/attention/optimized/kernels_cuda/attention_cuda_bwd_ring.cu:s2_attn_bwd_ring_pass1_rescale_k", "torch_harmonics/attention/optimized/kernels_cuda/attention_cuda_fwd_ring_upsample.cu:s2_attn_fwd_ring_upsample_rescale_k"]}
{"id": "C67", "title": "Ring attention steps on the GPU in the upsampling direction", "statement": "For every chunk of keys and values going round the ring, the three launches of a forward step of the distributed attention in the upsampling direction leave, under every interleaving of threads and blocks and every order of atomic updates, each output point with the maximum, sum and accumulated channels that visiting its neighbours in the chunk one by one leaves; so does the whole sequence of steps. The launches of a backward step likewise leave the integrals and key sums, and the key and value gradients of the chunk, zero for rows of the halo without entries. No execution faults, deadlocks or reads outside an array.", "quantifier": "every schedule, batch size, chunk, halo, neighbourhood pattern, channel count, state and number of chunks", "why_tests_cant": "Schedules and orders of atomic updates cannot be enumerated; the halo rows and the wrap in longitude differ from rank to rank.", "anchors": ["torch_harmonics/attention/optimized/kernels_cuda/attention_cuda_fwd_ring_upsample.cu", "torch_harmonics/attention/optimized/kernels_cuda/attention_cuda_bwd_ring_upsample.cu", "torch_harmonics/distributed/distributed_attention.py"]}
{"id": "C68", "title": "Ring attention steps on the GPU in the self and downsampling direction", "statement": "For every chunk of keys and values going round the ring, the launches of a forward step of the distributed attention in the self and downsampling direction (three for the long rows, one for the short ones, special kernels for any block width and vector length) leave, under every interleaving of threads, warps and blocks, each output point with the maximum, sum and accumulated channels that visiting its neighbours in the chunk one by one leaves; so does a rank's whole forward pass, from empty buffers round the ring. The split into long and short rows and the pattern the constructor builds meet what the kernels need. With long rows this needs the threads of an output point in lockstep (C66); without, every schedule is right. No execution faults, deadlocks or reads outside an array.", "quantifier": "every schedule, batch size, chunk, halo, neighbourhood pattern, channel count up to 16384, state and number of chunks", "why_tests_cant": "Schedules cannot be enumerated; each channel count selects another kernel instance, and a chunk may hold all, some or none of a row's neighbours.", "anchors": ["torch_harmonics/attention/optimized/kernels_cuda/attention_cuda_fwd_ring.cu", "torch_harmonics/attention/optimized/kernels_cuda/attention_cuda_utils.cuh", "torch_harmonics/distributed/distributed_attention.py"]}
{"id": "C69", "title": "Key and value gradients of ring attention on the GPU in the self and downsampling direction", "statement": "For every chunk of keys and values going round the ring, the second backward pass of the distributed attention in the self and downsampling direction (one launch for the long rows, one for the short ones, special kernels for any block width and vector length, with and without the shared copy of the queries) adds to the gradient buffers of the chunk, under every interleaving of threads, warps and blocks and every order of atomic updates, exactly the contributions of the output points whose neighbours lie in the chunk. No execution faults, deadlocks or reads outside an array, provided the chunk has every row that the pattern leads to, as the halo of a rank always has. Called directly with a pattern that leads to a row outside the chunk, where pass 1 and the generic kernel skip the entry, this kernel reads and adds outside the arrays.", "quantifier": "every schedule, batch size, chunk, halo, neighbourhood pattern, channel count up to 8192, saved state and content of the gradient buffers", "why_tests_cant": "Schedules and orders of atomic updates cannot be enumerated; each channel count selects another kernel instance, and tests only use halos that cover the pattern.", "anchors": ["torch_harmonics/attention/optimized/kernels_cuda/attention_cuda_bwd_ring.cu:s2_attn_bwd_ring_pass2_special_k", "torch_harmonics/attention/optimized/kernels_cuda/attention_cuda_bwd_ring.cu:s2_attn_bwd_ring_step_pass2_dispatch", "torch_harmonics/distributed/distributed_attention.py"]}
{"id": "C70", "title": "First backward pass of ring attention on the GPU in the self and downsampling direction", "statement": "For every chunk of keys and values going round the ring, the launches of the first backward pass of the distributed attention in the self and downsampling direction (three for the long rows, one for the short ones, special kernels for any block width and vector length) leave, under every interleaving of threads, warps and blocks and every order of atomic updates, each output point with the maximum, sum, integral and the two accumulated key vectors that visiting its neighbours in the chunk one by one leaves; so does a rank's whole first pass, from empty buffers round the ring. With long rows this needs the threads of an output point in lockstep (C66); without, every schedule is right. No execution faults, deadlocks or reads outside an array.", "quantifier": "every schedule, batch size, chunk, halo, neighbourhood pattern, channel count up to 8192, state and number of chunks", "why_tests_cant": "Schedules and orders of atomic updates cannot be enumerated; each channel count selects another kernel instance, and a chunk may hold all, some or none of a row's neighbours.", "anchors": ["torch_harmonics/attention/optimized/kernels_cuda/attention_cuda_bwd_ring.cu:s2_attn_bwd_ring_pass1_special_k", "torch_harmonics/attention/optimized/kernels_cuda/attention_cuda_bwd_ring.cu:s2_attn_bwd_ring_step_pass1_dispatch", "torch_harmonics/distributed/distributed_attention.py"]}
{"id": "C71", "title": "A rank's whole GPU attention equals the serial one in the self and downsampling direction", "statement": "On every rank of a grid, the forward launches of distributed attention over all chunks of the ring, started on empty buffers, end under every interleaving with y_acc / alpha_sum equal to the rank's block of the serial attention output. After the launches of both backward passes the gradient of the queries is the rank's block of the serial gradient, and the key and value gradients, added up over the chunks, summed over the azimuth group, cut to the own columns and with the halo rows sent back to their owners, are the rank's blocks of the serial gradients. With long rows this needs the threads of an output point in lockstep (C66); the launches have to be possible on the device.", "quantifier": "every schedule, grid of ranks, batch size, number of heads, channel count, neighbourhood pattern and input", "why_tests_cant": "Schedules cannot be enumerated and tests compare a few grids with a tolerance; the ring, the launches, the normalisation and the exchange are only tested together on few shapes.", "anchors": ["torch_harmonics/distributed/distributed_attention.py:_RingNeighborhoodAttentionFn", "torch_harmonics/attention/optimized/kernels_cuda/attention_cuda_fwd_ring.cu", "torch_harmonics/attention/optimized/kernels_cuda/attention_cuda_bwd_ring.cu"]}
{"id": "C72", "title": "A rank's whole GPU attention equals the serial one in the upsampling direction", "statement": "On every rank of a grid, the forward launches of distributed attention in the upsampling direction over all chunks of the ring (maxima, rescaling, accumulation for each chunk), started on empty buffers, end under every interleaving and every order of atomic updates with y_acc / alpha_sum equal to the rank's block of the serial attention output. After the launches of both backward passes, which use the maxima and sums the forward pass saved, the gradient of the queries is the rank's block of the serial gradient, and the key and value gradients added up over the chunks are what the exchange (sum over the azimuth group, own columns, halo rows sent back) turns into the rank's blocks of the serial gradients. The rescaling needs the threads of a warp in lockstep; the launches have to be possible on the device.", "quantifier": "every schedule, grid of ranks, batch size, number of heads, channel count, neighbourhood pattern and input", "why_tests_cant": "Schedules and orders of atomic updates cannot be enumerated and tests compare a few grids with a tolerance; an output point collects its neighbours from several chunks, in an order no test controls.", "anchors": ["torch_harmonics/distributed/distributed_attention.py:_RingNeighborhoodAttentionUpsampleFn", "torch_harmonics/attention/optimized/kernels_cuda/attention_cuda_fwd_ring_upsample.cu", "torch_harmonics/attention/optimized/kernels_cuda/attention_cuda_bwd_ring_upsample.cu"]}
{"id": "C73", "title": "Two-dimensional FFT wrappers invert each other and keep the right frequencies", "statement": "InverseRealFFT2 applied to the result of RealFFT2 gives back every real field when all latitude frequencies are kept (lmax omitted, 0 or nlat) and the field has no longitude frequency at or above mmax; with the default mmax that is every real field. For 2 <= lmax <= nlat and mmax <= nlon//2+1 the spectrum has lmax rows and mmax columns, and its rows hold the orthonormal two-dimensional Fourier coefficients of the lowest non-negative and then the lowest negative latitude frequencies.", "quantifier": "every nlat, nlon, lmax, mmax and real field", "why_tests_cant": "Tests compare few sizes; the slices at the ends (lmax of 0 or 1, odd lmax, one latitude) and the placing of negative frequencies differ from size to size.", "anchors": ["torch_harmonics/examples/models/_layers.py:RealFFT2", "torch_harmonics/examples/models/_layers.py:InverseRealFFT2"]}
{"id": "C74", "title": "Shapes and element types of the convolution and attention operators, also under autocast", "statement": "A DISCO convolution layer (fused, unfused, or packed kernel) and its transpose, given an input of the layer's type, or under autocast of any floating type except float64, raises no error and returns (batch, out_channels, nlat_out, nlon_out); the convolution's result has autocast's type, or the input's without autocast. The versions of the operators used for tracing promise the shape and type the real kernels return, and every backward pass returns gradients of the shapes of the inputs. The same holds for neighbourhood attention with any number of heads. Exceptions: on the CPU under autocast the fused convolution returns half precision where its tracing version promises the input's type; a half-precision input to a float32 layer works on the fused path only; and the output type under autocast depends on whether the layer has a bias.", "quantifier": "every layer size, grouping, kernel path, device, input and weight type, and autocast setting", "why_tests_cant": "The combinations of path, device, autocast, types and bias are many, and a wrong promise of a tracing version only shows once a model is compiled.", "anchors": ["torch_harmonics/disco/optimized/disco_optimized.py", "torch_harmonics/disco/convolution.py:DiscreteContinuousConvS2.forward", "torch_harmonics/disco/convolution.py:DiscreteContinuousConvTransposeS2.forward", "torch_harmonics/attention/optimized/attention_optimized.py"]}
{"id": "C75", "title": "Statistics, labels and items of the 2D3DS dataset", "statement": "compute_stats_s2 returns the mean and standard deviation over images and sphere (area weighted; for targets over the valid pixels), and nan exactly because of a target without a valid pixel; the statistics recorded by convert_dataset are those of the stored data; every label pixel gets the index of its class among the sorted distinct class names; the class histogram gives each class its share of the sphere; an item's target is unchanged except for invalid pixels and the rows cut off at the poles.", "quantifier": "every number, size and content of images, every label list, every cut", "why_tests_cant": "The statistics are recorded once into a file and then used by every training run; a wrong one only makes training worse.", "anchors": ["torch_harmonics/examples/stanford_2d3ds_dataset.py:convert_dataset", "torch_harmonics/examples/stanford_2d3ds_dataset.py:compute_stats_s2", "torch_harmonics/examples/stanford_2d3ds_dataset.py:_rgb_to_id", "torch_harmonics/examples/stanford_2d3ds_dataset.py:StanfordSegmentationDataset.__getitem__", "torch_harmonics/examples/stanford_2d3ds_dataset.py:StanfordDepthDataset.__getitem__"]}
{"id": "C76", "title": "Download and unpacking of the dataset archives", "statement": "A download that returns leaves a file with the known checksum whatever the server sent, and with an honest server exactly the server's file after any number of broken and resumed transfers; a broken transfer can always be resumed; download_dataset returns only with a completely unpacked archive; unpacking writes nothing outside local_dir.", "quantifier": "every file, every sequence of calls, servers and interruptions, every archive", "why_tests_cant": "Interruptions at every byte and hostile archives cannot be enumerated, and tests do not download.", "anchors": ["torch_harmonics/examples/stanford_2d3ds_dataset.py:_download_file", "torch_harmonics/examples/stanford_2d3ds_dataset.py:_verify_checksum", "torch_harmonics/examples/stanford_2d3ds_dataset.py:download_dataset", "torch_harmonics/examples/stanford_2d3ds_dataset.py:_check_tar_members", "torch_harmonics/examples/stanford_2d3ds_dataset.py:_extract_tar"]}
{"id": "C77", "title": "Initial conditions of the shallow-water solver and items of the PDE dataset", "statement": "An item of PdeDataset is an initial state and the state of the same run after nsteps solver steps, together the time dt, both on the grid and in units fixed by the constructor and shared by all items; the initial state that gave the units has mean 0 and variance 1 in every channel; samples exist for every draw of random numbers; the length is as documented. The Galewsky state has zero divergence, zonal vorticity without mean, solves the balance equation for a jet of at most 80 m/s, and without its bump starts with no tendency of geopotential and vorticity. The vorticity and divergence of the initial states have no mean, as those of any velocity field; with all random numbers zero the random state is at rest with the mean geopotential; dimensionless maps that state to 0.", "quantifier": "every grid, resolution, time step, number of steps, initial condition and draw of random numbers", "why_tests_cant": "The random numbers cannot be enumerated; a wrong mean or unit only makes training worse, and floating point hides a variance that is exactly zero.", "anchors": ["torch_harmonics/examples/pde_dataset.py:PdeDataset", "torch_harmonics/examples/shallow_water_equations.py:ShallowWaterSolver.random_initial_condition", "torch_harmonics/examples/shallow_water_equations.py:ShallowWaterSolver.galewsky_initial_condition", "torch_harmonics/examples/shallow_water_equations.py:ShallowWaterSolver.dimensionless"]}
{"id": "C78", "title": "The Mars elevation map: values, sizes and the cached download", "statement": "load_mola_elevation(nlat, nlon) returns an array of shape (nlat, nlon) with values in [0, 1], each the bilinear interpolant of the image at the centre of its pixel; asked for the image's own size it returns the image; turning the image upside down turns the result upside down, and turning it in longitude turns the result. Once a call has returned, later calls return the same image whatever the network does; a call that failed can be repeated.", "quantifier": "every image, every size, every sequence of calls and interruptions", "why_tests_cant": "Sizes and interruptions cannot be enumerated, and tests do not download.", "anchors": ["torch_harmonics/utils.py:load_mola_elevation"]}
{"id": "C79", "title": "Element types in the distributed attention and what its kernels read", "statement": "NeighborhoodAttentionS2 and its distributed version hand their GPU kernels arrays of the types the kernels read them as, with and without autocast, with and without query-key normalisation, with any scale, and after the layer was converted to another floating-point type; the distributed layer returns the element type of the serial one; each gradient has the type of its tensor; the backward pass runs in the autocast state of the forward pass.", "quantifier": "every element type of inputs, layer, scale and autocast, every type rms_norm may return, every number of elements", "why_tests_cant": "A read in a wrong type or just outside an array need not fail, and the combinations need several GPUs.", "anchors": ["torch_harmonics/distributed/distributed_attention.py:DistributedNeighborhoodAttentionS2.forward", "torch_harmonics/distributed/_amp_utils.py:_cast_to_autocast_dtype", "torch_harmonics/distributed/_amp_utils.py:_custom_setup_context", "torch_harmonics/attention/attention.py:NeighborhoodAttentionS2.forward", "torch_harmonics/attention/optimized/kernels_cuda/attention_cuda_fwd_ring.cu"]}
{"id": "C80", "title": "Memory layouts: strides, conversions and ownership", "statement": "A kernel that checks is_contiguous and then counts through a pointer either raises or reads every element of the tensor where it lies; after contiguous() it never raises. to_nhwc and to_nchw return, for a tensor of any strides and on both paths, a contiguous tensor with the same elements in the other order and in storage of its own, so that writing into the result changes no other tensor; they are inverse to each other, and so are their gradients, for gradients of any strides; they raise unless the tensor has four dimensions. The strides cannot tell the layouts apart exactly if C = 1 or H W = 1.", "quantifier": "every shape, including empty ones and dimensions of size 1, all strides and offsets, every memory", "why_tests_cant": "The layouts differ from each other only for particular shapes and strides; a view that aliases its source shows only when someone writes into it.", "anchors": ["torch_harmonics/attention/_layout.py:to_nhwc", "torch_harmonics/attention/_layout.py:to_nchw", "torch_harmonics/attention/_layout.py:_permuted_copy", "torch_harmonics/utils.py:ensure_contiguous"]}
{"id": "C81", "title": "Moving and converting layers", "statement": "Moving a DISCO convolution or a harmonic transform between devices, and converting it to types that hold its precomputed values, does not change what it computes; an input on another device is refused; the flag that admits the tensor-core kernels is that of the layer's device after any sequence of moves; after any sequence of float() and double() the optimized and the reference path multiply a single- or half-precision input with the same filter; a conversion to a narrower type and back gives the layer back.", "quantifier": "every sequence of moves and conversions, every filter, every input type", "why_tests_cant": "Sequences of conversions cannot be enumerated, and a filter rounded to half precision only makes results slightly wrong.", "anchors": ["torch_harmonics/disco/convolution.py:DiscreteContinuousConvS2._apply", "torch_harmonics/disco/convolution.py:DiscreteContinuousConvS2.forward", "torch_harmonics/disco/kernels_torch/disco_torch.py:_disco_s2_contraction_torch", "torch_harmonics/sht.py:RealSHT.forward"]}
{"id": "C82", "title": "Moving and converting a random field sampler", "statement": "A GaussianRandomFieldS2 draws fields on the device and in the type last asked for, after any sequence of to, cuda, cpu, half, float and double on it or on a module that contains it; noise given by the caller is accepted exactly on that device; a sampler constructed with a type draws in that type.", "quantifier": "every sequence of moves and conversions, every device and type", "why_tests_cant": "Sequences of moves cannot be enumerated; the tests only call to, on one device.", "anchors": ["torch_harmonics/random_fields.py:GaussianRandomFieldS2.__init__", "torch_harmonics/random_fields.py:GaussianRandomFieldS2.forward", "torch_harmonics/random_fields.py:GaussianRandomFieldS2.to", "torch_harmonics/random_fields.py:GaussianRandomFieldS2.cuda"]}
{"id": "C83", "title": "Where plot_sphere draws a field", "statement": "plot_sphere draws the entry (k, j) of a field at the point of the sphere at which it is on its grid: with the coordinates it makes itself, and with latitudes pi/2 - theta passed by the caller.", "quantifier": "every grid, every resolution, every entry", "why_tests_cant": "A row drawn a fraction of a cell too far north is not seen in a picture, and tests do not look at pictures.", "anchors": ["torch_harmonics/plotting.py:plot_sphere"]}
