# Generates /verif/properties.jsonl
import json
P=[]
def p(title,statement,quant,why,anchors):
    P.append(dict(id="C%02d"%(len(P)+1),title=title,statement=statement,quantifier=quant,why_tests_cant=why,anchors=anchors))
D="torch_harmonics/distributed/"
p("Balanced split shapes",
  "compute_split_shapes(size, n) either raises (exactly when size < n) or returns n positive chunk sizes that add up to size, differ pairwise by at most one and never increase along the list.",
  "every size and every number of chunks","Only finitely many (size, n) pairs can be tried; uneven remainders are the failure mode.",[D+"primitives.py:compute_split_shapes"])
p("Split and gather are inverse",
  "Splitting a tensor along any dimension over the ranks of a group and gathering the shards along that dimension returns the original tensor on every rank; each shard is the contiguous slice that the split shapes announce, and no collective is posted with mismatched sizes.",
  "every tensor rank, shape, dimension and group size","Unit tests use a few fixed shapes and at most a handful of ranks.",[D+"primitives.py:split_tensor_along_dim",D+"primitives.py:_split",D+"primitives.py:_gather"])
p("Distributed transpose moves the sharded dimension",
  "If a tensor is sharded along dim1 with the announced split sizes, distributed_transpose yields on every rank exactly the balanced shard of the same global tensor along dim0 with dim1 complete; transposing back restores the original shards. Send and receive buffers always have matching shapes.",
  "every tensor, pair of distinct dimensions and group size","The all-to-all with uneven chunk sizes has unboundedly many layouts.",[D+"primitives.py:_transpose",D+"primitives.py:distributed_transpose_azimuth"])
p("Transpose backward is the adjoint of forward",
  "The gradient computed by the backward pass of the distributed transpose is the adjoint of the forward map with respect to the sum over ranks of elementwise products, whenever dim1 was sharded by the balanced split.",
  "every input, every output gradient, every shape and group size","A gradient check samples a few inputs and ranks; adjointness is a statement about all of them.",[D+"primitives.py:distributed_transpose_azimuth",D+"primitives.py:distributed_transpose_polar"])
p("Leading-dimension padding is invisible",
  "flatten_and_pad_leading_dims followed by unpad_and_unflatten_leading_dims returns the input unchanged; the padded leading size is at least the requested minimum and padded rows are zero.",
  "every leading shape (including none) and every minimum size","Unbounded family of shapes, the no-padding and the padding branch both matter.",[D+"primitives.py:flatten_and_pad_leading_dims",D+"primitives.py:unpad_and_unflatten_leading_dims"])
p("Reduce-scatter equals all-reduce then split",
  "Reduce-scatter along a dimension returns on rank r the r-th balanced chunk of the elementwise sum over ranks, for both the even fast path and the padded uneven path.",
  "every family of equally shaped tensors, dimension and group size","The uneven path is exercised only when the size is not divisible by the group size.",[D+"primitives.py:_reduce_scatter",D+"primitives.py:reduce_from_scatter_to_polar_region"])
p("Autograd pairs of the collectives are adjoint",
  "For copy, reduce, scatter, gather, reduce-scatter and gather-from-copy, forward and backward satisfy the adjoint relation with respect to the documented inner products (replicated tensors counted once where the primitive's contract says the gradient is replicated).",
  "every input family, every gradient family, every group size","Numerical gradient checks only sample.",[D+"primitives.py:_CopyToPolarRegion",D+"primitives.py:_ScatterToPolarRegion",D+"primitives.py:_GatherFromPolarRegion",D+"primitives.py:_ReduceFromPolarRegion"])
p("Halo exchange delivers the neighbouring rows",
  "polar_halo_exchange with halo width r gives each rank the rows [lo-r, hi+r) of the global tensor, with zeros outside the globe; its backward is the adjoint. Requires 1 <= r <= every local height.",
  "every global height, partition into shards and halo width","Halo widths and uneven shards form an unbounded family; boundary ranks behave differently.",[D+"primitives.py:polar_halo_exchange"])
p("Ring schedule visits every chunk exactly once",
  "Sending to the previous and receiving from the next neighbour s times leaves rank r with the chunk of rank (r+s) mod n; over n steps each rank sees each chunk exactly once.",
  "every group size, rank and number of steps","Schedules are unbounded in the number of ranks.",[D+"primitives.py:get_group_neighbors",D+"distributed_attention.py:_ring_kv"])
p("Process-group registry state machine",
  "After any sequence of init and finalize calls: is_initialized is true iff the last effective call was init; after finalize the group sizes are 1 and ranks 0; querying sizes and ranks before init returns 1 and 0; finalize when uninitialised is a no-op.",
  "every finite history of init/finalize/query calls","Histories are unbounded.",[D+"utils.py:init",D+"utils.py:finalize",D+"utils.py:polar_group_size"])
p("Distributed scalar SHT equals serial SHT",
  "Running DistributedRealSHT on the shards of x over any polar x azimuth process grid yields on each rank exactly the corresponding shard of RealSHT(x), without any shape mismatch or split error, whenever the grid has at least as many rows, columns, degrees and orders as ranks.",
  "every input, batch shape, grid, truncation, normalisation and process grid","Process grids and uneven shards are unbounded; CI runs a few.",[D+"distributed_sht.py:DistributedRealSHT.forward","torch_harmonics/sht.py:RealSHT.forward"])
p("Distributed inverse SHT equals serial inverse SHT",
  "Same as the previous property for DistributedInverseRealSHT: shards of coefficients are mapped to shards of InverseRealSHT of the global coefficients.",
  "every coefficient tensor, batch shape, grid, truncation and process grid","See above.",[D+"distributed_sht.py:DistributedInverseRealSHT.forward","torch_harmonics/sht.py:InverseRealSHT.forward"])
p("Distributed vector SHT equals serial vector SHT",
  "DistributedRealVectorSHT and DistributedInverseRealVectorSHT map shards to the shards of the serial vector transforms.",
  "every input, batch shape, truncation and process grid","See above.",[D+"distributed_sht.py:DistributedRealVectorSHT",D+"distributed_sht.py:DistributedInverseRealVectorSHT"])
p("Distributed quadrature equals serial quadrature",
  "DistributedQuadratureS2 applied to the shards returns on every rank the value QuadratureS2 returns for the global field, for the grids both accept.",
  "every field, grid size and process grid","Unbounded process grids.",[D+"distributed_quadrature.py:DistributedQuadratureS2","torch_harmonics/quadrature.py:QuadratureS2"])
p("Distributed resampling equals serial resampling",
  "DistributedResampleS2 maps shards of the input to shards of ResampleS2 of the global input, including the pole-expansion rows.",
  "every input, pair of grids and process grid with at least as many channels as ranks per axis","Unbounded process grids; pole means combine all azimuth ranks.",[D+"distributed_resample.py:DistributedResampleS2"])
p("Distributed spectral convolution equals serial",
  "With weights that are the degree-wise shards of a global weight, DistributedSpectralConvS2 maps shards to shards of SpectralConvS2.",
  "every input, weight and process grid","Unbounded process grids.",[D+"distributed_spectral_convolution.py:DistributedSpectralConvS2"])
p("Distributed DISCO convolution equals serial",
  "The distributed DISCO convolution (filter split by input latitude, contraction on local latitudes, reduce-scatter, grouped weight contraction) maps shards to shards of the serial DISCO convolution, for both the standard and the reordered all-to-all schedule, whenever every rank's latitude slice of the filter holds at least two entries and does not make rows of different kernels adjacent; bases whose functions share one support always qualify. Whether the default basis always qualifies is decided (it does not).",
  "every input, filter tensor, weight, channel/group structure and process grid","Unbounded process grids and group boundaries inside channel shards.",[D+"distributed_convolution.py:DistributedDiscreteContinuousConvS2",D+"kernels/distributed_convolution_kernels.py"])
p("Distributed neighbourhood attention equals serial",
  "Ring attention with polar halo computes on each rank the shard of the serial neighbourhood attention output: every neighbour of every output point is visited exactly once, with the right key, value and quadrature weight, in whatever order the ring delivers chunks.",
  "every q, k, v, neighbourhood structure and process grid with shards at least as tall as the halo","Ring orders, halo widths and process grids are unbounded.",[D+"distributed_attention.py:DistributedNeighborhoodAttentionS2"])
p("Truncation is triangular, bounded and safe",
  "truncate_sht returns lmax = mmax; never more than a requested positive value, never more than floor(nlon/2)+1 when mmax is not requested, and by default, on the grids the transforms accept, never a degree whose square the latitude rule of that grid cannot integrate exactly. Whether this also holds on trapezoidal grids, whether the Nyquist order can be included and what a request of 0 does is decided.",
  "every nlat, nlon, request and grid","Integer inequality over all sizes.",["torch_harmonics/truncation.py:truncate_sht"])
p("Real FFT wrappers",
  "rfft(x, nmodes) returns exactly nmodes coefficients: the first ones of the discrete Fourier transform, followed by zeros. irfft ignores the imaginary part of the zero and Nyquist bins, returns n real samples, and inverts rfft whenever at least floor(n/2)+1 modes are kept; rfft inverts irfft on Hermitian-consistent spectra of fewer modes.",
  "every signal length, parity and number of modes","Infinite family of lengths; parity dependent branches.",["torch_harmonics/fft.py:rfft","torch_harmonics/fft.py:irfft"])
p("Clenshaw-Curtis exactness",
  "For every n >= 2 the nodes and weights returned by clenshaw_curtiss_weights integrate every polynomial of degree at most n-1 exactly over [a,b].",
  "every n, interval and polynomial","A test can only check a few n up to rounding.",["torch_harmonics/quadrature.py:clenshaw_curtiss_weights"])
p("Latitude weights: total, symmetry, positivity",
  "The latitude weights of the supported grids sum to the interval length (2 for the sphere, hence 4*pi after the longitude factor, 1 when normalised), are symmetric under reversal (so flipping nodes but not weights is harmless), and are positive. Whether the Lobatto weights, the result of finitely many Newton sweeps, also sum exactly is decided (they do not).",
  "every n and interval","Unbounded n.",["torch_harmonics/quadrature.py:trapezoidal_weights","torch_harmonics/quadrature.py:QuadratureS2","torch_harmonics/quadrature.py:precompute_latitudes"])
p("Lobatto nodes and weights",
  "lobatto_weights keeps both endpoints exactly, returns antisymmetric nodes and symmetric positive weights whatever the number of Newton iterations; at a fixed point of the iteration the interior nodes are zeros of the derivative of the Legendre polynomial.",
  "every n, tolerance and iteration limit","Holds for all iteration counts, which tests cannot enumerate.",["torch_harmonics/quadrature.py:lobatto_weights"])
p("Associated Legendre recurrence",
  "legpoly returns, for all degrees l and orders m, the orthonormalised associated Legendre function (closed form from the Rodrigues formula); it vanishes for m > l, has parity (-1)^(l+m), and functions of equal order are orthonormal on [-1,1] up to the stated factor.",
  "every degree, order, argument and normalisation","Infinitely many degrees, orders and arguments.",["torch_harmonics/legendre.py:legpoly"])
p("SHT inverts inverse SHT",
  "For every set of coefficients within the default truncation, RealSHT(InverseRealSHT(c)) = c (up to the imaginary part of m = 0 coefficients, which carries no information), for all normalisations and both phase conventions, on the equiangular grid, and on any grid whose latitude rule is exact to degree 2*lmax-2.",
  "every coefficient array, grid size and normalisation","Exact identity over all inputs and sizes.",["torch_harmonics/sht.py:RealSHT","torch_harmonics/sht.py:InverseRealSHT"])
p("Inverse SHT after SHT is a projection",
  "InverseRealSHT(RealSHT(.)) is idempotent and reproduces every band-limited field exactly.",
  "every field and grid size","Exact identity over all inputs and sizes.",["torch_harmonics/sht.py:RealSHT","torch_harmonics/sht.py:InverseRealSHT"])
p("Vector SHT inverts inverse vector SHT",
  "For every pair of spheroidal/toroidal coefficient arrays (degree >= 1) within a truncation the quadrature integrates exactly, RealVectorSHT(InverseRealVectorSHT(c)) = c.",
  "every coefficient array, size and normalisation","Exact identity over all inputs and sizes.",["torch_harmonics/sht.py:RealVectorSHT","torch_harmonics/sht.py:InverseRealVectorSHT","torch_harmonics/legendre.py:_precompute_dlegpoly"])
p("Normalisation and phase conventions cancel",
  "InverseRealSHT(RealSHT(x)) does not depend on the norm or csphase option; coefficients under different options differ by the documented factor of the degree or the sign (-1)^m.",
  "every input and option pair","All inputs.",["torch_harmonics/legendre.py:legpoly","torch_harmonics/sht.py"])
p("SHT is linear and equivariant under longitude rotation",
  "RealSHT is linear, and rotating the field by j grid points in longitude multiplies the coefficient of order m by exp(-2 pi i m j / nlon).",
  "every field, scalar, rotation and size","All inputs and rotations.",["torch_harmonics/sht.py:RealSHT.forward"])
p("Resampling indices and weights are safe; maximum principle",
  "For every pair of grids (with at least two input longitudes) the precomputed latitude and longitude indices are in range, interpolation weights lie in [0,1], hence bilinear output values lie between the minimum and maximum of the input, and constants are preserved.",
  "every pair of grid sizes and types, every field","All sizes and fields.",["torch_harmonics/resample.py:ResampleS2"])
p("Resampling reproduces coincident nodes",
  "Where an output node coincides with an input node the bilinear output equals the input there; on identical grids the module is the identity.",
  "every pair of grids and every field","All sizes and fields.",["torch_harmonics/resample.py:ResampleS2"])
p("Slerp mode",
  "In bilinear-spherical mode the combination reproduces the end points at weights 0 and 1 and falls back to linear interpolation exactly where the code's guard says so; the documented fallback (only when the angle is near 0) is compared with the actual one-sided guard.",
  "every pair of values and weight","All reals.",["torch_harmonics/resample.py:ResampleS2._upscale_latitudes"])
p("Spectral convolution acts degree-wise and respects groups",
  "SpectralConvS2 output coefficients of degree l and group g depend only on input coefficients of degree l in channels of group g; the operator commutes with longitude rotations; incompatible group counts are rejected.",
  "every input, weight and group count","Non-interference over all inputs.",["torch_harmonics/spectral_convolution.py:SpectralConvS2"])
p("DISCO kernels agree with the reference",
  "The optimised CPU forward and backward DISCO kernels, run on the CSR data produced by the preprocessing step, return the same result as the reference torch implementation and as the mathematical definition, for every sparse filter that meets the stated row condition.",
  "every sparse filter, input and grid sizes","All sparsity patterns.",["torch_harmonics/disco/kernels_torch/disco_torch.py","torch_harmonics/disco/optimized/kernels_cpu/disco_cpu_fwd.h","torch_harmonics/disco/optimized/kernels_cpu/disco_cpu_bwd.h"])
p("psi preprocessing preserves entries",
  "preprocess_psi returns a permutation of the input entries, stably sorted by kernel index, with row offsets that partition the entries into runs of equal kernel and row; pack_psi_dense keeps each entry exactly once. Stated with the exact condition under which runs do not mix kernels.",
  "every list of entries","All sparsity patterns.",["torch_harmonics/disco/optimized/disco_helpers.h:preprocess_psi_kernel","torch_harmonics/disco/optimized/disco_helpers.h:pack_psi_dense_kernel"])
p("DISCO transpose is the adjoint of DISCO forward",
  "The transposed contraction is the adjoint of the forward contraction with the same filter, so the backward pass used by autograd is the true gradient.",
  "every filter, input, output gradient and grid sizes","All inputs.",["torch_harmonics/disco/optimized/disco_optimized.py","torch_harmonics/disco/kernels_torch/disco_torch.py"])
p("DISCO convolution is equivariant under longitude rotation",
  "Rotating the input by pscale*j longitude points rotates the output by j points, where pscale = nlon_in/nlon_out.",
  "every filter, input and rotation","All inputs and rotations.",["torch_harmonics/disco/kernels_torch/disco_torch.py"])
p("Filter normalisation post-conditions",
  "Each normalisation mode of the DISCO filter delivers what it promises (nodal: unit weighted sum of each basis function at each output latitude up to the eps guard; mean: after averaging; none: unchanged up to quadrature weighting), and never changes the sparsity pattern.",
  "every filter tensor, quadrature and grid size","All inputs.",["torch_harmonics/disco/convolution.py:_normalize_convolution_tensor_s2"])
p("Filter basis indexing",
  "kernel_size equals the number of distinct basis functions enumerated, index maps are bijections onto [0, kernel_size), hat functions are supported inside the cutoff, take values in [0,1] and form a partition of unity up to the outermost ring when the ring count is odd or there are several angles; whether they do for even counts without angles and whether get_filter_basis's documented size is right is decided.",
  "every kernel shape and evaluation point","All shapes and points.",["torch_harmonics/filter_basis.py"])
p("Online softmax equals weighted softmax",
  "The single-pass running-maximum accumulation used by the attention kernels equals the quadrature-weighted softmax average of the values over the neighbourhood, independently of the order of the neighbours, of how they are chunked, and of the starting value of the running maximum.",
  "every non-empty neighbourhood, order, chunking, queries, keys, values and positive weights","All orders and lengths.",["torch_harmonics/attention/kernels_torch/attention_torch.py","torch_harmonics/attention/optimized/kernels_cpu/attention_cpu_fwd.h"])
p("Attention output is a convex combination",
  "Every attention output channel lies between the minimum and maximum of the value channel over the neighbourhood; constant values are reproduced exactly.",
  "every q, k, v and neighbourhood","All inputs.",["torch_harmonics/attention/attention.py"])
p("Attention gradients are the true derivatives",
  "The hand-written gradients with respect to values, keys and queries are the partial derivatives of the forward map paired with the output gradient.",
  "every q, k, v, output gradient and neighbourhood","Gradient checks only sample.",["torch_harmonics/attention/kernels_torch/attention_torch.py","torch_harmonics/attention/optimized/kernels_cpu/attention_cpu_bwd.h"])
p("Head folding and layout changes are lossless",
  "Folding heads into the batch dimension and unfolding, and permuting NCHW to NHWC and back, are inverse bijections that keep each element with its batch, head, channel and position.",
  "every shape and number of heads","All shapes.",["torch_harmonics/attention/_layout.py","torch_harmonics/attention/optimized/kernels_cpu/attention_cpu_fwd.cpp"])
p("Attention kernels index the right neighbour",
  "The incremental wrap-around index used by the CPU kernel equals (wi + pscale*wo) mod nlon_in; the blocked kernel equals the reference; the upsampling (scatter) kernel equals attention over the transposed neighbourhood relation.",
  "every grid size, block width, neighbourhood structure","All sizes.",["torch_harmonics/attention/optimized/kernels_cpu/attention_cpu_fwd.h","torch_harmonics/attention/kernels_torch/attention_torch.py"])
p("Attention is equivariant under longitude rotation",
  "Rotating q by j points and k, v by pscale*j points rotates the attention output by j points.",
  "every input, neighbourhood and rotation","All inputs and rotations.",["torch_harmonics/attention/kernels_torch/attention_torch.py"])
p("Cache transparency",
  "Any sequence of calls to a function wrapped with the copying lru_cache returns what direct calls would return, even if the caller mutates returned objects in between, whatever gets evicted; the cache never holds more than maxsize entries. Without copying, mutation leaks.",
  "every call/mutation history, every cache size","Histories are unbounded.",["torch_harmonics/cache.py:lru_cache"])
p("Gaussian random field spectrum",
  "The random field generator rejects alpha <= 1 without sigma, never excites the constant mode nor orders above the degree, is linear in the noise, and has the documented decaying spectrum in the normalisation its transforms use. Whether the noise is isotropic and whether the spectrum is the documented one for norm='backward' as orthonormal coefficients is decided.",
  "every size and parameter","All sizes.",["torch_harmonics/random_fields.py:GaussianRandomFieldS2"])
p("Loss quadrature weights and masking",
  "Normalised quadrature weights sum to one over the grid; spherical L1/L2/squared losses are non-negative and vanish exactly on equal fields where the weights are positive; masked integration equals integration restricted to the mask.",
  "every field, mask and grid size","All inputs.",["torch_harmonics/examples/losses.py"])
p("Segmentation metrics",
  "tp+fp+fn+tn equals the total weight for every class; IoU is in [0,1] and is unaffected by ignored pixels; whether accuracy is unaffected by ignored pixels is decided.",
  "every prediction, target, weight and class count","All inputs.",["torch_harmonics/examples/metrics.py"])
p("Spectral solvers: Laplacian inverse, conservation and history slots",
  "invlap inverts lap on all degrees >= 1; the shallow-water time step keeps the global means of all prognostic fields constant over any number of steps; the cyclic history slots always hold the last three tendencies, so that from the third step on the scheme is third-order Adams-Bashforth; what the first two steps compute is stated exactly.",
  "every state, parameter and number of steps","Step counts are unbounded.",["torch_harmonics/examples/pde_sphere.py","torch_harmonics/examples/shallow_water_equations.py:ShallowWaterSolver.timestep"])
p("The filter samples the basis functions within the cutoff",
  "Constructing a DISCO layer yields entries exactly for those (basis function, output latitude, input point) whose great-circle distance is at most 1.001*theta_cutoff and where the basis function is supported, each valued at the true distance and bearing, sorted and in range, so that the kernels' requirements hold.",
  "every grid, cutoff, shape and each basis of the library","A continuum of cutoffs and unbounded grids.",["torch_harmonics/disco/convolution.py:_precompute_convolution_tensor_s2","torch_harmonics/disco/convolution.py:DiscreteContinuousConvS2.__init__"])
p("Neighbourhood attention attends to exactly the points within the cutoff",
  "The neighbours of every output point are exactly the input points within 1.001*theta_cutoff great-circle distance, each once, both when down- and when upsampling; the softmax weight of each is its quadrature weight. Whether every output point has a neighbour is decided.",
  "every pair of grids and cutoff","A continuum of cutoffs and unbounded grids.",["torch_harmonics/attention/attention.py:NeighborhoodAttentionS2.__init__","torch_harmonics/disco/convolution.py:_precompute_convolution_tensor_s2"])
p("Segmentation losses",
  "DiceLossS2, CrossEntropyLossS2 and FocalLossS2 are batch means of integrals over the sphere of the documented scores of the class probabilities; they are defined for exactly the labels that are classes or ignored, lie in the documented ranges, do not depend on the predictions at ignored pixels, on adding a constant to the logits of a pixel, or on a rotation about the axis. Whether ignored pixels change the value otherwise is decided.",
  "every prediction, target, class weight, smoothing, ignored label and grid size","All inputs.",["torch_harmonics/examples/losses.py:DiceLossS2","torch_harmonics/examples/losses.py:CrossEntropyLossS2","torch_harmonics/examples/losses.py:FocalLossS2"])
p("Losses on gradients",
  "W11LossS2 and NormalLossS2 differentiate the trigonometric interpolants of rows and columns; along rows this is the exact longitude derivative of band-limited fields. W11LossS2 is the mean over sphere or mask of the absolute gradient differences, a pseudo-metric blind to offsets; NormalLossS2 is the mean cosine distance of the surface normals, between 0 and 2 and zero exactly where W11LossS2 is; both are invariant under rotation about the axis. Whether the latitude derivative matches the grid, whether masked-out pixels count and whether the documented L1 term is present is decided.",
  "every field, mask and grid size","All inputs.",["torch_harmonics/examples/losses.py:W11LossS2","torch_harmonics/examples/losses.py:NormalLossS2"])
p("Gradients of distributed attention",
  "On any grid of ranks whose shards are at least as tall as the neighbourhoods reach, the backward pass of the ring attention (saved softmax statistics, two ring passes, all-reduce over the azimuth group, halo exchange backward) leaves on every rank its block of the serial gradients of keys, values and queries; these are the directional derivatives of the distributed forward pass with inner products summed over all ranks.",
  "every grid of ranks, neighbourhood pattern, input, head and channel count, both directions","The gradient of one shard depends on all ranks; rank grids and patterns are unbounded.",["torch_harmonics/distributed/distributed_attention.py:_RingNeighborhoodAttentionFn.backward","torch_harmonics/distributed/distributed_attention.py:_RingNeighborhoodAttentionUpsampleFn.backward","torch_harmonics/distributed/primitives.py:_PolarHaloExchangeFn.backward"])
p("Gradients of the distributed DISCO convolutions",
  "On any grid of ranks meeting the conditions of the forward theorem, the backward passes of DistributedDiscreteContinuousConvS2 (both schedules) and of its transpose leave on every rank its block of the serial layer's input gradient, and the ranks' weight and bias gradients add up to the serial ones; these are the derivatives of the distributed forward pass with inner products summed over all ranks.",
  "every grid of ranks, layer, group count, input and output gradient","The gradient of one shard depends on all ranks; rank grids are unbounded, and the reordered schedule splits groups over ranks in ways that depend on all sizes.",["torch_harmonics/distributed/distributed_convolution.py:DistributedDiscreteContinuousConvS2.forward","torch_harmonics/distributed/distributed_convolution.py:DistributedDiscreteContinuousConvTransposeS2.forward","torch_harmonics/distributed/kernels/distributed_convolution_kernels.py","torch_harmonics/distributed/primitives.py"])
p("Example networks commute with rotations about the axis",
  "In evaluation mode the spherical Fourier neural operator, local spherical neural operator, spherical transformer, spherical U-Net and spherical Segformer commute with every rotation about the polar axis by k/n of a turn, n dividing the longitudes of all internal grids, provided no parameter depends on the longitude; which embeddings and norms break this is decided.",
  "every configuration, parameter value, batch, image and rotation","Depths, sizes and parameters are unbounded; a test samples one random network.",["torch_harmonics/examples/models/sfno.py","torch_harmonics/examples/models/lsno.py","torch_harmonics/examples/models/s2transformer.py","torch_harmonics/examples/models/s2unet.py","torch_harmonics/examples/models/s2segformer.py","torch_harmonics/examples/models/_layers.py"])
p("Example networks accept their configurations and keep grids apart",
  "The constructors succeed on every documented configuration; the built network accepts every batch of images of the configured size and channels and returns the configured number of output channels on the image grid; every layer is applied to samples on the grid (sizes and latitude type) it was built for, and only samples on one grid are added or concatenated. Where grid types are mixed is decided.",
  "every configuration, parameter value and batch","Configurations are unbounded and a wrong latitude type raises no error.",["torch_harmonics/examples/models/sfno.py","torch_harmonics/examples/models/lsno.py","torch_harmonics/examples/models/s2transformer.py","torch_harmonics/examples/models/s2unet.py","torch_harmonics/examples/models/s2segformer.py","torch_harmonics/examples/models/_layers.py"])
p("The CUDA DISCO kernels compute the CPU kernels' sums under every thread schedule",
  "A launch of the CUDA forward or backward DISCO contraction ends, without data-race dependence, deadlock or out-of-bounds access, with the same tensor as the CPU kernel and the defining sum, for every interleaving of threads and blocks and whatever registers and shared memory held before. Which inputs can be launched at all, and which orders of the filter entries the kernels tolerate, is decided; the library's filters have a tolerated order.",
  "every schedule, grid, filter, input and device limits","Schedules cannot be enumerated; a test sees a few interleavings on one device.",["torch_harmonics/disco/optimized/kernels_cuda/disco_cuda_fwd.cu","torch_harmonics/disco/optimized/kernels_cuda/disco_cuda_bwd.cu","torch_harmonics/disco/optimized/kernels_cuda/disco_cuda.cuh"])
p("The CUDA attention forward kernels compute the softmax averages under every thread schedule",
  "A launch of the CUDA forward attention in the downsampling direction (special kernel for any block width and vector length, or generic kernel) ends, without data-race dependence, deadlock, divergent warp exchange or out-of-bounds access, with the same tensor as the CPU and reference operators, for every interleaving of threads, warps and blocks, every order of the output rows and whatever registers, shared memory and the uninitialised output held before. Which inputs can be launched is decided.",
  "every schedule, grid, neighbourhood pattern, input, head and channel count and device limits","Schedules cannot be enumerated, and each channel count selects another kernel instance.",["torch_harmonics/attention/optimized/kernels_cuda/attention_cuda_fwd.cu","torch_harmonics/attention/optimized/kernels_cuda/attention_cuda_utils.cuh"])
p("The CUDA attention forward pass in the upsampling direction computes the softmax averages under every thread schedule",
  "The three launches of the CUDA forward attention when the output longitudes are a multiple of the input longitudes (maximum by atomics, accumulation by atomics, division) end, without data-race dependence, deadlock, divergent warp exchange or out-of-bounds access, with the same tensor as the CPU and reference operators, for every interleaving of threads and blocks of every launch; the first launch leaves the largest score, so no exponent is positive. Which inputs can be launched is decided.",
  "every schedule, grid, neighbourhood pattern, input, head and channel count and device limits","Schedules and orders of atomic updates cannot be enumerated.",["torch_harmonics/attention/optimized/kernels_cuda/attention_cuda_fwd_upsample.cu","torch_harmonics/attention/optimized/kernels_cuda/attention_cuda_fwd.cu"])
p("The CUDA attention backward pass in the upsampling direction computes the gradients under every thread schedule",
  "The four launches of the CUDA backward attention when the output longitudes are a multiple of the input longitudes end, under the same conditions, with the gradients of keys, values and queries of the CPU and reference operators, which are the directional derivatives of the forward pass. Which inputs can be launched is decided.",
  "every schedule, grid, neighbourhood pattern, input, output gradient, head and channel count and device limits","Schedules and orders of atomic updates cannot be enumerated.",["torch_harmonics/attention/optimized/kernels_cuda/attention_cuda_bwd_upsample.cu","torch_harmonics/attention/optimized/kernels_cuda/attention_cuda_bwd.cu"])
p("The CUDA attention backward kernels compute the gradients under every thread schedule",
  "A launch of the CUDA backward attention in the self and downsampling direction (special kernel for any block width and vector length, or generic kernel, compiled for an old or a new architecture) ends, without data-race dependence, deadlock, divergent warp exchange or out-of-bounds access, with the gradients of keys, values and queries of the CPU and reference operators, which are the directional derivatives of the forward pass - for every interleaving of threads, warps and blocks, every order of the atomic additions and of the output rows, and whatever registers and shared memory held before. Which inputs can be launched, and whether those are the inputs the forward pass accepts, is decided.",
  "every schedule, grid, neighbourhood pattern, input, output gradient, head and channel count and device limits","Schedules and orders of atomic updates cannot be enumerated, and each channel count selects another kernel instance.",["torch_harmonics/attention/optimized/kernels_cuda/attention_cuda_bwd.cu","torch_harmonics/attention/optimized/kernels_cuda/attention_cuda_utils.cuh"])
p("The helper kernels of the CUDA attention convert layouts, sort and split rows as required",
  "The layout conversions (B,C,H,W) <-> (B,H,W,C) on the GPU move every element to its place and write the whole uninitialised result, for every interleaving of threads and blocks and both tile shapes; they agree with the CPU operators and undo each other; which shapes can be launched is decided. The row sort is the one order of the output rows by decreasing length, so the attention kernels need no assumption about it. The split into long and short rows on the host and on the device agree on sorted rows and find exactly the rows at or above the threshold.",
  "every schedule, shape, tensor, row offsets, threshold function and device limits","Schedules cannot be enumerated, and tiles that are partly outside of the tensor, empty tensors and ties in the sort are easily missed.",["torch_harmonics/attention/optimized/kernels_cuda/attention_cuda_utils.cu","torch_harmonics/attention/optimized/kernels_cuda/attention_cuda_utils.cuh"])
p("Gradients of the spherical harmonic transforms, serial and distributed",
  "The gradient autograd computes for RealSHT, InverseRealSHT, RealVectorSHT and InverseRealVectorSHT is the adjoint of the transform: the derivative of any loss along any input perturbation equals the inner product of the perturbation with the returned gradient, whatever lmax, mmax, grid, normalisation and (even or odd) number of longitudes, including truncated, padded and zero-imaginary bins. On any admissible grid of ranks the backward pass of the distributed transforms leaves on every rank its block of that gradient.",
  "every size, grid, normalisation, leading shape, input, output gradient and rank grid","A finite-difference test samples one size; the factor of doubled bins and the Nyquist bin depend on the parity of nlon and on mmax.",["torch_harmonics/sht.py:RealSHT.forward","torch_harmonics/sht.py:InverseRealSHT.forward","torch_harmonics/sht.py:RealVectorSHT.forward","torch_harmonics/sht.py:InverseRealVectorSHT.forward","torch_harmonics/fft.py","torch_harmonics/distributed/distributed_sht.py","torch_harmonics/distributed/primitives.py"])
p("Rescaling of the ring-attention state on the GPU",
  "When a ring step of the distributed attention raises the maximum score of an output point, the CUDA rescale kernels leave that point with the new maximum and with its sum (backward: both sums) and every accumulated channel multiplied by exp(old - new), 0 for a point that had no neighbour yet; every other point is untouched, every execution ends without a fault, and the result is that of the sequential state update. This holds when all threads of a point proceed together. It fails for blocks of several warps (more than 512 channels) and for warps whose threads drift apart: some executions store the new maximum and leave channels unscaled.",
  "every batch size, grid, channel count, list of long rows, state, new maxima and thread schedule","The failure needs one warp to finish before another has read the old maximum; a test sees whichever order the hardware happened to choose.",["torch_harmonics/attention/optimized/kernels_cuda/attention_cuda_fwd_ring.cu:s2_attn_fwd_ring_rescale_k","torch_harmonics/attention/optimized/kernels_cuda/attention_cuda_bwd_ring.cu:s2_attn_bwd_ring_pass1_rescale_k","torch_harmonics/attention/optimized/kernels_cuda/attention_cuda_fwd_ring_upsample.cu:s2_attn_fwd_ring_upsample_rescale_k"])
p("Ring attention steps on the GPU in the upsampling direction",
  "For every chunk of keys and values going round the ring, the three launches of a forward step of the distributed attention in the upsampling direction leave, under every interleaving of threads and blocks and every order of atomic updates, each output point with the maximum, sum and accumulated channels that visiting its neighbours in the chunk one by one leaves; so does the whole sequence of steps. The launches of a backward step likewise leave the integrals and key sums, and the key and value gradients of the chunk, zero for rows of the halo without entries. No execution faults, deadlocks or reads outside an array.",
  "every schedule, batch size, chunk, halo, neighbourhood pattern, channel count, state and number of chunks","Schedules and orders of atomic updates cannot be enumerated; the halo rows and the wrap in longitude differ from rank to rank.",["torch_harmonics/attention/optimized/kernels_cuda/attention_cuda_fwd_ring_upsample.cu","torch_harmonics/attention/optimized/kernels_cuda/attention_cuda_bwd_ring_upsample.cu","torch_harmonics/distributed/distributed_attention.py"])
p("Ring attention steps on the GPU in the self and downsampling direction",
  "For every chunk of keys and values going round the ring, the launches of a forward step of the distributed attention in the self and downsampling direction (three for the long rows, one for the short ones, special kernels for any block width and vector length) leave, under every interleaving of threads, warps and blocks, each output point with the maximum, sum and accumulated channels that visiting its neighbours in the chunk one by one leaves; so does a rank's whole forward pass, from empty buffers round the ring. The split into long and short rows and the pattern the constructor builds meet what the kernels need. With long rows this needs the threads of an output point in lockstep (C66); without, every schedule is right. No execution faults, deadlocks or reads outside an array.",
  "every schedule, batch size, chunk, halo, neighbourhood pattern, channel count up to 16384, state and number of chunks","Schedules cannot be enumerated; each channel count selects another kernel instance, and a chunk may hold all, some or none of a row's neighbours.",["torch_harmonics/attention/optimized/kernels_cuda/attention_cuda_fwd_ring.cu","torch_harmonics/attention/optimized/kernels_cuda/attention_cuda_utils.cuh","torch_harmonics/distributed/distributed_attention.py"])
p("Key and value gradients of ring attention on the GPU in the self and downsampling direction",
  "For every chunk of keys and values going round the ring, the second backward pass of the distributed attention in the self and downsampling direction (one launch for the long rows, one for the short ones, special kernels for any block width and vector length, with and without the shared copy of the queries) adds to the gradient buffers of the chunk, under every interleaving of threads, warps and blocks and every order of atomic updates, exactly the contributions of the output points whose neighbours lie in the chunk. No execution faults, deadlocks or reads outside an array, provided the chunk has every row that the pattern leads to, as the halo of a rank always has. Called directly with a pattern that leads to a row outside the chunk, where pass 1 and the generic kernel skip the entry, this kernel reads and adds outside the arrays.",
  "every schedule, batch size, chunk, halo, neighbourhood pattern, channel count up to 8192, saved state and content of the gradient buffers","Schedules and orders of atomic updates cannot be enumerated; each channel count selects another kernel instance, and tests only use halos that cover the pattern.",["torch_harmonics/attention/optimized/kernels_cuda/attention_cuda_bwd_ring.cu:s2_attn_bwd_ring_pass2_special_k","torch_harmonics/attention/optimized/kernels_cuda/attention_cuda_bwd_ring.cu:s2_attn_bwd_ring_step_pass2_dispatch","torch_harmonics/distributed/distributed_attention.py"])
p("First backward pass of ring attention on the GPU in the self and downsampling direction",
  "For every chunk of keys and values going round the ring, the launches of the first backward pass of the distributed attention in the self and downsampling direction (three for the long rows, one for the short ones, special kernels for any block width and vector length) leave, under every interleaving of threads, warps and blocks and every order of atomic updates, each output point with the maximum, sum, integral and the two accumulated key vectors that visiting its neighbours in the chunk one by one leaves; so does a rank's whole first pass, from empty buffers round the ring. With long rows this needs the threads of an output point in lockstep (C66); without, every schedule is right. No execution faults, deadlocks or reads outside an array.",
  "every schedule, batch size, chunk, halo, neighbourhood pattern, channel count up to 8192, state and number of chunks","Schedules and orders of atomic updates cannot be enumerated; each channel count selects another kernel instance, and a chunk may hold all, some or none of a row's neighbours.",["torch_harmonics/attention/optimized/kernels_cuda/attention_cuda_bwd_ring.cu:s2_attn_bwd_ring_pass1_special_k","torch_harmonics/attention/optimized/kernels_cuda/attention_cuda_bwd_ring.cu:s2_attn_bwd_ring_step_pass1_dispatch","torch_harmonics/distributed/distributed_attention.py"])
p("A rank's whole GPU attention equals the serial one in the self and downsampling direction",
  "On every rank of a grid, the forward launches of distributed attention over all chunks of the ring, started on empty buffers, end under every interleaving with y_acc / alpha_sum equal to the rank's block of the serial attention output. After the launches of both backward passes the gradient of the queries is the rank's block of the serial gradient, and the key and value gradients, added up over the chunks, summed over the azimuth group, cut to the own columns and with the halo rows sent back to their owners, are the rank's blocks of the serial gradients. With long rows this needs the threads of an output point in lockstep (C66); the launches have to be possible on the device.",
  "every schedule, grid of ranks, batch size, number of heads, channel count, neighbourhood pattern and input","Schedules cannot be enumerated and tests compare a few grids with a tolerance; the ring, the launches, the normalisation and the exchange are only tested together on few shapes.",["torch_harmonics/distributed/distributed_attention.py:_RingNeighborhoodAttentionFn","torch_harmonics/attention/optimized/kernels_cuda/attention_cuda_fwd_ring.cu","torch_harmonics/attention/optimized/kernels_cuda/attention_cuda_bwd_ring.cu"])
p("A rank's whole GPU attention equals the serial one in the upsampling direction",
  "On every rank of a grid, the forward launches of distributed attention in the upsampling direction over all chunks of the ring (maxima, rescaling, accumulation for each chunk), started on empty buffers, end under every interleaving and every order of atomic updates with y_acc / alpha_sum equal to the rank's block of the serial attention output. After the launches of both backward passes, which use the maxima and sums the forward pass saved, the gradient of the queries is the rank's block of the serial gradient, and the key and value gradients added up over the chunks are what the exchange (sum over the azimuth group, own columns, halo rows sent back) turns into the rank's blocks of the serial gradients. The rescaling needs the threads of a warp in lockstep; the launches have to be possible on the device.",
  "every schedule, grid of ranks, batch size, number of heads, channel count, neighbourhood pattern and input","Schedules and orders of atomic updates cannot be enumerated and tests compare a few grids with a tolerance; an output point collects its neighbours from several chunks, in an order no test controls.",["torch_harmonics/distributed/distributed_attention.py:_RingNeighborhoodAttentionUpsampleFn","torch_harmonics/attention/optimized/kernels_cuda/attention_cuda_fwd_ring_upsample.cu","torch_harmonics/attention/optimized/kernels_cuda/attention_cuda_bwd_ring_upsample.cu"])
p("Two-dimensional FFT wrappers invert each other and keep the right frequencies",
  "InverseRealFFT2 applied to the result of RealFFT2 gives back every real field when all latitude frequencies are kept (lmax omitted, 0 or nlat) and the field has no longitude frequency at or above mmax; with the default mmax that is every real field. For 2 <= lmax <= nlat and mmax <= nlon//2+1 the spectrum has lmax rows and mmax columns, and its rows hold the orthonormal two-dimensional Fourier coefficients of the lowest non-negative and then the lowest negative latitude frequencies.",
  "every nlat, nlon, lmax, mmax and real field","Tests compare few sizes; the slices at the ends (lmax of 0 or 1, odd lmax, one latitude) and the placing of negative frequencies differ from size to size.",["torch_harmonics/examples/models/_layers.py:RealFFT2","torch_harmonics/examples/models/_layers.py:InverseRealFFT2"])
p("Shapes and element types of the convolution and attention operators, also under autocast",
  "A DISCO convolution layer (fused, unfused, or packed kernel) and its transpose, given an input of the layer's type, or under autocast of any floating type except float64, raises no error and returns (batch, out_channels, nlat_out, nlon_out); the convolution's result has autocast's type, or the input's without autocast. The versions of the operators used for tracing promise the shape and type the real kernels return, and every backward pass returns gradients of the shapes of the inputs. The same holds for neighbourhood attention with any number of heads. Exceptions: on the CPU under autocast the fused convolution returns half precision where its tracing version promises the input's type; a half-precision input to a float32 layer works on the fused path only; and the output type under autocast depends on whether the layer has a bias.",
  "every layer size, grouping, kernel path, device, input and weight type, and autocast setting","The combinations of path, device, autocast, types and bias are many, and a wrong promise of a tracing version only shows once a model is compiled.",["torch_harmonics/disco/optimized/disco_optimized.py","torch_harmonics/disco/convolution.py:DiscreteContinuousConvS2.forward","torch_harmonics/disco/convolution.py:DiscreteContinuousConvTransposeS2.forward","torch_harmonics/attention/optimized/attention_optimized.py"])
S="torch_harmonics/examples/stanford_2d3ds_dataset.py:"
p("Statistics, labels and items of the 2D3DS dataset",
  "compute_stats_s2 returns the mean and standard deviation over images and sphere (area weighted; for targets over the valid pixels), and nan exactly because of a target without a valid pixel; the statistics recorded by convert_dataset are those of the stored data; every label pixel gets the index of its class among the sorted distinct class names; the class histogram gives each class its share of the sphere; an item's target is unchanged except for invalid pixels and the rows cut off at the poles.",
  "every number, size and content of images, every label list, every cut","The statistics are recorded once into a file and then used by every training run; a wrong one only makes training worse.",[S+"convert_dataset",S+"compute_stats_s2",S+"_rgb_to_id",S+"StanfordSegmentationDataset.__getitem__",S+"StanfordDepthDataset.__getitem__"])
p("Download and unpacking of the dataset archives",
  "A download that returns leaves a file with the known checksum whatever the server sent, and with an honest server exactly the server's file after any number of broken and resumed transfers; a broken transfer can always be resumed; download_dataset returns only with a completely unpacked archive; unpacking writes nothing outside local_dir.",
  "every file, every sequence of calls, servers and interruptions, every archive","Interruptions at every byte and hostile archives cannot be enumerated, and tests do not download.",[S+"_download_file",S+"_verify_checksum",S+"download_dataset",S+"_check_tar_members",S+"_extract_tar"])
p("Initial conditions of the shallow-water solver and items of the PDE dataset",
  "An item of PdeDataset is an initial state and the state of the same run after nsteps solver steps, together the time dt, both on the grid and in units fixed by the constructor and shared by all items; the initial state that gave the units has mean 0 and variance 1 in every channel; samples exist for every draw of random numbers; the length is as documented. The Galewsky state has zero divergence, zonal vorticity without mean, solves the balance equation for a jet of at most 80 m/s, and without its bump starts with no tendency of geopotential and vorticity. The vorticity and divergence of the initial states have no mean, as those of any velocity field; with all random numbers zero the random state is at rest with the mean geopotential; dimensionless maps that state to 0.",
  "every grid, resolution, time step, number of steps, initial condition and draw of random numbers","The random numbers cannot be enumerated; a wrong mean or unit only makes training worse, and floating point hides a variance that is exactly zero.",["torch_harmonics/examples/pde_dataset.py:PdeDataset","torch_harmonics/examples/shallow_water_equations.py:ShallowWaterSolver.random_initial_condition","torch_harmonics/examples/shallow_water_equations.py:ShallowWaterSolver.galewsky_initial_condition","torch_harmonics/examples/shallow_water_equations.py:ShallowWaterSolver.dimensionless"])
p("The Mars elevation map: values, sizes and the cached download",
  "load_mola_elevation(nlat, nlon) returns an array of shape (nlat, nlon) with values in [0, 1], each the bilinear interpolant of the image at the centre of its pixel; asked for the image's own size it returns the image; turning the image upside down turns the result upside down, and turning it in longitude turns the result. Once a call has returned, later calls return the same image whatever the network does; a call that failed can be repeated.",
  "every image, every size, every sequence of calls and interruptions","Sizes and interruptions cannot be enumerated, and tests do not download.",["torch_harmonics/utils.py:load_mola_elevation"])
p("Element types in the distributed attention and what its kernels read",
  "NeighborhoodAttentionS2 and its distributed version hand their GPU kernels arrays of the types the kernels read them as, with and without autocast, with and without query-key normalisation, with any scale, and after the layer was converted to another floating-point type; the distributed layer returns the element type of the serial one; each gradient has the type of its tensor; the backward pass runs in the autocast state of the forward pass.",
  "every element type of inputs, layer, scale and autocast, every type rms_norm may return, every number of elements","A read in a wrong type or just outside an array need not fail, and the combinations need several GPUs.",["torch_harmonics/distributed/distributed_attention.py:DistributedNeighborhoodAttentionS2.forward","torch_harmonics/distributed/_amp_utils.py:_cast_to_autocast_dtype","torch_harmonics/distributed/_amp_utils.py:_custom_setup_context","torch_harmonics/attention/attention.py:NeighborhoodAttentionS2.forward","torch_harmonics/attention/optimized/kernels_cuda/attention_cuda_fwd_ring.cu"])
p("Memory layouts: strides, conversions and ownership",
  "A kernel that checks is_contiguous and then counts through a pointer either raises or reads every element of the tensor where it lies; after contiguous() it never raises. to_nhwc and to_nchw return, for a tensor of any strides and on both paths, a contiguous tensor with the same elements in the other order and in storage of its own, so that writing into the result changes no other tensor; they are inverse to each other, and so are their gradients, for gradients of any strides; they raise unless the tensor has four dimensions. The strides cannot tell the layouts apart exactly if C = 1 or H W = 1.",
  "every shape, including empty ones and dimensions of size 1, all strides and offsets, every memory","The layouts differ from each other only for particular shapes and strides; a view that aliases its source shows only when someone writes into it.",["torch_harmonics/attention/_layout.py:to_nhwc","torch_harmonics/attention/_layout.py:to_nchw","torch_harmonics/attention/_layout.py:_permuted_copy","torch_harmonics/utils.py:ensure_contiguous"])
p("Moving and converting layers",
  "Moving a DISCO convolution or a harmonic transform between devices, and converting it to types that hold its precomputed values, does not change what it computes; an input on another device is refused; the flag that admits the tensor-core kernels is that of the layer's device after any sequence of moves; after any sequence of float() and double() the optimized and the reference path multiply a single- or half-precision input with the same filter; a conversion to a narrower type and back gives the layer back.",
  "every sequence of moves and conversions, every filter, every input type","Sequences of conversions cannot be enumerated, and a filter rounded to half precision only makes results slightly wrong.",["torch_harmonics/disco/convolution.py:DiscreteContinuousConvS2._apply","torch_harmonics/disco/convolution.py:DiscreteContinuousConvS2.forward","torch_harmonics/disco/kernels_torch/disco_torch.py:_disco_s2_contraction_torch","torch_harmonics/sht.py:RealSHT.forward"])
p("Moving and converting a random field sampler",
  "A GaussianRandomFieldS2 draws fields on the device and in the type last asked for, after any sequence of to, cuda, cpu, half, float and double on it or on a module that contains it; noise given by the caller is accepted exactly on that device; a sampler constructed with a type draws in that type.",
  "every sequence of moves and conversions, every device and type","Sequences of moves cannot be enumerated; the tests only call to, on one device.",["torch_harmonics/random_fields.py:GaussianRandomFieldS2.__init__","torch_harmonics/random_fields.py:GaussianRandomFieldS2.forward","torch_harmonics/random_fields.py:GaussianRandomFieldS2.to","torch_harmonics/random_fields.py:GaussianRandomFieldS2.cuda"])
p("Where plot_sphere draws a field",
  "plot_sphere draws the entry (k, j) of a field at the point of the sphere at which it is on its grid: with the coordinates it makes itself, and with latitudes pi/2 - theta passed by the caller.",
  "every grid, every resolution, every entry","A row drawn a fraction of a cell too far north is not seen in a picture, and tests do not look at pictures.",["torch_harmonics/plotting.py:plot_sphere"])
open("/verif/properties.jsonl","w").write("".join(json.dumps(x)+"\n" for x in P))
print(len(P))
