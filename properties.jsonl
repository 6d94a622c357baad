{"id": "C01", "title": "Work distribution is an exact, balanced, ordered partition", "statement": "Splitting N items over `size` processes gives each rank a contiguous index range; the ranges of ranks 0,1,2,... follow one another without gap or overlap and together are exactly [0,N); two ranks never differ by more than one item and lower ranks never hold fewer; a rank number outside the group gets an empty range.", "quantifier": "every N >= 0, every size >= 1, every rank", "why_tests_cant": "the number of processes and the array length are unbounded; tests run with 2 ranks on one array", "anchors": ["pyspod/utils/parallel.py:_blockdist"]}
{"id": "C02", "title": "Distributing an array loses, duplicates and moves nothing", "statement": "When an array is distributed over a communicator along an axis, entry [..,k,..] of the piece owned by rank r is entry [..,k+start_r,..] of the original; each entry of the original is on exactly one rank; putting the pieces back together along the axis in rank order gives the original array; without communicator the array is returned unchanged.", "quantifier": "every array of every shape, every axis, every number of ranks (also more ranks than entries)", "why_tests_cant": "all shapes x axes x communicator sizes", "anchors": ["pyspod/utils/parallel.py:distribute_data", "pyspod/utils/parallel.py:distribute_dimension", "pyspod/utils/parallel.py:distribute"]}
{"id": "C03", "title": "Data, weights and saved results are all cut along the same axis", "statement": "The axis chosen for the data is the first axis (time excluded) of maximal length; the axis the reader reports for the weights and the output files is the same axis, also when a trailing axis of length one was added for single-variable data; hence on every rank the i-th local weight belongs to the same spatial point and variable as the i-th local data column.", "quantifier": "every snapshot shape and number of variables, every number of ranks", "why_tests_cant": "argmax ties and trailing axes over all shapes", "anchors": ["pyspod/utils/parallel.py:distribute_data", "pyspod/utils/reader.py:reader_1stage.__init__", "pyspod/spod/base.py:Base._initialize"]}
{"id": "C04", "title": "Parallel .npy writing yields the serial file, for every write schedule", "statement": "After all ranks of a communicator have saved their pieces along an axis, the file holds exactly the header for the global shape followed by the C-ordered array obtained by concatenating the pieces along that axis in rank order, whatever was in the file before, in whatever order the individual elements of the ranks reach the file, and also when some ranks own an empty piece; in particular saving a distributed array gives the same file as a serial save.", "quantifier": "every communicator size, every shape/axis, every split into pieces, every interleaving of the element writes, every previous file content", "why_tests_cant": "interleavings and shapes are unbounded; the MPI test uses 2 ranks and one schedule", "anchors": ["pyspod/utils/parallel.py:npy_save"]}
{"id": "C05", "title": "Parallel .npy round trip with explicit counts", "statement": "Loading a file written by the parallel save, with each rank asking for the count it saved, returns to every rank exactly the piece it saved.", "quantifier": "every communicator size, shape, axis and split", "why_tests_cant": "unbounded sizes and splits", "anchors": ["pyspod/utils/parallel.py:npy_save", "pyspod/utils/parallel.py:npy_load"]}
{"id": "C06", "title": "Parallel .npy loading without counts does not distribute the array", "statement": "Loading with the default count is expected to hand out the whole array in balanced pieces. It does not: every rank receives at most one slice along the axis (rank r gets one slice iff N//size + N%size > r), so on a communicator of `size` ranks at most `size` slices are loaded, and the whole array is loaded only if it has fewer slices than ranks (or exactly one slice); never when N > size, nor when N = size > 1.", "quantifier": "every array length N and every communicator size", "why_tests_cant": "holds for all N and sizes; the tests always pass an explicit count", "anchors": ["pyspod/utils/parallel.py:npy_load"]}
{"id": "C07", "title": "Parallel mean and variance equal the global ones for every reduction order", "statement": "The parallel mean/variance returns the number of entries, the mean and the population variance of the union of all local arrays, for every way the MPI library may bracket the pairwise reduction.", "quantifier": "every list of non-empty local arrays, every binary reduction tree", "why_tests_cant": "MPI may use any reduction tree; a test sees one", "anchors": ["pyspod/utils/parallel.py:pvar"]}
{"id": "C08", "title": "An empty local piece makes the parallel variance undefined", "statement": "If any rank holds no entry (more ranks than entries along the distributed axis) the parallel mean and variance are NaN on every rank, so variance-normalised weights become NaN, whereas the serial run is fine; with at least as many entries as ranks along the axis no rank is empty.", "quantifier": "every distribution over every number of ranks, every reduction tree", "why_tests_cant": "needs communicator sizes larger than the array", "anchors": ["pyspod/utils/parallel.py:pvar", "pyspod/utils/weights.py:apply_normalization"]}
{"id": "C09", "title": "Sub-communicator grids are complete", "statement": "The two grid dimensions used to split a communicator multiply to its size, whatever admissible factorisation the MPI library returns, and the second is a multiple of 3, else of 4, else of 2 when the size is.", "quantifier": "every communicator size >= 1, every factorisation returned by MPI_Dims_create", "why_tests_cant": "all sizes", "anchors": ["pyspod/utils/parallel.py:create_subcomm"]}
{"id": "C10", "title": "Reading a list of in-memory datasets concatenates them in time", "statement": "Fitting on a list of datasets uses, on every rank, exactly the local spatial piece of the time-concatenation of the datasets, in order, with nothing lost or repeated, however the record is split into datasets; datasets whose spatial shapes differ are rejected.", "quantifier": "every list of datasets of equal spatial shape, every lengths split, every number of ranks", "why_tests_cant": "all ways of splitting a record into datasets", "anchors": ["pyspod/utils/reader.py:reader_1stage"]}
{"id": "C11", "title": "Single-dataset streaming delivers every snapshot once, in order, then stops", "statement": "For a single dataset the snapshot requested at time t is the local piece of row t for every t < nt, and a request at or beyond nt yields no data.", "quantifier": "every dataset and every t, every number of ranks", "why_tests_cant": "all t and nt", "anchors": ["pyspod/utils/reader.py:reader_1stage.get_data", "pyspod/utils/reader.py:reader_1stage.get_data_for_time"]}
{"id": "C12", "title": "Streaming over several datasets reads the wrong rows", "statement": "The snapshot at global time t should be row t of the concatenation. For t inside a dataset that starts at time s > 0 the reader instead returns row t (not row t-s) of that dataset, or raises when the dataset has no row t; hence a streaming fit on two or more non-empty datasets receives the rows of the first dataset followed by the rows of the second from the length of the first on, nothing of any further dataset, and never the complete record; it ends without an error.", "quantifier": "every list of datasets, every t", "why_tests_cant": "needs a characterisation over all splits", "anchors": ["pyspod/utils/reader.py:reader_1stage.get_data_for_time", "pyspod/spod/streaming.py:Streaming.fit"]}
{"id": "C13", "title": "Complex input loses its imaginary part", "statement": "The in-memory reader stores the record in a real buffer: whatever complex data are given, the values used by fit are their real parts; only real data are represented faithfully.", "quantifier": "every complex-valued record", "why_tests_cant": "over all inputs", "anchors": ["pyspod/utils/reader.py:reader_1stage.get_data_for_time", "pyspod/pod/base.py:Base._initialize"]}
{"id": "C14", "title": "Two-stage parallel reading equals direct slicing, for every message order", "statement": "For any time range, after the files were read by time ranges and redistributed by point-to-point messages, rank r holds exactly the requested time steps of the time-concatenated files restricted to its range of flattened spatial points, all variables in order, whichever number of ranks acts as reader and in whatever order messages arrive.", "quantifier": "every set of files, variables, time range, communicator size, number of readers, every delivery order", "why_tests_cant": "message schedules, file splits and process counts are unbounded", "anchors": ["pyspod/utils/reader.py:reader_2stage.get_data_for_time"]}
{"id": "C15", "title": "The chunked in-memory store tiles the record", "statement": "Reading the whole record in chunks and blocks produces time blocks whose [s,e) ranges follow one another from 0 to nt without gap or overlap, in increasing key order, each holding exactly the rows s..e of the local data.", "quantifier": "every nt, number of chunks >= 1 and blocks per chunk >= 1", "why_tests_cant": "all combinations", "anchors": ["pyspod/utils/reader.py:reader_2stage.get_data", "pyspod/utils/reader.py:reader_mat.get_data"]}
{"id": "C16", "title": "Label-based time selection picks exactly the requested rows", "statement": "Selecting by the first and last time label of the requested rows returns exactly those rows when the labels are distinct (in any order); when a boundary label also occurs outside the requested range the read raises; whatever the labels, a read that does not raise returns exactly the requested rows.", "quantifier": "every time axis and every non-empty row range", "why_tests_cant": "all time axes", "anchors": ["pyspod/utils/reader.py:reader_2stage.get_data_for_time"]}
{"id": "C17", "title": "Chunking can leave the last block empty", "statement": "fit takes the spatial size from the first row of the last block; that block is non-empty exactly when nchunks*nblocks <= nt, and otherwise fit fails; the number of chunks is chosen from the data size alone, so that with snapshots of 256 MB or more per process fit fails for every length of the record, and with snapshots of at most a third of that there is at least one chunk and, from three snapshots on, no empty block.", "quantifier": "every nt, nchunks, nblocks", "why_tests_cant": "depends on data volume far beyond test sizes", "anchors": ["pyspod/utils/reader.py:reader_2stage.__init__", "pyspod/utils/reader.py:reader_2stage.get_data", "pyspod/spod/base.py:Base.long_t_mean"]}
{"id": "C18", "title": "Padded redistribution always fails", "statement": "When the number of elements reaches the 32-bit limit and the MPI library is older than version 4, reading must still work; the padded path instead always raises (a timer variable is used before assignment), on every rank and for every input that takes it.", "quantifier": "every configuration on the padded path", "why_tests_cant": "needs > 2^31 elements", "anchors": ["pyspod/utils/reader.py:reader_2stage.get_data_for_time", "pyspod/utils/reader.py:reader_mat.get_data_for_time"]}
{"id": "C19", "title": "MATLAB reader: one step per file in sorted-name order", "statement": "The record read from a list of MATLAB files is the sequence of their contents in lexicographic order of the file names, whatever the order of the list, redistributed as in the two-stage reader.", "quantifier": "every list of files with distinct names, every time range, every communicator size", "why_tests_cant": "all orders, sizes", "anchors": ["pyspod/utils/reader.py:reader_mat"]}
{"id": "C20", "title": "Accepted overlap leaves a positive hop", "statement": "The number of overlapping snapshots is the smallest integer not below n_dft*overlap/100; construction is rejected exactly when it exceeds n_dft-1, so every accepted configuration advances by at least one snapshot per block.", "quantifier": "every n_dft and overlap percentage", "why_tests_cant": "all values", "anchors": ["pyspod/spod/base.py:Base.__init__"]}
{"id": "C21", "title": "Blocks tile the record: right count, right position, never out of range", "statement": "A fit that is accepted uses n_blocks >= 2 blocks; block i is exactly the n_dft consecutive snapshots starting at i*(n_dft-n_overlap), all inside the record; the clamp at the end of the record never takes effect; one more block would not fit; a record too short for two blocks, or n_dft < 4, is rejected.", "quantifier": "every nt, n_dft, n_overlap", "why_tests_cant": "all parameter triples", "anchors": ["pyspod/spod/base.py:Base._initialize", "pyspod/spod/standard.py:Standard._compute_blocks"]}
{"id": "C22", "title": "The long-time mean is the arithmetic mean of all snapshots", "statement": "Whatever the number of blocks and remainder used to accumulate it, and whether the record is one array or a chunked store, the long-time mean saved and subtracted by fit equals the sum over all nt snapshots divided by nt.", "quantifier": "every record, nt, n_blocks >= 1", "why_tests_cant": "all splits", "anchors": ["pyspod/spod/base.py:Base.long_t_mean"]}
{"id": "C23", "title": "Streaming saves a wrong long-time mean", "statement": "The long-time mean saved by the streaming fit should be the mean of the record; it is the first snapshot divided by nt, for every record.", "quantifier": "every record", "why_tests_cant": "over all records", "anchors": ["pyspod/spod/base.py:Base._initialize", "pyspod/spod/base.py:Base.long_t_mean", "pyspod/spod/streaming.py:Streaming.fit"]}
{"id": "C24", "title": "One-sided frequency axis matches the transform rows", "statement": "For real data without full spectrum the frequency axis has exactly as many entries as the one-sided transform has rows, entry k is k/(n_dft*dt), it is strictly increasing from 0 and never exceeds the Nyquist frequency 1/(2 dt), which it attains iff n_dft is even.", "quantifier": "every n_dft >= 1 and dt > 0", "why_tests_cant": "all sizes", "anchors": ["pyspod/spod/base.py:Base.get_freq_axis", "pyspod/spod/standard.py:Standard._compute_blocks"]}
{"id": "C25", "title": "Two-sided frequency axis of complex data is wrong for odd n_dft", "statement": "For complex data the axis should satisfy |f| <= 1/(2 dt). For even n_dft it does and equals the DFT frequencies (Nyquist taken positive); for every odd n_dft >= 3 the entry (n_dft+1)/2 exceeds the Nyquist frequency (it is off by exactly 1/dt) and all other entries are right.", "quantifier": "every n_dft and dt > 0", "why_tests_cant": "all sizes and parities", "anchors": ["pyspod/spod/base.py:Base.get_freq_axis"]}
{"id": "C26", "title": "Weights must match the data and default to one", "statement": "User weights are accepted iff their number of entries is nx*nv; without weights every entry is one; after acceptance the i-th flattened weight multiplies the i-th flattened data column.", "quantifier": "every weight array and data shape", "why_tests_cant": "all shapes", "anchors": ["pyspod/spod/base.py:Base.define_weights"]}
{"id": "C27", "title": "Variance normalisation modifies the caller's weights, so refitting differs", "statement": "A fit should leave the weights passed by the caller unchanged and fitting twice should give the same weights. With variance normalisation the caller's array is divided by the variance in place at every fit: after n fits it has been divided n times.", "quantifier": "every weights array, every data with variance different from 0 and 1, every number of fits", "why_tests_cant": "histories of fits", "anchors": ["pyspod/spod/base.py:Base.define_weights", "pyspod/utils/weights.py:apply_normalization"]}
{"id": "C28", "title": "The number of saved modes never exceeds the number of blocks, but is remembered", "statement": "After every fit the number of saved modes is at most the number of blocks of that fit and at most the number requested; across a sequence of fits on one object (or one parameter dictionary) it is the minimum over the whole history, so a later fit on a longer record can save fewer modes than requested and available.", "quantifier": "every request and every sequence of fits", "why_tests_cant": "histories of fits", "anchors": ["pyspod/spod/base.py:Base._initialize", "pyspod/spod/base.py:Base._store_and_save"]}
{"id": "C29", "title": "Result folders separate different spectral parameters", "statement": "Two runs with the same base folder write to the same result folder iff they have the same n_dft, overlap and number of blocks.", "quantifier": "every pair of parameter triples", "why_tests_cant": "all integers; string injectivity", "anchors": ["pyspod/spod/base.py:Base._initialize"]}
{"id": "C30", "title": "Only consistent storage options are accepted", "statement": "A fit that reaches mode saving has: not both storage schemes enabled; the per-mode scheme only with a communicator and only with file-based (flattened) data; the per-frequency scheme only with in-memory data.", "quantifier": "every combination of options and data source", "why_tests_cant": "exhaustive over option space, stated as implication", "anchors": ["pyspod/spod/base.py:Base.__init__", "pyspod/spod/base.py:Base._initialize", "pyspod/spod/standard.py:Standard._compute_standard_spod"]}
{"id": "C31", "title": "Blocks read from the chunked store are exact while old chunks are discarded", "statement": "Processing the blocks in order from the chunked store, with discarding of chunks no longer needed after every block, returns for every block exactly its n_dft rows, never raises, and never discards a chunk a later block needs.", "quantifier": "every tiling of the record into chunks, every block layout, the whole sequence of blocks", "why_tests_cant": "histories of reads and deletions", "anchors": ["pyspod/spod/standard.py:Standard._get_block"]}
{"id": "C32", "title": "Batch SPOD does not depend on the number of processes", "statement": "For every number of ranks (no rank holding exactly one space-variable entry) the eigenvalues and the mode files written are the same as in the serial run, in exact arithmetic.", "quantifier": "every record, shape, weights, parameters, number of ranks", "why_tests_cant": "all process counts and shapes", "anchors": ["pyspod/spod/standard.py:Standard.fit", "pyspod/spod/standard.py:Standard._compute_standard_spod"]}
{"id": "C33", "title": "Per-mode files are complete, written once, and correctly assembled", "statement": "With the per-mode storage scheme each (frequency, mode) file is written exactly once by exactly one rank, and its content is the concatenation in rank order of the local mode pieces: in-place removal of the padding never overwrites data still needed.", "quantifier": "every number of ranks, local sizes, frequencies and modes", "why_tests_cant": "all combinations of sizes; in-place moves", "anchors": ["pyspod/spod/standard.py:Standard._compute_standard_spod"]}
{"id": "C34", "title": "The SPOD matrix is Hermitian positive semidefinite, eigenvalues are real and non-negative", "statement": "For real non-negative weights the matrix whose eigenpairs are computed at each frequency is Hermitian and positive semidefinite, so each of its eigenvalues is a non-negative real.", "quantifier": "every record and weights", "why_tests_cant": "over all inputs", "anchors": ["pyspod/spod/standard.py:Standard._compute_standard_spod"]}
{"id": "C35", "title": "SPOD modes are orthonormal in the weighted inner product", "statement": "At each frequency, modes belonging to distinct positive eigenvalues are orthogonal and every mode with positive eigenvalue has unit norm in the weighted inner product; the check reported to the user therefore succeeds in exact arithmetic.", "quantifier": "every record, weights, every eigensolver returning unit eigenvectors", "why_tests_cant": "over all inputs and eigensolvers", "anchors": ["pyspod/spod/standard.py:Standard._compute_standard_spod", "pyspod/spod/utils.py:check_orthogonality"]}
{"id": "C36", "title": "Repeated eigenvalues may break orthogonality", "statement": "With the general (non-Hermitian) eigensolver that is used, orthonormality of modes sharing an eigenvalue is not implied by what the solver guarantees: there are admissible solver answers for which two saved modes are not orthogonal.", "quantifier": "exists an admissible solver answer", "why_tests_cant": "tests see one solver", "anchors": ["pyspod/spod/standard.py:Standard._compute_standard_spod"]}
{"id": "C37", "title": "Eigenvalues are sorted and modes follow them", "statement": "At every frequency the reported eigenvalues are non-increasing, are a rearrangement of the computed ones, and the k-th saved mode is built from the eigenvector of the k-th reported eigenvalue; truncation keeps the leading ones.", "quantifier": "every eigensolver output, every argsort tie-breaking", "why_tests_cant": "all permutations and ties", "anchors": ["pyspod/spod/standard.py:Standard._compute_standard_spod"]}
{"id": "C38", "title": "One-sided spectrum keeps the total energy for even n_dft only", "statement": "For real data and even n_dft the sum over frequencies of the (doubled) one-sided spectral energies equals the two-sided total, i.e. the windowed signal energy (Parseval). For odd n_dft the last one-sided frequency is not a Nyquist frequency but is not doubled, and with full spectrum of real data energy is counted twice, so the total is wrong unless those contributions vanish.", "quantifier": "every real block, every n_dft", "why_tests_cant": "all sizes and signals", "anchors": ["pyspod/spod/standard.py:Standard._compute_standard_spod", "pyspod/spod/base.py:Base.get_freq_axis"]}
{"id": "C39", "title": "Saved Fourier blocks reload to the same realizations", "statement": "For single-variable data, a fit with block saving followed by a fit that reuses them works with exactly the same Fourier realizations on every rank and for every number of ranks in both runs; different (block, frequency) pairs never share a file.", "quantifier": "every record, n_blocks, n_freq, numbers of ranks when saving and loading", "why_tests_cant": "all indices; file-name injectivity", "anchors": ["pyspod/spod/standard.py:Standard.fit", "pyspod/spod/base.py:Base._are_blocks_present"]}
{"id": "C40", "title": "Block reuse is only as good as file existence", "statement": "Reuse happens iff every expected block file exists. A missing file always forces recomputation. But existence is all that is checked: a crash after the last file was created and before its contents were written leaves a state that is accepted for reuse.", "quantifier": "every set of existing files; every crash point of the save sequence", "why_tests_cant": "crash points", "anchors": ["pyspod/spod/base.py:Base._are_blocks_present", "pyspod/spod/standard.py:Standard.fit", "pyspod/utils/parallel.py:npy_save"]}
{"id": "C41", "title": "Confidence bounds are stored under swapped names", "statement": "The upper confidence bound saved for each eigenvalue should not be below the lower one. For every confidence level above one half and every positive eigenvalue the value saved as upper is strictly below the value saved as lower.", "quantifier": "every eigenvalue, number of blocks, confidence level", "why_tests_cant": "over all levels, any increasing quantile function", "anchors": ["pyspod/spod/base.py:Base._initialize", "pyspod/spod/standard.py:Standard._compute_standard_spod", "pyspod/spod/base.py:Base._store_and_save"]}
{"id": "C42", "title": "A rank holding a single entry makes batch SPOD fail", "statement": "Batch SPOD should work for every number of ranks; a rank (or serial run) whose local data have exactly one space-variable entry fails with a shape error, and no other local size does.", "quantifier": "every local size, n_blocks >= 2", "why_tests_cant": "depends on process count", "anchors": ["pyspod/spod/standard.py:Standard._compute_standard_spod"]}
{"id": "C43", "title": "Streaming block schedule: exact law", "statement": "Streaming SPOD always sums windows of n_dft consecutive snapshots with the window and DFT phase starting at the first of them; slot j of n_par=ceil(n_dft/hop) parallel slots starts its c-th block at time c*(n_par*hop+1)+j*hop, for all time; at most one block completes per snapshot.", "quantifier": "every n_dft, hop, every time (unbounded stream)", "why_tests_cant": "unbounded streams", "anchors": ["pyspod/spod/streaming.py:Streaming.fit"]}
{"id": "C44", "title": "Streaming and batch SPOD use different blocks", "statement": "Streaming should process the same blocks as batch SPOD. It does only for the first n_par blocks; every later block is shifted by floor(k/n_par) snapshots relative to block k of the batch layout.", "quantifier": "every n_dft, hop, block number", "why_tests_cant": "unbounded streams", "anchors": ["pyspod/spod/streaming.py:Streaming.fit", "pyspod/spod/standard.py:Standard._compute_blocks"]}
{"id": "C45", "title": "Completed streaming transforms equal the windowed DFT of the block minus the running mean", "statement": "When a block completes, the vector used to update the basis equals the windowed DFT (scaled by the window gain over n_dft) of the block's snapshots minus the mean of all snapshots received so far (doubled at interior frequencies of real data; the configured mean_type is ignored).", "quantifier": "every stream, every completion", "why_tests_cant": "unbounded streams", "anchors": ["pyspod/spod/streaming.py:Streaming.fit"]}
{"id": "C46", "title": "Streaming basis update is the exact rank-one covariance update", "statement": "Before truncation, each update replaces U S^2 U^H by (m+1)/(m+2) U S^2 U^H + (m+1)/(m+2)^2 x x^H (m = number of blocks processed), provided the new vector is not in the span of the basis; hence with no truncation loss after N blocks block k carries weight (k+1)/((k+2)(N+2)).", "quantifier": "every basis, vector, block number, every SVD routine meeting the SVD equations", "why_tests_cant": "over all inputs and number of blocks", "anchors": ["pyspod/spod/streaming.py:Streaming.fit"]}
{"id": "C47", "title": "Streaming modes stay orthonormal", "statement": "If the basis is orthonormal before an update (on its non-zero part) it is after, so the modes finally saved are orthonormal in the weighted inner product (weights non-zero).", "quantifier": "every stream and SVD routine", "why_tests_cant": "unbounded streams", "anchors": ["pyspod/spod/streaming.py:Streaming.fit"]}
{"id": "C48", "title": "Streaming SPOD does not depend on the number of processes", "statement": "Every local update uses sums over all ranks, so the pieces of the basis held by the ranks are always the pieces of the basis of the serial run and singular values agree.", "quantifier": "every stream, number of ranks, every history", "why_tests_cant": "unbounded streams x ranks", "anchors": ["pyspod/spod/streaming.py:Streaming.fit"]}
{"id": "C49", "title": "Streaming with one saved mode or one local entry fails", "statement": "Streaming should accept every n_modes_save >= 1 and every local size; with n_modes_save = 1 the first basis update raises, and with a single local entry the end of the stream raises instead of ending the fit.", "quantifier": "every configuration with n_modes_save = 1 or local size 1", "why_tests_cant": "over all configurations", "anchors": ["pyspod/spod/streaming.py:Streaming.fit"]}
{"id": "C50", "title": "Oblique-projection coefficients are the weighted least-squares solution and reconstruct the span", "statement": "The coefficients make the residual orthogonal to all selected modes in the weighted inner product and minimise its weighted norm; all data whose fluctuation lies in the span of the modes are reconstructed exactly if and only if no non-zero singular value of the matrix of mode inner products is at or below the tolerance times the largest one.", "quantifier": "every modes, weights > 0, data", "why_tests_cant": "over all inputs", "anchors": ["pyspod/spod/utils.py:_oblique_projection", "pyspod/spod/utils.py:_compute_rec_op", "pyspod/spod/utils.py:compute_coeffs_op"]}
{"id": "C51", "title": "Coefficients and reconstructions do not depend on the number of processes", "statement": "Coefficients computed on any number of ranks equal the serial ones, and every entry of the reconstruction that a rank computes equals the serial entry of the same point and time (the file: C152).", "quantifier": "every data, number of ranks", "why_tests_cant": "all process counts", "anchors": ["pyspod/spod/utils.py:compute_coeffs_op", "pyspod/spod/utils.py:compute_reconstruction"]}
{"id": "C52", "title": "Convolution coefficients are wrong in parallel", "statement": "The convolution coefficients saved by a parallel run should equal the serial ones; only rank 0's partial sum is saved, so they agree iff the contributions of all other ranks cancel.", "quantifier": "every data and number of ranks", "why_tests_cant": "all process counts", "anchors": ["pyspod/spod/utils.py:compute_coeffs_conv"]}
{"id": "C53", "title": "Convolution stores its modes in scrambled layout", "statement": "The modes file written with convolution coefficients should hold mode m of frequency f at point x at [x,f,m]; it holds the entry at [x*n_freq+f] of the frequency-major array, which is the right one for all entries only if there is one frequency or one point.", "quantifier": "every number of points, frequencies, modes", "why_tests_cant": "all shapes", "anchors": ["pyspod/spod/utils.py:compute_coeffs_conv", "pyspod/spod/utils.py:_compute_rec_conv"]}
{"id": "C54", "title": "Edge correction of convolution coefficients is off by one", "statement": "Near both ends the window sum should run over exactly the window samples that overlap data; at the beginning it includes one padded sample too many and is skipped for two positions, at the end it drops one data sample.", "quantifier": "every nt, n_dft, position", "why_tests_cant": "all positions", "anchors": ["pyspod/spod/utils.py:compute_coeffs_conv"]}
{"id": "C55", "title": "Mode gathering order", "statement": "Column n_modes*k+m of the gathered mode matrix is mode m of the k-th requested frequency, for every list of requested frequencies, and no other column is touched.", "quantifier": "every frequency list and number of modes", "why_tests_cant": "all lists", "anchors": ["pyspod/spod/utils.py:_get_modes"]}
{"id": "C56", "title": "Frequency range selection", "statement": "With both period bounds the frequencies used run from the one nearest to 1/T_ub to the one nearest to 1/T_lb; without bounds all frequencies are used; a single bound is silently ignored; an explicit frequency list without both bounds raises, and so do swapped bounds.", "quantifier": "every frequency axis and bounds", "why_tests_cant": "decision table over all inputs", "anchors": ["pyspod/spod/utils.py:compute_coeffs_op", "pyspod/spod/utils.py:compute_coeffs_conv"]}
{"id": "C57", "title": "Time selection for reconstruction is valid", "statement": "Every accepted keyword selects strictly increasing in-range time indices with the documented stride starting at 0; the default selects three in-range indices and raises for a one-snapshot record; unknown keywords and other types are rejected.", "quantifier": "every nt >= 1 and selector", "why_tests_cant": "all nt", "anchors": ["pyspod/spod/utils.py:compute_reconstruction", "pyspod/pod/utils.py:compute_reconstruction"]}
{"id": "C58", "title": "Orthogonality check ignores the imaginary part", "statement": "The check should succeed only if the inner product is within tolerance; because complex numbers are compared lexicographically it succeeds for inner products with arbitrarily large imaginary part.", "quantifier": "every inner product value", "why_tests_cant": "over all values", "anchors": ["pyspod/spod/utils.py:check_orthogonality"]}
{"id": "C59", "title": "POD does not depend on the number of processes", "statement": "The snapshot correlation matrix, hence eigenvalues and saved modes, are the same for every number of ranks.", "quantifier": "every record, weights, number of ranks", "why_tests_cant": "all process counts", "anchors": ["pyspod/pod/standard.py:Standard.fit"]}
{"id": "C60", "title": "POD reconstruction is exact only for unit weights", "statement": "With unit weights, coefficients followed by reconstruction with all modes of non-zero energy return the data, and with fewer modes the best approximation. The coefficients ignore the weights: with a constant weight c the fluctuation comes back divided by c, so for c other than 1 the reconstruction is right only where the data do not vary.", "quantifier": "every data; exists a weight", "why_tests_cant": "over all inputs", "anchors": ["pyspod/pod/utils.py:compute_coeffs_op", "pyspod/pod/utils.py:compute_reconstruction"]}
{"id": "C61", "title": "POD accepts only single-variable data without variable axis, and needs n_modes_save", "statement": "POD fit should accept data with a variables axis and the default number of modes; it raises for every data with a variable axis, and for every data when n_modes_save is left at its default.", "quantifier": "every data shape", "why_tests_cant": "all shapes", "anchors": ["pyspod/pod/base.py:Base._initialize", "pyspod/pod/standard.py:Standard.fit"]}
{"id": "C62", "title": "POD modes are not sorted by energy", "statement": "The saved leading modes should be those of largest eigenvalue; they are the first ones in the order the solver returns, so for some admissible solver answers the most energetic mode is not saved.", "quantifier": "exists an admissible solver answer", "why_tests_cant": "tests see one solver", "anchors": ["pyspod/pod/standard.py:Standard.fit"]}
{"id": "C63", "title": "Nearest frequency", "statement": "The returned frequency is in the axis at the returned index, no other entry is closer to the request, and among equally close entries the first index is returned.", "quantifier": "every non-empty axis and request", "why_tests_cant": "all axes", "anchors": ["pyspod/utils/postproc.py:find_nearest_freq"]}
{"id": "C64", "title": "Nearest coordinates: right values, wrong indices", "statement": "Each returned coordinate is the nearest grid value along its axis. The returned index should be its position along that axis; the code returns the position along the mirrored axis, so on every 2-D grid it returns (0,0) whatever is requested; in d dimensions only the middle axis of an odd d can be right.", "quantifier": "every grid and request", "why_tests_cant": "all grids", "anchors": ["pyspod/utils/postproc.py:find_nearest_coords"]}
{"id": "C65", "title": "Mode files sort in frequency order and never collide", "statement": "Different frequencies (and modes) have different file names; for indices below 10^8 sorting names sorts indices, so stacking all mode files puts frequency f at position f and mode m at position m.", "quantifier": "every number of frequencies/modes below 10^8, every directory listing order", "why_tests_cant": "all indices; all listing orders", "anchors": ["pyspod/utils/postproc.py:get_all_modes", "pyspod/utils/postproc.py:get_modes_at_freq", "pyspod/spod/standard.py:Standard._compute_standard_spod"]}
{"id": "C66", "title": "Geographic weights vanish at the first longitude and are misplaced for several variables in 3-D", "statement": "Trapezoidal weights should be positive away from the poles and belong to their grid point. The 2-D weights are zero on the whole first longitude and positive at the others away from the poles; the 3-D weights have the right size but for two or more variables are stored variable-major while data are variable-minor, so the weight used for a point is that of another point. Grids with fewer than four points in the first direction are rejected.", "quantifier": "every grid size and number of variables", "why_tests_cant": "all sizes", "anchors": ["pyspod/utils/weights.py:geo_trapz_2D", "pyspod/utils/weights.py:geo_trapz_3D"]}
{"id": "C67", "title": "Variance normalisation of weights", "statement": "For every variable the normalised weight times the variance of that variable equals the original weight, other variables are untouched, and serial and parallel normalisation agree when no piece is empty and data have no NaN; other method names leave weights unchanged.", "quantifier": "every data, weights, number of variables, ranks", "why_tests_cant": "over all inputs", "anchors": ["pyspod/utils/weights.py:apply_normalization"]}
{"id": "C68", "title": "Error norms are norms of the difference", "statement": "The l1, l2, linf errors are non-negative, zero iff the arrays are equal, symmetric and satisfy the triangle inequality, but l2 is scaled so that a constant error c is reported as c/sqrt(n). The relative l1, l2 errors are non-negative and vanish only for equal arrays; the relative linf error is right for positive references and at most 0 for negative ones. The h1 error vanishes iff the spatial sum of the difference does not change in time, so it vanishes for a constant offset. Unknown norms are rejected.", "quantifier": "every pair/triple of arrays", "why_tests_cant": "over all inputs", "anchors": ["pyspod/utils/errors.py:compute_l_errors", "pyspod/utils/errors.py:compute_h_errors"]}
{"id": "C69", "title": "Configuration parsing", "statement": "Every first key of an item of the required and optional sections is returned with its last value, optional overriding required; missing required keys are not reported, and the further keys of an item are dropped.", "quantifier": "every configuration", "why_tests_cant": "over all configurations", "anchors": ["pyspod/utils/io.py:read_config", "pyspod/utils/io.py:_parse_yaml", "pyspod/utils/io.py:_check_keys"]}
{"id": "C70", "title": "File format dispatch", "statement": "The format is chosen by the given format or the extension, ignoring case; unsupported ones are rejected; every .npy file is rejected too (the loader is not defined in that module).", "quantifier": "every file name and format", "why_tests_cant": "all names", "anchors": ["pyspod/utils/io.py:read_data"]}
{"id": "C71", "title": "Scaling and descaling of coefficients are inverse", "statement": "De-normalising normalised data returns the data whenever no scale is zero; the local-max scale bounds all normalised entries by 1/10 and the global one by 1; a row that is identically zero has scale zero and is not recoverable under local scaling.", "quantifier": "every data matrix", "why_tests_cant": "over all inputs", "anchors": ["pyspod/emulation/base.py:Base.scaler", "pyspod/emulation/base.py:Base.scale_data", "pyspod/emulation/base.py:Base.descale_data"]}
{"id": "C72", "title": "Training sequences are in range and do not leak", "statement": "Every input window has n_seq_in consecutive samples, its target the n_seq_out samples starting fh after its last input; all indices are in range, targets never overlap inputs, consecutive windows advance by one; exactly one admissible window (the last) is left out.", "quantifier": "every nt, n_seq_in, n_seq_out, fh >= 1", "why_tests_cant": "all sizes", "anchors": ["pyspod/emulation/neural_nets.py:Neural_Nets.extract_sequences"]}
{"id": "C73", "title": "Inference covers the record or fails", "statement": "Inference returns the first n_seq_in samples followed by predictions, prediction block i depending only on the n_seq_in samples before it; it succeeds iff n_seq_out divides nt - n_seq_in (or nothing is to be predicted), otherwise it raises.", "quantifier": "every data, model, sizes", "why_tests_cant": "all sizes", "anchors": ["pyspod/emulation/neural_nets.py:Neural_Nets.model_inference"]}
{"id": "C74", "title": "Hamming window", "statement": "The window is symmetric, lies in [0.08,1], and its mean is 0.54-0.46/N for N >= 3 (0.08 for N = 2), so the window gain correction is finite and larger than 1.", "quantifier": "every N >= 2", "why_tests_cant": "all N", "anchors": ["pyspod/spod/utils.py:_hamming_window", "pyspod/spod/base.py:Base._initialize"]}
{"id": "C75", "title": "Plotting with a 180 degree shift: the caller's coordinates and where columns are drawn", "statement": "Plotting should not alter its inputs and should draw every column at its own longitude. With the shift option the caller's longitude array is changed in place and restored only when the call completes: after any history of calls it is lower by 180 times the number of shifted calls that raised. With an even number of evenly spaced longitudes stored latitude first every column is drawn at its own longitude; with an odd number every column is half a cell off; stored longitude first, the latitudes are rolled instead.", "quantifier": "every mode array, coordinate array, selection and history of calls", "why_tests_cant": "histories of calls, including failing ones", "anchors": ["pyspod/utils/postproc.py:plot_2d_modes_at_frequency", "pyspod/spod/base.py:Base.plot_2d_modes_at_frequency"]}
{"id": "C76", "title": "Energy spectrum drops the sine part", "statement": "The energy spectrum should contain the energy of every Fourier component; it uses only the real part of the transform, so every odd real signal has zero spectrum.", "quantifier": "every signal", "why_tests_cant": "over all signals", "anchors": ["pyspod/utils/postproc.py:compute_energy_spectrum"]}
{"id": "C77", "title": "Real or complex treatment is decided by the first snapshot only", "statement": "Whether the record is treated as real-valued (one-sided spectrum) depends only on the first snapshot of the first dataset: if all its entries are real the whole record is treated as real, whatever follows.", "quantifier": "every record", "why_tests_cant": "over all records", "anchors": ["pyspod/utils/reader.py:reader_1stage.__init__"]}
{"id": "C78", "title": "Streaming from files never ends", "statement": "A streaming fit ends when the reader runs out of data. The file readers never run out: a request at any time at or beyond the end of the record does not fail and does not report the end, it delivers a snapshot of zeros.", "quantifier": "every set of files, every time beyond the end, every number of ranks and message order", "why_tests_cant": "unbounded streams", "anchors": ["pyspod/utils/reader.py:reader_mat.get_data", "pyspod/utils/reader.py:reader_2stage.get_data", "pyspod/spod/streaming.py:Streaming.fit"]}
{"id": "C79", "title": "A file listed twice is rejected", "statement": "If the list of files contains the same non-empty file twice, reading raises instead of returning a record with repeated or missing snapshots.", "quantifier": "every list of files with a repetition, every time range", "why_tests_cant": "over all lists", "anchors": ["pyspod/utils/reader.py:reader_2stage.__init__", "pyspod/utils/reader.py:reader_2stage.get_data_for_time"]}
{"id": "C80", "title": "Weights passed as an array are silently ignored", "statement": "Weights given to the constructor directly as an array should be used or rejected. Only a dictionary is recognised: an array of any size is accepted and uniform weights are used instead.", "quantifier": "every array, every data shape", "why_tests_cant": "over all arrays", "anchors": ["pyspod/spod/base.py:Base.define_weights"]}
{"id": "C81", "title": "Weight normalisation depends on the layout and type of the weights array", "statement": "Every accepted weights array should be normalised the same way. Integer weights are truncated (unit weights become zero when all variances exceed one); weights of single-variable data without a variable axis are normalised only where their last index is zero; a last axis shorter than the number of variables raises.", "quantifier": "every weights array and record", "why_tests_cant": "over all arrays", "anchors": ["pyspod/utils/weights.py:apply_normalization"]}
{"id": "C82", "title": "File-based fits cannot normalise weights", "statement": "Variance normalisation of weights should be available for file-based data as for in-memory data; it raises for every file-based record.", "quantifier": "every file-based record", "why_tests_cant": "over all records", "anchors": ["pyspod/utils/weights.py:apply_normalization", "pyspod/spod/base.py:Base._initialize"]}
{"id": "C83", "title": "SPOD modes solve the weighted cross-spectral-density eigenproblem", "statement": "At every frequency each saved mode phi with its eigenvalue lambda (before one-sided doubling) satisfies sum_y S(x,y) w(y) phi(y) = lambda phi(x), where S is the average over blocks of q(x) conj(q(y)), the definition of SPOD.", "quantifier": "every record, weights >= 0, window, block layout, eigen-solver answer", "why_tests_cant": "over all data", "anchors": ["pyspod/spod/standard.py:Standard._compute_standard_spod"]}
{"id": "C84", "title": "Directory arguments of the coefficient and reconstruction methods are ignored", "statement": "The methods for coefficients and reconstruction of a fitted object accept directories; whatever is passed, they use the directory of the fit, so the results for two different arguments are the same, and reconstruction before coefficients raises. After a new fit the reconstruction is still the one of the earlier coefficients.", "quantifier": "every sequence of calls and arguments", "why_tests_cant": "histories of calls", "anchors": ["pyspod/spod/base.py:Base.compute_coeffs_op", "pyspod/spod/base.py:Base.compute_reconstruction"]}
{"id": "C85", "title": "Streaming saves square roots of eigenvalues of a weighted spectrum", "statement": "The values streaming SPOD saves as eigenvalues should be comparable with those of batch SPOD. They are square roots: while no more blocks than modes were processed, each saved mode is an eigenvector of the weighted cross-spectral matrix, with eigenvalue the square of the saved value; the squares add up to the weighted block energies; and the block weights add up to less than one.", "quantifier": "every stream, distribution over ranks, SVD routine, number of blocks", "why_tests_cant": "over all inputs and histories", "anchors": ["pyspod/spod/streaming.py:Streaming.fit"]}
{"id": "C86", "title": "Streaming yields NaN or raises when a block adds nothing new", "statement": "The streaming result should be finite for every stream. When the vector of a new block lies in the span of the basis the update divides by zero. A stream of equal snapshots gives, after exactly one block, zero eigenvalues and modes that are NaN everywhere, without an exception, and raises LinAlgError if a second block is complete. With n_modes_save at least the number n of entries, no stream has a finite result once n+1 blocks are complete: it has NaN at some frequency or raises, and it raises once n+2 blocks are complete. On every number of processes.", "quantifier": "every constant stream; every stream with n_modes_save >= number of entries; every length and SVD routine", "why_tests_cant": "over all inputs and histories", "anchors": ["pyspod/spod/streaming.py:Streaming.fit"]}
{"id": "C87", "title": "Directions below the pseudo-inverse tolerance vanish from the reconstruction", "statement": "Data in the span of the selected modes should be reconstructed. If a non-zero singular value of the matrix of mode inner products is at or below the tolerance times the largest one, some non-zero zero-mean data in the span of the modes are reconstructed as zero, without any message.", "quantifier": "every modes, weights, tolerance, number of ranks, record length >= 2", "why_tests_cant": "existence for every ill-conditioned set of modes", "anchors": ["pyspod/spod/utils.py:_oblique_projection", "pyspod/spod/utils.py:compute_reconstruction"]}
{"id": "C88", "title": "Convolution coefficients need all frequencies, two modes and two points", "statement": "Convolution coefficients should be available for every period range and number of modes. The call completes exactly when the range covers every frequency, there are at least two frequencies, two saved modes and two entries on the process; otherwise it raises.", "quantifier": "every number of frequencies, modes, entries", "why_tests_cant": "all shapes", "anchors": ["pyspod/spod/utils.py:compute_coeffs_conv"]}
{"id": "C89", "title": "POD with as many modes as snapshots always stores an undefined mode", "statement": "Every saved POD mode should consist of numbers. With the time mean removed one eigenvalue is zero and its mode is 0/0 at every point, so a fit that saves as many modes as there are snapshots always stores an undefined mode, for every record and solver.", "quantifier": "every record, weights, eigen-solver, number of ranks", "why_tests_cant": "all inputs and solver answers", "anchors": ["pyspod/pod/standard.py:Standard.fit", "pyspod/pod/base.py:Base.long_t_mean"]}
{"id": "C90", "title": "POD time mean", "statement": "The mean removed by POD, summed in two halves and a remainder, is the mean over all snapshots for every real record and record length, odd or even.", "quantifier": "every record and length", "why_tests_cant": "all lengths", "anchors": ["pyspod/pod/base.py:Base.long_t_mean"]}
{"id": "C91", "title": "POD loses the imaginary part of complex records", "statement": "Modes and eigenvalues of a complex record should depend on all of it; they are the same for any two records with equal real parts.", "quantifier": "every pair of complex records with equal real parts", "why_tests_cant": "over all pairs of inputs", "anchors": ["pyspod/pod/base.py:Base._initialize"]}
{"id": "C92", "title": "POD modes are orthonormal", "statement": "The saved modes are real and orthonormal in the weighted inner product, when their eigenvalues are distinct or the solver returns orthonormal vectors.", "quantifier": "every real record, non-negative weights, number of modes, admissible solver", "why_tests_cant": "all inputs", "anchors": ["pyspod/pod/standard.py:Standard.fit"]}
{"id": "C93", "title": "POD eigenvalues sum to the weighted variance", "statement": "All POD eigenvalues are non-negative and their sum is the sum over snapshots of the weighted squared norm of the fluctuation.", "quantifier": "every real record, non-negative weights, number of ranks, solver", "why_tests_cant": "all inputs", "anchors": ["pyspod/pod/standard.py:Standard.fit"]}
{"id": "C94", "title": "Reading all modes twice from a relative path fails", "statement": "Reading the modes should be repeatable. The reader changes the working directory of the process to the results directory, so with a relative results path the first call succeeds and the next one fails; with an absolute path every call succeeds.", "quantifier": "every directory tree without a nested copy of the path, every mode set", "why_tests_cant": "histories of calls", "anchors": ["pyspod/utils/postproc.py:get_all_modes"]}
{"id": "C95", "title": "Scaling integer data destroys it", "statement": "Scaling then descaling should return the data. Integer data scaled by the local maximum become all zeros, because the scaled array keeps the integer type.", "quantifier": "every integer data matrix with non-zero rows", "why_tests_cant": "over all inputs", "anchors": ["pyspod/emulation/base.py:Base.scale_data"]}
{"id": "C96", "title": "The list of modes for the coefficients is ignored", "statement": "Coefficients requested for some modes should be restricted to them. The list is only recorded: two histories of calls that differ in these lists give the same results and the same files, except for the recorded list.", "quantifier": "every history of fits, coefficient computations and reconstructions by any number of objects, interrupted anywhere", "why_tests_cant": "histories of calls", "anchors": ["pyspod/spod/utils.py:compute_coeffs_op", "pyspod/spod/base.py:Base.compute_coeffs_op"]}
{"id": "C97", "title": "Coefficient folders are overwritten by the last computation", "statement": "A reconstruction from a coefficients folder is the one of the last completed computation that returned this folder. Two objects with the same configuration share folders, so the reconstruction by one object changes after the other computes coefficients; objects with different savedir never influence each other, neither results nor files.", "quantifier": "every history of calls by any number of objects, interrupted anywhere", "why_tests_cant": "histories of calls", "anchors": ["pyspod/spod/utils.py:compute_coeffs_op", "pyspod/spod/utils.py:compute_reconstruction", "pyspod/spod/base.py:Base._initialize"]}
{"id": "C98", "title": "Interrupted runs", "statement": "A reconstruction succeeds only if coefficients were computed to the end in this folder, and coefficients only if a fit was completed in this folder. A file that was being written when the computation stopped is detected. But a computation stopped between two files in a folder that already held a complete one is not detected: the reconstruction combines modes of one computation with coefficients of the other.", "quantifier": "every history, every point of interruption", "why_tests_cant": "crash points", "anchors": ["pyspod/spod/utils.py:compute_coeffs_op", "pyspod/spod/utils.py:compute_reconstruction", "pyspod/spod/base.py:Base._store_and_save"]}
{"id": "C99", "title": "Mode files of an earlier fit in the same folder", "statement": "Coefficients should use the modes of the latest fit. This holds with one file per frequency, whatever the folder held, and with one file per mode in a folder without mode files. After a fit with one file per frequency, a later fit with one file per mode (or without mode files) is shadowed: the coefficients combine the earlier modes with the later weights. After a fit with more modes per frequency, one with fewer makes every computation of coefficients raise.", "quantifier": "every earlier state of the folder, every pair of fits", "why_tests_cant": "histories of calls", "anchors": ["pyspod/spod/utils.py:compute_coeffs_op", "pyspod/utils/postproc.py:get_modes_at_freq", "pyspod/spod/standard.py:Standard._compute_standard_spod"]}
{"id": "C100", "title": "Orientation of data plots", "statement": "Pictures of two-dimensional data show at the point (x1[i], x2[j]) the value of the data there, with coordinates along the axes of the data (also the default ones) or in the other order. The latter always holds; the former for grids that are not square, while pictures of square grids are mirrored. A call with several variables and times gives one picture each.", "quantifier": "every record, grid, coordinates, variable, time", "why_tests_cant": "over all grids", "anchors": ["pyspod/utils/postproc.py:plot_2d_data"]}
{"id": "C101", "title": "Negative time indices in data plots", "statement": "A negative time index counts from the end. This holds in the function; in the method of a fitted object -1 always raises, and -k shows the snapshot 2k-1 from the end instead (or raises). Non-negative indices agree.", "quantifier": "every record, list of indices", "why_tests_cant": "over all indices", "anchors": ["pyspod/spod/base.py:Base.plot_2d_data", "pyspod/spod/base.py:Base.get_data", "pyspod/utils/postproc.py:plot_2d_data"]}
{"id": "C102", "title": "Time windows and location of data tracers and videos", "statement": "A window of the record can be drawn as tracer or video. The functions draw every window inside the record; the methods of a fitted object only windows that start at 0. The curve titled with the grid point nearest to the requested one is that of the first grid point, whatever is requested.", "quantifier": "every two-dimensional record, window, sampling, coordinates", "why_tests_cant": "over all windows", "anchors": ["pyspod/utils/postproc.py:plot_data_tracers", "pyspod/utils/postproc.py:generate_2d_data_video", "pyspod/spod/base.py:Base.plot_data_tracers", "pyspod/spod/base.py:Base.generate_2d_data_video"]}
{"id": "C103", "title": "Mode tracers", "statement": "Tracers of modes can be drawn for several variables and oscillate at the requested frequency. They always fail for more than one variable, and oscillate at five times the frequency.", "quantifier": "every list of variables and modes, every frequency", "why_tests_cant": "over all lists", "anchors": ["pyspod/utils/postproc.py:plot_mode_tracers"]}
{"id": "C104", "title": "Peaks reported by plot_report", "statement": "For increasing positive frequencies the report contains exactly the frequencies whose eigenvalue is larger than both neighbours, larger than 1.5 times the mean of its neighbourhood and not smaller than any within ten percent of the frequency; it does not depend on the units of the eigenvalues; close peaks have the same height; the modes drawn are those of the reported frequency; the period is shown correctly. A maximum shared by two neighbouring frequencies is not reported, and a candidate at a negative frequency (full spectrum) makes the report fail.", "quantifier": "every spectrum", "why_tests_cant": "over all spectra", "anchors": ["pyspod/spod/base.py:Base.plot_report"]}
{"id": "C105", "title": "Slices of three-dimensional modes", "statement": "A slice is drawn against the coordinates of its two axes, and without a requested slice the one with the largest value is shown. The coordinates are right exactly when no earlier axis has the same length as a later one of the slice; the slice shown is always the first.", "quantifier": "every grid shape and slice direction", "why_tests_cant": "over all shapes", "anchors": ["pyspod/utils/postproc.py:plot_3d_modes_slice_at_frequency"]}
{"id": "C106", "title": "Lines marking the maximum", "statement": "The two lines marking the maximum of a mode cross at its position. They cross at the point with the two coordinates exchanged.", "quantifier": "every picture with one largest value", "why_tests_cant": "over all pictures", "anchors": ["pyspod/utils/postproc.py:_apply_2d_vertical_lines", "pyspod/utils/postproc.py:plot_2d_modes_at_frequency"]}
{"id": "C107", "title": "MATLAB reader: the whole record in chunks", "statement": "fit on MATLAB files stores every snapshot once, in the order of the sorted names, cut into consecutive blocks, whatever the order of the messages; no chunk is empty; with five or more processes and three or more files the last block is never empty (so fit does not fail as in C17), while for every smaller number of processes there are records for which it is.", "quantifier": "every list of files, number of processes, chunks and blocks, message order, snapshot size", "why_tests_cant": "all sizes", "anchors": ["pyspod/utils/reader.py:reader_mat.get_data", "pyspod/utils/reader.py:reader_mat.__init__"]}
{"id": "C108", "title": "SPOD modes are optimal", "statement": "At every frequency no set of m fields orthonormal in the weighted inner product captures more energy of the realizations than the sum of the m leading eigenvalues, and each mode captures exactly its eigenvalue.", "quantifier": "every record, weights, frequency, number m and orthonormal set", "why_tests_cant": "over all orthonormal sets", "anchors": ["pyspod/spod/standard.py:Standard._compute_standard_spod"]}
{"id": "C109", "title": "Eigenvalues do not depend on the eigensolver", "statement": "The saved eigenvalues are the roots of the characteristic polynomial of the SPOD matrix in descending order, with multiplicity: any correct eigensolver and any order among ties gives the same numbers.", "quantifier": "every record, every pair of solvers", "why_tests_cant": "over all solvers", "anchors": ["pyspod/spod/standard.py:Standard._compute_standard_spod"]}
{"id": "C110", "title": "Eigenvalues and modes reproduce the cross-spectral density", "statement": "When all modes are saved and the eigenvalues differ, the sum of eigenvalue times mode times conjugate mode is the estimated cross-spectral density between any two points of positive weight.", "quantifier": "every record, frequency, pair of points", "why_tests_cant": "over all records", "anchors": ["pyspod/spod/standard.py:Standard._compute_standard_spod"]}
{"id": "C111", "title": "More blocks than points", "statement": "Every saved mode is defined. Eigenvalues whose index is at least the number of entries of positive weight are exactly zero, so that with more blocks than such entries the corresponding modes are obtained by dividing by zero.", "quantifier": "every record, weights, frequency", "why_tests_cant": "over all records", "anchors": ["pyspod/spod/standard.py:Standard._compute_standard_spod"]}
{"id": "C112", "title": "Units of data and weights", "statement": "Multiplying the data by a multiplies the eigenvalues by |a|^2, multiplying the weights by s multiplies them by s. Normalising the data makes the result independent of the units: it does not, the eigenvalues are divided by a^2, because the blocks are divided by the variance instead of the standard deviation.", "quantifier": "every record, weights, factors", "why_tests_cant": "over all factors", "anchors": ["pyspod/spod/standard.py:Standard._compute_blocks", "pyspod/spod/standard.py:Standard._compute_standard_spod"]}
{"id": "C113", "title": "A steady field is irrelevant", "statement": "Adding a field that does not change in time changes neither eigenvalues nor modes when the long-time or block mean is subtracted; with the zero mean every transform changes by the transform of the windowed constant.", "quantifier": "every record, every field", "why_tests_cant": "over all fields", "anchors": ["pyspod/spod/standard.py:Standard._compute_blocks", "pyspod/spod/base.py:Base.select_mean"]}
{"id": "C114", "title": "Mirrored frequencies", "statement": "For real data the eigenvalues at a frequency and at its mirror image agree, so the negative half may be dropped. In the full spectrum saved for real data they do not: the first positive frequency is saved with twice the value of the last one.", "quantifier": "every real record, frequency, block length", "why_tests_cant": "over all records", "anchors": ["pyspod/spod/standard.py:Standard._compute_standard_spod"]}
{"id": "C115", "title": "POD: the folder of an object", "statement": "get coefficients and reconstruct data through an object use its own fit: they use the last fit, by any object, that stored results in the same folder; the folder depends on savedir and n_modes_save only, so a second object with these two equal, whatever its data or other options, silently replaces the modes of the first.", "quantifier": "every history of fits, coefficient computations and reconstructions by any objects and functions", "why_tests_cant": "over all histories", "anchors": ["pyspod/pod/base.py:Base._initialize", "pyspod/pod/base.py:Base._store_and_save", "pyspod/pod/base.py:Base.compute_coeffs_op"]}
{"id": "C116", "title": "POD: arguments without influence", "statement": "results_dir, tol, svd, T_lb, T_ub of compute_coeffs_op, modes_idx, coeffs_dir of compute_reconstruction called through an object, and the values of the stored weights and eigenvalues influence neither the result of any operation nor the stored arrays, over any history.", "quantifier": "every pair of histories equal up to these arguments", "why_tests_cant": "two-run property over all histories", "anchors": ["pyspod/pod/base.py:Base.compute_coeffs_op", "pyspod/pod/base.py:Base.compute_reconstruction", "pyspod/pod/utils.py:compute_coeffs_op"]}
{"id": "C117", "title": "POD: reconstruction after a new fit", "statement": "compute_reconstruction after a new fit uses the new modes: it does not, the result is that before the fit (by the same or any other object, completed or interrupted) until the coefficients are computed again. Without a completed coefficient computation by the same object it raises ValueError.", "quantifier": "every history, object, fit", "why_tests_cant": "over all histories", "anchors": ["pyspod/pod/base.py:Base.compute_reconstruction", "pyspod/pod/utils.py:compute_reconstruction"]}
{"id": "C118", "title": "POD: interrupted runs", "statement": "A reconstruction from a folder succeeds only if a coefficient computation into this folder was completed, coefficients only if a fit was completed; a partly written file is reported. But if a second computation into the same folder is stopped between two files the reconstruction silently mixes new coefficients with old mean and modes.", "quantifier": "every history with any crash points", "why_tests_cant": "over all crash points", "anchors": ["pyspod/pod/utils.py:compute_coeffs_op", "pyspod/pod/utils.py:compute_reconstruction", "pyspod/pod/base.py:Base._store_and_save"]}
{"id": "C119", "title": "POD: names of reconstruction files", "statement": "Saving a reconstruction changes no later result, provided its name is not coeffs, modes_r, ltm, modes or weights; with the first three names the reconstruction replaces an input and every later reconstruction uses it, without an error.", "quantifier": "every history, folder, name", "why_tests_cant": "over all histories", "anchors": ["pyspod/pod/utils.py:compute_reconstruction"]}
{"id": "C120", "title": "Parameter dictionary and saved parameter file", "statement": "The parameter file saved by fit records the transform length, overlap, blocks, frequencies, time step, folder and number of modes of that fit, as given when the object was built, whatever happens to the dictionary in between. All other entries are those the dictionary of the caller holds at the end of fit, so editing it after building the object makes the file disagree with the computation. The saved entries are also written into the dictionary of the caller, so an object built from it later saves at most as many modes as the earlier fit. Objects with dictionaries of their own do not influence each other; the results folder is made absolute once.", "quantifier": "every dictionary, history of constructions, edits and fits", "why_tests_cant": "over all histories", "anchors": ["pyspod/spod/base.py:Base.__init__", "pyspod/spod/base.py:Base._store_and_save", "pyspod/spod/base.py:Base._initialize"]}
{"id": "C121", "title": "In-memory fit is SPOD of the concatenated record", "statement": "A fit of in-memory datasets saves, for every frequency, the eigenvalues and the array of kept modes that the serial algorithm computes from the concatenated record and the full weights, serially or on any number of processes, however the record is cut into datasets.", "quantifier": "every list of datasets of one grid, settings with a feasible block layout, weights, number of processes (no process with exactly one entry)", "why_tests_cant": "composition of reader, weights, blocks, reduction and output over all sizes", "anchors": ["pyspod/spod/standard.py:Standard.fit", "pyspod/spod/base.py:Base._initialize", "pyspod/utils/reader.py:reader_1stage"]}
{"id": "C122", "title": "File-based fit is SPOD of the concatenated record", "statement": "A fit of netCDF files with one file per mode writes exactly one file for each frequency and kept mode, holding the mode the serial algorithm computes from the concatenated record, for any number of processes and readers, any chunking and any order of message delivery.", "quantifier": "every list of distinct files of one grid with unique times, settings with a feasible block layout, weights, processes (none with exactly one entry), readers, chunks (not more than snapshots), message orders; MPI with large counts or messages below the limit", "why_tests_cant": "over all schedules", "anchors": ["pyspod/spod/standard.py:Standard._compute_standard_spod", "pyspod/utils/reader.py:reader_2stage", "pyspod/spod/base.py:Base._initialize"]}
{"id": "C123", "title": "Process count, dataset split and data source do not show in the results", "statement": "Two fits of the same record with the same settings give the same eigenvalues and mode arrays, whatever the number of processes and the split into datasets; a fit from files gives the same eigenvalues as one from memory, and its mode files are the columns of the mode arrays of the latter.", "quantifier": "every pair of runs of the kinds of C121 and C122", "why_tests_cant": "relates pairs of executions", "anchors": ["pyspod/spod/standard.py:Standard.fit", "pyspod/utils/reader.py:reader_1stage", "pyspod/utils/reader.py:reader_2stage"]}
{"id": "C124", "title": "Guarantees on the saved results", "statement": "In the results saved by a fit with non-negative weights the eigenvalues of every frequency are non-negative and in descending order, the mode array has the grid shape followed by the number of kept modes, and its columns have unit weighted norm and are weighted-orthogonal where the eigenvalues are positive and distinct, for every eigen-solver and sorting routine that keep their contracts.", "quantifier": "every run, solver and sorting routine", "why_tests_cant": "over all inputs and oracle behaviours", "anchors": ["pyspod/spod/standard.py:Standard.fit", "pyspod/spod/standard.py:Standard._compute_standard_spod"]}
{"id": "C125", "title": "The exchanges never deadlock", "statement": "The redistribution of the file readers (all receives and sends posted, then waited for) and the assembly of mode files pass by pass (sends to the writers of the pass, the writer posts its receives, sends then receives waited for) cannot deadlock: from every reachable state in which some process has not finished, a process can go on or a message can arrive, even if MPI buffers nothing; no execution is longer than an explicit bound; an execution that cannot go on is one in which every process has finished.", "quantifier": "every number of processes, chunks/passes, interleaving, order of arrival and choice of buffering", "why_tests_cant": "over all schedules", "anchors": ["pyspod/utils/reader.py:reader_2stage.get_data_for_time", "pyspod/utils/reader.py:reader_mat.get_data_for_time", "pyspod/spod/standard.py:Standard._compute_standard_spod"]}
{"id": "C126", "title": "Data after the exchange do not depend on the schedule", "statement": "When a process has finished a chunk (a pass), it has received exactly one message of that chunk from every process (of its own file from every process, or none if it writes no file), in some order; the assembled local data of the chunk are its points of the rows of the chunk in row order, and the assembled mode file consists of the pieces of all processes in process order.", "quantifier": "every schedule, number of processes, readers, chunks, files, data", "why_tests_cant": "over all schedules and sizes", "anchors": ["pyspod/utils/reader.py:reader_2stage.get_data_for_time", "pyspod/utils/reader.py:reader_mat.get_data_for_time", "pyspod/spod/standard.py:Standard._compute_standard_spod"]}
{"id": "C127", "title": "Convolution coefficients at the blocks of the fit", "statement": "In a serial run the coefficient computed by the convolution method at the time index of block b (offset of the block plus half the transform length, rounded up) is n_dft/win_weight times sqrt(n_blocks * eigenvalue) times the conjugate entry b of the eigenvector; over the blocks the coefficients of different modes are uncorrelated and their mean squared modulus is the eigenvalue, in units of (n_dft/win_weight)^2. Away from the end of the record no end correction is applied.", "quantifier": "every record, settings with the long-time mean, weights, frequency, kept mode with positive eigenvalue, block", "why_tests_cant": "algebraic identity over all records", "anchors": ["pyspod/spod/utils.py:compute_coeffs_conv", "pyspod/spod/standard.py:Standard._compute_standard_spod"]}
{"id": "C128", "title": "Arrays of modes read from a results folder", "statement": "With one file per frequency the array returned for a frequency is a writable map of the file: it shows at all later times what is on disk, and changing an entry changes that entry of the saved modes and nothing else (so reading a mode and scaling it in place changes the results, contrary to what a reader of an analysis folder expects). With one file per mode, and when all modes are read at once, what is returned is a private copy and the folder changes by fits only. Read-only results can be read per frequency only in the layout with one file per mode.", "quantifier": "every folder, every history of reads, edits of returned arrays and fits", "why_tests_cant": "over all histories of aliasing arrays", "anchors": ["pyspod/utils/postproc.py:get_modes_at_freq", "pyspod/utils/postproc.py:get_all_modes", "pyspod/utils/postproc.py:get_data_from_file"]}
{"id": "C129", "title": "Weights used by the emulation", "statement": "Predictions for an index, by any emulator object sharing the folder and after any history without training of that index, use the weights of the first epoch with the smallest finite validation loss; the imaginary part is trained from the network of the last epoch of the real part. A training with no finite loss keeps the previous weights silently; a training on real data leaves the network of an earlier imaginary part in use; an inference in between changes the starting point of later trainings.", "quantifier": "every history of initialisations, trainings and inferences, every training routine", "why_tests_cant": "over all histories and training routines", "anchors": ["pyspod/emulation/neural_nets.py:Neural_Nets._train", "pyspod/emulation/neural_nets.py:Neural_Nets.model_train", "pyspod/emulation/neural_nets.py:Neural_Nets.model_inference"]}
{"id": "C130", "title": "Attributes of an object over fits that return or raise", "statement": "After a fit that returns, all attributes of the object describe that fit, whatever attempts came before. Attempts that raise before the frequency axis keep frequencies, folder, eigenvalues and number of modes of the last fit, but already replace block count, record length and weights, so the attributes do not belong to one fit; a failure while modes are computed leaves zeros as eigenvalues. Reading modes through an object never fitted raises AttributeError, and returns None when nothing is stored.", "quantifier": "every history of attempts and points of failure", "why_tests_cant": "over all histories of failures", "anchors": ["pyspod/spod/base.py:Base._initialize", "pyspod/spod/base.py:Base.get_modes_at_freq", "pyspod/spod/standard.py:Standard.fit"]}
{"id": "C131", "title": "Plots of eigenvalues and axis limits", "statement": "The plot of the eigenvalues in the complex plane shows every eigenvalue within its axes. Curve k of the spectrum plots consists of the pairs (frequency or period, real part of eigenvalue k). On the logarithmic axes the one-sided spectrum loses the zero frequency only, the two-sided one its whole negative half. All curves have different grey levels exactly if there are fewer than 40. The axes of plots of modes and data contain the domain exactly if the coordinate range contains zero.", "quantifier": "every array of eigenvalues, axis, coordinate array", "why_tests_cant": "over all inputs", "anchors": ["pyspod/utils/postproc.py:plot_eigs", "pyspod/utils/postproc.py:plot_eigs_vs_frequency", "pyspod/utils/postproc.py:plot_eigs_vs_period", "pyspod/utils/postproc.py:_set_2d_axes_limits"]}
{"id": "C132", "title": "Fit, project, reconstruct: the record comes back", "statement": "After a long-time-mean fit of the full spectrum that keeps every mode with a non-zero eigenvalue (window without zeros, no direction lost to the pseudo-inverse tolerance), computing the oblique-projection coefficients of the same record and reconstructing returns every snapshot that lies in a block, on any number of processes. It fails outside the blocks (an entry that vanishes in all blocks is reconstructed as zero at all times) and with fewer modes than the rank of the fluctuations.", "quantifier": "all records, windows, weights, block lengths, overlaps, numbers of processes and distributions, eigen-solvers and SVD routines within their specification", "why_tests_cant": "the round trip crosses four stages; a test compares one record within a tolerance", "anchors": ["pyspod/spod/utils.py:compute_coeffs_op", "pyspod/spod/utils.py:compute_reconstruction", "pyspod/spod/standard.py:Standard.fit"]}
{"id": "C133", "title": "Precision asked for and precision obtained", "statement": "With the default precision and float64 arrays every stored array of a session (fits, coefficients, reconstructions, in any order) is double; with single precision asked for everywhere all are single only under numpy 1, with float data and weights, without convolution and without the methods of the object, which compute coefficients and reconstructions in double whatever the fit used. The classes take every argument other than the name double, np.float64 included, for single precision. float32 data are averaged in float32 even when double is asked for. A reconstruction is stored in single precision exactly when the stored mean is single and either single was asked for or the stored modes and coefficients are single already.", "quantifier": "all sequences of fits, coefficient computations and reconstructions on one folder, all precision arguments, element types of data and weights, both generations of numpy type promotion", "why_tests_cant": "the type of each file depends on the history of calls and on the numpy generation; a test fixes one combination", "anchors": ["pyspod/spod/base.py:Base.__init__", "pyspod/spod/base.py:Base._set_dtype", "pyspod/spod/utils.py:_get_dtype", "pyspod/spod/utils.py:_set_dtype", "pyspod/spod/utils.py:compute_coeffs_op", "pyspod/spod/utils.py:compute_coeffs_conv", "pyspod/spod/utils.py:compute_reconstruction", "pyspod/spod/standard.py:Standard.fit"]}
{"id": "C134", "title": "A field built from known structures is taken apart again", "statement": "If the data are a sum of spatial structures, orthonormal in the weighted inner product, times time amplitudes whose block spectra are uncorrelated at a frequency, then at that frequency the non-zero reported eigenvalues are exactly the spectral energies of the amplitudes, they add up to their sum, and a mode with an isolated energy is the structure itself up to a complex phase. For one structure there is one non-zero eigenvalue, at index 0, equal to the squared norm of the structure times the spectral energy of the amplitude.", "quantifier": "every number of structures, points, blocks, frequency, window, overlap, mean type, non-negative weights and number of processes", "why_tests_cant": "tests compare a handful of numbers of one data file; the statement ranges over all decomposable fields and all settings", "anchors": ["pyspod/spod/standard.py:Standard._compute_blocks", "pyspod/spod/standard.py:Standard._compute_standard_spod"]}
{"id": "C135", "title": "A tone on a frequency bin is reported with its own energy", "statement": "For a complex tone on bin f0 times a structure, the leading eigenvalue reported at f0 is exactly the squared weighted norm of the structure for every window, overlap and number of blocks, at any other bin it is that times the squared relative window response, all other eigenvalues are zero and the leading mode is the normalised structure. For a real tone the (one-sided) value at an interior bin is the mean square of the field up to the window response at twice the frequency, and exactly the mean square if that response is zero; but at the last reported bin with an odd block length only half of it is reported.", "quantifier": "every bin, window with non-zero mean, overlap, number of blocks, structure, weights, amplitude, phase, each of the three mean types and any number of processes", "why_tests_cant": "amplitude calibration over all windows, block lengths and phases cannot be sampled exhaustively", "anchors": ["pyspod/spod/standard.py:Standard._compute_blocks", "pyspod/spod/standard.py:Standard._compute_standard_spod", "pyspod/spod/base.py:Base._initialize"]}
{"id": "C136", "title": "The layout of the points does not matter, only signals and weights", "statement": "If a data set holds, at each of its points, the signal of some point of another data set, possibly in other units, and the weights of all copies of a point (times the squared unit factor) add up to the weight of that point, then both fits report the same eigenvalues at every frequency, and each copy shows the mode of its point in its own units. So permuting points or variables, splitting a point into copies that share its weight, dropping points of zero weight and changing the units of one variable together with its weights change nothing but the order and units of the modes.", "quantifier": "every assignment of copies to points, unit factors (one if the data are normalised), weights, number of processes on either side, frequency and settings", "why_tests_cant": "relates two runs on different data sets for all layouts; a test compares two particular ones", "anchors": ["pyspod/spod/standard.py:Standard._compute_blocks", "pyspod/spod/standard.py:Standard._compute_standard_spod"]}
{"id": "C137", "title": "The end and the direction of time", "statement": "Snapshots behind the last complete block have no influence on eigenvalues and modes unless the long-time mean is removed, and then only through that mean. A record of a whole number of blocks played backwards has, with a symmetric window, at every frequency the eigenvalues of the original at the mirrored frequency; for real data the reported spectrum is the same.", "quantifier": "every record length, block length, overlap, mean type, normalisation, frequency, weights and number of processes", "why_tests_cant": "relates runs on different records for all contents", "anchors": ["pyspod/spod/standard.py:Standard._compute_blocks", "pyspod/spod/standard.py:Standard._compute_standard_spod", "pyspod/spod/base.py:Base._initialize"]}
{"id": "C138", "title": "How much of the variance the saved POD modes capture", "statement": "Every mode saved by a POD fit captures exactly its eigenvalue of the weighted variance of the record about its mean. If the eigensolver happens to list the eigenvalues in descending order, no other orthonormal set of as many fields captures more than the saved modes (Ky Fan). The fit does not sort, however: for every record with one dominant eigenvalue there is an admissible order of eigenvalues with which the single saved mode captures less than some other unit field.", "quantifier": "every real record, non-negative weights, number of modes, number of processes and admissible answer of the eigensolver", "why_tests_cant": "optimality is over all orthonormal sets of fields and the refutation over all admissible solvers", "anchors": ["pyspod/pod/standard.py:Standard.fit"]}
{"id": "C139", "title": "Parallel sessions keep in step", "statement": "In any session of calls (fit, streaming fit, coefficients, reconstruction, POD) on any number of processes, each call finding the files it needs: under every interleaving of the processes the collective calls they make match, no process raises because a folder or file is not there yet, every file is read only when it is there and nobody is writing it, all processes see the same files present, nobody waits forever, the number of steps is bounded, and which files are there in the end depends neither on the schedule nor on the number of processes.", "quantifier": "every number of processes, session, initial disk, and schedule", "why_tests_cant": "races and deadlocks depend on the schedule", "anchors": ["pyspod/spod/standard.py:Standard.fit", "pyspod/spod/streaming.py:Streaming.fit", "pyspod/spod/utils.py:compute_coeffs_op", "pyspod/spod/utils.py:compute_coeffs_conv", "pyspod/spod/utils.py:compute_reconstruction", "pyspod/pod/utils.py:compute_coeffs", "pyspod/pod/standard.py:Standard.fit", "pyspod/utils/parallel.py:npy_save"]}
{"id": "C140", "title": "An exception on one process leaves the others waiting", "statement": "If a process raises anywhere before the end of a session (process 0 is the only one to look for missing input files; see also C42), the error should end the run on all processes; instead no other process ever returns or raises: every run halts with all others inside a collective call that never ends.", "quantifier": "every session, process, point of failure, number of processes, and schedule", "why_tests_cant": "needs a failure on one process only", "anchors": ["pyspod/utils/reader.py:reader_2stage.__init__", "pyspod/utils/reader.py:reader_mat.__init__", "pyspod/spod/standard.py:Standard.fit"]}
{"id": "C141", "title": "The parameter file all processes write at once is complete", "statement": "Every process opens the parameter file of the coefficients for writing and dumps the same text at the same time; whatever was in the file, and however the openings and partial writes of the processes interleave, the file holds exactly that text once all are done. Before that a reader can find a hole.", "quantifier": "every number of processes, text, old content, and interleaving of openings and partial writes", "why_tests_cant": "depends on the schedule", "anchors": ["pyspod/spod/utils.py:compute_coeffs_op", "pyspod/spod/utils.py:compute_coeffs_conv", "pyspod/pod/utils.py:compute_coeffs"]}
{"id": "C142", "title": "Figures in files and on screen", "statement": "A plotting method called with a file name leaves, for every variable and mode (or time, or place) asked for, exactly one file with that picture in the folder asked for, changes no other file and leaves no figure open. But the frequency (or slice) is not part of the file name: plotting a second frequency replaces the files of the first. plot_coeffs draws all curves into the figure that is current: with files it draws one curve per file only when no figure was open before; otherwise it draws the later curves into figures of the user, saves and closes them. Over any session of storing calls the open figures grow by exactly the calls that raised.", "quantifier": "every list of variables, modes, times, places; every file name with extension; every set of open figures; every session", "why_tests_cant": "depends on the history of figures and files", "anchors": ["pyspod/utils/postproc.py:_save_show_plots", "pyspod/utils/postproc.py:plot_coeffs", "pyspod/utils/postproc.py:plot_2d_modes_at_frequency", "pyspod/utils/postproc.py:plot_3d_modes_slice_at_frequency", "pyspod/utils/postproc.py:plot_2d_data", "pyspod/utils/postproc.py:plot_data_tracers"]}
{"id": "C143", "title": "Contour levels of the comparison plots", "statement": "generate_2d_subplot paints every value of the first field; its range exceeds the field by less than one unit of the last decimal kept (N_round) at each end, the levels increase and the ticks are every second level. A constant field whose value has no more decimals than that (zero, say) raises ValueError, and no other single field does. The other fields are cut to the range of the first: values a unit or more outside it stay blank. A third field without a second raises.", "quantifier": "every field, number of decimals, and combination of fields", "why_tests_cant": "over all fields", "anchors": ["pyspod/utils/postproc.py:generate_2d_subplot"]}
{"id": "C144", "title": "The score reported while training an emulator", "statement": "The score printed during training is one for a perfect prediction and never more, but it is the coefficient of determination with truth and prediction exchanged: predicting the mean is reported as 1 - deviation/epsilon instead of about zero, and for every sufficiently varying truth there are predictions one of which is 144 times worse in squared error with a positive score where the better one has a negative score.", "quantifier": "every truth, prediction and epsilon", "why_tests_cant": "over all truths and predictions", "anchors": ["pyspod/emulation/neural_nets.py:build_lstm.coeff_determination"]}
{"id": "C145", "title": "The problem sizes a fit reports", "statement": "With any number of processes the three sizes printed by an SPOD fit are the smallest share, the largest share and the number of values of the whole record, for data in memory, in netCDF and in MATLAB files, whatever the order of messages; shares differ by at most one layer of the distributed axis; the conversion to gigabytes is right to 14 digits. The streaming fit reports one snapshot only. The size printed by POD is right only if the number of processes divides the distributed axis; it is never too small.", "quantifier": "every record, number of processes, chunking, and order of messages", "why_tests_cant": "depends on the number of processes", "anchors": ["pyspod/spod/base.py:get_sizes", "pyspod/spod/base.py:_initialize", "pyspod/pod/base.py:_initialize"]}
{"id": "C146", "title": "Turning the Fourier coefficients", "statement": "Between the transforms and the decomposition the coefficients are turned from per block to per frequency: every coefficient of block b at frequency f ends in column b of frequency f; at every moment of the conversion each coefficient is held somewhere, and never more than the coefficients plus one frequency are in memory (a bound that is reached).", "quantifier": "every number of blocks and frequencies, and all coefficients", "why_tests_cant": "memory and intermediate states", "anchors": ["pyspod/spod/standard.py:_flip_qhat", "pyspod/spod/standard.py:Standard.fit"]}
{"id": "C147", "title": "Rounding does not change the integers the code derives by division", "statement": "The number of overlapping snapshots, the number of passes over the blocks, the number of blocks updated side by side, half a block and the number of chunks of a file are computed by dividing doubles and rounding to an integer. For sizes below 2^53 the result is the exact one: rounded-up quotients of integers, the overlap for a whole number of percent, n/2+1, and the chunk count are what exact arithmetic gives. For an arbitrary overlap the number of snapshots is the exact one or one less, and one less does happen (an overlap of a seventh of a block of seven).", "quantifier": "all integers below 2^53 (and, for the overlap, all doubles)", "why_tests_cant": "the double nearest a quotient could cross an integer for some pair out of 2^106; tests try a few", "anchors": ["pyspod/spod/base.py:Base.__init__", "pyspod/spod/standard.py:Standard._compute_standard_spod", "pyspod/spod/streaming.py:Streaming.fit", "pyspod/utils/reader.py:reader_2stage.__init__", "pyspod/utils/reader.py:reader_mat.__init__"]}
{"id": "C148", "title": "Sums in double precision do not depend on the layout beyond rounding", "statement": "Whatever the number of blocks, chunks or processes and whatever the order in which numpy and MPI add, the long-time mean computed in doubles differs from the exact mean by at most 2^-52 times the sum of the absolute values plus 2^-1075, and so the means of two layouts agree to twice that; one component of an entry of the cross-spectral matrix differs from the exact one by at most (most points per process + processes + 1) 2^-52 times the sum of the absolute products over the number of blocks, provided no product underflows, and so two process counts agree to the sum of the bounds. For integer data below 2^53 in total the mean is the same bit for bit; in general neither the mean nor the entries are (refuted: two against four blocks, one against two processes).", "quantifier": "all data, all block, chunk and process counts, all orders of summation", "why_tests_cant": "the order of additions in numpy and in MPI is unspecified and the data are arbitrary; tests compare a few runs with a tolerance", "anchors": ["pyspod/spod/base.py:Base.long_t_mean", "pyspod/spod/standard.py:Standard._compute_standard_spod", "pyspod/utils/parallel.py:allreduce"]}
{"id": "C149", "title": "The frequency axis in double precision", "statement": "For blocks below 2^50 snapshots and time steps between 2^-900 and 2^900 the frequencies an object reports are strictly increasing from zero (real data or full spectrum), each within a relative 2^-51 of k/(n dt); for complex data the second part is negative, increasing and within 2^-50/dt of (k-n)/(n dt); all frequencies are distinct, so that asking for the nearest frequency to a frequency read off the axis returns exactly its index.", "quantifier": "all block lengths and time steps in the ranges, all frequencies, both kinds of data and spectrum", "why_tests_cant": "rounding could make two neighbouring frequencies equal or swap them for some block length and time step", "anchors": ["pyspod/spod/base.py:Base.get_freq_axis", "pyspod/utils/postproc.py:find_nearest_freq"]}
{"id": "C150", "title": "The running mean of a streaming fit in double precision", "statement": "After n snapshots (n up to 2^50) the running mean a streaming fit removes differs from the exact mean by at most 3 n 2^-52 times the mean absolute value, plus n times the smallest double; no underflow assumption is needed. For a constant integer record the running mean is exact at every step (n times the value up to 2^53).", "quantifier": "all records and lengths", "why_tests_cant": "the error accumulates over the stream; tests run short streams with a tolerance", "anchors": ["pyspod/spod/streaming.py:Streaming.fit"]}
{"id": "C151", "title": "Small disturbances move the spectrum little", "statement": "If the cross-spectral matrix of a frequency is computed with an error of at most d in every entry, every reported eigenvalue is off by at most (number of blocks) x d (twice that where eigenvalues are doubled), for any eigensolver and sorting routine; two runs whose weighted inner products of block transforms differ by at most d report eigenvalues within d. Adding a disturbance to the data (no normalisation) moves the square root of every eigenvalue by at most the square root of the leading eigenvalue of the disturbance alone; a disturbance of at most e at every sample moves it by at most 2 e times the square root of the total weight (of twice the total weight at doubled frequencies), for every record, length, overlap, non-negative window, mean type and process grid.", "quantifier": "all records, disturbances, weights, block counts, windows, process grids and eigensolvers", "why_tests_cant": "a test perturbs one record in one way; repeated eigenvalues make the modes discontinuous, so only a min-max argument shows that the eigenvalues are not", "anchors": ["pyspod/spod/standard.py:Standard._compute_standard_spod", "pyspod/spod/base.py:Base._store_and_save", "pyspod/spod/standard.py:Standard.fit"]}
{"id": "C152", "title": "The reconstruction file holds the reconstruction", "statement": "For both kinds of coefficients (oblique projection and convolution), any snapshot shape, any distributed axis, any selection of times (negative and repeated indices included), any number of processes and any order in which their writes reach the disk, the file written by compute_reconstruction holds, at [k, point], the sum over modes of mode(point) times coefficient(mode, k-th requested time) plus the time mean of the point, whatever the file held before. An empty list of times gives an empty array in a serial run and ValueError on every process with a communicator. The serial file and the parallel file hold the same array but not always the same bytes: when several snapshots are requested and only one dimension of a snapshot exceeds one, the serial file is in Fortran order and the parallel one in C order.", "quantifier": "all mode, coefficient and mean arrays, time selections, process counts, write orders and previous file contents", "why_tests_cant": "a test compares one small reconstruction through np.load, where neither the order of the writes nor the bytes are seen", "anchors": ["pyspod/spod/utils.py:compute_reconstruction", "pyspod/spod/utils.py:_compute_rec_op", "pyspod/spod/utils.py:_compute_rec_conv", "pyspod/pod/utils.py:compute_reconstruction", "pyspod/utils/parallel.py:npy_save", "pyspod/utils/parallel.py:distribute_dimension"]}
{"id": "C153", "title": "Well separated modes move little when the data move little", "statement": "Let lambda_0 be the leading eigenvalue at a frequency and nu a bound on the leading eigenvalue of a disturbance added to the record, e = 2 sqrt(lambda_0 nu) + nu. If the eigenvalue of a mode is at least g > e away from all the others, the squared correlation of the mode with the disturbed one (weighted inner product, hence whatever the phase the solver chose) is at least 1 - delta^2 with delta = (sqrt(lambda_0) e/(g-e) + sqrt(nu)) / sqrt(lambda'_k). When other eigenvalues are closer than g, the disturbed mode is within delta of a combination of the modes of these eigenvalues. If every sample is disturbed by at most s, nu = (2 s)^2 times the total weight will do (doubled at the frequencies that are doubled). An error of at most d in every entry of the matrix of the blocks (rounding, other hardware) moves an isolated mode by at most sqrt(lambda_0/lambda~_k) e/(g-e) from a multiple of the exact mode, with e the number of blocks times d. For any two eigensolvers and sorting routines.", "quantifier": "all records, disturbances, weights, block numbers, windows, gaps and solvers", "why_tests_cant": "a test disturbs one record and compares with a tolerance found by trial; no tolerance is right for every record, since modes with close eigenvalues do turn into each other", "anchors": ["pyspod/spod/standard.py:Standard._compute_standard_spod", "pyspod/spod/standard.py:Standard._compute_blocks"]}
{"id": "C154", "title": "A missing value (NaN) makes the batch fit raise exactly when it is used", "statement": "With NaN in the record, fit of the batch class raises LinAlgError if and only if a weight is NaN, or a value is NaN at a time that belongs to some block, or anywhere in the record when the long-time mean is subtracted: never a result with NaN, on any number of processes. A weight of zero at the point does not help. When fit returns, all eigenvalues and modes are numbers and they are those of the record with the missing values filled in in any way. With normalize_weights the serial code leaves missing values out of the variance, so that a record whose missing values lie outside all blocks is fitted, while the parallel code raises for the same record, whatever the order in which the processes' statistics are combined.", "quantifier": "all records with any pattern of missing values, weights, options, eigensolvers, numbers of processes, distributions and orders of reduction", "why_tests_cant": "a test plants one NaN at one place; whether it reaches the decomposition depends on its time, on the block layout, the mean and on how the weights are normalised", "anchors": ["pyspod/spod/standard.py:Standard._compute_blocks", "pyspod/spod/standard.py:Standard._compute_standard_spod", "pyspod/utils/weights.py:apply_normalization", "pyspod/utils/parallel.py:pvar"]}
{"id": "C155", "title": "A missing value (NaN) in a stream makes the fit raise as soon as a block is complete", "statement": "In the streaming class a NaN in any snapshot, even in one before the blocks (the mean is a running mean), makes fit raise LinAlgError once a block is completed at or after it. If no block is completed after the first NaN, the results are those of the stream with the missing values filled in in any way: finite, except that the modes are NaN where the weight is zero; if some block adds nothing to the basis, fit raises or returns modes that are NaN everywhere at some frequency (see C86).", "quantifier": "all streams, patterns of missing values, lengths, weights, SVD routines, numbers of processes and distributions", "why_tests_cant": "depends on where in the stream the missing value is relative to every later block completion", "anchors": ["pyspod/spod/streaming.py:Streaming.fit"]}
{"id": "C156", "title": "Missing values pass silently through the coefficients and the reconstruction", "statement": "compute_coeffs_op raises LinAlgError if and only if some mode contains a NaN. If the modes are numbers but a single value of the data is NaN, it returns without complaint and every coefficient at every time, and the reconstruction at every point and time, is NaN; likewise the coefficients by convolution at all frequencies and times (n_dft at least 2). POD.fit raises ValueError if and only if some value is NaN, with or without subtraction of the mean. POD coefficients never raise: a coefficient is NaN exactly when its mode contains a NaN or the data contain a NaN somewhere, and the POD reconstruction is then NaN everywhere. Without missing values the results are those of C50, C52, C27 and C29.", "quantifier": "all modes, data, patterns of missing values, weights, solvers, numbers of processes and distributions", "why_tests_cant": "a test would have to plant NaN at every place; that one value spoils every time step follows from the mean", "anchors": ["pyspod/spod/utils.py:compute_coeffs_op", "pyspod/spod/utils.py:compute_coeffs_conv", "pyspod/spod/utils.py:_compute_rec_op", "pyspod/pod/standard.py:Standard.fit", "pyspod/pod/utils.py:compute_coeffs_op", "pyspod/pod/utils.py:compute_reconstruction"]}
{"id": "C157", "title": "Byte order of arrays reduced and saved in parallel", "statement": "allreduce gives every process the elementwise sum of the processes' arrays, for every order in which MPI combines them, and npy_save a file with the values of the pieces one after another, provided the arrays are in the byte order of the machine. An array in the other byte order (as read from a netCDF-3 or other big-endian file) should be summed and saved by its values too; in parallel its bytes are reinterpreted instead, without any message: it enters the sum, and the file, with every number misread, already on one process, while the serial functions treat it correctly. The result is right only for numbers whose bytes read the same both ways.", "quantifier": "all arrays, lengths, number types, byte orders, numbers of processes and reduction trees", "why_tests_cant": "a test uses arrays made on the same machine", "anchors": ["pyspod/utils/parallel.py:allreduce", "pyspod/utils/parallel.py:npy_save"]}
{"id": "C158", "title": "In-memory streaming fit is streaming SPOD of the record", "statement": "A streaming fit of one in-memory dataset, with two or more requested modes, saves for every frequency the values and the array of modes that the streaming algorithm computes on one process from the whole record and the full weights, on any number of processes; it fails to produce numbers exactly when that algorithm does. The saved columns are orthonormal in the weighted inner product up to the number of completed blocks and zero beyond, and while that number does not exceed the number of modes they give, with the squared values, the weighted cross-spectral matrix of the record exactly. Given as several datasets the record should give the same result; instead the fit uses fewer snapshots than the record has: those of the first dataset and the tail of the second beyond the length of the first, with parameters checked for the whole record.", "quantifier": "every dataset, settings with a feasible block layout and two or more modes, weights, number of processes (no process with exactly one entry), SVD routine; every list of two or more datasets with a non-empty second one", "why_tests_cant": "composition of reader, weights, stream, reduction and output over all sizes and processes", "anchors": ["pyspod/spod/streaming.py:Streaming.fit", "pyspod/spod/base.py:Base._initialize", "pyspod/utils/reader.py:reader_1stage"]}
{"id": "C159", "title": "In-memory POD fit is POD of the concatenated record", "statement": "A POD fit of in-memory datasets of one variable without variable axis, with at most as many modes as snapshots, saves the eigenvalues and the mode array that POD on one process computes from the concatenated record and the full weights, whatever the number of processes and however the record is split into datasets. With real data and a correct eigensolver the eigenvalues are non-negative and sum to the weighted variance, every saved mode (if its values are numbers) captures its own eigenvalue, and modes of different eigenvalues are real and orthonormal in the weighted inner product. A request for more modes than snapshots should be refused; a serial run refuses it, but a run with a communicator goes through whenever the sizes divide, and saves an array that claims a smaller grid and more modes than were computed.", "quantifier": "every list of non-empty datasets on a grid, weights, number of processes, eigensolver, number of modes", "why_tests_cant": "composition of distribution, weights, mean, reduction and output over all sizes and processes", "anchors": ["pyspod/pod/standard.py:Standard.fit", "pyspod/pod/base.py:Base._initialize", "pyspod/utils/parallel.py:distribute_data", "pyspod/utils/parallel.py:npy_save"]}
{"id": "C160", "title": "Oblique-projection coefficients of the caller's data on any number of processes", "statement": "compute_coeffs_op, called with an array and a results folder whose weights and mode files fit the data, writes the same coeffs.npy, modes_r.npy and ltm.npy whatever the number of processes: modes_r.npy holds the stored modes of the selected frequencies side by side in the documented order (zeros in unused slots), ltm.npy the temporal mean of the data, and the coefficients make the weighted residual orthogonal to every saved mode, so that no other coefficients come closer to the fluctuations at any time.", "quantifier": "every data array and grid, with or without variable axis, every stored spectrum, selection of frequencies, weights, number of processes, and SVD routine", "why_tests_cant": "composition of distribution, mode gathering, reductions and parallel output over all sizes and processes", "anchors": ["pyspod/spod/utils.py:compute_coeffs_op", "pyspod/spod/utils.py:_oblique_projection", "pyspod/spod/utils.py:_get_modes", "pyspod/spod/utils.py:_get_required_data", "pyspod/utils/parallel.py:distribute_data", "pyspod/utils/parallel.py:distribute_dimension", "pyspod/utils/parallel.py:npy_save"]}
{"id": "C161", "title": "Fit, coefficients, reconstruction: the record comes back through the files", "statement": "A fit of an array, compute_coeffs_op with the same array on the folder the fit left, and compute_reconstruction for any selection of times, each on its own number of processes: with the full spectrum, long-time mean, positive weights, every saved eigenvalue positive and the others zero, a window without zeros and no direction lost to the tolerance, the calls succeed and the snapshots lying in a block come back unchanged, both in the array a single process computes and in the file all processes write together in any order.", "quantifier": "every array, grid, weights, solver keeping its promises, selection of times, and every number of processes at each of the three calls", "why_tests_cant": "a composition of three calls through their files, over all inputs and process counts", "anchors": ["pyspod/spod/standard.py:Standard.fit", "pyspod/spod/base.py:Base._store_and_save", "pyspod/spod/utils.py:compute_coeffs_op", "pyspod/spod/utils.py:compute_reconstruction", "pyspod/utils/parallel.py:npy_save"]}
{"id": "C162", "title": "A POD fit, its coefficients and a reconstruction give the record back", "statement": "POD: after a fit of a single array of real data, compute_coeffs and compute_reconstruction. The coefficients come out the same with any number of processes, coeffs.npy holding for every mode the unweighted inner product of the stored mode with the fluctuation of the data about its mean, modes_r.npy the stored modes and ltm.npy the mean; the stored weights are read but have no influence. If no weights were given (all one), all saved values are numbers, the saved modes have different eigenvalues and every eigenvalue left out is zero, the reconstructed snapshots are those of the record, in the returned array and in the file the processes write together, whatever numbers of processes took part in the fit, the coefficients and the reconstruction. With any other constant weights the same workflow returns the mean plus the fluctuation divided by the weight, which agrees with the record only where the record equals its mean.", "quantifier": "every data array accepted by the fit (real data, one variable), every number of modes, eigensolver keeping its promise, numbers of processes in the three calls, selection of times, interleaving of file writes", "why_tests_cant": "a test fixes one data set and compares within a tolerance on one process; that every entry of every record comes back needs the algebra of the three calls together with the movement of the data", "anchors": ["pyspod/pod/utils.py:compute_coeffs_op", "pyspod/pod/utils.py:compute_reconstruction", "pyspod/pod/standard.py:Standard.fit", "pyspod/pod/base.py:Base._store_and_save", "pyspod/pod/base.py:Base.compute_coeffs_op"]}
{"id": "C163", "title": "Convolution coefficients of the caller's data on any number of processes", "statement": "compute_coeffs_conv, called with an array and a results folder whose weights and mode files fit the data, completes on every number of processes that hold at least two entries each when the selection covers all frequencies (each once, in any order). ltm.npy is the temporal mean, the same for all numbers of processes. coeffs.npy should be the same for all of them too, and row i should belong to the i-th selected frequency; it holds only the sums over the entries of the first process (the difference to one process is exactly what the others hold), and row i combines the transform at the i-th selected frequency with the modes of frequency i. modes_r.npy holds, in the part of every process, the parts of the mode files it read, one frequency after the other, whatever its shape says.", "quantifier": "every data array, results folder that fits it, order of the frequencies, number of processes (at least two entries each), window, contents of uninitialised memory", "why_tests_cant": "a test fixes one data set, one process and compares with stored numbers; which entries reach the file is a statement about all distributions", "anchors": ["pyspod/spod/utils.py:compute_coeffs_conv", "pyspod/utils/parallel.py:distribute_data", "pyspod/utils/parallel.py:distribute_dimension", "pyspod/utils/parallel.py:npy_save"]}
{"id": "C164", "title": "Convolution coefficients of a fit at its blocks", "statement": "After a fit of an array (long-time mean, no normalization, on any number of processes) the coefficients by convolution that one process computes at all frequencies from the folder the fit left are, in the middle of every block of the fit, the square root of the stored eigenvalue times a unit vector over the blocks, up to the sum of the window, the square root of the number of blocks and the correction at the ends of the record. Away from the ends the mean energy of a coefficient over the blocks is its eigenvalue in units of the squared sum of the window, and coefficients of different eigenvalues at one frequency are uncorrelated.", "quantifier": "every array, shape, weights, window, overlap, number of blocks, frequencies and modes, number of processes of the fit, every eigenvalue routine meeting its specification", "why_tests_cant": "the mean over the blocks equals the eigenvalue only through the eigenvector equation of a matrix the test cannot see, for all data; a test on one record compares two numbers up to rounding", "anchors": ["pyspod/spod/standard.py:Standard.fit", "pyspod/spod/utils.py:compute_coeffs_conv", "pyspod/spod/base.py:Base._store_and_save"]}
{"id": "C165", "title": "Stored weights and long-time mean, and who can use them", "statement": "After a fit, weights.npy holds the weights of the user (or ones) on the grid and ltm_modes.npy the average of every entry over all snapshots, whatever the number of processes and also when another mean (zero or of the block) was subtracted. A fit of netCDF files stores the same values as a table of points and variables: a process without communicator computes the same coefficients from it, but several processes cannot compute coefficients of the same record held in memory (they never return) when the longest axis of a snapshot is the third or later, or the second and there are more processes than variables, or the first and its length is not a multiple of the number of processes. When the first axis is longest and the number of processes divides the length of the first axis of the grid, the table gives what weights in their own shape give. Where several processes do complete although the second axis is longest, they may silently use weights of other entries: coeffs.npy of one record then depends on the number of processes. Coefficients by convolution use the table in the same way.", "quantifier": "all in-memory records and netCDF record sets, grids, weights, types of mean, numbers of processes, message orders, results folders and data for the coefficients", "why_tests_cant": "the content of the files is put together from the parts of all processes; tests compare the files of one small run, and never compute coefficients in parallel after a netCDF fit", "anchors": ["pyspod/spod/base.py:Base._store_and_save", "pyspod/spod/base.py:Base.long_t_mean", "pyspod/spod/base.py:Base._initialize", "pyspod/utils/parallel.py:npy_save", "pyspod/utils/parallel.py:distribute_dimension", "pyspod/spod/utils.py:compute_coeffs_op"]}
{"id": "C166", "title": "Coefficients from the mode files of a netCDF fit", "statement": "A fit of netCDF files writes one file per mode, a fit of arrays one file per frequency. If both have seen the same record with the same settings (on any numbers of processes, with any message orders), then coefficients computed by one process without communicator, or by several that divide the first and longest axis evenly, from either results folder are the same: the same coefficients, stored modes and stored mean, or the same error, for every selection of frequencies, tolerance and data. In particular a fit of netCDF files, coefficients of the record and a reconstruction give the snapshots in the blocks back unchanged under the conditions of C161.", "quantifier": "all pairs of an in-memory record and netCDF record set with the same snapshots, settings, numbers of processes, message orders, weights, period bounds, frequency indices, tolerances and data for the coefficients", "why_tests_cant": "the two formats are written by different branches and read back by different branches; a test compares at best one small run in one format", "anchors": ["pyspod/utils/postproc.py:get_modes_at_freq", "pyspod/spod/utils.py:compute_coeffs_op", "pyspod/spod/base.py:Base._store_and_save", "pyspod/spod/base.py:Base._initialize"]}
{"id": "C167", "title": "The shape in which weights are passed", "statement": "A fit (batch or streaming SPOD, or POD) of in-memory arrays checks only the number of the weights passed by the user. One process without communicator gives the same result for every shape that holds the same numbers in C order. With a communicator, weights passed as one row of numbers (as the documentation of custom weights asks for) give no result at all when the longest axis of a snapshot is not the first one; when it is the first one and the number of processes divides its length, they give what the same weights give in the shape of the grid.", "quantifier": "all in-memory records, grids, settings, weights, shapes of the weights and numbers of processes", "why_tests_cant": "which axis is cut depends on the grid and how many processes there are; tests pass weights of one shape on one or two processes", "anchors": ["pyspod/spod/base.py:Base.define_weights", "pyspod/spod/base.py:Base._initialize", "pyspod/pod/base.py:Base.define_weights", "pyspod/pod/base.py:Base._initialize", "pyspod/utils/parallel.py:distribute_dimension", "pyspod/utils/weights.py:custom"]}
