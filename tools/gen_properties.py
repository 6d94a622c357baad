#!/usr/bin/env python3
"""Single source for properties.jsonl (run from /verif)."""
import json
P = []
def p(id, title, statement, quantifier, why, anchors):
    P.append(dict(id=id, title=title, statement=statement, quantifier=quantifier,
                  why_tests_cant=why, anchors=anchors))

PAR='pyspod/utils/parallel.py'; RD='pyspod/utils/reader.py'; SB='pyspod/spod/base.py'
SS='pyspod/spod/standard.py'; ST='pyspod/spod/streaming.py'; SU='pyspod/spod/utils.py'
PB='pyspod/pod/base.py'; PS='pyspod/pod/standard.py'; PU='pyspod/pod/utils.py'
W='pyspod/utils/weights.py'; ER='pyspod/utils/errors.py'; IO='pyspod/utils/io.py'
PP='pyspod/utils/postproc.py'; EB='pyspod/emulation/base.py'; EN='pyspod/emulation/neural_nets.py'

# ---------------------------------------------------------------- distribution
p('C01','Work distribution is an exact, balanced, ordered partition',
  'Splitting N items over `size` processes gives each rank a contiguous index range; the ranges of ranks 0,1,2,... follow one another without gap or overlap and together are exactly [0,N); two ranks never differ by more than one item and lower ranks never hold fewer; a rank number outside the group gets an empty range.',
  'every N >= 0, every size >= 1, every rank','the number of processes and the array length are unbounded; tests run with 2 ranks on one array',
  [f'{PAR}:_blockdist'])
p('C02','Distributing an array loses, duplicates and moves nothing',
  'When an array is distributed over a communicator along an axis, entry [..,k,..] of the piece owned by rank r is entry [..,k+start_r,..] of the original; each entry of the original is on exactly one rank; putting the pieces back together along the axis in rank order gives the original array; without communicator the array is returned unchanged.',
  'every array of every shape, every axis, every number of ranks (also more ranks than entries)','all shapes x axes x communicator sizes',
  [f'{PAR}:distribute_data',f'{PAR}:distribute_dimension',f'{PAR}:distribute'])
p('C03','Data, weights and saved results are all cut along the same axis',
  'The axis chosen for the data is the first axis (time excluded) of maximal length; the axis the reader reports for the weights and the output files is the same axis, also when a trailing axis of length one was added for single-variable data; hence on every rank the i-th local weight belongs to the same spatial point and variable as the i-th local data column.',
  'every snapshot shape and number of variables, every number of ranks','argmax ties and trailing axes over all shapes',
  [f'{PAR}:distribute_data',f'{RD}:reader_1stage.__init__',f'{SB}:Base._initialize'])
p('C04','Parallel .npy writing yields the serial file, for every write schedule',
  'After all ranks of a communicator have saved their pieces along an axis, the file holds exactly the header for the global shape followed by the C-ordered array obtained by concatenating the pieces along that axis in rank order, whatever was in the file before, in whatever order the individual elements of the ranks reach the file, and also when some ranks own an empty piece; in particular saving a distributed array gives the same file as a serial save.',
  'every communicator size, every shape/axis, every split into pieces, every interleaving of the element writes, every previous file content','interleavings and shapes are unbounded; the MPI test uses 2 ranks and one schedule',
  [f'{PAR}:npy_save'])
p('C05','Parallel .npy round trip with explicit counts',
  'Loading a file written by the parallel save, with each rank asking for the count it saved, returns to every rank exactly the piece it saved.',
  'every communicator size, shape, axis and split','unbounded sizes and splits',[f'{PAR}:npy_save',f'{PAR}:npy_load'])
p('C06','Parallel .npy loading without counts does not distribute the array',
  'Loading with the default count is expected to hand out the whole array in balanced pieces. It does not: every rank receives at most one slice along the axis (rank r gets one slice iff N//size + N%size > r), so on a communicator of `size` ranks at most `size` slices are loaded, and the whole array is loaded only if it has fewer slices than ranks (or exactly one slice); never when N > size, nor when N = size > 1.',
  'every array length N and every communicator size','holds for all N and sizes; the tests always pass an explicit count',[f'{PAR}:npy_load'])
p('C07','Parallel mean and variance equal the global ones for every reduction order',
  'The parallel mean/variance returns the number of entries, the mean and the population variance of the union of all local arrays, for every way the MPI library may bracket the pairwise reduction.',
  'every list of non-empty local arrays, every binary reduction tree','MPI may use any reduction tree; a test sees one',[f'{PAR}:pvar'])
p('C08','An empty local piece makes the parallel variance undefined',
  'If any rank holds no entry (more ranks than entries along the distributed axis) the parallel mean and variance are NaN on every rank, so variance-normalised weights become NaN, whereas the serial run is fine; with at least as many entries as ranks along the axis no rank is empty.',
  'every distribution over every number of ranks, every reduction tree','needs communicator sizes larger than the array',[f'{PAR}:pvar',f'{W}:apply_normalization'])
p('C09','Sub-communicator grids are complete',
  'The two grid dimensions used to split a communicator multiply to its size, whatever admissible factorisation the MPI library returns, and the second is a multiple of 3, else of 4, else of 2 when the size is.',
  'every communicator size >= 1, every factorisation returned by MPI_Dims_create','all sizes',[f'{PAR}:create_subcomm'])

# ---------------------------------------------------------------- readers
p('C10','Reading a list of in-memory datasets concatenates them in time',
  'Fitting on a list of datasets uses, on every rank, exactly the local spatial piece of the time-concatenation of the datasets, in order, with nothing lost or repeated, however the record is split into datasets; datasets whose spatial shapes differ are rejected.',
  'every list of datasets of equal spatial shape, every lengths split, every number of ranks','all ways of splitting a record into datasets',[f'{RD}:reader_1stage'])
p('C11','Single-dataset streaming delivers every snapshot once, in order, then stops',
  'For a single dataset the snapshot requested at time t is the local piece of row t for every t < nt, and a request at or beyond nt yields no data.',
  'every dataset and every t, every number of ranks','all t and nt',[f'{RD}:reader_1stage.get_data',f'{RD}:reader_1stage.get_data_for_time'])
p('C12','Streaming over several datasets reads the wrong rows',
  'The snapshot at global time t should be row t of the concatenation. For t inside a dataset that starts at time s > 0 the reader instead returns row t (not row t-s) of that dataset, or raises when the dataset has no row t; hence a streaming fit on two or more non-empty datasets receives the rows of the first dataset followed by the rows of the second from the length of the first on, nothing of any further dataset, and never the complete record; it ends without an error.',
  'every list of datasets, every t','needs a characterisation over all splits',[f'{RD}:reader_1stage.get_data_for_time',f'{ST}:Streaming.fit'])
p('C13','Complex input loses its imaginary part',
  'The in-memory reader stores the record in a real buffer: whatever complex data are given, the values used by fit are their real parts; only real data are represented faithfully.',
  'every complex-valued record','over all inputs',[f'{RD}:reader_1stage.get_data_for_time',f'{PB}:Base._initialize'])
p('C14','Two-stage parallel reading equals direct slicing, for every message order',
  'For any time range, after the files were read by time ranges and redistributed by point-to-point messages, rank r holds exactly the requested time steps of the time-concatenated files restricted to its range of flattened spatial points, all variables in order, whichever number of ranks acts as reader and in whatever order messages arrive.',
  'every set of files, variables, time range, communicator size, number of readers, every delivery order','message schedules, file splits and process counts are unbounded',[f'{RD}:reader_2stage.get_data_for_time'])
p('C15','The chunked in-memory store tiles the record',
  'Reading the whole record in chunks and blocks produces time blocks whose [s,e) ranges follow one another from 0 to nt without gap or overlap, in increasing key order, each holding exactly the rows s..e of the local data.',
  'every nt, number of chunks >= 1 and blocks per chunk >= 1','all combinations',[f'{RD}:reader_2stage.get_data',f'{RD}:reader_mat.get_data'])
p('C16','Label-based time selection picks exactly the requested rows',
  'Selecting by the first and last time label of the requested rows returns exactly those rows when the labels are distinct (in any order); when a boundary label also occurs outside the requested range the read raises; whatever the labels, a read that does not raise returns exactly the requested rows.',
  'every time axis and every non-empty row range','all time axes',[f'{RD}:reader_2stage.get_data_for_time'])
p('C17','Chunking can leave the last block empty',
  'fit takes the spatial size from the first row of the last block; that block is non-empty exactly when nchunks*nblocks <= nt, and otherwise fit fails; the number of chunks is chosen from the data size alone, so that with snapshots of 256 MB or more per process fit fails for every length of the record, and with snapshots of at most a third of that there is at least one chunk and, from three snapshots on, no empty block.',
  'every nt, nchunks, nblocks','depends on data volume far beyond test sizes',[f'{RD}:reader_2stage.__init__',f'{RD}:reader_2stage.get_data',f'{SB}:Base.long_t_mean'])
p('C18','Padded redistribution always fails',
  'When the number of elements reaches the 32-bit limit and the MPI library is older than version 4, reading must still work; the padded path instead always raises (a timer variable is used before assignment), on every rank and for every input that takes it.',
  'every configuration on the padded path','needs > 2^31 elements',[f'{RD}:reader_2stage.get_data_for_time',f'{RD}:reader_mat.get_data_for_time'])
p('C19','MATLAB reader: one step per file in sorted-name order',
  'The record read from a list of MATLAB files is the sequence of their contents in lexicographic order of the file names, whatever the order of the list, redistributed as in the two-stage reader.',
  'every list of files with distinct names, every time range, every communicator size','all orders, sizes',[f'{RD}:reader_mat'])

# ---------------------------------------------------------------- spod base
p('C20','Accepted overlap leaves a positive hop',
  'The number of overlapping snapshots is the smallest integer not below n_dft*overlap/100; construction is rejected exactly when it exceeds n_dft-1, so every accepted configuration advances by at least one snapshot per block.',
  'every n_dft and overlap percentage','all values',[f'{SB}:Base.__init__'])
p('C21','Blocks tile the record: right count, right position, never out of range',
  'A fit that is accepted uses n_blocks >= 2 blocks; block i is exactly the n_dft consecutive snapshots starting at i*(n_dft-n_overlap), all inside the record; the clamp at the end of the record never takes effect; one more block would not fit; a record too short for two blocks, or n_dft < 4, is rejected.',
  'every nt, n_dft, n_overlap','all parameter triples',[f'{SB}:Base._initialize',f'{SS}:Standard._compute_blocks'])
p('C22','The long-time mean is the arithmetic mean of all snapshots',
  'Whatever the number of blocks and remainder used to accumulate it, and whether the record is one array or a chunked store, the long-time mean saved and subtracted by fit equals the sum over all nt snapshots divided by nt.',
  'every record, nt, n_blocks >= 1','all splits',[f'{SB}:Base.long_t_mean'])
p('C23','Streaming saves a wrong long-time mean',
  'The long-time mean saved by the streaming fit should be the mean of the record; it is the first snapshot divided by nt, for every record.',
  'every record','over all records',[f'{SB}:Base._initialize',f'{SB}:Base.long_t_mean',f'{ST}:Streaming.fit'])
p('C24','One-sided frequency axis matches the transform rows',
  'For real data without full spectrum the frequency axis has exactly as many entries as the one-sided transform has rows, entry k is k/(n_dft*dt), it is strictly increasing from 0 and never exceeds the Nyquist frequency 1/(2 dt), which it attains iff n_dft is even.',
  'every n_dft >= 1 and dt > 0','all sizes',[f'{SB}:Base.get_freq_axis',f'{SS}:Standard._compute_blocks'])
p('C25','Two-sided frequency axis of complex data is wrong for odd n_dft',
  'For complex data the axis should satisfy |f| <= 1/(2 dt). For even n_dft it does and equals the DFT frequencies (Nyquist taken positive); for every odd n_dft >= 3 the entry (n_dft+1)/2 exceeds the Nyquist frequency (it is off by exactly 1/dt) and all other entries are right.',
  'every n_dft and dt > 0','all sizes and parities',[f'{SB}:Base.get_freq_axis'])
p('C26','Weights must match the data and default to one',
  'User weights are accepted iff their number of entries is nx*nv; without weights every entry is one; after acceptance the i-th flattened weight multiplies the i-th flattened data column.',
  'every weight array and data shape','all shapes',[f'{SB}:Base.define_weights'])
p('C27','Variance normalisation modifies the caller\'s weights, so refitting differs',
  'A fit should leave the weights passed by the caller unchanged and fitting twice should give the same weights. With variance normalisation the caller\'s array is divided by the variance in place at every fit: after n fits it has been divided n times.',
  'every weights array, every data with variance different from 0 and 1, every number of fits','histories of fits',[f'{SB}:Base.define_weights',f'{W}:apply_normalization'])
p('C28','The number of saved modes never exceeds the number of blocks, but is remembered',
  'After every fit the number of saved modes is at most the number of blocks of that fit and at most the number requested; across a sequence of fits on one object (or one parameter dictionary) it is the minimum over the whole history, so a later fit on a longer record can save fewer modes than requested and available.',
  'every request and every sequence of fits','histories of fits',[f'{SB}:Base._initialize',f'{SB}:Base._store_and_save'])
p('C29','Result folders separate different spectral parameters',
  'Two runs with the same base folder write to the same result folder iff they have the same n_dft, overlap and number of blocks.',
  'every pair of parameter triples','all integers; string injectivity',[f'{SB}:Base._initialize'])
p('C30','Only consistent storage options are accepted',
  'A fit that reaches mode saving has: not both storage schemes enabled; the per-mode scheme only with a communicator and only with file-based (flattened) data; the per-frequency scheme only with in-memory data.',
  'every combination of options and data source','exhaustive over option space, stated as implication',[f'{SB}:Base.__init__',f'{SB}:Base._initialize',f'{SS}:Standard._compute_standard_spod'])

# ---------------------------------------------------------------- standard spod
p('C31','Blocks read from the chunked store are exact while old chunks are discarded',
  'Processing the blocks in order from the chunked store, with discarding of chunks no longer needed after every block, returns for every block exactly its n_dft rows, never raises, and never discards a chunk a later block needs.',
  'every tiling of the record into chunks, every block layout, the whole sequence of blocks','histories of reads and deletions',[f'{SS}:Standard._get_block'])
p('C32','Batch SPOD does not depend on the number of processes',
  'For every number of ranks (no rank holding exactly one space-variable entry) the eigenvalues and the mode files written are the same as in the serial run, in exact arithmetic.',
  'every record, shape, weights, parameters, number of ranks','all process counts and shapes',[f'{SS}:Standard.fit',f'{SS}:Standard._compute_standard_spod'])
p('C33','Per-mode files are complete, written once, and correctly assembled',
  'With the per-mode storage scheme each (frequency, mode) file is written exactly once by exactly one rank, and its content is the concatenation in rank order of the local mode pieces: in-place removal of the padding never overwrites data still needed.',
  'every number of ranks, local sizes, frequencies and modes','all combinations of sizes; in-place moves',[f'{SS}:Standard._compute_standard_spod'])
p('C34','The SPOD matrix is Hermitian positive semidefinite, eigenvalues are real and non-negative',
  'For real non-negative weights the matrix whose eigenpairs are computed at each frequency is Hermitian and positive semidefinite, so each of its eigenvalues is a non-negative real.',
  'every record and weights','over all inputs',[f'{SS}:Standard._compute_standard_spod'])
p('C35','SPOD modes are orthonormal in the weighted inner product',
  'At each frequency, modes belonging to distinct positive eigenvalues are orthogonal and every mode with positive eigenvalue has unit norm in the weighted inner product; the check reported to the user therefore succeeds in exact arithmetic.',
  'every record, weights, every eigensolver returning unit eigenvectors','over all inputs and eigensolvers',[f'{SS}:Standard._compute_standard_spod',f'{SU}:check_orthogonality'])
p('C36','Repeated eigenvalues may break orthogonality',
  'With the general (non-Hermitian) eigensolver that is used, orthonormality of modes sharing an eigenvalue is not implied by what the solver guarantees: there are admissible solver answers for which two saved modes are not orthogonal.',
  'exists an admissible solver answer','tests see one solver',[f'{SS}:Standard._compute_standard_spod'])
p('C37','Eigenvalues are sorted and modes follow them',
  'At every frequency the reported eigenvalues are non-increasing, are a rearrangement of the computed ones, and the k-th saved mode is built from the eigenvector of the k-th reported eigenvalue; truncation keeps the leading ones.',
  'every eigensolver output, every argsort tie-breaking','all permutations and ties',[f'{SS}:Standard._compute_standard_spod'])
p('C38','One-sided spectrum keeps the total energy for even n_dft only',
  'For real data and even n_dft the sum over frequencies of the (doubled) one-sided spectral energies equals the two-sided total, i.e. the windowed signal energy (Parseval). For odd n_dft the last one-sided frequency is not a Nyquist frequency but is not doubled, and with full spectrum of real data energy is counted twice, so the total is wrong unless those contributions vanish.',
  'every real block, every n_dft','all sizes and signals',[f'{SS}:Standard._compute_standard_spod',f'{SB}:Base.get_freq_axis'])
p('C39','Saved Fourier blocks reload to the same realizations',
  'For single-variable data, a fit with block saving followed by a fit that reuses them works with exactly the same Fourier realizations on every rank and for every number of ranks in both runs; different (block, frequency) pairs never share a file.',
  'every record, n_blocks, n_freq, numbers of ranks when saving and loading','all indices; file-name injectivity',[f'{SS}:Standard.fit',f'{SB}:Base._are_blocks_present'])
p('C40','Block reuse is only as good as file existence',
  'Reuse happens iff every expected block file exists. A missing file always forces recomputation. But existence is all that is checked: a crash after the last file was created and before its contents were written leaves a state that is accepted for reuse.',
  'every set of existing files; every crash point of the save sequence','crash points',[f'{SB}:Base._are_blocks_present',f'{SS}:Standard.fit',f'{PAR}:npy_save'])
p('C41','Confidence bounds are stored under swapped names',
  'The upper confidence bound saved for each eigenvalue should not be below the lower one. For every confidence level above one half and every positive eigenvalue the value saved as upper is strictly below the value saved as lower.',
  'every eigenvalue, number of blocks, confidence level','over all levels, any increasing quantile function',[f'{SB}:Base._initialize',f'{SS}:Standard._compute_standard_spod',f'{SB}:Base._store_and_save'])
p('C42','A rank holding a single entry makes batch SPOD fail',
  'Batch SPOD should work for every number of ranks; a rank (or serial run) whose local data have exactly one space-variable entry fails with a shape error, and no other local size does.',
  'every local size, n_blocks >= 2','depends on process count',[f'{SS}:Standard._compute_standard_spod'])

# ---------------------------------------------------------------- streaming
p('C43','Streaming block schedule: exact law',
  'Streaming SPOD always sums windows of n_dft consecutive snapshots with the window and DFT phase starting at the first of them; slot j of n_par=ceil(n_dft/hop) parallel slots starts its c-th block at time c*(n_par*hop+1)+j*hop, for all time; at most one block completes per snapshot.',
  'every n_dft, hop, every time (unbounded stream)','unbounded streams',[f'{ST}:Streaming.fit'])
p('C44','Streaming and batch SPOD use different blocks',
  'Streaming should process the same blocks as batch SPOD. It does only for the first n_par blocks; every later block is shifted by floor(k/n_par) snapshots relative to block k of the batch layout.',
  'every n_dft, hop, block number','unbounded streams',[f'{ST}:Streaming.fit',f'{SS}:Standard._compute_blocks'])
p('C45','Completed streaming transforms equal the windowed DFT of the block minus the running mean',
  'When a block completes, the vector used to update the basis equals the windowed DFT (scaled by the window gain over n_dft) of the block\'s snapshots minus the mean of all snapshots received so far (doubled at interior frequencies of real data; the configured mean_type is ignored).',
  'every stream, every completion','unbounded streams',[f'{ST}:Streaming.fit'])
p('C46','Streaming basis update is the exact rank-one covariance update',
  'Before truncation, each update replaces U S^2 U^H by (m+1)/(m+2) U S^2 U^H + (m+1)/(m+2)^2 x x^H (m = number of blocks processed), provided the new vector is not in the span of the basis; hence with no truncation loss after N blocks block k carries weight (k+1)/((k+2)(N+2)).',
  'every basis, vector, block number, every SVD routine meeting the SVD equations','over all inputs and number of blocks',[f'{ST}:Streaming.fit'])
p('C47','Streaming modes stay orthonormal',
  'If the basis is orthonormal before an update (on its non-zero part) it is after, so the modes finally saved are orthonormal in the weighted inner product (weights non-zero).',
  'every stream and SVD routine','unbounded streams',[f'{ST}:Streaming.fit'])
p('C48','Streaming SPOD does not depend on the number of processes',
  'Every local update uses sums over all ranks, so the pieces of the basis held by the ranks are always the pieces of the basis of the serial run and singular values agree.',
  'every stream, number of ranks, every history','unbounded streams x ranks',[f'{ST}:Streaming.fit'])
p('C49','Streaming with one saved mode or one local entry fails',
  'Streaming should accept every n_modes_save >= 1 and every local size; with n_modes_save = 1 the first basis update raises, and with a single local entry the end of the stream raises instead of ending the fit.',
  'every configuration with n_modes_save = 1 or local size 1','over all configurations',[f'{ST}:Streaming.fit'])

# ---------------------------------------------------------------- coefficients
p('C50','Oblique-projection coefficients are the weighted least-squares solution and reconstruct the span',
  'The coefficients make the residual orthogonal to all selected modes in the weighted inner product and minimise its weighted norm; all data whose fluctuation lies in the span of the modes are reconstructed exactly if and only if no non-zero singular value of the matrix of mode inner products is at or below the tolerance times the largest one.',
  'every modes, weights > 0, data','over all inputs',[f'{SU}:_oblique_projection',f'{SU}:_compute_rec_op',f'{SU}:compute_coeffs_op'])
p('C51','Coefficients and reconstructions do not depend on the number of processes',
  'Coefficients computed on any number of ranks equal the serial ones, and every entry of the reconstruction that a rank computes equals the serial entry of the same point and time (the file: C152).',
  'every data, number of ranks','all process counts',[f'{SU}:compute_coeffs_op',f'{SU}:compute_reconstruction'])
p('C52','Convolution coefficients are wrong in parallel',
  'The convolution coefficients saved by a parallel run should equal the serial ones; only rank 0\'s partial sum is saved, so they agree iff the contributions of all other ranks cancel.',
  'every data and number of ranks','all process counts',[f'{SU}:compute_coeffs_conv'])
p('C53','Convolution stores its modes in scrambled layout',
  'The modes file written with convolution coefficients should hold mode m of frequency f at point x at [x,f,m]; it holds the entry at [x*n_freq+f] of the frequency-major array, which is the right one for all entries only if there is one frequency or one point.',
  'every number of points, frequencies, modes','all shapes',[f'{SU}:compute_coeffs_conv',f'{SU}:_compute_rec_conv'])
p('C54','Edge correction of convolution coefficients is off by one',
  'Near both ends the window sum should run over exactly the window samples that overlap data; at the beginning it includes one padded sample too many and is skipped for two positions, at the end it drops one data sample.',
  'every nt, n_dft, position','all positions',[f'{SU}:compute_coeffs_conv'])
p('C55','Mode gathering order',
  'Column n_modes*k+m of the gathered mode matrix is mode m of the k-th requested frequency, for every list of requested frequencies, and no other column is touched.',
  'every frequency list and number of modes','all lists',[f'{SU}:_get_modes'])
p('C56','Frequency range selection',
  'With both period bounds the frequencies used run from the one nearest to 1/T_ub to the one nearest to 1/T_lb; without bounds all frequencies are used; a single bound is silently ignored; an explicit frequency list without both bounds raises, and so do swapped bounds.',
  'every frequency axis and bounds','decision table over all inputs',[f'{SU}:compute_coeffs_op',f'{SU}:compute_coeffs_conv'])
p('C57','Time selection for reconstruction is valid',
  'Every accepted keyword selects strictly increasing in-range time indices with the documented stride starting at 0; the default selects three in-range indices and raises for a one-snapshot record; unknown keywords and other types are rejected.',
  'every nt >= 1 and selector','all nt',[f'{SU}:compute_reconstruction',f'{PU}:compute_reconstruction'])
p('C58','Orthogonality check ignores the imaginary part',
  'The check should succeed only if the inner product is within tolerance; because complex numbers are compared lexicographically it succeeds for inner products with arbitrarily large imaginary part.',
  'every inner product value','over all values',[f'{SU}:check_orthogonality'])

# ---------------------------------------------------------------- pod
p('C59','POD does not depend on the number of processes',
  'The snapshot correlation matrix, hence eigenvalues and saved modes, are the same for every number of ranks.',
  'every record, weights, number of ranks','all process counts',[f'{PS}:Standard.fit'])
p('C60','POD reconstruction is exact only for unit weights',
  'With unit weights, coefficients followed by reconstruction with all modes of non-zero energy return the data, and with fewer modes the best approximation. The coefficients ignore the weights: with a constant weight c the fluctuation comes back divided by c, so for c other than 1 the reconstruction is right only where the data do not vary.',
  'every data; exists a weight','over all inputs',[f'{PU}:compute_coeffs_op',f'{PU}:compute_reconstruction'])
p('C61','POD accepts only single-variable data without variable axis, and needs n_modes_save',
  'POD fit should accept data with a variables axis and the default number of modes; it raises for every data with a variable axis, and for every data when n_modes_save is left at its default.',
  'every data shape','all shapes',[f'{PB}:Base._initialize',f'{PS}:Standard.fit'])
p('C62','POD modes are not sorted by energy',
  'The saved leading modes should be those of largest eigenvalue; they are the first ones in the order the solver returns, so for some admissible solver answers the most energetic mode is not saved.',
  'exists an admissible solver answer','tests see one solver',[f'{PS}:Standard.fit'])

# ---------------------------------------------------------------- postproc / weights / io / errors / emulation
p('C63','Nearest frequency',
  'The returned frequency is in the axis at the returned index, no other entry is closer to the request, and among equally close entries the first index is returned.',
  'every non-empty axis and request','all axes',[f'{PP}:find_nearest_freq'])
p('C64','Nearest coordinates: right values, wrong indices',
  'Each returned coordinate is the nearest grid value along its axis. The returned index should be its position along that axis; the code returns the position along the mirrored axis, so on every 2-D grid it returns (0,0) whatever is requested; in d dimensions only the middle axis of an odd d can be right.',
  'every grid and request','all grids',[f'{PP}:find_nearest_coords'])
p('C65','Mode files sort in frequency order and never collide',
  'Different frequencies (and modes) have different file names; for indices below 10^8 sorting names sorts indices, so stacking all mode files puts frequency f at position f and mode m at position m.',
  'every number of frequencies/modes below 10^8, every directory listing order','all indices; all listing orders',[f'{PP}:get_all_modes',f'{PP}:get_modes_at_freq',f'{SS}:Standard._compute_standard_spod'])
p('C66','Geographic weights vanish at the first longitude and are misplaced for several variables in 3-D',
  'Trapezoidal weights should be positive away from the poles and belong to their grid point. The 2-D weights are zero on the whole first longitude and positive at the others away from the poles; the 3-D weights have the right size but for two or more variables are stored variable-major while data are variable-minor, so the weight used for a point is that of another point. Grids with fewer than four points in the first direction are rejected.',
  'every grid size and number of variables','all sizes',[f'{W}:geo_trapz_2D',f'{W}:geo_trapz_3D'])
p('C67','Variance normalisation of weights',
  'For every variable the normalised weight times the variance of that variable equals the original weight, other variables are untouched, and serial and parallel normalisation agree when no piece is empty and data have no NaN; other method names leave weights unchanged.',
  'every data, weights, number of variables, ranks','over all inputs',[f'{W}:apply_normalization'])
p('C68','Error norms are norms of the difference',
  'The l1, l2, linf errors are non-negative, zero iff the arrays are equal, symmetric and satisfy the triangle inequality, but l2 is scaled so that a constant error c is reported as c/sqrt(n). The relative l1, l2 errors are non-negative and vanish only for equal arrays; the relative linf error is right for positive references and at most 0 for negative ones. The h1 error vanishes iff the spatial sum of the difference does not change in time, so it vanishes for a constant offset. Unknown norms are rejected.',
  'every pair/triple of arrays','over all inputs',[f'{ER}:compute_l_errors',f'{ER}:compute_h_errors'])
p('C69','Configuration parsing',
  'Every first key of an item of the required and optional sections is returned with its last value, optional overriding required; missing required keys are not reported, and the further keys of an item are dropped.',
  'every configuration','over all configurations',[f'{IO}:read_config',f'{IO}:_parse_yaml',f'{IO}:_check_keys'])
p('C70','File format dispatch',
  'The format is chosen by the given format or the extension, ignoring case; unsupported ones are rejected; every .npy file is rejected too (the loader is not defined in that module).',
  'every file name and format','all names',[f'{IO}:read_data'])
p('C71','Scaling and descaling of coefficients are inverse',
  'De-normalising normalised data returns the data whenever no scale is zero; the local-max scale bounds all normalised entries by 1/10 and the global one by 1; a row that is identically zero has scale zero and is not recoverable under local scaling.',
  'every data matrix','over all inputs',[f'{EB}:Base.scaler',f'{EB}:Base.scale_data',f'{EB}:Base.descale_data'])
p('C72','Training sequences are in range and do not leak',
  'Every input window has n_seq_in consecutive samples, its target the n_seq_out samples starting fh after its last input; all indices are in range, targets never overlap inputs, consecutive windows advance by one; exactly one admissible window (the last) is left out.',
  'every nt, n_seq_in, n_seq_out, fh >= 1','all sizes',[f'{EN}:Neural_Nets.extract_sequences'])
p('C73','Inference covers the record or fails',
  'Inference returns the first n_seq_in samples followed by predictions, prediction block i depending only on the n_seq_in samples before it; it succeeds iff n_seq_out divides nt - n_seq_in (or nothing is to be predicted), otherwise it raises.',
  'every data, model, sizes','all sizes',[f'{EN}:Neural_Nets.model_inference'])
p('C74','Hamming window',
  'The window is symmetric, lies in [0.08,1], and its mean is 0.54-0.46/N for N >= 3 (0.08 for N = 2), so the window gain correction is finite and larger than 1.',
  'every N >= 2','all N',[f'{SU}:_hamming_window',f'{SB}:Base._initialize'])
p('C75','Plotting with a 180 degree shift: the caller\'s coordinates and where columns are drawn',
  'Plotting should not alter its inputs and should draw every column at its own longitude. With the shift option the caller\'s longitude array is changed in place and restored only when the call completes: after any history of calls it is lower by 180 times the number of shifted calls that raised. With an even number of evenly spaced longitudes stored latitude first every column is drawn at its own longitude; with an odd number every column is half a cell off; stored longitude first, the latitudes are rolled instead.',
  'every mode array, coordinate array, selection and history of calls','histories of calls, including failing ones',[f'{PP}:plot_2d_modes_at_frequency',f'{SB}:Base.plot_2d_modes_at_frequency'])
p('C76','Energy spectrum drops the sine part',
  'The energy spectrum should contain the energy of every Fourier component; it uses only the real part of the transform, so every odd real signal has zero spectrum.',
  'every signal','over all signals',[f'{PP}:compute_energy_spectrum'])

p('C77','Real or complex treatment is decided by the first snapshot only',
  'Whether the record is treated as real-valued (one-sided spectrum) depends only on the first snapshot of the first dataset: if all its entries are real the whole record is treated as real, whatever follows.',
  'every record','over all records',[f'{RD}:reader_1stage.__init__'])
p('C78','Streaming from files never ends',
  'A streaming fit ends when the reader runs out of data. The file readers never run out: a request at any time at or beyond the end of the record does not fail and does not report the end, it delivers a snapshot of zeros.',
  'every set of files, every time beyond the end, every number of ranks and message order','unbounded streams',[f'{RD}:reader_mat.get_data',f'{RD}:reader_2stage.get_data','pyspod/spod/streaming.py:Streaming.fit'])
p('C79','A file listed twice is rejected',
  'If the list of files contains the same non-empty file twice, reading raises instead of returning a record with repeated or missing snapshots.',
  'every list of files with a repetition, every time range','over all lists',[f'{RD}:reader_2stage.__init__',f'{RD}:reader_2stage.get_data_for_time'])

p('C80','Weights passed as an array are silently ignored',
  'Weights given to the constructor directly as an array should be used or rejected. Only a dictionary is recognised: an array of any size is accepted and uniform weights are used instead.',
  'every array, every data shape','over all arrays',['pyspod/spod/base.py:Base.define_weights'])
p('C81','Weight normalisation depends on the layout and type of the weights array',
  'Every accepted weights array should be normalised the same way. Integer weights are truncated (unit weights become zero when all variances exceed one); weights of single-variable data without a variable axis are normalised only where their last index is zero; a last axis shorter than the number of variables raises.',
  'every weights array and record','over all arrays',['pyspod/utils/weights.py:apply_normalization'])
p('C82','File-based fits cannot normalise weights',
  'Variance normalisation of weights should be available for file-based data as for in-memory data; it raises for every file-based record.',
  'every file-based record','over all records',['pyspod/utils/weights.py:apply_normalization','pyspod/spod/base.py:Base._initialize'])

p('C83','SPOD modes solve the weighted cross-spectral-density eigenproblem',
  'At every frequency each saved mode phi with its eigenvalue lambda (before one-sided doubling) satisfies sum_y S(x,y) w(y) phi(y) = lambda phi(x), where S is the average over blocks of q(x) conj(q(y)), the definition of SPOD.',
  'every record, weights >= 0, window, block layout, eigen-solver answer','over all data',[f'{SS}:Standard._compute_standard_spod'])
p('C84','Directory arguments of the coefficient and reconstruction methods are ignored',
  'The methods for coefficients and reconstruction of a fitted object accept directories; whatever is passed, they use the directory of the fit, so the results for two different arguments are the same, and reconstruction before coefficients raises. After a new fit the reconstruction is still the one of the earlier coefficients.',
  'every sequence of calls and arguments','histories of calls',['pyspod/spod/base.py:Base.compute_coeffs_op','pyspod/spod/base.py:Base.compute_reconstruction'])

p('C85','Streaming saves square roots of eigenvalues of a weighted spectrum',
  'The values streaming SPOD saves as eigenvalues should be comparable with those of batch SPOD. They are square roots: while no more blocks than modes were processed, each saved mode is an eigenvector of the weighted cross-spectral matrix, with eigenvalue the square of the saved value; the squares add up to the weighted block energies; and the block weights add up to less than one.',
  'every stream, distribution over ranks, SVD routine, number of blocks','over all inputs and histories',[f'{ST}:Streaming.fit'])
p('C86','Streaming yields NaN or raises when a block adds nothing new',
  'The streaming result should be finite for every stream. When the vector of a new block lies in the span of the basis the update divides by zero. A stream of equal snapshots gives, after exactly one block, zero eigenvalues and modes that are NaN everywhere, without an exception, and raises LinAlgError if a second block is complete. With n_modes_save at least the number n of entries, no stream has a finite result once n+1 blocks are complete: it has NaN at some frequency or raises, and it raises once n+2 blocks are complete. On every number of processes.',
  'every constant stream; every stream with n_modes_save >= number of entries; every length and SVD routine','over all inputs and histories',[f'{ST}:Streaming.fit'])
p('C87','Directions below the pseudo-inverse tolerance vanish from the reconstruction',
  'Data in the span of the selected modes should be reconstructed. If a non-zero singular value of the matrix of mode inner products is at or below the tolerance times the largest one, some non-zero zero-mean data in the span of the modes are reconstructed as zero, without any message.',
  'every modes, weights, tolerance, number of ranks, record length >= 2','existence for every ill-conditioned set of modes',[f'{SU}:_oblique_projection',f'{SU}:compute_reconstruction'])
p('C88','Convolution coefficients need all frequencies, two modes and two points',
  'Convolution coefficients should be available for every period range and number of modes. The call completes exactly when the range covers every frequency, there are at least two frequencies, two saved modes and two entries on the process; otherwise it raises.',
  'every number of frequencies, modes, entries','all shapes',[f'{SU}:compute_coeffs_conv'])

p('C89','POD with as many modes as snapshots always stores an undefined mode',
  'Every saved POD mode should consist of numbers. With the time mean removed one eigenvalue is zero and its mode is 0/0 at every point, so a fit that saves as many modes as there are snapshots always stores an undefined mode, for every record and solver.',
  'every record, weights, eigen-solver, number of ranks','all inputs and solver answers',[f'{PS}:Standard.fit',f'{PB}:Base.long_t_mean'])
p('C90','POD time mean',
  'The mean removed by POD, summed in two halves and a remainder, is the mean over all snapshots for every real record and record length, odd or even.',
  'every record and length','all lengths',[f'{PB}:Base.long_t_mean'])
p('C91','POD loses the imaginary part of complex records',
  'Modes and eigenvalues of a complex record should depend on all of it; they are the same for any two records with equal real parts.',
  'every pair of complex records with equal real parts','over all pairs of inputs',[f'{PB}:Base._initialize'])
p('C92','POD modes are orthonormal',
  'The saved modes are real and orthonormal in the weighted inner product, when their eigenvalues are distinct or the solver returns orthonormal vectors.',
  'every real record, non-negative weights, number of modes, admissible solver','all inputs',[f'{PS}:Standard.fit'])
p('C93','POD eigenvalues sum to the weighted variance',
  'All POD eigenvalues are non-negative and their sum is the sum over snapshots of the weighted squared norm of the fluctuation.',
  'every real record, non-negative weights, number of ranks, solver','all inputs',[f'{PS}:Standard.fit'])

p('C94','Reading all modes twice from a relative path fails',
  'Reading the modes should be repeatable. The reader changes the working directory of the process to the results directory, so with a relative results path the first call succeeds and the next one fails; with an absolute path every call succeeds.',
  'every directory tree without a nested copy of the path, every mode set','histories of calls',[f'{PP}:get_all_modes'])
p('C95','Scaling integer data destroys it',
  'Scaling then descaling should return the data. Integer data scaled by the local maximum become all zeros, because the scaled array keeps the integer type.',
  'every integer data matrix with non-zero rows','over all inputs',[f'{EB}:Base.scale_data'])

p('C96','The list of modes for the coefficients is ignored',
  'Coefficients requested for some modes should be restricted to them. The list is only recorded: two histories of calls that differ in these lists give the same results and the same files, except for the recorded list.',
  'every history of fits, coefficient computations and reconstructions by any number of objects, interrupted anywhere','histories of calls',[f'{SU}:compute_coeffs_op',f'{SB}:Base.compute_coeffs_op'])
p('C97','Coefficient folders are overwritten by the last computation',
  'A reconstruction from a coefficients folder is the one of the last completed computation that returned this folder. Two objects with the same configuration share folders, so the reconstruction by one object changes after the other computes coefficients; objects with different savedir never influence each other, neither results nor files.',
  'every history of calls by any number of objects, interrupted anywhere','histories of calls',[f'{SU}:compute_coeffs_op',f'{SU}:compute_reconstruction',f'{SB}:Base._initialize'])
p('C98','Interrupted runs',
  'A reconstruction succeeds only if coefficients were computed to the end in this folder, and coefficients only if a fit was completed in this folder. A file that was being written when the computation stopped is detected. But a computation stopped between two files in a folder that already held a complete one is not detected: the reconstruction combines modes of one computation with coefficients of the other.',
  'every history, every point of interruption','crash points',[f'{SU}:compute_coeffs_op',f'{SU}:compute_reconstruction',f'{SB}:Base._store_and_save'])
p('C99','Mode files of an earlier fit in the same folder',
  'Coefficients should use the modes of the latest fit. This holds with one file per frequency, whatever the folder held, and with one file per mode in a folder without mode files. After a fit with one file per frequency, a later fit with one file per mode (or without mode files) is shadowed: the coefficients combine the earlier modes with the later weights. After a fit with more modes per frequency, one with fewer makes every computation of coefficients raise.',
  'every earlier state of the folder, every pair of fits','histories of calls',[f'{SU}:compute_coeffs_op',f'{PP}:get_modes_at_freq',f'{SS}:Standard._compute_standard_spod'])

p('C100','Orientation of data plots',
  'Pictures of two-dimensional data show at the point (x1[i], x2[j]) the value of the data there, with coordinates along the axes of the data (also the default ones) or in the other order. The latter always holds; the former for grids that are not square, while pictures of square grids are mirrored. A call with several variables and times gives one picture each.',
  'every record, grid, coordinates, variable, time','over all grids',[f'{PP}:plot_2d_data'])
p('C101','Negative time indices in data plots',
  'A negative time index counts from the end. This holds in the function; in the method of a fitted object -1 always raises, and -k shows the snapshot 2k-1 from the end instead (or raises). Non-negative indices agree.',
  'every record, list of indices','over all indices',[f'{SB}:Base.plot_2d_data',f'{SB}:Base.get_data',f'{PP}:plot_2d_data'])
p('C102','Time windows and location of data tracers and videos',
  'A window of the record can be drawn as tracer or video. The functions draw every window inside the record; the methods of a fitted object only windows that start at 0. The curve titled with the grid point nearest to the requested one is that of the first grid point, whatever is requested.',
  'every two-dimensional record, window, sampling, coordinates','over all windows',[f'{PP}:plot_data_tracers',f'{PP}:generate_2d_data_video',f'{SB}:Base.plot_data_tracers',f'{SB}:Base.generate_2d_data_video'])
p('C103','Mode tracers',
  'Tracers of modes can be drawn for several variables and oscillate at the requested frequency. They always fail for more than one variable, and oscillate at five times the frequency.',
  'every list of variables and modes, every frequency','over all lists',[f'{PP}:plot_mode_tracers'])
p('C104','Peaks reported by plot_report',
  'For increasing positive frequencies the report contains exactly the frequencies whose eigenvalue is larger than both neighbours, larger than 1.5 times the mean of its neighbourhood and not smaller than any within ten percent of the frequency; it does not depend on the units of the eigenvalues; close peaks have the same height; the modes drawn are those of the reported frequency; the period is shown correctly. A maximum shared by two neighbouring frequencies is not reported, and a candidate at a negative frequency (full spectrum) makes the report fail.',
  'every spectrum','over all spectra',[f'{SB}:Base.plot_report'])
p('C105','Slices of three-dimensional modes',
  'A slice is drawn against the coordinates of its two axes, and without a requested slice the one with the largest value is shown. The coordinates are right exactly when no earlier axis has the same length as a later one of the slice; the slice shown is always the first.',
  'every grid shape and slice direction','over all shapes',[f'{PP}:plot_3d_modes_slice_at_frequency'])
p('C106','Lines marking the maximum',
  'The two lines marking the maximum of a mode cross at its position. They cross at the point with the two coordinates exchanged.',
  'every picture with one largest value','over all pictures',[f'{PP}:_apply_2d_vertical_lines',f'{PP}:plot_2d_modes_at_frequency'])

p('C107','MATLAB reader: the whole record in chunks',
  'fit on MATLAB files stores every snapshot once, in the order of the sorted names, cut into consecutive blocks, whatever the order of the messages; no chunk is empty; with five or more processes and three or more files the last block is never empty (so fit does not fail as in C17), while for every smaller number of processes there are records for which it is.',
  'every list of files, number of processes, chunks and blocks, message order, snapshot size','all sizes',[f'{RD}:reader_mat.get_data',f'{RD}:reader_mat.__init__'])
p('C108','SPOD modes are optimal',
  'At every frequency no set of m fields orthonormal in the weighted inner product captures more energy of the realizations than the sum of the m leading eigenvalues, and each mode captures exactly its eigenvalue.',
  'every record, weights, frequency, number m and orthonormal set','over all orthonormal sets',[f'{SS}:Standard._compute_standard_spod'])
p('C109','Eigenvalues do not depend on the eigensolver',
  'The saved eigenvalues are the roots of the characteristic polynomial of the SPOD matrix in descending order, with multiplicity: any correct eigensolver and any order among ties gives the same numbers.',
  'every record, every pair of solvers','over all solvers',[f'{SS}:Standard._compute_standard_spod'])
p('C110','Eigenvalues and modes reproduce the cross-spectral density',
  'When all modes are saved and the eigenvalues differ, the sum of eigenvalue times mode times conjugate mode is the estimated cross-spectral density between any two points of positive weight.',
  'every record, frequency, pair of points','over all records',[f'{SS}:Standard._compute_standard_spod'])
p('C111','More blocks than points',
  'Every saved mode is defined. Eigenvalues whose index is at least the number of entries of positive weight are exactly zero, so that with more blocks than such entries the corresponding modes are obtained by dividing by zero.',
  'every record, weights, frequency','over all records',[f'{SS}:Standard._compute_standard_spod'])
p('C112','Units of data and weights',
  'Multiplying the data by a multiplies the eigenvalues by |a|^2, multiplying the weights by s multiplies them by s. Normalising the data makes the result independent of the units: it does not, the eigenvalues are divided by a^2, because the blocks are divided by the variance instead of the standard deviation.',
  'every record, weights, factors','over all factors',[f'{SS}:Standard._compute_blocks',f'{SS}:Standard._compute_standard_spod'])
p('C113','A steady field is irrelevant',
  'Adding a field that does not change in time changes neither eigenvalues nor modes when the long-time or block mean is subtracted; with the zero mean every transform changes by the transform of the windowed constant.',
  'every record, every field','over all fields',[f'{SS}:Standard._compute_blocks',f'{SB}:Base.select_mean'])
p('C114','Mirrored frequencies',
  'For real data the eigenvalues at a frequency and at its mirror image agree, so the negative half may be dropped. In the full spectrum saved for real data they do not: the first positive frequency is saved with twice the value of the last one.',
  'every real record, frequency, block length','over all records',[f'{SS}:Standard._compute_standard_spod'])

p('C115','POD: the folder of an object',
  'get coefficients and reconstruct data through an object use its own fit: they use the last fit, by any object, that stored results in the same folder; the folder depends on savedir and n_modes_save only, so a second object with these two equal, whatever its data or other options, silently replaces the modes of the first.',
  'every history of fits, coefficient computations and reconstructions by any objects and functions','over all histories',[f'{PB}:Base._initialize',f'{PB}:Base._store_and_save',f'{PB}:Base.compute_coeffs_op'])
p('C116','POD: arguments without influence',
  'results_dir, tol, svd, T_lb, T_ub of compute_coeffs_op, modes_idx, coeffs_dir of compute_reconstruction called through an object, and the values of the stored weights and eigenvalues influence neither the result of any operation nor the stored arrays, over any history.',
  'every pair of histories equal up to these arguments','two-run property over all histories',[f'{PB}:Base.compute_coeffs_op',f'{PB}:Base.compute_reconstruction',f'{PU}:compute_coeffs_op'])
p('C117','POD: reconstruction after a new fit',
  'compute_reconstruction after a new fit uses the new modes: it does not, the result is that before the fit (by the same or any other object, completed or interrupted) until the coefficients are computed again. Without a completed coefficient computation by the same object it raises ValueError.',
  'every history, object, fit','over all histories',[f'{PB}:Base.compute_reconstruction',f'{PU}:compute_reconstruction'])
p('C118','POD: interrupted runs',
  'A reconstruction from a folder succeeds only if a coefficient computation into this folder was completed, coefficients only if a fit was completed; a partly written file is reported. But if a second computation into the same folder is stopped between two files the reconstruction silently mixes new coefficients with old mean and modes.',
  'every history with any crash points','over all crash points',[f'{PU}:compute_coeffs_op',f'{PU}:compute_reconstruction',f'{PB}:Base._store_and_save'])
p('C119','POD: names of reconstruction files',
  'Saving a reconstruction changes no later result, provided its name is not coeffs, modes_r, ltm, modes or weights; with the first three names the reconstruction replaces an input and every later reconstruction uses it, without an error.',
  'every history, folder, name','over all histories',[f'{PU}:compute_reconstruction'])
p('C120','Parameter dictionary and saved parameter file',
  'The parameter file saved by fit records the transform length, overlap, blocks, frequencies, time step, folder and number of modes of that fit, as given when the object was built, whatever happens to the dictionary in between. All other entries are those the dictionary of the caller holds at the end of fit, so editing it after building the object makes the file disagree with the computation. The saved entries are also written into the dictionary of the caller, so an object built from it later saves at most as many modes as the earlier fit. Objects with dictionaries of their own do not influence each other; the results folder is made absolute once.',
  'every dictionary, history of constructions, edits and fits','over all histories',[f'{SB}:Base.__init__',f'{SB}:Base._store_and_save',f'{SB}:Base._initialize'])
p('C121','In-memory fit is SPOD of the concatenated record',
  'A fit of in-memory datasets saves, for every frequency, the eigenvalues and the array of kept modes that the serial algorithm computes from the concatenated record and the full weights, serially or on any number of processes, however the record is cut into datasets.',
  'every list of datasets of one grid, settings with a feasible block layout, weights, number of processes (no process with exactly one entry)','composition of reader, weights, blocks, reduction and output over all sizes',[f'{SS}:Standard.fit',f'{SB}:Base._initialize',f'{RD}:reader_1stage'])
p('C122','File-based fit is SPOD of the concatenated record',
  'A fit of netCDF files with one file per mode writes exactly one file for each frequency and kept mode, holding the mode the serial algorithm computes from the concatenated record, for any number of processes and readers, any chunking and any order of message delivery.',
  'every list of distinct files of one grid with unique times, settings with a feasible block layout, weights, processes (none with exactly one entry), readers, chunks (not more than snapshots), message orders; MPI with large counts or messages below the limit','over all schedules',[f'{SS}:Standard._compute_standard_spod',f'{RD}:reader_2stage',f'{SB}:Base._initialize'])
p('C123','Process count, dataset split and data source do not show in the results',
  'Two fits of the same record with the same settings give the same eigenvalues and mode arrays, whatever the number of processes and the split into datasets; a fit from files gives the same eigenvalues as one from memory, and its mode files are the columns of the mode arrays of the latter.',
  'every pair of runs of the kinds of C121 and C122','relates pairs of executions',[f'{SS}:Standard.fit',f'{RD}:reader_1stage',f'{RD}:reader_2stage'])
p('C124','Guarantees on the saved results',
  'In the results saved by a fit with non-negative weights the eigenvalues of every frequency are non-negative and in descending order, the mode array has the grid shape followed by the number of kept modes, and its columns have unit weighted norm and are weighted-orthogonal where the eigenvalues are positive and distinct, for every eigen-solver and sorting routine that keep their contracts.',
  'every run, solver and sorting routine','over all inputs and oracle behaviours',[f'{SS}:Standard.fit',f'{SS}:Standard._compute_standard_spod'])

p('C125','The exchanges never deadlock',
  'The redistribution of the file readers (all receives and sends posted, then waited for) and the assembly of mode files pass by pass (sends to the writers of the pass, the writer posts its receives, sends then receives waited for) cannot deadlock: from every reachable state in which some process has not finished, a process can go on or a message can arrive, even if MPI buffers nothing; no execution is longer than an explicit bound; an execution that cannot go on is one in which every process has finished.',
  'every number of processes, chunks/passes, interleaving, order of arrival and choice of buffering','over all schedules',[f'{RD}:reader_2stage.get_data_for_time',f'{RD}:reader_mat.get_data_for_time',f'{SS}:Standard._compute_standard_spod'])
p('C126','Data after the exchange do not depend on the schedule',
  'When a process has finished a chunk (a pass), it has received exactly one message of that chunk from every process (of its own file from every process, or none if it writes no file), in some order; the assembled local data of the chunk are its points of the rows of the chunk in row order, and the assembled mode file consists of the pieces of all processes in process order.',
  'every schedule, number of processes, readers, chunks, files, data','over all schedules and sizes',[f'{RD}:reader_2stage.get_data_for_time',f'{RD}:reader_mat.get_data_for_time',f'{SS}:Standard._compute_standard_spod'])
p('C127','Convolution coefficients at the blocks of the fit',
  'In a serial run the coefficient computed by the convolution method at the time index of block b (offset of the block plus half the transform length, rounded up) is n_dft/win_weight times sqrt(n_blocks * eigenvalue) times the conjugate entry b of the eigenvector; over the blocks the coefficients of different modes are uncorrelated and their mean squared modulus is the eigenvalue, in units of (n_dft/win_weight)^2. Away from the end of the record no end correction is applied.',
  'every record, settings with the long-time mean, weights, frequency, kept mode with positive eigenvalue, block','algebraic identity over all records',[f'{SU}:compute_coeffs_conv',f'{SS}:Standard._compute_standard_spod'])

p('C128','Arrays of modes read from a results folder',
  'With one file per frequency the array returned for a frequency is a writable map of the file: it shows at all later times what is on disk, and changing an entry changes that entry of the saved modes and nothing else (so reading a mode and scaling it in place changes the results, contrary to what a reader of an analysis folder expects). With one file per mode, and when all modes are read at once, what is returned is a private copy and the folder changes by fits only. Read-only results can be read per frequency only in the layout with one file per mode.',
  'every folder, every history of reads, edits of returned arrays and fits','over all histories of aliasing arrays',[f'{PP}:get_modes_at_freq',f'{PP}:get_all_modes',f'{PP}:get_data_from_file'])
p('C129','Weights used by the emulation',
  'Predictions for an index, by any emulator object sharing the folder and after any history without training of that index, use the weights of the first epoch with the smallest finite validation loss; the imaginary part is trained from the network of the last epoch of the real part. A training with no finite loss keeps the previous weights silently; a training on real data leaves the network of an earlier imaginary part in use; an inference in between changes the starting point of later trainings.',
  'every history of initialisations, trainings and inferences, every training routine','over all histories and training routines',[f'{EN}:Neural_Nets._train',f'{EN}:Neural_Nets.model_train',f'{EN}:Neural_Nets.model_inference'])
p('C130','Attributes of an object over fits that return or raise',
  'After a fit that returns, all attributes of the object describe that fit, whatever attempts came before. Attempts that raise before the frequency axis keep frequencies, folder, eigenvalues and number of modes of the last fit, but already replace block count, record length and weights, so the attributes do not belong to one fit; a failure while modes are computed leaves zeros as eigenvalues. Reading modes through an object never fitted raises AttributeError, and returns None when nothing is stored.',
  'every history of attempts and points of failure','over all histories of failures',[f'{SB}:Base._initialize',f'{SB}:Base.get_modes_at_freq',f'{SS}:Standard.fit'])
p('C131','Plots of eigenvalues and axis limits',
  'The plot of the eigenvalues in the complex plane shows every eigenvalue within its axes. Curve k of the spectrum plots consists of the pairs (frequency or period, real part of eigenvalue k). On the logarithmic axes the one-sided spectrum loses the zero frequency only, the two-sided one its whole negative half. All curves have different grey levels exactly if there are fewer than 40. The axes of plots of modes and data contain the domain exactly if the coordinate range contains zero.',
  'every array of eigenvalues, axis, coordinate array','over all inputs',[f'{PP}:plot_eigs',f'{PP}:plot_eigs_vs_frequency',f'{PP}:plot_eigs_vs_period',f'{PP}:_set_2d_axes_limits'])

p('C132','Fit, project, reconstruct: the record comes back',
  'After a long-time-mean fit of the full spectrum that keeps every mode with a non-zero eigenvalue (window without zeros, no direction lost to the pseudo-inverse tolerance), computing the oblique-projection coefficients of the same record and reconstructing returns every snapshot that lies in a block, on any number of processes. It fails outside the blocks (an entry that vanishes in all blocks is reconstructed as zero at all times) and with fewer modes than the rank of the fluctuations.',
  'all records, windows, weights, block lengths, overlaps, numbers of processes and distributions, eigen-solvers and SVD routines within their specification',
  'the round trip crosses four stages; a test compares one record within a tolerance',
  [SU+':compute_coeffs_op',SU+':compute_reconstruction',SS+':Standard.fit'])
p('C133','Precision asked for and precision obtained',
  'With the default precision and float64 arrays every stored array of a session (fits, coefficients, reconstructions, in any order) is double; with single precision asked for everywhere all are single only under numpy 1, with float data and weights, without convolution and without the methods of the object, which compute coefficients and reconstructions in double whatever the fit used. The classes take every argument other than the name double, np.float64 included, for single precision. float32 data are averaged in float32 even when double is asked for. A reconstruction is stored in single precision exactly when the stored mean is single and either single was asked for or the stored modes and coefficients are single already.',
  'all sequences of fits, coefficient computations and reconstructions on one folder, all precision arguments, element types of data and weights, both generations of numpy type promotion',
  'the type of each file depends on the history of calls and on the numpy generation; a test fixes one combination',
  [SB+':Base.__init__',SB+':Base._set_dtype',SU+':_get_dtype',SU+':_set_dtype',SU+':compute_coeffs_op',SU+':compute_coeffs_conv',SU+':compute_reconstruction',SS+':Standard.fit'])
p('C134','A field built from known structures is taken apart again',
 'If the data are a sum of spatial structures, orthonormal in the weighted inner product, times time amplitudes whose block spectra are uncorrelated at a frequency, then at that frequency the non-zero reported eigenvalues are exactly the spectral energies of the amplitudes, they add up to their sum, and a mode with an isolated energy is the structure itself up to a complex phase. For one structure there is one non-zero eigenvalue, at index 0, equal to the squared norm of the structure times the spectral energy of the amplitude.',
 'every number of structures, points, blocks, frequency, window, overlap, mean type, non-negative weights and number of processes',
 'tests compare a handful of numbers of one data file; the statement ranges over all decomposable fields and all settings',
 [SS+':Standard._compute_blocks', SS+':Standard._compute_standard_spod'])
p('C135','A tone on a frequency bin is reported with its own energy',
 'For a complex tone on bin f0 times a structure, the leading eigenvalue reported at f0 is exactly the squared weighted norm of the structure for every window, overlap and number of blocks, at any other bin it is that times the squared relative window response, all other eigenvalues are zero and the leading mode is the normalised structure. For a real tone the (one-sided) value at an interior bin is the mean square of the field up to the window response at twice the frequency, and exactly the mean square if that response is zero; but at the last reported bin with an odd block length only half of it is reported.',
 'every bin, window with non-zero mean, overlap, number of blocks, structure, weights, amplitude, phase, each of the three mean types and any number of processes',
 'amplitude calibration over all windows, block lengths and phases cannot be sampled exhaustively',
 [SS+':Standard._compute_blocks', SS+':Standard._compute_standard_spod', SB+':Base._initialize'])
p('C136','The layout of the points does not matter, only signals and weights',
 'If a data set holds, at each of its points, the signal of some point of another data set, possibly in other units, and the weights of all copies of a point (times the squared unit factor) add up to the weight of that point, then both fits report the same eigenvalues at every frequency, and each copy shows the mode of its point in its own units. So permuting points or variables, splitting a point into copies that share its weight, dropping points of zero weight and changing the units of one variable together with its weights change nothing but the order and units of the modes.',
 'every assignment of copies to points, unit factors (one if the data are normalised), weights, number of processes on either side, frequency and settings',
 'relates two runs on different data sets for all layouts; a test compares two particular ones',
 [SS+':Standard._compute_blocks', SS+':Standard._compute_standard_spod'])
p('C137','The end and the direction of time',
 'Snapshots behind the last complete block have no influence on eigenvalues and modes unless the long-time mean is removed, and then only through that mean. A record of a whole number of blocks played backwards has, with a symmetric window, at every frequency the eigenvalues of the original at the mirrored frequency; for real data the reported spectrum is the same.',
 'every record length, block length, overlap, mean type, normalisation, frequency, weights and number of processes',
 'relates runs on different records for all contents',
 [SS+':Standard._compute_blocks', SS+':Standard._compute_standard_spod', SB+':Base._initialize'])
p('C138','How much of the variance the saved POD modes capture',
 'Every mode saved by a POD fit captures exactly its eigenvalue of the weighted variance of the record about its mean. If the eigensolver happens to list the eigenvalues in descending order, no other orthonormal set of as many fields captures more than the saved modes (Ky Fan). The fit does not sort, however: for every record with one dominant eigenvalue there is an admissible order of eigenvalues with which the single saved mode captures less than some other unit field.',
 'every real record, non-negative weights, number of modes, number of processes and admissible answer of the eigensolver',
 'optimality is over all orthonormal sets of fields and the refutation over all admissible solvers',
 [PS+':Standard.fit'])
p('C139','Parallel sessions keep in step','In any session of calls (fit, streaming fit, coefficients, reconstruction, POD) on any number of processes, each call finding the files it needs: under every interleaving of the processes the collective calls they make match, no process raises because a folder or file is not there yet, every file is read only when it is there and nobody is writing it, all processes see the same files present, nobody waits forever, the number of steps is bounded, and which files are there in the end depends neither on the schedule nor on the number of processes.','every number of processes, session, initial disk, and schedule','races and deadlocks depend on the schedule',[SS+':Standard.fit',ST+':Streaming.fit',SU+':compute_coeffs_op',SU+':compute_coeffs_conv',SU+':compute_reconstruction',PU+':compute_coeffs',PS+':Standard.fit',PAR+':npy_save'])
p('C140','An exception on one process leaves the others waiting','If a process raises anywhere before the end of a session (process 0 is the only one to look for missing input files; see also C42), the error should end the run on all processes; instead no other process ever returns or raises: every run halts with all others inside a collective call that never ends.','every session, process, point of failure, number of processes, and schedule','needs a failure on one process only',[RD+':reader_2stage.__init__',RD+':reader_mat.__init__',SS+':Standard.fit'])
p('C141','The parameter file all processes write at once is complete','Every process opens the parameter file of the coefficients for writing and dumps the same text at the same time; whatever was in the file, and however the openings and partial writes of the processes interleave, the file holds exactly that text once all are done. Before that a reader can find a hole.','every number of processes, text, old content, and interleaving of openings and partial writes','depends on the schedule',[SU+':compute_coeffs_op',SU+':compute_coeffs_conv',PU+':compute_coeffs'])
p('C142','Figures in files and on screen','A plotting method called with a file name leaves, for every variable and mode (or time, or place) asked for, exactly one file with that picture in the folder asked for, changes no other file and leaves no figure open. But the frequency (or slice) is not part of the file name: plotting a second frequency replaces the files of the first. plot_coeffs draws all curves into the figure that is current: with files it draws one curve per file only when no figure was open before; otherwise it draws the later curves into figures of the user, saves and closes them. Over any session of storing calls the open figures grow by exactly the calls that raised.','every list of variables, modes, times, places; every file name with extension; every set of open figures; every session','depends on the history of figures and files',[PP+':_save_show_plots',PP+':plot_coeffs',PP+':plot_2d_modes_at_frequency',PP+':plot_3d_modes_slice_at_frequency',PP+':plot_2d_data',PP+':plot_data_tracers'])
p('C143','Contour levels of the comparison plots','generate_2d_subplot paints every value of the first field; its range exceeds the field by less than one unit of the last decimal kept (N_round) at each end, the levels increase and the ticks are every second level. A constant field whose value has no more decimals than that (zero, say) raises ValueError, and no other single field does. The other fields are cut to the range of the first: values a unit or more outside it stay blank. A third field without a second raises.','every field, number of decimals, and combination of fields','over all fields',[PP+':generate_2d_subplot'])
p('C144','The score reported while training an emulator','The score printed during training is one for a perfect prediction and never more, but it is the coefficient of determination with truth and prediction exchanged: predicting the mean is reported as 1 - deviation/epsilon instead of about zero, and for every sufficiently varying truth there are predictions one of which is 144 times worse in squared error with a positive score where the better one has a negative score.','every truth, prediction and epsilon','over all truths and predictions',[EN+':build_lstm.coeff_determination'])
p('C145','The problem sizes a fit reports','With any number of processes the three sizes printed by an SPOD fit are the smallest share, the largest share and the number of values of the whole record, for data in memory, in netCDF and in MATLAB files, whatever the order of messages; shares differ by at most one layer of the distributed axis; the conversion to gigabytes is right to 14 digits. The streaming fit reports one snapshot only. The size printed by POD is right only if the number of processes divides the distributed axis; it is never too small.','every record, number of processes, chunking, and order of messages','depends on the number of processes',[SB+':get_sizes',SB+':_initialize',PB+':_initialize'])
p('C146','Turning the Fourier coefficients','Between the transforms and the decomposition the coefficients are turned from per block to per frequency: every coefficient of block b at frequency f ends in column b of frequency f; at every moment of the conversion each coefficient is held somewhere, and never more than the coefficients plus one frequency are in memory (a bound that is reached).','every number of blocks and frequencies, and all coefficients','memory and intermediate states',[SS+':_flip_qhat',SS+':Standard.fit'])
p('C147','Rounding does not change the integers the code derives by division',
  "The number of overlapping snapshots, the number of passes over the blocks, the number of blocks updated side by side, half a block and the number of chunks of a file are computed by dividing doubles and rounding to an integer. For sizes below 2^53 the result is the exact one: rounded-up quotients of integers, the overlap for a whole number of percent, n/2+1, and the chunk count are what exact arithmetic gives. For an arbitrary overlap the number of snapshots is the exact one or one less, and one less does happen (an overlap of a seventh of a block of seven).",
  'all integers below 2^53 (and, for the overlap, all doubles)','the double nearest a quotient could cross an integer for some pair out of 2^106; tests try a few',
  [SB+':Base.__init__',SS+':Standard._compute_standard_spod',ST+':Streaming.fit',RD+':reader_2stage.__init__',RD+':reader_mat.__init__'])
p('C148','Sums in double precision do not depend on the layout beyond rounding',
  "Whatever the number of blocks, chunks or processes and whatever the order in which numpy and MPI add, the long-time mean computed in doubles differs from the exact mean by at most 2^-52 times the sum of the absolute values plus 2^-1075, and so the means of two layouts agree to twice that; one component of an entry of the cross-spectral matrix differs from the exact one by at most (most points per process + processes + 1) 2^-52 times the sum of the absolute products over the number of blocks, provided no product underflows, and so two process counts agree to the sum of the bounds. For integer data below 2^53 in total the mean is the same bit for bit; in general neither the mean nor the entries are (refuted: two against four blocks, one against two processes).",
  'all data, all block, chunk and process counts, all orders of summation','the order of additions in numpy and in MPI is unspecified and the data are arbitrary; tests compare a few runs with a tolerance',
  [SB+':Base.long_t_mean',SS+':Standard._compute_standard_spod',PAR+':allreduce'])
p('C149','The frequency axis in double precision',
  "For blocks below 2^50 snapshots and time steps between 2^-900 and 2^900 the frequencies an object reports are strictly increasing from zero (real data or full spectrum), each within a relative 2^-51 of k/(n dt); for complex data the second part is negative, increasing and within 2^-50/dt of (k-n)/(n dt); all frequencies are distinct, so that asking for the nearest frequency to a frequency read off the axis returns exactly its index.",
  'all block lengths and time steps in the ranges, all frequencies, both kinds of data and spectrum','rounding could make two neighbouring frequencies equal or swap them for some block length and time step',
  [SB+':Base.get_freq_axis',PP+':find_nearest_freq'])
p('C150','The running mean of a streaming fit in double precision',
  "After n snapshots (n up to 2^50) the running mean a streaming fit removes differs from the exact mean by at most 3 n 2^-52 times the mean absolute value, plus n times the smallest double; no underflow assumption is needed. For a constant integer record the running mean is exact at every step (n times the value up to 2^53).",
  'all records and lengths','the error accumulates over the stream; tests run short streams with a tolerance',
  [ST+':Streaming.fit'])
p('C151','Small disturbances move the spectrum little',
  "If the cross-spectral matrix of a frequency is computed with an error of at most d in every entry, every reported eigenvalue is off by at most (number of blocks) x d (twice that where eigenvalues are doubled), for any eigensolver and sorting routine; two runs whose weighted inner products of block transforms differ by at most d report eigenvalues within d. Adding a disturbance to the data (no normalisation) moves the square root of every eigenvalue by at most the square root of the leading eigenvalue of the disturbance alone; a disturbance of at most e at every sample moves it by at most 2 e times the square root of the total weight (of twice the total weight at doubled frequencies), for every record, length, overlap, non-negative window, mean type and process grid.",
  'all records, disturbances, weights, block counts, windows, process grids and eigensolvers','a test perturbs one record in one way; repeated eigenvalues make the modes discontinuous, so only a min-max argument shows that the eigenvalues are not',
  [SS+':Standard._compute_standard_spod',SB+':Base._store_and_save',SS+':Standard.fit'])
p('C152','The reconstruction file holds the reconstruction',
  "For both kinds of coefficients (oblique projection and convolution), any snapshot shape, any distributed axis, any selection of times (negative and repeated indices included), any number of processes and any order in which their writes reach the disk, the file written by compute_reconstruction holds, at [k, point], the sum over modes of mode(point) times coefficient(mode, k-th requested time) plus the time mean of the point, whatever the file held before. An empty list of times gives an empty array in a serial run and ValueError on every process with a communicator. The serial file and the parallel file hold the same array but not always the same bytes: when several snapshots are requested and only one dimension of a snapshot exceeds one, the serial file is in Fortran order and the parallel one in C order.",
  'all mode, coefficient and mean arrays, time selections, process counts, write orders and previous file contents','a test compares one small reconstruction through np.load, where neither the order of the writes nor the bytes are seen',
  [SU+':compute_reconstruction',SU+':_compute_rec_op',SU+':_compute_rec_conv',PU+':compute_reconstruction',PAR+':npy_save',PAR+':distribute_dimension'])
p('C153','Well separated modes move little when the data move little',
  "Let lambda_0 be the leading eigenvalue at a frequency and nu a bound on the leading eigenvalue of a disturbance added to the record, e = 2 sqrt(lambda_0 nu) + nu. If the eigenvalue of a mode is at least g > e away from all the others, the squared correlation of the mode with the disturbed one (weighted inner product, hence whatever the phase the solver chose) is at least 1 - delta^2 with delta = (sqrt(lambda_0) e/(g-e) + sqrt(nu)) / sqrt(lambda'_k). When other eigenvalues are closer than g, the disturbed mode is within delta of a combination of the modes of these eigenvalues. If every sample is disturbed by at most s, nu = (2 s)^2 times the total weight will do (doubled at the frequencies that are doubled). An error of at most d in every entry of the matrix of the blocks (rounding, other hardware) moves an isolated mode by at most sqrt(lambda_0/lambda~_k) e/(g-e) from a multiple of the exact mode, with e the number of blocks times d. For any two eigensolvers and sorting routines.",
  'all records, disturbances, weights, block numbers, windows, gaps and solvers','a test disturbs one record and compares with a tolerance found by trial; no tolerance is right for every record, since modes with close eigenvalues do turn into each other',
  [SS+':Standard._compute_standard_spod',SS+':Standard._compute_blocks'])
p('C154','A missing value (NaN) makes the batch fit raise exactly when it is used',
  "With NaN in the record, fit of the batch class raises LinAlgError if and only if a weight is NaN, or a value is NaN at a time that belongs to some block, or anywhere in the record when the long-time mean is subtracted: never a result with NaN, on any number of processes. A weight of zero at the point does not help. When fit returns, all eigenvalues and modes are numbers and they are those of the record with the missing values filled in in any way. With normalize_weights the serial code leaves missing values out of the variance, so that a record whose missing values lie outside all blocks is fitted, while the parallel code raises for the same record, whatever the order in which the processes' statistics are combined.",
  'all records with any pattern of missing values, weights, options, eigensolvers, numbers of processes, distributions and orders of reduction','a test plants one NaN at one place; whether it reaches the decomposition depends on its time, on the block layout, the mean and on how the weights are normalised',
  [SS+':Standard._compute_blocks',SS+':Standard._compute_standard_spod',W+':apply_normalization',PAR+':pvar'])
p('C155','A missing value (NaN) in a stream makes the fit raise as soon as a block is complete',
  "In the streaming class a NaN in any snapshot, even in one before the blocks (the mean is a running mean), makes fit raise LinAlgError once a block is completed at or after it. If no block is completed after the first NaN, the results are those of the stream with the missing values filled in in any way: finite, except that the modes are NaN where the weight is zero; if some block adds nothing to the basis, fit raises or returns modes that are NaN everywhere at some frequency (see C86).",
  'all streams, patterns of missing values, lengths, weights, SVD routines, numbers of processes and distributions','depends on where in the stream the missing value is relative to every later block completion',
  [ST+':Streaming.fit'])
p('C156','Missing values pass silently through the coefficients and the reconstruction',
  "compute_coeffs_op raises LinAlgError if and only if some mode contains a NaN. If the modes are numbers but a single value of the data is NaN, it returns without complaint and every coefficient at every time, and the reconstruction at every point and time, is NaN; likewise the coefficients by convolution at all frequencies and times (n_dft at least 2). POD.fit raises ValueError if and only if some value is NaN, with or without subtraction of the mean. POD coefficients never raise: a coefficient is NaN exactly when its mode contains a NaN or the data contain a NaN somewhere, and the POD reconstruction is then NaN everywhere. Without missing values the results are those of C50, C52, C27 and C29.",
  'all modes, data, patterns of missing values, weights, solvers, numbers of processes and distributions','a test would have to plant NaN at every place; that one value spoils every time step follows from the mean',
  [SU+':compute_coeffs_op',SU+':compute_coeffs_conv',SU+':_compute_rec_op',PS+':Standard.fit',PU+':compute_coeffs_op',PU+':compute_reconstruction'])
p('C157','Byte order of arrays reduced and saved in parallel',
  "allreduce gives every process the elementwise sum of the processes' arrays, for every order in which MPI combines them, and npy_save a file with the values of the pieces one after another, provided the arrays are in the byte order of the machine. An array in the other byte order (as read from a netCDF-3 or other big-endian file) should be summed and saved by its values too; in parallel its bytes are reinterpreted instead, without any message: it enters the sum, and the file, with every number misread, already on one process, while the serial functions treat it correctly. The result is right only for numbers whose bytes read the same both ways.",
  'all arrays, lengths, number types, byte orders, numbers of processes and reduction trees','a test uses arrays made on the same machine',
  [PAR+':allreduce',PAR+':npy_save'])
p('C158','In-memory streaming fit is streaming SPOD of the record',
  "A streaming fit of one in-memory dataset, with two or more requested modes, saves for every frequency the values and the array of modes that the streaming algorithm computes on one process from the whole record and the full weights, on any number of processes; it fails to produce numbers exactly when that algorithm does. The saved columns are orthonormal in the weighted inner product up to the number of completed blocks and zero beyond, and while that number does not exceed the number of modes they give, with the squared values, the weighted cross-spectral matrix of the record exactly. Given as several datasets the record should give the same result; instead the fit uses fewer snapshots than the record has: those of the first dataset and the tail of the second beyond the length of the first, with parameters checked for the whole record.",
  'every dataset, settings with a feasible block layout and two or more modes, weights, number of processes (no process with exactly one entry), SVD routine; every list of two or more datasets with a non-empty second one','composition of reader, weights, stream, reduction and output over all sizes and processes',
  [ST+':Streaming.fit',SB+':Base._initialize',RD+':reader_1stage'])
p('C159','In-memory POD fit is POD of the concatenated record',
  "A POD fit of in-memory datasets of one variable without variable axis, with at most as many modes as snapshots, saves the eigenvalues and the mode array that POD on one process computes from the concatenated record and the full weights, whatever the number of processes and however the record is split into datasets. With real data and a correct eigensolver the eigenvalues are non-negative and sum to the weighted variance, every saved mode (if its values are numbers) captures its own eigenvalue, and modes of different eigenvalues are real and orthonormal in the weighted inner product. A request for more modes than snapshots should be refused; a serial run refuses it, but a run with a communicator goes through whenever the sizes divide, and saves an array that claims a smaller grid and more modes than were computed.",
  'every list of non-empty datasets on a grid, weights, number of processes, eigensolver, number of modes','composition of distribution, weights, mean, reduction and output over all sizes and processes',
  [PS+':Standard.fit',PB+':Base._initialize',PAR+':distribute_data',PAR+':npy_save'])
p('C160','Oblique-projection coefficients of the caller\'s data on any number of processes',
  "compute_coeffs_op, called with an array and a results folder whose weights and mode files fit the data, writes the same coeffs.npy, modes_r.npy and ltm.npy whatever the number of processes: modes_r.npy holds the stored modes of the selected frequencies side by side in the documented order (zeros in unused slots), ltm.npy the temporal mean of the data, and the coefficients make the weighted residual orthogonal to every saved mode, so that no other coefficients come closer to the fluctuations at any time.",
  'every data array and grid, with or without variable axis, every stored spectrum, selection of frequencies, weights, number of processes, and SVD routine','composition of distribution, mode gathering, reductions and parallel output over all sizes and processes',
  [SU+':compute_coeffs_op',SU+':_oblique_projection',SU+':_get_modes',SU+':_get_required_data',PAR+':distribute_data',PAR+':distribute_dimension',PAR+':npy_save'])
p('C161','Fit, coefficients, reconstruction: the record comes back through the files',
  "A fit of an array, compute_coeffs_op with the same array on the folder the fit left, and compute_reconstruction for any selection of times, each on its own number of processes: with the full spectrum, long-time mean, positive weights, every saved eigenvalue positive and the others zero, a window without zeros and no direction lost to the tolerance, the calls succeed and the snapshots lying in a block come back unchanged, both in the array a single process computes and in the file all processes write together in any order.",
  'every array, grid, weights, solver keeping its promises, selection of times, and every number of processes at each of the three calls','a composition of three calls through their files, over all inputs and process counts',
  [SS+':Standard.fit',SB+':Base._store_and_save',SU+':compute_coeffs_op',SU+':compute_reconstruction',PAR+':npy_save'])
p('C162','A POD fit, its coefficients and a reconstruction give the record back',
 "POD: after a fit of a single array of real data, compute_coeffs and compute_reconstruction. The coefficients come out the same with any number of processes, coeffs.npy holding for every mode the unweighted inner product of the stored mode with the fluctuation of the data about its mean, modes_r.npy the stored modes and ltm.npy the mean; the stored weights are read but have no influence. If no weights were given (all one), all saved values are numbers, the saved modes have different eigenvalues and every eigenvalue left out is zero, the reconstructed snapshots are those of the record, in the returned array and in the file the processes write together, whatever numbers of processes took part in the fit, the coefficients and the reconstruction. With any other constant weights the same workflow returns the mean plus the fluctuation divided by the weight, which agrees with the record only where the record equals its mean.",
 'every data array accepted by the fit (real data, one variable), every number of modes, eigensolver keeping its promise, numbers of processes in the three calls, selection of times, interleaving of file writes',
 'a test fixes one data set and compares within a tolerance on one process; that every entry of every record comes back needs the algebra of the three calls together with the movement of the data',
 [PU+':compute_coeffs_op', PU+':compute_reconstruction', PS+':Standard.fit', PB+':Base._store_and_save', PB+':Base.compute_coeffs_op'])
p('C163','Convolution coefficients of the caller\'s data on any number of processes',
 "compute_coeffs_conv, called with an array and a results folder whose weights and mode files fit the data, completes on every number of processes that hold at least two entries each when the selection covers all frequencies (each once, in any order). ltm.npy is the temporal mean, the same for all numbers of processes. coeffs.npy should be the same for all of them too, and row i should belong to the i-th selected frequency; it holds only the sums over the entries of the first process (the difference to one process is exactly what the others hold), and row i combines the transform at the i-th selected frequency with the modes of frequency i. modes_r.npy holds, in the part of every process, the parts of the mode files it read, one frequency after the other, whatever its shape says.",
 'every data array, results folder that fits it, order of the frequencies, number of processes (at least two entries each), window, contents of uninitialised memory',
 'a test fixes one data set, one process and compares with stored numbers; which entries reach the file is a statement about all distributions',
 [SU+':compute_coeffs_conv', PAR+':distribute_data', PAR+':distribute_dimension', PAR+':npy_save'])
p('C164','Convolution coefficients of a fit at its blocks','After a fit of an array (long-time mean, no normalization, on any number of processes) the coefficients by convolution that one process computes at all frequencies from the folder the fit left are, in the middle of every block of the fit, the square root of the stored eigenvalue times a unit vector over the blocks, up to the sum of the window, the square root of the number of blocks and the correction at the ends of the record. Away from the ends the mean energy of a coefficient over the blocks is its eigenvalue in units of the squared sum of the window, and coefficients of different eigenvalues at one frequency are uncorrelated.','every array, shape, weights, window, overlap, number of blocks, frequencies and modes, number of processes of the fit, every eigenvalue routine meeting its specification','the mean over the blocks equals the eigenvalue only through the eigenvector equation of a matrix the test cannot see, for all data; a test on one record compares two numbers up to rounding',[SS+':Standard.fit',SU+':compute_coeffs_conv',SB+':Base._store_and_save'])
p('C165','Stored weights and long-time mean, and who can use them',
 "After a fit, weights.npy holds the weights of the user (or ones) on the grid and ltm_modes.npy the average of every entry over all snapshots, whatever the number of processes and also when another mean (zero or of the block) was subtracted. A fit of netCDF files stores the same values as a table of points and variables: a process without communicator computes the same coefficients from it, but several processes cannot compute coefficients of the same record held in memory (they never return) when the longest axis of a snapshot is the third or later, or the second and there are more processes than variables, or the first and its length is not a multiple of the number of processes. When the first axis is longest and the number of processes divides the length of the first axis of the grid, the table gives what weights in their own shape give. Where several processes do complete although the second axis is longest, they may silently use weights of other entries: coeffs.npy of one record then depends on the number of processes. Coefficients by convolution use the table in the same way.",
 "all in-memory records and netCDF record sets, grids, weights, types of mean, numbers of processes, message orders, results folders and data for the coefficients",
 "the content of the files is put together from the parts of all processes; tests compare the files of one small run, and never compute coefficients in parallel after a netCDF fit",
 [SB+':Base._store_and_save',SB+':Base.long_t_mean',SB+':Base._initialize',PAR+':npy_save',PAR+':distribute_dimension',SU+':compute_coeffs_op'])
p('C166','Coefficients from the mode files of a netCDF fit',
 "A fit of netCDF files writes one file per mode, a fit of arrays one file per frequency. If both have seen the same record with the same settings (on any numbers of processes, with any message orders), then coefficients computed by one process without communicator, or by several that divide the first and longest axis evenly, from either results folder are the same: the same coefficients, stored modes and stored mean, or the same error, for every selection of frequencies, tolerance and data. In particular a fit of netCDF files, coefficients of the record and a reconstruction give the snapshots in the blocks back unchanged under the conditions of C161.",
 "all pairs of an in-memory record and netCDF record set with the same snapshots, settings, numbers of processes, message orders, weights, period bounds, frequency indices, tolerances and data for the coefficients",
 "the two formats are written by different branches and read back by different branches; a test compares at best one small run in one format",
 [PP+':get_modes_at_freq',SU+':compute_coeffs_op',SB+':Base._store_and_save',SB+':Base._initialize'])
p('C167','The shape in which weights are passed',
 "A fit (batch or streaming SPOD, or POD) of in-memory arrays checks only the number of the weights passed by the user. One process without communicator gives the same result for every shape that holds the same numbers in C order. With a communicator, weights passed as one row of numbers (as the documentation of custom weights asks for) give no result at all when the longest axis of a snapshot is not the first one; when it is the first one and the number of processes divides its length, they give what the same weights give in the shape of the grid.",
 "all in-memory records, grids, settings, weights, shapes of the weights and numbers of processes",
 "which axis is cut depends on the grid and how many processes there are; tests pass weights of one shape on one or two processes",
 [SB+':Base.define_weights',SB+':Base._initialize',PB+':Base.define_weights',PB+':Base._initialize',PAR+':distribute_dimension',W+':custom'])
with open('properties.jsonl','w') as f:
    for q in P: f.write(json.dumps(q)+'\n')
print(len(P))
