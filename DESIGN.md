# Formal model of PySPOD in Coq 8.16.1 — design

Source: /repo (MathEXLab/PySPOD, pinned).  Nothing of it is executed here; the model is written by
reading it, every definition cites the file and lines it models.

## Layout (rocq/theories, logical name Verif)

* `Base_*.v`   general lemmas (lists, permutations, sums) — no model content.
* `Model_*.v`  executable Gallina transcriptions, branch by branch; exceptions are values
               (`res A := Ok a | Err e`).  No proofs of properties here.
* `Spec_*.v`   small specifications written without reference to the model.
* `Proof_*.v`  proofs.
* `Prop_*.v`   only the property theorems (`Theorem Cnn_...`), closed by `exact`, each followed by
               `Print Assumptions`, and non-vacuity `Example`s.

Naming: `Cnn_...` proves property Cnn of properties.jsonl.  `..._refuted` = the expected behaviour
is false of the faithful model (a finding about the code).  `..._partial` = only a part of the
property is proved; the missing part is written beside it.

## Representation choices

* N-d arrays: C-ordered flat list plus shape.  Slicing along an axis acts on the
  (outer, N, inner) view.  Data movement (distribution, messages, npy files, readers, block stores)
  is polymorphic in the element type, so "the same elements in the same places" is equality.
* Time-major records: list of snapshots (rows); a snapshot is the flat list of its nx*nv entries.
* Exact arithmetic.  Floating-point rounding is NOT modelled.  Rational computations use `Q`;
  where square roots or trigonometry occur the standard library's reals `R`
  (its axioms are listed below); complex linear algebra uses mathcomp matrices over an arbitrary
  `numClosedFieldType` (axiom-free), the DFT kernel being powers of an arbitrary primitive n-th
  root of unity.
* External numerical kernels (`la.eig`, `la.svd`, `argsort`, `pinv`, `fft`) are function
  parameters; theorems about them assume only what the library documents (eigen-equation with
  unit 2-norm vectors, SVD factorisation, sorted permutation, Penrose equations, DFT sum) — never an axiom.
* MPI: a communicator is its list of ranks; collectives are folds over ranks, with arbitrary bracketing
  where order is observable; point-to-point deliveries and file writes are lists of atomic events
  and theorems quantify over all their permutations.
* Heap effects that matter (in-place update of the caller's weights or coordinates, params
  dictionaries, remembered attributes) are explicit state passed through `step`-functions; properties over
  histories are inductions over lists of operations.

## Per property

| id | modelled | proof |
|----|----------|-------|
| C01 | `_blockdist`, `distribute_dimension` over nat | arithmetic, induction over ranks: concatenation of ranges = seq 0 N |
| C02 | `distribute`, slicing over (outer,N,inner) | pointwise index law + reassembly + permutation, any element type |
| C03 | `distribute_data` axis (argmax) and reader's `max_axis`, trailing-axis rule | case analysis on shape; argmax spec; naturality of slicing |
| C04, C05 | file as header + cell map, `npy_save` as truncation, header event and one write event per element; any permutation of events | disjointness of written cells, position law |
| C06 | `npy_load` default count with its Boolean precedence | arithmetic |
| C07, C08 | `op_stat` on (count, mean, M2) over Q, arbitrary reduction tree; NaN as option | induction on tree; NaN absorbing |
| C09 | `create_subcomm` with arbitrary admissible `Compute_dims` | arithmetic |
| C10–C13 | `reader_1stage` init, get_data, get_data_for_time over lists of datasets | induction over datasets |
| C14, C15, C17, C18 | `reader_2stage` messages (offset tables), chunk/blk dictionary, padded path as error | permutation of deliveries; induction over readers; telescoping ranges |
| C16 | label selection (inclusive slice of sorted coordinate) | induction on sorted lists |
| C19 | `reader_mat` as sort of names + one row per file | permutation/sorting |
| C20, C21 | `__init__` overlap arithmetic (Q ceil), `_initialize` n_blocks, block offset | nat/Z division lemmas |
| C22, C23 | `long_t_mean` both branches over Q | induction over blocks |
| C24, C25 | `get_freq_axis` over Q, three branches | arithmetic on indices |
| C26 | `define_weights` | shape/length reasoning |
| C27, C28 | object state across fits | induction over operation lists |
| C29, C65 | decimal/zero-padded names as strings | injectivity and order of zero-padded decimals |
| C30 | decision logic of constructor/_initialize | Boolean case analysis |
| C31 | `_get_block` on chunk dictionary with deletion, sequence of blocks | invariant over block index |
| C32, C48, C51, C59 | local matrices are column pieces, allreduce is a sum | sum over a permutation of indices; equality of every reduced quantity, then of everything computed from it |
| C33 | disk2 pass: send events, padded buffer, in-place unpadding loop | loop invariant on the buffer; unique writer arithmetic |
| C34–C37 | SPOD matrix, eig oracle, argsort, modes (mathcomp) | linear algebra |
| C38 | one-sided doubling against Parseval (mathcomp, primitive root) | DFT orthogonality |
| C39, C40 | FFT block files, existence check, crash points | list/file-store model |
| C41 | xi2 scaling factors (monotone quantile oracle) | order reasoning over R/Q |
| C42, C49 | squeeze/shape rules of numpy for the shapes occurring | shape calculus |
| C43–C45 | streaming slot machine `step` per snapshot | invariant: closed-form law for slot clocks |
| C46, C47, C85, C86 | one update and the whole history, SVD oracle (existence proved in Proof_Svd.v), NaN basis = None | block-matrix algebra, invariant on the basis, induction over blocks |
| C50, C87 | oblique projection, SVD oracle (existence proved) and cut-off | normal equations from a generalised inverse; explicit counterexample when a direction is cut |
| C52–C54, C88 | convolution coefficients, array shapes with squeeze/einsum/assignment rules | index arithmetic, explicit counterexample, case analysis on shapes |
| C55–C57 | mode gather, frequency range, time_idx logic | list induction |
| C58 | lexicographic comparison of complex numbers | order |
| C60–C62, C89–C93 | POD fit/coeffs/reconstruction; real symmetric eigen-solver as oracle (existence proved in Proof_RealSpectral.v); undefined modes = None; shapes separately | linear algebra, explicit permuted solver, case analysis on shapes |
| C63, C64 | argmin of distances; numpy shape/index behaviour of the coordinate search | argmin spec, list reversal |
| C94 | process working directory as state, file tree as a partial function | induction over calls |
| C66, C67 | weight formulas over R (trigonometry), variance normalisation over Q | positivity of trigonometric terms, index arithmetic |
| C68 | error norms over any `numClosedFieldType` | triangle inequalities (Cauchy–Schwarz for l2), loop invariant for h1 |
| C69, C70 | parser as last-wins association list, `splitext` on characters, dispatch | induction over items/characters |
| C71–C73, C95 | scaler (reals as Q, complex pairs, integer arrays), sequences, inference with the network as any function | index arithmetic, induction over prediction blocks |
| C74 | Hamming window over R | trigonometric sums |
| C75 | `plot_2d_modes_at_frequency` up to the drawing call: squeeze/transpose/half swap, coordinates as heap cell | induction over calls, index arithmetic modulo n |
| C76 | real part of DFT | symmetric sums |
| C77–C82 | first-snapshot realness, reader past the end, repeated files, weights corner cases | case analysis / induction over readers |
| C83 | eigenproblem of the cross-spectral density satisfied by saved modes | linear algebra (mathcomp) |
| C84, C96–C99 | any number of objects and the functions of spod.utils over one file store; every operation may be stopped after any number of completed writes, with or without a torn file; numerical kernels are parameters | invariants on the store and the object attributes, induction over histories; noninterference by two-run simulation |
| C100–C106 | what the plotting functions draw (coordinates, values, snapshots, subplots), the peak search of plot_report with numpy's bisection; no axes, colours, files | index arithmetic; bisection invariant; equivalence with a declarative definition of peaks |
| C107 | MATLAB reader: chunk choice and chunked store | reuse of the chunk-store lemmas, division bounds |
| C108–C111 | same model as C34–C37 | Ky Fan's inequality proved from Bessel's inequality and the spectral theorem; functions of a diagonalisable matrix; rank argument |
| C112–C114 | same model, related inputs (scaled, shifted, conjugated) | relational: the SPOD matrices are related, sorted eigenvalues are unique |
| C115–C119 | POD objects and functions over one file store, crash points as in C84/C96 (Model_PodSession) | invariants on store and attributes, induction over histories; noninterference by two-run simulation |
| C120 | constructor and `_store_and_save` on parameter dictionaries shared by objects (Model_Params) | induction over histories of constructions, edits and fits |
| C121–C124 | whole fits put together from the models of the parts (Model_Pipeline, Model_PipelineNum): reader, weights, blocks on each process, reduction, eigenproblem, files | refinement: every process holds its share of the record, the pieces reassemble into the serial algorithm; C124 composes with C34, C35, C37 |
| C125–C126 | the point-to-point exchanges as an interleaving transition system (Model_Mpi): processes post requests in rounds, non-overtaking matching, arrivals in any order, optional buffering, Waitall | inductive invariant over all executions (what has arrived, per round); deadlock freedom by considering a process in the earliest round; termination by a measure that grows by one per step; balance of the two programs; composition with C14/C33 |
| C127 | convolution coefficients (Model_Coeffs) of the modes of a serial fit (Model_Spod) | the moving segment that coincides with a block has the block's Fourier coefficient up to the window weight; eigenvector equation of the cross-spectral matrix; orthogonality of eigenvectors |
| C128 | results folder, arrays handed out (maps of a file or copies), edits, fits (Model_Views) | invariant over histories: a map stays a map of its file, a copy is changed by its holder only |
| C129 | weight files and networks of emulator objects (Model_Train); one epoch of training is an arbitrary function | induction over epochs (checkpoint = first minimum) and over histories (frame: other indices) |
| C130 | attributes of an SPOD object as groups of assignments with a point of failure between any two (Model_Object) | case analysis over the point of failure, induction over attempts; refuted expectations stated |
| C131 | points, curves, grey levels and limits of the eigenvalue plots (Model_PlotEigs), rationals | integer square root bounds; composition with the frequency-axis theorems C24/C25 |
| C132 | `Prop_Roundtrip.v` | Whole round trip fit → coefficients → reconstruction on the same model as C05/C50: inverse DFT, null eigenvectors give null combinations, the Fourier blocks lie in the span of the kept modes, least squares leaves no residual. Two refuted expectations (snapshots outside the blocks; fewer modes than the rank). |
| C133 | element types of all stored arrays over histories of calls (Model_Dtype); numpy's promotion rules modelled for both generations; values not modelled | invariant over histories; each condition shown necessary by a refuted expectation |
| C134 | batch SPOD model (Model_Spod) on fields that are sums of orthonormal shapes times uncorrelated amplitudes | cross-spectral density written with the components; eigenvalue listing and trace argument; mode equation gives the shape (Prop_Components) |
| C135 | same model on bin-centred tones, complex and real | closed form of the block transform of a tone, then C134; bounds by the window response; mean square by orthogonality of the roots of unity; last-bin halving shown (Prop_Components) |
| C136 | two runs of the batch model on data related by a map of points with unit factors | the reduced matrices are equal (sum over fibres of the map), so everything the eigensolver returns is; modes by the same identity (Prop_Points) |
| C137 | two runs of the batch model on records that agree on the covered part, or are time reversed | equality of block transforms; reversal: block transforms are mirrored, the matrix is permuted, uniqueness of the sorted spectrum (Prop_Points) |
| C138 | POD model (Model_Pod), variance along arbitrary fields | eigenvector equation gives the captured variance; Ky Fan inequality for the bound; C62's permuted solver for the refutation (Prop_PodOptimal) |
| C139 | Interleaving semantics of the processes of a session: collective calls as weak as the MPI standard allows, folders and files; the calls as programs of every rank (`Model_Spmd.v`) | plans common to all ranks, a checker of plans, soundness of the checker by an invariant on histories; every call's plan is safe and followed by the program of every rank; induction on sessions |
| C140 | The same semantics with one program cut short by an exception (`fail_after`, `Spec_Spmd.v`) | simulation by the run without error; no process passes the next synchronisation |
| C141 | One file, positions of its writers, truncation, writes in pieces of any size (`Model_SharedFile.v`) | invariant: some writer has a correct prefix up to his position |
| C142 | The stack of open figures, the folder of files, the pages of a report, what is shown (`Model_Figures.v`); pictures are values of any type | induction on the lists of modes and variables with injectivity of the file names; induction on sessions |
| C143 | Rounding of the range, linspace, the requirement of increasing levels, panels (`Model_Levels.v`), exact rationals | floor and ceiling bounds, linear arithmetic |
| C144 | The metric as written and as Keras calls it (`Model_Levels.v`); true score stated separately in `Prop_Score.v` | algebra of sums over Q; predictions rescaled about the mean |
| C145 | Sizes, allreduce with min, max, sum, conversion to gigabytes, POD's product (`Model_Sizes.v`) on top of the readers | C10, C15, C107 and sums of block distributions |
| C146 | Dictionaries and the statements of the conversion with all intermediate states (`Model_Flip.v`) | explicit form of every intermediate state, induction on the statements |
| C147 | binary64 by Flocq's generic format; each operation is the exact one rounded to nearest even | monotonicity of rounding, relative error below 2^-53, exactness of scaling by powers of two |
| C148 | the long-time mean and an entry of the cross-spectral matrix in binary64, with summation in any order and bracketing | induction on the summation, accumulated relative errors (1+u)^k-1 |
| C149 | the frequency axis and argmin of the rounded distances in binary64 | accumulated relative errors, Sterbenz' lemma for the shifted half, gradual underflow (a rounded difference is zero only for equal doubles) |
| C150 | the mean update in binary64, iterated over the stream | induction on the stream with relative and absolute error budgets; an integer times a double never underflows inexactly |
| C151 | Model_Spod run_eigs for two matrices, two records, a record and its disturbance | Weyl: a common vector of two eigenbases (kernel dimension), quadratic forms on eigenspans, weighted Minkowski inequality; trace bound and windowed DFT bound for the explicit constant |
| C152 | Model_RecFile: distribution of modes and mean, matmul with selected columns, reshape with -1, moveaxis, parallel save; numpy contiguity flags for the serial save | entrywise: the local result is the slice of the serial result (array extensionality), then C04; strides of the moved view for the order flag |
| C153 | Model_Spod as for C151 | Davis-Kahan on the block space (part of the disturbed vector outside the near eigenvectors, via the square of the shifted matrix), Weyl (C151), then the modes by the triangle inequality for weighted sums |
| C154, C155 | Model_Nan: the whole arithmetic of the batch and streaming fits over numbers-or-NaN, LAPACK wrappers refuse NaN; normalize_weights serial and parallel | NaN is absorbing; without NaN the sums are those of Model_Spod / Model_StreamNum; induction over the blocks of the stream |
| C156 | Model_NanCoef: projection, convolution, POD over numbers-or-NaN | the time mean of an entry is NaN, hence every product with it |
| C157 | Model_ByteOrder: an array is a byte order and the bytes of its numbers; view, reduction tree, file header | induction over the tree, permutation of a commutative sum, lists |
| C158 | Model_PipelineStream: per process reader, weights, snapshots until the stream runs dry and shape checks; the entries of all processes stacked; streaming core of Model_StreamNum; one array per frequency | the algorithm commutes with renumbering of entries (bijection from the stacked positions); stream lemmas of C11/C12; concatenation of pieces as in C121; guarantees from C46, C47 |
| C159 | Model_PipelinePod: per process cut datasets, weights, shape checks; the entries of all processes stacked; POD core of Model_Pod; numpy's rule for -1 in a shape; concatenation along the distributed axis | only the entries a process holds matter (pod_*_ext), then C59; pieces concatenate as in C121; guarantees from C92, C93, C138; shape arithmetic for too many modes |
| C160 | Model_PipelineCoef: per process cut data, weights, mode files (gathered by columns with Model_Select.get_modes); the entries of all processes stacked; projection of Model_Coeffs; shapes of the pieces; concatenation along the distributed axis | every piece is `picks ids` of the global array; only local entries matter (coeffs_ext), then C51; order of columns from C55; pieces concatenate as in C121; least squares from C50 |
| C161 | the models of C121 (fit), C160 (coefficients) and C152 (reconstruction file) chained: the folder of the second call is what the first left, the arrays of the third what the second wrote | C121 gives the saved arrays, C160 the coefficients as the serial projection on them, C132 that projection and sum return the snapshot, C152 the bytes of the file |
| C162 | Model_PodCoef (pod/utils.py:17-129 on all processes) composed with Model_PipelinePod and Model_RecFile: coeffs, modes_r, ltm from arrays | closed form of every file for all np; C60 serial identity transported; constant weights: mean + fluctuation / c |
| C163 | Model_PipelineConv (spod/utils.py:223-420 on all processes): coeffs, modes_r, ltm from arrays | per-process lemma as C160, C88 for the shapes, pieces cut back out of the concatenation; sums over the entries of process 0 |
| C164 | the models of C121 (fit) and C163 (convolution) chained: the folder of the second call is what the first left; one process | C163 gives the coefficient as a sum over the entries, C121 the files, C127 the block coefficient through the eigenvector equation; orthogonality of eigenvectors |
| C165 | Model_StoreFiles: weights.npy and ltm_modes.npy of a batch fit from the parts of all processes; Prop_StoreFiles with Model_PipelineCoef for the coefficients | the pieces along an axis put together, the sum of the blocks or chunks of the record, shares of two axes compared by division with remainder |
| C166 | Model_PipelineFiles: reading back the files of single modes and the folder they make; Prop_PipelineFiles2 with Model_PipelineCoef | the stack of the files of a frequency is the file of the frequency (C121, C122), and the coefficients see the folder through these stacks only |
| C167 | the fits of Model_PipelineNum (SPOD), Model_PipelineStream (streaming) and Model_PipelinePod (POD) with weights of any shape (Model_Base define_weights, local_weights) | the shape enters through distribute_dimension only; one axis has no second one; equal shares of a row and of the first axis are the same window |

## Not modelled (no claim)

Floating-point rounding beyond C147-C150, overflow, memory consumption, performance, plotting output, animation,
MPI library internals (the point-to-point semantics assumed is stated in Model_Mpi; collectives are blocking primitives), xarray/netCDF file parsing, neural-network training
(the network is an oracle function), third-party numerical kernels (oracles as above).

## Trusted base

* Coq 8.16.1 kernel (and vm_compute where used), the reading of /repo recorded in the comments.
* `Print Assumptions` is written beneath every property theorem. It answers "Closed under the global context" for all of them
  except those of C66 (`Prop_Geo.v`), C74 (`Prop_Hamming.v`) and C147-C150 (`Prop_Float.v`, `Prop_FloatSum.v`, `Prop_FloatFreq.v`, `Prop_FloatMean.v`), which use the standard library's real numbers and rest on its axioms
  `ClassicalDedekindReals.sig_not_dec`, `ClassicalDedekindReals.sig_forall_dec` and
  `FunctionalExtensionality.functional_extensionality_dep`; C147-C150 also rest on the standard library's `Classical_Prop.classic`
  (Flocq's rounding lemmas use it). No other axiom is used.
* Libraries: Coq's standard library and mathcomp (both axiom-free where used, apart from the four above), Flocq's definitions of the binary64 format and of rounding (no axiom of its own).
