# notes per property for MANIFEST.json
PARTIAL=set()
NA={}
NOTES={
'C01':'for all N, size, rank',
'C03':'axis chosen by the reader = axis cut by distribute_data; weights whose shape is that of a snapshot pair with the data',
'C04':'byte-level file model; every permutation of all byte writes; header and element encodings are parameters',
'C05':'dec(enc a)=a and header parsing are hypotheses about numpy',
'C06':'refuted expectation + exact law of what is loaded',
'C07':'exact rationals, any reduction tree',
'C08':'NaN as None',
'C12':'exact law of the wrong rows; refuted expectation',
'C14':'every arrival order of the messages; netCDF/xarray label selection modelled; also: a read that does not raise is right whatever the labels',
'C17':'exact arithmetic for the number of chunks (the code uses floats)',
'C18':'MPI version and message size as parameters; the exception is the unassigned timer variable',
'C19':'any total order on names; file contents one field per variable',
'C13':'complex numbers as pairs; cast keeps the real part',
'C20':'overlap is an exact rational (a float in the code)',
'C22':'snapshots in any monoid; exact arithmetic',
'C23':'expectation refuted; exact law proved',
'C25':'even case proved, odd case refuted with exact law',
'C27':'expectation refuted; exact law for any number of fits',
'C67':'exact rationals; NaN/inf as None; any reduction tree and rank order',

'C32':'any distribution of entries over ranks, and the block distribution used by the code; exact arithmetic; eig/argsort are arbitrary functions',
'C34':'exact arithmetic over any numClosedFieldType; eig returns unit eigenvectors of Hermitian matrices (existence proved)',
'C35':'distinct positive eigenvalues; also repeated ones when the solver returns orthonormal vectors',
'C36':'refuted expectation',
'C38':'even one-sided total proved; odd and full-spectrum totals refuted with exact law',
'C41':'refuted expectation, inverse incomplete gamma as a monotone positive function',
'C83':'any positive or zero weights; exact arithmetic',
'C50':'least squares, and exact reconstruction iff the tolerance cuts no non-zero singular value; SVD routine as hypothesis (existence proved); orthonormal modes shown to qualify',
'C51':'any partition of the entries over ranks, exact arithmetic',
'C52':'refuted expectation with exact law of the difference; explicit counterexample for every configuration with a second rank',
'C53':'refuted expectation with exact law',
'C54':'refuted expectation with exact law at both ends',
'C58':'refuted expectation, exact decision, and the tested value is the weighted inner product on any number of ranks',
'C87':'refuted expectation',
'C88':'array shapes only; single entry on any rank fails too',
'C59':'exact arithmetic, any partition of the entries',
'C60':'exact for unit weights, best approximation with fewer modes; refuted for every other constant weight',
'C61':'exact acceptance condition on shapes and parameter; refuted expectations',
'C62':'refuted expectation: for every admissible solver another one leaves the most energetic mode out',
'C89':'refuted expectation','C91':'refuted expectation',
'C92':'real symmetric eigen-solver existence proved',
'C64':'refuted expectation on indices with exact law',
'C65':'decimal names as strings, any directory listing order',
'C69':'refuted expectations about missing keys and further keys',
'C70':'refuted expectation for .npy; splitext modelled on characters',
'C71':'exact rationals; complex local scaling refuted',
'C72':'no leak and exact law; refuted: the last admissible window is not used',
'C73':'the network is an arbitrary function',
'C84':'numerical kernels are parameters; any number of objects and interruptions',
'C96':'refuted expectation','C97':'noninterference between savedirs proved, sharing within one refuted',
'C98':'detection proved where it holds, undetected mixture exhibited for every such history','C99':'refuted expectations with the exact condition',
'C100':'square grids refuted','C101':'refuted for the method','C102':'refuted for the methods and for the location',
'C103':'refuted expectations','C104':'exact rationals; flat maxima and negative frequencies refuted','C105':'exact condition; default slice refuted','C106':'refuted expectation','C107':'sizes computed exactly','C108':'exact arithmetic; eigensolver any with unit eigenvectors forming a basis','C109':'exact arithmetic','C110':'exact arithmetic','C111':'the zero eigenvalues are proved; division by them gives inf/nan in numpy','C112':'normalisation refuted','C114':'full spectrum refuted',
'C94':'refuted expectation','C95':'refuted expectation',
}
