{"id": "C01", "title": "FFT size rounding is the least admissible size", "statement": "utils.fft_factor(n) returns, for n in 1..2048, a number that is >= n, is a product of powers of 2,3,5,7, and no smaller such number is >= n; it raises ValueError exactly when n > 2048. The documented set (which also admits one factor 11 and one factor 13) is not what is returned: e.g. 11 is rounded to 12.", "quantifier": "every integer n, against every integer of the form 2^a 3^b 5^c 7^d (unbounded exponents)", "why_tests_cant": "The minimality claim ranges over all smooth numbers, and the documented claim fails only at sizes a test has to guess.", "anchors": ["jrystal/_src/utils.py:fft_factor", "jrystal/_src/const.py:CUFFT_FACTORS"]}
{"id": "C02", "title": "Rounding a grid is idempotent, monotone and never shrinks it", "statement": "grid.proper_grid_size(g) returns one size per requested axis (three for a scalar), each >= the request; applying it twice changes nothing; larger requests never give smaller sizes; it raises iff some axis exceeds 2048.", "quantifier": "every scalar or list of axis sizes of any length", "why_tests_cant": "Lists of any length and any mix of sizes.", "anchors": ["jrystal/_src/grid.py:proper_grid_size", "jrystal/_src/utils.py:fft_factor"]}
{"id": "C03", "title": "FFT frequency order", "statement": "The integer frequencies used for an axis of size n (the order of g_vectors) are a bijection from the n array positions onto n consecutive integers containing 0, congruent to the position modulo n, with position 0 holding frequency 0; frequency set is closed under negation iff n is odd.", "quantifier": "every axis size n>=1 and every position", "why_tests_cant": "Holds for every size; parity cases differ.", "anchors": ["jrystal/_src/grid.py:_vector_grid", "jrystal/_src/grid.py:g_vectors"]}
{"id": "C04", "title": "Cubic mask selects exactly one centred block of frequencies", "statement": "grid.cubic_mask(sizes)[i] is True exactly when every axis frequency of position i lies in [floor(-Gmax/2), floor(Gmax/2)] with Gmax=(n-1)//2, except that an axis of size 2 is not cut at all. The call returns exactly when there are three axes, and raises ValueError otherwise.", "quantifier": "every list of axis sizes and every grid position", "why_tests_cant": "All sizes; the size-2 exception hides in Python's slice rules.", "anchors": ["jrystal/_src/grid.py:cubic_mask"]}
{"id": "C05", "title": "Cubic mask count agrees with half_frequency_shape", "statement": "The number of True entries of cubic_mask(sizes) equals the product of half_frequency_shape(sizes) times 2 for each axis of size 2; so the two agree exactly when no axis has size 2.", "quantifier": "every list of positive axis sizes on which cubic_mask returns", "why_tests_cant": "Parameter arrays are allocated from one and scattered through the other: must agree for every grid.", "anchors": ["jrystal/_src/grid.py:cubic_mask", "jrystal/_src/grid.py:half_frequency_shape", "jrystal/_src/grid.py:_half_frequency_ranges"]}
{"id": "C06", "title": "Densities built from cubic-masked orbitals do not alias", "statement": "For any two frequencies selected by cubic_mask on an axis of size n != 2, their difference is itself an FFT frequency of that axis, so products conj(psi) psi are represented on the grid without wrap-around; on an axis of size 2 this fails.", "quantifier": "every axis size and every pair of selected frequencies", "why_tests_cant": "Pairs over all sizes; failure only at one size.", "anchors": ["jrystal/_src/grid.py:cubic_mask", "jrystal/_src/pw.py:density_grid"]}
{"id": "C07", "title": "Padding half-frequency arrays is the same as scattering through the cubic mask", "statement": "grid._half_frequency_pad_to(t, sizes) puts the compact block back on the full grid exactly where expand_coefficient with cubic_mask(sizes) would put its row-major flattening: both arrays are equal entry by entry, zero outside the mask.", "quantifier": "every tensor of the half-frequency shape, every list of sizes without a 2, any batch dimensions", "why_tests_cant": "Any sizes/dimension; index arithmetic on 2^d blocks.", "anchors": ["jrystal/_src/grid.py:_half_frequency_pad_to", "jrystal/_src/utils.py:expand_coefficient", "jrystal/_src/grid.py:cubic_mask"]}
{"id": "C08", "title": "Reciprocal grid vectors are dual to the cell", "statement": "Every vector of grid.g_vectors(A, sizes) has inner product 2*pi*(integer frequency) with each cell vector, and position 0 holds the zero vector; distinct positions hold distinct vectors.", "quantifier": "every invertible 3x3 cell A, all sizes, all positions", "why_tests_cant": "All cells (non-symmetric ones included) and grids.", "anchors": ["jrystal/_src/grid.py:g_vectors", "jrystal/_src/grid.py:_vector_grid", "jrystal/_src/crystal.py:Crystal.reciprocal_vectors"]}
{"id": "C09", "title": "Real and reciprocal grids are an FFT pair", "statement": "For G at position g of g_vectors(A,sizes) and r at position x of r_vectors(A,sizes), exp(i G.r) equals the discrete Fourier kernel exp(2 pi i sum_j g_j x_j / n_j).", "quantifier": "every invertible cell, all sizes, all pairs of positions", "why_tests_cant": "Signed vs unsigned grid offsets only cancel modulo the lattice, for all positions.", "anchors": ["jrystal/_src/grid.py:g_vectors", "jrystal/_src/grid.py:r_vectors"]}
{"id": "C10", "title": "Grid conversions round-trip", "statement": "With the cell given, g2r_vector_grid(g_vectors(A',n),A) = r_vectors(A,n) and r2g_vector_grid(r_vectors(A',n),A) = g_vectors(A,n). Without the cell, r2g_vector_grid(r_vectors(A,n)) = g_vectors(A,n) for sizes >= 2, but g2r_vector_grid(g_vectors(A,n)) = r_vectors(A^T,n), so the conversion is wrong for cells that are not symmetric.", "quantifier": "every invertible cell, every grid size", "why_tests_cant": "All cells and grids.", "anchors": ["jrystal/_src/grid.py:g2r_vector_grid", "jrystal/_src/grid.py:r2g_vector_grid"]}
{"id": "C11", "title": "Recovering the cell from a grid", "statement": "r2cell_vectors(r_vectors(A,n)) returns A for sizes >= 2 on every axis; g2cell_vectors(g_vectors(A,n)) returns the transpose of A, hence A only for symmetric cells.", "quantifier": "every invertible cell and grid", "why_tests_cant": "The built-in test cells (fcc) are symmetric, so tests cannot see the transpose.", "anchors": ["jrystal/_src/grid.py:g2cell_vectors", "jrystal/_src/grid.py:r2cell_vectors"]}
{"id": "C12", "title": "k-point mesh is time-reversal symmetric", "statement": "grid.k_vectors(A, sizes) returns prod(sizes) points, closed under k -> -k (reversing the list negates it), pairwise distinct for an invertible cell, with -pi < k.a_j < pi, and contains Gamma iff every size is odd; its first point is Gamma iff every size is 1.", "quantifier": "every cell, every mesh", "why_tests_cant": "All meshes; even/odd differ.", "anchors": ["jrystal/_src/grid.py:k_vectors"]}
{"id": "C13", "title": "Spherical mask is the kinetic-energy ball", "statement": "spherical_mask(A, sizes, E) is True exactly at G with |G|^2/2 <= E; it grows with E; it contains G=0 iff E>=0.", "quantifier": "every cell, sizes, cutoff", "why_tests_cant": "All real cutoffs.", "anchors": ["jrystal/_src/grid.py:spherical_mask"]}
{"id": "C14", "title": "Estimated cutoff is the least cutoff covering the mask", "statement": "E = estimate_max_cutoff_energy(A, mask) is attained (or 0) and spherical_mask(A, sizes, E) contains every point of mask, and any E' with that property is >= E provided the mask is non-empty.", "quantifier": "every mask and cell", "why_tests_cant": "All masks.", "anchors": ["jrystal/_src/grid.py:estimate_max_cutoff_energy", "jrystal/_src/grid.py:spherical_mask"]}
{"id": "C15", "title": "Lattice translations", "statement": "translation_vectors(A, cutoff) returns iff the rows of A do not sum to zero and cutoff > 0; it then lists, without repetition, exactly the integer combinations of the cell vectors whose three coefficients are FFT frequencies of n = ceil(cutoff/|a1+a2+a3|^2), including zero; the list is symmetric under negation iff n is odd. It is not the set of lattice vectors within the documented cutoff distance.", "quantifier": "every cell and cutoff", "why_tests_cant": "All cells/cutoffs.", "anchors": ["jrystal/_src/grid.py:translation_vectors"]}
{"id": "C16", "title": "Compact coefficients scatter and gather without loss", "statement": "expand_coefficient puts entry g of each band at the g-th True position of the mask (row-major) and zero elsewhere; gathering at the mask recovers the input; band inner products are preserved; it raises exactly when the compact axis is neither the number of True entries nor 1.", "quantifier": "every mask with as many True entries as the compact axis, any batch sizes", "why_tests_cant": "All masks and sizes.", "anchors": ["jrystal/_src/utils.py:expand_coefficient"]}
{"id": "C17", "title": "squeeze_coefficient never returns", "statement": "squeeze_coefficient, documented as the inverse of expand_coefficient, raises on every input: AttributeError whenever the trailing shape matches the mask, because indexing returns an array and arrays have no method get.", "quantifier": "every coefficient array and mask", "why_tests_cant": "A universal failure is only seen by calling it; the claim is about every input.", "anchors": ["jrystal/_src/utils.py:squeeze_coefficient"]}
{"id": "C18", "title": "Spin/electron parity check", "statement": "check_spin_number(N, s) raises ValueError iff N and s have different parity; when it passes, (N+s)//2 + (N-s)//2 = N and their difference is s.", "quantifier": "every pair of integers, negative spin included", "why_tests_cant": "All integers.", "anchors": ["jrystal/_src/utils.py:check_spin_number"]}
{"id": "C19", "title": "safe_real accepts exactly numerically real arrays", "statement": "safe_real(a, tol) returns the real part iff every |Im| <= tol, and raises ValueError otherwise; real arrays are returned unchanged.", "quantifier": "every array and tolerance", "why_tests_cant": "All arrays.", "anchors": ["jrystal/_src/utils.py:safe_real"]}
{"id": "C20", "title": "Uniform occupation holds exactly the electrons", "statement": "occupation.uniform sums to num_electrons with up-down difference equal to spin, every entry is in [0, (3-num_spin)/num_k], when parity matches, |spin| <= N and (N+|spin|)/2 <= num_bands; if there are too few bands electrons are silently lost.", "quantifier": "every number of k-points, electrons, spin, bands", "why_tests_cant": "All sizes; violations only at the band limit.", "anchors": ["jrystal/_src/occupation.py:uniform"]}
{"id": "C21", "title": "Gamma occupation holds exactly the electrons", "statement": "occupation.gamma sums to num_electrons under the same conditions, all at the first k-point, which for a Monkhorst-Pack mesh with more than one point is not Gamma.", "quantifier": "every number of k-points, electrons, spin, bands and mesh", "why_tests_cant": "All sizes.", "anchors": ["jrystal/_src/occupation.py:gamma", "jrystal/_src/grid.py:k_vectors"]}
{"id": "C22", "title": "Idempotent occupation is physical", "statement": "occupation.idempotent returns occupations in [0,1/num_k] per spin channel (2/num_k restricted) that sum to the numbers of columns of the parameters divided by num_k, for any parameters whose QR factor is orthonormal.", "quantifier": "every parameter set; every QR routine returning orthonormal columns", "why_tests_cant": "All real parameter matrices.", "anchors": ["jrystal/_src/occupation.py:idempotent", "jrystal/_src/unitary_module.py:unitary_matrix"]}
{"id": "C23", "title": "Idempotent occupation of the initial parameters", "statement": "With parameters from idempotent_param_init, the occupations sum to num_electrons iff spin is 0 when spin_restricted is True (they sum to N+spin otherwise), and sum to N when spin_restricted is False.", "quantifier": "every N, spin of equal parity, band and k-point numbers large enough", "why_tests_cant": "Only open-shell inputs fail.", "anchors": ["jrystal/_src/occupation.py:idempotent_param_init", "jrystal/_src/occupation.py:idempotent"]}
{"id": "C24", "title": "Capped-simplex projection is exact in the interior", "statement": "occupation.proj(x, m) returns entries in [0,1] that sum to m, for every x in [0,1]^n and every 0 < m < n.", "quantifier": "every vector length n>=1, every x, every real m strictly between 0 and n", "why_tests_cant": "Data-dependent threshold search over all sorted orders.", "anchors": ["jrystal/_src/occupation.py:proj"]}
{"id": "C25", "title": "Capped-simplex projection is the Euclidean projection", "statement": "For x in [0,1]^n and 0 < m < n, proj(x, m) is the unique closest point to x among all vectors with entries in [0,1] and sum m; in particular it leaves vectors that already sum to m unchanged.", "quantifier": "every x, m, and every competing vector", "why_tests_cant": "Optimality against all competitors.", "anchors": ["jrystal/_src/occupation.py:proj"]}
{"id": "C26", "title": "Capped-simplex projection fails at empty and full occupation", "statement": "For m = 0 (for example no spin-down electrons) or m = n, proj(x, m) sums to m iff all entries of x are equal, so the documented sum does not hold at the two ends.", "quantifier": "exists x for every n>=2", "why_tests_cant": "Needs IEEE 0/0 in the threshold search.", "anchors": ["jrystal/_src/occupation.py:proj", "jrystal/_src/occupation.py:simplex_projector"]}
{"id": "C27", "title": "Entropy is symmetric, bounded and sign-correct", "statement": "entropy.fermi_dirac is invariant under exchanging occupied and empty fraction (o -> w-o, w=(3-num_spin)/num_k), is largest at half filling, and is non-negative when w+eps <= 1; for restricted Gamma-only occupations it can be negative (o=2).", "quantifier": "every occupation array", "why_tests_cant": "All occupations; sign flips only for w>1.", "anchors": ["jrystal/_src/entropy.py:fermi_dirac"]}
{"id": "C28", "title": "Cell volume and reciprocal volume", "statement": "utils.volume(A) is non-negative, positive iff A is invertible, scales as |s|^3, is invariant under rotations, row permutations and adding a multiple of one row to another, and volume(A)*volume(2 pi inv(A)^T) = (2 pi)^3.", "quantifier": "every 3x3 matrix", "why_tests_cant": "All cells.", "anchors": ["jrystal/_src/utils.py:volume", "jrystal/_src/crystal.py:Crystal.vol"]}
{"id": "C29", "title": "Scaled positions", "statement": "Crystal.scaled_positions are the coordinates of the atoms in the basis of cell vectors (rows) for every position iff the cell matrix is symmetric; in general they are the coordinates with respect to the columns.", "quantifier": "every cell and position", "why_tests_cant": "Shipped test geometry is symmetric.", "anchors": ["jrystal/_src/crystal.py:Crystal.scaled_positions"]}
{"id": "C30", "title": "Orbital coefficients are orthonormal for every parameter value", "statement": "pw.coeff(params, mask) returns, for each spin and k-point, bands with pairwise inner product delta_ij over the full grid and zero outside the mask, for every parameter value. It returns min(number of masked plane waves, requested bands) bands: asking for more bands than plane waves silently returns fewer.", "quantifier": "every parameter set; every QR routine with orthonormal columns; every mask", "why_tests_cant": "The optimiser visits arbitrary parameters.", "anchors": ["jrystal/_src/pw.py:coeff", "jrystal/_src/unitary_module.py:unitary_matrix"]}
{"id": "C31", "title": "Orbitals on the real grid are orthonormal", "statement": "pw.wave_grid(coeff, vol) of orthonormal coefficients has (vol/N) sum_r conj(psi_i) psi_j = delta_ij; more generally it multiplies inner products by N/vol.", "quantifier": "every coefficient array, grid, positive volume", "why_tests_cant": "All arrays (discrete Parseval).", "anchors": ["jrystal/_src/pw.py:wave_grid"]}
{"id": "C32", "title": "Density is non-negative and integrates to the number of electrons", "statement": "pw.density_grid(coeff, vol, occ) is real, non-negative for non-negative occ, and (vol/N) sum_r rho_s(r) = sum_{k,b} occ[s,k,b] for orthonormal coefficients.", "quantifier": "every coefficient array, occupation, volume, grid", "why_tests_cant": "All states visited by an optimiser.", "anchors": ["jrystal/_src/pw.py:density_grid", "jrystal/_src/utils.py:wave_to_density"]}
{"id": "C33", "title": "Density is gauge invariant", "statement": "pw.density_grid is unchanged when each band is multiplied by its own phase, and when bands of equal occupation at one k-point are mixed by a unitary matrix.", "quantifier": "every coefficients, phases, unitaries", "why_tests_cant": "All unitaries.", "anchors": ["jrystal/_src/pw.py:density_grid"]}
{"id": "C34", "title": "Reciprocal density", "statement": "pw.density_grid_reciprocal is the Fourier transform of density_grid: its G=0 entry is (N/vol) * number of electrons, entries at opposite frequencies are complex conjugates, and inverse transforming gives back density_grid.", "quantifier": "every coefficient array, occupation, grid", "why_tests_cant": "All inputs.", "anchors": ["jrystal/_src/pw.py:density_grid_reciprocal"]}
{"id": "C35", "title": "Density spectrum is the exact orbital autocorrelation", "statement": "For coefficients supported on cubic_mask, the reciprocal density at frequency d is (N/vol) sum over k,b of occ times sum over pairs of masked frequencies with difference exactly d (not modulo the grid).", "quantifier": "every coefficient array supported on the mask, every grid without size-2 axes", "why_tests_cant": "No aliasing for any coefficients.", "anchors": ["jrystal/_src/pw.py:density_grid_reciprocal", "jrystal/_src/grid.py:cubic_mask"]}
{"id": "C36", "title": "Rigid shifts of the density", "statement": "Multiplying the coefficients at frequency g by exp(-2 pi i g.t/n) for integer t cyclically shifts density_grid by t.", "quantifier": "every coefficients and shift", "why_tests_cant": "All shifts.", "anchors": ["jrystal/_src/pw.py:wave_grid", "jrystal/_src/pw.py:density_grid"]}
{"id": "C37", "title": "nabla_density_grid is the gradient of the density at a point", "statement": "Despite its name, pw.nabla_density_grid(r, ...) evaluates at one point r: with occupations its dot product with any direction e is the derivative at r along e of the spin-summed density sum occ |psi(r)|^2; without occupations it returns vol times the gradient of each |psi|^2 (the factor 1/vol is missing).", "quantifier": "every coefficients, occupation, invertible cell, point and direction", "why_tests_cant": "All inputs.", "anchors": ["jrystal/_src/pw.py:nabla_density_grid"]}
{"id": "C38", "title": "wave_r never returns", "statement": "pw.wave_r (and therefore density_r and nabla_density_r) raises for every input, because the output subscripts of its einsum do not occur in the inputs; with a valid output subscript the function would return the documented orbital value.", "quantifier": "every input", "why_tests_cant": "Universal failure.", "anchors": ["jrystal/_src/pw.py:wave_r", "jrystal/_src/pw.py:density_r", "jrystal/_src/pw.py:nabla_density_r"]}
{"id": "C39", "title": "Hartree potential solves the Poisson equation", "statement": "potential.hartree_reciprocal(rho,G,kohn_sham=True) satisfies |G|^2 v(G) = 4 pi rho(G) for G != 0 and v(0)=0; kohn_sham=False gives exactly half.", "quantifier": "every reciprocal density, any spin count, any grid with G=0 first and only there", "why_tests_cant": "All densities.", "anchors": ["jrystal/_src/potential.py:hartree_reciprocal"]}
{"id": "C40", "title": "Hartree energy is non-negative, quadratic and spin-blind", "statement": "energy.hartree is >= 0, scales with the square of the density, depends only on the spin-summed density, does not depend on the G=0 component, and doubles with kohn_sham=True.", "quantifier": "every reciprocal density", "why_tests_cant": "All densities.", "anchors": ["jrystal/_src/energy.py:hartree", "jrystal/_src/potential.py:hartree_reciprocal"]}
{"id": "C41", "title": "Hartree potential is the derivative of the Hartree energy", "statement": "d/dt E_H[rho + t delta] at 0 equals the braket of the kohn_sham=True potential with delta; E_H is exactly quadratic along the line.", "quantifier": "every density and direction", "why_tests_cant": "All densities and directions; AD-based Hamiltonian relies on it.", "anchors": ["jrystal/_src/energy.py:hartree", "jrystal/_src/potential.py:hartree_reciprocal"]}
{"id": "C42", "title": "potential.hartree never returns", "statement": "potential.hartree raises AssertionError for every density, since it sums out the spin axis and then calls hartree_reciprocal, which insists on it.", "quantifier": "every density array of any rank", "why_tests_cant": "Universal failure.", "anchors": ["jrystal/_src/potential.py:hartree"]}
{"id": "C43", "title": "External potential structure", "statement": "potential.external_reciprocal is linear in the charges, vanishes at G=0, is invariant under permuting atoms and under moving any atom by a lattice vector, and picks up exp(-i G.t) under a rigid shift; it differs from -4 pi Z/|G|^2 by the 1e-10 regulariser.", "quantifier": "every set of atoms, charges, cell, grid", "why_tests_cant": "All atom lists.", "anchors": ["jrystal/_src/potential.py:external_reciprocal"]}
{"id": "C44", "title": "Electron-ion energy is translation invariant", "statement": "energy.external is unchanged when the density (multiplied by exp(-iG.t)) and the atoms are shifted together by t.", "quantifier": "every density, positions, shift", "why_tests_cant": "All shifts.", "anchors": ["jrystal/_src/energy.py:external"]}
{"id": "C45", "title": "Effective potential split adds up", "statement": "potential.effective(split=False) equals the sum of the components of effective(split=True), elementwise.", "quantifier": "every input", "why_tests_cant": "All inputs.", "anchors": ["jrystal/_src/potential.py:effective"]}
{"id": "C46", "title": "Kinetic energy", "statement": "energy.kinetic is >= 0 for non-negative occupations, linear in the occupation, zero iff only G+k=0 components are occupied, and equals sum occ |c|^2 |G+k|^2/2.", "quantifier": "every coefficients, k-points, occupations", "why_tests_cant": "All inputs.", "anchors": ["jrystal/_src/energy.py:kinetic", "jrystal/_src/kinetic.py:kinetic_operator"]}
{"id": "C47", "title": "Total energy is the sum of its parts", "statement": "energy.total_energy(split=False) equals the sum of total_energy(split=True), and equals kinetic + hartree + external + xc evaluated separately on the same density.", "quantifier": "every input", "why_tests_cant": "All inputs.", "anchors": ["jrystal/_src/energy.py:total_energy"]}
{"id": "C48", "title": "band_energy never returns", "statement": "energy.band_energy raises on every input: the effective part is a single number, the kinetic part always has the axes (spin, k-point, band), and the function asserts that the two shapes are equal.", "quantifier": "every input", "why_tests_cant": "Shapes.", "anchors": ["jrystal/_src/energy.py:band_energy", "jrystal/_src/braket.py:real_braket"]}
{"id": "C49", "title": "Brakets agree between real and reciprocal space", "statement": "braket.reciprocal_braket(fft(f), fft(g), vol) = braket.real_braket(f, g, vol) for real f and g on one grid; reciprocal_braket is symmetric, linear in each argument and non-negative on the diagonal.", "quantifier": "every pair of grid functions", "why_tests_cant": "Parseval for every array.", "anchors": ["jrystal/_src/braket.py:reciprocal_braket", "jrystal/_src/braket.py:real_braket"]}
{"id": "C50", "title": "Expectation matrices are Hermitian and consistent", "statement": "braket.expectation gives Hermitian band matrices for a real local operator, its diagonal=True output is the diagonal of the full matrix, and the kinetic mode is positive semidefinite.", "quantifier": "every wave array, operator", "why_tests_cant": "All inputs.", "anchors": ["jrystal/_src/braket.py:expectation"]}
{"id": "C51", "title": "Complex Hessian recovers a Hermitian quadratic form", "statement": "hessian.complex_hessian of x -> 1/2 x^H H x is H for every Hermitian matrix H and every point. The result is square, except that an empty vector gives one axis of length 0.", "quantifier": "every dimension, Hermitian matrix and point", "why_tests_cant": "All matrices/points.", "anchors": ["jrystal/_src/hessian.py:complex_hessian"]}
{"id": "C52", "title": "hamiltonian trace axes", "statement": "hamiltonian.hamiltonian_matrix_trace with keep_kpts_axis=True returns one number per spin, not per (spin,k-point); with two spins and a k-point count other than 1 or 2 it raises.", "quantifier": "every number of spins and k-points", "why_tests_cant": "Shape cases.", "anchors": ["jrystal/_src/hamiltonian.py:hamiltonian_matrix_trace", "jrystal/_src/braket.py:expectation"]}
{"id": "C53", "title": "Ewald energy invariances", "statement": "ewald.ewald_coulomb_repulsion is invariant under a common translation of all atoms and under permuting atoms, and scales with the square of the charges.", "quantifier": "every atom list, cell, grids, eta; every erfc implementation", "why_tests_cant": "All atom lists.", "anchors": ["jrystal/_src/ewald.py:ewald_coulomb_repulsion"]}
{"id": "C54", "title": "Ewald energy and lattice translations of one atom", "statement": "The reciprocal part of the Ewald energy is unchanged when a single atom moves by a lattice vector; the truncated real-space part is only unchanged if the translation list is.", "quantifier": "every atom list and lattice vector", "why_tests_cant": "All.", "anchors": ["jrystal/_src/ewald.py:ewald_coulomb_repulsion"]}
{"id": "C55", "title": "LDA exchange of polarised densities", "statement": "The exchange energy assembled from xc.xc_density and the spin densities satisfies the exact spin scaling E[u,d] = (E[2u]+E[2d])/2 when the two spin densities are equal; otherwise the error is the integral of (u-d)(f(2u)-f(2d))/2, so for a decreasing energy per particle the result is strictly too high whenever the channels differ anywhere.", "quantifier": "every pair of spin densities and every exchange function", "why_tests_cant": "Only polarised inputs fail.", "anchors": ["jrystal/_src/xc.py:xc_density", "jrystal/_src/energy.py:xc_energy"]}
{"id": "C56", "title": "LDA potential is the derivative of the LDA energy", "statement": "xc.vxc_lda for unpolarised density returns d(rho eps(rho))/d rho for every differentiable eps, hence xc_density(kohn_sham=True) is the derivative of the LDA energy along every density change; for polarised densities the result misses rho_other d eps/d rho_s.", "quantifier": "every differentiable functional and density", "why_tests_cant": "All functionals.", "anchors": ["jrystal/_src/xc.py:vxc_lda"]}
{"id": "C57", "title": "Convergence detection", "statement": "ConvergenceChecker.check returns True exactly when at least window_size values have been seen since the last reset and the standard deviation of the last window_size values is below the threshold; it never stores more than window_size values.", "quantifier": "every history of check/reset calls, every window size and threshold", "why_tests_cant": "Unbounded histories.", "anchors": ["jrystal/calc/convergence.py:ConvergenceChecker"]}
{"id": "C58", "title": "Ground-state loop stops as specified", "statement": "With epoch >= 1 the optimisation loop performs n updates, 1 <= n <= epoch, where n is the first step at which the checker reports convergence, or epoch if it never does. The density returned is that of the parameters after the last update; the total energy reported is that of the parameters before the last update, so it is in general not the energy of the returned state (refuted). With epoch 0 the call raises UnboundLocalError.", "quantifier": "every update/energy function, epoch count and checker history", "why_tests_cant": "All step functions and histories.", "anchors": ["jrystal/calc/calc_ground_state_energy_all_electrons.py:calc", "jrystal/calc/calc_ground_state_energy_normcons.py:calc"]}
{"id": "C59", "title": "Temperature schedule", "statement": "For smearing > 0 the temperature starts at 100; for smearing <= 100 it never increases, stays between smearing and 100, and falls strictly (smearing < 100) up to step epoch//2, from where on it equals smearing (epoch >= 2). With fewer than 2 epochs it stays at 100. A smearing above 100 makes it rise. It is 0 at every step when smearing <= 0.", "quantifier": "every step and configuration", "why_tests_cant": "All steps.", "anchors": ["jrystal/calc/calc_ground_state_energy_all_electrons.py:calc"]}
{"id": "C60", "title": "Band eigenvalues come back in path order", "statement": "After splitting the k-path over D devices, solving and re-stacking, row p of the eigenvalue array belongs to k-point p of the path, computed with parameters warm-started along the block of that device; for all-electron and norm-conserving calculations.", "quantifier": "every number of k-points per device, devices, bands, spins, every optimisation step and eigensolver", "why_tests_cant": "Permutation error for any counts.", "anchors": ["jrystal/calc/calc_band_structure_all_electrons.py:calc", "jrystal/calc/calc_band_structure_normcons.py:calc"]}
{"id": "C61", "title": "When the all-electron band calculation runs", "statement": "The all-electron band calculation returns eigenvalues exactly if the device count divides the (non-zero) number of path points, the path has num_kpoints points, and k-path parallelism is on or there is one device. With parallelism off on a machine with D>1 devices it always raises.", "quantifier": "every number of devices and k-points", "why_tests_cant": "Configuration space.", "anchors": ["jrystal/calc/calc_band_structure_all_electrons.py:calc"]}
{"id": "C62", "title": "k-path coordinates survive the fractional round trip", "statement": "For every invertible cell get_k_path returns exactly the fractional points of the band path of the cell in Angstrom (fractional=True), or these points times the reciprocal vectors of the Bohr cell (fractional=False): both unit conversions cancel.", "quantifier": "every cell and path", "why_tests_cant": "All cells.", "anchors": ["jrystal/_src/band/k_path.py:get_k_path"]}
{"id": "C63", "title": "Pseudopotential header valence configuration", "statement": "For every info text, parse_pp_info reports a non-empty valence configuration only if the last line of the text mentions 'generation configuration' (any case) and a line other than the first mentions 'valence configuration'; it then reports exactly the data rows, in order, from two lines below the last such title up to the last line, each read word by word. In the usual layout, where text follows the generation line, the table is lost: that the rows between the title and the generation line are reported is refuted.", "quantifier": "every UPF info text", "why_tests_cant": "All texts.", "anchors": ["jrystal/pseudopotential/load.py:parse_pp_info"]}
{"id": "C64", "title": "UPF file lookup", "statement": "find_upf returns directory + name for a listed name that starts with the element symbol and a dot and ends in 'upf' (any case) whenever the listing has one, and raises otherwise; the name up to its first dot is the symbol, so 'C' never matches 'Cu...' or 'Ca...' files; with one matching file the order of the listing is irrelevant. With several it is not, and no path separator is added between directory and name (both refuted).", "quantifier": "every directory listing and symbol", "why_tests_cant": "All listings.", "anchors": ["jrystal/pseudopotential/load.py:find_upf"]}
{"id": "C65", "title": "Removing the r=0 point keeps radial arrays aligned", "statement": "For every parsed file accepted by NormConservingPseudopotential.create, the mesh, its weights, the local potential (halved) and every projector (divided by r) hold exactly the samples of the mesh points with r>0, in mesh order; the coupling matrix is the row-major reshaping of the file's list, halved; the valence charge is the integer part of the header's z_valence and the angular-momentum limits are the header's; no uninitialised value reaches the result; one entry per atom in order, each from a file of that element. A file gives the data of an atom exactly when it is complete (numeric charge and angular momenta, one value per mesh point, a square coupling matrix), and the loader returns exactly when every element has a file and every file is complete.", "quantifier": "every UPF mesh", "why_tests_cant": "All meshes.", "anchors": ["jrystal/pseudopotential/dataclass.py:NormConservingPseudopotential.create"]}
{"id": "C66", "title": "Local pseudopotential structure", "statement": "pseudopotential.local.potential_local_reciprocal, called with one entry per atom, returns exactly when the method is sbt or fft, there is at least one atom and each potential has as many samples as its radial grid. The result vanishes at G=0, does not depend on the order of the atoms, adds over atoms, does not change when any atom moves by a lattice vector, and is multiplied by exp(-iG.t) when all atoms move by t.", "quantifier": "every list of atoms with their data, grid, method, shift", "why_tests_cant": "Symmetries must hold for every configuration, not sampled ones.", "anchors": ["jrystal/pseudopotential/local.py:potential_local_reciprocal"]}
{"id": "C67", "title": "Nonlocal pseudopotential matrix", "statement": "For projectors given on the grid, nloc.potential_nonlocal_psi_reciprocal followed by nloc.hamiltonian_nonlocal returns exactly when the method is known, there is a projector, and the arrays of each atom fit the grid and the k-points. The matrix is Hermitian and positive semidefinite whatever the D matrices are. Provided eigh returns orthonormal eigenvectors it equals the sum over atoms and projectors j of |lambda_j| <psi|beta_j><beta_j|psi>, with lambda_j the j-th smallest eigenvalue of D. So it agrees with the textbook sum_ij D_ij <psi|beta_i><beta_j|psi> when every D is diagonal with ascending nonnegative entries, and differs in general for a negative entry, for descending entries and for coupled projectors; the cases of agreement are characterised exactly.", "quantifier": "every list of atoms, D matrices, projectors, harmonics, grid, k-points, orbitals; every eigh that returns orthonormal vectors and ascending values", "why_tests_cant": "Positivity and the exact set of D matrices that give the textbook operator are statements about all matrices.", "anchors": ["jrystal/pseudopotential/nloc.py:potential_nonlocal_psi_reciprocal", "jrystal/pseudopotential/nloc.py:_get_psi", "jrystal/pseudopotential/nloc.py:hamiltonian_nonlocal"]}
{"id": "C68", "title": "Angular feature map reproduces Legendre kernels", "statement": "legendre_kernel_trick(l) returns a feature map for l = 0 and l = 1 and raises NotImplementedError for every other l. For nonzero vectors phi(x).phi(y) = (2l+1) P_l(cos angle(x,y)); for l = 1 the zero vector is mapped to zero.", "quantifier": "every l and every pair of vectors", "why_tests_cant": "All directions.", "anchors": ["jrystal/pseudopotential/spherical.py:legendre_kernel_trick"]}
{"id": "C69", "title": "Spherical coordinates invert", "statement": "cartesian_to_spherical returns (norm, azimuth in [0,2pi), polar angle in [0,pi]) and the spherical-to-Cartesian formula applied to it returns the input, exactly, for every nonzero vector. At the origin it returns (eps, 0, pi/2), not the documented (0, NaN, pi/2).", "quantifier": "every vector", "why_tests_cant": "All directions.", "anchors": ["jrystal/pseudopotential/spherical.py:cartesian_to_spherical"]}
{"id": "C70", "title": "Padding ragged projectors", "statement": "stack_with_padding returns one row per input array; each axis is the largest among the inputs; inside the input's shape the row has the input's values and zero outside; it raises exactly when the list is empty or ranks differ.", "quantifier": "every list of arrays", "why_tests_cant": "All shapes.", "anchors": ["jrystal/pseudopotential/utils.py:stack_with_padding"]}
{"id": "C71", "title": "Numerical spherical Bessel transform is linear and consistent", "statement": "sbt_numerical.sbt returns 2*len(r) momenta evenly spaced from 0.0001 to kmax and, for every row, the left Riemann sum of f(r) r^2 j_l(g r); it is linear in f, ignores the last radial sample, a list of l gives the stacked single-l results, and it raises exactly for a missing kmax, an l of the wrong kind, mismatched l and row counts, or rows / spacings of the wrong length.", "quantifier": "every radial grid, function, l list; every j_l", "why_tests_cant": "All inputs.", "anchors": ["jrystal/sbt/sbt_numerical.py:sbt"]}
{"id": "C72", "title": "Simpson weights", "statement": "The integration weights of pyNumSBT give composite Simpson in the logarithm of the radius for every number of points, exact on cubics; for an even count the first point gets weight 0, so the first interval is not integrated. The direct transform run_int is that rule applied to r^3 f(r) j_l(kr), in both directions, and raises exactly when the direction is not 1 or -1.", "quantifier": "every number of grid points", "why_tests_cant": "All lengths.", "anchors": ["jrystal/sbt/pysbt.py:pyNumSBT"]}
{"id": "C73", "title": "Batched transform covers every row", "statement": "batch_sbt returns one transform per row when l is an int; with a list it returns as many rows as the shorter of the two and silently drops the rest; it raises exactly for an l of the wrong kind or when no row is transformed.", "quantifier": "every batch and l list", "why_tests_cant": "Lengths.", "anchors": ["jrystal/sbt/sbt.py:batch_sbt"]}
{"id": "C74", "title": "FFT derivative rules", "statement": "For every array with at least three axes, the transpose rules registered for fftn3d and ifftn3d return the one array z for which sum fft(x)*y = sum x*z holds for all x; the tangent is the exact directional change along every direction; ifftn3d and fftn3d invert each other both ways. The result is complex, in single precision exactly for single-precision floating or complex input. The element type announced to jit is the true one exactly for complex input (a real input is announced as real, which is wrong).", "quantifier": "every array, tangent, grid, batch shape", "why_tests_cant": "AD correctness for all arrays and shapes.", "anchors": ["jrystal/_src/spmd/fft.py:_fftn_tranpose_rule", "jrystal/_src/spmd/fft.py:_fftn_jvp", "jrystal/_src/spmd/fft.py:fftn3d"]}
{"id": "C75", "title": "Distributed FFT equals the FFT exactly when axes -3 and -2 are not split", "statement": "_supported_sharding is meant to leave the three transformed axes unsharded; it returns the spec with only the last axis cleared. With positive sizes, the FFT run on sharded arrays returns the FFT for every array of a shape if and only if the mesh divides all axes but the last and axes -3 and -2 each have one part; a spec that splits axis -2 is accepted and gives wrong numbers.", "quantifier": "every rank, shape, mesh, partition spec and array", "why_tests_cant": "All specs and meshes.", "anchors": ["jrystal/_src/spmd/custom_sharding.py:_supported_sharding", "jrystal/_src/spmd/custom_sharding.py:custom_sharding_by_mesh"]}
{"id": "C76", "title": "Beta transform cache round trip", "statement": "load_beta_sbt after save_beta_sbt (or after pre_calc_beta_sbt with caching) returns the same arrays in the same order, one per atom, for any number of atoms; giving an explicit filename to either raises UnboundLocalError.", "quantifier": "every list of arrays", "why_tests_cant": "All list lengths (arr_10 sorts before arr_2).", "anchors": ["jrystal/calc/opt_utils.py:save_beta_sbt", "jrystal/calc/opt_utils.py:load_beta_sbt"]}
{"id": "C77", "title": "Configuration overriding", "statement": "get_config: a YAML file replaces, rather than overrides, the defaults (a file that omits band_structure_empty_bands is rejected); band_structure_empty_bands falls back to empty_bands exactly when it is None; every other key is passed through unchanged.", "quantifier": "every configuration", "why_tests_cant": "All configs.", "anchors": ["jrystal/config.py:get_config"]}
{"id": "C78", "title": "simplex_projector returns a physical occupation for every parameter", "statement": "For every pair of real parameter arrays, simplex_projector returns entries in [0,(3-num_spin)/num_k] that sum to num_electrons with up-down difference spin, provided the parity matches and both channels hold at least one electron and at least one hole per k-point: each entry of a spin channel is the sigmoid of its parameter, shifted by one number common to the channel, cut at 0 and 1 and divided by num_k, and the spin-restricted result is the sum of the channels. For a fully polarised system the empty channel is not empty.", "quantifier": "all real parameters, mesh sizes, band numbers, electron numbers, spins, both values of spin_restricted", "why_tests_cant": "The optimiser visits arbitrary real parameters; a test samples a few.", "anchors": ["jrystal/_src/occupation.py:simplex_projector", "jrystal/_src/occupation.py:proj"]}
{"id": "C79", "title": "param_init followed by occupation holds the electrons for every method", "statement": "For each documented method, occupation(param_init(...)) with the same arguments has shape [num_spin, num_k, num_bands] and sums to num_electrons, except the idempotent method, which sums to num_electrons + spin because param_init does not pass spin_restricted on. The simplex-projector method starts from parameters that grow by 0.1 from one state to the next in (k-point, band) order, so the higher bands and the later k-points start fuller.", "quantifier": "all methods, sizes, electron numbers, spins, spin_restricted values, random draws and QR results", "why_tests_cant": "Needs all sizes, random draws and methods at once.", "anchors": ["jrystal/_src/occupation.py:param_init", "jrystal/_src/occupation.py:occupation"]}
{"id": "C80", "title": "wave_grid and density_grid evaluate the documented sums", "statement": "pw.wave_grid at grid index x equals (1/sqrt vol) sum_G c_G exp(i G.r_x) where G and r_x are the entries of grid.g_vectors and grid.r_vectors of the same cell and sizes; density_grid summed over spin equals the occupation-weighted sum of squared moduli of those values.", "quantifier": "every coefficients, occupation, invertible cell, grid sizes, positive volume", "why_tests_cant": "All inputs; ties the FFT conventions of three modules together.", "anchors": ["jrystal/_src/pw.py:wave_grid", "jrystal/_src/pw.py:density_grid", "jrystal/_src/grid.py:g_vectors", "jrystal/_src/grid.py:r_vectors"]}
{"id": "C81", "title": "wave_to_density agrees with density_grid", "statement": "utils.wave_to_density(pw.wave_grid(c, vol), occ) equals pw.density_grid(c, vol, occ).", "quantifier": "every coefficients, occupation, volume", "why_tests_cant": "All inputs; two independent implementations must agree.", "anchors": ["jrystal/_src/utils.py:wave_to_density", "jrystal/_src/pw.py:density_grid"]}
{"id": "C82", "title": "Local potentials are real on odd grids", "statement": "On a grid with odd sizes potential.external and the Hartree and external parts of potential.effective are real-valued for every real density; on even grids the external potential can be complex.", "quantifier": "every cell, odd grid, atoms, charges, density", "why_tests_cant": "The reality depends on the whole lattice of frequencies and on every atomic position; a sample of positions does not show that the imaginary part cancels for all of them.", "anchors": ["jrystal/_src/potential.py:external", "jrystal/_src/potential.py:effective"]}
{"id": "C83", "title": "Total energy is gauge invariant", "statement": "energy.total_energy and each of its four parts are unchanged when the bands are mixed by a unitary matrix, per spin and k-point, that only mixes bands of equal occupation.", "quantifier": "every coefficients, unitary mixing, occupations, functional", "why_tests_cant": "The statement ranges over a continuous group of mixings at every k-point and spin.", "anchors": ["jrystal/_src/energy.py:total_energy"]}
{"id": "C84", "title": "Total energy is translation invariant", "statement": "energy.total_energy and each of its four parts are unchanged when the orbitals and the atoms are moved together by any whole number of grid steps.", "quantifier": "every cell, coefficients, atoms, occupations, k-points, grid step, and every LDA functional or non-Kohn-Sham GGA functional", "why_tests_cant": "It must hold for every structure and every step, and involves all energy terms at once.", "anchors": ["jrystal/_src/energy.py:total_energy", "jrystal/_src/xc.py:xc_density"]}
{"id": "C85", "title": "Squared density gradients", "statement": "xc.sigma_r_fn returns the squared gradient of the trigonometric interpolant of each spin density at the grid points (and the mixed product for two channels): non-negative, bounded by Cauchy-Schwarz, additive for the total density, and zero everywhere exactly for constant densities.", "quantifier": "every cell, grid and density", "why_tests_cant": "The interpolant and its gradient are defined at all points and for all densities; finite differences only approximate them.", "anchors": ["jrystal/_src/xc.py:sigma_r_fn"]}
{"id": "C86", "title": "hamiltonian_matrix elements", "statement": "hamiltonian.hamiltonian_matrix returns <psi_i| |G+k|^2/2 + V_eff |psi_j> for every spin, k-point and band pair, and the matrix is Hermitian, whenever the effective potential has one spin channel; with two channels (spin-polarised Kohn-Sham) each spin gets the sum of the two spin Hamiltonians, so the documented value is wrong.", "quantifier": "every cell, grid, coefficient array, density, atoms, k-point list, functional", "why_tests_cant": "All orbitals, densities and sizes; the matrix comes from second derivatives by autodiff.", "anchors": ["jrystal/_src/hamiltonian.py:hamiltonian_matrix", "jrystal/_src/hessian.py:complex_hessian"]}
{"id": "C87", "title": "Hamiltonian in the plane-wave basis", "statement": "hamiltonian._hamiltonian_matrix_basis returns, for each k-point, delta_ij |G_i+k|^2/2 plus the Fourier component of the effective potential at G_i - G_j, for the plane waves of the mask in row-major order.", "quantifier": "every boolean mask, grid, density, k-point list", "why_tests_cant": "All masks and densities.", "anchors": ["jrystal/_src/hamiltonian.py:_hamiltonian_matrix_basis", "jrystal/_src/utils.py:expand_coefficient"]}
{"id": "C88", "title": "_hamiltonian_matrix cannot be called", "statement": "hamiltonian._hamiltonian_matrix raises TypeError for every argument, because it passes a keyword potential.effective does not accept.", "quantifier": "every input", "why_tests_cant": "No input succeeds; tests show only some.", "anchors": ["jrystal/_src/hamiltonian.py:_hamiltonian_matrix", "jrystal/_src/potential.py:effective"]}
{"id": "C89", "title": "Nested batching", "statement": "vmapstack(times)(f) maps f over the first `times` axes: entry (i, j) of the result is entry j of f applied to the sub-array at i, and the shape is the batch shape followed by f's output shape. With options it raises ValueError exactly when their number differs from times.", "quantifier": "every function, array rank and number of batch axes", "why_tests_cant": "All ranks and functions.", "anchors": ["jrystal/_src/utils.py:vmapstack"]}
{"id": "C91", "title": "Command-line overrides", "statement": "parse_args leaves every key not mentioned unchanged and sets a mentioned key to the last text given, converted to the type of the default. Consequently any non-empty text (also 'False') sets a boolean option to True, and an option whose default is None cannot be set (the program exits).", "quantifier": "every configuration and argument list", "why_tests_cant": "All argument lists.", "anchors": ["jrystal/calc/opt_utils.py:parse_args"]}
{"id": "C92", "title": "Grids and mask of a run", "statement": "The grids built from a configuration are the reciprocal vectors, real-space points and k-points of the configured crystal's cell for the configured sizes, each rounded up to the next size with prime factors 2,3,5,7 (so the number of k-points is the product of the rounded mesh sizes). G-vector grid, r-vector grid and frequency mask have the same shape; the mask is the cubic rule, or exactly the vectors of kinetic energy up to cutoff_energy, as configured. A crystal with electron count and spin of different parity is rejected. A list of integers asks for these sizes, a number for the same size along every axis, a fractional number being cut off towards zero; nothing else is accepted.", "quantifier": "every configuration and geometry file", "why_tests_cant": "All configurations.", "anchors": ["jrystal/calc/opt_utils.py:create_grids", "jrystal/calc/opt_utils.py:create_freq_mask", "jrystal/calc/opt_utils.py:create_crystal"]}
{"id": "C93", "title": "Bands allocated by the drivers hold the electrons", "statement": "With the number of bands the drivers allocate, ceil(N/2)+empty_bands, uniform occupation holds all N electrons exactly if |spin| <= 2*empty_bands + (N mod 2), and otherwise silently holds fewer.", "quantifier": "every electron count, spin of equal parity, number of empty bands and k-points", "why_tests_cant": "All counts.", "anchors": ["jrystal/calc/calc_ground_state_energy_all_electrons.py:calc", "jrystal/_src/occupation.py:uniform"]}
{"id": "C94", "title": "Nuclear repulsion used by the drivers", "statement": "The Ewald repulsion computed from a configuration depends only on the crystal, spin, grid and Ewald entries; in particular it is the same with and without pseudopotentials, i.e. it uses full nuclear charges also when the core electrons are removed. If every ion charge is a times the nuclear charge, the ionic repulsion would be a^2 times the value used.", "quantifier": "every configuration and override", "why_tests_cant": "All configurations.", "anchors": ["jrystal/calc/opt_utils.py:get_ewald_coulomb_repulsion", "jrystal/calc/calc_ground_state_energy_normcons.py:calc"]}
{"id": "C95", "title": "Pseudopotential loading and driver preconditions", "statement": "create_pseudopotential returns exactly what the norm-conserving loader (types normcons, normconserving, nc) or the ultrasoft loader (types ultrasoft, us) returns for the configured crystal and the configured directory, by default the directory of that type in the package; it raises for every other type and for every configuration without a pseudopotential_type entry, and the default configuration has none. The norm-conserving band calculation always raises when a ground state result is passed to it.", "quantifier": "every configuration, path, device count and ground-state result", "why_tests_cant": "All configurations.", "anchors": ["jrystal/calc/calc_band_structure_normcons.py:calc", "jrystal/calc/opt_utils.py:create_pseudopotential"]}
{"id": "C96", "title": "Mapping over atoms", "statement": "map_over_atoms applies the function to the i-th entries of its list arguments, in order, ignores surplus entries of later lists and raises IndexError when a later list is shorter than the first.", "quantifier": "every function and argument lists", "why_tests_cant": "All lists.", "anchors": ["jrystal/pseudopotential/utils.py:map_over_atoms"]}
{"id": "C97", "title": "Ultrasoft augmentation functions", "statement": "The augmentation functions stored by UltrasoftPseudopotential.create are symmetric in the two projector indices; they keep every mesh point while the mesh keeps only those with r>0, so the lengths agree exactly when no mesh point was dropped; with a point at r=0 the value stored there is uninitialised memory (determinism refuted). Reading returns exactly when every augmentation can be stored (square charge matrix that passes the eigenvalue check, functions whose indices exist), and the ultrasoft loader then gives the norm-conserving data of the same files.", "quantifier": "every parsed file with an augmentation section", "why_tests_cant": "All files and memory contents.", "anchors": ["jrystal/pseudopotential/dataclass.py:UltrasoftPseudopotential.create"]}
{"id": "C98", "title": "Text fields of pseudopotential files", "statement": "A header value is the stripped text after the first colon of its line (the stripped line if there is none); number lists are split at white space and read completely; projectors are read in document order whatever their numbering.", "quantifier": "every text and XML tree", "why_tests_cant": "All texts.", "anchors": ["jrystal/pseudopotential/load.py:extract_value", "jrystal/pseudopotential/load.py:parse_pp_nonlocal"]}
{"id": "C99", "title": "Real spherical harmonics keep the Legendre kernel", "statement": "batch_sph_harm_real returns 2l+1 values whose products, summed over m, equal those of the complex harmonics; the zero-padded table used by the nonlocal projectors therefore has kernel (2l+1)/(4pi) P_l(cos angle) for every l up to l_max, for any library harmonics with the conjugation symmetry and the addition theorem. The standard spherical harmonics have both for every l, and for them entry j is the real harmonic of m = j-l without a sign factor.", "quantifier": "every l, l_max and pair of directions; every library harmonics with those two properties, and the standard ones without any hypothesis", "why_tests_cant": "Rotational invariance of the projectors must hold for all pairs of directions and all l.", "anchors": ["jrystal/pseudopotential/spherical.py:batch_sph_harm_real", "jrystal/pseudopotential/nloc.py:_compute_spherical_harmonics"]}
{"id": "C100", "title": "Numerical transform converges to the integral", "statement": "The value sbt_numerical.sbt returns at each momentum differs from the integral of f(r) r^2 j_l(gr) over the grid's range by at most L h (r_last - r_0), where h bounds the grid steps and L is a Lipschitz constant of the integrand.", "quantifier": "every grid with steps at most h, every integrand with Lipschitz constant L, every momentum", "why_tests_cant": "A convergence bound ranges over all grids and functions.", "anchors": ["jrystal/sbt/sbt_numerical.py:sbt"]}
{"id": "C101", "title": "Fast Bessel transform: grid, switch, scaling, inverse", "statement": "pyNumSBT's momentum grid is logarithmic with the radial step and ends at kmax; run returns the small-k result up to the point where small-k and large-k results are closest and the large-k result after it; scaling the input by a nonzero factor scales the output; the inverse transform is the forward one with the two grids exchanged when l = 0, the grids start at the same value or the first sample vanishes (the source extends the input with the wrong grid otherwise); run raises exactly for l > lmax or a direction other than 1 and -1.", "quantifier": "every grid, function, l, direction, coefficient tables", "why_tests_cant": "All grids and inputs.", "anchors": ["jrystal/sbt/pysbt.py:pyNumSBT"]}
{"id": "C102", "title": "Local pseudopotential values and units", "statement": "With method sbt the value at G != 0 is N/vol times the sum over atoms of 4 pi (radial transform of v + Z/r at |G| - Z/|G|^2) exp(-iG.R), the radial transform being interpolated from 2 len(r) equally spaced momenta from 1e-4 to the largest |G|. With method fft the short-range part is the transform over the real-space grid of the transposed cell, times 4 pi instead of the cell volume: for a symmetric cell and one atom it is the Fourier coefficient of the potential only where the short-range coefficient is zero or when vol = 4 pi.", "quantifier": "every cell, grid, list of atoms, radial data, spline and Bessel routine", "why_tests_cant": "A closed form ranges over all inputs.", "anchors": ["jrystal/pseudopotential/local.py:potential_local_reciprocal"]}
{"id": "C103", "title": "Local pseudopotential Hamiltonian and energy agree", "statement": "On odd grids the local potential satisfies V(-G) = conj V(G) and is real in real space, so hamiltonian_local is Hermitian. energy_local of the density of a set of orbitals equals the occupation-weighted sum of the real diagonal entries of hamiltonian_local for these orbitals, and equals the integral of potential times density in real space.", "quantifier": "every cell, odd grid, atoms, method, coefficients and occupations", "why_tests_cant": "Hermiticity and consistency must hold for all inputs.", "anchors": ["jrystal/pseudopotential/local.py:hamiltonian_local", "jrystal/pseudopotential/local.py:energy_local", "jrystal/pseudopotential/local.py:potential_local_reciprocal"]}
{"id": "C104", "title": "Local pseudopotential argument counts", "statement": "One data set with several positions gives the same result as repeating the data for every position; any other disagreement between the number of data sets and the number of positions raises unless there is a single position; an unknown transform method raises ValueError.", "quantifier": "every grid, positions and data lists", "why_tests_cant": "All list lengths.", "anchors": ["jrystal/pseudopotential/local.py:potential_local_reciprocal", "jrystal/pseudopotential/utils.py:map_over_atoms"]}
{"id": "C105", "title": "Symmetries of the nonlocal pseudopotential", "statement": "The nonlocal matrix does not change when atoms are reordered or when any atom moves by a lattice vector, and adds over atoms. Moving all atoms by t has the same effect as moving the orbitals by t, whereas in the textbook operator moving atoms and orbitals together changes nothing: the code places each atom at minus its position.", "quantifier": "every cell, grid, k-points, atoms, shifts, orbitals", "why_tests_cant": "Invariances over all shifts and configurations; tests use atoms at symmetric positions where the sign is invisible.", "anchors": ["jrystal/pseudopotential/nloc.py:potential_nonlocal_psi_reciprocal", "jrystal/pseudopotential/nloc.py:_get_psi"]}
{"id": "C106", "title": "Nonlocal matrix by Legendre polynomials", "statement": "If the harmonics satisfy the addition theorem and the conjugation symmetry (the standard ones do, for every l), the nonlocal matrix equals the double sum over plane waves with (2l+1)/(4 pi) P_l(cos angle) in place of the sum over m, so it does not depend on the choice of axes in the harmonics. Projectors with l>0 must vanish at G+k=0.", "quantifier": "every l, atoms, grid, k-points, orbitals, every family of harmonics with these identities", "why_tests_cant": "An identity over all l, directions and coefficients.", "anchors": ["jrystal/pseudopotential/nloc.py:_get_psi", "jrystal/pseudopotential/spherical.py:batch_sph_harm_real"]}
{"id": "C107", "title": "Nonlocal energy", "statement": "nloc.energy_nonlocal equals the occupation-weighted sum of the real diagonal entries of hamiltonian_nonlocal, is linear in the occupations, and is nonnegative for nonnegative occupations. With the default occupation=None it raises TypeError.", "quantifier": "every coefficients, projectors, volume, occupations", "why_tests_cant": "Equality and sign over all inputs.", "anchors": ["jrystal/pseudopotential/nloc.py:energy_nonlocal", "jrystal/pseudopotential/nloc.py:hamiltonian_nonlocal"]}
{"id": "C108", "title": "Norm-conserving Hamiltonian matrix and trace", "statement": "nloc.hamiltonian_matrix is the sum of the nonlocal, local, Hartree plus exchange-correlation, and kinetic matrices between the given orbitals; on odd grids with a real exchange-correlation potential it is Hermitian, and hamiltonian_trace is the sum of its real diagonal entries. A spin-polarised exchange-correlation potential is read along the k-point axis: channel k acts on both spins at k-point k if there are as many k-points as channels, and otherwise the call raises ValueError (for more than one k-point).", "quantifier": "every coefficients, density, potentials, projectors, grid, k-points", "why_tests_cant": "Hermiticity and consistency of two separate code paths over all inputs.", "anchors": ["jrystal/pseudopotential/nloc.py:hamiltonian_matrix", "jrystal/pseudopotential/nloc.py:hamiltonian_trace"]}
{"id": "C109", "title": "Projectors on the G+k grid", "statement": "beta.beta_sbt_grid returns exactly when each atom's arrays fit, the radial grid has a nonzero point and some |G+k| exceeds 1e-4. The value at k, projector j and G is the spline through the radial transforms of projector j, with its own l, at 2N knots between 1e-4 and the largest |G+k|, evaluated at |G+k|: it depends on |G+k| only. Atoms beyond the shortest list are dropped. Omitting the projectors in potential_nonlocal_psi_reciprocal is the same as passing this result, and the fourier_transform_method argument changes nothing.", "quantifier": "every radial grid, projectors, l, grid, k-points, spline and Bessel functions", "why_tests_cant": "Exact domain and value for every data set.", "anchors": ["jrystal/pseudopotential/beta.py:beta_sbt_grid", "jrystal/pseudopotential/beta.py:_beta_sbt_single_atom", "jrystal/pseudopotential/nloc.py:potential_nonlocal_psi_reciprocal"]}
{"id": "C110", "title": "Sharded random numbers", "statement": "spmd.uniform without a sharding is jax.random.uniform. With a sharding that splits array axis j over mesh axis j it returns exactly when the mesh has no more axes than the array and no more devices than exist, and its sizes divide the array; device d (row-major) then holds random numbers drawn with the key split off after d splits, the blocks cover the array, and nothing else is written. A sharding whose blocks do not have the shape obtained by dividing axis j by mesh axis j raises, so a spec naming the mesh axes in another order fails.", "quantifier": "every key, shape, mesh, number of devices", "why_tests_cant": "All shapes and meshes; test machines have one device.", "anchors": ["jrystal/_src/spmd/uniform.py:uniform"]}
{"id": "C111", "title": "vmap of the FFT", "statement": "jax.vmap of fftn3d and ifftn3d over any axis of an array with at least four axes stacks, on axis 0, the transform of each slice; other arrays or axes raise ValueError.", "quantifier": "every array, batch axis", "why_tests_cant": "All ranks and axes.", "anchors": ["jrystal/_src/spmd/fft.py:_fftn_batching_rule", "jrystal/_src/spmd/fft.py:_ifftn_batching_rule"]}
{"id": "C90", "title": "What the ground-state drivers minimise", "statement": "At every set of parameters a run can reach, the all-electron driver's objective is energy.total_energy (kohn_sham off) of the orbitals and occupations of these parameters; the norm-conserving driver's objective is kinetic + Hartree + sum over spin, k-point and band of occupation times the expectation of local and nonlocal potential + exchange-correlation. One step minimises objective minus temperature times entropy and reports the objective and entropy of the parameters before the step.", "quantifier": "every configuration, crystal, parameters reachable by the run, optimiser, functional", "why_tests_cant": "Must hold at every point of every optimisation trajectory.", "anchors": ["jrystal/calc/calc_ground_state_energy_all_electrons.py:total_energy", "jrystal/calc/calc_ground_state_energy_normcons.py:total_energy", "jrystal/calc/calc_ground_state_energy_all_electrons.py:update"]}
{"id": "C112", "title": "All-electron run end to end", "statement": "From a configuration whose bands can hold the electrons and fit the plane-wave basis, the all-electron calculation returns (for at least one epoch and functionals that exist) a density of shape [spin, grid], nowhere negative, that integrates to the number of electrons, with the difference of the channel integrals equal to the spin; for the idempotent method it integrates to N + spin and is not polarised. More bands than plane waves, if there are at least two of these, raise. The reported energy is the objective before the last step plus the Ewald energy, and the run stops at the first step whose energies satisfy the convergence condition or after the configured number of epochs. The occupation method is the one named in the configuration; any name other than the four known ones raises.", "quantifier": "every configuration, crystal, random start, optimiser that leaves parameters with zero gradient in place, convergence history", "why_tests_cant": "All configurations and all trajectories.", "anchors": ["jrystal/calc/calc_ground_state_energy_all_electrons.py:calc"]}
{"id": "C113", "title": "Norm-conserving run end to end", "statement": "As for all electrons with the valence electrons of the pseudopotential, if their parity matches the spin: the density integrates to the number of valence electrons and has the requested polarisation for the restricted case and for simplex-projector. For unrestricted uniform and gamma every channel holds all electrons, 2N in total. Idempotent always raises; simplex-projector raises unless the number of devices divides the number of bands.", "quantifier": "every configuration, pseudopotential, random start, optimiser, number of devices", "why_tests_cant": "All configurations, devices and trajectories.", "anchors": ["jrystal/calc/calc_ground_state_energy_normcons.py:calc"]}
{"id": "C114", "title": "Command line dispatch", "statement": "The command runs the energy driver by default or for mode energy and the band driver for mode band, norm-conserving exactly when use_pseudopotential of the configuration file is true; other modes are rejected; the load option has no effect.", "quantifier": "every mode, file, load argument", "why_tests_cant": "All arguments and files.", "anchors": ["main.py:main"]}
{"id": "C115", "title": "Band energies depend on the span of the orbitals only", "statement": "The energies reported for a set of orbitals at a k-point are unchanged when the orbitals are replaced by any unitary combination of themselves; energies of fewer orthonormal combinations interlace with the matrix of the whole set. Every Hermitian matrix of any size has ascending real eigenvalues, and they are unique, so the reference the other band properties compare with exists.", "quantifier": "every number of orbitals, coefficients, k-point, grid, density, functional; every unitary combination", "why_tests_cant": "All unitary transformations and all sizes.", "anchors": ["jrystal/_src/hamiltonian.py:hamiltonian_matrix", "jrystal/calc/calc_band_structure_all_electrons.py:calc"]}
{"id": "C116", "title": "All-electron band structure end to end", "statement": "The saved band structure has shape [spin, k-points, bands] with ceil(N/2) + empty bands. With a one-channel density, at every point of the path the energies ascend, none lies below the corresponding eigenvalue of the Kohn-Sham Hamiltonian in the plane-wave basis of the mask, they sum to the objective that was minimised, and each is off by no more than the objective exceeds its minimum; with as many bands as plane waves they are exact. The run returns iff the devices used are the devices present, divide the path, and the path has the requested number of points. With an LDA functional and a ground state of the same configuration, the effective potential exists and the density it is built from holds the right number of electrons.", "quantifier": "every configuration, crystal, density, k-path, number of devices, random start, optimiser and number of steps", "why_tests_cant": "All trajectories; the bound has to hold whether or not the optimiser converged.", "anchors": ["jrystal/calc/calc_band_structure_all_electrons.py:calc"]}
{"id": "C117", "title": "Norm-conserving band structure end to end", "statement": "The saved array has one row per potential channel and k-point. In every row the energies ascend and lie between the lowest and the highest eigenvalues of the Hamiltonian (kinetic, local, nonlocal, Hartree, exchange-correlation of that channel) in the plane-wave basis; for one channel they sum to the minimised objective, for two channels the objective misses one copy of the one-body energy. The run returns iff the number of devices used divides the path. A ground-state output passed by the caller makes it raise.", "quantifier": "every configuration, pseudopotential, density, k-path, number of devices, random start, optimiser and number of steps", "why_tests_cant": "All trajectories and all data.", "anchors": ["jrystal/calc/calc_band_structure_normcons.py:calc"]}
{"id": "C118", "title": "Spin-polarised all-electron bands", "statement": "For a two-channel density the energies reported for either spin belong to the sum of the two spin Hamiltonians: with a complete basis both spins get identical bands, with equal channels the bands are doubled. That the bands of a spin belong to the Hamiltonian of that spin is false.", "quantifier": "every polarised density, LDA functional, k-path, number of bands, number of optimisation steps", "why_tests_cant": "All densities and runs.", "anchors": ["jrystal/calc/calc_band_structure_all_electrons.py:calc", "jrystal/_src/hamiltonian.py:hamiltonian_matrix"]}
{"id": "C119", "title": "Crystals are created in Bohr, with a consistent default spin", "statement": "A crystal read from a file or from a configuration has its positions and cell multiplied by the Bohr-per-Angstrom factor, so volumes scale with its cube, distances with the factor and fractional coordinates are unchanged; with no spin given, the spin is 0 or 1 and always compatible with the number of electrons. The symbol constructor does the same conversion although it documents its arguments as Bohr: its result equals its arguments only for an all-zero geometry. The number of atoms is the number of positions given.", "quantifier": "every geometry (any atoms, positions, cell), configuration and spin argument", "why_tests_cant": "Holds for every geometry and every configuration; the refuted documentation needs only one witness but the exact condition is an equivalence over all inputs.", "anchors": ["jrystal/_src/crystal.py:Crystal.create_from_file", "jrystal/_src/crystal.py:Crystal.create_from_symbols", "jrystal/calc/opt_utils.py:create_crystal"]}
{"id": "C120", "title": "The Ewald energy is the Ewald formula", "statement": "The computed nuclear repulsion equals the textbook Ewald formula (screened real-space pairs, smooth reciprocal part with Gaussian width given by eta, self term and neutralising background) up to an explicit bound that only comes from the regularised distances and that shrinks with the smallest interatomic distance; the reciprocal part is exact, and the driver passes the charges, cell and grid of the configured crystal.", "quantifier": "every set of atoms and charges, every cell with non-zero determinant, grid size, eta > 0 and set of translations with a minimal distance of at least 1e-9", "why_tests_cant": "An inequality over all geometries and reals; a test compares one crystal with a reference number of unknown accuracy.", "anchors": ["jrystal/_src/ewald.py:ewald_coulomb_repulsion", "jrystal/calc/opt_utils.py:get_ewald_coulomb_repulsion"]}
{"id": "C121", "title": "The fast spherical Bessel transform is the direct sum up to its switch", "statement": "With the tables the class builds, on a logarithmic grid, every value up to the switching point of the fast transform (forward and inverse) equals exactly the direct sum of x^3 f(x) j_l(x y) over the grid times the logarithmic step, hence differs from the integral of f(r) r^2 j_l(k r) by at most an explicit first-order bound; the momentum grid ends at kmax; include_zero prepends exactly the transform at zero and return_rr the grid; the prefactor only scales, so a round trip without it is pi/2 times the round trip with it; the large-k table has constant modulus and satisfies the Mellin recurrences of the spherical Bessel functions; the wrapper raises exactly for l above 10 or a function of the wrong length.", "quantifier": "every logarithmic grid of at least two points, function, l, kmax, direction and option flags", "why_tests_cant": "The claim is an exact identity between an FFT algorithm and a sum for every grid and function; a test compares a few functions up to a tolerance.", "anchors": ["jrystal/sbt/pysbt.py:pyNumSBT.run", "jrystal/sbt/pysbt.py:pyNumSBT.sbt_mltb", "jrystal/sbt/pysbt.py:pyNumSBT.run_int", "jrystal/sbt/sbt.py:sbt"]}
{"id": "C122", "title": "Spherical-harmonic features of a direction", "statement": "legendre_to_sph_harm(l, l_max) maps a vector to 2 l_max+1 complex features, zero beyond the first 2l+1, whose Hermitian product for two nonzero vectors is (2l+1) P_l(cos angle). It raises exactly when l > l_max. The zero vector gets the features of the x axis. The documented length 2l+1 is false.", "quantifier": "every l, l_max and pair of vectors", "why_tests_cant": "All directions and all l.", "anchors": ["jrystal/pseudopotential/spherical.py:legendre_to_sph_harm", "jrystal/pseudopotential/spherical.py:cartesian_to_spherical"]}
{"id": "C123", "title": "A norm-conserving run uses the files of its elements", "statement": "When the norm-conserving ground-state calculation accepts a configuration, every atom's data comes from a file of its element in the configured directory (or the package's directory for the configured type), the number of electrons is the sum of the integer parts of the z_valence entries of those files, and the returned density is non-negative and integrates to it. The local and the nonlocal ionic potential are the textbook formulas on the file's radial data. They exist exactly when there is an atom, a projector, non-negative angular momenta, a non-empty positive mesh, a wave vector longer than 1e-4 and at least two processors; with one processor the calculation always raises. An ultrasoft type gives the result of the same files read as norm-conserving.", "quantifier": "every configuration, directory content, file tree, geometry, grid, number of processors and devices, and every behaviour of the numerical libraries meeting their contracts", "why_tests_cant": "All files, crystals and configurations; a test sees one element and one machine.", "anchors": ["jrystal/calc/calc_ground_state_energy_normcons.py:calc", "jrystal/calc/pre_calc.py:pre_calc_beta_sbt", "jrystal/pseudopotential/dataclass.py:NormConservingPseudopotential", "jrystal/calc/calc_ground_state_energy_normcons.py:create_pseudopotential"]}
{"id": "C124", "title": "A norm-conserving band structure on files uses each point's own projectors", "statement": "With radial parts computed once for the whole path, the projectors used at the i-th point of the path are exactly the i-th slice of the projectors of the path, also when points repeat; the band calculation returns exactly when the path splits evenly over the devices, and the energies at point i are ascending and separate the spectrum of the Hamiltonian built with that slice. The number of bands comes from the z_valence entries of the files.", "quantifier": "every configuration, file, path and index on it", "why_tests_cant": "All paths and indices, including repeated points.", "anchors": ["jrystal/calc/calc_band_structure_normcons.py:calc", "jrystal/calc/pre_calc.py:pre_calc_beta_sbt"]}
{"id": "C125", "title": "Kohn-Sham potential of gradient-dependent functionals", "statement": "xc_density(kohn_sham=True) with a gradient-dependent functional returns one value per spin channel and grid point. For a uniform density it is the real constant d(rho eps(rho, 0))/d rho; for a functional that ignores the gradients it is the potential of the local-density formula. For densities that vary along the last or the first axis only, it is an explicit formula in the one-dimensional derivatives. The reading that it is the derivative of the exchange-correlation energy is false, and so are the readings that it is real and that it does not depend on the orientation of the crystal.", "quantifier": "every cell, grid, density and differentiable functional", "why_tests_cant": "All functionals, grids and densities; tests on uniform or weakly varying densities do not show the error.", "anchors": ["jrystal/_src/xc.py:vxc_gga_recp", "jrystal/_src/xc.py:vxc_gga", "jrystal/_src/xc.py:xc_density"]}
{"id": "C126", "title": "Cutoff radii of the nonlocal projectors", "statement": "For every atom, the cutoff radius that NormConservingPseudopotential.create stores is the attribute of the last projector in the file, as unconverted text (0 for a file without projectors). The documented list of one number per projector is refuted: the radii of all other projectors are lost, and text that is no number is accepted.", "quantifier": "every file that is parsed and accepted", "why_tests_cant": "Nothing in the package reads the field, so no computed number depends on it; only a statement about all files distinguishes one projector from all of them.", "anchors": ["jrystal/pseudopotential/dataclass.py:NormConservingPseudopotential.create"]}
{"id": "C127", "title": "Hamiltonian matrix as derivative of the total energy", "statement": "For an unpolarised calculation with a local-density functional, the derivative of total_energy(kohn_sham=False) along any change e of the coefficients c at fixed occupation numbers f is 2 Re sum f <e|H|c>, where the matrix elements are the ones hamiltonian_matrix(kohn_sham=True) returns at the density of c; along any change o of the occupation numbers it is sum o <c|H|c>, the diagonal of that matrix (Janak's theorem).", "quantifier": "every cell, grid, set of atoms and k-points, number of bands, coefficients, occupation numbers, direction, and functional that is differentiable at the values of the density", "why_tests_cant": "Energy and Hamiltonian are computed by different code with different prefactors for the Hartree and exchange-correlation parts; a test compares them at a few orbitals and directions within finite-difference error only.", "anchors": ["jrystal/_src/energy.py:total_energy", "jrystal/_src/hamiltonian.py:hamiltonian_matrix", "jrystal/_src/potential.py:effective", "jrystal/_src/xc.py:vxc_lda"]}
{"id": "C128", "title": "Rotations and reflections of the whole crystal", "statement": "If the cell vectors, the atoms and the k-points are all rotated or reflected by the same orthogonal matrix, then volume and spherical mask do not change and g_vectors, r_vectors, k_vectors and translation_vectors are rotated with the cell; energy.total_energy and each of its parts, the Hamiltonian matrices between orbitals and between plane waves, and the nuclear repulsion do not change. This holds for every functional in the energy, and for every functional that does not use gradients in the Kohn-Sham potential.", "quantifier": "for every invertible cell, every orthogonal 3x3 matrix, all grid sizes, coefficients, atoms, charges, k-points, occupations, functionals, and inputs on which the functions raise", "why_tests_cant": "a test rotates one crystal by one angle; the claim is for every orthogonal matrix and every input, and for floats a test can only compare up to rounding", "anchors": ["jrystal/_src/grid.py: g_vectors, r_vectors, k_vectors, translation_vectors, spherical_mask", "jrystal/_src/energy.py: total_energy, nuclear_repulsion", "jrystal/_src/hamiltonian.py: hamiltonian_matrix, _hamiltonian_matrix_basis", "jrystal/_src/xc.py: sigma_r_fn, xc_density"]}
{"id": "C129", "title": "Time reversal of k-points", "statement": "Replacing any of the k-points by their opposites and the orbitals there by their complex conjugates (coefficients conjugated at opposite frequencies) does not change energy.total_energy or any of its parts, provided no coefficient sits at index n/2 of an axis of even size n; odd grids and the cubic mask (no axis of size 2) meet the proviso, and without it the kinetic energy can change.", "quantifier": "for every set of k-points to reverse, every cell, grid, coefficients, occupations, atoms and functional that depends on the density only", "why_tests_cant": "a test reverses one set of k-points of one crystal; the claim is for every subset and every size of the grid", "anchors": ["jrystal/_src/energy.py: total_energy, kinetic", "jrystal/_src/pw.py: wave_grid, density_grid", "jrystal/_src/grid.py: cubic_mask, k_vectors"]}
{"id": "C130", "title": "The order of k-points and bands does not matter", "statement": "Listing the k-points in another order, and the bands of each spin and k-point in another order, together with their coefficients and occupations, does not change energy.total_energy or any of its parts.", "quantifier": "for every permutation of the k-points, every permutation of the bands at every spin and k-point, all coefficients, occupations, atoms and grids", "why_tests_cant": "there are factorially many orders, for every number of k-points and bands", "anchors": ["jrystal/_src/energy.py: total_energy, kinetic", "jrystal/_src/pw.py: density_grid", "jrystal/_src/utils.py: wave_to_density"]}
{"id": "C131", "title": "A larger plane-wave basis never raises a band", "statement": "For the same crystal, density and k-point, let hamiltonian._hamiltonian_matrix_basis be called with two frequency masks of which the second selects every frequency the first selects. Then the i-th lowest eigenvalue with the larger mask is at most the i-th lowest with the smaller, which is at most the i-th of the highest N1 eigenvalues with the larger; in particular raising the cutoff energy of a spherical mask never raises a band.", "quantifier": "for every pair of nested masks (and every pair of cutoff energies E1 <= E2), every crystal, density, functional with one potential channel, k-point and band", "why_tests_cant": "a test compares a few cutoffs of a few crystals; convergence from above is used at every cutoff", "anchors": ["jrystal/_src/hamiltonian.py: _hamiltonian_matrix_basis", "jrystal/_src/grid.py: spherical_mask", "jrystal/_src/potential.py: effective"]}
{"id": "C132", "title": "Bands move no further than the potential", "statement": "If the effective potential of one calculation is nowhere more than d above that of another with the same plane waves and k-points, no eigenvalue of hamiltonian._hamiltonian_matrix_basis is more than d above the corresponding eigenvalue of the other. Hence potentials that differ by at most d give bands that differ by at most d, and each band lies between its free-electron energy |G+k|^2/2 plus the least and plus the greatest value of the potential.", "quantifier": "for all pairs of crystals, densities, functionals and volumes sharing a mask and a grid of G-vectors, every k-point, band and bound d", "why_tests_cant": "the bound is for the worst potential difference, which sampling does not find", "anchors": ["jrystal/_src/hamiltonian.py: _hamiltonian_matrix_basis", "jrystal/_src/potential.py: effective"]}
{"id": "C133", "title": "Bands at -k are the bands at k", "statement": "When every frequency the mask selects has its opposite on the grid and the mask selects that too, as on odd grids with a cutoff-energy mask, the eigenvalues of hamiltonian._hamiltonian_matrix_basis at -k are those at k.", "quantifier": "for every such mask and grid, every crystal and density (with or without inversion symmetry), every k-point", "why_tests_cant": "it must hold at every k and for crystals without inversion symmetry, whose matrices at k and -k differ entry by entry", "anchors": ["jrystal/_src/hamiltonian.py: _hamiltonian_matrix_basis", "jrystal/_src/grid.py: g_vectors, spherical_mask"]}
{"id": "C134", "title": "Restricted and unrestricted descriptions of a closed shell agree", "statement": "A spin-restricted state, and the unrestricted state with the same orbitals in both channels and half of each occupation, have the same kinetic, external, Hartree and exchange-correlation energies, for every sum of LDA or GGA functionals whose polarised and unpolarised versions agree at equal densities (exchange functionals need no such promise). occupation.uniform and occupation.gamma give those half occupations for a system without spin. The Kohn-Sham exchange potential does not agree: the two-channel potential misses half of n e'(n).", "quantifier": "for all orbitals, occupations, atoms, cells, grids, functionals and k-points", "why_tests_cant": "one system shows one pair of numbers; the agreement is between two code paths for every state", "anchors": ["jrystal/_src/energy.py: total_energy", "jrystal/_src/xc.py: xc_density, _lda, _gga, vxc_lda", "jrystal/_src/occupation.py: uniform, gamma"]}
{"id": "C135", "title": "Exchanging spin up and spin down leaves the energy unchanged", "statement": "Exchanging the two spin channels of the orbitals and of the occupations changes none of the four parts of energy.total_energy, for functionals that do not distinguish the channels.", "quantifier": "for all orbitals, occupations, atoms, cells, grids, k-points and sums of LDA or GGA functionals", "why_tests_cant": "it must hold for every state and functional", "anchors": ["jrystal/_src/energy.py: total_energy", "jrystal/_src/xc.py: xc_density, sigma_r_fn, _lda, _gga"]}
{"id": "C136", "title": "Stationary free energy means Fermi-Dirac occupations", "statement": "For one spin channel and a local functional, at any state with fractional occupation numbers: the entropy's derivative along a change of the occupations is the stated slope; with eps=0 the free energy E - T S is stationary under all changes that keep the number of electrons exactly when every occupation is 2/K times the Fermi function of the diagonal element of the Hamiltonian matrix returned for that state; with any eps exactly when the diagonal element plus T times the slope of the regularised entropy is the same constant for all states.", "quantifier": "every lattice, grid, k-point set, band count, coefficients, occupations, functional library, temperature and eps", "why_tests_cant": "An equivalence between a derivative condition over all directions and a formula, for all states.", "anchors": ["jrystal/_src/entropy.py:fermi_dirac", "jrystal/_src/energy.py:total_energy", "jrystal/_src/hamiltonian.py:hamiltonian_matrix"]}
{"id": "C137", "title": "Stationary energy means Kohn-Sham orbitals", "statement": "For one spin channel and a local functional, the total energy is stationary under every first-order change of the orbitals that is orthogonal to the orbitals of its k-point exactly when the Hamiltonian matrix returned at the state's density has zero elements between every occupied orbital and every such direction, i.e. the occupied orbitals solve the Kohn-Sham equations up to mixing within the computed bands.", "quantifier": "every lattice, grid, k-point set, band count, coefficients, occupations and functional library", "why_tests_cant": "Quantifies over all directions and all states.", "anchors": ["jrystal/_src/energy.py:total_energy", "jrystal/_src/hamiltonian.py:hamiltonian_matrix"]}
{"id": "C138", "title": "Scaling all lengths of a crystal", "statement": "If all cell vectors are multiplied by lam > 0, the volume is multiplied by lam^3, real-space grids by lam, reciprocal vectors and k-points by 1/lam, the translation vectors for the cutoff lam^2 c are lam times those for c, and the spherical mask for the cutoff E/lam^2 is that for E. With scaled positions and k-points and the same coefficients and occupations, the kinetic energy is divided by lam^2, the Hartree energy and the energy of functionals with exchange scaling (LDA or GGA, one or two spin channels) by lam, and the attraction by the nuclei equals 1/lam times that of the original crystal with lam^2 times the regularising constant.", "quantifier": "every lattice, factor, grid, crystal, k-point set, coefficients, occupations, functional library with exchange scaling", "why_tests_cant": "Holds for all crystals and factors; tests compare single ones.", "anchors": ["jrystal/_src/energy.py:total_energy", "jrystal/_src/grid.py:g_vectors", "jrystal/_src/grid.py:spherical_mask", "jrystal/_src/xc.py:xc_density"]}
{"id": "C139", "title": "Settings a calculation needs and uses", "statement": "A configuration without any one of the listed settings makes the ground-state and band-structure calculations raise (a configuration file replaces the defaults, so it must contain them all). Two configurations that agree on the listed settings give identical results, so save_dir, k_path_file, k_path_fine_tuning and xla_preallocate have no effect. The default configuration has every setting except pseudopotential_type, so setting only use_pseudopotential in it raises.", "quantifier": "every configuration, key and value, every file reader, optimiser, functional and random draw", "why_tests_cant": "Ranges over all configurations; a test can only vary some settings.", "anchors": ["jrystal/config.py:get_config", "jrystal/config.py:default_config", "jrystal/calc/opt_utils.py:set_env_params", "jrystal/calc/calc_ground_state_energy_all_electrons.py:calc", "jrystal/calc/calc_ground_state_energy_normcons.py:calc", "jrystal/calc/calc_band_structure_all_electrons.py:calc", "jrystal/calc/calc_band_structure_normcons.py:calc"]}
{"id": "C140", "title": "Energies grow with the cell", "statement": "Describing the same crystal with a cell m1 x m2 x m3 times as large (edges, atoms and grid multiplied accordingly, each k-point of the large cell taking the orbitals of the M = m1 m2 m3 small-cell k-points that coincide with it, and every orbital M times as many electrons) multiplies the kinetic, nuclear-attraction, Hartree and exchange-correlation energies by exactly M, for local and gradient functionals and one or two spin channels. The new orbitals have the same overlaps, and every choice of orbitals has such a description. This holds as long as every wave with a nonzero coefficient is on the large grid; even grid sizes always carry all of them, odd ones do not.", "quantifier": "every invertible cell, multiplicities, grid, k-points, atoms, orbitals, occupations and functional", "why_tests_cant": "An exact identity between calculations of different sizes over all crystals and orbitals; a test compares one pair to a tolerance.", "anchors": ["jrystal/_src/energy.py:total_energy", "jrystal/_src/grid.py:g_vectors", "jrystal/_src/pw.py:density_grid", "jrystal/_src/potential.py:external_reciprocal", "jrystal/_src/xc.py:xc_density"]}
{"id": "C141", "title": "Forces on the atoms are the derivatives of the energies", "statement": "With orbital coefficients and occupations held fixed, the total energy is differentiable in the atomic positions, and its derivative along any displacement of the atoms is minus the work of the electrostatic force of the electrons on each nucleus, -(4 pi/N) Z_a sum over G of Im(exp(i G.R_a) n(G)) G/(|G|^2+1e-10). The Ewald energy is differentiable as well, with the gradient of the screened and reciprocal-space pair sums as force, wherever no pair of nuclei (or image) sits at the cutoff distance 1e-9; the nuclear forces add up to zero.", "quantifier": "every cell, set of positions and charges, displacement field, coefficients, occupations, one or two spin channels, k-points, functional string known to the library; every screening parameter and set of translations", "why_tests_cant": "A finite-difference test samples one geometry and direction with finite accuracy; the claim is an exact derivative at every geometry in every direction.", "anchors": ["jrystal/_src/energy.py:total_energy", "jrystal/_src/energy.py:external", "jrystal/_src/ewald.py:ewald_coulomb_repulsion"]}
{"id": "C142", "title": "The reader of pseudopotential files returns what the file says", "statement": "parse_upf returns a value exactly if the file has a readable description, header, mesh, nonlocal part and local potential; the value then holds, for each of them, what the first section of that name says: every header attribute, the numbers of PP_R, PP_RAB, PP_LOCAL, PP_DIJ and PP_Q, the projectors and augmentation functions in file order with their own attributes, and whether the augmentation depends on l. Numbers may be separated by any white space.", "quantifier": "every XML document (tree of elements with attributes and text) and every interpretation of texts as numbers", "why_tests_cant": "The set of files is unbounded: any number of sections in any order, repeated or missing sections and attributes, and arbitrary white space.", "anchors": ["jrystal/pseudopotential/load.py:parse_upf", "jrystal/pseudopotential/load.py:parse_pp_nonlocal", "jrystal/pseudopotential/load.py:parse_pp_mesh", "jrystal/pseudopotential/load.py:parse_pp_info", "jrystal/pseudopotential/load.py:parse_pp_header"]}
{"id": "C143", "title": "The energy is bounded below", "statement": "For orthonormal orbitals and non-negative occupations, total_energy returns a number, and that number is at least minus the number of electrons times a constant given by the cell, the grid, the nuclear charges and the functional, provided the functional's energy per electron is bounded below for densities up to the largest the grid can represent. The objective of the all-electron calculation therefore returns a number at every parameter the optimisation can reach, with one lower bound for all of them: minimising it cannot run away to minus infinity.", "quantifier": "all orbitals, occupations, k-points, positions, cells, grids and functional libraries with such a floor; all reachable parameters of the all-electron calculation", "why_tests_cant": "The bound is over an unbounded continuous space of parameters; a test sees only the parameters it tries.", "anchors": ["jrystal/_src/energy.py:total_energy", "jrystal/_src/energy.py:external", "jrystal/_src/energy.py:xc_energy", "jrystal/calc/calc_ground_state_energy_all_electrons.py:calc"]}
{"id": "C144", "title": "Minimising over the parameters is minimising over all orthonormal orbitals", "statement": "Every set of orthonormal orbitals made of the plane waves the mask selects is, up to a phase factor of each orbital, what pw.coeff returns for some parameters; the total energy does not depend on these phases. In the all-electron calculation a number is therefore a lower bound of the objective over all parameters exactly if it is a lower bound of the total energy over all orthonormal orbitals of the basis and all occupations the occupation parameters describe: the parametrisation loses no state.", "quantifier": "all masks, numbers of spins, k-points and bands, all orthonormal orbitals, every QR decomposition meeting its contract, every configuration", "why_tests_cant": "A test can map parameters to orbitals but cannot show that no set of orbitals is missed.", "anchors": ["jrystal/_src/pw.py:coeff", "jrystal/_src/unitary_module.py:unitary_matrix", "jrystal/calc/calc_ground_state_energy_all_electrons.py:calc"]}
{"id": "C145", "title": "The occupations the capped-simplex method can describe", "statement": "With enough bands and at least one electron per channel, occupation.simplex_projector returns a given two-channel occupation for some parameters exactly if every entry lies between 0 and 1/num_k, the channels hold (N+s)/2 and (N-s)/2 electrons, and no channel has both an empty (0) and a full (1/num_k) state. With the spins summed no result has both an empty and a doubly occupied state. Every occupation with the right electron numbers is approached as closely as wanted; the integer occupation of an insulator is not described exactly.", "quantifier": "all numbers of k-points, bands, electrons and spin with 0 < (N-|s|)/2 and (N+|s|)/2 < bands; all parameters; all two-channel occupations", "why_tests_cant": "Which occupations can be described is a statement about the image of the map over all parameters; a test sees single values.", "anchors": ["jrystal/_src/occupation.py:simplex_projector", "jrystal/_src/occupation.py:proj"]}
{"id": "C146", "title": "The minimum of the band-structure objective is the sum of the lowest eigenvalues", "statement": "At every k-point the objective the band-structure calculation minimises is, for every parameter value, at least the sum of the lowest eigenvalues of the Hamiltonian in the plane waves of the mask (times the number of spins); some parameters attain this sum; and parameters attain it exactly if the band energies the calculation reports for them are these eigenvalues. A converged calculation therefore reports exact bands and no other.", "quantifier": "all band-structure problems the drivers build (all-electron with any number of potential channels, norm-conserving with one channel), k-points, parameters, QR and eigenvalue routines meeting their contracts", "why_tests_cant": "It compares the objective over all parameters with a minimum and characterises every minimiser; a test evaluates single parameters.", "anchors": ["jrystal/calc/calc_band_structure_all_electrons.py:calc", "jrystal/calc/calc_band_structure_normcons.py:calc", "jrystal/_src/hamiltonian.py:hamiltonian_matrix_trace", "jrystal/_src/pw.py:coeff"]}
{"id": "C147", "title": "The forces of the ground state are the slope of the ground-state energy", "statement": "The total energies of all states with a fixed number of electrons in a basis have one greatest lower bound, the ground-state energy. Let a state attain it at some positions of the atoms. When the atoms move along any direction, the ground-state energy plus the repulsion of the nuclei stays below the tangent given by the forces of that state alone, up to a smaller term; if it is differentiable its derivative is minus the work of those forces, so the response of the orbitals and occupations never enters; and a short enough move favoured by the forces lowers it.", "quantifier": "every crystal, mesh, set of k-points, density functional without gradients, number of bands and spin channels, set of allowed states, displacement of the atoms, and splitting parameter and lattice translations of the nuclear sum", "why_tests_cant": "A test minimises at a few positions and compares finite differences up to a tolerance; it cannot show that the relaxation of the state drops out for every crystal and direction.", "anchors": ["jrystal/_src/energy.py:total_energy", "jrystal/_src/ewald.py:ewald_coulomb_repulsion"]}
{"id": "C148", "title": "A state of lowest energy exists", "statement": "If the functionals are continuous, then among all sets of orthonormal orbitals of a basis with N electrons in occupations from a closed set one has the lowest energy. The energies an all-electron calculation can reach, with any occupation method, have a lowest value which is approached as closely as wanted; it is the energy of a state whose occupations are limits of described ones. With the uniform, gamma and idempotent methods some parameters reach it.", "quantifier": "all cells, atoms, grids, k-points, masks, continuous local and gradient functionals, spin settings, occupation methods and parameters", "why_tests_cant": "existence of a minimum over a continuum of parameters cannot be observed in finitely many runs", "anchors": ["jrystal/_src/energy.py:total_energy", "jrystal/calc/calc_ground_state_energy_all_electrons.py:calc", "jrystal/_src/occupation.py:occupation", "jrystal/_src/pw.py:coeff"]}
{"id": "C149", "title": "The idempotent method describes every admissible occupation", "statement": "For every occupation array whose entries lie between 0 and 1/num_k and whose spin channels hold nu and nd electrons, some parameters of the idempotent method give exactly this array, and no others are given; with the spins summed the entries lie between 0 and 2/num_k and the total is twice the number per channel.", "quantifier": "all numbers of k-points, bands and electrons per channel, all occupation arrays, all QR routines returning orthonormal columns whose product with some matrix is the argument", "why_tests_cant": "it claims the existence of parameters for each of a continuum of target occupations", "anchors": ["jrystal/_src/occupation.py:idempotent", "jrystal/_src/unitary_module.py:unitary_matrix"]}
{"id": "C150", "title": "A norm-conserving calculation can reach every orbital and has a lowest energy", "statement": "In a norm-conserving calculation, for every set of orthonormal orbitals of the basis some parameters give these orbitals up to a phase factor each, with the occupations unchanged, and the objective is then the sum of the kinetic, Hartree, exchange-correlation, local and nonlocal energies of these orbitals. If the functionals are continuous, the energies the calculation can reach have a lowest value which is approached as closely as wanted; it is the energy of a state whose occupations are limits of described ones. With the uniform and gamma methods, spin-restricted, some parameters reach it.", "quantifier": "all cells, atoms, grids, k-points, masks, local potentials, projectors, continuous local and gradient functionals, occupation methods and parameters", "why_tests_cant": "existence of a minimum over a continuum of parameters cannot be observed in finitely many runs, and a test only sees the orbitals it happens to reach", "anchors": ["jrystal/calc/calc_ground_state_energy_normcons.py:calc", "jrystal/pseudopotential/local.py:energy_local", "jrystal/pseudopotential/nloc.py:energy_nonlocal", "jrystal/_src/pw.py:coeff", "jrystal/_src/energy.py:kinetic"]}
{"id": "C151", "title": "A state of lowest energy consists of Kohn-Sham orbitals filled from the bottom", "statement": "In a spin-restricted calculation with a local functional (differentiable at the density), orthonormal orbitals whose total energy is lowest, for given occupations, solve the Kohn-Sham equations in the plane-wave basis: hamiltonian_matrix at their own density does not couple bands of different occupation, and it takes each occupied band into the space spanned by the bands. Occupations whose energy is lowest, among those between 0 and a capacity w with the same number of electrons, fill the levels from below: some energy separates full states from empty ones. If the energy is lowest with respect to both, the occupied levels are the lowest of the whole basis: they are not above the levels of any other choice of the empty bands. So the parameters of lowest energy of the all-electron driver describe Kohn-Sham orbitals, with every occupation method, and with the idempotent method every level below the separating energy holds two electrons (divided by the number of k points) and every level above it none.", "quantifier": "all cells, atoms, k points, grids, masks, band counts, occupations, local functionals differentiable at the density, competing vectors of the basis; all restricted all-electron configurations and all reachable parameters", "why_tests_cant": "A test compares the converged energies of one system; it cannot show that every minimum of the objective solves the self-consistent equations and obeys the filling order.", "anchors": ["jrystal/_src/energy.py:total_energy", "jrystal/_src/hamiltonian.py:hamiltonian_matrix", "jrystal/_src/occupation.py:idempotent", "jrystal/calc/calc_ground_state_energy_all_electrons.py:calc"]}
{"id": "C152", "title": "A norm-conserving state of lowest energy consists of Kohn-Sham orbitals filled from the bottom", "statement": "In a spin-restricted norm-conserving calculation with a local functional (differentiable at the density), and Hartree and local potentials that are real on the grid, orthonormal orbitals whose valence energy is lowest, for given occupations, solve the Kohn-Sham equations: the norm-conserving Hamiltonian matrix at their own density, nonlocal projectors included, does not couple bands of different occupation and takes each occupied band into the space spanned by the bands. Occupations whose energy is lowest, among those between 0 and a capacity w with the same number of electrons, fill the levels from below; if the energy is lowest with respect to both, the occupied levels are the lowest of the whole basis. The Hartree potential is real on grids of odd sizes and in cells with right angles. The parameters of lowest energy of the norm-conserving driver describe such orbitals, with every occupation method it can run.", "quantifier": "all cells, local and nonlocal pseudopotentials on the grid, k points, grids, masks, band counts, occupations and local functionals with a derivative at the density; all runs of the driver", "why_tests_cant": "It compares one state with every other state of the basis; a test can only compare it with a few.", "anchors": ["jrystal/pseudopotential/nloc.py:hamiltonian_matrix", "jrystal/pseudopotential/local.py:energy_local", "jrystal/pseudopotential/nloc.py:energy_nonlocal", "jrystal/calc/calc_ground_state_energy_normcons.py:calc"]}
{"id": "C153", "title": "Capped-simplex occupations describe exactly the fillings without an empty and a full state, come close to every other, and have the same lowest energy", "statement": "With the simplex-projector method the occupations that come out for some arguments are exactly those between 0 and the largest value, with the right number of electrons and spin, in which no spin channel has both an empty and a completely full state. Every other occupation of the capped simplex is a limit of such ones. The energies a calculation can be trained to therefore have as greatest lower bound the lowest energy over all orthonormal orbitals of the basis and all capped occupations, which some state has, all-electron and norm-conserving; that state consists of Kohn-Sham orbitals filled from below. The bound is reached when that state has no channel with an empty and a full state. Parameters with electrons at two different levels and room at two different levels are never of lowest energy: a crystal with closed shells is approached by training but never reached.", "quantifier": "all electron numbers, spins, k-point and band counts, all arguments of the projector, all capped occupations, all configurations with this method, all reachable parameters, functionals and pseudopotentials", "why_tests_cant": "A test projects a few arguments and trains one system for some steps. It cannot show which occupations are never produced, nor that training comes arbitrarily close to the lowest energy without attaining it.", "anchors": ["jrystal/_src/occupation.py:simplex_projector", "jrystal/_src/occupation.py:proj", "jrystal/calc/calc_ground_state_energy_all_electrons.py:calc", "jrystal/calc/calc_ground_state_energy_normcons.py:calc"]}
{"id": "C154", "title": "Plane-wave orbitals give the uniform electron gas, and the empty lattice has the free-electron bands", "statement": "When every orbital is a single plane wave, the density of each spin channel is uniform (electrons over volume), the diagonal of the Hamiltonian matrix for any density is the kinetic energy |G+k|^2/2 plus the mean effective potential, and the total energy with a local functional is the kinetic energy plus the exchange-correlation energy of the uniform gas, whatever the nuclei. Without nuclear charges and at a uniform density the plane-wave Hamiltonian is diagonal: the free-electron energies shifted by the Kohn-Sham potential of the uniform gas. A spin-restricted all-electron calculation reaches any distinct plane waves of the basis at any occupations it reaches, with that energy.", "quantifier": "all cells, grids, k points, masks, band counts, choices of plane waves and phases, occupations, nuclei and local functionals; all restricted all-electron configurations", "why_tests_cant": "A test can compare the bands of one empty cell with the formula at a few k points; the statement is for every cell, grid, functional and choice of plane waves.", "anchors": ["jrystal/_src/pw.py:density_grid", "jrystal/_src/hamiltonian.py:hamiltonian_matrix", "jrystal/_src/hamiltonian.py:_hamiltonian_matrix_basis", "jrystal/_src/energy.py:total_energy", "jrystal/calc/calc_ground_state_energy_all_electrons.py:calc"]}
{"id": "C155", "title": "Smearing raises the energy by at most 2 T ln 2 per band, and temperature orders energies and entropies", "statement": "At every temperature T the free energies (total energy minus T times entropy) a ground-state calculation can reach have a greatest lower bound, all-electron and norm-conserving, and with the uniform and idempotent occupations some parameters have the lowest one. Entropies of occupations between empty and full differ by at most 2 B ln 2 for B bands, whatever the number of k points and spin channels, so parameters whose free energy is within d of the bound have a total energy at most d + 2 B T ln 2 above every energy the calculation can reach: this is the error of ending the annealing at the smearing temperature. Parameters of lowest free energy at a higher temperature have no less entropy and no less energy, and the lowest free energy falls with a slope between the two entropies. The gamma occupations with several k points are outside of the domain of the entropy: a logarithm of a negative number is taken.", "quantifier": "all temperatures, configurations, crystals, functionals continuous in the density, pseudopotentials on the grid, reachable parameters; all occupations between empty and full for the entropy", "why_tests_cant": "A test runs one system at a few smearing values; the bound is over all states the parameters can describe and all temperatures, and existence of a lowest free energy cannot be observed.", "anchors": ["jrystal/_src/entropy.py:fermi_dirac", "jrystal/_src/occupation.py:gamma", "jrystal/calc/calc_ground_state_energy_all_electrons.py:free_energy", "jrystal/calc/calc_ground_state_energy_normcons.py:free_energy"]}
{"id": "C156", "title": "Lowest free energy means Kohn-Sham orbitals with Fermi-Dirac-like fillings", "statement": "At every temperature T, parameters of lowest free energy (total energy minus T times entropy) of a spin-restricted calculation with a local functional have orbitals that satisfy the Kohn-Sham equations of their own Hamiltonian, all-electron and norm-conserving. With the idempotent occupations, and with the capped-simplex occupations of a crystal without spin, one energy mu governs the fillings: every partly filled state has level + T s(p) = mu, with s the slope of the entropy with its eps inside the logarithms, empty states lie at or above mu and full ones at or below. For T > 0 a partly filled state is filled as a Fermi-Dirac function of its level, with the capacity stretched by eps at both ends and mu shifted by at most T; states of higher level are filled no more, and strictly less unless empty or full. Capped-simplex calculations need not reach their lowest free energy, but the bound is that of a state on the capped simplex, lowest there, which has such orbitals and fillings, and if the method can describe that state some parameters have the lowest free energy.", "quantifier": "all temperatures, configurations, crystals, local functionals differentiable at the density, pseudopotentials on the grid, and parameters of lowest free energy", "why_tests_cant": "A test sees one run that has not converged exactly; the statement is about the exact minimum over all orbitals and occupations at every temperature.", "anchors": ["jrystal/_src/entropy.py:fermi_dirac", "jrystal/_src/hamiltonian.py:hamiltonian_matrix", "jrystal/_src/occupation.py:simplex_projector", "jrystal/_src/occupation.py:idempotent", "jrystal/calc/calc_ground_state_energy_all_electrons.py:free_energy", "jrystal/calc/calc_ground_state_energy_normcons.py:free_energy"]}
{"id": "C157", "title": "Forces on atoms with pseudopotentials are the slopes of the energies", "statement": "With norm-conserving pseudopotentials, move every atom along its own direction while orbitals and occupations stay fixed. The local energy and the energy in the projectors, computed afresh at every displacement, are differentiable, and their derivatives are minus the work of explicit forces: a sum over the reciprocal vectors of the atom's own potential against the density, and a sum over its projectors of the gradients of the squared projections, weighted by the absolute eigenvalues the code uses. The total valence energy has their sum as its slope. If a state attains the lowest energy among the allowed states, the lowest energy plus the repulsion of the cores lies below the tangent given by the forces of that state alone, its derivative (if any) is minus their work, and a short move favoured by the forces lowers it.", "quantifier": "every cell, mesh, set of k-points, atoms with their local potentials and projectors, transform method, orbitals, occupations, one or two spin channels, density functional, displacement of the atoms, set of allowed states, and splitting parameter and lattice translations of the core sum", "why_tests_cant": "A test compares finite differences for a few crystals up to a tolerance; it cannot show that the energies are differentiable, nor that the response of the state drops out, for every crystal and direction.", "anchors": ["jrystal/pseudopotential/local.py:potential_local_reciprocal", "jrystal/pseudopotential/local.py:energy_local", "jrystal/pseudopotential/nloc.py:potential_nonlocal_psi_reciprocal", "jrystal/pseudopotential/nloc.py:energy_nonlocal", "jrystal/_src/ewald.py:ewald_coulomb_repulsion"]}
{"id": "C158", "title": "At an electronic temperature forces and entropy are the slopes of the lowest free energy", "statement": "Take a state with the lowest free energy (energy minus temperature times entropy) among any set of allowed states at some positions of the atoms. When the atoms move along any direction, the lowest free energy plus the repulsion of the nuclei stays below the tangent given by the forces of that state alone, up to a smaller term; its derivative, if it has one, is minus the work of those forces; and a short move favoured by them lowers it. No force arises from the entropy or from the response of orbitals and occupations. This holds with the full Coulomb attraction and with pseudopotentials. As a function of the temperature, the greatest lower bound of the free energies a calculation can reach is concave, lies below the line through each state that attains it with slope minus the entropy of that state, and has this slope wherever it has one.", "quantifier": "every crystal, mesh, set of k-points, number of bands and spin channels, functional, set of allowed states, displacement of the atoms and temperature; for the dependence on the temperature every configuration of the two ground-state calculations with a defined entropy, and every choice of random start", "why_tests_cant": "A test compares finite differences of converged free energies up to a tolerance for a few crystals; it cannot show for all of them that the entropy and the relaxation of the state add nothing to the forces.", "anchors": ["jrystal/_src/energy.py:total_energy", "jrystal/_src/entropy.py:fermi_dirac", "jrystal/_src/ewald.py:ewald_coulomb_repulsion", "jrystal/calc/calc_ground_state_energy_all_electrons.py:calc", "jrystal/calc/calc_ground_state_energy_normcons.py:calc"]}
{"id": "C159", "title": "Bands change continuously along a path, and the lowest ones bend no more than free electrons", "statement": "The bands are the ascending eigenvalues of the plane-wave Hamiltonian at the k-points of one call. Between two k-points every band changes by at most the length of the step times the longest plane wave at the first point, plus half the squared step, whatever the potential. For every number of bands, the sum of the lowest ones minus as many free-electron parabolas is a concave function of the k-point; in particular the lowest band nowhere bends upwards more than a free electron.", "quantifier": "every crystal, density, functional with a one-channel potential, selection of plane waves, list of k-points, pair or line of k-points in it, and number of bands", "why_tests_cant": "A test looks at a few k-points of a few crystals; it cannot exclude a jump or an excessive curvature for another potential or step.", "anchors": ["jrystal/_src/hamiltonian.py: _hamiltonian_matrix_basis", "jrystal/_src/grid.py: spherical_mask", "jrystal/_src/potential.py: effective"]}
{"id": "C160", "title": "Raising the cutoff energy never raises the energy a calculation can reach", "statement": "Take a ground-state calculation with a spherical mask, and a second configuration that differs from the first only in a cutoff energy that is not lower. If the first calculation is set up and initialised, so is the second. It has the same crystal, grids, electrons, bands, occupations, functional, Ewald energy and potentials, and its basis contains every plane wave of the first. For all parameters the first can reach, the second can reach parameters with the same occupations, the same entropy and the same energy. So every lower bound on the energies of the second is one on the energies of the first.", "quantifier": "every pair of configurations that differ only in the cutoff energy, every crystal, occupation method, functional, pseudopotential, initialisation and parameters reachable from it, all-electron and norm-conserving", "why_tests_cant": "A test compares two cutoffs after finitely many steps of an optimiser; it cannot tell a worse optimisation from a basis or parametrisation that lost states, and cannot range over all parameters.", "anchors": ["jrystal/calc/opt_utils.py: create_freq_mask", "jrystal/_src/grid.py: spherical_mask", "jrystal/calc/calc_ground_state_energy_all_electrons.py: calc", "jrystal/calc/calc_ground_state_energy_normcons.py: calc", "jrystal/_src/pw.py: coeff"]}
