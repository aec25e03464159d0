# Formal model of sail-sg/jrystal in Rocq: design

This file is written before the proofs and kept current as the model grows.

## 1. Approach

* The model is a set of shallow Gallina functions that mirror the Python functions
  branch by branch.  Every definition cites the file and lines it models.
  A Python exception is a value (`Err KeyOfException`) of the type `res A`.
* Discrete code (grid sizes, masks, index arithmetic, occupations counts, string
  parsing, histories, device reshapes) is modelled over `Z`, `nat`, `list`, `string`
  and is executable.
* Numeric code is modelled over exact real numbers `R` (standard library) and complex
  numbers `C` (pairs of reals, Coquelicot).  Floating-point rounding is NOT modelled;
  where IEEE special values decide a branch (division by zero in the simplex projection)
  an explicit extended number type with +inf, -inf and NaN is used.
* Arrays are tensors: a shape (`list nat`) and an entry function from multi-indices.
  `jnp` operations (broadcasting, sums, transforms, einsum, reshape) are modelled with
  their shape checks, so that code that raises on shapes raises in the model.
* External routines (QR factorisation, `eigh`, `erfc`, `spherical_jn`, spherical
  harmonics, splines, `jax_xc` functionals, optimiser steps, `jax.random`) are function
  parameters of the theorems.  The contract that a theorem needs (e.g. "columns of Q are
  orthonormal") is a visible hypothesis of that theorem.

## 2. Files

`theories/` holds, per area, `<Area>Model.v` (definitions only, each citing file and lines of
/repo), `<Area>Spec.v` (small independent specification, where needed), `<Area>Proofs*.v`
(lemmas), and `Prop<Area>.v` (property theorems closed by `exact`, a concrete case beside them,
`Print Assumptions`).  `Base.v` (results and exceptions), `Sums.v` (finite sums), `Tensor.v`
(shapes, indices, broadcasting), `Lin3.v` (3x3 algebra), `DFT.v` (roots of unity) are shared.
`tools/manifest.py` regenerates MANIFEST.json, `tools/assumptions.py` ASSUMPTIONS.md.

A theorem named `..._refuted` states that a documented or expected claim is FALSE of the code and
proves it with a witness; the same property then has an exact characterisation beside it.
A theorem named `..._partial` proves part of a property (none at present).

## 3. Trusted base

* Coq 8.16.1: kernel, parser, standard library.  Coquelicot is used for complex numbers and
  derivatives; it adds no axioms of its own.
* Axioms reported by `Print Assumptions` (all of the standard library, none of ours), listed per
  theorem in ASSUMPTIONS.md:
  `ClassicalDedekindReals.sig_forall_dec`, `ClassicalDedekindReals.sig_not_dec` (construction of R),
  `FunctionalExtensionality.functional_extensionality_dep` (R and Coquelicot),
  `Classical_Prop.classic` (Coquelicot limits and derivatives; decidability of real predicates).
  Theorems about discrete code are closed under the global context.
* The correspondence between the model and the Python text, checked by reading; the comments cite
  the lines.
* Real numbers stand for floats: rounding, overflow and NaN propagation are not modelled (except
  in the simplex projection, where division by zero decides the result).
* The stated behaviour of jax / numpy / optax / ase / ml_collections / argparse functions that the
  code calls.  They appear either as small definitions (broadcasting, einsum, fft, vmap, reshape
  order, `savez`, string methods, slices) or as parameters with explicit hypotheses (`qr`, `eigh`, `eigvalsh`,
  `erfc`, spherical Bessel functions, spherical harmonics, cubic splines, `jax_xc` functionals,
  random numbers, optimisers, ASE's reader and band path).

## 4. What is modelled

| file in /repo/jrystal | model | not modelled |
|---|---|---|
| `_src/grid.py` | GridModel, VecModel, PadModel | dtype checks |
| `_src/utils.py` | GridModel, PadModel, VecModel, OccModel, CalcModel (`vmapstack`) | none |
| `_src/crystal.py` | VecModel (volume, scaled positions), CalcModel (creation) | ASE reader (parameter) |
| `_src/unitary_module.py`, `_src/pw.py` | PwModel | QR itself (contract) |
| `_src/occupation.py`, `_src/entropy.py` | OccModel | random initial values (parameter) |
| `_src/braket.py`, `_src/kinetic.py` | BraketModel | einsum stretching of length-one axes, where stated |
| `_src/potential.py`, `_src/energy.py` | EnergyModel, TotalProofs | |
| `_src/xc.py` | XcModel, GgaModel | libxc functionals (parameters) |
| `_src/ewald.py` | EwaldModel | erfc (parameter) |
| `_src/hessian.py`, `_src/hamiltonian.py` | HamModel | automatic differentiation is the mathematical derivative |
| `_src/spmd/fft.py`, `custom_sharding.py`, `uniform.py` | SpmdModel | |
| `_src/spmd/custom_partitioning.py` | effect only (`run_sharded`) | MLIR lowering code |
| `_src/band/k_path.py` | CalcModel | ASE `bandpath` (parameter) |
| `calc/*.py` | CalcModel, DrvModel, BndModel | logging, timing, progress bar, XLA environment |
| `config.py`, `/repo/main.py` | CalcModel, DrvModel | YAML parser (its result is the input) |
| `pseudopotential/load.py`, `dataclass.py`, `utils.py` | UpfModel | XML parser (its tree is the input) |
| `calc/pre_calc.py`, the driver calls that join files and potentials | PpModel | the cache branch of `pre_calc_beta_sbt`; ASE's symbols, `os.listdir`, processor count (parameters) |
| `pseudopotential/spherical.py` | SphModel | |
| `pseudopotential/local.py` | LocModel | |
| `pseudopotential/nloc.py`, `beta.py` | NlocModel | |
| `sbt/*.py` | SbtModel | phase of the complex Gamma function and scipy's `spherical_jn` (parameters); `_sbt_hankel` (unused) |
| `_src/const.py` | the two unit constants used | element tables |

## 5. Property plan

| id | what is modelled | how it is proved |
|----|------------------|------------------|
| C01-C02 | `fft_factor` with the literal CUFFT table; `proper_grid_size` | completeness of the table for all 7-smooth numbers up to 2048 (bounded exponents from size bound), then list induction |
| C03-C07 | `fftfreq`, `cubic_mask` (Python slice semantics), `_half_frequency_ranges`, `_half_frequency_pad_to` | linear arithmetic with floor division, induction over axes |
| C08-C11 | 3x3 linear algebra with adjugate inverse, `_vector_grid`, conversions | field identities; periodicity of cos/sin |
| C12-C15 | Monkhorst-Pack mesh, spherical mask, cutoff, translations | list inductions, order lemmas |
| C16-C19 | `expand_coefficient` etc. | list induction over the mask |
| C20-C26, C78-C79 | occupations; `proj` with extended reals | arithmetic; sorted-prefix threshold argument; KKT conditions for the projection |
| C27 | entropy | real analysis of `x ln x` |
| C28-C29 | volume, scaled positions | field identities / counterexample |
| C30-C38, C80-C81 | tensors, DFT (roots of unity), wave/density functions | orthogonality of characters, finite sum algebra |
| C39-C49, C82-C84 | potentials, energies, brakets with shape checks | finite sum algebra; shape inversion |
| C50-C52, C86-C88 | expectation, complex Hessian, trace, matrices | finite sum algebra; derivatives of quadratics |
| C53-C54 | Ewald | reindexing of finite sums; bound on the truncated real part |
| C55-C56, C85 | xc densities and potentials | calculus (Coquelicot derivatives) |
| C127 | the Hamiltonian matrix against the derivative of the total energy | the density is quadratic along the change; Parseval moves the reciprocal potentials to the grid; chain rule for the functional |
| C128 | rotating or reflecting cell, atoms and k-points | grids are linear in the cell and reciprocal vectors of A Q are those of A times Q; every energy uses inner products only, the density gradient by linearity of the inverse transform |
| C129 | time reversal of single k-points | conjugated orbitals have the conjugate values on the grid; the kinetic energy is re-indexed over opposite frequencies, which exist except at index n/2 of an even axis |
| C130 | order of k-points and bands | the density and the kinetic energy are sums over k-points and bands |
| C131 | bands and the size of the basis | the smaller matrix is the larger one between selected coordinates; Poincaré separation |
| C132 | bands and the size of the potential | the quadratic form is kinetic energy plus the average of V|psi|^2 over the grid; Weyl's inequality from dimension counting |
| C133 | bands at k and -k | the matrix at -k is the complex conjugate of the renumbered matrix at k |
| C134 | one channel against two equal ones | energies depend on the density summed over spins, except exchange-correlation, which is compared point by point |
| C135 | exchange of the spin channels | as C134; the products of gradients are exchanged too |
| C136 | entropy slope; stationary free energy and the Fermi function | derivative of the sums term by term; a linear form that vanishes on all changes of sum zero has equal entries |
| C137 | stationary energy and the Kohn-Sham equations | C127 along a direction at one band only, times 1 and i |
| C138 | scaling all lengths by one factor: grids, masks, the four energies | G' = G/lam and n' = n/lam^3 in the formulas of C41, C42, C45; gradients shrink by lam^4 |
| C139 | the settings each calculation needs and uses | raising passes through every bind; the helpers are equal when the settings they read are |
| C140 | the same crystal with a larger cell | sums over the large grid split into blocks; a periodic field has only frequencies divisible by the multiplicities, an orbital only one residue class |
| C141 | forces: derivatives of the total and the Ewald energy in the positions | derivatives of finite sums along any displacement; sums over pairs exchanged; erfc a parameter with its derivative as hypothesis (met by EwaldSpec.erfc) |
| C142 | the reader of pseudopotential files against a description of the file (UpfSpec2.v) | equivalence, section by section |
| C143 | the total energy and the energy an all-electron calculation minimises against a bound given in BoundSpec.v | kinetic and Hartree energy are not negative; a Fourier coefficient of the density is at most its integral; the density at a point is at most the number of electrons over the volume of one grid cell |
| C144 | the map from orbital parameters to orbitals, and the minimum of an all-electron calculation | an upper triangular unitary matrix is diagonal, so the Q of an orthonormal matrix is that matrix up to phases; gauge invariance (C83); Gram-Schmidt shows the QR contract can be met |
| C145 | `simplex_projector` over all parameters | the sigmoid is onto (0,1); the projection subtracts (or adds) one number before it clips, so it never produces 0 and 1 at once; conversely shift the wanted occupation by a small constant; mix with the average for approximation |
| C146 | the objective of both band-structure drivers over all parameters | Cauchy interlacing bounds it from below (C116, C117); the lowest eigenvectors are orbitals some parameters describe (C144), and there the matrix between the orbitals is diagonal |
| C147 | the lowest energy of the electrons plus the Ewald sum as a function of the positions of the atoms | completeness of R with the bound of C143 gives the lowest energy; a state of lowest energy touches it from above, and the derivative of that state's energy is C141 |
| C148 | the energy of all states and the objective of a calculation over all parameters | the energy is a continuous function of finitely many real coordinates and the states form a closed bounded set, so a minimum exists; C144 and C149 turn the minimising state into parameters. For the capped simplex only the infimum is claimed, since C145 shows the set of described occupations is not closed |
| C149 | the occupations of the idempotent method for all parameters | rotations of two rows of an orthonormal frame move the squared lengths of the rows to any values between; finitely many of them reach every vector of numbers in [0,1] with an integer sum. Bessel's inequality shows that Q of such a frame has rows of the same lengths |
| C150 | the objective of a norm-conserving calculation over all parameters | the objective is written as a formula in the coefficients and occupations (kinetic, Hartree, local, nonlocal and exchange-correlation terms); it is continuous and does not change with phase factors, so the arguments of C144 and C148 carry over. The idempotent method is absent because its parameters cannot be placed on devices (C113) and the call raises |
| C151 | total_energy and hamiltonian_matrix at a state of lowest energy; the driver's parameters of lowest energy | pairs of bands, and a band with a vector outside the space of the bands, are turned into each other by an angle (the turned orbitals stay orthonormal); the slope of the energy along the turn is a matrix element of the Hamiltonian and must vanish. Moving electrons between two states gives a one-sided slope, hence the order of the levels. C144 and C149 carry both over to the parameters of a run. One spin channel and local functionals, differentiable at the density |
| C152 | total energy of a norm-conserving calculation and nl_hamiltonian_matrix at a state of lowest energy; the driver's parameters of lowest energy | as C151, with the local and nonlocal pseudopotential energies turned along with the orbitals; the matrix has complex potentials, so its Hartree and local potentials are required to be real on the grid (proved for the Hartree potential on odd grids and for right-angled cells, C103 for the local one). C150 carries it over to the parameters of a run; the idempotent occupation cannot be run there, so the driver's statement is about the orbitals |
| C153 | simplex_projector and the drivers with that method | the clipped shift is inverted: any capped occupation without an empty and a full state is the image of its logits; a capped occupation mixed with the even one has neither, so the set is dense; continuity of the energy carries the lowest energy over; a strict descent from C151/C152 when the two levels differ |
| C154 | density_grid, hamiltonian_matrix, hamiltonian_matrix_basis and total_energy at single plane waves; the all-electron driver | modulus of a phase is one, Parseval for the mean potential, the Hartree and external terms of a uniform density vanish (the zero wave vector is left out); orthonormality of distinct waves gives reachability through C144 |
| C155 | the free energy of both drivers at a fixed temperature; fermi_dirac and gamma | each term of the entropy lies between its values at half and at full filling, which differ by a factor 2 in the logarithm; the entropy with its arguments cut at zero is continuous, so the compactness argument of C148/C150 applies; minima at two temperatures are compared crosswise |
| C156 | the free energy of both drivers at a fixed temperature, hamiltonian_matrix, the occupation methods | the derivative of the energy along a line of occupations (C151/C152) plus that of the entropy gives one condition per pair of states, from which mu follows; the slope of the entropy is inverted to a Fermi-Dirac function; with the capped simplex the minimum is taken on the closure (C153) |
| C157 | local and projector energies of norm-conserving pseudopotentials, the valence energy, the Ewald sum | a displacement multiplies each atom's own potential and each projector by a phase; finite sums of phases are differentiated term by term; the ground-state part compares the lowest energy with the energy of the fixed state, as in C147 |
| C158 | the same energies minus temperature times fermi_dirac; the free energy of both drivers as a function of the temperature | the free energy of the fixed state is differentiable (C147, C157) and touches the lowest one from above; a greatest lower bound of affine functions of the temperature is concave; existence of the bounds from C155 |
| C159 | hamiltonian_matrix_basis at several k-points | Weyl's inequality (C132) with the change of the kinetic energies; Ky Fan's minimum (C146) of a matrix that is affine in k after the parabola is taken off |
| C160 | the setup of both drivers for two configurations, spherical_mask, the objective | the two setups give the same problem but for the mask; orbitals of the smaller basis are orbitals of the larger one, and C144 and C150 give parameters for them |
| C125 | the Kohn-Sham potential of gradient-dependent functionals | transforms of grids with one long axis reduced to one dimension; explicit three-point witnesses |
| C57-C62, C76-C77, C89, C91-C95 | convergence checker, drivers, band reshape, k-path, cache, configuration, command line | induction on histories and lists; index arithmetic |
| C90, C112-C114 | the two ground-state drivers from the configuration to the returned density; `main` | invariant of the trajectory (shapes, fixed occupations), then the occupation, orbital and density theorems at the last step |
| C115-C118 | both band-structure drivers from the configuration to the saved array | spectral theorem for Hermitian matrices (proved in EigProofs2), interlacing of compressions by dimension counting, invariant of the warm starts |
| C119-C120 | crystal creation (file, configuration, symbols); the Ewald energy against the textbook formula | linear scaling of the geometry; bound of the regularised distances through the complementary error function, whose contract is proved for the real erfc from the Gaussian integral |
| C121 | the fast spherical Bessel transform with its tables, the class options and the wrapper `sbt` | circular correlation theorem (character sums), Hermitian symmetry of the real FFT, uniform-grid quadrature bound, arctangent addition for the table recurrences |
| C123-C124 | the norm-conserving drivers on files: directory, XML tree, atom data, potentials, run | inversion of the whole chain; the local, nonlocal and driver theorems instantiated with the file data; slices of the precomputed radial parts along a path |
| C63-C65, C70, C96-C98, C126 | UPF loading, padding | list/string induction |
| C66, C102-C104 | local pseudopotential | finite sum algebra; Parseval |
| C67, C105-C109 | nonlocal pseudopotential, normconserving Hamiltonian | finite sum algebra; spectral contract of `eigh`; addition theorem (proved for the standard harmonics) |
| C68-C69, C99, C122 | spherical helpers | trigonometry; for the addition theorem, the recursions of the associated Legendre functions and Bonnet's recursion for the sum over m |
| C71-C73, C100-C101 | spherical Bessel transforms | sums; Taylor bound for the quadrature error |
| C74-C75, C110-C111 | FFT rules, sharding, sharded random numbers | transposition of the DFT; uniqueness via delta arrays; block index arithmetic |

None of the properties is declared inexpressible.

## 6. Findings

What the exact characterisations show about the code (each is the content of a theorem; the ones
that contradict documentation or evident intent are `_refuted` theorems or stated iff's).

Grids and cells
* C01: the size table is not all 7-smooth numbers the comment promises; sizes above 2048 raise.
* C05-C07: axes of size 2 break the documented count and the no-aliasing rule of the cubic mask.
* C10-C11: `g2r_vector_grid` without a cell infers the transposed cell.
* C15: translations are not "all within the cutoff distance".
* C17, C38, C42, C48, C88: `squeeze_coefficient`, `wave_r`/`density_r`/`nabla_density_r`,
  `potential.hartree`, `energy.band_energy` (several bands) and `_hamiltonian_matrix` always raise.
* C29: `scaled_positions` is wrong for every non-symmetric cell.

Occupations
* C145: with the capped-simplex method no channel has both an empty and a full state: the integer
  occupations of an insulator are approached but never described (in exact arithmetic).
* C153: so with that method a ground state with closed shells has no parameters: training lowers the
  energy for ever towards a value that is never attained (the infimum is right; no minimiser exists).
* C155: with `gamma` and several k-points the occupations exceed the largest value the entropy
  assumes, (3 - spin channels)/k-points: the entropy takes the logarithm of a negative number, so the
  entropy and the loss that are displayed are NaN (also at temperature zero), and the run raises with
  `jax_debug_nans`.  The occupations have no gradient, so the optimisation itself is unaffected.
* C20-C21: `uniform` and `gamma` do not check parity; too few bands lose electrons silently.
* C22: `idempotent`, spin restricted, totals N+s.
* C25-C26: the capped-simplex projection is exact inside, wrong at totals 0 and n.
* C78: `simplex_projector` is wrong for full polarisation.
* C79: `simplex_projector_init` grows with the position, so a run with this method starts with the
  highest bands, and the last k-points, fullest.
* C27: the entropy of a spin-restricted Gamma-only occupation is negative.

Densities and energies
* C37: `nabla_density_grid` without an occupation misses 1/volume.
* C43: external potential regularised by 1e-10; C82: complex on even grids.
* C49: `real_braket` does not conjugate.
* C55-C56: polarised LDA exchange is not spin scaled; its potential misses one term.
* C134: for the same reason a closed shell has one exchange potential when run spin-restricted and a
  higher one when run with two equal channels, although the energies agree.
* C125: the Kohn-Sham GGA potential transforms the axes y, z and component instead of x, y, z,
  and its inner forward transform is one-dimensional. It is right for uniform densities and for
  functionals without gradients. Otherwise it is not the derivative of the energy, is not real, and
  changes when the crystal is rotated.
* C52, C86: `keep_kpts_axis` returns the spin axis; two-channel traces read the channel axis as a k axis.
* C54: the truncated Ewald energy is not periodic in one atom.

Drivers
* C58: the logged energy belongs to the parameters before the last update; zero epochs raise
  UnboundLocalError.
* C61: the all-electron band run works only if the number of devices used is the number present.
* C77: a YAML file replaces the defaults instead of overriding them.
* C139: `save_dir`, `k_path_file`, `k_path_fine_tuning` and `xla_preallocate` are documented settings that
  nothing reads; the default configuration has no `pseudopotential_type`, so it cannot be used with pseudopotentials.
* C91: booleans can only be set to true and None options cannot be set on the command line. `cutoff_energy` is declared a float but its
  default is the integer 100, so `--cutoff_energy 50.5` is refused.
* C92: the k mesh is rounded to FFT sizes.
* C93: allocated bands suffice iff |s| <= 2*empty + (N mod 2).
* C94: nuclear repulsion uses full nuclear charges with pseudopotentials.
* C95: a given ground state makes the normconserving band run raise NameError; the default
  configuration has no pseudopotential type.
* C112: with `idempotent` and spin s the returned density holds N+s electrons and is not polarised.
  With `uniform` and `gamma` the occupations are optimiser parameters with zero gradient: they stay
  constant only under optimisers that do not move such parameters.
* C113: normconserving, unrestricted, `uniform` or `gamma`: the density holds 2N electrons (the
  initial occupations are built restricted); `idempotent` always raises; `simplex-projector` needs
  the number of devices to divide the number of bands; the parity of electrons and spin is checked
  for all electrons, not for the valence electrons.
* C114: `--load` has no effect.
* C116-C117: reported band energies never lie below the true eigenvalues of the plane-wave
  Hamiltonian and exceed them by no more than the objective exceeds its minimum; they are exact when
  all plane waves are used.  Nothing in the code checks that the objective is close to its minimum.
* C117: the normconserving driver ignores `spin_restricted` for the bands; with a polarised density
  it saves 2K rows without a label and minimises an objective that misses one copy of the one-body
  energy.
* C118: with `spin_restricted: false` the all-electron driver diagonalises the SUM of the two spin
  Hamiltonians for either spin: both spins have the same exact bands, about twice the right energy.
* C119: `create_from_symbols` documents positions and cell in Bohr but multiplies both by the
  Angstrom-to-Bohr factor (refuted; the result equals the argument only for zero geometries).
* C120: the Ewald theorem fixes eta and the two truncations; independence of eta for the complete
  (infinite) sums is not claimed by the code and not proved.
* C121: the docstring says that a round trip without `norm` scales by 2/pi; it scales by pi/2
  relative to the normalised round trip. That the large-k branch approximates the transform is not
  proved (it needs the complex Gamma function); its table is pinned by modulus and recurrences.

Pseudopotentials
* C99, C106, C122: the library harmonics are a parameter; `SphSpec.standard_harmonic` is their textbook
  definition, for which the addition theorem is proved for every l. That the library computes this
  function is trusted.
* C122: `legendre_to_sph_harm` documents 2l+1 features; it returns 2 l_max+1. The zero vector is
  silently treated as the x axis, also for l > 0.
* C63: the valence table is lost when text follows the generation line.
* C64: `find_upf` needs a trailing separator and depends on listing order.
* C67, C105: eigenvalues of D are attached by sorted order (wrong for negative, unsorted or coupled
  channels); projectors sit at -R.
* C126: nonlocal_beta_cutoff_radius holds, per atom, the text of the last projector's radius
  instead of one number per projector (dataclass.py 152 uses the loop variable after the loop).
* C97: ultrasoft q_ij is uninitialised at r = 0 and not filtered like the other arrays.
* C123: `pre_calc_beta_sbt` starts `cpu_count() // 2` workers, so every norm-conserving run raises on
  a machine with one processor. It also raises when no |G+k| exceeds 1e-4.
* C123: with an ultrasoft type the drivers read the augmentation and then ignore it.
* C123: a fractional `z_valence` is cut to an integer without notice.
* C102: the "fft" local potential has the wrong normalisation and a transposed cell.
* C104: one data set is silently shared by all positions.
* C107: `energy_nonlocal` with its default occupation raises TypeError.
* C108: polarised exchange-correlation potentials read the channel axis as a k axis.
* C109: `fourier_transform_method` has no effect on the nonlocal part.

Transforms and devices
* C72: Simpson weights skip the first point for even counts.
* C73: `batch_sbt` with a shorter list drops rows.
* C101: the inverse fast transform extends with the r grid.
* C74: the FFT announces a real result for real input.
* C75: only the last FFT axis is gathered; splitting axes -3 or -2 gives wrong numbers.
* C110: `spmd.uniform` needs array axis i split over mesh axis i.

## 7. Tests against wrong programs

`seeded/LOG.jsonl` records every edit of the model tried in a scratch copy, the claim it breaks and
the theorems that no longer prove.  Edits after which nothing failed led to tightened theorems.
