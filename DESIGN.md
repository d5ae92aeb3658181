# Formal model of minimisTN: design

Source under study: `/repo` (vINyLogY/minimisTN, Python), read as text, never run.
Prover: Coq 8.16.1.  All Coq files are in `rocq/theories`, logical path `Verif`.

## Trusted base

* The Coq kernel.  No axiom of our own, no `Admitted`, no disabled check, no
  functor / module type, no plugin.
* `Print Assumptions` is run under every property theorem.  The theorems are
  meant to be "Closed under the global context", except those that need real
  numbers (square roots, sine, exponential).  These list only the axioms of
  Coq's standard library reals (`ClassicalDedekindReals.sig_forall_dec`,
  `ClassicalDedekindReals.sig_not_dec`, `FunctionalExtensionality.functional_extensionality_dep`,
  and, where the library's own proofs use it, `Classical_Prop.classic`).
  The table at the end of this file says which theorem lists what.
* The reading of the Python source: every model definition carries a comment with
  the file and line numbers it renders, and states its simplifications.
* The meaning given to numpy primitives (`reshape`, `moveaxis`, `tensordot`,
  `dot`, `swapaxes`, `transpose`, ...), written once in `NdArray_Model.v` as
  index formulas over row-major arrays.  numpy itself is not modelled below that.

## Modelling conventions

* Scalars: an arbitrary commutative ring with an involution (`StarRing` record,
  laws included in the record), so results hold for exact real or complex
  arithmetic.  Floating point rounding is NOT modelled.  Concrete instances
  (integers, Gaussian integers, rationals, real and complex numbers) are used in
  the examples and where square roots or trigonometric functions occur.
* Arrays: record of `shape : list nat` and row-major `data : list K`.
* Exceptions are values: `res A := Ok a | Raise e` with one constructor of `exn` per
  Python exception class used.
* Objects are numbers (identities) in a heap (finite map), so aliasing and
  mutation are visible.  Recursion over the heap takes fuel; running out of fuel
  is a separate error (Python's RecursionError) and the theorems show it is not
  reached for trees.
* Calls into LAPACK, scipy ODE solvers, `quad`, FFT are parameters (oracles).  What a
  theorem needs from them is written as an explicit premise.
* Files: `X_Model.v` holds definitions only, `X_Spec.v` the independent
  specification, `X_Proof.v` lemmas, `X_Prop.v` the property theorems (each a
  one-line `exact`), examples that instantiate the hypotheses, and
  `Print Assumptions`.

## Properties: what is modelled and how it is proved

Properties without an entry in `MANIFEST.json` are planned, not done.

| Id | Model | Proof idea |
|----|-------|-----------|
| C01 | `_partial_product`, `__partial_product` over `NdArray` | index computation through tensordot and moveaxis; extensionality of arrays |
| C02 | same | two-sum exchange, associativity of sums |
| C03 | `partial_trace` | moveaxis + reshape as flattening of remaining indices |
| C04 | `partial_env`, `global_inner_product` on the tensor heap | heap represents an inductive tree; induction on the tree; dense spec is a sum over all bond and leaf indices |
| C05 | `matrix_element`, `expection` | same induction with leaf matrices; concrete counterexample for a complex Hermitian matrix |
| C06 | `partial_env` with `_partial_env` dictionaries, `reset` | invariant: each stored entry equals the recomputed environment |
| C07 | branch of `partial_env` returning None | induction: isometries contract to the identity |
| C08 | `vectorize`, `tensorize` | induction over the visited list, take/drop |
| C09 | `link`, `unlink`, `unlink_to` | finite-map reasoning; symmetric-links invariant over histories |
| C10 | `check_linkage`, `check_completness` | iff by case analysis |
| C11 | `children`, `visitor`, `leaves` | fuel recursion equals pre-order of the represented tree |
| C12 | `linkage_visitor`, `decorated_linkage_visitor` | same |
| C13 | `generate` | loop invariant over the stack |
| C14 | `split`, `unite`, `split_unite`, `unite_split` on the heap | position arithmetic of list insert / index |
| C15 | same with arrays | pair contraction is preserved, amplitude depends only on it |
| C16 | array part of `split` and `unite` | list permutation of axes |
| C17 | `contraction` | iterated unite, measure = number of non-leaf tensors |
| C18-C22 | `split_step`, `unite_step`, `r_split_step`, `snd_order_step` over the Euler tour with a machine that knows only the current root | induction on the tree for traces |
| C23, C24 | heap, root and `env_` dictionary; `term_visitor`, `_single_eom`, `_form_env`, `_split_prop`, `remove_env`, `move` | invariant: each entry for an axis leading away from the root is the recomputed environment; kept by the real `split_unite` / `unite_split` of C14; witness for f_list |
| C25, C26 | `propagator`, `_solve_ode`, `log_inner_product` | loops with oracle steps |
| C27, C28 | rank selection of `compressed_svd`, `compress_svd` | induction on the list of singular values; matrix algebra |
| C29, C30 | `triangular`, `autocomplete` | layer invariant; orthonormality of unit rows |
| C31, C32 | `huffman_tree` | loop invariant: forest with leaf multiset = sources; least cost by induction over depths that satisfy Kraft's inequality, exchanging the lightest into the deepest places |
| C33 | `iter_visitor` | reachability invariant, termination by unvisited count |
| C34 | `lazyproperty` | induction over reads |
| C35, C36 | `Quantity` | field algebra over the rationals / any field; decidable string tables |
| C37-C40 | the three `Hierachy` classes | operators as one-axis products; entrywise formula; similarity |
| C41 | `gen_extended_rho`, `simple_heom`, `tensor_train_template`, `tensor_tree_template` with `huffman_tree`, `generate`, `autocomplete` | row 0 of every tensor is the all-zero state; induction on the chain / tree; witnesses for other sizes |
| C42 | `Correlation` classes, `generate_BCF` | complex exponentials; list lengths; partial fractions by induction |
| C43 | `Phonon` | complex matrices with square roots |
| C44 | `SineDVR` (transformations, kinetic energy, derivative, basis functions), `FastSineDVR` | trigonometric sums by telescoping; integrals by antiderivatives |
| C45 | `PO_DVR.subindex`, `_calc_diag`, `h_mat`, `mu_mat`, `MCTDH._partial_transform` | mixed radix induction; the exchange of two axes as an involution; shapes agree exactly for equal sizes |
| C46 | `heisenberg`, `fm_state` as block arrays | induction over the number of middle tensors, for each of the five bond values |
| C47 | `dmrg1`, `dmrg2` with `_move_left/right`, `fine_grain_mps`; stacks as lists, a log of the eigensolver calls | invariant: each stack entry is the contraction of the current matrices; the problem solved is the operator between states with the site exchanged |
| C48 | `mat_element`, `contract_from_left/right`, `coarse_grain_mps/mpo` over a small `einsum` | entries of einsum by computation on labels; induction over the chain |
| C49 | `DavidsonAlgorithm.kernel`, `_restart`, `_is_converged`, `_extend_space` | counting invariant; room invariant; three cycles composed by induction |
| C50 | `DavidsonAlgorithm._extend_space`, `_orthonormalize`, `_calc_trial_vecs` | invariant over cycles: search space orthonormal, new vectors orthogonal to it, stored matrix projected |
| C51 | `normalize` | Gram-Schmidt over the complex numbers |
| C52 | `girds.py`: `GridBasis`, `conj`, `ft` of both grids | orthogonality of roots of one; rolls of lists; invariant of a heap of mutually linked grids |
| C53 | `MultiLayer.__init__` | invariant over the list of terms: converted prefix, untouched rest; dictionary of leaves with distinct names |
| C54 | `SpinBosonModel.collect_electric_terms`, `td_electron_hamiltionian` | induction over the terms: elements of the merged array and of the rest |
| C55 | `Network.__init__`, `__getitem__`, `__setitem__` | any tensor sees the whole tree (C11), counted by axis; dictionary laws |
| C56 | `projector` of a non-root tensor | entry formula; star-ring algebra |
| C57 | `unzip` | list induction |
| C58 | unit table of `Quantity` | computation on rationals |
| C59 | `Drude` of corr.py and of noise.py | cotangent as a Bose function of an imaginary argument; field algebra |
| C60 | `DVR.propagator` | diagonal matrices in an orthonormal basis; exponentials add |
| C61 | `PO_DVR.set_v_func` | from C45 |
| C62 | `DavidsonAlgorithm.kernel`, `_calc_ritz_pairs` | linearity through the combinations; the search space as a growing prefix |
| C63 | `SpinBosonModel.__init__`, `vibration_hamiltonian`, `relaxation_hamiltonian` | mode by mode, from the entries of the oscillator operators (C43) |
| C64 | `SpinBosonModel.td_electron_hamiltionian` | cases over the attributes |
| C65 | `Network.tensorize`, `vectorize`, `copy`, `Tree.partial_env` | slices of a vector (C08); invariant of the cache: no key with axis None |
| C66 | `diff` of `_split_prop`, `_single_eom` for the root | environments as sums over the leaves (C04) with the root left open; linearity; cached runs through C23 |
| C67 | `coefficient` of both classes, `diff` with reference energy | from C66: Hermitian and anti-Hermitian forms, exact second-order polynomials in the step |
| C68 | `MultiLayer.matrix_element`, `expection` with `term_visitor` | loop over the terms with the invariant that leaves are empty between terms; C05 for each term |
| C69 | `MultiLayer._single_eom` with densities and projection, `_form_inv_density`, `eom`, `direct_step` with 'Newton' | the tree seen from another root (`Reroot_Proof.v`); densities and projections as sums over leaf values; invariants of the loops over terms and tensors |
| C70 | first-order changes of norm and energy under `direct_step` with 'Newton', real and imaginary time | polynomials in the step built by induction over the tree; the Dirac-Frenkel equation of C69 applied to the state and to its own derivative; bounds for small real steps |
| C71 | `MCTDH.get_sub_vec`, `update_mod_terms`, `_sp_op`, `_coeff_op`, `term_hamiltonian`, `h_mat`, `energy_expection` | products of one matrix per axis compose; every step of the code is such a product; variations split into one within the span (a change of the tensor) and one orthogonal to it |
| C72 | `heom/bosefermi.py`: `tseig`, `MSD`, `PSD` (`pade` 0, 1, 2); `Drude.pade`, `Drude.matsubara` | the eigenvalues are the roots of continuants; the pole sum is the continued fraction of coth or tanh cut short (partial fractions); its error by recurrences of the power series; `[N/N]` Fermi refuted for every N; the Matsubara sums converge, by halving the argument of coth |
| C73 | `models/sbm.py`: `wfn_h_list`, `do_l_list`, `heom_h_list`, `heom_h_list2` with `generate_BCF` | terms contracted axis by axis give the Hamiltonian with indices written out; anti-Hermitian; density operator product rule for real matrices, refuted for Hermitian ones; hierarchy by C37 with coth turned into occupation numbers |
| C74 | `heom/spd.py` | outcome of `BoseEinstein.residues` for all arguments; its `matsubara` right, with an error bound, but wrongly unpacked (refuted for two poles); detailed balance; the limit of temperature zero, refuted for negative frequencies; partial fractions of `Drude` |
| C75 | `ml.py`: `dense_hamiltonian` (and its copy in `heom/propagate.py`) | induction over the leaves: entry `[ravel v, ravel w]` is the sum over the terms of products of matrix entries; equal to the form that `matrix_element` computes, rows belonging to `array`, columns to `aux`; Hermitian iff the terms are |
| C76 | `ml.py`: `autocorr` with `propagator` | induction over the calls of `next`, next to the run of `propagator` from the same start: same times, same end, values are overlaps of full tensors; doubled time right for symmetric evolution of a real state, refuted for a complex one |
| C77 | `ml.py`: `direct_step` with 'RK4' | each pass over the tensors touches only its own tensor, so a pass is described tensor by tensor; four passes of `eom` with the stored environments give the classical formula per tensor; same derivative as C69 at the start; mean fields of the start at all four points, so not the method for the equation of motion (refuted) |
| C78 | `ml.py`: `direct_step` with a solver of scipy | the solver is any computation that asks `diff`; each call stores, derives and restores, so that the answer is the function `flow` of the vector alone; invariant over the rounds of `_solve_ode`: network canonical, cached fields belong to the arrays of the last renewal |
| C79 | `heom/propagate2.py`: `term_visitor`, `_form_env`, `diff`, `move` | invariant over the run: entries of all terms that lead to tensors are the environments of the first term; hence `diff` equals `diff` of ml.py for mixed terms |
| C80 | `heom/seom.py`: `Hierachy` | terms applied to any extended wave function, per tier; rate of the norm from the Hermiticity of the parts |
| C81 | `DVR.solve`, `DVR.h_mat`, `PO_DVR.init_state`, `MCTDH.gen_h_terms`, `MCTDH.init_state` | signs keep eigenvectors orthonormal; a product of lowest eigenvectors is an eigenvector of a sum of one-axis operators; then C71 (energy, equations) and C45 (product) are used |
| C82 | `PO_DVR.propagation`, `autocorrelation`, `spectrum`, `MCTDH.propagation`, `MCTDH.autocorrelation` | three results at once (for a, b and a + c b) follow every array operation, so the Hamiltonians are linear; every vector yielded is a polynomial of the matrix applied to the first one; polynomials of a symmetric matrix are symmetric and commute |
| C83 | `SpinBosonModel.__init__` (dimensions), `autograph_mctdh`, `autograph_full`, `autograph`, `autograph_with_aux`, `_update`, `inner_leaves`, `outer_leaves` | the graphs are association lists in insertion order; each is unfolded to its tree, whose tips are the names without an entry; the loop of `_update` is run by cases on the number of leaves |
| C84 | `GridBasis.exp`, `keep_ft_type` on functions, `norm`, `with_time`, `Propagator` | a function is followed by its values at the points of the grid; `interp1d` gives back its own values there; then the steps are matrices at points and Fourier sums, which are isometries and can be undone |
| C85 | `Hierachy` with a `basis` | the terms are sums of operators on single axes; each representation of a mode is a triple of matrices (number, up, down), and a matrix taking one triple to another takes the derivative along |
| C86 | `dense_h` of sbm.py | a factor on one axis, contracted with the reshaped identity, is the matrix of the factor; the matrix is the sum of them; the positional arguments are followed to where they fail |
| C87 | `autocomplete` with `max_entangled` and `_local_matvec` of ml.py | pairs of leaves get the maximally entangled state, all others their first state; the search is the one of C50 and C62; Gram-Schmidt keeps a first row of norm one; the partial trace is a sum over products of deltas |
| C88 | `one_site_step`, `snd_order_step`, `two_site_step` and `propagator` of propagate2.py, with arrays, environments and SVD | a run with arrays does the events of the sweep without arrays (C18, C20) or stops before the end; invariants of C79 hold in between; induction over the calls of `next` |
| C89 | `split_step`, `snd_order_step`, `r_split_step` and `unite_step` of ml.py, with arrays, environments and SVD | the same simulation, with the invariants of C23 |
| C90 | canonical form and norm through `one_site_step`, `two_site_step`, `snd_order_step`, `propagator` of propagate2.py and `split_step`, `unite_step`, `r_split_step`, `snd_order_step` of ml.py | a further invariant of the machines of C88/C89: every tensor but the root is orthonormal along its axis, and the root has the norm; each move is proved to carry it over, the steps follow by the induction of C88/C89 |
| C91 | norm at the end of forward `one_site_step`, `split_step`, `r_split_step`; `propagator` of ml.py with the splitting steps | the step ends by propagating the root (read off the model); with C90 the norm of the network is that of the root's array; the generator by induction over its rounds |
| C92 | `linear_discretization` (bath.py), `SpectralDensityFactory` (corr.py), `outer_hamiltonian` and both constructors (spinboson.py) with the names of the module `bath` | the loop by induction over the bins; additivity, monotonicity and strict positivity of Riemann integrals; continuity of the densities |
| C93 | `hilbert_angle` on the tensor heap, two networks that may share objects | `aux` written over the pairs of the two walks does not touch arrays or links; C04 for the inner product and the norms; relabelled trees have the same amplitudes; Cauchy-Schwarz for sums over indices |
| C94 | `Polynomial.hermite` and `BasisFunction.harmonic_oscillator` of lib/symbolic.py, `PotentialFunction.sho` | polynomial coefficients under differentiation; H_{n+1}' = 2(n+1) H_n by induction, from it the differential equation; an eigenfunction with wrong scale would satisfy u H' = c H, which leaves n = 0, 1 |
| C95 | `matrix_element`, `matrix_repr`, `particle_in_box` of lib/symbolic.py, `CasDVR`, `fbr2cont`/`dvr2cont` for any basis | loop invariant for the two assignments; integration by parts once and twice; sine functions orthonormal because their second derivatives have different factors; orthogonal matrices on double sums |
| C96 | `WindowFunction.g0prime/g1prime`, `PotentialFunction.linear_corr/square_well/w_well` of lib/numerical.py | mean value theorem for the second window, whose derivative is `-(pi/l)(1-t/l) sin(pi t/l)`; monotony of squares for the double well |
| C97 | `get_ext_wfns` of heom/network.py | the loop ends in its first pass, because the rows of the orthonormal basis are counted instead of its columns |
| C98 | `gaussian_wfn` of bases/girds.py | the integral of exp(-x^2) from the law G(t)^2 + H(t) = pi/4 (G its primitive, H an integral with parameter whose derivative follows by squeezing with 1 + y <= exp y); the other integrals by primitives that vanish at infinity |
| C99 | the object `DVR` of bases/dvr.py with its stored attributes: `__init__`, `set_v_func`, `v_mat`, `h_mat`, `solve`, `energy_expection` | invariant over all sequences of calls: a stored matrix is always the one of the potential set last |
| C100 | `PO_DVR.energy_expection`, `_Hamiltonian._rmatvec` of bases/dvr.py | sums over all indices split into one axis and the others; induction over the axes for the norm of a product |
| C101 | `MultiLayer.settings` of ml.py (heom/propagate.py the same), `DavidsonAlgorithm.config` of lib/numerical.py | induction over the arguments; setting known names makes no name known or unknown |
| C102 | `MultiLayer.expection` of heom/propagate.py | case analysis against ml.py; any complex answer is fixed by what all checks say about it, so C68 carries over |

## What the theorems do not say

* C09: slots linked to themselves are excluded.
* C10: the check looks at one tensor only, and so does the theorem.
* C04-C07: arrays fit the tree (one axis per link, equal lengths at both ends) and have no
  axis of length zero.  C06 is about queries at objects of the tree, with no axis or a linked axis.
* C08: `shape_dict` arguments are not modelled.
* C13: the graph is tree-shaped with distinct names.
* C14-C17: no axis of length zero, every tensor named, neighbours joined by one link.  The
  operation run in the middle of a move is a parameter that leaves links and names alone.
  `rank` and `err` of `split` appear as the choice of the decomposition routine.
* C18-C22: the sweeps are modelled on links and parent axes only (arrays abstracted to events);
  that a move of the real `split_unite` / `unite_split` has this effect on links is C14.
* C23, C24: which calls the ODE solver makes, and `normalize` of the root, are arbitrary (any vector of
  the right length).  An exception inside `diff` ends the modelled run; the code swallows it in
  `log_inner_product` and goes on.  Moves go to inner tensors, as in the three kinds of steps.
* C25, C26: the steps, the solver and the updates are arbitrary actions on an arbitrary world; the
  world is what is left after the action even when it raises.  `str.upper` is the ASCII one.
* C37-C40: only `basis=None` (with a basis: C85).  `np.sqrt` on 0, 1, 2, ... is a parameter with `sqrt 0 = 0` and, for C40,
  `sqrt(n)^2 = n`; `1/hbar` and `1/scale` are parameters; `np.allclose(g, 0)` is a test that holds for zero only.
  Time evolution is replaced by all powers of the generator.
* C41: graph keys are strings throughout (the code mixes ints and strings, no string of the code renders an int).
  For the tree, `linalg.norm`, `np.sqrt`, the reciprocal and `matrix_rank` are parameters; only their values on unit
  vectors, 0, 1 and identity matrices matter.  Any fuel of at least 2m + 2 for m modes gives the same result.
* C46-C48: `np.einsum` is modelled for two operands with equal lengths of equal labels (no stretching of axes of
  length one).  `eigsh` and `np.linalg.svd` are functions of their arguments; that the eigenvector is one is not used.
* C42, C59: real parameters; a division by zero or a root of a negative number has an unspecified value in the model
  (inf or nan in numpy), and the theorems exclude them where it matters.  The accuracy of the expansions is not stated.
* C44, C60: vectors are one-dimensional; the potential is applied point by point; the discrete sine transform and the eigendecomposition are oracles with exact premises
* C49, C50, C62: `orth`, `eigh`, the norm and its thresholds, the operator and the preconditioners are functions given from
  outside; that the Ritz values approach eigenvalues is not shown. In search mode the code also changes the caller's vectors,
  which is not modelled. Logging is left out.
* C45, C61: a one-dimensional operator is any function on vectors that acts as a matrix; sizes are not zero.
* C54, C63, C64: the lists of leaves and dimensions and the graphs of `SpinBosonModel` are not modelled; the discretised
  outer modes are given; lists of length one are not stretched.
* C52: exact numbers; `fftpack.fft` and `ifft` stand for their defining sums. Functions as arguments of `ft` (interpolation),
  `inner_product`, `norm`, `mop`, `exp` and the propagator of `girds.py` are not modelled.
* C55, C65: dictionaries keep their keys in order of number; the memory that reshaped arrays share with a vector, arrays of
  objects as vectors, and the empty methods `split`, `unite` and so on are not modelled.
* C53: the dictionary of leaves is built from names that are all different; the terms in `h_list` and `f_list` are different
  objects. A matrix is any value with a number of dimensions and a flag for being callable; `hex(id(x))` is a function.
* C66, C67: arrays fit the tree, matrices sit on leaves and are square; tensors flagged as normalised, except the root, are so.
  The run in C66 is that of C23 and has no time-dependent terms. C67 is about the vectors `diff` returns, not about what a
  solver makes of them; numbers are exact and complex.
* C68: the operator given as an argument holds matrices, no functions of the time; the test for closeness is any function.
* C69: the network is in the form that `init_state` leaves (axes to the root, orthonormal tensors); the inversion is any function.
  The density of a network need not be invertible: then only the part about orthogonality holds. The branches of `direct_step` are C77 and C78.
* C70: first order in the step only. A slope is the second coefficient of a polynomial in the real step; `C70_rates_determined` shows that it is unique over the complex numbers. The slope of the energy needs an exact inversion of every density.
* C71: the statements about energy and derivative need real matrices with orthonormal columns, at most one operator per
  axis in a term, and sizes for which `_partial_transform` keeps the axes apart (always so for one or two modes). Real matrices are
  what `init_state` gives; after a step in real time they are complex, and then the mean fields are wrong (`C71_mean_fields_refuted`).
  `self.vec` and the vector multiplied are the same. `linalg.inv` is any function that inverts the density matrices plus `err`.
  `init_state` and `gen_h_terms` are C81, `propagation` and `autocorrelation` C82.
* C72: the theorems suppose that the routine for eigenvalues gives the spectrum of the two matrices used (an orthonormal set of
  eigenvectors, any order; falling order for the routine inside `Drude.pade`). The examples give such a routine for up to three rows.
  Nothing is said about `pade = 3`, whose raising of `NotImplementedError` in the model only marks that it is left out.
* C73: `basis=None` in the hierarchy, mass and hbar 1 in the oscillators. `dense_h` is C86. With inverse temperature given, `beta * w` is not zero.
* C74: that `pade1` and the methods of `Brownian` raise `TypeError` follows from operand types written into the model by hand
  (`sorted` returns a list, `gamma` names `math.gamma`).
* C75: numpy's broadcasting when adding matrices of different shapes is not modelled; all theorems have matrices that fit the leaves
* C76: the steps are parameters, assumed not to look at the `aux` they find and to leave the tree of the network as it was; the arrays kept from the start are assumed not to be changed in place
* C77: 1/2 and 1/6 are ring elements `half`, `sixth` given as parameters (the theorems hold for any); `set_array` is modelled as storing the array
* C78: the solver of scipy is a computation tree that may call `diff` and ends with a new solver object; that it asks for vectors of the right length is a premise, as is that the vectors it arrives at can be orthonormalised; `ode_in_real` is off
* C79: the vectors for which the solver calls `diff`, and the vector it ends with, are arbitrary; matrices sit on leaves; moves go to tensors
* C80: both last axes of the wave function have the dimension of the system; square roots and the test for zero are given functions (`sq 0 = 0`, zero passes the test)
* C81: `eigsh` is a parameter that returns real orthonormal eigenvectors as columns; one-dimensional operators are matrices (`fast=False`); the terms of `extra` have different axes and the sizes of the grids; C71's condition on the sizes remains
* C82: `RK45` is a Runge-Kutta step with any table and any choice of the step length, with the last derivative kept as in scipy; the constructor accepts its arguments. Norms of the parts are not zero in `C82_normalizer`. `C82_autocorrelation` is about `PO_DVR` (no updater, no normalizer); `spectrum` is given the Fourier transform. When `init` is passed to `MCTDH.propagation`, `self.vec` is not set before the first step: in the model the attributes are a separate argument
* C83: names are strings, `dimensions` an ordered dictionary. `n_branch` is 2, the default, which no caller changes. The loop of `_update` has fuel, at least the number of modes. Parameters are those that do not raise in `__init__` (`good`: as many displacements as frequencies, some outer mode if there is a bath). The outer modes are given as a list of pairs and one dimension, as in C54
* C84: `interp1d` is linear interpolation after sorting the points, ValueError out of their range; real points. `simps` is any quadrature in `C84_renormalize` (homogeneous, positive on the squares) and Simpson's rule on three points in `C84_simpson_refuted`. `linalg.eigh` gives eigenvalues and unitary eigenvectors of hermitian matrices. What a generator yields is listed for `max_iter` passes. `gaussian_wfn` and `mop` are not modelled
* C85: an object in `basis` is given by the matrices its methods return; `eig_mat`, which is only used for printing, may be missing (AttributeError). For a grid the weight is the square root of a positive real part; negative ones (`nan`) are outside. Printing is left out
* C86: frequencies are python floats; a `basis` and a `scale` are `None` or numbers, as `dense_h` hands them on; leaves have a decidable equality
* C87: norms, square roots, reciprocals and `matrix_rank` as for C41; `np.allclose` accepts equal vectors; the parts of scipy behave as `library_ok` says; the pairs are linked to their parents by axis 0; if the search gives too few vectors, the rows with the appended unit vectors are independent; terms have arrays with two axes
* C88, C89: the solver calls `diff` for any vectors and returns any vector, differently for each operation; SVD as for C23; that a step ends without exception is not claimed, it also depends on the vectors' lengths; the two-site step is claimed for two tensors or more
* C90: the matrix `v` of a decomposition has orthonormal rows (`cut_svd`), for the norm the three also multiply to the matrix (`whole_svd`); for the norm every vector put into a tensor by the solver has the norm of the state, in exact arithmetic
* C91: the vectors in `calls` are those after `normalize`; real time, a splitting method and no `move_energy`; a step that raises is taken to leave the state it started from, after which the generator is finished
* C63, C83, outer modes: `SpinBosonModel` asks the module `bath` for `bimodal_spectral_density`, which it does not have (C92_bath_refuted), so with `including_bath` the code raises AttributeError. What C63 and C83 say about outer modes holds for the modes given as an argument, that is for a module that had the name (C92_construct)
* C92: `quad` is a parameter, taken to be exact for the density and its first moment where the theorems say so, and to return builtin floats; spectral densities are total functions of real numbers; nan is `None`; names of the module `bath` are those bound in its text. No tail of a density beyond `stop` is estimated
* C93: `np.arccos` of a complex number is a parameter, premises about it only in C93_real_angle and C93_phase_refuted; nan is `None`; networks are of the same form (one is the other with other objects at the same places)
* C94: sympy expressions that are a polynomial times exp(-x**2) are coefficient lists; `expand` and `simplify` keep values; normalisation over the whole line is not stated as an integral, only relative to the function at unit parameters
* C95: `sym.integrate`, `quad`, `sym.diff` and `eigh` are parameters, with the premises that they are exact for the functions (matrix) at hand; an interval is always given in the theorems (`cut_off`); expressions are real functions
* C97: `scipy.linalg.orth` is a parameter; premise: for the transposed wave functions it returns orthonormal columns, not more than given, with the same combinations. Arrays of one axis are not modelled
* C96: functions act on one exact number at a time; a window length of zero (nan in numpy) is excluded by the premise that it is positive
* C98: exact numbers; `whole f v` says that f has integrals over all intervals and that they come near v when both ends go to infinity independently; alpha is positive and hbar not zero
* C99: `eigsh` is a parameter, exact by a premise where that is needed; kinetic energy and grid points are given; attributes are changed by the methods only
* C101: attribute lookup without descriptors or metaclasses
* C100: as for C45; `dtype` rules of numpy (a complex operator on a real vector) are left out
* C102: as C68; the division is meant for a state that is not zero
* C43: real positive frequency, mass and hbar where a root is squared; integer vectors, which numpy refuses, are not modelled.
* C51: complex numbers are pairs of real numbers (file `Cplx.v`), norms and roots are the exact ones.
* C31: importances are added and compared exactly. Least cost is proved where the number of sources allows full nodes; elsewhere it is refuted.

## Wrong programs

`seeded/LOG.jsonl` records edits of the model in a scratch copy, and which theorems
stopped compiling.  A theorem counts as failed when its proof script, or that of a lemma it rests on,
no longer compiles.  That does not by itself show the statement false for the edited program.

## Not modelled

Plotting, logging, file output, CLI scripts, floating-point rounding, numpy
broadcasting beyond what is cited, dtype conversions, the internals of
scipy/LAPACK, and performance.

## Assumptions of the theorems

From `Print Assumptions`, 507 theorems in all.

* "Closed under the global context": the 286 theorems not named below.
* `ClassicalDedekindReals.sig_forall_dec`, `ClassicalDedekindReals.sig_not_dec`, `Classical_Prop.classic`, `FunctionalExtensionality.functional_extensionality_dep`:
  `C93_real_angle`, `C93_phase_refuted`, `C72_matsubara_error`, `C95_repr`, `C95_position`, `C95_kinetic`, `C95_derivative_refuted`, `C95_isometry`, `C95_box`, `C95_kinetic_refuted`, `C42_brownian_roots`, `C92_answers`, `C92_moments`, `C92_empty_bin`, `C92_positive`, `C92_discretised`, `C92_plain_refuted`, `C92_bath_refuted`, `C92_construct`, `C98_position`, `C98_momentum`, `C98_whole_unique`, `C86_product_refuted`, `C73_heom`, `C73_heom2`, `C74_matsubara`, `C74_matsubara_2_refuted`, `C74_function`, `C74_accepted`, `C74_zero_temperature`, `C74_zero_temperature_negative_refuted`, `C54_absorbed`, `C63_hamiltonian`, `C63_no_modes`, `C64_always_a_field`, `C96_windows`, `C96_cutoff_refuted`.
* `ClassicalDedekindReals.sig_forall_dec`, `ClassicalDedekindReals.sig_not_dec`, `FunctionalExtensionality.functional_extensionality_dep`:
  `C93_angle`, `C93_missing`, `C72_pade_bose`, `C72_pade_bose_2`, `C72_pade_fermi`, `C72_fermi_2_refuted`, `C72_pade_drude`, `C72_pade_converges`, `C72_matsubara`, `C72_arguments`, `C42_brownian_terms_refuted`, `C42_drude`, `C42_decompositions`, `C42_brownian`, `C42_modes`, `C42_generator_drude`, `C42_generator_brownian_refuted`, `C59_first_term`, `C59_later_terms_refuted`, `C92_densities`, `C44_orthogonal`, `C44_inverse_matrices`, `C44_inverse_vectors`, `C44_kinetic`, `C44_derivative`, `C44_derivative_integral`, `C44_grid`, `C44_interpolation`, `C44_fast`, `C44_fast_wrong_length`, `C60_trotter`, `C60_phase_refuted`, `C87_state`, `C87_thermal`, `C52_fresh`, `C52_conj`, `C52_transform`, `C52_roundtrip`, `C52_norm`, `C52_spacing_refuted`, `C85_terms`, `C85_transform`, `C85_trace`, `C85_sine`, `C85_sine_refuted`, `C85_commutator_refuted`, `C94_hermite`, `C94_stationary`, `C94_ladder`, `C94_stretched`, `C94_first`, `C94_stationary_refuted`, `C94_mass_refuted`, `C82_propagation`, `C82_autocorrelation`, `C82_end_of_generators_refuted`, `C82_values`, `C82_finish`, `C82_spectrum`, `C82_spectrum_values`, `C82_const_energy`, `C82_normalizer`, `C82_kept_derivative`, `C82_kept_derivative_refuted`, `C51_rows`, `C51_root`, `C51_orthonormal_unchanged`, `C78_flagged`, `C78_course`, `C43_ladder`, `C43_hermitian`, `C43_energy`, `C43_matrix_free`, `C43_matrix_free_ladder`, `C43_matrix_free_creation_refuted`, `C43_wrong_length`, `C43_no_states_refuted`, `C45_one_dimensional`, `C86_same`, `C86_oscillators`, `C86_bath`, `C86_sum`, `C86_isolated`, `C73_wfn_transposed`, `C73_wfn`, `C73_wfn_norm`, `C73_do`, `C73_do_hermitian_refuted`, `C73_heom_lengths`, `C73_heom_indices`, `C74_residues_outcome`, `C74_drude`, `C74_brownian`, `C83_leaves`, `C83_refused`, `C83_terms`, `C83_full`, `C83_mctdh`, `C83_mctdh_refuted`, `C83_not_with_bath`, `C83_autograph`, `C83_autograph_bath`, `C83_autograph_complete`, `C83_with_aux`, `C41_tensor_tree`, `C84_fresh`, `C84_one`, `C84_timed`, `C84_many`, `C84_norm`, `C84_norm_many`, `C84_reverse`, `C84_renormalize`, `C84_range`, `C84_drift_refuted`, `C84_simpson_refuted`.
* `ClassicalDedekindReals.sig_forall_dec`, `FunctionalExtensionality.functional_extensionality_dep`:
  `C95_dvr`, `C42_pade_fractions`, `C99_h_mat`, `C99_expectation`, `C99_solve`, `C99_stale`, `C99_stale_refuted`, `C67_real_time`, `C67_imaginary_time`, `C67_hermitian_terms_real_time`, `C67_hermitian_terms_shifted`, `C67_hermitian_terms_imaginary_time`, `C67_shifted_real_time`, `C67_heom_imaginary_time`, `C67_documented_terms_refuted`, `C68_hermitian`, `C68_antihermitian_raises`, `C70_rates_determined`, `C70_real_time`, `C70_imaginary_time`, `C70_heom_imaginary_time`, `C70_shift_refuted`, `C102_ml_is_checked`, `C102_value`, `C102_antihermitian_imaginary`, `C82_linear`, `C82_derivative`, `C82_step_polynomial`, `C82_dvr_matrix`, `C82_mctdh_autocorrelation`, `C82_mctdh_autocorrelation_refuted`, `C71_sub_vectors`, `C71_all_vectors`, `C71_mean_fields`, `C71_mean_fields_refuted`, `C71_energy`, `C71_norm`, `C71_equations`, `C71_variational`, `C71_two_modes`, `C71_energy_refuted`, `C71_three_modes_refuted`, `C80_norm_grows`, `C81_stored_hamiltonian`, `C81_solve`, `C81_hamiltonian`, `C81_initial_state`, `C81_energy`, `C81_stationary`, `C81_product_state`, `C35_convert_keeps_value_in_au`, `C35_convert_back`, `C35_convert_idempotent`, `C35_arithmetic`, `C35_comparison`, `C35_comparison_with_zero`, `C35_comparison_with_number_rejected`, `C35_inverse_temperature`, `C36_accepted_names`, `C36_other_names_rejected`, `C36_wavenumber_alias_refuted`, `C36_no_dimension_check`, `C58_true_amount`, `C58_convert_keeps_amount`, `C58_meV_factor_refuted`, `C96_w_well`, `C96_square_well`, `C96_linear_corr`.
