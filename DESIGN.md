# Formal model of discrete1 in Rocq (Coq 8.16.1)

## How the model is organised

`rocq/theories/` holds, per area `X`:

* `XModel.v` - Gallina definitions only; each cites the file and lines of /repo it models and says where it simplifies.
* `XSpec.v` - small, independent vocabulary in which the properties are stated (balance equations, totals, "is a partition", ...).
  Specs do not call the model.
* `XFacts.v`, `XFacts2.v`, ... - lemmas and proofs.
* `XWitness.v` - concrete, non-trivial instances: beside each theorem an `Example` shows that its hypotheses are met.
* `XProps.v` - only property theorems (`Cnn_name`), each closed by `exact lemma` and followed by `Print Assumptions`.

| area | code modelled | properties |
|---|---|---|
| Base | loops, finite sums, arrays, results with exceptions | |
| Slab | `spatial_sweep.py` slab kernels and drivers, `tools.reflector_corrector` | C01-C15, C73-C75 |
| Sphere | `spatial_sweep.py` spherical kernels and drivers | C08-C10, C13-C20, C76 |
| Mg | `multi_group.py`, scattering kernels of `tools.py`, `fixed1d.py` | C10, C11, C21-C26, C77-C80, C107 |
| Fix | `fixed1d.py` (all output modes and geometries) | C107, C108 |
| Flt | slab kernels and drivers, multigroup loop and coarse energy index in floating point (Flocq) | C109-C113 |
| Tun | `ml/tune.py` constructor, search space and study; memmap files of `ml/data.py`; `AutoDJINN.__init__`; `save_model`, `load_model` | C114-C121 |
| En | energy estimates for the slab drivers of Slab, Mg and Time on arbitrary meshes (no new code modelled) | C122-C125 |
| Dyn | long-time behaviour of backward Euler runs: decay, accuracy, growth (no new code modelled) | C132-C134 |
| Sup | problems in which neutrons are lost on the whole: convergence of the Mg drivers in weighted norms (no new code modelled) | C129 |
| Dmd | `multi_group.dynamic_mode_decomp`, `tools.dmd`, `_svd_dmd` | C27, C28 |
| Crit | `critical1d.py`, `critical0d.py`, `multi_group_0d.py`, fission kernels, ML kernels of `tools.py` | C29-C37, C81, C126-C128, C130, C131 |
| Inf | `multi_group_0d.source_iteration` dispatch, `critical0d.py` for data of either rank | C135 |
| Ord | `timed1d.py`, `hybrid1d.py` and `vhybrid1d.py` backward_euler and bdf2 with `utils/manufactured.py`, `external1d.py`, `boundary1d.py` td tables (models of Time and Man) | C136-C139, C149-C151 |
| Hyb | `utils/hybrid.py`, hybrid kernels of `tools.py` | C42-C49, C41 |
| Main | `main.py` (quadrature, energy grids, speeds, time grids, material maps) | C50-C53, C57, C82, C89 |
| Time | `timed1d.py`, `hybrid1d.py`, `vhybrid1d.py` | C38-C41, C83-C90 |
| Hk | `critical1d.hybrid_power_iteration` | C91 |
| Cram | `cram.py` | C54-C56, C92, C93 |
| Man | `utils/manufactured.py`, manufactured sources of `external1d.py` and `boundary1d.py` | C58-C60, C94 |
| Conv | no code of its own: convergence order of the Slab/Mg models | C95, C96 |
| Src | `boundary1d.py`, `external1d.py`, `materials.py`, `constants.py` | C61-C63, C97-C99 |
| Sig | `utils/decorators.py` | C64, C65 |
| Mlf | `ml/tools.update_file_name`, `ml/data.py`, `ml/train.py` splits | C66, C67 |
| Mlt | `ml/train.py` training harness, `ml/tune.py` networks and objective | C68, C100-C103 |
| Mlm | `ml/tools.py` data preparation, normalization, metrics; `ml/predict.py`; `djinn_regression` | C69-C72, C104-C106 |

### Modelling conventions

* Floating point numbers are exact reals (`R` of the standard library). Rounding, overflow and underflow are not
  modelled. Where nan and inf decide what the code does they are explicit: the convergence measure
  `norm((flux-flux_old)/flux/cells)` is nan/inf as soon as one flux entry is zero and is modelled as `option R` (`None`
  = nan/inf, every comparison with it false, as in IEEE arithmetic); the losses of the training harness and the data of the
  normalization are sum types with NaN and both infinities.
* An n-dimensional array is a total function on indices together with its explicit dimensions. Broadcasting rules
  (`external.shape[1] == 1`) read the explicit dimensions. Mutation returns the new array; where aliasing or stale content of a
  caller's buffer matters the buffer is an argument. Indices outside the dimensions are not read by the modelled
  code paths unless a theorem says so; where a property is about an index error, the error is an explicit result.
* `for` loops are folds over ranges (`for_up`, `for_down`, `for_up_err`), `while` loops carry the iteration counter of the code, and
  the cap in the code (100, 50, ...) is the fuel. Loops without a cap have the out-of-fuel case distinct from a normal
  return and it is proved unreachable.
* Exceptions are values (`outcome A = Ok a | Raise e`) with Python's exception names.
* Division by zero: numba and numpy behave differently from `Rinv 0`; theorems about divisions state the nonzero guard or
  derive it (C76).
* External libraries (Gauss-Legendre nodes, SVD, random permutations, file system, ML models, optimisers, optuna) are
  function arguments; what a theorem assumes of them is a hypothesis in its statement. Sparse LU in CRAM and `np.linalg.solve`
  are modelled (Gaussian elimination).
* Properties are kept as a user would want them. When the code violates one, the violation is proved (`_refuted`, by a concrete
  witness or for all inputs) next to the strongest positive theorem found (`_partial` if it is weaker than the statement), and the
  manifest says `partial`. A name ending in `_refuted` is a proved theorem about the code that contradicts the property there.

### Trusted base

* Coq 8.16.1's kernel, including `vm_compute`, used for closed integer computations (the CRAM certificates in CramFacts2/CramPoly,
  digit and name tables in MlfFacts and MlmFacts2). coqchk, which has no VM, rechecks them with its own conversion.
* The axioms that `Print Assumptions` lists under the theorems, all from the standard library:
  `ClassicalDedekindReals.sig_forall_dec`, `ClassicalDedekindReals.sig_not_dec`, `FunctionalExtensionality.functional_extensionality_dep`,
  and `Classical_Prop.classic` where real analysis (derivatives, integrals, `Rpower`) is used. Theorems without real numbers (Sig, most
  of Mlf, parts of Mlt) are closed under the global context. No axiom, `Parameter`, functor, module type, `Admitted` or
  unsafe flag is added.
* The tie between /repo and the model is by reading: each definition cites its source lines. Nothing in /repo is executed.
* Facts about libraries that appear as hypotheses or comments: Python/numpy semantics of slicing, broadcasting, negative indices;
  numba typing (a compiled kernel given an array of another dimension raises TypeError); the keyword list of
  `sklearn.train_test_split` (C105); CPython delivers signals between statements (C64, C65); `torch` losses average over a batch (C100).

### Not modelled

Progress bars and printing; plotting (`utils/` has none used by the solvers); numba compilation and parallelism; float32/float64 rounding; the contents
of the packaged data files (cross sections, energy tables: parameters); TensorFlow/torch internals; optuna's samplers and
storage; the command-line examples and the test suite.

## Plan per property

(M = what is modelled, P = how it is proved, F = what the proof found about the code. Statements are in properties.jsonl, theorem names in MANIFEST.json.)

### Slab sweeps

* **C01 Slab sweep solves the diamond-difference equations** - M slab_forward_iso/backward_iso as folds. P induction over cells with an explicit edge-flux sequence.
* **C02 Slab particle conservation** - M the full ordinate loop. P sum of C01 over cells (telescoping) and angles.
* **C03 Infinite-medium solution is preserved by the slab sweep** - P constant edge flux invariant through cells, ordinates and iterations.
* **C04 Slab sweep positivity** - P induction; counterexample with one thick cell for the refuted part.
* **C05 Slab sweep is linear in its data** - P induction over cells and ordinates.
* **C06 Mirror symmetry of the two slab directions** - P induction with reversal of indices; the ordinate loop by a permutation of the quadrature.
* **C07 Reflective boundary feeds the mirrored ordinate** - M reflector_corrector and ordinate loop. P invariant: reflector[n] is the outflow of N-1-n iff already swept.
* **C08 A zero ordinate is rejected, never silently used** (partial) - M error result; P case split; known-source variant refuted by witness.
* **C09 Inner iteration terminates with a documented reason** - M while loop with counter. P induction on remaining iterations: the returned flux is an iterate and the exit test holds there.
* **C10 A converged flux is returned unchanged** - P unfold the loop once; the change is Some 0.
* **C11 Known-source scalar flux is the quadrature sum of the angular flux** (partial) - P ordinate loop invariant: both variants carry the same reflector and edges.
* **C12 Known-source centers are averages of edges** - P from C01: the kernel's centre value is the mean of its edge values.
* **C13 DJINN scatter sweep equals the physics sweep** (partial) - P kernels are extensionally equal; refuted parts by witness (shape index, boundary ignored).
* **C14 Anisotropic solver with one Legendre moment is the isotropic solver** - P loop bisimulation with moment 0 = scalar flux.
* **C15 The generic dispatcher calls the solver it documents** (partial) - M argument passing with types made explicit. P case split; slab anisotropic refuted for every call.
* **C73 Anisotropic slab sweep solves the Legendre-scattering equations** - M anisotropic kernels. P as C01 with the source of Legendre moments; exit trace as C09.
* **C74 Anisotropic scattering conserves particles** - P Legendre orthogonality of the quadrature (hypothesis) removes all moments but the zeroth from the balance; then C02.
* **C75 The within-group iteration converges geometrically to the unique solution** - P max-norm contraction with factor c/(1) per pass for thin cells, uniqueness, a-posteriori error bound; Contraction.v is generic.

### Spherical sweeps

* **C16 Known-source solves work in spherical geometry** (partial) - M rebinding of flux to a 1-D array and the 2-D index. Refuted for every call.
* **C17 Spherical sweep solves the curvilinear diamond balance** - P field per cell, induction over cells; uniqueness by nonzero divisors (C76).
* **C18 Spherical particle conservation** (partial) - P exact residual identity per cell; special case of diamond weights; refuted by a one-cell witness.
* **C19 Spherical cells tile the sphere** (partial) - P for uniform meshes; contiguous iff uniform; refuted for a two-cell mesh.
* **C20 Infinite-medium solution is preserved by the spherical sweep** - P invariant half_angle = c, edge = c, alpha recursion; driver by C10.
* **C76 Spherical sweep never divides by zero** - P sign of every divisor of the sweep from mu ordering and angular_coef.

### Multigroup solvers

* **C21 Gauss-Seidel group coupling** - M _off_scatter, _source_total. P loop invariants: groups below gg read the new flux, above it the old one.
* **C22 Multigroup fixed point satisfies the multigroup transport equations** - M one outer pass (_one_sweep_iso). P: a solution makes every within-group solve stationary (C10); conversely a pass that returns its input with contraction (C75) forces the within-group equations.
* **C23 Outer iterations terminate with a documented reason** - M the three outer loops. P induction on the remaining passes; exceptions can only come from a sweep.
* **C24 Snapshots saved by source_iteration_collect are exactly the iterates** - M the saved array. P invariant: row k is iterate k+1.
* **C25 Transfer matrix is scatter plus fission production** - M transfer_matrix. P entrywise; operator form by exchanging sums.
* **C26 Total source broadcasts its external source correctly** - M _source_total, _time_right_side and anisotropic variants. P entrywise loop invariants.
* **C77 The multigroup outer iteration converges geometrically to the unique solution** - P weighted max norm contraction of the Gauss-Seidel pass including inexact inner solves; ML variant with models that satisfy the same bound.
* **C78 Multigroup particle conservation** - P C02 summed over groups, scattering cancels by C25.
* **C79 Multigroup positivity** - P induction over passes, groups, ordinates, from C04.
* **C80 The ML solver works with its documented defaults** (partial) - M argument handling of ml_source_iteration. Refuted for all inputs.
* **C107 The output modes of the fixed-source drivers describe one solution** - M fixed1d.source_iteration, dynamic_mode_decomp, known_source_calculation on top of Mg and Dmd. P composition of C22/C23/C27 with C11; the four output modes are related through the source of the returned flux.
* **C108 Documented geometries and options of the fixed-source drivers are served** (partial) - M the dispatch on geometry, the scattering dimension and the option tests (`angular is False`). P case analysis; every unsupported combination is shown to fail, or to return zeros, for all inputs.

### DMD

* **C27 A DMD run is the plain iteration plus one extrapolation of consecutive differences** - M the snapshot loop and the final extrapolation; SVD is a parameter. P invariant on the snapshot arrays.
* **C28 DMD extrapolation is exact on linear error dynamics** (partial) - M _svd_dmd mask, reduced operator, linalg_solve by elimination. P Galerkin condition; exactness in the retained space; refutation with two modes.

### Eigenvalue and infinite-medium solvers

* **C29 k-effective update is the production ratio** - M update_keff and fission kernels. P sums; scaling laws.
* **C30 Vector and matrix fission data agree** - P entrywise equality of the two layouts for a rank-one matrix chi x nufission.
* **C31 Power iteration terminates, normalizes, and reports its last update** - M the loop with random start as a parameter. P induction on passes; normalisation of every returned flux.
* **C32 An exact eigenpair is returned unchanged** - P one pass returns its input; the exit test fires.
* **C33 collect_power_iteration saves every iterate** (partial) - M the saved array with numpy's negative index. P invariant on rows; refuted for the first row.
* **C34 ML power iteration keeps the better iterate on divergence** - M loop with the two kept iterates and a change that may be nan/inf. P case analysis of the exit.
* **C35 ML-predicted sources conserve the reaction rate** - M the rescaling of model predictions (predictions are parameters). P sum identity; zero predictions handled.
* **C36 Scatter production does not depend on the previous content of its output array** (partial) - P buffer-independence for zeroed output; refuted for stale cells by witness.
* **C37 The 0D solver solves the infinite-medium balance** - M multi_group_0d (isotropic and anisotropic). P geometric inner convergence, existence and uniqueness by diagonal dominance, outer error bound, sign.
* **C81 At an eigenpair k is production over losses** - P balance of C78 at an eigenpair; 0D analogue.
* **C91 Hybrid power iteration** - M hybrid_power_iteration on top of Time/Hyb/Crit. P induction on passes; one-grid case equals power iteration with a known-source split; two mirrors raise.

### Time-dependent and hybrid solvers

* **C38 Backward Euler step equation** - M timed1d.backward_euler. P trace of the time loop (for_up_err_trace): every step satisfies the implicit equation with the angular flux of the step before.
* **C39 BDF2 step equation and start-up** - As C38 with BDF1 start-up and BDF2 afterwards.
* **C40 Steady states are preserved by time stepping** - P the steady solution solves every implicit step (C38, C39) and is stationary for the inner iterations (C22).
* **C41 Variable hybrid BDF2 uses the timed BDF2 coefficients** - P field identity between the two source formulas.
* **C42 The computed coarse energy index partitions the fine groups** - M energy_coarse_index with numpy's fancy-index increment and linspace in exact arithmetic. P monotone cuts ending at the fine count; all failures.
* **C43 Collapse and expansion indices are consistent** - M coarse_index, index expansion. P bijection between cells of the partition and index ranges.
* **C44 Expansion factors are positive and sum to one per coarse group** - P telescoping widths; positivity from strict monotony.
* **C45 Coarsened cross sections are width-weighted means that preserve reaction rates** - M _xs_vector_coarsen, _xs_matrix_coarsen, coarsen_velocity. P weighted means; block sums by exchanging sums over the partition.
* **C46 Coarsening an external or boundary source preserves totals** (partial) - P block sums; broadcast case refuted.
* **C47 The collided source conserves scattering and fission** - M _hybrid_source_collided. P sums over the partition; zeroed first (fresh).
* **C48 Recombining the hybrid flux conserves both components** - M the recombination in the drivers and _hybrid_combine_fluxes. P factors sum to one (C44); helper refuted.
* **C49 Hybrid collapse for one variable coarse grid agrees with coarsened materials** - P entrywise equality of the collapse kernels with coarsen_materials data.
* **C83 Time-dependent runs complete exactly on well-shaped inputs** - P every exception source is excluded by the shape hypotheses; induction over steps; converse: short inputs raise.
* **C84 Backward Euler keeps fluxes nonnegative** - P positivity (C79) of every implicit step for BDF1.
* **C85 Particle balance of every time step** - P C78 of the implicit problem plus the quadrature sum of the angular flux (C11).
* **C86 Each step approximates the unique implicit solution** - P uniqueness and error bound (C77) applied to the implicit problem of each step.
* **C87 Collision splitting** - M hybrid1d drivers. P trace of steps; superposition of uncollided and collided equations; on one grid the sum solves the unsplit step.
* **C88 Variable-grid hybrid steps** - M vhybrid1d with its schedule of grids. P trace of steps for arbitrary schedules.
* **C89 Variable-grid runs coarsen with the widths of the fine groups** (partial) - P when the fine groups are the stock groups; refuted in general by the returned edges.
* **C90 Configurations the time-dependent drivers cannot run** - P for each configuration: every input raises the stated exception.

### Set-up functions

* **C50 Material map: the last region covering a cell wins, gaps and unreadable regions are rejected** - M layers, edges, string parsing with float() as parameter. P last writer wins invariant; gaps raise.
* **C51 angular_x returns a normalized quadrature in the order the solver needs** - M angular_x with leggauss as parameter. P reorder is a permutation; ordering from symmetry; odd counts contain 0.
* **C52 Group speeds are the relativistic ones** - M energy_velocity with the constants. P algebra: v < c, monotone.
* **C53 gamma_time_steps alternates edges and intermediate times** - M gamma_time_steps (sort of a concatenation). P interleaving by sortedness and uniqueness of sorted lists.
* **C57 Legendre table** - M legendre table. P induction on the order: recurrence, value at 1, parity; odd moments vanish on symmetric rules.
* **C82 energy_grid returns consistent fine and coarse cuts** (partial) - P for optimize=False from C42; tables (parameters) refuted.

### CRAM

* **C54 CRAM validates its parameters** - M argument checks in order. P case split; outcomes are complete.
* **C55 CRAM is linear and composes over substeps** - P linearity of elimination and of the pole sum; substeps by induction.
* **C56 CRAM keeps equilibria and conserved totals up to a fixed factor** - P the rational function at 0 differs from 1 by a certified constant (exact integers).
* **C92 CRAM is accurate for real decay modes** - P bound |r(x) - e^x| on the half line from |r' - r| <= delta, which is certified by Vincent's method on integer polynomials (CramPoly.v); eigenvector reduction.
* **C93 CRAM never fails on decay chains** - P triangular elimination never meets a zero pivot because the poles are not real.

### Manufactured problems and convergence order

* **C58 Manufactured solutions satisfy their transport problems** (partial) - P derivatives (Coquelicot-free, standard library) of the solutions put into the transport operator.
* **C59 Observed order of accuracy** - P logarithm algebra.
* **C60 Wynn epsilon finds the limit of sums of geometric sequences** (partial) - M wynn_epsilon's table. P the epsilon recursion on one and two geometric terms; invariances; refutations by witness.
* **C94 spatial_error is a normalised distance** - P norm properties (Cauchy-Schwarz, triangle).
* **C95 Second-order convergence in the mesh width** - P consistency of the diamond scheme by Taylor (standard library), stability by C75/C77, hence an explicit constant times h^2.
* **C96 The manufactured benchmarks converge at second order** - P instances of C95 for the manufactured problems (derivative bounds).

### Sources and materials

* **C61 Boundary sources switch off and decay** (partial) - M the decay sources with erf as an integral. P sign and monotony; refutations by witness.
* **C62 Fusion sources deposit in the group of their energy** (partial) - M argmin. P characterisation of the nearest lower edge; failures.
* **C63 Material mixing** (partial) - M the name parser and the mixing; loader is a parameter. P string lemmas; betweenness.
* **C97 Reed's source** - M reed's arrays on any mesh. P cell by cell; needs interfaces at mesh edges.
* **C98 AmBe source** (partial) - M ambe re-binning. P mass preservation for increasing bins.
* **C99 Uranium hydride composition** - M uranium hydride densities. P stoichiometric identities.

### Signals, files, machine learning

* **C64 Two-stage Ctrl+C in break_loop** (partial) - M an operational semantics of signal delivery at every atomic step, any body, nesting and schedule. P invariants over executions.
* **C65 finish_iteration defers Ctrl+C** (partial) - As C64 for finish_iteration.
* **C66 update_file_name never overwrites** (partial) - M name generation and an arbitrary finite file system. P termination by pigeonhole; letters enumerate 703 names.
* **C67 Memmap datasets: batches and splits are disjoint** (partial) - M datasets with Python slices, int() of products, permutations. P disjointness and cover; refutations.
* **C68 Training restores the best weights** (partial) - M the epoch loop over any model and optimiser, losses with NaN/inf, interruptions. P invariant: best weights are the first minimiser so far.
* **C69 Normalization maps onto [0,1] and can be undone** (partial) - M row-wise normalization with nan_to_num. P bounds, inverse; per feature refuted.
* **C70 Regression metrics** (partial) - P metric identities; Cauchy-Schwarz for MAE <= RMSE.
* **C71 Building training data only drops samples without flux** (partial) - M combine_flux_reaction row mask. P filter is order preserving and exact for non-negative data.
* **C72 Splitting by material loses no sample** (partial) - P counting argument for disjoint labels; refutations.
* **C100 Validation loss does not depend on the batch size** - M batch means weighted by batch size. P regrouping of a sum.
* **C101 Batched prediction is row-wise prediction** - P concatenation of mapped batches is the mapped whole.
* **C102 Generated subnetworks fit together** - M the layer-size lists built from trial suggestions. P adjacent sizes agree, ends fit.
* **C103 A tuning trial reports every epoch and returns the last metric** (partial) - M objective with arbitrary pruning answers. P induction on epochs.
* **C104 process_data splits 60/20/20 without loss or overlap** - M two-stage split. P counts and disjointness for any permutation.
* **C105 djinn_regression trains and saves one model per pair** (partial) - M names and the call; refuted by the keyword; name injectivity below 1000.
* **C106 Prediction wrappers are row-wise and leave their input alone** (partial) - M wrappers with transformer and model as parameters, aliasing explicit. P row-wise maps; in-place transformer refuted.

### Floating point

* **C109 Rounding cannot make a flux negative** - M the slab kernels, drivers and multigroup loop with every operation followed by a rounding function; identity rounding gives back the exact model. P simulation over runs with a sign relation; binary64 (Flocq FLT) qualifies.
* **C110 Larger data never give a smaller computed flux** - P the same simulation with the order relation; iterates from zero by induction; zero run with the relation x = 0.
* **C111 Multiplying all sources by a power of two multiplies the computed flux exactly** - P the simulation with the relation y = 2^e x, including the convergence test, so iteration counts agree.
* **C112 Rounding errors of the sweep and of the source iteration are bounded** - P forward error analysis: one cell adds 11u, n cells (1+11u)^n - 1, accumulated over ordinates; combined with the contraction of C75 for the iteration and the stopping test. Several groups: the off-group sums are rounded at most G times per term, every inner pass contracts towards the multigroup solution (C22), so any number of inner passes keeps the bound of one (FltFacts7).
* **C113 The coarse energy index survives the rounding of linspace** - M np.linspace with rounded step and floor, truncated quotient. P Flocq: floors stay distinct and in range up to 2^25 coarse groups; a concrete pair where the index differs from exact arithmetic.
* **C152 Rounding cannot make a power iteration's flux or multiplication factor negative** - M power_iteration, the fission kernels and the k update with every operation rounded; numba division by zero raises, numpy division by a zero norm is left out of the model (the model raises). P signs kept by induction over the passes with the nonnegative transport solve of C109; identity rounding gives the exact program step by step; at an eigenpair the first pass ends the run.
* **C153 How far rounding can carry the fission source and k of a power iteration pass** - P a nonnegative number after p roundings stays between (1-u)^p and (1+u)^p times itself; sums of any length by induction over the three nested loops; skipped materials have no fission entries because their rounded total is 0 only when the exact one is.

### Tuner, data files and saved models

* **C114 Memmap data sets and their metadata belong together** (partial) - M text replacement on ASCII strings, files as a map from names, deeponet_memmap as two writes that can fail. P replacement characterised by an inductive relation; frame lemmas over any history of calls; refutations for names without 'memmap', shared metadata names and a missing directory.
* **C115 Ctrl+C ends a tuning study after the current trial** (partial) - M a study with an instant clock, a handler and optuna's stop flag; SIGINT may arrive at every instant. P induction over the trials with the flag as invariant; refutations by delivery before and after the optimisation loop.
* **C116 A tuning run exports every finished trial and returns the best completed one** (partial) - M best_params as the first best completed trial. P fold invariant; a raising trial and a stored direction refute the intended claim.
* **C117 Every point of the search space can be run** (partial) - M the constructors as programs over a registry of distributions and an arbitrary sampler. P invariant: the registry holds one fixed distribution per name; layer chains by induction; clash of scheduler modes and factor 1 refute the rest.
* **C118 Tuning does not look at the test data** (partial) - M the split of both classes. P interval arithmetic on truncated products; default fractions refute.
* **C119 Unknown options are reported** (partial) - M the set difference of names. P membership and NoDup.
* **C120 The backend option selects the library that loads the models** - M lower() on ASCII and the two loaders as parameters. P case-insensitive spelling relation.
* **C121 Saved models and metrics are found again** (partial) - M save_model and load_model on a map of names. P suffix lemmas and induction over histories; the documented name refutes.

### Energy estimates

* **C122 Time stepping is unconditionally stable** - M timed_run (TimeModel) and its step equations (TimeSpec). P multiply each step equation by dx w psi and sum: streaming telescopes to a non-negative leakage, scattering is bounded by the total cross section; Cauchy-Schwarz; G-stability of BDF2; induction over steps.
* **C123 Every implicit step and every absorbing steady problem has exactly one solution** - M as C122 and the multigroup equations. P the energy inequality of the difference of two solutions gives uniqueness; Gaussian elimination (injective implies surjective) gives existence; induction over steps for histories.
* **C124 Source iteration converges on every mesh** - M slab_isotropic_sn, one_sweep_iso, source_iteration_iso. P one sweep contracts in the reaction norm; induction over inner iterations, groups and outer iterations; a posteriori bound from the stopping test.
* **C125 The error of a time-dependent run is the residual of its iterations** - M timed_run. P C122 applied to the run and the exact history.

### Existence and convergence of the eigenpair

* **C126 A fissile slab has exactly one critical state** - M power_iteration (CritModel), transport equations (MgSpec). P one generation is a matrix; streaming in both directions and scattering chains make all its rows comparable (even_generation); a bracketing contraction then yields the limit (Perron-Frobenius without external libraries); uniqueness, dominance and monotonicity by comparing ratios.
* **C127 The growth of the flux over one generation brackets k** - P Collatz-Wielandt: comparison of two positive fluxes under the monotone generation map; the shrinking factor from even_generation.
* **C128 Power iteration converges to the fundamental mode** - M power_iteration with the actual inner solver. P perturbed bracket recursion; eta from the a posteriori bound of C77/C79; induction over passes.
* **C129 Source iteration converges whenever no collision yields more neutrons than it takes** - M source_iteration (MgModel). P the group sweep contracts distances measured against a positive flux p that one flight and collision reduces (SupFacts); neutron balance over the slab shows that with yields below one no nonnegative flux feeds itself, so the flux of a unit source exists, is positive and is such a p (SupFacts3).
* **C130 A source problem with fission has a physical solution exactly below criticality** - M source_iteration with the combined transfer matrix. P k < 1: the mode plus a small multiple of the flux damped by scattering is damped by scattering and fission; conversely comparing the mode with a damped flux at the cell of largest ratio forces k < 1; source multiplication and non-existence by the same comparison of ratios (CritFacts9).
* **C131 The infinite-medium solver finds k-infinity** - M multi_group_0d.source_iteration_iso, critical0d.power_iteration (CritModel). P columns below one: the transposed iteration has no nonnegative self-feeding flux, so (1 - B) is injective, hence surjective, and the flux of a unit source is a damped p; sweeps contract distances measured against p (CritFacts10). Rank-one fission: the exact pass maps every flux to a multiple of u; the inner error is bounded by both exits of the loop and the normalised distance D obeys D' <= max(rho, c^100 D) (CritFacts11).

### Long-time behaviour

* **C132 Below criticality a backward Euler run forgets its start** - M timed1d.backward_euler (TimeModel). P the flux of a source in every cell and group is damped; with speeds bounded below it is damped by an extra factor 1/(1 + a dt) when the time term is added, for every dt (DynFacts-DynFacts2); histories are compared in the norm it defines and a perturbed recursion is summed (DynFacts3).
* **C133 Below criticality the accuracy of a whole run is set by the stopping rule** - M as C132 with source_iteration_iso. P both exits of the inner loop bound the distance to the exact step by stop_error times the size of the flux (stops_close); the angular sweep passes it on (flight_close); C132 sums the steps (DynFacts4).
* **C134 Whether a time-dependent run grows is decided by k** - M as C132, eigenpairs of C29. P a mode is a solution of the step equation with source (1 - a dt) A; comparing a history with its multiples uses monotonicity of the damped problem (DynFacts5); k decides the sign of a by comparing the mode with the eigenflux at the cell of largest ratio, and gives growth or decay without assuming a mode (DynFacts6); for the code's runs each step adds at most stop_error times the current size (DynFacts7).

### Infinite media

* **C135 An infinite medium with any fission matrix has one critical state, and critical0d finds it** - M multi_group_0d.source_iteration (dispatch, InfModel), critical0d.power_iteration for data of either rank. P the infinite medium is a one-cell slab with two opposite beams and rescaled cross sections, so the slab theorems of C126, C127 and C130 transfer (InfFacts, InfFacts2); accuracy of each solve, whichever exit, from the contraction of C131 and the bracket carried along the run (InfFacts3, InfFacts4); Legendre moments above zero integrate to zero and drop out (InfFacts5).

### Order of accuracy in time

* **C136 Backward Euler is first order and BDF2 second order in time** - M timed_run (TimeModel). P the exact flux sampled at the step ends satisfies the step equations up to a truncation error (Taylor with two or three derivatives); the difference to the run is a history with that error as source, bounded by the stability of C122; for BDF2 the single backward Euler step costs one dt^2.
* **C137 Time-dependent slabs are second order in space together with their order in time** - M as C136. P the means of the edge values of the continuous flux satisfy the discrete equations up to a defect of h^2 (as C97) and differ from the values at the centres by h^2.
* **C138 The manufactured time-dependent problems converge at the orders their tests look for** - M solution_td_0x, external_td_0x, boundary_td_02 (ManModel) and timed_run. P derivatives of the manufactured solutions computed and bounded, C137 and C139_unscattered.
* **C139 What the iterations of the steps leave in a time-dependent run is bounded by the stopping rule** - M as C136 with the multigroup iteration. P a sweep contracts the reaction norm of each step (C124); both exits give a bound on the distance to the exact step; what is left acts as a source in C136/C137.
* **C149 Hybrid runs are stable and first order accurate in time, whatever the coarse grids** - M hybrid_run (Hyb, TimeModel). P the collided flux of a step has a source term 1/dt-small inverse operator, so its scalar flux is O(dt) of the uncollided one (OrdFacts8); the distance between the recombined emission and the scattering of the new flux is then O(dt) (OrdFacts9); absorbed into the left side of the stability bound of C122/C139 for small dt (OrdFacts10).
* **C150 Hybrid BDF2 runs are second order accurate in time** (partial) - M as C149. P one step on one cell is a scalar recursion; the collided flux is bounded below through the contraction of the coarse iteration (EnFacts6); summing the BDF2 recursion of the error telescopes (OrdFacts11). With all groups kept both solves are expanded in dt (OrdFacts12, OrdFacts13): their mean responses to the first-collision source agree up to dt^2, and a discrete Gronwall argument (OrdFacts14) gives second order. Variable-grid runs start the collided iteration from the coarsened uncollided flux, which differs from the limit by a multiple of dt as the zero start does, so the same expansion applies (OrdFacts19, OrdFacts20).
* **C151 Hybrid runs that change their coarse grids from step to step are stable and first order accurate in time** - M vhybrid_run (Hyb, MainModel, TimeModel). P each step is the step of C149 with its own coarse problem (OrdFacts15); the assignment uses finitely many grids, so one dt0 and K serve all of them (OrdFacts17); the induction over the steps of C149 is done once for any run with small unresolved scattering (OrdFacts16).

### Anisotropic scattering on thick slabs

* **C140 Legendre scattering on a slab defines exactly one flux, whatever the cell thickness, and the sweeps pull towards it** - M slab_anisotropic_sn, one_sweep_aniso, source_iteration (SlabModel, MgModel). P products of Legendre polynomials are combinations of Legendre polynomials (AniFacts), so Bessel's inequality bounds the moments of an angular flux by its energy (AniFacts2); the energy inequality of the slab then makes the group sweep a contraction in the norm of all moments (AniFacts3), the square linear system is injective, hence solvable (AniFacts4), and passes and sweeps of the code are such steps (AniFacts5, AniFacts6).
* **C141 A source iteration with Legendre scattering that has stopped is close to the solution** (partial) - M as C140. P the sweep bound of C140 summed over the sweeps; refutation by a concrete slab whose first pass is computed from the cell equations and whose exact solution is a rational vector.
* **C144 Every Legendre moment of every transfer cross section enters the solution** (partial) - M as C140. P the sweep reads the off-diagonal array only through its L=0 slice (extensionality); refutation on the two-cell slab of C141, where the cell equations can be solved by hand (AniFacts7).

### Multigroup spheres

* **C142 Nonnegative data give nonnegative spherical fluxes on fine meshes** (partial) - M sphere_isotropic_sn inside source_iteration (SphereModel, MgModel). P one cell: all terms of the update are nonnegative because the angular coefficients are (C76); refutation: the cell equations of C17 divided by 4 pi dx^2 depend on the cell number only, the lit ordinate never vanishes, and the signs in cells 0 and 1 follow by algebra (ShellFacts); two ordinates: invariant that the inward ordinate stays above a fraction (decreasing with optical depth, never below a) of the starting direction, so the half-angle values and the outward ordinate stay nonnegative (ShellFacts7).
* **C143 The multigroup spherical solver solves the multigroup spherical equations** - M as C142. P the Gauss-Seidel loop of C21 with the spherical pass of C17; uniqueness from C17; the flat solution from the telescoping angular coefficients (C20).
* **C145 Anisotropic spheres: every pass solves the spherical equations with Legendre emission** - M sphere_anisotropic_sn inside source_iteration (SphereModel, MgModel). P the ordinate loop of C17 with an arbitrary emission, the traces of the two loops, the moments read back from the edge fluxes; uniqueness of edge fluxes as in C17; the flat flux has zero higher moments (ShellFacts4).
* **C146 Power iteration works on spheres** - M power_iteration over source_iteration with geometry 2 (CritModel, MgModel, SphereModel). P totality of the spherical drivers (C143, C145), the fixed-point argument of C32 with ball_kept, the cell balance of C18 summed with scattering (ShellFacts6).
* **C147 At an eigenpair of a sphere k is production over losses** (partial) - M as C146. P the equations of a sphere with a source in the central cell solved by hand for two ordinates (ShellFacts5); with fission only there the first pass already returns the eigenpair, whatever the guess (ShellFacts6).
* **C148 Source iteration on spheres converges to the only solution when every material absorbs** (partial) - M as C143. P a uniform flux plus the difference of two sweeps is a sweep (ball_shift), so keeping the sign makes a sweep Lipschitz with the sum of the weights; Banach's theorem on flattened arrays, strong induction over the groups for Gauss-Seidel (ShellFacts8). The sign for two ordinates by exact elimination (ShellFacts7), for one cell from C142_one_cell_partial and uniqueness. The three refutations are explicit rational solutions of two-cell spheres, checked equation by equation (ShellFacts10).

## Differences between the code and its documentation found on the way

Each is proved (theorem in parentheses) or follows from the cited theorem.

1. Known-source slab solve skips a zero ordinate silently (C08).
2. `known_source_angular` with a one-column source returns the scalar flux (C11).
3. `slab_scatter_sweep` picks the boundary column with the external's shape; `sphere_scatter_sweep` ignores the surface source (C13).
4. `spatial_sweep.discrete_ordinates` passes the slab anisotropic arguments in the wrong order (C15).
5. Every spherical known-source solve raises IndexError (C16); so spherical time-dependent runs never complete (C90).
6. Spherical sweep: angular redistribution does not telescope (C18), shell radii are `i * delta_x[i]`, wrong for non-uniform meshes (C19).
7. DMD drops the mode at which the energy threshold is crossed (C28); K = 0 and K = 1 raise (C27).
8. `collect_power_iteration` loses its first snapshot (C33); 0D and collecting loops make 101 passes (C31).
9. `ml_power_iteration` without models ignores `flux_old` (C34); default label None raises TypeError; materials without a model lose their scattering (C80).
10. `scatter_prod` leaves stale content for materials with zero row sum (C36).
11. The k update weights all cells equally, whatever their width (C29).
12. `coarsen_external` returns one-column arrays unscaled (C46); `_hybrid_combine_fluxes` overwrites (C48); collided iterations always restart from zeros (C87).
13. `energy_grid` coarse tables cut the stock grid (C82); `energy_grid_change` returns stock edges (C89); edges are in eV, documented MeV (C52).
14. Anisotropic time-dependent runs raise TypeError; `vhybrid`/`auto`/hybrid power fail with two reflective sides; `vhybrid` rejects lists and numpy ints (C90, C91).
15. `angular_x([1,1])` raises UnboundLocalError (C51); region strings with negative coordinates raise ValueError (C50).
16. `wynn_epsilon` is wrong on settled or over-ranked sequences (C60); manufactured sources are zero at an interface point (C58).
17. Fusion sources land one group too high or raise in the last group (C62); `time_dependence_decay_02` jumps up and overwrites (C61).
18. `materials`/`ambe` add a Path and a string (C63, C98); 'uranium-5%' is rejected (C63); `ambe` rescales the caller's grid (C98).
19. `finish_iteration` ignores the second Ctrl+C (C65); `break_loop` can lose the caller's handler, recursion kills the event (C64).
20. `update_file_name` runs out of letters, returns None for unknown labels (C66).
21. A dataset split with no training samples trains on the whole file (C67).
22. Reported test loss is the last epoch's; `load_state_dict(None)`; resumption restarts from the best weights (C68).
23. Normalization is per row (C69); R2/EVS 0 for constant targets (C70); cancelling rows dropped (C71); `_split_by_material` compares counts only (C72).
24. Tuning with zero epochs: UnboundLocalError (C103); `djinn_regression` always raises, name collisions above 999 (C105); DeepONet passes the caller's array to an in-place transformer (C106).
25. `deeponet_memmap` with a name without "memmap" overwrites the data with the metadata; metadata names can collide; a directory name containing "memmap" is replaced too (C114).
26. The tuner's SIGINT handler is never restored and raises RuntimeError outside `study.optimize` (C115); a raising trial loses the export, a stored study keeps its direction (C116).
27. Scheduler modes None and "min"/"max" cannot be mixed in one study; the default factor range includes 1 (C117). The tuner's default `train_size` is 0.8, documented 0.6 (C118); `run` ignores unknown options (C119).
28. Loss metrics are saved under another name than documented; saving an untrained model raises after writing (C121).
