{"id": "C01", "title": "Slab sweep solves the diamond-difference equations", "statement": "One directional slab sweep (left-to-right for mu>0, right-to-left for mu<0) produces, for the given inflow, edge fluxes that satisfy in every cell |mu|/dx*(psi_out-psi_in)+sigma_t*(psi_in+psi_out)/2 = sigma_s*phi_old+external+off_scatter, returns the outflow at the far boundary, and adds exactly w*(psi_in+psi_out)/2 (or w*psi on edges when edges==1) to the flux array and nothing else.", "quantifier": "every number of cells, mesh, material layout, source, inflow, nonzero angle and weight with a nonzero divisor in each cell", "why_tests_cant": "there are infinitely many meshes and materials; a test samples a few and compares a final scalar to tolerance", "anchors": ["discrete1/spatial_sweep.py:slab_forward_iso", "discrete1/spatial_sweep.py:slab_backward_iso"]}
{"id": "C02", "title": "Slab particle conservation", "statement": "After any slab sweep over all ordinates, total leakage (sum over angles of w*mu*(psi_right-psi_left)) plus collisions (sum over cells of dx*sigma_t*phi) equals the total source (sum over cells and angles of dx*w*(sigma_s*phi_old+external+off_scatter)); at a fixed point of the iteration collisions minus in-scatter is absorption and the balance is exact.", "quantifier": "every mesh, material map, quadrature without zero ordinates, boundary and external source", "why_tests_cant": "a conservation law over all inputs; tests only check final fluxes on fixed benchmark problems", "anchors": ["discrete1/spatial_sweep.py:slab_isotropic_sn", "discrete1/spatial_sweep.py:slab_forward_iso", "discrete1/spatial_sweep.py:slab_backward_iso"]}
{"id": "C03", "title": "Infinite-medium solution is preserved by the slab sweep", "statement": "If every cell satisfies sigma_t*c = sigma_s*(W*c)+external+off_scatter with W the sum of the weights and both boundaries are fed with c, the slab sweep started from the flat flux W*c returns exactly the flat flux W*c.", "quantifier": "every mesh, quadrature, weights, and every set of per-cell cross sections satisfying the infinite-medium balance", "why_tests_cant": "The claim ranges over all meshes, materials and quadratures in which a flat flux solves the problem; a test fixes one of each, and a boundary or weight error that cancels for that one mesh goes unseen.", "anchors": ["discrete1/spatial_sweep.py:slab_isotropic_sn"]}
{"id": "C04", "title": "Slab sweep positivity", "statement": "With non-negative sources, inflow, cross sections and weights, and cells no wider than 2|mu|/sigma_t, every edge flux and scalar flux of the slab sweep is non-negative; without the mesh restriction a negative flux is possible.", "quantifier": "all meshes and cross sections satisfying the optical-thickness restriction", "why_tests_cant": "Positivity must hold on every mesh up to and including the threshold thickness 2|mu|/sigma, in every cell of arbitrarily long sweeps; a test samples a few meshes away from the threshold, where the result is positive anyway.", "anchors": ["discrete1/spatial_sweep.py:slab_forward_iso", "discrete1/spatial_sweep.py:slab_backward_iso"]}
{"id": "C05", "title": "Slab sweep is linear in its data", "statement": "For a fixed mesh, total cross section and angle, the sweep is linear: the result for a*data1+b*data2 (flux_old, external, off_scatter, inflow) is a*result1+b*result2.", "quantifier": "all scalars, data sets, meshes and directions", "why_tests_cant": "Linearity is a relation between three runs for every pair of inputs and every pair of coefficients; sampling a few pairs cannot exclude a data-dependent branch (the code has several skip tests on zero data).", "anchors": ["discrete1/spatial_sweep.py:slab_forward_iso", "discrete1/spatial_sweep.py:slab_backward_iso"]}
{"id": "C06", "title": "Mirror symmetry of the two slab directions", "statement": "Sweeping right-to-left with ordinate -mu is the exact mirror image of sweeping left-to-right with mu on the mirrored slab (materials, widths, sources reversed).", "quantifier": "all slabs and ordinates", "why_tests_cant": "A symmetry between two separately written kernels for every mesh and every data set; tests on symmetric problems cannot distinguish them.", "anchors": ["discrete1/spatial_sweep.py:slab_forward_iso", "discrete1/spatial_sweep.py:slab_backward_iso"]}
{"id": "C07", "title": "Reflective boundary feeds the mirrored ordinate", "statement": "In a slab sweep, with a symmetric quadrature whose ordinates are ordered so that those flowing toward the reflective side come first (as angular_x orders them), the inflow of every ordinate entering at a reflective boundary equals the boundary source plus the outflow of the mirrored ordinate in the same sweep, and at a vacuum boundary the boundary source only.", "quantifier": "all angle counts, symmetric quadratures in angular_x order, slabs and boundary flags", "why_tests_cant": "Which ordinate is mirrored depends on the order of the whole quadrature; a wrong pairing gives plausible fluxes and is visible only by comparing every ordinate, for every even count and each boundary flag.", "anchors": ["discrete1/spatial_sweep.py:slab_isotropic_sn", "discrete1/tools.py:reflector_corrector", "discrete1/main.py:angular_x"]}
{"id": "C08", "title": "A zero ordinate is rejected, never silently used", "statement": "Solving with an ordinate exactly 0 raises an error instead of producing a result built from stale edge values.", "quantifier": "every quadrature containing a zero at any position, every solver entry", "why_tests_cant": "Whether a zero ordinate slips through depends on the quadrature and on which of the drivers is called; the silent case returns plausible numbers left over from the caller's array, which a test compares with nothing.", "anchors": ["discrete1/spatial_sweep.py:slab_isotropic_sn", "discrete1/spatial_sweep.py:slab_known_source_sn", "discrete1/spatial_sweep.py:sphere_known_source_sn"]}
{"id": "C09", "title": "Inner iteration terminates with a documented reason", "statement": "The within-group slab/sphere iteration performs between 1 and 100 sweeps; the flux returned is the result of the last sweep applied to the previous one, and either the relative change is below 1e-12 or exactly 100 sweeps were done; a zero (or nan) entry in the flux prevents early exit.", "quantifier": "every problem, every initial guess", "why_tests_cant": "The number of passes depends on the spectral radius of arbitrary data; termination and the reason for the exit must hold for non-convergent problems too, which tests avoid.", "anchors": ["discrete1/spatial_sweep.py:slab_isotropic_sn", "discrete1/spatial_sweep.py:sphere_isotropic_sn", "discrete1/spatial_sweep.py:slab_anisotropic_sn", "discrete1/spatial_sweep.py:sphere_anisotropic_sn"]}
{"id": "C10", "title": "A converged flux is returned unchanged", "statement": "If the starting flux is a fixed point of the sweep and has no zero entry, the within-group solve returns it after one sweep, and the multigroup solve returns it after one outer iteration.", "quantifier": "all problems and fixed points", "why_tests_cant": "Stationarity must hold for every solution of every problem; a test only sees the solution of its own problem and only to within its tolerance.", "anchors": ["discrete1/spatial_sweep.py:slab_isotropic_sn", "discrete1/multi_group.py:source_iteration_iso"]}
{"id": "C11", "title": "Known-source scalar flux is the quadrature sum of the angular flux", "statement": "For a prescribed source the scalar flux equals sum over ordinates of weight times the angular flux of the same call, at centers and at edges, for every cell and group. known_source_angular returns the angular flux for a source with one angular column too.", "quantifier": "all slab problems, edges in {0,1}, isotropic or angle-dependent source and boundary arrays", "why_tests_cant": "Relates the outputs of two separately written code paths for every source shape, quadrature and mesh; broadcasting shapes that tests do not use behave differently.", "anchors": ["discrete1/multi_group.py:known_source_scalar", "discrete1/multi_group.py:known_source_angular", "discrete1/spatial_sweep.py:slab_known_source_sn"]}
{"id": "C12", "title": "Known-source centers are averages of edges", "statement": "The cell-center angular flux of known_source_angular(edges=0) is the mean of the two adjacent edge values of known_source_angular(edges=1).", "quantifier": "all slab problems", "why_tests_cant": "An identity between two output modes for all meshes and sources.", "anchors": ["discrete1/multi_group.py:known_source_angular", "discrete1/spatial_sweep.py:slab_forward_iso", "discrete1/spatial_sweep.py:slab_backward_iso"]}
{"id": "C13", "title": "DJINN scatter sweep equals the physics sweep", "statement": "scatter_source_sn given scatter source sigma_s*phi+off_scatter returns the same flux as one sweep of the isotropic solver started from phi (slab and sphere).", "quantifier": "all problems and all shapes of external/boundary arrays that are accepted", "why_tests_cant": "Equality of two copies of a kernel for every source and boundary shape; the copies differ exactly in shapes that the tests do not pass.", "anchors": ["discrete1/spatial_sweep.py:slab_scatter_source_sn", "discrete1/spatial_sweep.py:sphere_scatter_source_sn", "discrete1/spatial_sweep.py:sphere_backward_scatter"]}
{"id": "C14", "title": "Anisotropic solver with one Legendre moment is the isotropic solver", "statement": "With L=0 (one moment, P_0=1) the anisotropic slab and sphere solvers return the same flux as the isotropic ones for every input and iteration.", "quantifier": "all problems, all iterates", "why_tests_cant": "A bisimulation of two iterations for every data set and iteration count, including the exit decisions.", "anchors": ["discrete1/spatial_sweep.py:slab_anisotropic_sn", "discrete1/spatial_sweep.py:sphere_anisotropic_sn"]}
{"id": "C15", "title": "The generic dispatcher calls the solver it documents", "statement": "discrete_ordinates returns what the geometry- and anisotropy-specific solver returns on the same arguments.", "quantifier": "all four geometry/anisotropy combinations", "why_tests_cant": "An argument-order error is visible only for the dispatch branch that is exercised; the property ranges over all branches and all inputs of each.", "anchors": ["discrete1/spatial_sweep.py:discrete_ordinates"]}
{"id": "C16", "title": "Known-source solves work in spherical geometry", "statement": "known_source_sn with geometry=2 returns a flux of the shape it was given.", "quantifier": "all spherical problems with at least one nonzero ordinate", "why_tests_cant": "The claim is that no input makes the call succeed or fail wrongly; a test shows one call only.", "anchors": ["discrete1/spatial_sweep.py:sphere_known_source_sn"]}
{"id": "C17", "title": "Spherical sweep solves the curvilinear diamond balance", "statement": "Each spherical sweep cell satisfies mu*(A2*psi2-A1*psi1)+(A2-A1)/w*(alpha_plus*psi_plus-alpha_minus*psi_minus)+sigma_t*V*psi = V*q with diamond closures, for outward and inward ordinates.", "quantifier": "all cells, angles, materials, with nonzero divisor", "why_tests_cant": "A system of equations that must hold in every cell and ordinate, for all radii, cross sections, quadratures and sources; tests compare a few printed numbers.", "anchors": ["discrete1/spatial_sweep.py:sphere_forward_iso", "discrete1/spatial_sweep.py:sphere_backward_iso"]}
{"id": "C18", "title": "Spherical particle conservation", "statement": "Summed over ordinates the angular redistribution terms of the spherical sweep cancel, so leakage plus collisions equals source.", "quantifier": "all meshes and quadratures", "why_tests_cant": "Conservation must hold cell by cell for every mesh, quadrature and source; a test of one problem cannot tell a small loss from discretisation error.", "anchors": ["discrete1/spatial_sweep.py:sphere_isotropic_sn", "discrete1/spatial_sweep.py:sphere_forward_iso", "discrete1/spatial_sweep.py:sphere_backward_iso"]}
{"id": "C19", "title": "Spherical cells tile the sphere", "statement": "The cells used by the spherical sweep are contiguous shells: outer radius of one is the inner radius of the next and volumes add up to the ball of radius sum(dx).", "quantifier": "all meshes including non-uniform ones", "why_tests_cant": "A geometric identity over all meshes, uniform or not; the test meshes are uniform, where it holds.", "anchors": ["discrete1/spatial_sweep.py:sphere_forward_iso"]}
{"id": "C20", "title": "Infinite-medium solution is preserved by the spherical sweep", "statement": "If sigma_t*c = sigma_s*(W*c)+external+off_scatter in each cell and the outer boundary is fed with c, the spherical sweep returns the flat flux W*c whenever sum(mu*w)=0.", "quantifier": "all meshes, quadratures with zero first moment", "why_tests_cant": "Preservation of the flat solution over all meshes, quadratures and cross sections and all iteration counts.", "anchors": ["discrete1/spatial_sweep.py:sphere_isotropic_sn", "discrete1/spatial_sweep.py:angle_coef_corrector", "discrete1/spatial_sweep.py:_half_angle_iso"]}
{"id": "C21", "title": "Gauss-Seidel group coupling", "statement": "The off-group scatter source of group g is the sum over other groups of sigma_s[g<-g']*phi(g'), using already updated flux for lower g' and previous flux for higher g'; the within-group term is never counted; at a fixed point off-group plus within-group is the full scatter source.", "quantifier": "all group counts, materials, fluxes", "why_tests_cant": "Which groups have already been updated matters for every group count and transfer matrix; a two-group test cannot settle the general coupling.", "anchors": ["discrete1/tools.py:_off_scatter", "discrete1/multi_group.py:_one_sweep_iso"]}
{"id": "C22", "title": "Multigroup fixed point satisfies the multigroup transport equations", "statement": "If one outer iteration returns its input (every within-group solve included) then every group satisfies the slab diamond-difference equations with the full scattering source over all groups; conversely a solution of those equations is returned unchanged by an outer iteration.", "quantifier": "all group counts, meshes and data; for the first direction problems with thin cells and in-scatter ratio below one (with a cycling within-group iteration an outer iteration can return its input without solving the equations)", "why_tests_cant": "An equivalence between a fixed point of a nested iteration and a coupled system of equations, for all group counts, meshes and data; tests observe approximate convergence of single problems.", "anchors": ["discrete1/multi_group.py:source_iteration_iso", "discrete1/multi_group.py:_one_sweep_iso"]}
{"id": "C23", "title": "Outer iterations terminate with a documented reason", "statement": "Each outer source iteration loop runs between 1 and its cap (100; 50 for the ML variant) and returns the last iterate; early exit only when the relative change is below 1e-8.", "quantifier": "all problems and models", "why_tests_cant": "The exit reason must be one of the documented ones for every input and every behaviour of the inner iteration, including nan changes and the iteration cap.", "anchors": ["discrete1/multi_group.py:source_iteration_iso", "discrete1/multi_group.py:source_iteration_aniso", "discrete1/multi_group.py:ml_source_iteration", "discrete1/multi_group.py:_variable_source_iteration_iso"]}
{"id": "C24", "title": "Snapshots saved by source_iteration_collect are exactly the iterates", "statement": "The saved array has one row per outer iteration performed, in order, row k equal to the k-th iterate; the last row is the returned flux; the return value equals source_iteration_iso.", "quantifier": "all iteration histories", "why_tests_cant": "Relates the saved file to the whole history of iterates for every number of iterations; off-by-one errors show only at particular counts.", "anchors": ["discrete1/multi_group.py:source_iteration_collect"]}
{"id": "C25", "title": "Transfer matrix is scatter plus fission production", "statement": "transfer_matrix returns scatter[og,ig]+chi[og]*nusigf[ig] (vector data) or scatter+fission matrix in the L=0 moment; higher Legendre moments and the inputs are unchanged; the returned operator applied to any flux equals scatter source plus fission source.", "quantifier": "all materials, groups, moments, fluxes", "why_tests_cant": "An identity over all materials, groups and both layouts of the fission data, including zero rows that the code skips.", "anchors": ["discrete1/tools.py:transfer_matrix", "discrete1/tools.py:_transfer_matrix"]}
{"id": "C26", "title": "Total source broadcasts its external source correctly", "statement": "_source_total yields for every (cell, angle, group) the scatter source plus the external source read at the angle (group) index, or index 0 if that axis has length 1.", "quantifier": "all shapes n_angles/1 x n_groups/1", "why_tests_cant": "Broadcasting has four shapes per array and must be right for all sizes, including sizes equal to one, where two shapes coincide.", "anchors": ["discrete1/tools.py:_source_total", "discrete1/tools.py:_source_total_aniso"]}
{"id": "C27", "title": "A DMD run is the plain iteration plus one extrapolation of consecutive differences", "statement": "dynamic_mode_decomp runs the ordinary outer sweeps from the given flux; the first iterate whose relative change is below 1e-8 is returned as it is (in the warm-up or while snapshots are taken); otherwise after exactly R + K sweeps the last iterate is extrapolated from two matrices whose columns k are the consecutive iterate differences R+k and R+k+1. With K >= 2 a slab run ends with a flux or a LinAlgError; K = 0 raises ValueError and K = 1 IndexError unless a sweep converged first; an exact nonzero solution is returned unchanged.", "quantifier": "all slab/sphere problems, isotropic or anisotropic, all R, K, starting fluxes and SVD results", "why_tests_cant": "Holds for every history of iterates and every R and K; the buffers are exchanged in place, so an off-by-one shows only for some parities.", "anchors": ["discrete1/multi_group.py:_dmd_warmup", "discrete1/multi_group.py:_dmd_collect", "discrete1/multi_group.py:dynamic_mode_decomp", "discrete1/tools.py:dmd"]}
{"id": "C28", "title": "DMD extrapolation is exact on linear error dynamics", "statement": "If the iterates obey x -> A x + b and the remaining error lies in the span of the collected differences, tools.dmd returns the fixed point. In general the result is the Galerkin solution on the retained modes: it differs from the last but one iterate by a combination of retained modes and its residual is orthogonal to them; a LinAlgError means that I - A is singular on them.", "quantifier": "all matrices A, vectors b, numbers of snapshots, and all singular value decompositions of the difference matrix", "why_tests_cant": "An identity over all linear maps; the retained rank depends on a threshold that a test with one matrix does not explore.", "anchors": ["discrete1/tools.py:dmd", "discrete1/tools.py:_svd_dmd"]}
{"id": "C29", "title": "k-effective update is the production ratio", "statement": "With nonnegative fission data the fission source is (production into the group)/keff in every cell, whatever the source array held, and the updated keff equals the old keff times (production of the new flux)/(production of the old flux): scaling the new flux by c scales keff by c, scaling both changes nothing, and scaling all fission data (with the source scaled by keff) changes neither.", "quantifier": "all fluxes, materials, group counts and keff, 1D and 0D, matrix and vector data", "why_tests_cant": "An identity over all fluxes and data, including materials that the kernel skips; tests check single tables.", "anchors": ["discrete1/tools.py:_update_keff_mat", "discrete1/tools.py:_update_keff_vec", "discrete1/tools.py:fission_mat_prod", "discrete1/tools.py:fission_vec_prod", "discrete1/tools.py:_update_keff_mat_0d"]}
{"id": "C30", "title": "Vector and matrix fission data agree", "statement": "Passing chi and nusigf gives the same fission source and the same keff update as passing the matrix chi*nusigf, in 1D and 0D.", "quantifier": "all nonnegative data, fluxes, keff and previous array contents", "why_tests_cant": "The two kernels skip materials by different tests (sum of chi, sum of the matrix); agreement must hold for every data set.", "anchors": ["discrete1/tools.py:fission_vec_prod", "discrete1/tools.py:fission_mat_prod", "discrete1/critical1d.py:power_iteration"]}
{"id": "C31", "title": "Power iteration terminates, normalizes, and reports its last update", "statement": "power_iteration makes at most 100 passes in 1D and 101 in 0D, never fails on a slab with nonzero ordinates, stops before the cap only when the relative flux change is below 1e-6, and every pass solves transport with source production/keff, updates keff by the production ratio and returns a flux of unit norm (unless the flux is identically zero).", "quantifier": "all problems and random starting fluxes", "why_tests_cant": "Must hold for every iteration history, including non-convergent ones.", "anchors": ["discrete1/critical1d.py:power_iteration", "discrete1/critical0d.py:power_iteration"]}
{"id": "C32", "title": "An exact eigenpair is returned unchanged", "statement": "Started from (a positive multiple k of) a normalized nonvanishing eigenflux of the discrete problem with eigenvalue k, power iteration stops after its first pass and returns that flux and k, in 1D and 0D.", "quantifier": "all slab and infinite-medium problems with such an eigenpair", "why_tests_cant": "Needs exact arithmetic and an exact eigenpair; tests only see converged approximations.", "anchors": ["discrete1/critical1d.py:power_iteration", "discrete1/critical0d.py:power_iteration"]}
{"id": "C33", "title": "collect_power_iteration saves every iterate", "statement": "The array saved by collect_power_iteration contains the flux of every power iteration once, in order.", "quantifier": "all problems and histories", "why_tests_cant": "The number and order of saved iterates depend on how many passes the run makes (1 to 101), which depends on all the data; a test looks at one history.", "anchors": ["discrete1/critical1d.py:collect_power_iteration"]}
{"id": "C34", "title": "ML power iteration keeps the better iterate on divergence", "statement": "ml_power_iteration makes at most 50 passes; from pass 20 on, if the change grows, it returns the flux and keff of the pass before, otherwise the last; with no models it returns the physics power iteration.", "quantifier": "all models, histories of changes (including inf/nan) and problems", "why_tests_cant": "A model is an arbitrary function; every history of changes must be covered.", "anchors": ["discrete1/critical1d.py:ml_power_iteration"]}
{"id": "C35", "title": "ML-predicted sources conserve the reaction rate", "statement": "The fission (scatter) source predicted by a model is rescaled so its group sum equals the true reaction rate computed from column sums, for any model output with nonzero sum.", "quantifier": "all model outputs and fluxes", "why_tests_cant": "A conservation identity that must hold for every model prediction, however wrong: a test fixes the model.", "anchors": ["discrete1/tools.py:fission_prod_predict", "discrete1/tools.py:scatter_prod_predict", "discrete1/ml/tools.py:update_cross_sections"]}
{"id": "C36", "title": "Scatter production does not depend on the previous content of its output array", "statement": "scatter_prod fills the source with sum over groups of sigma_s*phi for every cell irrespective of the array's previous content.", "quantifier": "all previous contents, materials incl. non-scattering ones", "why_tests_cant": "Depends on the previous content of a caller's buffer, that is on the history of calls.", "anchors": ["discrete1/tools.py:scatter_prod"]}
{"id": "C37", "title": "The 0D solver solves the infinite-medium balance", "statement": "In an infinite medium whose total in-scatter ratio is below one, the group balances sigma_t*phi = W*(in-scatter + external) have exactly one solution; it is exactly what a fixed point of the 0D group sweep is; every sweep shrinks the distance to it, the inner passes being a geometric sequence; at most 100 inner and outer passes are made, nonnegative data give nonnegative fluxes, and with an isotropic source the higher Legendre moments have no effect.", "quantifier": "all cross sections, sources, quadratures and starting fluxes", "why_tests_cant": "Existence, uniqueness and worst-case error over all starting fluxes.", "anchors": ["discrete1/multi_group_0d.py:source_iteration_iso", "discrete1/multi_group_0d.py:discrete_ordinates_iso", "discrete1/multi_group_0d.py:discrete_ordinates_aniso", "discrete1/tools.py:_off_scatter_0d"]}
{"id": "C38", "title": "Backward Euler step equation", "statement": "For every completed backward_euler run on a slab with isotropic data there is an angular-flux history that starts at flux_last and in which every step satisfies (psi_new - psi_old)/(v dt) + mu dpsi/dx + sigma_t psi_new = (scattering and fission of the returned scalar flux of that step) + external source of that step, in diamond difference, with the prescribed boundary source of that step plus the reflected outflow. Inputs with one row along time are used at every step, otherwise row k is used at step k.", "quantifier": "all steps, initial fluxes, cross sections, speeds, time steps, sources and boundary conditions", "why_tests_cant": "A test compares a few final numbers; the claim is an equation for every cell, ordinate and group of every step of every history.", "anchors": ["discrete1/timed1d.py:backward_euler", "discrete1/tools.py:_time_right_side"]}
{"id": "C39", "title": "BDF2 step equation and start-up", "statement": "For every completed bdf2 run the first step satisfies the backward Euler equation and every later step the equation with time derivative (3 psi_new - 4 psi_old + psi_older)/(2 dt), with psi_old and psi_older the angular fluxes of the two preceding steps.", "quantifier": "all steps, initial fluxes and data", "why_tests_cant": "The two-level history is shuffled in place; that the right levels are used must hold at every step of every run.", "anchors": ["discrete1/timed1d.py:bdf2", "discrete1/tools.py:_time_right_side"]}
{"id": "C40", "title": "Steady states are preserved by time stepping", "statement": "If the initial angular flux satisfies the steady transport equation for time-independent sources and boundary data, backward_euler and bdf2 return its scalar flux at every step, for any dt, speeds and number of steps.", "quantifier": "all dt, speeds, numbers of steps and steady states", "why_tests_cant": "Holds for every step count and step size at once; a test of a few steps cannot separate drift from iteration tolerance.", "anchors": ["discrete1/timed1d.py:backward_euler", "discrete1/timed1d.py:bdf2"]}
{"id": "C41", "title": "Variable hybrid BDF2 uses the timed BDF2 coefficients", "statement": "The previous-flux source of vhybrid1d.bdf2 equals that of timed1d.bdf2 for every pair of previous fluxes and every step, and so does the numerator of the added collision term.", "quantifier": "all fluxes, dt, speeds and steps", "why_tests_cant": "It is an algebraic identity between two differently written formulas in two code paths, for every dt, speed, step and flux; sampled numbers agree only up to round-off and hide index errors of one step.", "anchors": ["discrete1/vhybrid1d.py:bdf2", "discrete1/timed1d.py:bdf2"]}
{"id": "C42", "title": "The computed coarse energy index partitions the fine groups", "statement": "energy_coarse_index(fine, coarse) returns, for every 1 <= coarse <= fine, a cut of the fine groups into coarse nonempty consecutive blocks covering all of them, with block sizes fine//coarse or one more; it raises only ZeroDivisionError and only for coarse = 0, and for coarse > fine it returns something that is not a partition.", "quantifier": "all pairs of group counts", "why_tests_cant": "The extra groups are placed by truncated linspace indices; that these are distinct for every remainder is a number-theoretic fact about all pairs.", "anchors": ["discrete1/utils/hybrid.py:energy_coarse_index"]}
{"id": "C43", "title": "Collapse and expansion indices are consistent", "statement": "For every partition, collided_index maps each fine group to the one coarse group whose block contains it, uncollided_index returns the block boundaries, and indexing returns both together with the width fractions.", "quantifier": "all partitions and energy edges", "why_tests_cant": "Index tables must be mutually consistent for every pair of group counts; off-by-one errors appear only for particular divisions.", "anchors": ["discrete1/utils/hybrid.py:collided_index", "discrete1/utils/hybrid.py:uncollided_index", "discrete1/utils/hybrid.py:indexing"]}
{"id": "C44", "title": "Expansion factors are positive and sum to one per coarse group", "statement": "hybrid_factor returns fine width / coarse width; for strictly monotone edges (either direction) the factors of every coarse group are positive and sum to exactly 1.", "quantifier": "all partitions and strictly monotone edges", "why_tests_cant": "It ranges over all partitions and all strictly monotone energy edges, increasing or decreasing; a sign error cancels in the ratio on one of the two orders only.", "anchors": ["discrete1/utils/hybrid.py:hybrid_factor"]}
{"id": "C45", "title": "Coarsened cross sections are width-weighted means that preserve reaction rates", "statement": "A coarsened vector is the width-weighted mean of the fine data: bounds and constants are preserved, one fine group per coarse group changes nothing, matrix coarsening preserves the width-weighted transfer of every block and the total out-scatter per group, and for any coarse flux spread over the fine groups by width the fine reaction rates summed per coarse group equal the coarse reaction rates. coarsen_velocity is the plain mean with the same bounds.", "quantifier": "all partitions, strictly monotone edges, data and coarse fluxes", "why_tests_cant": "Identities and bounds over all partitions, edges, fluxes and cross sections; one averaging test passes for many wrong weights.", "anchors": ["discrete1/utils/hybrid.py:_xs_vector_coarsen", "discrete1/utils/hybrid.py:_xs_matrix_coarsen", "discrete1/utils/hybrid.py:coarsen_materials", "discrete1/utils/hybrid.py:coarsen_velocity"]}
{"id": "C46", "title": "Coarsening an external or boundary source preserves totals", "statement": "The coarse source of a group is the sum of the fine sources in it (with weight=True the width-weighted mean), so the source summed over energy is preserved, also when the source is given as one column that broadcasts over the groups.", "quantifier": "all partitions, sources and edges, including one-column arrays", "why_tests_cant": "Totals must be preserved for all grids and partitions; the failing case (an array with a single column used for all groups) is never exercised by the tests.", "anchors": ["discrete1/utils/hybrid.py:coarsen_external"]}
{"id": "C47", "title": "The collided source conserves scattering and fission", "statement": "The coarse collided source of a cell is, per coarse group, the scattering of the uncollided flux into its fine groups, so its sum over coarse groups equals the total scattering; the previous content of the source array has no effect; the anisotropic kernel does the same with the order-0 data and the fission kernel with production divided by keff.", "quantifier": "all fluxes, materials, partitions and array contents", "why_tests_cant": "The conservation law ranges over all fluxes and partitions, and stale contents of the output arrays matter only in a later call with the same buffers.", "anchors": ["discrete1/tools.py:_hybrid_source_collided", "discrete1/tools.py:_hybrid_source_collided_aniso", "discrete1/tools.py:_hybrid_fission_source"]}
{"id": "C48", "title": "Recombining the hybrid flux conserves both components", "statement": "The combined flux of the hybrid step is the uncollided flux plus the collided coarse flux spread by width, so summed within a coarse group it equals the uncollided sum plus the coarse flux; the total source is the right-hand side plus the scattering of that combined flux, in the anisotropic kernel too.", "quantifier": "all partitions, fluxes, edges and right-hand sides", "why_tests_cant": "The kernel overwrites its inputs in place; conservation must hold for all of them.", "anchors": ["discrete1/tools.py:_hybrid_source_total", "discrete1/tools.py:_hybrid_source_total_aniso", "discrete1/tools.py:_hybrid_combine_fluxes"]}
{"id": "C49", "title": "Hybrid collapse for one variable coarse grid agrees with coarsened materials", "statement": "variable_source_iteration on fine data collapsed on the fly uses the same coarse cross sections and off-scatter as source_iteration on data coarsened in advance.", "quantifier": "all partitions and data", "why_tests_cant": "Two separately written kernels (collapse on the fly and coarsen beforehand) must agree for every grid, material and flux.", "anchors": ["discrete1/multi_group.py:_variable_source_iteration_iso", "discrete1/tools.py:_variable_off_scatter"]}
{"id": "C50", "title": "Material map: the last region covering a cell wins, gaps and unreadable regions are rejected", "statement": "spatial1d reads the comma-separated \"start - stop\" regions of the layers in order and gives every cell the material of the last region covering it, a region covering the cells between the edges nearest to its ends (exactly the cells inside it when the ends are edges); with check it raises AssertionError exactly when a cell is left without material, and a region that does not consist of two numbers separated by exactly one dash (for example one with a negative coordinate) raises ValueError.", "quantifier": "all layer lists, region texts and meshes", "why_tests_cant": "Ranges over all region lists and all ways to write them (overlaps, gaps, strings); tests list a handful of layouts.", "anchors": ["discrete1/main.py:spatial1d"]}
{"id": "C51", "title": "angular_x returns a normalized quadrature in the order the solver needs", "statement": "The weights sum to 1 and the pairs are a reordering of the Gauss-Legendre pairs, ascending for bc [1,0], descending for [0,1]; any other nonzero bc raises UnboundLocalError; for an even number of angles the result is symmetric, has no zero ordinate, and lists the ordinates leaving a reflective side before their mirror images; an odd number always contains the ordinate 0.", "quantifier": "all angle counts and boundary settings", "why_tests_cant": "Normalisation and order are claimed for every even or odd count and each boundary setting, for every symmetric rule; a test inspects the order for a few counts.", "anchors": ["discrete1/main.py:angular_x"]}
{"id": "C52", "title": "Group speeds are the relativistic ones", "statement": "energy_velocity returns for every group the speed (in cm/s) at which a neutron has the kinetic energy of the group midpoint (edges in eV); it lies strictly between 0 and the speed of light and increases strictly with the midpoint energy; without edges all speeds are 1. Numerically: up to 20 MeV the speed lies between 1354000*sqrt(E) and 1383200*sqrt(E) cm/s, E in eV.", "quantifier": "all energy edges with positive midpoints", "why_tests_cant": "A bound and a monotonicity over all energies, including relativistic ones.", "anchors": ["discrete1/main.py:energy_velocity"]}
{"id": "C53", "title": "gamma_time_steps alternates edges and intermediate times", "statement": "For nondecreasing edges (at least two) and 0 <= gamma <= 1 the result has 2n+1 entries in nondecreasing order: even entries are the original edges, odd entries the points at fraction gamma between neighbours, the first one the midpoint if half_step; fewer than two edges with half_step raise IndexError.", "quantifier": "all time grids and gamma", "why_tests_cant": "The interleaving comes from sorting a concatenation, so it depends on all lengths, on gamma and on ties between intermediate and full time points.", "anchors": ["discrete1/main.py:gamma_time_steps"]}
{"id": "C54", "title": "CRAM validates its parameters", "statement": "cram_expm raises ValueError for every order other than 16 and 48, every substeps < 1, every non-square matrix, and never returns for an initial vector of another length. Otherwise it returns a vector or raises RuntimeError, the latter exactly when one of the complex poles is an eigenvalue of matrix * dt / substeps.", "quantifier": "all integers order and substeps, all matrices and vectors of any size", "why_tests_cant": "Ranges over all orders, substep counts, matrices and sizes; whether a shifted matrix is singular depends on the whole matrix.", "anchors": ["discrete1/cram.py:cram_expm"]}
{"id": "C55", "title": "CRAM is linear and composes over substeps", "statement": "The result is linear in the initial vector; n substeps give the same outcome as n consecutive calls with dt/n and one substep; each substep is the documented incomplete-partial-fraction recurrence applied to the running vector.", "quantifier": "all matrices, vectors, linear combinations, dt and n", "why_tests_cant": "Linearity and composition are identities over all matrices, vectors, linear combinations, step sizes and substep counts, not observations of one run.", "anchors": ["discrete1/cram.py:cram_expm"]}
{"id": "C56", "title": "CRAM keeps equilibria and conserved totals up to a fixed factor", "statement": "For each order and substep count there is one factor f with |f-1| <= 5e-16 such that every vector annihilated by the matrix is multiplied by f^substeps, and every linear functional annihilated by the matrix (for example the total number of atoms when columns sum to zero) is multiplied by f^substeps.", "quantifier": "all matrices, vectors, functionals, dt and substeps", "why_tests_cant": "Ranges over all matrices and vectors; the bound on f rests on all 8 (24) pairs of coefficients at once.", "anchors": ["discrete1/cram.py:cram_expm", "discrete1/cram.py:_THETA16", "discrete1/cram.py:_THETA48"]}
{"id": "C57", "title": "Legendre table", "statement": "legendre_polynomials rows satisfy P0 = 1, P1 = x and the Bonnet recurrence, P_l(1) = 1, P_l(-x) = (-1)^l P_l(x), and on a symmetric quadrature the odd rows sum to zero against the weights; zero moments raise IndexError.", "quantifier": "all orders and abscissae", "why_tests_cant": "An identity and a parity for every order and every quadrature; tests compare a few tabulated values.", "anchors": ["discrete1/tools.py:legendre_polynomials"]}
{"id": "C58", "title": "Manufactured solutions satisfy their transport problems", "statement": "Each analytic solution of utils.manufactured, tabulated on any coordinates and ordinates, satisfies the transport equation (with the scattering integral over all directions and the time derivative where there is one) for the library's matching manufactured source, cross sections and scattering ratio, at every point and direction, and takes the library's manufactured boundary values at the ends.", "quantifier": "all coordinates x, directions mu and times t (all real numbers); all grids and ordinate sets", "why_tests_cant": "An identity between derivatives, integrals and closed forms over a continuum of points; tests only compare numerical solutions at a few meshes.", "anchors": ["discrete1/utils/manufactured.py", "discrete1/external1d.py", "discrete1/boundary1d.py"]}
{"id": "C59", "title": "Observed order of accuracy", "statement": "order_accuracy returns exactly p when the two errors are C h^p and C (h/ratio)^p, and for any two positive errors returns the one exponent that explains their quotient.", "quantifier": "all constants C, orders p, widths h, refinement ratios, all positive errors", "why_tests_cant": "Holds for every pair of error and width sequences of a given order, not for measured ones.", "anchors": ["discrete1/utils/manufactured.py:order_accuracy"]}
{"id": "C60", "title": "Wynn epsilon finds the limit of sums of geometric sequences", "statement": "wynn_epsilon(lst, rank) returns the absolute value of the limit s for every list of 2*rank+1 terms s + a r^n (and for sums of at most rank such terms); it is exact on constants, commutes with scaling and shifting, ignores surplus entries and rejects lists that are too short.", "quantifier": "all limits, amplitudes, ratios, ranks and lists", "why_tests_cant": "Ranges over all real sequences; the recursive table divides by differences that vanish on special sequences.", "anchors": ["discrete1/utils/manufactured.py:wynn_epsilon"]}
{"id": "C61", "title": "Boundary sources switch off and decay", "statement": "time_dependence_decay_01 keeps the boundary in every time step that ends at or before the switch-off time and makes it zero in every later one, so it switches exactly once on an increasing time grid. time_dependence_decay_02 keeps the boundary until 0.2 microseconds, then lets its non-zero entries decay (never rising, below 3/2^p from 0.2 + 0.1 p microseconds on) and leaves all other entries alone, for any boundary array.", "quantifier": "all boundary arrays, time grids (uniform or not) and switch-off times", "why_tests_cant": "A statement about every real time grid; the formula jumps at multiples of 0.1 microseconds, which sampled grids need not touch, and its index handling only works for arrays with exactly one non-zero entry.", "anchors": ["discrete1/boundary1d.py:time_dependence_decay_01", "discrete1/boundary1d.py:time_dependence_decay_02"]}
{"id": "C62", "title": "Fusion sources deposit in the group of their energy", "statement": "deuterium_deuterium and deuterium_tritium return a boundary array with a single entry one, on the requested side and in the energy group that contains 2.45 MeV (14.1 MeV), for every increasing energy grid containing that energy; any other entry is zero.", "quantifier": "all energy grids and locations", "why_tests_cant": "Depends on where the source energy falls relative to every pair of neighbouring edges; the deviation only shows on grids where the nearest edge is the upper one.", "anchors": ["discrete1/boundary1d.py:deuterium_deuterium", "discrete1/boundary1d.py:deuterium_tritium"]}
{"id": "C63", "title": "Material mixing", "statement": "materials returns one data set per name, in order, with the index-to-name key; vacuum is zero; an enriched uranium or plutonium name gives exactly e times the first isotope plus 1 - e times the second (hence data between the two for enrichments from 0 to 100 per cent). Names are accepted in the documented spelling (uranium-5%) and the packaged data can be loaded.", "quantifier": "all lists of names, all enrichment texts and values, all cross-section data, all group counts", "why_tests_cant": "Ranges over all strings and all real data; the string handling accepts one spelling and rejects others.", "anchors": ["discrete1/materials.py:materials", "discrete1/materials.py:_generate_cross_section"]}
{"id": "C64", "title": "Two-stage Ctrl+C in break_loop", "statement": "A single Ctrl+C during a function decorated with break_loop lets the current iteration of its grange loop finish, starts no further one and then returns normally; a second Ctrl+C raises KeyboardInterrupt at once, doing no further work; without Ctrl+C the loop runs to its end and the function's exceptions pass through. However the call ends, the caller's SIGINT handler is installed again, also for nested and recursive decorated calls.", "quantifier": "all instants (between any two atomic steps) at which Ctrl+C is pressed any number of times, all loop lengths and bodies", "why_tests_cant": "A signal can arrive between any two steps, including while the handler is being installed or restored; a test delivers it at a few chosen moments.", "anchors": ["discrete1/utils/decorators.py:break_loop", "discrete1/utils/decorators.py:grange"]}
{"id": "C65", "title": "finish_iteration defers Ctrl+C", "statement": "A Ctrl+C during a function decorated with finish_iteration lets the function do all its work; KeyboardInterrupt is raised after it has returned (its own exception otherwise propagates), the result is returned if there was none, and the caller's handler is installed again. A second Ctrl+C raises KeyboardInterrupt immediately, as documented.", "quantifier": "all interrupt schedules and function bodies", "why_tests_cant": "A signal can arrive between any two steps of the function and of the wrapper.", "anchors": ["discrete1/utils/decorators.py:finish_iteration"]}
{"id": "C66", "title": "update_file_name never overwrites", "statement": "update_file_name always returns a name that does not exist: the unversioned name if it is free, otherwise the stem with the first free version (letters a..z, aa..zz, or numbers padded to the requested width), all earlier versions being taken. It never fails and never returns None, for any finite directory contents.", "quantifier": "all finite sets of existing paths, all stems, extensions, labels and widths", "why_tests_cant": "Ranges over all directory contents; the letter generator only runs dry after 703 names.", "anchors": ["discrete1/ml/tools.py:update_file_name", "discrete1/ml/tools.py:_alphabet_generator", "discrete1/ml/tools.py:_number_generator"]}
{"id": "C67", "title": "Memmap datasets: batches and splits are disjoint", "statement": "The batches of a DeepONetDataset are consecutive full batches inside its range (fewer than one batch is left over), in whatever order the sampler visits them; the train, validation and test sets of process_data_memmap (and of the tuner) never share a sample, for every file size, batch size and non-negative fractions with sum at most one; the file holds every sample once, with inputs, labels and targets of the same sample in one row.", "quantifier": "all sample counts, batch sizes and split fractions", "why_tests_cant": "Ranges over all sizes and fractions; the failing corner (a split that rounds to zero samples) is missed by typical sizes.", "anchors": ["discrete1/ml/data.py:DeepONetDataset", "discrete1/ml/data.py:deeponet_memmap", "discrete1/ml/train.py:process_data_memmap", "discrete1/ml/tune.py:_create_memmap_datasets"]}
{"id": "C68", "title": "Training restores the best weights", "statement": "After train(), for every network, optimizer, loss history and instant of interruption: the model holds the weights of the first epoch with the smallest validation loss among the epochs that ran, the histories list the losses of exactly those epochs, the checkpoint holds the epoch count, the best weights and the best loss, and the reported test loss is that of the restored weights. continue_training goes on in the same way from the checkpoint (numbering, best loss), runs the configured number of epochs each time, gives what uninterrupted training would give, and neither call fails because no epoch improved.", "quantifier": "all networks, optimizers, loss histories (NaN and infinities included), epoch counts, interruption points and checkpoints", "why_tests_cant": "Ranges over all histories and interruption points; the failing cases (NaN losses, no improvement after resuming, repeated resumption) are rare in short test runs.", "anchors": ["discrete1/ml/train.py:train", "discrete1/ml/train.py:continue_training", "discrete1/ml/train.py:save_checkpoint", "discrete1/ml/train.py:load_checkpoint"]}
{"id": "C69", "title": "Normalization maps onto [0,1] and can be undone", "statement": "min_max_normalization maps every entry into [0,1], keeps the order, reaches both ends wherever the data are not constant (constant data become 0), treats NaN and infinities as 0, and is undone by the returned bounds: low + y (high - low) is the cleaned entry; the scaling is per feature. root_normalization is monotone on non-negative data and undone by the reciprocal root.", "quantifier": "all arrays of floats with at least one column, NaN and infinities included; all positive roots", "why_tests_cant": "Ranges over all real arrays; the axis convention and the constant or non-finite rows are corners a few samples do not exercise.", "anchors": ["discrete1/ml/tools.py:min_max_normalization", "discrete1/ml/tools.py:root_normalization"]}
{"id": "C70", "title": "Regression metrics", "statement": "For every row of at least one target: MAE and MSE are non-negative and zero exactly when the prediction is exact, MAE <= RMSE = sqrt(MSE); R2 <= explained variance <= 1, with equality of the two exactly when the mean error is zero; R2 = 1 exactly when the prediction is exact; explained variance is 1 exactly when the error is constant; predicting the mean scores R2 = 0.", "quantifier": "all targets and predictions", "why_tests_cant": "Equivalences and inequalities over all real vectors; constant targets are a corner.", "anchors": ["discrete1/ml/tools.py:mean_absolute_error", "discrete1/ml/tools.py:mean_squared_error", "discrete1/ml/tools.py:root_mean_squared_error", "discrete1/ml/tools.py:explained_variance_score", "discrete1/ml/tools.py:r2_score"]}
{"id": "C71", "title": "Building training data only drops samples without flux", "statement": "combine_flux_reaction returns the samples of all iterations and cells in order; each carries its cell's label, its flux and the reaction rates of that flux in its cell's material; a sample is dropped exactly when its flux is identically zero.", "quantifier": "all fluxes, cross sections, maps and labels", "why_tests_cant": "Ranges over all arrays; dropping is decided by one sum whose terms can cancel.", "anchors": ["discrete1/ml/tools.py:combine_flux_reaction", "discrete1/ml/tools.py:clean_data_scatter"]}
{"id": "C72", "title": "Splitting by material loses no sample", "statement": "After a successful per-material split the files together hold every sample exactly once, each file exactly the samples of its labels in order; if a sample has no split the call fails.", "quantifier": "all data and split specifications", "why_tests_cant": "Ranges over all split specifications; the code only compares counts, so losses and duplicates can cancel.", "anchors": ["discrete1/ml/tools.py:_split_by_material"]}
{"id": "C73", "title": "Anisotropic slab sweep solves the Legendre-scattering equations", "statement": "Every sweep of the anisotropic slab solver solves, for each ordinate, the diamond-difference equations with source sum_l (2l+1)sigma_s,l*phi_l*P_l(mu_n)+external+off_scatter built from the previous moments, and the new moments are sum_n w_n P_l(mu_n) times the cell-average angular flux; the solver returns the last of at most 100 such sweeps started from moments (flux_old,0,...,0).", "quantifier": "all meshes, materials, moment counts, quadratures, sources, iteration histories", "why_tests_cant": "The claim concerns every cell, ordinate and iterate of arbitrary problems; a test compares a few converged fluxes, which hides errors in intermediate moments.", "anchors": ["discrete1/spatial_sweep.py:slab_anisotropic_sn", "discrete1/spatial_sweep.py:slab_forward_aniso", "discrete1/spatial_sweep.py:slab_backward_aniso"]}
{"id": "C74", "title": "Anisotropic scattering conserves particles", "statement": "If the quadrature integrates P_1..P_L to zero, anisotropic scattering adds no net particles: leakage plus collisions equals W*(sigma_s0*phi_0+off_scatter) plus external, for every moment data.", "quantifier": "all moment data, meshes, quadratures with the stated exactness", "why_tests_cant": "A numeric test checks one quadrature and data set up to round-off; the cancellation must hold for all.", "anchors": ["discrete1/spatial_sweep.py:slab_anisotropic_sn"]}
{"id": "C75", "title": "The within-group iteration converges geometrically to the unique solution", "statement": "On meshes with dx*sigma_t<=2|mu| and scattering ratio W*sigma_s/sigma_t<=rho<1 the within-group discrete problem has exactly one solution; each sweep reduces the maximum error by rho; the flux returned after n sweeps is within rho^n times the initial error of it, and when the solver stops early the error is at most rho/(1-rho)*1e-12*cells*max|flux|.", "quantifier": "all such problems, starting fluxes and iteration counts", "why_tests_cant": "Existence, uniqueness and a uniform convergence rate quantify over all starting fluxes and problems.", "anchors": ["discrete1/spatial_sweep.py:slab_isotropic_sn"]}
{"id": "C76", "title": "Spherical sweep never divides by zero", "statement": "For a quadrature listing inward ordinates first, with positive weights, zero first moment and nonzero angular closure weights, and a mesh with positive widths and nonnegative total cross section, no division performed by the spherical sweep has a zero divisor.", "quantifier": "all such quadratures, meshes and cross sections", "why_tests_cant": "The divisor mixes mesh radii, recursively summed angular coefficients and cross sections; a zero can hide in one cell and ordinate of an unbounded family, and produces nan/inf rather than a failing test.", "anchors": ["discrete1/spatial_sweep.py:sphere_isotropic_sn", "discrete1/spatial_sweep.py:sphere_forward_iso", "discrete1/spatial_sweep.py:sphere_backward_iso"]}
{"id": "C77", "title": "The multigroup outer iteration converges geometrically to the unique solution", "statement": "For a slab whose cells are thin and whose total in-scatter into every group is at most c times the total cross section with c times the weight sum below one, the multigroup equations have exactly one solution; every outer iteration (Gauss-Seidel, or the ML solver when every material falls back to physics) shrinks the distance to it by that factor, and when source_iteration returns before its cap the returned flux is within an explicit bound of the solution.", "quantifier": "all meshes, group counts, materials, sources and starting fluxes satisfying the condition", "why_tests_cant": "Existence, uniqueness and a worst-case error bound over all starting fluxes and problems; a test compares one run with one reference.", "anchors": ["discrete1/multi_group.py:source_iteration_iso", "discrete1/multi_group.py:_one_sweep_iso", "discrete1/multi_group.py:ml_source_iteration"]}
{"id": "C78", "title": "Multigroup particle conservation", "statement": "For every solution of the multigroup equations, leakage out of the slab summed over groups plus absorption (total minus all out-scatter, summed over groups and cells) equals the total external source; scattering between groups neither creates nor destroys particles.", "quantifier": "all solutions, meshes, group structures and quadratures", "why_tests_cant": "A balance over all groups and cells that must hold for every data set; tests check one.", "anchors": ["discrete1/multi_group.py:source_iteration_iso", "discrete1/tools.py:_off_scatter"]}
{"id": "C79", "title": "Multigroup positivity", "statement": "With nonnegative cross sections, sources, boundary values, weights and starting flux and thin cells, the flux returned by source_iteration is nonnegative in every cell and group.", "quantifier": "all such slab problems and iteration histories", "why_tests_cant": "Must hold after every number of inner and outer iterations on every mesh.", "anchors": ["discrete1/multi_group.py:source_iteration_iso"]}
{"id": "C80", "title": "The ML solver works with its documented defaults", "statement": "ml_source_iteration called with the default scatter_models=[] and scatter_labels=None falls back to the physics scatter source for every material and returns the physics flux.", "quantifier": "all problems", "why_tests_cant": "The existing tests always pass models and labels; the failure occurs for every input of the default call.", "anchors": ["discrete1/multi_group.py:ml_source_iteration", "discrete1/tools.py:scatter_prod_predict"]}
{"id": "C81", "title": "At an eigenpair k is production over losses", "statement": "For every eigenpair of the discrete k-eigenvalue problem, k times (leakage plus absorption, summed over groups and cells) equals the neutrons produced by fission; in an infinite medium k times absorption equals production.", "quantifier": "all meshes, materials, quadratures and eigenpairs", "why_tests_cant": "It is a balance that must hold for every eigenpair of every problem; a test has one approximate eigenpair and cannot separate the balance from iteration error.", "anchors": ["discrete1/critical1d.py:power_iteration", "discrete1/critical0d.py:power_iteration"]}
{"id": "C82", "title": "energy_grid returns consistent fine and coarse cuts", "statement": "For the supported grids energy_grid returns the stock edges, a cut of the stock grid into the fine groups and a cut of the fine groups into the coarse groups, whether the indices are computed or taken from the packaged tables; unsupported grids raise.", "quantifier": "all supported grids and group counts", "why_tests_cant": "The cuts must be consistent for all pairs of fine and coarse counts and for both sources of indices (file tables and computed ones); a failing pair affects only runs that ask for it.", "anchors": ["discrete1/main.py:energy_grid"]}
{"id": "C83", "title": "Time-dependent runs complete exactly on well-shaped inputs", "statement": "timed1d and hybrid1d slab runs with isotropic data, nonzero ordinates and sources having one row or a row per step (and length one or full angle and group axes) always return; vhybrid1d runs do so whenever every step asks for between 1 and the fine number of groups and an even number of angles on a supported grid with at most one mirror. A source or boundary with more than one but too few rows always makes the run raise: an IndexError when the rows run out, a ValueError when angle or group axes do not broadcast.", "quantifier": "all inputs of those shapes, all numbers of steps", "why_tests_cant": "Every step contains nested iterations that have to terminate, and every array index has to be in range, for all data and any number of steps.", "anchors": ["discrete1/timed1d.py:backward_euler", "discrete1/hybrid1d.py:backward_euler", "discrete1/vhybrid1d.py:backward_euler"]}
{"id": "C84", "title": "Backward Euler keeps fluxes nonnegative", "statement": "With nonnegative initial flux, sources, boundary data, transfer cross sections and weights, positive speeds and dt, and cells thin for sigma_t + 1/(v dt), every flux returned by timed1d.backward_euler and by hybrid1d.backward_euler (with coarse data also thin and nonnegative) is nonnegative at every step.", "quantifier": "all such data and all steps", "why_tests_cant": "Positivity is claimed of every entry after every step of arbitrarily long runs, for all meshes below the thickness restriction.", "anchors": ["discrete1/timed1d.py:backward_euler", "discrete1/hybrid1d.py:backward_euler"]}
{"id": "C85", "title": "Particle balance of every time step", "statement": "At every step of a timed1d run, summed over the slab and all groups: rate of change of the stored particles plus net leakage plus collisions equals the particles emitted by scattering and fission of the returned flux plus the external source.", "quantifier": "all steps of all runs", "why_tests_cant": "A conservation law for every step of every run, mixing iteration error, time discretisation and boundary terms; a test can only compare with its own tolerance.", "anchors": ["discrete1/timed1d.py:backward_euler", "discrete1/timed1d.py:bdf2"]}
{"id": "C86", "title": "Each step approximates the unique implicit solution", "statement": "When the scattering ratio with respect to sigma_t + w/(v dt) is below 1, the implicit equation of each step (for the history produced so far) has exactly one scalar-flux solution; the returned flux is within rho^n of it relative to the starting error after the n inner passes done (n at most 100), and within rho/(1-rho) times 1e-8 * cells * max flux if the iteration stopped by its tolerance.", "quantifier": "all steps of all runs with ratio below 1", "why_tests_cant": "The exact implicit solution is not computable by the code under test; the bound ranges over all data.", "anchors": ["discrete1/timed1d.py:backward_euler", "discrete1/timed1d.py:bdf2", "discrete1/multi_group.py:source_iteration"]}
{"id": "C87", "title": "Collision splitting", "statement": "In every hybrid1d run each step has an uncollided flux that solves the step without scattering on the fine grid and a collided flux that approximates, with geometric error, the coarse problem driven by the first collisions; the new angular flux solves the step equation with the emission of their recombination, and its scalar flux is returned. On one common grid exact uncollided plus exact collided flux is the exact solution of the unsplit step, the returned flux is within rho^(n+1) of it, and auto_bdf1/auto_bdf2 with equal grids make exactly that hybrid run.", "quantifier": "all steps, grids, data and histories", "why_tests_cant": "An identity between runs of the split and the unsplit problem over all step counts and data.", "anchors": ["discrete1/hybrid1d.py:backward_euler", "discrete1/hybrid1d.py:bdf2", "discrete1/hybrid1d.py:_hybrid_method", "discrete1/hybrid1d.py:auto_bdf1", "discrete1/hybrid1d.py:auto_bdf2"]}
{"id": "C88", "title": "Variable-grid hybrid steps", "statement": "In every completed vhybrid1d run each step k uses the group and angle counts given for step k, its uncollided flux solves the step without scattering, its collided flux approximates the coarse problem with data coarsened on the returned energy edges, and the new angular flux satisfies the (backward Euler or BDF2) step equation with the emission of the recombined flux; the scalar flux of it is returned.", "quantifier": "all steps, schedules of group and angle counts, and data", "why_tests_cant": "Relates every step of a run to coupled systems on grids that change from step to step; quantifies over all schedules of grid changes.", "anchors": ["discrete1/vhybrid1d.py:backward_euler", "discrete1/vhybrid1d.py:bdf2", "discrete1/vhybrid1d.py:_variable_hybrid_method"]}
{"id": "C89", "title": "Variable-grid runs coarsen with the widths of the fine groups", "statement": "The coarse total cross sections of a vhybrid1d step are the averages of the fine ones weighted by the fine group widths.", "quantifier": "all grids, fine and coarse group counts", "why_tests_cant": "Wrong widths change results slightly and only on grids with unequal groups, so a test with a uniform grid or a loose tolerance passes with either.", "anchors": ["discrete1/vhybrid1d.py:_variable_hybrid_method", "discrete1/utils/hybrid.py:energy_grid_change"]}
{"id": "C90", "title": "Configurations the time-dependent drivers cannot run", "statement": "timed1d and hybrid1d never return for anisotropic (four-dimensional) scattering or for spheres with a nonzero ordinate (TypeError and IndexError respectively, on otherwise well-shaped input); vhybrid1d never returns when group or angle counts are neither int nor ndarray, (UnboundLocalError), when a per-step array is shorter than the run (IndexError), with two mirrors, or for an unsupported grid; auto_bdf1/auto_bdf2 with two mirrors and different angle counts raise UnboundLocalError.", "quantifier": "all inputs of those kinds", "why_tests_cant": "That a configuration always raises is a universal statement over its inputs.", "anchors": ["discrete1/timed1d.py:backward_euler", "discrete1/hybrid1d.py:auto_bdf1", "discrete1/vhybrid1d.py:backward_euler"]}
{"id": "C91", "title": "Hybrid power iteration", "statement": "Every hybrid_power_iteration run stops after at most 100 passes, and earlier exactly when the change of the fine flux falls below 1e-6; every pass computes the exact uncollided flux of the fission source divided by the old eigenvalue, a collided coarse flux whose distance to the solution of the coarse problem driven by the first collisions shrinks geometrically, scales the eigenvalue by the ratio of new to old production and returns the recombined flux with unit norm. The coarse data are the fine data or their width-weighted averages. On one grid the recombined flux approximates, with geometric error, the solution of the full transport problem with that fission source. Slab runs with nonzero ordinates always complete; two mirrors with a different angle count raise UnboundLocalError.", "quantifier": "all cross sections, starting fluxes, energy and angular grids", "why_tests_cant": "Bounds against exact transport solutions, for all data and random starts.", "anchors": ["discrete1/critical1d.py:hybrid_power_iteration", "discrete1/critical1d.py:_collided_terms"]}
{"id": "C92", "title": "CRAM is accurate for real decay modes", "statement": "If the initial densities are a combination of eigenvectors of the matrix with real eigenvalues lambda_j <= 0, the result differs from the solution of dn/dt = A n at dt, the sum of c_j exp(lambda_j dt) v_j, by at most ((1+eps)^substeps - 1) sum |c_j v_j| in each entry, with eps = 6.1e-16 for order 48 and 3.1e-14 for order 16, however large |lambda_j dt| is. A nuclide that nothing feeds decays like exp(-lambda dt) within the same relative error, and so does every left eigenmode.", "quantifier": "all matrices, all real nonpositive eigenvalues (any stiffness), all dt >= 0, both orders, all substep counts", "why_tests_cant": "The rational function must be close to exp on the whole half line; a test samples a few products lambda*dt, and one wrong digit of one coefficient may only show at some of them.", "anchors": ["discrete1/cram.py:cram_expm", "discrete1/cram.py:_ALPHA16", "discrete1/cram.py:_ALPHA48", "discrete1/cram.py:_COEFFS"]}
{"id": "C93", "title": "CRAM never fails on decay chains", "statement": "For valid parameters cram_expm returns a result for every matrix in which nuclides only feed later nuclides of the list (any entries), and for every matrix with a basis of real eigenvectors.", "quantifier": "all triangular matrices and all real-diagonalisable matrices of any size, all dt and substeps", "why_tests_cant": "Ranges over all such matrices; one eigenvalue equal to a pole would make the factorisation singular.", "anchors": ["discrete1/cram.py:cram_expm"]}
{"id": "C94", "title": "spatial_error is a normalised distance", "statement": "spatial_error of arrays of equal shape is a distance: non-negative, symmetric, zero exactly for equal arrays, with the triangle inequality; for plain arrays it never exceeds the largest entrywise deviation and equals it when all entries deviate alike. Arrays of different shapes, empty arrays and unsupported ndims are rejected with an exception.", "quantifier": "all array shapes and contents, all ndims", "why_tests_cant": "Non-negativity, symmetry, scaling and the triangle inequality are laws over all pairs and triples of arrays of every shape.", "anchors": ["discrete1/utils/manufactured.py:spatial_error"]}
{"id": "C95", "title": "Second-order convergence in the mesh width", "statement": "Let a flux be smooth inside every cell and satisfy the discrete-ordinates equations at the cell centres with the given sources, inflow and reflective sides. Then the fluxes computed by the slab solvers differ from it by at most an explicit constant (slab thickness, largest cross section, smallest |mu|, bounds on the second and third derivative) times the square of the largest cell width: at edges and centres for a known source on any mesh, and for the coupled multigroup problem, up to the iteration error, on thin meshes with scattering ratio below one.", "quantifier": "all meshes (non-uniform too), materials, quadratures, boundary conditions, group structures, smooth solutions", "why_tests_cant": "Order of convergence is a statement about all meshes as the width tends to zero; tests compare two or three meshes of single problems.", "anchors": ["discrete1/spatial_sweep.py", "discrete1/multi_group.py:source_iteration", "tests/test_spatial_accuracy.py"]}
{"id": "C96", "title": "The manufactured benchmarks converge at second order", "statement": "Solving the manufactured problems 1, 2 and 4 of the test suite on any mesh of the slab (with an edge at the material interface) by source iteration gives a scalar flux within an explicit multiple of h^2, plus the iteration error, of the library's analytic solution summed over the quadrature.", "quantifier": "all meshes of width at most h, all quadratures with |mu| >= mu0, all starting fluxes", "why_tests_cant": "The test suite checks three mesh sizes with a tolerance; the claim is a uniform bound on every mesh, uniform or not, for every quadrature and starting flux.", "anchors": ["discrete1/utils/manufactured.py", "discrete1/external1d.py:manufactured_ss_04", "discrete1/multi_group.py:source_iteration", "tests/problems.py"]}
{"id": "C97", "title": "Reed's source", "statement": "reeds gives every cell of a mesh that resolves the interfaces the value of Reed's piecewise constant source (0, 1, 0, 50, 50, 0, 1, 0 on intervals of length two) at each point of the cell; with one reflective side it is the half of the slab on the other side of the symmetry plane, shifted to start at zero, and cells outside the slab are zero. A mesh without (or with a repeated) interface is rejected with TypeError, never filled wrongly.", "quantifier": "all increasing edge arrays of any length, all boundary flags", "why_tests_cant": "Region boundaries must fall on the right cells for all non-uniform meshes, including those with an edge on an interface; the tests use one uniform mesh.", "anchors": ["discrete1/external1d.py:reeds"]}
{"id": "C98", "title": "AmBe source", "statement": "ambe puts into each energy group, at the chosen cell only, the magnitude of the one spectrum bin that contains the group's midpoint (zero outside the spectrum), treats grids above 20 as eV, leaves the caller's grid unchanged and can load its packaged spectrum.", "quantifier": "all spectra with increasing bins, all energy grids, all cells", "why_tests_cant": "Ranges over all spectra and grids; the in-place rescaling is only visible to the caller's later code.", "anchors": ["discrete1/external1d.py:ambe"]}
{"id": "C99", "title": "Uranium hydride composition", "statement": "For every enrichment e from 0 to 100 per cent, the uranium-hydride data are the sum of the isotope data weighted by the atom densities of UH3 at its density: e and 1 - e of the uranium atoms (relative to uranium metal of the same molar mass) and three hydrogen atoms per uranium atom (in units of 1/barn cm), with the mass density 10.95 g/cm3.", "quantifier": "all enrichments and all isotope data", "why_tests_cant": "The atom ratios must be right for all enrichments, including the end points, and for every set of isotope data.", "anchors": ["discrete1/materials.py:_generate_uranium_hydride"]}
{"id": "C100", "title": "Validation loss does not depend on the batch size", "statement": "The loss reported for a data set is the mean of the losses of its samples, for every batch size, also when the last batch is short; over a memmap dataset it is the mean over the samples in full batches. An empty set raises ZeroDivisionError, batch size 0 raises ValueError.", "quantifier": "all batch sizes, sample counts and sample losses (for losses that average over the batch)", "why_tests_cant": "Ranges over all batch sizes and data; weighting by batch length matters only when sizes do not divide.", "anchors": ["discrete1/ml/train.py:_val_batch", "discrete1/ml/tune.py:_validate"]}
{"id": "C101", "title": "Batched prediction is row-wise prediction", "statement": "predict returns one prediction per input row, in order, equal to the network applied to that row alone, for every batch size, when the network treats rows independently; without rows or with batch size 0 it raises ValueError.", "quantifier": "all row-wise networks, inputs and batch sizes", "why_tests_cant": "Equality over all batch sizes and all row counts, including the remainder batch.", "anchors": ["discrete1/ml/train.py:predict"]}
{"id": "C102", "title": "Generated subnetworks fit together", "statement": "Every subnetwork the tuner builds maps vectors of the input dimension to the latent dimension: consecutive layer sizes agree, the hidden layers have the chosen widths in order, each followed by one activation and by dropout exactly where chosen; a prebuilt description with fewer widths than layers raises IndexError. DeepONet's output is linear in the branch features and in the trunk features.", "quantifier": "all layer counts, widths, dropout choices and dimensions", "why_tests_cant": "The search space is combinatorial: every number of layers, width and dropout choice on each side must produce matching dimensions; a tuning run samples a few.", "anchors": ["discrete1/ml/tune.py:_init_nn_model", "discrete1/ml/tune.py:_init_prebuilt_nn_model", "discrete1/ml/tune.py:DeepONet.forward"]}
{"id": "C103", "title": "A tuning trial reports every epoch and returns the last metric", "statement": "objective reports the validation loss of every epoch exactly once and in order, returns that of the last epoch, and is pruned at the first epoch at which the study asks for it; it always ends in one of these two ways.", "quantifier": "all metric histories, pruning decisions and epoch counts", "why_tests_cant": "Ranges over all histories and pruning schedules; the corner of zero epochs is easily missed.", "anchors": ["discrete1/ml/tune.py:objective"]}
{"id": "C104", "title": "process_data splits 60/20/20 without loss or overlap", "statement": "The train, validation and test sets of process_data together are a permutation of the data (no sample lost, none shared), and their sizes are 60, 20 and 20 per cent up to rounding (less than two samples).", "quantifier": "all data sets and all shuffles of train_test_split", "why_tests_cant": "Ranges over all sample counts and all permutations a shuffling split may return; rounding goes wrong at particular sizes only.", "anchors": ["discrete1/ml/train.py:process_data"]}
{"id": "C105", "title": "djinn_regression trains and saves one model per pair", "statement": "djinn_regression saves a model for every pair of tree count and depth, under different names.", "quantifier": "all lists of tree counts and depths", "why_tests_cant": "Ranges over all grids; name collisions appear only for large numbers.", "anchors": ["discrete1/ml/train.py:djinn_regression"]}
{"id": "C106", "title": "Prediction wrappers are row-wise and leave their input alone", "statement": "DJINN.predict, AutoDJINN.predict and DeepONet.predict apply, to every row alike and in order, transformation, (encoding,) network with the label prepended as documented, (decoding,) and inverse transformation; the caller's flux array is not modified. load_djinn_models keeps positions, with 0 standing for no model.", "quantifier": "all row-wise networks and transformations (also those that work in place), inputs and labels", "why_tests_cant": "Ranges over all networks, transformations and inputs; aliasing shows only with in-place transformations.", "anchors": ["discrete1/ml/predict.py:DJINN.predict", "discrete1/ml/predict.py:AutoDJINN.predict", "discrete1/ml/predict.py:DeepONet.predict", "discrete1/ml/predict.py:load_djinn_models"]}
{"id": "C107", "title": "The output modes of the fixed-source drivers describe one solution", "statement": "For a slab problem, the four results of source_iteration (scalar or angular flux, at cell centres or cell edges) belong to one angular flux: the edge angular flux satisfies the diamond-difference equations with the boundary conditions and the scattering and fission source emitted by the returned scalar flux; the centre angular flux is its cell average and the edge scalar flux its quadrature sum; particles are balanced exactly. With scattering ratio below one every mode is within the stated distance of the unique discrete solution; on meshes satisfying the diamond positivity condition, non-negative data gives non-negative results in all modes. dynamic_mode_decomp relates its four results in the same way, or fails in all of them.", "quantifier": "all slab meshes, quadratures with more than one non-zero direction, materials, groups, cross sections, external and boundary sources, reflective or vacuum sides, snapshot counts", "why_tests_cant": "The modes are separate solves after the iteration; that they agree for every problem, including one whose iteration stopped at the pass cap, is an equation over all inputs. A test compares a few arrays to a tolerance.", "anchors": ["discrete1/fixed1d.py:source_iteration", "discrete1/fixed1d.py:dynamic_mode_decomp", "discrete1/fixed1d.py:known_source_calculation"]}
{"id": "C108", "title": "Documented geometries and options of the fixed-source drivers are served", "statement": "For every documented geometry (1 slab, 2, 3), every documented form of the scattering data and every combination of the options angular and edges, source_iteration and dynamic_mode_decomp return the requested flux of the given sources.", "quantifier": "all geometries, option values, scattering data and sources", "why_tests_cant": "Each missing combination fails for all problems alike, or silently returns zeros; no finite set of successful runs shows that none is missing.", "anchors": ["discrete1/fixed1d.py:source_iteration", "discrete1/fixed1d.py:dynamic_mode_decomp", "discrete1/fixed1d.py:known_source_calculation", "discrete1/multi_group.py:known_source_angular", "discrete1/multi_group.py:known_source_scalar", "discrete1/multi_group.py:_one_sweep_iso"]}
{"id": "C109", "title": "Rounding cannot make a flux negative", "statement": "In floating-point arithmetic, on a mesh whose cells are thin (dx sigma_t <= 2 |mu|) and with non-negative sources, boundary values, scattering data, weights and start flux, every scalar flux returned by one sweep, by the one-group iteration and by the multigroup iteration is non-negative, whatever the rounding does and whenever the iteration stops.", "quantifier": "all thin slab meshes, quadratures, materials, groups, non-negative data and start fluxes; every correctly rounding arithmetic, in particular IEEE double precision; every norm in the stopping test", "why_tests_cant": "The exact scheme subtracts nearly equal numbers (|mu|/dx - sigma_t/2); a sign error would need the worst rounding pattern among all inputs, which random tests never meet.", "anchors": ["discrete1/spatial_sweep.py:slab_isotropic_sn", "discrete1/spatial_sweep.py:slab_forward_iso", "discrete1/spatial_sweep.py:slab_backward_iso", "discrete1/multi_group.py:source_iteration", "discrete1/tools.py:_off_scatter"]}
{"id": "C110", "title": "Larger data never give a smaller computed flux", "statement": "On a thin mesh and in floating-point arithmetic: raising any of the external source, boundary values, off-group source or previous flux never lowers any entry of the swept flux; iterates started from zero never decrease from pass to pass and stay below every flux that a sweep does not raise; without sources the computed flux is exactly zero.", "quantifier": "all thin slab meshes, non-negative scattering data and weights, pairs of ordered data, all iteration histories; every correctly rounding arithmetic", "why_tests_cant": "Monotonicity of rounded arithmetic compares two runs for all ordered pairs of inputs; a test sees single pairs, and a violation would be one unit in the last place.", "anchors": ["discrete1/spatial_sweep.py:slab_isotropic_sn", "discrete1/spatial_sweep.py:slab_forward_iso", "discrete1/spatial_sweep.py:slab_backward_iso", "discrete1/multi_group.py:source_iteration"]}
{"id": "C111", "title": "Multiplying all sources by a power of two multiplies the computed flux exactly", "statement": "As long as nothing overflows or underflows, scaling external source, boundary source and start flux by 2^e scales the flux returned by the one-group and the multigroup iteration by exactly 2^e, with the same number of passes.", "quantifier": "all slab problems, all integer exponents, all iteration histories", "why_tests_cant": "An exact (bitwise) statement about every problem; tests compare with tolerances, and the number of passes is decided by a rounded convergence test.", "anchors": ["discrete1/spatial_sweep.py:slab_isotropic_sn", "discrete1/multi_group.py:source_iteration"]}
{"id": "C112", "title": "Rounding errors of the sweep and of the source iteration are bounded", "statement": "If every operation has relative error at most u, one sweep of N cells and A directions differs from the exact sweep by at most W Q ((1+11u)^(2N+A+5) - 1), where W is the sum of the weights and sigma_t Q bounds the sources; the flux returned by the one-group iteration after n passes differs from the exact discrete solution by at most rho^n times the initial error plus that rounding term divided by 1 - rho, and if the iteration stopped by its tolerance, by a bound free of the initial error. The multigroup iteration obeys the same two bounds with a rounding term that also counts the G rounded additions of every off-group sum.", "quantifier": "all thin slab meshes with scattering ratio rho < 1, any number of groups and any scattering matrix, vacuum or reflecting sides, all sources, start fluxes, numbers of passes and all rounding error patterns of size u", "why_tests_cant": "A worst-case bound over all rounding patterns and all inputs; measured errors on examples only bound it from below.", "anchors": ["discrete1/spatial_sweep.py:slab_isotropic_sn", "discrete1/spatial_sweep.py:slab_forward_iso", "discrete1/spatial_sweep.py:slab_backward_iso", "discrete1/tools.py:reflector_corrector", "discrete1/multi_group.py:source_iteration", "discrete1/tools.py:_off_scatter"]}
{"id": "C113", "title": "The coarse energy index survives the rounding of linspace", "statement": "Evaluated in IEEE double precision as numpy does (rounded step, product and quotient, floor, exact end point), energy_coarse_index(fine, coarse) passes its assertion and returns a partition into coarse consecutive blocks of fine//coarse or one more groups, for all 1 <= coarse <= fine with coarse <= 2^25; which blocks get the additional group can differ from exact arithmetic.", "quantifier": "all pairs of group counts in range", "why_tests_cant": "A rounded product just below an integer moves an index; only a bound on the rounding error shows that no two indices ever collide.", "anchors": ["discrete1/utils/hybrid.py:energy_coarse_index"]}
{"id": "C114", "title": "Memmap data sets and their metadata belong together", "statement": "After deeponet_memmap(filename, ...) has succeeded, and whatever other data sets are written afterwards, load_deeponet_memmap_metadata(filename) returns the sizes of that data set and the data file opened with them holds exactly its rows, each once, rounded to float32; a call that fails leaves no half-written data set; two data sets with different names do not disturb each other.", "quantifier": "all file names, data sets, sets of existing directories, and histories of later calls with other names", "why_tests_cant": "The metadata name is derived by text replacement from the data name; whether two names collide, or a name is mapped to itself, is a statement about all strings and all histories of writes, while tests use a few tidy names.", "anchors": ["discrete1/ml/data.py:deeponet_memmap", "discrete1/ml/data.py:load_deeponet_memmap_metadata"]}
{"id": "C115", "title": "Ctrl+C ends a tuning study after the current trial", "statement": "If SIGINT arrives during RegressionDeepONet.run, the trial in progress is finished and recorded, no further trial is started, the trials are exported and the best parameters returned; after run has ended Ctrl+C behaves as before the call.", "quantifier": "all instants at which SIGINT can be delivered, any number of times; all numbers, durations and outcomes of trials; new and stored studies", "why_tests_cant": "The claim quantifies over every delivery instant, including the few between installing the handler and entering the optimisation loop and those after the loop; tests cannot place signals there.", "anchors": ["discrete1/ml/tune.py:finish_trial", "discrete1/ml/tune.py:RegressionDeepONet.run"]}
{"id": "C116", "title": "A tuning run exports every finished trial and returns the best completed one", "statement": "run(n_trials=n) runs n trials, writes a table with every trial of the study (earlier ones of a stored study included) and returns the parameters of a completed trial that no completed trial beats in the requested direction; pruned and failed trials are in the table but never returned.", "quantifier": "all objectives (values, pruning, exceptions, NaN per trial), numbers of trials, directions and stored studies", "why_tests_cant": "Failures at arbitrary trials and studies resumed with another direction are histories that tests do not enumerate.", "anchors": ["discrete1/ml/tune.py:RegressionDeepONet.run", "discrete1/ml/tune.py:RegressionDeepONet.objective"]}
{"id": "C117", "title": "Every point of the search space can be run", "statement": "If every listed activation, loss, optimizer, dropout probability and rate is valid, then whatever values the sampler picks in each trial of a study, building the trial succeeds: branch and trunk network fit the input sizes and the common latent width, all values come from the search space, and no distribution clashes with one used by an earlier trial. The defaults are such a space, also when a scheduler is switched on.", "quantifier": "all search spaces with valid entries, all sampler decisions in all trials of a study, all input sizes, built-in and prebuilt architectures", "why_tests_cant": "A search space has exponentially many points and the clash depends on the history of trials; a tuning test samples a handful.", "anchors": ["discrete1/ml/tune.py:RegressionDeepONet._init_search_parameters", "discrete1/ml/tune.py:RegressionDeepONet._init_nn_model", "discrete1/ml/tune.py:RegressionDeepONet._init_onet_model", "discrete1/ml/tune.py:RegressionDeepONet._init_prebuilt_nn_model", "discrete1/ml/tune.py:RegressionDeepONet._init_prebuilt_onet_model", "discrete1/ml/tune.py:RegressionDeepONet._init_optimizer", "discrete1/ml/tune.py:RegressionDeepONet._init_scheduler", "discrete1/ml/tune.py:RegressionDeepONet._init_loss_function"]}
{"id": "C118", "title": "Tuning does not look at the test data", "statement": "With default options on one memmap file, the samples used by the tuner for training and validation are not among the test samples of the trainer's default split (documented: 60 % training and 20 % validation in both).", "quantifier": "all data set sizes from 5 and all batch sizes", "why_tests_cant": "Tuner and trainer are tested apart, if at all; overlap of index ranges for every size is not visible in either.", "anchors": ["discrete1/ml/tune.py:RegressionDeepONet.__init__", "discrete1/ml/tune.py:RegressionDeepONet._create_memmap_datasets", "discrete1/ml/train.py:RegressionDeepONet.process_data_memmap"]}
{"id": "C119", "title": "Unknown options are reported", "statement": "Every keyword argument that the tuner's constructor, the trainer or run does not know gives a warning naming it, once, and no known argument does.", "quantifier": "all sets of keyword names", "why_tests_cant": "Ranges over all names; a test tries one misspelling per entry point.", "anchors": ["discrete1/ml/tune.py:RegressionDeepONet.__init__", "discrete1/ml/tune.py:RegressionDeepONet.run", "discrete1/ml/train.py:RegressionDeepONet.__init__"]}
{"id": "C120", "title": "The backend option selects the library that loads the models", "statement": "AutoDJINN(..., backend=text) loads encoder and decoder with torch if the backend is 'torch' in any mixture of upper and lower case, with keras if it is 'tensorflow', each from its own file; any other text raises ValueError before anything is loaded, and a missing library raises ImportError.", "quantifier": "all backend strings, model files and installed libraries", "why_tests_cant": "Ranges over all spellings and over environments with and without each library; a test environment has one fixed set.", "anchors": ["discrete1/ml/predict.py:AutoDJINN.__init__"]}
{"id": "C121", "title": "Saved models and metrics are found again", "statement": "After any history of save_model calls, load_model(name) restores the weights of the last call for that name, undisturbed by other names; the losses are in the documented file <name>_loss_metrics.npz; save_model does not fail for a model that was loaded rather than trained.", "quantifier": "all names, weights, and histories of save_model calls", "why_tests_cant": "Interference between names is a statement about all pairs of strings and all histories.", "anchors": ["discrete1/ml/train.py:RegressionDeepONet.save_model", "discrete1/ml/train.py:RegressionDeepONet.load_model"]}
{"id": "C122", "title": "Time stepping is unconditionally stable", "statement": "In a slab without multiplication, two time-dependent runs that differ in initial flux and external source stay close for every step size and every mesh: measured by the square root of sum dx w psi^2 / v, their distance after any step is at most the initial distance (times sqrt 2 for BDF2) plus dt (times 6 for BDF2) times the accumulated size of the difference of what the steps emit. A run without inflow is bounded by its initial flux and its sources. With exactly solved steps backward Euler never increases the distance.", "quantifier": "all slabs (any cell widths, thick cells included, vacuum or one reflective side per direction), cross sections with non-multiplying transfer, speeds, time steps, numbers of steps, initial fluxes, sources, inflows", "why_tests_cant": "Stability is a bound for all step sizes, all meshes and any number of steps; a run that looks stable for some steps proves nothing about longer or coarser ones.", "anchors": ["discrete1/timed1d.py:backward_euler", "discrete1/timed1d.py:bdf2", "discrete1/multi_group.py:source_iteration_iso"]}
{"id": "C123", "title": "Every implicit step and every absorbing steady problem has exactly one solution", "statement": "Without multiplication the equations of each time step (backward Euler or BDF2), and in an absorbing medium the steady multigroup equations, have exactly one scalar flux as solution, for every mesh, source and inflow; hence from every initial flux there is exactly one exact history.", "quantifier": "all slabs with positive widths, non-negative weights and non-zero ordinates; all non-multiplying (steady: absorbing) cross sections, group numbers, sources, inflows, earlier fluxes, step sizes", "why_tests_cant": "Existence and uniqueness of a solution is not an observation of a run at all.", "anchors": ["discrete1/timed1d.py:backward_euler", "discrete1/timed1d.py:bdf2", "discrete1/fixed1d.py:source_iteration", "discrete1/multi_group.py:source_iteration_iso"]}
{"id": "C124", "title": "Source iteration converges on every mesh", "statement": "If in every cell the scattering between groups g and h is at most k(g,h) times the geometric mean of their total cross sections and rho = (sum of weights) times the largest row sum of k is below one, then there is exactly one solution and every outer iteration, whatever number of inner iterations it makes, reduces the distance to it (largest over groups of the square root of sum dx sigma_t phi^2) at least by the factor rho; the flux returned before the iteration limit has relative error at most rho * tolerance * cells / (1 - rho). No cell need be thin.", "quantifier": "all slabs, any mesh with thick or void cells, numbers of groups, cross sections satisfying the coupling bound, sources, inflows, starting fluxes", "why_tests_cant": "Convergence to the solution from every start on every mesh is a limit statement; the stopping test of one run does not show the distance to the solution.", "anchors": ["discrete1/spatial_sweep.py:slab_isotropic_sn", "discrete1/multi_group.py:source_iteration_iso", "discrete1/multi_group.py:_one_sweep_iso"]}
{"id": "C125", "title": "The error of a time-dependent run is the residual of its iterations", "statement": "The angular fluxes of a run differ from the unique exact history with the same start, after any number of steps, by at most dt (times 6 for BDF2) times the sum over the steps of the size of the scattering of the difference between the returned scalar flux and the one its own sweep produces.", "quantifier": "all slabs and non-multiplying cross sections, initial fluxes, sources, inflows, step sizes and numbers of steps", "why_tests_cant": "Propagation of an error through all later steps must be bounded for every history.", "anchors": ["discrete1/timed1d.py:backward_euler", "discrete1/timed1d.py:bdf2"]}
{"id": "C126", "title": "A fissile slab has exactly one critical state", "statement": "For a slab whose cells transmit, whose scattering loses particles and whose fission feeds every group, there is a flux that is positive in every cell and group and a k > 0 such that the fission source divided by k sustains that flux; no other k has a positive flux and the flux is unique up to a factor. k is at least the modulus of every other real eigenvalue and does not decrease when fission cross sections are raised.", "quantifier": "all slabs with ordinates of both signs and optically thin cells, quadratures, numbers of groups, non-negative subcritical scattering data, non-negative fission data (matrix or chi/nu-fission vectors)", "why_tests_cant": "Existence and uniqueness of the positive eigenpair and its dominance over all other eigenpairs are statements about all fluxes, not about the output of runs.", "anchors": ["discrete1/critical1d.py:power_iteration", "discrete1/tools.py:fission_mat_prod", "discrete1/tools.py:fission_vec_prod", "discrete1/multi_group.py:source_iteration_iso"]}
{"id": "C127", "title": "The growth of the flux over one generation brackets k", "statement": "If one generation (the exact transport solution for the fission source of a positive flux v) lies between a v and b v, then k lies in [a, b]; later generations lie in the same bracket, and with even spreading d the bracket shrinks by the factor 1 - d^2 per generation. For an actual pass of power_iteration whose transport solve has relative error eta, a <= (1+eta) k, (1-eta) k <= b, and the returned keff lies in [a, b].", "quantifier": "all positive fluxes, all slabs, cross sections and fission data as for C126", "why_tests_cant": "It is an enclosure valid for every flux; a test can only compare with a k known beforehand.", "anchors": ["discrete1/critical1d.py:power_iteration", "discrete1/tools.py:_update_keff_mat", "discrete1/tools.py:_update_keff_vec", "discrete1/multi_group.py:source_iteration_iso"]}
{"id": "C128", "title": "Power iteration converges to the fundamental mode", "statement": "From every positive starting flux, after m passes whose transport solves have relative error at most eta, keff differs from the k of C126, and the flux relatively from a multiple of its mode, by at most a constant times (1 - d^2)^m plus a constant times eta; a transport solve stopped by its own tolerance has an eta proportional to 1e-8. The result of power_iteration obeys these bounds with the number of passes it made.", "quantifier": "all positive starting fluxes, numbers of passes, slabs, cross sections and fission data as for C126", "why_tests_cant": "The stopping test only sees the change between two passes; distance to the true eigenpair from every start is a limit statement.", "anchors": ["discrete1/critical1d.py:power_iteration", "discrete1/critical1d.py:ml_power_iteration", "discrete1/tools.py:_update_keff_mat", "discrete1/tools.py:_update_keff_vec", "discrete1/multi_group.py:source_iteration_iso"]}
{"id": "C129", "title": "Source iteration converges whenever no collision yields more neutrons than it takes", "statement": "If in every cell the neutrons sent out by a collision of a neutron of any group, summed over the groups they go to, average at most c < 1 (or at most 1, with cells that transmit and a side through which neutrons can leave), then the multigroup slab problem has exactly one solution for every source and boundary, it is non-negative for non-negative data, and source_iteration returns a flux whose distance to it is at most K r^n times the initial distance after n outer sweeps, for every r in (c, 1); if it stops before its cap the remaining error is at most K times 1e-8 * cells * max|flux| * r/(1-r). In-scatter into a group may exceed its total cross section.", "quantifier": "all optically thin slabs with vacuum or reflective sides (symmetric quadrature where reflective), quadratures, group counts, transfer matrices with bounded column sums, sources, boundaries and starting fluxes", "why_tests_cant": "Convergence for every transfer matrix and start, with one constant K for all runs, is a universally quantified limit statement; tests sample single problems, and the row-sum criterion they would check by hand (C24) does not cover down-scattering media.", "anchors": ["discrete1/multi_group.py:source_iteration", "discrete1/multi_group.py:_one_sweep_iso", "discrete1/multi_group.py:source_iteration_iso", "discrete1/spatial_sweep.py:slab_isotropic_sn"]}
{"id": "C130", "title": "A source problem with fission has a physical solution exactly below criticality", "statement": "Let k be the multiplication factor whose positive mode solves the k-eigenvalue problem. If k < 1, the source problem with scattering plus fission as transfer matrix has exactly one solution for every source, non-negative for non-negative data, and source_iteration converges to it geometrically; if the flux without fission lies between a and b times the mode, the flux with fission lies between a/(1-k) and b/(1-k) times it. If k >= 1, no non-negative flux solves the problem for any source whose flux without fission is positive everywhere. With all fission data divided by lambda > 0 neutrons are lost on the whole iff k < lambda.", "quantifier": "all slabs, quadratures, group counts, non-negative scattering that dies out by itself, non-negative fission data (matrix or chi/nu-fission), sources, boundaries and starting fluxes", "why_tests_cant": "It ties the eigenvalue returned by one solver to the solvability of every problem given to another; non-existence of a solution above criticality cannot be observed by running.", "anchors": ["discrete1/critical1d.py:power_iteration", "discrete1/multi_group.py:source_iteration", "discrete1/multi_group.py:source_iteration_iso", "discrete1/tools.py:transfer_matrix"]}
{"id": "C131", "title": "The infinite-medium solver finds k-infinity", "statement": "If collisions in an infinite medium yield on average at most c < 1 neutrons (column sums of the scattering matrix, weighted by the quadrature), the group balance has exactly one solution for every source, non-negative for non-negative data, and multi_group_0d.source_iteration converges to it with every rate r in (c, 1), with an error bound when it stops by its tolerance. With one fission spectrum (chi, nu-fission) the only multiplication factor is k-infinity, the fission rate of the flux u of the source chi, and u is the only mode. One pass of critical0d.power_iteration from any pair (flux, keff) with nonzero fission rate and keff returns k-infinity and the mode up to the accuracy of its solve; a whole run, from any guess, returns them up to max(1e-8 c/(1-c-1e-8 c), c^(100 n) D) times U sum |nusigf| p, D measuring the guess.", "quantifier": "all group counts, quadratures, scattering matrices of either sign with bounded columns (or any damped flux p), sources, spectra, fission data, guesses and numbers of passes", "why_tests_cant": "Uniqueness of the multiplication factor, convergence for every matrix and an error bound for every guess and every exit (tolerance or cap) are universally quantified; tests compare a few tabulated media.", "anchors": ["discrete1/critical0d.py:power_iteration", "discrete1/multi_group_0d.py:source_iteration", "discrete1/multi_group_0d.py:source_iteration_iso", "discrete1/multi_group_0d.py:discrete_ordinates_iso", "discrete1/tools.py:_fission_vec_source_0d", "discrete1/tools.py:_update_keff_vec_0d"]}
{"id": "C132", "title": "Below criticality a backward Euler run forgets its start", "statement": "If scattering and fission together damp some positive flux by a factor c < 1 (in particular if k < 1), there are K >= 1 and a > 0, depending only on slab, cross sections and speeds, such that two backward Euler histories with the same sources and boundary values, started d apart, are K d / (1 + a dt)^n apart after n steps, for every dt > 0 the sweeps allow; under steady sources every history relaxes to the one steady flux at that rate; and the fluxes timed1d.backward_euler computes stay within K (d / (1 + a dt)^n + r) of the exact history, r bounding the collision source the inner iterations left out in any step: errors of the inner iterations do not accumulate with the number of steps.", "quantifier": "all slabs, quadratures, group counts, damped data, time steps (of any size the sweep condition allows), numbers of steps, sources, boundary values and starting fluxes", "why_tests_cant": "A single pair of constants K and a must serve every time step, every number of steps and every start; a test runs one history for finitely many steps.", "anchors": ["discrete1/timed1d.py:backward_euler", "discrete1/multi_group.py:source_iteration_iso", "discrete1/multi_group.py:known_source_angular"]}
{"id": "C133", "title": "Below criticality the accuracy of a whole run is set by the stopping rule", "statement": "Under the hypotheses of C132 there is a K depending only on slab, cross sections and speeds such that, whenever timed1d.backward_euler returns and all its fluxes and its start are bounded by M, the exact backward Euler history from the same start exists and every recorded scalar flux is within K * (c N 1e-8/(1-c) + 2 c^100/(1-c^100)) * M of it (N cells): whichever way each inner iteration ended (tolerance or cap), however many steps were taken and whatever dt was.", "quantifier": "all slabs, quadratures, group counts, damped data, time steps, numbers of steps, sources, boundary values, starts, and all ways the inner iterations stop", "why_tests_cant": "The bound is uniform in the number of steps and in the step size and covers both exits of every inner iteration; a test has a fixed number of steps and no exact history to compare with.", "anchors": ["discrete1/timed1d.py:backward_euler", "discrete1/multi_group.py:source_iteration_iso", "discrete1/multi_group.py:known_source_angular"]}
{"id": "C134", "title": "Whether a time-dependent run grows is decided by k", "statement": "If A is a positive flux whose transport balance closes with the term a A / v (an alpha mode), the backward Euler run started from A without sources is A / (1 - a dt)^n; any run started between lo A and hi A stays between lo A / (1 - a dt)^n and hi A / (1 - a dt)^n as long as a dt < 1, and such runs exist; a step with a dt >= 1 has no non-negative answer. a has the sign of k - 1. With k > 1 every run from a positive start grows at least geometrically, by a rate that does not depend on the step, for every step short enough for the step itself to be damped; with k < 1 every run dies out as K d / (1 + a dt)^n. The fluxes timed1d.backward_euler itself records without sources obey the same bounds with hi multiplied by (1+q)^n and lo lowered by hi((1+q)^n - 1), where q = 4 max(1, 1 - a dt) times the error of the stopping rule of C133.", "quantifier": "all slabs, quadratures, group counts, cross sections, fission data, speeds, time steps, numbers of steps, starting fluxes and modes meeting the hypotheses", "why_tests_cant": "Growth or decay is a statement about arbitrarily many steps, and its equivalence with k > 1 or k < 1 ranges over all media; a test can only watch a few steps of one medium.", "anchors": ["discrete1/critical1d.py:power_iteration", "discrete1/timed1d.py:backward_euler", "discrete1/multi_group.py:source_iteration_iso", "discrete1/multi_group.py:known_source_angular"]}
{"id": "C135", "title": "An infinite medium with any fission matrix has one critical state, and critical0d finds it", "statement": "In an infinite medium whose scattering alone dies out (some positive flux is reduced by every collision) and whose fission data, matrix or chi and nu-fission, are non-negative and feed every group, there is exactly one multiplication factor k with a positive flux, the flux is unique up to scale, no other eigenvalue is larger in size, k lies between the smallest and the largest ratio of any positive flux to the next generation, and k < 1 exactly if scattering and fission together still die out. Scattering data of rank 3 (Legendre moments, with precomputed tables or not) give the results of their isotropic part whenever the quadrature integrates the moments present. critical0d.power_iteration returns k up to eta plus a geometrically shrinking term and the mode up to the same width, where eta bounds every inner solve whichever way it stopped; if it stopped by its own test before the cap, keff is within a relative 2e-6 + eta or so of k.", "quantifier": "all group counts, quadratures, damped scattering data of either rank, non-negative fission data of either form, positive guesses and numbers of passes", "why_tests_cant": "Existence and uniqueness of the critical state over all matrices, and an error bound for every guess, every number of passes and both exits of every inner loop, cannot be enumerated; tests compare a few tabulated media with reference values.", "anchors": ["discrete1/critical0d.py:power_iteration", "discrete1/multi_group_0d.py:source_iteration", "discrete1/multi_group_0d.py:source_iteration_iso", "discrete1/multi_group_0d.py:source_iteration_aniso", "discrete1/tools.py:legendre_polynomials", "discrete1/tools.py:_fission_mat_source_0d", "discrete1/tools.py:_update_keff_mat_0d"]}
{"id": "C136", "title": "Backward Euler is first order and BDF2 second order in time", "statement": "Whenever an angular flux depends smoothly on time and satisfies the slab's cell equations with its true time derivative, a run whose sources and boundaries are sampled at the ends of the steps stays within T M2/2 dt (backward Euler, second time derivative at most M2) or (3 M2 + 6 T M3) dt^2 (BDF2, third at most M3) of it after the time T, in the energy norm and in units of a flux of size one, plus the error of the start and of what the iterations left unresolved; dividing a time T into n exact steps gives an error of at most K/n or K/n^2 with K independent of n. The single backward Euler step that starts BDF2 does not spoil its order.", "quantifier": "all slabs, group structures, scattering and fission matrices without multiplication, smooth fluxes, time steps and numbers of steps", "why_tests_cant": "A test observes the ratio of errors for two or three step sizes of one problem; an order of accuracy is a bound for every step size, every number of steps and every smooth solution.", "anchors": ["discrete1/timed1d.py:backward_euler", "discrete1/timed1d.py:bdf2", "discrete1/spatial_sweep.py:slab_isotropic_sn"]}
{"id": "C137", "title": "Time-dependent slabs are second order in space together with their order in time", "statement": "If a flux of continuous space and time, smooth inside every cell, solves the transport equation at the cell centres with the sources and inflows that the run is given at the ends of its steps, then after the time T the run's angular flux differs from it at the cell centres by at most its error at the start, the time error of C136, h^2 times constants that depend only on bounds of the derivatives, the cross sections and T, and what the iterations left unresolved, for both time methods and for vacuum and reflective sides.", "quantifier": "all meshes with cells of width at most h, quadratures, materials without multiplication, smooth solutions, time steps and numbers of steps", "why_tests_cant": "The claim bounds the error for all meshes and time steps at once and separates the two contributions; a refinement study samples a few pairs and cannot show that neither contribution grows with the number of steps.", "anchors": ["discrete1/timed1d.py:backward_euler", "discrete1/timed1d.py:bdf2", "discrete1/spatial_sweep.py:slab_forward_iso", "discrete1/spatial_sweep.py:slab_backward_iso"]}
{"id": "C138", "title": "The manufactured time-dependent problems converge at the orders their tests look for", "statement": "For every mesh of the slab, every quadrature with ordinates in [-1, 1], every time step and number of steps, backward_euler and bdf2 run on the problems manufactured_td_01 and manufactured_td_02 (start, sources and boundaries taken from the package's own tables at the ends of the steps) return, without error, scalar fluxes whose l2 error against the package's own exact solutions is at most the weight sum times sqrt(length) times (the time error, first order for backward Euler and second for BDF2, plus an explicit constant times h^2).", "quantifier": "all meshes of (0,2) and (0,pi), quadratures, time steps, numbers of steps and times, both methods", "why_tests_cant": "test_temporal_accuracy.py estimates the orders from three runs at one mesh; that the sources, boundaries, start tables and solvers fit together for all meshes, quadratures and steps is a statement about all of them.", "anchors": ["discrete1/timed1d.py:backward_euler", "discrete1/timed1d.py:bdf2", "discrete1/external1d.py:manufactured_td_01", "discrete1/external1d.py:manufactured_td_02", "discrete1/boundary1d.py:manufactured_td_02", "discrete1/utils/manufactured.py:solution_td_01", "discrete1/utils/manufactured.py:solution_td_02"]}
{"id": "C139", "title": "What the iterations of the steps leave in a time-dependent run is bounded by the stopping rule", "statement": "In every step of a time-dependent run whose scattering is a contraction (ratio rho in the energy norm), the returned scalar flux is within 2 rho^100 M/(1 - rho^100) + rho N 1e-8 M/(1 - rho) of the exact solution of that step, M being the size of the fluxes and N the number of cells, whichever way the iterations stopped; this adds to the error of the whole run against a smooth exact solution at most the elapsed time times an explicit constant times that distance, and nothing at all when the materials neither scatter nor fission: then every step is solved exactly.", "quantifier": "all slabs, materials, time steps, numbers of steps, sources and iteration exits", "why_tests_cant": "Whether iteration errors accumulate over many steps and mask the order of accuracy depends on every step of every run; a test sees one total error.", "anchors": ["discrete1/timed1d.py:backward_euler", "discrete1/timed1d.py:bdf2", "discrete1/multi_group.py:source_iteration", "discrete1/spatial_sweep.py:discrete_ordinates"]}
{"id": "C140", "title": "Legendre scattering on a slab defines exactly one flux, whatever the cell thickness, and the sweeps pull towards it", "statement": "For a quadrature whose weights sum to one and which integrates the products of the Legendre moments in use exactly, the Legendre rows are orthogonal; for a slab of any cell thickness whose materials scatter less than they remove in every moment (a ratio c < 1 in the energy sense, upscatter and thermal groups included) the discrete-ordinates equations with Legendre within-group scattering have exactly one solution. The within-group solver returns a flux within c^n of the distance its start had in the norm of all moments, n >= 1 being the passes it made, and one multigroup sweep leaves at most c times the distance before it plus c times the size of the higher moments (which every sweep restarts from zero). The solve always returns when no ordinate is zero.", "quantifier": "all slabs, cell thicknesses, quadratures exact for products, numbers of Legendre moments and of groups, cross sections with scattering ratio below one, sources, boundary data and starting fluxes", "why_tests_cant": "A test sees finitely many pairs of problem and starting flux; uniqueness quantifies over all candidate fluxes, and a contraction factor over all starts, moments and thicknesses. The equations' solution is not computable in a test without the very iteration under test.", "anchors": ["discrete1/spatial_sweep.py:slab_anisotropic_sn", "discrete1/spatial_sweep.py:slab_forward_aniso", "discrete1/spatial_sweep.py:slab_backward_aniso", "discrete1/multi_group.py:_one_sweep_aniso", "discrete1/multi_group.py:source_iteration", "discrete1/tools.py:legendre_polynomials"]}
{"id": "C141", "title": "A source iteration with Legendre scattering that has stopped is close to the solution", "statement": "When the multigroup source iteration with Legendre scattering stops because its flux no longer changes, the flux it returns is the solution of the discrete-ordinates equations up to a small multiple of the tolerance, whatever flux it was started from.", "quantifier": "all slabs, quadratures exact for products, Legendre moments, scattering ratios below one, sources, boundary data and starting fluxes", "why_tests_cant": "Starting fluxes for which the test of convergence is misleading are isolated points of a continuum: no random or hand-written start meets them, while restarts (time steps, power iterations, accelerated sweeps) choose the start from computed data.", "anchors": ["discrete1/multi_group.py:source_iteration_aniso", "discrete1/multi_group.py:_one_sweep_aniso", "discrete1/spatial_sweep.py:slab_anisotropic_sn"]}
{"id": "C142", "title": "Nonnegative data give nonnegative spherical fluxes on fine meshes", "statement": "With nonnegative cross sections, external source, incoming boundary flux and starting flux, source_iteration with geometry=2 returns a flux that is nowhere negative, provided the cells are optically thin.", "quantifier": "all spheres, quadratures with positive weights and zero first moment, group counts, nonnegative data and starting fluxes, for all sufficiently fine meshes", "why_tests_cant": "The sign must hold in every cell for every illumination and however far the mesh is refined; reference problems use smooth sources, on which the diamond and angular differencing happen to stay positive.", "anchors": ["discrete1/spatial_sweep.py:sphere_isotropic_sn", "discrete1/spatial_sweep.py:sphere_forward_iso", "discrete1/spatial_sweep.py:sphere_backward_iso", "discrete1/multi_group.py:source_iteration_iso"]}
{"id": "C143", "title": "The multigroup spherical solver solves the multigroup spherical equations", "statement": "source_iteration with geometry=2 always returns; every pass of every group of every sweep satisfies the discretised spherical transport equations with the emission of the fluxes known at that point (earlier groups renewed, later groups from the previous sweep, the group itself from the previous pass), within documented iteration limits and stopping tests; those equations determine the pass; a solution of the coupled multigroup equations is returned unchanged, and the infinite-medium spectrum is one.", "quantifier": "all spheres with positive widths and weights, inward ordinates first and zero first moment, all group counts, materials, scattering matrices, sources, boundary data and starting fluxes", "why_tests_cant": "The coupling of groups, ordinates, half-angle fluxes and cells must be right for every data set and at every pass of a loop of data-dependent length; a test compares one final array.", "anchors": ["discrete1/spatial_sweep.py:sphere_isotropic_sn", "discrete1/spatial_sweep.py:_half_angle_iso", "discrete1/spatial_sweep.py:sphere_forward_iso", "discrete1/spatial_sweep.py:sphere_backward_iso", "discrete1/multi_group.py:_one_sweep_iso", "discrete1/multi_group.py:source_iteration_iso"]}
{"id": "C144", "title": "Every Legendre moment of every transfer cross section enters the solution", "statement": "Given a four-dimensional scattering array (materials, groups out, groups in, Legendre moments), source_iteration solves the multigroup equations whose emission contains all supplied moments of scattering within a group and from every other group.", "quantifier": "all slabs, quadratures, group counts, materials and Legendre data", "why_tests_cant": "The shipped anisotropic cases have one group or isotropic transfer; that a part of the input array is never read is a statement about all values of that part.", "anchors": ["discrete1/multi_group.py:_one_sweep_aniso", "discrete1/multi_group.py:source_iteration_aniso", "discrete1/tools.py:_off_scatter"]}
{"id": "C145", "title": "Anisotropic spheres: every pass solves the spherical equations with Legendre emission", "statement": "source_iteration with geometry=2 and a four-dimensional scattering array always returns; every pass of every group of every sweep satisfies the discretised spherical transport equations whose emission contains the Legendre moments of the group's own previous angular flux (the first pass: the scalar flux only), isotropic scattering from the other groups as known at that point, and the external source, while the starting direction is given the isotropic part only, as documented; the pass is the only solution of those equations; the loops stop as documented; started from the infinite-medium spectrum with a quadrature that integrates the Legendre polynomials in use to zero, it returns that spectrum.", "quantifier": "all spheres with positive widths and weights, inward ordinates first and zero first moment, all group counts, numbers of Legendre moments, materials, scattering arrays, sources, boundary data and starting fluxes, with computed or supplied Legendre tables", "why_tests_cant": "Moments, half-angle fluxes and group coupling are carried from pass to pass of loops of data-dependent length; an error in one moment changes intermediate fluxes for some data only, and a test compares one final array.", "anchors": ["discrete1/spatial_sweep.py:sphere_anisotropic_sn", "discrete1/spatial_sweep.py:_half_angle_aniso", "discrete1/spatial_sweep.py:sphere_forward_aniso", "discrete1/spatial_sweep.py:sphere_backward_aniso", "discrete1/multi_group.py:_one_sweep_aniso", "discrete1/multi_group.py:source_iteration_aniso"]}
{"id": "C146", "title": "Power iteration works on spheres", "statement": "power_iteration with geometry=2 completes on every sphere without zero ordinate, with scattering arrays of either rank; started from (a multiple k of) a normalised nonvanishing eigenflux of the discrete spherical k-eigenvalue problem it returns that flux and k; at every eigenpair, in every group, k times (leakage plus collisions minus in-scatter plus what the angular differencing retains) equals the neutrons born.", "quantifier": "all spheres with positive widths and weights, inward ordinates first and zero first moment, all group counts, materials, scattering and fission data, eigenpairs and guesses", "why_tests_cant": "Termination and the fixed-point property are about all data and all starting fluxes; the test suite compares k for a few reactors.", "anchors": ["discrete1/critical1d.py:power_iteration", "discrete1/spatial_sweep.py:sphere_isotropic_sn", "discrete1/spatial_sweep.py:sphere_anisotropic_sn", "discrete1/multi_group.py:source_iteration"]}
{"id": "C147", "title": "At an eigenpair of a sphere k is production over losses", "statement": "The k that power_iteration reports for a sphere satisfies k * (leakage + absorption) = production, at least on fine meshes.", "quantifier": "all spheres, meshes, materials and eigenpairs", "why_tests_cant": "The balance must hold for every mesh; reference values of k are compared with a tolerance that a few per cent of lost neutrons in the innermost cell do not exceed.", "anchors": ["discrete1/critical1d.py:power_iteration", "discrete1/spatial_sweep.py:sphere_isotropic_sn", "discrete1/spatial_sweep.py:sphere_forward_iso", "discrete1/spatial_sweep.py:sphere_backward_iso"]}
{"id": "C148", "title": "Source iteration on spheres converges to the only solution when every material absorbs", "statement": "On a sphere in which the scattering into each group is less than c times its total cross section with c times the sum of the weights below one, the multigroup spherical equations have exactly one solution; every outer iteration of source_iteration with geometry=2 brings the flux closer to it by that factor, whatever the starting flux; a run that stops by itself is within the stated distance of it; and increasing the isotropic source or incoming flux never lowers the solution anywhere.", "quantifier": "all spheres, quadratures, group counts, materials with subcritical scattering, sources, boundary data and starting fluxes", "why_tests_cant": "Convergence is about all starting fluxes and the number of iterations is not bounded in advance; existence and uniqueness concern all flux arrays.", "anchors": ["discrete1/spatial_sweep.py:sphere_isotropic_sn", "discrete1/spatial_sweep.py:sphere_forward_iso", "discrete1/spatial_sweep.py:sphere_backward_iso", "discrete1/multi_group.py:_one_sweep_iso", "discrete1/multi_group.py:source_iteration_iso"]}
{"id": "C149", "title": "Hybrid runs are stable and first order accurate in time, whatever the coarse grids", "statement": "For a fixed fine and coarse problem on the same mesh there are a largest time step and a constant, depending on the data and the final time only, such that every hybrid1d.backward_euler or hybrid1d.bdf2 run with a smaller time step stays bounded by its start and its sources, returns scalar fluxes within constant*dt of those of the unsplit scheme with the same steps, and converges with order at least one to any smooth solution of the transport problem, whatever the coarse angular and energy grids, their cross sections, speeds and recombination factors.", "quantifier": "all slab problems without multiplication on the fine grid, coarse quadratures, coarse group maps and data, recombination factors, starts, sources, boundary data, step counts and sufficiently small time steps", "why_tests_cant": "Stability and order of accuracy are limits over all step counts and time steps; the independence of the coarse grids ranges over all of them.", "anchors": ["discrete1/hybrid1d.py:backward_euler", "discrete1/hybrid1d.py:bdf2", "discrete1/hybrid1d.py:_hybrid_method", "discrete1/multi_group.py:source_iteration"]}
{"id": "C150", "title": "Hybrid BDF2 runs are second order accurate in time", "statement": "hybrid1d.bdf2 converges with second order in the time step to any smooth solution of a slab problem without multiplication, as the unsplit timed1d.bdf2 does, whatever the coarse grids.", "quantifier": "all slab problems without multiplication, coarse grids, starts, sources, step counts and sufficiently small time steps", "why_tests_cant": "The order of convergence is a limit over all time steps and concerns all problems and all pairs of grids.", "anchors": ["discrete1/hybrid1d.py:bdf2", "discrete1/hybrid1d.py:_hybrid_method"]}
{"id": "C151", "title": "Hybrid runs that change their coarse grids from step to step are stable and first order accurate in time", "statement": "For a slab problem without multiplication and any assignment of coarse energy groups and ordinates to the time steps, there are a largest time step and a constant, depending on the data, the assignment and the final time only, such that every vhybrid1d.backward_euler or vhybrid1d.bdf2 run with a smaller time step stays bounded by its start and its sources, returns scalar fluxes within constant*dt of those of the unsplit scheme with the same steps, and converges with order at least one to any smooth solution of the transport problem.", "quantifier": "all slab problems without multiplication, per-step numbers of coarse groups and ordinates (one number or a list), packaged or computed group indices, starts, sources, boundary data, step counts and sufficiently small time steps", "why_tests_cant": "Stability and order of accuracy are limits over all step counts and time steps, and the grids may change at every step.", "anchors": ["discrete1/vhybrid1d.py:backward_euler", "discrete1/vhybrid1d.py:bdf2", "discrete1/vhybrid1d.py:_variable_hybrid_method", "discrete1/multi_group.py:source_iteration"]}
{"id": "C152", "title": "Rounding cannot make a power iteration's flux or multiplication factor negative", "statement": "In floating-point arithmetic power_iteration on a slab with isotropic scattering, started from a nonnegative guess with nonnegative scattering and fission data on a mesh with thin cells, either divides by a computed zero or returns a flux without negative entries and a nonnegative k, however the rounding falls and however numpy orders the sums of its norms; without rounding such a run is the run of the exact program, and started at a positive eigenpair it returns that k; when the rounding has a relative error bound and some cell with fission within a group has a positive starting flux in that group, no divisor vanishes and the run returns a positive k.", "quantifier": "all correctly rounding arithmetics, thin slab meshes, group counts, materials, matrix and chi/nusigf fission data, guesses and norms", "why_tests_cant": "Every operation of every pass is rounded; tests see a few reactors on one machine.", "anchors": ["discrete1/critical1d.py:power_iteration", "discrete1/tools.py:fission_mat_prod", "discrete1/tools.py:fission_vec_prod", "discrete1/tools.py:_update_keff_mat", "discrete1/tools.py:_update_keff_vec"]}
{"id": "C153", "title": "How far rounding can carry the fission source and k of a power iteration pass", "statement": "When every operation has relative error at most u, the fission source that a pass of power_iteration hands to the transport solve is the emission density of the previous flux divided by k within the factors (1-u)^(G+3) and (1+u)^(G+3), G being the number of groups; the k it computes is k times the ratio of the productions of the two computed fluxes within (1-u)^(N+2)/(1+u)^N and (1+u)^(N+2)/(1-u)^N, N = 2 + cells*G^2; and the flux it keeps is the computed flux over its norm within the fraction u.", "quantifier": "all arithmetics with relative error u <= 1/1000 per operation, slabs, group counts, nonnegative fission data and fluxes, positive k", "why_tests_cant": "The bound is about all data and all sums of any length; a test compares a k with a tolerance.", "anchors": ["discrete1/critical1d.py:power_iteration", "discrete1/tools.py:fission_mat_prod", "discrete1/tools.py:fission_vec_prod", "discrete1/tools.py:_update_keff_mat", "discrete1/tools.py:_update_keff_vec"]}
