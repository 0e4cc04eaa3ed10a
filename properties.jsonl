{"id": "C01", "title": "Periodic finite-volume stepping conserves particle number", "statement": "With FVM in q-space, periodic boundaries on both axes, no source term and enough ghost zones for the reconstruction, the total of f over the whole (distributed) q-grid is exactly unchanged, for each velocity point and species, by every call of a timestep method.", "quantifier": "all grid sizes, process decompositions, initial f, velocities (periodic in q), dt, reconstructions (piecewise-constant, minmod, ppm), numbers of steps", "why_tests_cant": "Conservation must hold for every f, velocity field, resolution and rank layout; a test only samples a few.", "anchors": ["bolt/lib/nonlinear/finite_volume/df_dt_fvm.py:df_dt_fvm", "bolt/lib/nonlinear/finite_volume/fvm_operator.py:op_fvm", "bolt/lib/nonlinear/communicate.py:communicate_f", "bolt/lib/nonlinear/timestep.py"]}
{"id": "C02", "title": "Results do not depend on the process decomposition", "statement": "Running the finite-volume timestep on any admissible process grid produces, at every global cell and over any number of steps, exactly the value that the conservative scheme on the global periodic grid produces (velocities sampled where the solver samples them), hence the value a serial run produces; when C_q[0] does not depend on q2 this is the textbook scheme with velocities at face centres.", "quantifier": "all process grids (any positive local sizes), all f, velocities, reconstructions, dt, N_ghost >= stencil width", "why_tests_cant": "There are unboundedly many decompositions and each exercises different ghost/corner data.", "anchors": ["bolt/lib/nonlinear/communicate.py:communicate_f", "bolt/lib/nonlinear/nonlinear_solver.py:nonlinear_solver.__init__", "bolt/lib/utils/af_petsc_conversion.py", "bolt/lib/nonlinear/finite_volume/df_dt_fvm.py"]}
{"id": "C03", "title": "Uniform states are preserved", "statement": "If f is uniform in q-space and the advection velocity does not depend on q, a source-free periodic finite-volume step returns f unchanged.", "quantifier": "all uniform values, velocities, grids, dt, reconstructions", "why_tests_cant": "Free-stream preservation is an identity over all values and limiter branches.", "anchors": ["bolt/lib/nonlinear/finite_volume/df_dt_fvm.py:df_dt_fvm", "bolt/lib/nonlinear/finite_volume/reconstruct.py:reconstruct"]}
{"id": "C04", "title": "First-order upwind step: positivity and maximum principle under the CFL condition", "statement": "With piecewise-constant reconstruction, q-independent velocities and |C1|dt/dq1+|C2|dt/dq2 <= 1, a full periodic RK2 finite-volume step keeps f within the bounds of the initial data (in particular non-negative data stay non-negative).", "quantifier": "all f, all velocities/dt meeting the CFL bound, all grids, all decompositions", "why_tests_cant": "A bound for every data set cannot be sampled.", "anchors": ["bolt/lib/nonlinear/finite_volume/fvm_operator.py:op_fvm", "bolt/lib/nonlinear/finite_volume/riemann.py:riemann_solver"]}
{"id": "C05", "title": "Minmod reconstruction stays within neighbouring cell averages", "statement": "Both face values returned by the minmod reconstruction lie between the minimum and maximum of the cell and its two neighbours; at a local extremum the reconstruction is flat; linear data are reproduced exactly.", "quantifier": "all real cell averages, both axes, all array sizes", "why_tests_cant": "Piecewise branches with sign and min combinations over all reals.", "anchors": ["bolt/lib/nonlinear/finite_volume/reconstruction/minmod.py:reconstruct_minmod", "bolt/lib/nonlinear/finite_volume/reconstruction/minmod.py:slope_minmod"]}
{"id": "C06", "title": "PPM reconstruction stays within neighbouring cell averages and is monotone in the cell", "statement": "Both PPM face values lie between the cell average and the adjacent cell averages, the parabola defined by them has no interior extremum, extrema are flattened, and linear data are reproduced exactly.", "quantifier": "all real five-point stencils", "why_tests_cant": "The limiter has dozens of sign cases; a bound over all reals needs proof.", "anchors": ["bolt/lib/nonlinear/finite_volume/reconstruction/ppm.py:reconstruct_ppm"]}
{"id": "C07", "title": "Reconstruction dispatch", "statement": "reconstruct(method) uses the named scheme for 'piecewise-constant', 'minmod' and 'ppm'; every other name is rejected with an exception and never silently falls through; 'weno5' is refused.", "quantifier": "all strings", "why_tests_cant": "Infinitely many method names.", "anchors": ["bolt/lib/nonlinear/finite_volume/reconstruct.py:reconstruct"]}
{"id": "C08", "title": "WENO5 reconstruction formulas are consistent", "statement": "The WENO5 face values are a convex combination of three sub-stencil interpolants: on data constant in the stencil the value is reproduced, and on quadratic point data each sub-stencil is exact, so the result does not depend on the smoothness weights.", "quantifier": "all real stencils with non-zero total weight", "why_tests_cant": "Identity over all reals.", "anchors": ["bolt/lib/nonlinear/finite_volume/reconstruction/weno5.py:reconstruct_weno5"]}
{"id": "C09", "title": "Momentum-space fluxes conserve particle number", "statement": "The p-space part of the finite-volume right-hand side sums to zero over the momentum grid at every spatial point and for every species, whatever the fields, so forces never create or destroy particles.", "quantifier": "all momentum grids N_p1,N_p2,N_p3 >= 1, all f, all C_p, all reconstructions", "why_tests_cant": "All field values and grids.", "anchors": ["bolt/lib/nonlinear/finite_volume/df_dt_fvm.py:df_dt_fvm", "bolt/lib/nonlinear/nonlinear_solver.py:_convert_to_p_expanded"]}
{"id": "C10", "title": "Every accepted ghost-zone count gives the correct finite-volume step", "statement": "For every N_ghost accepted by the constructors and every reconstruction method, the distributed finite-volume step computes the global scheme.", "quantifier": "all accepted N_ghost and reconstruction methods", "why_tests_cant": "Needs the relation between stencil width and ghost width over all sizes.", "anchors": ["bolt/lib/physical_system.py:physical_system.__init__", "bolt/lib/nonlinear/nonlinear_solver.py:nonlinear_solver.__init__", "bolt/lib/nonlinear/finite_volume/reconstruct.py"]}
{"id": "C11", "title": "Stale ghost data never influence a step", "statement": "With periodic boundaries the interior result of a finite-volume step depends only on the interior values of f before the step, whatever the ghost zones contained.", "quantifier": "all ghost contents, all f", "why_tests_cant": "Ghost contents are arbitrary left-overs.", "anchors": ["bolt/lib/nonlinear/communicate.py:communicate_f", "bolt/lib/nonlinear/finite_volume/fvm_operator.py:op_fvm"]}
{"id": "C12", "title": "Ghost-zone exchange", "statement": "After communicate_f every interior cell keeps its value and every ghost cell (corners included) holds the value of the corresponding periodic global cell; a second exchange changes nothing.", "quantifier": "all decompositions, N_ghost, dofs, f", "why_tests_cant": "All rank layouts and sizes.", "anchors": ["bolt/lib/nonlinear/communicate.py:communicate_f", "bolt/lib/nonlinear/communicate.py:communicate_fields", "bolt/lib/utils/af_petsc_conversion.py"]}
{"id": "C13", "title": "Mirror walls reflect", "statement": "With a mirror boundary on a cartesian momentum grid, ghost cell k beyond the wall holds the value of the k-th interior cell from the wall at the momentum with the normal component's index reversed; interior cells are untouched and the boundary operation is idempotent.", "quantifier": "all f, N_ghost, momentum grids", "why_tests_cant": "All sizes and index combinations.", "anchors": ["bolt/lib/nonlinear/boundaries.py:apply_mirror_bcs_f_cartesian"]}
{"id": "C14", "title": "Mirror boxes conserve particle number", "statement": "In a domain with mirror walls on both ends of an axis and a momentum grid symmetric about zero in the normal component, and velocities odd in that component (or a polar grid over the full circle), no net particle flux passes the walls: any history of finite-volume steps conserves the number of particles of every species, on every decomposition.", "quantifier": "all f, symmetric momentum grids, reconstructions, dt", "why_tests_cant": "All data; requires pairing reflected fluxes.", "anchors": ["bolt/lib/nonlinear/boundaries.py:apply_mirror_bcs_f_cartesian", "bolt/lib/nonlinear/finite_volume/df_dt_fvm.py"]}
{"id": "C15", "title": "Dirichlet boundaries prescribe inflow only", "statement": "With at least one ghost zone, a Dirichlet boundary writes the prescribed value only in ghost cells, and there only where the velocity points into the domain; all other values are unchanged.", "quantifier": "all f, velocities, boundary functions, sides", "why_tests_cant": "All data and velocity signs.", "anchors": ["bolt/lib/nonlinear/boundaries.py:apply_dirichlet_bcs_f"]}
{"id": "C16", "title": "Shearing-box coordinate wrap", "statement": "For any shear rate and time the loops that bring sheared coordinates back into the domain terminate, and each resulting coordinate lies in [start,end] and differs from the sheared one by a whole number of domain lengths.", "quantifier": "all coordinates, shear rates, times, domains with positive length", "why_tests_cant": "Termination and range for unboundedly large times.", "anchors": ["bolt/lib/nonlinear/boundaries.py:apply_shearing_box_bcs_f"]}
{"id": "C17", "title": "Boundary-condition dispatch", "statement": "For each edge the named boundary condition is applied exactly when the rank touches that edge of the global domain; unknown names raise NotImplementedError; interior cells are never modified by boundary conditions.", "quantifier": "all boundary names, ranks, f", "why_tests_cant": "Infinite set of names and layouts.", "anchors": ["bolt/lib/nonlinear/boundaries.py:apply_bcs_f"]}
{"id": "C18", "title": "Inconsistent boundary pairs are rejected", "statement": "The solver refuses a configuration in which only one end of an axis is 'periodic', 'shearing-box' or 'none'.", "quantifier": "all boundary-name quadruples", "why_tests_cant": "All combinations of names.", "anchors": ["bolt/lib/nonlinear/nonlinear_solver.py:nonlinear_solver.__init__"]}
{"id": "C19", "title": "Physical-system validation", "statement": "A domain accepted by physical_system has, for both q axes and for every species and momentum axis, start <= end, and a well-defined grid spacing.", "quantifier": "all domains, numbers of species", "why_tests_cant": "All lists of bounds.", "anchors": ["bolt/lib/physical_system.py:physical_system.__init__"]}
{"id": "C20", "title": "Field-solver selection", "statement": "Every field solver name accepted by physical_system for the chosen fields_type is honoured by the field update during time-stepping.", "quantifier": "all accepted spellings", "why_tests_cant": "All spellings/cases of the names.", "anchors": ["bolt/lib/physical_system.py", "bolt/lib/nonlinear/fields/fields.py:compute_electrostatic_fields", "bolt/lib/nonlinear/finite_volume/df_dt_fvm.py", "bolt/lib/nonlinear/semi_lagrangian/asl_operators.py:op_fields"]}
{"id": "C21", "title": "q-expanded and p-expanded layouts are inverse", "statement": "Converting an array between the q-expanded and p-expanded layouts and back returns it unchanged, and the element for momentum indices (i1,i2,i3) is found at row i1+N_p1*(i2+N_p2*i3), the same ordering used for the momentum coordinate arrays.", "quantifier": "all sizes, all arrays", "why_tests_cant": "All shapes.", "anchors": ["bolt/lib/nonlinear/nonlinear_solver.py:_convert_to_q_expanded", "bolt/lib/nonlinear/nonlinear_solver.py:_convert_to_p_expanded", "bolt/lib/utils/calculate_p.py"]}
{"id": "C22", "title": "Spatial coordinates are decomposition independent and correctly placed", "statement": "Each rank's coordinate arrays give, at every cell including ghosts, the global coordinate of that cell's corner, face centre or centre.", "quantifier": "all decompositions, grids", "why_tests_cant": "All layouts.", "anchors": ["bolt/lib/utils/calculate_q.py:calculate_q", "bolt/lib/nonlinear/nonlinear_solver.py:nonlinear_solver.__init__"]}
{"id": "C23", "title": "Momentum grid covers the domain", "statement": "The momentum cell centres lie strictly inside the domain, are equally spaced, and the cells tile [start,end] for each species.", "quantifier": "all N_p, bounds", "why_tests_cant": "All grids.", "anchors": ["bolt/lib/utils/calculate_p.py"]}
{"id": "C24", "title": "Distribution-function dump/load round trip", "statement": "Loading a distribution function dumped by dump_distribution_function restores every interior value, also when the run that loads uses a different process decomposition, and fills periodic ghost zones consistently.", "quantifier": "all f, decompositions", "why_tests_cant": "All contents and layouts.", "anchors": ["bolt/lib/nonlinear/file_io/dump.py:dump_distribution_function", "bolt/lib/nonlinear/file_io/load.py:load_distribution_function"]}
{"id": "C25", "title": "EM-field dump/load round trip", "statement": "Loading EM fields restores the staggered fields in the interior, and the cell-centred fields are the averages of the restored ones, so a restarted run sees the dumped fields.", "quantifier": "all fields, decompositions", "why_tests_cant": "All contents.", "anchors": ["bolt/lib/nonlinear/file_io/dump.py:dump_EM_fields", "bolt/lib/nonlinear/file_io/load.py:load_EM_fields", "bolt/lib/nonlinear/fields/fields.py:yee_grid_to_cell_centered_grid"]}
{"id": "C26", "title": "Moment dump layout", "statement": "In a moments dump, the value of species s of the k-th moment in alphabetical order is found at component k*N_species+s of each cell, as documented.", "quantifier": "all moment sets, species counts, cells", "why_tests_cant": "All sizes.", "anchors": ["bolt/lib/nonlinear/file_io/dump.py:dump_moments"]}
{"id": "C27", "title": "Auxiliary array dump", "statement": "dump_aux_arrays writes each array's interior data at its position in the list, on every call.", "quantifier": "all lists of arrays, all call histories", "why_tests_cant": "Depends on call history.", "anchors": ["bolt/lib/nonlinear/file_io/dump.py:dump_aux_arrays"]}
{"id": "C28", "title": "Runge-Kutta order of the nonlinear integrators", "statement": "RK2, RK4 and RK5 reproduce the Taylor expansion of the exact solution of linear systems to order 2, 4 and 5 and satisfy the classical order conditions; for time-independent right-hand sides they integrate exactly.", "quantifier": "all linear operators, all dt, all states", "why_tests_cant": "Order is a statement about all right-hand sides.", "anchors": ["bolt/lib/nonlinear/temporal_evolution/integrators.py"]}
{"id": "C29", "title": "Operator splitting order", "statement": "Lie splitting is first order, Strang and SWSS second order and Jia third order, for all pairs of (non-commuting) bounded linear operators whose sub-steps are at least that accurate; for commuting exact flows all are exact. (Fields disabled.)", "quantifier": "all operators, dt", "why_tests_cant": "Order is a statement about all operators.", "anchors": ["bolt/lib/nonlinear/temporal_evolution/operator_splitting_methods.py"]}
{"id": "C30", "title": "With FVM in q and p, all four time-stepping methods are equivalent", "statement": "When solver_method_in_q and solver_method_in_p are both 'FVM', lie, strang, swss and jia steps leave the solver in the same state.", "quantifier": "all states, dt", "why_tests_cant": "All states.", "anchors": ["bolt/lib/nonlinear/timestep.py"]}
{"id": "C31", "title": "Simulation clock", "statement": "After a successful history of timestep calls time_elapsed equals the sum of the dt's, and each operator sees the time at the start of its step.", "quantifier": "all call histories and configurations", "why_tests_cant": "Unbounded histories.", "anchors": ["bolt/lib/nonlinear/timestep.py"]}
{"id": "C32", "title": "Divergence stops the run", "statement": "A timestep that produces an infinite or undefined value raises SystemExit and does not advance time_elapsed; a step that returns normally leaves f finite everywhere on the rank.", "quantifier": "all states and methods", "why_tests_cant": "All states.", "anchors": ["bolt/lib/nonlinear/timestep.py:check_divergence"]}
{"id": "C33", "title": "SWSS and Jia advance the system once per step", "statement": "A swss or jia step advances the distribution function and the electromagnetic fields by one dt, i.e. all state that the two trial orderings modify is reset between them.", "quantifier": "all states with fields enabled", "why_tests_cant": "All states/histories.", "anchors": ["bolt/lib/nonlinear/temporal_evolution/operator_splitting_methods.py:swss", "bolt/lib/nonlinear/temporal_evolution/operator_splitting_methods.py:jia"]}
{"id": "C34", "title": "Yee update preserves div B", "statement": "The FDTD update leaves the discrete divergence of B on the periodic grid exactly unchanged, for any number of steps and any currents.", "quantifier": "all fields, currents, dt, grids", "why_tests_cant": "All fields and step counts.", "anchors": ["bolt/lib/nonlinear/fields/electrodynamic/fdtd_explicit.py", "bolt/lib/nonlinear/fields/fields.py:compute_divB"]}
{"id": "C35", "title": "Yee update preserves Gauss's law", "statement": "If the charge density evolves by the discrete continuity equation with the currents used, then eps*div E - rho is unchanged by the FDTD update.", "quantifier": "all fields, currents, rho, dt, grids", "why_tests_cant": "All fields.", "anchors": ["bolt/lib/nonlinear/fields/electrodynamic/fdtd_explicit.py:fdtd_evolve_E", "bolt/lib/nonlinear/fields/fields.py:compute_divE"]}
{"id": "C36", "title": "Vacuum FDTD conserves discrete energy", "statement": "Without currents the staggered discrete electromagnetic energy (E^n squared plus B^{n-1/2} times B^{n+1/2}) is exactly conserved by every FDTD step on the periodic grid.", "quantifier": "all fields, dt, steps", "why_tests_cant": "All fields and histories.", "anchors": ["bolt/lib/nonlinear/fields/electrodynamic/fdtd_explicit.py:fdtd"]}
{"id": "C37", "title": "Initial magnetic field from a vector potential is divergence free", "statement": "Magnetic fields initialised from the vector potential have zero discrete divergence as measured by the solver's own divergence check.", "quantifier": "all potentials, grids", "why_tests_cant": "All potentials.", "anchors": ["bolt/lib/nonlinear/fields/fields.py:initialize_magnetic_fields", "bolt/lib/nonlinear/fields/fields.py:compute_divB"]}
{"id": "C38", "title": "Cell-centred and staggered fields correspond", "statement": "The conversions between staggered and cell-centred fields preserve uniform fields and the domain average of every component, and reproduce affine fields at the right positions.", "quantifier": "all fields, grids", "why_tests_cant": "All fields.", "anchors": ["bolt/lib/nonlinear/fields/fields.py:cell_centered_grid_to_yee_grid", "bolt/lib/nonlinear/fields/fields.py:yee_grid_to_cell_centered_grid"]}
{"id": "C39", "title": "Staggered-in-time fields for FVM", "statement": "With FVM in p-space, the fields used in the first half of a step are those at time n and in the second half those at n+1/2, for every component of the force.", "quantifier": "all histories of steps", "why_tests_cant": "Depends on aliasing and call counts over histories.", "anchors": ["bolt/lib/nonlinear/fields/fields.py:get_fields", "bolt/lib/nonlinear/fields/fields.py:evolve_electrodynamic_fields", "bolt/lib/nonlinear/finite_volume/df_dt_fvm.py"]}
{"id": "C40", "title": "FFT Poisson solver", "statement": "The electrostatic field returned by the FFT solver has zero mean, is curl-free and satisfies the spectral Gauss law for the mean-subtracted charge density, for every resolved mode.", "quantifier": "all charge densities, grids", "why_tests_cant": "All densities.", "anchors": ["bolt/lib/nonlinear/fields/electrostatic/fft.py:fft_poisson"]}
{"id": "C41", "title": "Electrostatic field is kept consistent with the charge density", "statement": "In an electrostatic run the field used in the momentum update is recomputed from the current charge density in each step.", "quantifier": "all histories and solver-method combinations", "why_tests_cant": "Histories.", "anchors": ["bolt/lib/nonlinear/semi_lagrangian/asl_operators.py:op_fields", "bolt/lib/nonlinear/finite_volume/df_dt_fvm.py"]}
{"id": "C42", "title": "Semi-Lagrangian advection follows characteristics", "statement": "The semi-Lagrangian q-advection evaluates the previous f at the foot of each characteristic; when every displacement is a whole number of cells within the ghost width the step is an exact shift. The p-advection displaces f along all three momentum axes.", "quantifier": "all f, velocities, dt; any interpolation exact at nodes", "why_tests_cant": "All data.", "anchors": ["bolt/lib/nonlinear/semi_lagrangian/interpolation_routines.py"]}
{"id": "C43", "title": "Linear solver only accepts periodic domains", "statement": "Constructing a linear solver on a domain with any non-periodic boundary raises an error.", "quantifier": "all boundary quadruples", "why_tests_cant": "All combinations.", "anchors": ["bolt/lib/linear/linear_solver.py:linear_solver.__init__"]}
{"id": "C44", "title": "Linear solver initial state reproduces the initial distribution", "statement": "Right after construction the linear solver's reported distribution function equals the initial condition, and f_background is its spatial mean.", "quantifier": "all initial f, grids", "why_tests_cant": "All data.", "anchors": ["bolt/lib/linear/linear_solver.py:_initialize", "bolt/lib/linear/linear_solver.py:get_dist_func"]}
{"id": "C45", "title": "Moments of the linear solver agree with moments of its distribution", "statement": "Moments computed from f_hat equal the moments computed from the distribution function it represents.", "quantifier": "all f_hat, moments linear in f", "why_tests_cant": "All data.", "anchors": ["bolt/lib/linear/compute_moments.py:compute_moments"]}
{"id": "C46", "title": "Linear Maxwell solver preserves the divergence constraints", "statement": "The spectral field evolution keeps k.B unchanged, and keeps eps*ik.E - rho unchanged when charge is conserved, for every mode and every Runge-Kutta scheme.", "quantifier": "all modes, fields, dt", "why_tests_cant": "All modes/histories.", "anchors": ["bolt/lib/linear/fields/dfields_hat_dt.py", "bolt/lib/linear/integrators.py"]}
{"id": "C47", "title": "Linear electrostatic solver", "statement": "The linear solver's electrostatic field satisfies the spectral Gauss law for each non-zero mode, is curl-free and has zero mean.", "quantifier": "all charge densities, modes", "why_tests_cant": "All data.", "anchors": ["bolt/lib/linear/fields/electrostatic_solver.py"]}
{"id": "C48", "title": "Linear Runge-Kutta integrators are consistent", "statement": "The linear solver's RK2, RK4, RK5 match the Taylor expansion of the exact solution for autonomous linear systems to their order, and advance the clock by exactly dt.", "quantifier": "all operators, dt, states", "why_tests_cant": "All operators.", "anchors": ["bolt/lib/linear/integrators.py", "bolt/lib/linear/timestep.py"]}
{"id": "C49", "title": "Coupled linear time-stepping couples f and fields at each stage", "statement": "In coupled electrodynamic linear steps every Runge-Kutta stage evaluates the force with that stage's fields.", "quantifier": "all states", "why_tests_cant": "All states.", "anchors": ["bolt/lib/linear/df_hat_dt.py", "bolt/lib/linear/integrators.py"]}
{"id": "C50", "title": "Linear solver dump/load round trip", "statement": "Loading a distribution function dumped by the linear solver restores f_hat.", "quantifier": "all f, sizes", "why_tests_cant": "All contents.", "anchors": ["bolt/lib/linear/file_io/dump.py", "bolt/lib/linear/file_io/load.py"]}
{"id": "C51", "title": "Moments are linear, local and positive", "statement": "Density is non-negative for non-negative f, moments are linear in f, and energy and momentum satisfy the Cauchy-Schwarz (non-negative temperature) inequality n*(2E) >= |momentum|^2.", "quantifier": "all f, momentum grids", "why_tests_cant": "All data.", "anchors": ["bolt/src/nonrelativistic_boltzmann/moments.py", "bolt/lib/nonlinear/compute_moments.py"]}
{"id": "C52", "title": "BGK collision operator", "statement": "The BGK source vanishes exactly where f equals its local Maxwellian; with instantaneous collisions f is replaced by the Maxwellian; the Maxwellian is non-negative and its parameters are the density, bulk velocity and temperature of f.", "quantifier": "all f, tau>0", "why_tests_cant": "All data.", "anchors": ["bolt/src/nonrelativistic_boltzmann/collision_operator.py:BGK", "bolt/src/nonrelativistic_boltzmann/collision_operator.py:f0"]}
{"id": "C53", "title": "Lorentz force", "statement": "The magnetic force does no work, and each conservative momentum-advection component is independent of its own momentum coordinate, so conservative and advective forms agree.", "quantifier": "all fields, velocities, charges, masses", "why_tests_cant": "All reals.", "anchors": ["bolt/src/nonrelativistic_boltzmann/advection_terms.py"]}
{"id": "C54", "title": "Explicit small-matrix inverses", "statement": "inverse_3x3_matrix and inverse_4x4_matrix return the inverse of every matrix with non-zero determinant.", "quantifier": "all real matrices with non-zero determinant", "why_tests_cant": "All matrices.", "anchors": ["bolt/src/electronic_boltzmann/matrix_inverse.py"]}
{"id": "C55", "title": "Newton updates in the electronic collision operator", "statement": "Each iteration of the four local-equilibrium solvers moves to the guess Newton's method prescribes for 'the Fermi-Dirac distribution has the number (energy, momentum) of f', and to no other; the iteration rests exactly where those moments agree, and the result is the Fermi-Dirac distribution of the values stored.", "quantifier": "all distributions, energies, momenta on which the weights are linearly independent, guesses with positive temperature", "why_tests_cant": "All reals; needs the true derivative of the residual.", "anchors": ["bolt/src/electronic_boltzmann/collision_operator.py:f0_defect", "bolt/src/electronic_boltzmann/collision_operator.py:f0_defect_constant_T", "bolt/src/electronic_boltzmann/collision_operator.py:f0_ee", "bolt/src/electronic_boltzmann/collision_operator.py:f0_ee_constant_T"]}
{"id": "C56", "title": "Plasma unit helpers satisfy the textbook relations", "statement": "Debye length = thermal speed/plasma frequency, skin depth = c/plasma frequency, gyroradius = v/cyclotron frequency, Alfven time = L/Alfven speed.", "quantifier": "all positive inputs", "why_tests_cant": "All reals.", "anchors": ["bolt/src/nonrelativistic_boltzmann/units"]}
{"id": "C57", "title": "Global reductions over ranks", "statement": "global_min, global_max and global_mean return the minimum, maximum and mean over the distributed grid.", "quantifier": "all distributions of data over ranks", "why_tests_cant": "All decompositions.", "anchors": ["bolt/lib/utils/parallel_reduction_ops.py"]}
{"id": "C58", "title": "Wave-number grid", "statement": "The wave numbers used by the linear solver are those of the discrete Fourier transform: exp(i k (q - q_start)) is periodic on the domain and samples to the DFT basis, with the sign convention of fftfreq.", "quantifier": "all N, domains", "why_tests_cant": "All grids.", "anchors": ["bolt/lib/utils/calculate_k.py"]}
{"id": "C59", "title": "Discrete Fourier transform pair", "statement": "The library's fft2 and ifft2 wrappers are mutually inverse and linear.", "quantifier": "all arrays", "why_tests_cant": "All data.", "anchors": ["bolt/lib/utils/fft_funcs.py"]}
{"id": "C60", "title": "Source-only evolution in the semi-Lagrangian solver", "statement": "The source sub-step replaces f by the source's equilibrium in the instantaneous limit, integrates df/dt=source with RK2 when enabled, and otherwise leaves f unchanged.", "quantifier": "all f, parameters", "why_tests_cant": "All states.", "anchors": ["bolt/lib/nonlinear/semi_lagrangian/asl_operators.py:op_solve_src"]}
{"id": "C61", "title": "Reconstruction commutes with reflection", "statement": "Reversing the data along the reconstruction axis swaps the left and right face values, so the scheme has no preferred direction; for minmod, PPM and WENO5.", "quantifier": "all real stencils", "why_tests_cant": "A symmetry over all data.", "anchors": ["bolt/lib/nonlinear/finite_volume/reconstruction/minmod.py", "bolt/lib/nonlinear/finite_volume/reconstruction/ppm.py", "bolt/lib/nonlinear/finite_volume/reconstruction/weno5.py"]}
{"id": "C62", "title": "FDTD is stable below the Courant limit", "statement": "Without currents and with c^2 dt^2 (1/dq1^2 + 1/dq2^2) < 1, the electromagnetic energy norm stays bounded by a constant times the initial energy, for any number of FDTD steps.", "quantifier": "all initial fields, grids, decompositions, step counts", "why_tests_cant": "Stability is a statement about unbounded histories.", "anchors": ["bolt/lib/nonlinear/fields/electrodynamic/fdtd_explicit.py:fdtd"]}
{"id": "C63", "title": "FDTD on any decomposition is the Yee scheme on the global grid", "statement": "Over any history of Maxwell steps the staggered fields of all ranks together equal the textbook Yee leap-frog scheme run on the global periodic lattice with the species-summed currents.", "quantifier": "all histories, currents, grids and decompositions", "why_tests_cant": "Ranges over decompositions and histories.", "anchors": ["bolt/lib/nonlinear/fields/electrodynamic/fdtd_explicit.py", "bolt/lib/nonlinear/communicate.py:communicate_fields", "bolt/lib/nonlinear/fields/fields.py:evolve_electrodynamic_fields"]}
{"id": "C64", "title": "The linear solver conserves particle number", "statement": "Without a source the number of particles of each species in the domain, computed from the distribution function the linear solver returns, is the same after any sequence of time steps, with or without self-consistent fields.", "quantifier": "all initial states, histories mixing the Runge-Kutta methods and step sizes, grids, divergence-free forces", "why_tests_cant": "Conservation over unbounded histories and all states.", "anchors": ["bolt/lib/linear/df_hat_dt.py:df_hat_dt", "bolt/lib/linear/timestep.py", "bolt/lib/linear/linear_solver.py:get_dist_func"]}
{"id": "C65", "title": "Linear time steps work for any number of species", "statement": "With fields enabled a linear time step succeeds for every number of species and every momentum grid.", "quantifier": "all numbers of species and momentum grids", "why_tests_cant": "Ranges over all array shapes.", "anchors": ["bolt/lib/linear/df_hat_dt.py:df_hat_dt"]}
{"id": "C66", "title": "Superposition in the linear solver", "statement": "Without a source and with no fields or electrostatic fields, the run started from a linear combination of two states is the same combination of the two runs.", "quantifier": "all pairs of states, coefficients, histories", "why_tests_cant": "A law over all pairs of runs.", "anchors": ["bolt/lib/linear/df_hat_dt.py:df_hat_dt", "bolt/lib/linear/timestep.py", "bolt/lib/linear/fields/electrostatic_solver.py"]}
{"id": "C67", "title": "A field dump holds the fields in use", "statement": "The file written by dump_EM_fields holds the electromagnetic fields the run is using at that time, in electrostatic runs as well.", "quantifier": "all electrostatic histories", "why_tests_cant": "Ranges over histories.", "anchors": ["bolt/lib/nonlinear/file_io/dump.py:dump_EM_fields", "bolt/lib/nonlinear/fields/fields.py:compute_electrostatic_fields", "bolt/lib/nonlinear/fields/electrostatic/fft.py:fft_poisson"]}
{"id": "C68", "title": "A dump of another grid is refused", "statement": "Loading a distribution function that was dumped on a grid with other numbers of cells raises an error.", "quantifier": "all pairs of grids", "why_tests_cant": "Ranges over all pairs of grids.", "anchors": ["bolt/lib/nonlinear/file_io/load.py:load_distribution_function"]}
{"id": "C69", "title": "Coupled runs conserve particle number", "statement": "With the finite-volume method in q and p on a periodic domain, the total of every species is the same after any sequence of time steps, whatever electromagnetic fields the solver computes along the way and whichever of the four methods each step uses.", "quantifier": "all initial states, field configurations, histories mixing methods and step sizes, decompositions", "why_tests_cant": "Conservation over unbounded histories of a coupled system.", "anchors": ["bolt/lib/nonlinear/timestep.py", "bolt/lib/nonlinear/finite_volume/fvm_operator.py:op_fvm", "bolt/lib/nonlinear/finite_volume/df_dt_fvm.py"]}
{"id": "C70", "title": "Hybrid runs do not fail", "statement": "A hybrid (fluid electron) run with semi-Lagrangian advection on a periodic domain, one species and the standard moments, raises no exception in any sequence of lie, strang and swss steps.", "quantifier": "all states, histories, decompositions", "why_tests_cant": "Ranges over all histories and array shapes.", "anchors": ["bolt/lib/nonlinear/semi_lagrangian/asl_operators.py:op_fields", "bolt/lib/nonlinear/timestep.py", "bolt/lib/nonlinear/fields/fields.py:evolve_electrodynamic_fields"]}
{"id": "C71", "title": "Balance and rest state of electronic collisions", "statement": "With relaxation times that do not depend on momentum, the collision operator changes any moment by minus its mismatch with the two fitted equilibria over their relaxation times; a moment both equilibria reproduce is conserved. A Fermi-Dirac distribution at rest is left alone and so are the stored parameters. Unsupported grids, dimensions and zero iterations raise.", "quantifier": "all distributions, grids, relaxation times, iteration counts, stored guesses", "why_tests_cant": "All reals and iteration counts.", "anchors": ["bolt/src/electronic_boltzmann/collision_operator.py:RTA"]}
{"id": "C72", "title": "Polar coordinates describe free motion", "statement": "The advection terms of the polar system are followed exactly by uniform straight-line motion, and its source term makes the conservative form equal to transport along those characteristics.", "quantifier": "all smooth trajectories with r > 0, all differentiable f", "why_tests_cant": "Ranges over functions.", "anchors": ["bolt/src/coordinate_transformation/advection_terms.py", "bolt/src/coordinate_transformation/source_term.py"]}
{"id": "C73", "title": "Walls do not break decomposition independence", "statement": "On a box whose sides are periodic, mirror or mirror+dirichlet, any history of finite-volume steps gives at every global cell the textbook method with lines continued by their mirror images or the prescribed inflow; it is the same on every admissible process grid and does not depend on what the ghost cells held before.", "quantifier": "all histories, f, velocities, sources, forces, prescribed inflows, reconstructions with enough ghost zones, decompositions with blocks at least N_ghost wide", "why_tests_cant": "Unboundedly many decompositions and histories.", "anchors": ["bolt/lib/nonlinear/boundaries.py:apply_bcs_f", "bolt/lib/nonlinear/communicate.py:communicate_f", "bolt/lib/nonlinear/finite_volume/fvm_operator.py:op_fvm"]}
{"id": "C74", "title": "A gas at rest between mirrors stays at rest", "statement": "A distribution that does not depend on position and is unchanged by reflection at the walls (and equal to any prescribed inflow) is returned unchanged by any history of source-free, force-free finite-volume steps with position-independent velocities.", "quantifier": "all such distributions, velocities, reconstructions, dt, decompositions", "why_tests_cant": "An identity over all values and limiter branches.", "anchors": ["bolt/lib/nonlinear/boundaries.py:apply_mirror_bcs_f_cartesian", "bolt/lib/nonlinear/boundaries.py:apply_mirror_bcs_f_polar2D", "bolt/lib/nonlinear/finite_volume/df_dt_fvm.py:df_dt_fvm"]}
{"id": "C75", "title": "First-order steps between walls keep their bounds", "statement": "With piecewise-constant reconstruction, position-independent velocities, speeds unchanged by reflection and |C1|dt/dq1+|C2|dt/dq2 <= 1, any history of steps in a box with mirror or mirror+dirichlet walls keeps f within bounds that hold for the initial data and the prescribed inflow; non-negative data stay non-negative.", "quantifier": "all f, inflows, velocities and dt meeting the bound, decompositions, numbers of steps", "why_tests_cant": "A bound for every data set and history.", "anchors": ["bolt/lib/nonlinear/boundaries.py:apply_bcs_f", "bolt/lib/nonlinear/finite_volume/fvm_operator.py:op_fvm", "bolt/lib/nonlinear/finite_volume/riemann.py:riemann_solver"]}
{"id": "C76", "title": "Semi-Lagrangian steps conserve particles", "statement": "On a periodic domain, with velocities that do not depend on position and displacements the ghost zones can serve, any history of semi-Lagrangian steps in position space without source keeps the number of particles of every momentum and species; with a source that conserves particles it keeps the number of every species, for every splitting method.", "quantifier": "all histories of lie, strang, swss and jia steps, f, velocities, decompositions, interpolations whose weights sum to one", "why_tests_cant": "A sum over the whole grid for every history.", "anchors": ["bolt/lib/nonlinear/semi_lagrangian/interpolation_routines.py:f_interp_2d", "bolt/lib/nonlinear/semi_lagrangian/asl_operators.py", "bolt/lib/nonlinear/timestep.py"]}
{"id": "C77", "title": "Semi-Lagrangian steps do not depend on the process grid", "statement": "The same global data on two process grids stay the same after any history of semi-Lagrangian steps in position space, sources included, as long as the displacements can be served by the ghost zones.", "quantifier": "all histories, f, velocities (also position dependent), sources, decompositions", "why_tests_cant": "Unboundedly many decompositions and histories.", "anchors": ["bolt/lib/nonlinear/semi_lagrangian/interpolation_routines.py:f_interp_2d", "bolt/lib/nonlinear/communicate.py:communicate_f"]}
{"id": "C78", "title": "Semi-Lagrangian steps keep uniform states", "statement": "A distribution that does not depend on position is returned unchanged by any history of source-free semi-Lagrangian steps in position space, whatever the velocities within reach of the ghost zones.", "quantifier": "all such distributions, velocity fields, dt, splitting methods, decompositions", "why_tests_cant": "An identity over all values.", "anchors": ["bolt/lib/nonlinear/semi_lagrangian/interpolation_routines.py:f_interp_2d"]}
{"id": "C79", "title": "Too large semi-Lagrangian steps are reported", "statement": "A displacement the ghost zones cannot serve is refused with an error, or served from further away; it never changes the amount of matter silently.", "quantifier": "all f, velocities, dt", "why_tests_cant": "Ranges over all displacements.", "anchors": ["bolt/lib/nonlinear/semi_lagrangian/interpolation_routines.py:f_interp_2d"]}
{"id": "C80", "title": "Semi-Lagrangian momentum advection treats species independently", "statement": "With several species, the momentum sub-step acts on each species with that species' momentum grid; without forces it leaves f unchanged.", "quantifier": "all numbers of species, momentum grids, f", "why_tests_cant": "Ranges over all numbers of species and grids.", "anchors": ["bolt/lib/nonlinear/semi_lagrangian/interpolation_routines.py:f_interp_p_3d", "bolt/lib/utils/broadcasted_primitive_operations.py"]}
{"id": "C81", "title": "The units of f do not matter", "statement": "Multiplying the initial distribution by any constant, also a negative one, multiplies every later distribution by it, for any history of finite-volume steps whose source is proportional to f; without forces and source and with position-independent velocities a constant may also be added for each momentum and species.", "quantifier": "all f, factors, constants, histories, reconstructions, fields, decompositions of a periodic grid", "why_tests_cant": "An identity over all values and limiter branches.", "anchors": ["bolt/lib/nonlinear/finite_volume/reconstruct.py:reconstruct", "bolt/lib/nonlinear/finite_volume/df_dt_fvm.py:df_dt_fvm", "bolt/lib/nonlinear/finite_volume/fvm_operator.py:op_fvm"]}
{"id": "C82", "title": "Finite-volume runs are invariant under translations", "statement": "With velocities, forces and a source that do not mention position, moving the initial data and the fields by any number of cells round the periodic grid moves every later distribution by as much; the data may cross rank borders.", "quantifier": "all f, displacements, histories, fields, reconstructions, decompositions", "why_tests_cant": "Ranges over all displacements, decompositions and histories.", "anchors": ["bolt/lib/nonlinear/finite_volume/df_dt_fvm.py:df_dt_fvm", "bolt/lib/nonlinear/communicate.py:communicate_f"]}
{"id": "C83", "title": "Finite-volume runs prefer no direction", "statement": "Reversing the data along q1, q2 or both, with the momenta paired so that the corresponding velocities change sign, reverses every later distribution of a source-free, force-free run.", "quantifier": "all f, pairings of momenta, histories, reconstructions, decompositions", "why_tests_cant": "An identity over all values, limiter branches and upwind choices.", "anchors": ["bolt/lib/nonlinear/finite_volume/reconstruct.py:reconstruct", "bolt/lib/nonlinear/finite_volume/riemann.py:riemann_solver", "bolt/lib/nonlinear/finite_volume/df_dt_fvm.py:df_dt_fvm"]}
{"id": "C84", "title": "A cell depends on its neighbourhood only", "statement": "After n finite-volume steps the value in a cell depends only on initial data within 2 n (r + 1) cells of it, r being the reach of the reconstruction, for any velocity fields, forces and sources.", "quantifier": "all pairs of initial states agreeing in the neighbourhood, cells, histories, decompositions", "why_tests_cant": "Ranges over all pairs of states and histories.", "anchors": ["bolt/lib/nonlinear/finite_volume/reconstruct.py:reconstruct", "bolt/lib/nonlinear/finite_volume/fvm_operator.py:op_fvm", "bolt/lib/nonlinear/communicate.py:communicate_f"]}
{"id": "C85", "title": "Momenta and species do not mix", "statement": "Without forces and source, the particles of one momentum and species evolve independently of all others; with given forces and a source that looks at its own species, each species evolves independently of the others.", "quantifier": "all pairs of initial states agreeing for that momentum or species, histories, decompositions", "why_tests_cant": "Ranges over all pairs of states and histories.", "anchors": ["bolt/lib/nonlinear/finite_volume/df_dt_fvm.py:df_dt_fvm", "bolt/lib/nonlinear/finite_volume/fvm_operator.py:op_fvm", "bolt/lib/nonlinear/communicate.py:communicate_f"]}
{"id": "C86", "title": "First-order runs keep order and never spread apart", "statement": "With piecewise-constant reconstruction, position-independent velocities and |C1|dt/dq1+|C2|dt/dq2 <= 1, if one initial distribution lies below another it stays below, and no sum over the grid of a convex function of the difference of two runs increases; in particular L1 distances and entropies do not grow.", "quantifier": "all pairs of f, convex functions, velocities and dt meeting the bound, numbers of steps, decompositions", "why_tests_cant": "A bound for all pairs of data sets, convex functions and histories.", "anchors": ["bolt/lib/nonlinear/finite_volume/fvm_operator.py:op_fvm", "bolt/lib/nonlinear/finite_volume/riemann.py:riemann_solver", "bolt/lib/nonlinear/finite_volume/reconstruct.py:reconstruct"]}
{"id": "C87", "title": "Coupled electrodynamic runs are the Vlasov-Maxwell scheme", "statement": "Starting from a constructed solver with finite-volume advection and the FDTD field solver, every sequence of time steps of any of the four kinds succeeds; f follows the midpoint rule, the fields the Yee scheme driven by the face currents of the half-step state, the force sees the cell-centred fields at the right time levels, and the solver's and the field solver's clocks both equal the elapsed time.", "quantifier": "all f, initial fields, histories, dt, reconstructions, forces, sources, decompositions of a periodic grid", "why_tests_cant": "A refinement statement over whole histories.", "anchors": ["bolt/lib/nonlinear/timestep.py", "bolt/lib/nonlinear/finite_volume/fvm_operator.py:op_fvm", "bolt/lib/nonlinear/finite_volume/df_dt_fvm.py:df_dt_fvm", "bolt/lib/nonlinear/fields/fields.py:evolve_electrodynamic_fields", "bolt/lib/nonlinear/fields/fields.py:get_fields"]}
{"id": "C88", "title": "Gauss's law holds in coupled runs", "statement": "When particles move with their momentum, in every cell eps div E (as the solver computes it) minus the charge density of f never changes, whatever the reconstruction, forces, conserving source and step sizes; div B never changes either.", "quantifier": "all f, initial fields, histories, dt, reconstructions, forces, conserving sources, decompositions, cells", "why_tests_cant": "Cancellation between two subsystems, for every state and history.", "anchors": ["bolt/lib/nonlinear/finite_volume/df_dt_fvm.py:df_dt_fvm", "bolt/lib/nonlinear/fields/electrodynamic/fdtd_explicit.py:fdtd", "bolt/lib/nonlinear/fields/fields.py:evolve_electrodynamic_fields", "bolt/lib/nonlinear/fields/fields.py:compute_divE"]}
{"id": "C89", "title": "Coupled runs do not depend on the process grid", "statement": "The same user-defined fields and the same initial f, run on different process grids and with different ghost widths, hold the same f and the same fields after any sequence of time steps.", "quantifier": "all pairs of process grids, f, user-defined field functions, histories, dt, reconstructions, sources", "why_tests_cant": "Ranges over all decompositions and histories.", "anchors": ["bolt/lib/nonlinear/communicate.py:communicate_f", "bolt/lib/nonlinear/communicate.py:communicate_fields", "bolt/lib/nonlinear/fields/fields.py:_initialize", "bolt/lib/nonlinear/timestep.py"]}
{"id": "C90", "title": "A uniform current-free plasma stays at rest", "statement": "A spatially uniform plasma whose species together carry no current, without fields and source, keeps its f and stays without fields for any number of steps.", "quantifier": "all uniform current-free f, histories, dt, reconstructions, forces that vanish without fields, decompositions", "why_tests_cant": "An invariant of the coupled system over all histories.", "anchors": ["bolt/lib/nonlinear/finite_volume/df_dt_fvm.py:df_dt_fvm", "bolt/lib/nonlinear/fields/electrodynamic/fdtd_explicit.py:fdtd", "bolt/lib/nonlinear/timestep.py"]}
{"id": "C91", "title": "Initial fields are the user's functions", "statement": "With user-defined initial fields each component of the staggered array holds the user's function at that component's place on the Yee grid, B1 and B2 the discrete curl of A3 when A3 is given, on every process grid; the cell-centred fields are the averages of these.", "quantifier": "all functions, cells, process grids, ghost widths", "why_tests_cant": "Ranges over all functions and decompositions.", "anchors": ["bolt/lib/nonlinear/fields/fields.py:initialize_electric_fields", "bolt/lib/nonlinear/fields/fields.py:initialize_magnetic_fields", "bolt/lib/nonlinear/fields/fields.py:_initialize", "bolt/lib/utils/calculate_q.py:calculate_q"]}
{"id": "C92", "title": "Field boundary conditions do what their names say", "statement": "Applying the field boundary conditions changes only cells behind the physical edges; behind an edge each component takes the user's value ('dirichlet', 'mirror+dirichlet'), the value of the cell at the same distance in front of the edge (reflected components of 'mirror') or keeps its own ('periodic', 'none'); other names are refused on every process grid and the documented 'shearing-box' works.", "quantifier": "all fields, edges, combinations of names, user functions, process grids, ghost widths, cells", "why_tests_cant": "Ranges over all fields, functions and decompositions.", "anchors": ["bolt/lib/nonlinear/fields/boundaries.py:apply_bcs_fields", "bolt/lib/nonlinear/fields/boundaries.py:apply_mirror_bcs_fields", "bolt/lib/nonlinear/fields/boundaries.py:apply_dirichlet_bcs_fields", "bolt/lib/nonlinear/fields/boundaries.py:apply_shearing_box_bcs_fields"]}
{"id": "C93", "title": "FDTD between mirrors is the Yee scheme with the reflected electric field", "statement": "With mirrors at both ends of any of the axes every history of field steps succeeds, follows the Yee scheme in which the electric field behind a mirror is the one in front of it, gives the same fields on every process grid, keeps the residual of Gauss's law in every cell, and keeps div B in every cell not touching a mirror.", "quantifier": "all initial fields, currents, histories, dt, process grids, ghost widths, choices of walls", "why_tests_cant": "A refinement statement over all histories and decompositions.", "anchors": ["bolt/lib/nonlinear/fields/electrodynamic/fdtd_explicit.py:fdtd", "bolt/lib/nonlinear/fields/boundaries.py:apply_mirror_bcs_fields", "bolt/lib/nonlinear/communicate.py:communicate_fields", "bolt/lib/nonlinear/fields/fields.py:compute_divE", "bolt/lib/nonlinear/fields/fields.py:compute_divB"]}
{"id": "C94", "title": "Mirrors hold the magnetic field on the wall", "statement": "As the comments in the mirror code say, the magnetic field components that the Yee grid places on a mirror do not change there: B2 and B3 on walls across q1, B1 and B3 on walls across q2.", "quantifier": "all initial fields, currents, histories, dt, process grids", "why_tests_cant": "An invariant over all histories.", "anchors": ["bolt/lib/nonlinear/fields/electrodynamic/fdtd_explicit.py:fdtd", "bolt/lib/nonlinear/fields/boundaries.py:apply_mirror_bcs_fields"]}
{"id": "C95", "title": "A box between mirrors is half of a periodic box (method of images)", "statement": "Fields that vanish on the walls as the reflection demands and currents not crossing them evolve, for any number of steps and on any process grids, exactly as in a periodic box twice as long whose fields and currents are continued by their mirror images.", "quantifier": "all such fields, currents, histories, dt, pairs of process grids, either axis", "why_tests_cant": "Relates two whole runs of different size for every history.", "anchors": ["bolt/lib/nonlinear/fields/electrodynamic/fdtd_explicit.py:fdtd", "bolt/lib/nonlinear/fields/boundaries.py:apply_mirror_bcs_fields", "bolt/lib/nonlinear/fields/fields.py:evolve_electrodynamic_fields"]}
{"id": "C96", "title": "A cavity closed by mirrors is isolated", "statement": "Without currents the electromagnetic energy in a box closed by mirrors never changes, below the Courant limit the fields stay bounded, and what happens at one wall reaches the opposite wall only through the box.", "quantifier": "all initial fields, histories, dt, process grids, choices of walls", "why_tests_cant": "An invariant over all histories.", "anchors": ["bolt/lib/nonlinear/fields/electrodynamic/fdtd_explicit.py:fdtd", "bolt/lib/nonlinear/fields/boundaries.py:apply_mirror_bcs_fields", "bolt/lib/nonlinear/communicate.py:communicate_fields"]}
{"id": "C97", "title": "First-order runs converge to the exact solution", "statement": "For particles moving at constant velocity from smooth initial data, a run with piecewise-constant reconstruction and Courant number at most 1 differs from the exact solution f(q - v t) by at most 3 M t (|v1| dq1 + |v2| dq2), M bounding the second-order remainder of the data, whatever the step sizes and process grid.", "quantifier": "all smooth periodic data, velocities, grids, sequences of dt meeting the bound, decompositions", "why_tests_cant": "A convergence statement over all grids, data and histories.", "anchors": ["bolt/lib/nonlinear/finite_volume/fvm_operator.py:op_fvm", "bolt/lib/nonlinear/finite_volume/df_dt_fvm.py:df_dt_fvm", "bolt/lib/nonlinear/finite_volume/riemann.py:riemann_solver"]}
{"id": "C98", "title": "Linear profiles are transported exactly", "statement": "Where f is a linear function of q in the cells a run can reach, every number of steps with piecewise-constant, minmod or ppm reconstruction moves it by exactly v t.", "quantifier": "all linear profiles, velocities, histories, dt, the three reconstructions, decompositions", "why_tests_cant": "Ranges over all profiles and histories.", "anchors": ["bolt/lib/nonlinear/finite_volume/reconstruct.py:reconstruct", "bolt/lib/nonlinear/finite_volume/reconstruction/ppm.py:reconstruct_ppm", "bolt/lib/nonlinear/finite_volume/reconstruction/minmod.py:reconstruct_minmod", "bolt/lib/nonlinear/finite_volume/fvm_operator.py:op_fvm"]}
{"id": "C99", "title": "Limited reconstructions keep f within its bounds", "statement": "With minmod reconstruction and Courant number at most 1/2, f of free particles never leaves the range of its initial values; in particular it stays non-negative.", "quantifier": "all f, velocities, dt meeting the bound, numbers of steps, decompositions", "why_tests_cant": "A bound over all data and histories.", "anchors": ["bolt/lib/nonlinear/finite_volume/reconstruction/minmod.py:reconstruct_minmod", "bolt/lib/nonlinear/finite_volume/fvm_operator.py:op_fvm", "bolt/lib/nonlinear/finite_volume/df_dt_fvm.py:df_dt_fvm"]}
{"id": "C100", "title": "Free streaming in the linear solver does not amplify modes", "statement": "Without fields and sources the exact modes of the linear solver only rotate; a run with any of the three time steppers does not make the modulus of any mode of f grow when the step resolves the mode.", "quantifier": "all modes, momenta, initial conditions, sequences of steps of RK2, RK4, RK5", "why_tests_cant": "A stability statement over all histories and step sizes.", "anchors": ["bolt/lib/linear/timestep.py", "bolt/lib/linear/integrators.py", "bolt/lib/linear/df_hat_dt.py:df_hat_dt"]}
{"id": "C101", "title": "Free streaming in the linear solver follows the exact phase", "statement": "Without fields and sources every mode of f after any sequence of resolved RK4 and RK5 steps is its initial value rotated by the exact phase, up to the sum over the steps of |w dt|^5/100 (RK4) and (w dt)^6/2000 (RK5).", "quantifier": "all modes, momenta, initial conditions, sequences of steps", "why_tests_cant": "An error bound over all histories.", "anchors": ["bolt/lib/linear/timestep.py", "bolt/lib/linear/integrators.py", "bolt/lib/linear/df_hat_dt.py:df_hat_dt"]}
{"id": "C102", "title": "Hybrid runs solve Ohm's and Faraday's laws with kinetic ions", "statement": "With the hybrid model, finite volumes and at least three ghost zones, every sequence of time steps succeeds and computes, on the global grid, the midpoint rule for f coupled to the generalised Ohm's law E = -v x B + J x B/(en) - T_e grad n/(en) with J = curl B/mu and to Faraday's law; the clocks of f and fields advance together.", "quantifier": "all f, fields, force laws, reconstructions, dt, histories, process grids", "why_tests_cant": "A refinement for every history and process grid.", "anchors": ["bolt/lib/nonlinear/finite_volume/df_dt_fvm.py:df_dt_fvm", "bolt/lib/nonlinear/fields/electrodynamic/fdtd_explicit.py:fdtd", "bolt/lib/nonlinear/fields/fields.py:evolve_electrodynamic_fields", "bolt/lib/nonlinear/compute_moments.py:compute_moments"]}
{"id": "C103", "title": "Hybrid runs create no magnetic monopoles", "statement": "The divergence of B, as the solver computes it, does not change in any cell during a hybrid run.", "quantifier": "all f, fields, histories, dt, process grids", "why_tests_cant": "An invariant over all histories.", "anchors": ["bolt/lib/nonlinear/finite_volume/df_dt_fvm.py:df_dt_fvm", "bolt/lib/nonlinear/fields/electrodynamic/fdtd_explicit.py:fdtd_evolve_B", "bolt/lib/nonlinear/fields/fields.py:compute_divB"]}
{"id": "C104", "title": "Hybrid runs do not depend on the process grid", "statement": "The same initial functions give the same f and fields after any hybrid run on any two process grids (three or more ghost zones).", "quantifier": "all initial functions, histories, pairs of process grids", "why_tests_cant": "Relates runs on all process grids.", "anchors": ["bolt/lib/nonlinear/finite_volume/df_dt_fvm.py:df_dt_fvm", "bolt/lib/nonlinear/communicate.py:communicate_fields", "bolt/lib/nonlinear/compute_moments.py:compute_moments"]}
{"id": "C105", "title": "Coupled runs commute with translations", "statement": "Starting a periodic electrodynamic run (full Maxwell or hybrid) from data moved by whole cells gives the moved result, wherever the rank borders are; in particular data that do not vary along some direction never do.", "quantifier": "all data, displacements, histories, dt, reconstructions, process grids", "why_tests_cant": "Relates two runs for every history.", "anchors": ["bolt/lib/nonlinear/finite_volume/df_dt_fvm.py:df_dt_fvm", "bolt/lib/nonlinear/finite_volume/fvm_operator.py:op_fvm", "bolt/lib/nonlinear/fields/fields.py:evolve_electrodynamic_fields"]}
{"id": "C106", "title": "Homogeneous plasmas stay homogeneous and keep their magnetic field", "statement": "A plasma that is the same in every cell stays so, and its magnetic field never changes, in the full Maxwell and the hybrid model.", "quantifier": "all momentum distributions, uniform fields, histories, dt, process grids", "why_tests_cant": "An invariant over all histories.", "anchors": ["bolt/lib/nonlinear/finite_volume/df_dt_fvm.py:df_dt_fvm", "bolt/lib/nonlinear/fields/electrodynamic/fdtd_explicit.py:fdtd"]}
{"id": "C107", "title": "Unmagnetised hybrid plasmas stay unmagnetised", "statement": "Isothermal electrons push with the gradient of log n, which has no curl, so without a magnetic field a hybrid run creates none.", "quantifier": "all f with positive density, histories, dt, process grids", "why_tests_cant": "An invariant over all histories.", "anchors": ["bolt/lib/nonlinear/finite_volume/df_dt_fvm.py:df_dt_fvm"]}
{"id": "C108", "title": "Evenly spread ions without fields are an equilibrium of the hybrid model", "statement": "Ions with the same momentum distribution in every cell, drifting or not, and no fields: nothing changes in any run.", "quantifier": "all momentum distributions, histories, dt, process grids", "why_tests_cant": "Ranges over all distributions and histories.", "anchors": ["bolt/lib/nonlinear/finite_volume/df_dt_fvm.py:df_dt_fvm", "bolt/lib/nonlinear/finite_volume/fvm_operator.py:op_fvm"]}
{"id": "C109", "title": "The mirror image of an electrodynamic run is the run of the mirror image", "statement": "Reflect a plasma and its fields along q1, q2 or both, with opposite momenta and with E a vector and B an axial vector: a run from the image gives the image of the run. A plasma that is its own mirror image stays so.", "quantifier": "all f, fields, handedness-free force laws, histories, dt, process grids", "why_tests_cant": "Ranges over all states and histories.", "anchors": ["bolt/lib/nonlinear/fields/electrodynamic/fdtd_explicit.py:fdtd", "bolt/lib/nonlinear/finite_volume/fvm_operator.py:op_fvm", "bolt/lib/nonlinear/finite_volume/df_dt_fvm.py:df_dt_fvm"]}
{"id": "C110", "title": "The mirror image of a hybrid run is the run of the mirror image", "statement": "The same with fluid electrons.", "quantifier": "all f, fields, histories, dt, process grids", "why_tests_cant": "Ranges over all states and histories.", "anchors": ["bolt/lib/nonlinear/finite_volume/df_dt_fvm.py:df_dt_fvm"]}
{"id": "C111", "title": "The electric field of the linear hybrid model is given by Ohm's law", "statement": "With fluid electrons the linear solver's electric field is -u x B - T_e grad n / (e n0), mode by mode, with the mean density and the mean velocity of the ions.", "quantifier": "all f, magnetic fields, grids, modes, T_e", "why_tests_cant": "Ranges over all states.", "anchors": ["bolt/lib/linear/fields/dfields_hat_dt.py:dfields_hat_dt"]}
{"id": "C112", "title": "Linear hybrid runs keep the divergence of B, and create no magnetic field from none", "statement": "In every linear run with fluid electrons and one kinetic species, div B stays what it was, and a plasma without magnetic field never gets one; such runs never raise an error, and with several kinetic species no step completes.", "quantifier": "all f, fields, T_e, sequences of methods and time steps", "why_tests_cant": "An invariant over all histories.", "anchors": ["bolt/lib/linear/fields/dfields_hat_dt.py:dfields_hat_dt", "bolt/lib/linear/integrators.py:RK2", "bolt/lib/linear/integrators.py:RK4", "bolt/lib/linear/integrators.py:RK5", "bolt/lib/linear/timestep.py"]}
{"id": "C113", "title": "After a linear hybrid step the electric field belongs to the new state", "statement": "The stored electric field is that of Ohm's law for the stored distribution function and magnetic field.", "quantifier": "all states, methods, dt", "why_tests_cant": "Ranges over all states.", "anchors": ["bolt/lib/linear/fields/dfields_hat_dt.py:dfields_hat_dt", "bolt/lib/linear/integrators.py:RK2", "bolt/lib/linear/timestep.py:RK2_step"]}
{"id": "C114", "title": "The physical systems that come with the code can be simulated", "statement": "Each shipped system offers all advection terms in the form in which the solvers call them, so that no call fails, and the moments that the field solvers ask for.", "quantifier": "all points of phase space, times, field values, distributions", "why_tests_cant": "A call with wrong arguments fails only when the branch is reached with fields on; the tests use their own systems.", "anchors": ["bolt/src/electronic_boltzmann/advection_terms.py:C_p", "bolt/src/beam_optics/advection_terms.py:A_q", "bolt/src/coordinate_transformation/advection_terms.py:C_p", "bolt/lib/nonlinear/finite_volume/df_dt_fvm.py:df_dt_fvm"]}
{"id": "C115", "title": "Electrons in a magnetic field keep their energy", "statement": "The force on electrons is e(E + v x B/c) with the band velocity v; along every motion of the momentum the band energy grows at the rate e E.v, so a magnetic field alone leaves it unchanged for all time.", "quantifier": "all bands, fields, motions", "why_tests_cant": "Ranges over all motions for all time.", "anchors": ["bolt/src/electronic_boltzmann/advection_terms.py:A_p", "example_problems/electronic_boltzmann/graphene/L_5.0_10.0_tau_ee_0.2_tau_eph_1.0/params.py:band_velocity"]}
{"id": "C116", "title": "Currents of electrons are the flux of their density", "statement": "j_x and j_y are the integrals of the band velocity times f in the normalisation of the density.", "quantifier": "all distributions, grids, bands", "why_tests_cant": "Ranges over all distributions.", "anchors": ["bolt/src/electronic_boltzmann/moment_defs.py:j_x", "bolt/lib/nonlinear/compute_moments.py:compute_moments"]}
{"id": "C117", "title": "The energy moment of the polar system is conserved by free motion", "statement": "The moments are the integrals that their names say; the energy of a freely moving particle does not change.", "quantifier": "all distributions, grids, free motions", "why_tests_cant": "Ranges over all motions.", "anchors": ["bolt/src/coordinate_transformation/moments.py:energy"]}
{"id": "C118", "title": "Hybrid results do not depend on the process grid for any number of ghost zones the solver accepts", "statement": "Whenever the ghost zones suffice for the reconstruction, a hybrid run on any process grid gives the same fields and distribution function.", "quantifier": "all process grids, ghost widths, states, histories", "why_tests_cant": "The dependence shows only at the first cells of a rank, with few ghost zones and warm electrons.", "anchors": ["bolt/lib/nonlinear/finite_volume/df_dt_fvm.py:df_dt_fvm", "bolt/lib/nonlinear/communicate.py:communicate_fields"]}
{"id": "C119", "title": "Sheared sides are moving periodic images", "statement": "With 'shearing-box' sides a run of the solver equals, at every cell, the method in which the domain beyond the sheared sides is the periodic image displaced by shear rate x box length x time and interpolated; with no displacement, or one of whole boxes, it is the periodic run. The process grid across the shear does not matter.", "quantifier": "all histories, times, states, fields, grids, process grids, reconstructions, either pair of sides", "why_tests_cant": "Ranges over all displacements and histories.", "anchors": ["bolt/lib/nonlinear/boundaries.py:apply_shearing_box_bcs_f", "bolt/lib/nonlinear/nonlinear_solver.py:nonlinear_solver.__init__"]}
{"id": "C120", "title": "A shearing box keeps its particles", "statement": "When the velocity through the sheared sides is uniform and the source moves particles between momenta only, the number of particles of each species in a shearing box never changes.", "quantifier": "all histories, states, fields, displacements, reconstructions", "why_tests_cant": "The loss appears only at fractional displacements.", "anchors": ["bolt/lib/nonlinear/boundaries.py:apply_shearing_box_bcs_f"]}
{"id": "C121", "title": "A coupled run continues from its files as if it had not stopped", "statement": "Dumping f and the fields of a running kinetic plasma, loading both in a new solver on any process grid, setting its clock and going on gives the state of the uninterrupted run.", "quantifier": "all histories before and after, plasmas, fields, process grids", "why_tests_cant": "Ranges over all stopping points and process grids.", "anchors": ["bolt/lib/nonlinear/file_io/load.py:load_EM_fields", "bolt/lib/nonlinear/file_io/load.py:load_distribution_function", "bolt/lib/nonlinear/file_io/dump.py:dump_EM_fields", "bolt/lib/nonlinear/fields/fields.py:fields_solver.evolve_electrodynamic_fields"]}
{"id": "C122", "title": "A hybrid run continues from its files as if it had not stopped", "statement": "Dumping f and the fields of a running hybrid plasma, loading both in a new solver on any process grid, setting its clock and going on gives the state of the uninterrupted run.", "quantifier": "all histories before and after, plasmas, fields, process grids", "why_tests_cant": "Ranges over all stopping points and process grids.", "anchors": ["bolt/lib/nonlinear/file_io/load.py:load_EM_fields", "bolt/lib/nonlinear/file_io/load.py:load_distribution_function", "bolt/lib/nonlinear/finite_volume/df_dt_fvm.py:df_dt_fvm"]}
{"id": "C123", "title": "Electrostatic runs move the plasma in the Coulomb field of its own charges", "statement": "Every sequence of steps of an electrostatic finite-volume run succeeds, and on one process (the transform needs one), and its result is the explicit midpoint program in which the field of each evaluation is the sum, over the charges of the state it acts on, of the periodic Coulomb kernel of the grid.", "quantifier": "all histories, methods, states, charges, grids, reconstructions", "why_tests_cant": "Ranges over all charge distributions and histories.", "anchors": ["bolt/lib/nonlinear/fields/electrostatic/fft.py:fft_poisson", "bolt/lib/nonlinear/fields/fields.py:fields_solver.compute_electrostatic_fields", "bolt/lib/nonlinear/nonlinear_solver.py:nonlinear_solver"]}
{"id": "C124", "title": "A plasma exerts no force on itself", "statement": "The field computed for a charge density exerts zero total force, along each axis, on that charge density.", "quantifier": "all charge densities, grids, cell sizes, permittivities", "why_tests_cant": "An identity over all charge densities.", "anchors": ["bolt/lib/nonlinear/fields/electrostatic/fft.py:fft_poisson", "bolt/lib/nonlinear/fields/fields.py:fields_solver.compute_electrostatic_fields"]}
{"id": "C125", "title": "Electrostatic runs conserve momentum", "statement": "With no magnetic field, a force of charge / mass times E and collisions that keep momentum, the total momentum of the plasma in a periodic box never changes.", "quantifier": "all histories, states, species, reconstructions", "why_tests_cant": "Depends on where particles sit in momentum space and on the whole history.", "anchors": ["bolt/lib/nonlinear/fields/electrostatic/fft.py:fft_poisson", "bolt/lib/nonlinear/finite_volume/df_dt_fvm.py:df_dt_fvm"]}
{"id": "C126", "title": "Electrostatic runs have the symmetries of space", "statement": "In a periodic box, moving the initial plasma by whole cells moves the run, a mirror image of the initial plasma gives the mirror image of the run, and a uniform plasma stays as it is.", "quantifier": "all histories, states, displacements, axes, reconstructions", "why_tests_cant": "Relates pairs of runs over all states and histories.", "anchors": ["bolt/lib/nonlinear/fields/electrostatic/fft.py:fft_poisson", "bolt/lib/nonlinear/finite_volume/df_dt_fvm.py:df_dt_fvm"]}
{"id": "C127", "title": "After a step the electric field handed out is that of the plasma", "statement": "In an electrostatic run the field returned and dumped after a time step is the field of the distribution function that is returned and dumped with it.", "quantifier": "all histories, states", "why_tests_cant": "Any state after any history.", "anchors": ["bolt/lib/nonlinear/fields/fields.py:fields_solver.compute_electrostatic_fields", "bolt/lib/nonlinear/fields/fields.py:fields_solver.get_fields", "bolt/lib/nonlinear/file_io/dump.py:dump_EM_fields"]}
{"id": "C128", "title": "What the electromagnetic field loses is work on the currents", "statement": "In a periodic electrodynamic run with steps of one size the field energy (E at the step, B half a step before and after it) falls by exactly the sum over the steps of J . E, with E halfway in the step and J the current of the half-step plasma.", "quantifier": "all histories with one step size, plasmas, fields, grids, process grids, reconstructions", "why_tests_cant": "An identity over all states and histories.", "anchors": ["bolt/lib/nonlinear/fields/fields.py:fields_solver.evolve_electrodynamic_fields", "bolt/lib/nonlinear/finite_volume/df_dt_fvm.py:df_dt_fvm"]}
{"id": "C129", "title": "Only acceleration changes the totals of a plasma", "statement": "For any quantity carried by the particles (number, momentum, kinetic energy, ...) that collisions keep, its total in a periodic electrodynamic run changes only by what the particles that cross the faces of the momentum grid exchange; motion in space changes nothing.", "quantifier": "all quantities, histories, plasmas, fields, grids, reconstructions", "why_tests_cant": "An identity over all quantities and histories.", "anchors": ["bolt/lib/nonlinear/finite_volume/df_dt_fvm.py:df_dt_fvm"]}
{"id": "C130", "title": "A plasma and its fields keep their energy", "statement": "In a periodic box, for charged particles under the Lorentz force without collisions, kinetic plus field energy is constant (in the limit of small steps).", "quantifier": "all histories, plasmas, fields", "why_tests_cant": "A drift that accumulates over long histories.", "anchors": ["bolt/lib/nonlinear/fields/fields.py:fields_solver.evolve_electrodynamic_fields", "bolt/lib/nonlinear/finite_volume/df_dt_fvm.py:df_dt_fvm"]}
{"id": "C131", "title": "Terms that depend on time are integrated to second order", "statement": "With velocities, forces or a source that depend on time, the result of a run of n steps to a fixed time differs from the exact solution by an amount of order 1/n^2, as for the other terms of the equation.", "quantifier": "all time dependences, histories, splitting methods, advection methods", "why_tests_cant": "An order of convergence is a statement about all step sizes.", "anchors": ["bolt/lib/nonlinear/finite_volume/df_dt_fvm.py:df_dt_fvm", "bolt/lib/nonlinear/finite_volume/fvm_operator.py:timestep_fvm", "bolt/lib/nonlinear/semi_lagrangian/asl_operators.py:op_solve_src", "bolt/lib/nonlinear/timestep.py"]}
{"id": "C132", "title": "Results do not depend on the system of units", "statement": "If a problem is written in other units of length, time, phase-space density, charge and field - box, momentum grid, velocities, forces, source, charges, permittivity, permeability, initial fields and time steps all converted - then f and the fields after any sequence of steps are those of the original run, converted: in periodic electrodynamic and electrostatic runs and in runs without fields.", "quantifier": "all unit systems, problems, states, histories, process grids, reconstructions", "why_tests_cant": "Relates pairs of runs over all unit systems and histories; a single absolute threshold or constant anywhere in the solver would break it.", "anchors": ["bolt/lib/nonlinear/finite_volume/df_dt_fvm.py:df_dt_fvm", "bolt/lib/nonlinear/fields/fields.py:fields_solver.evolve_electrodynamic_fields", "bolt/lib/nonlinear/fields/electrostatic/fft.py:fft_poisson", "bolt/lib/nonlinear/compute_moments.py:compute_moments"]}
{"id": "C133", "title": "Opposite charges give opposite fields", "statement": "If the charges of all species and the initial fields are reversed, then after any sequence of steps f is unchanged and every component of the electric and magnetic field is reversed.", "quantifier": "all periodic electrodynamic and electrostatic problems, states, histories, process grids, reconstructions", "why_tests_cant": "Relates pairs of runs over all states and histories.", "anchors": ["bolt/lib/nonlinear/finite_volume/df_dt_fvm.py:df_dt_fvm", "bolt/lib/nonlinear/fields/fields.py:fields_solver.evolve_electrodynamic_fields", "bolt/lib/nonlinear/fields/electrostatic/fft.py:fft_poisson"]}
{"id": "C134", "title": "The two solvers agree", "statement": "For free particles on a periodic domain, the nonlinear solver (first-order reconstruction, any splitting method) and the linear solver (RK4 or RK5), given the same physical system and initial data and run for equal times with steps within their stability limits, return distribution functions that differ by at most a stated bound: one part proportional to time and cell size, the other the phase error of the linear solver's steps, which does not depend on the cell size.", "quantifier": "all periodic problems without fields and collisions, initial data, momentum grids, process grids, histories of both solvers", "why_tests_cant": "Compares two programs over all inputs and pairs of histories.", "anchors": ["bolt/lib/nonlinear/finite_volume/df_dt_fvm.py:df_dt_fvm", "bolt/lib/nonlinear/nonlinear_solver.py", "bolt/lib/linear/linear_solver.py", "bolt/lib/linear/timestep.py", "bolt/lib/utils/fft_funcs.py", "bolt/lib/utils/calculate_k.py"]}
{"id": "C135", "title": "Every documented combination of methods can be advanced", "statement": "On a periodic domain, whatever documented advection methods in q and p, field type, field solver and step method are chosen, a time step returns instead of raising an exception.", "quantifier": "all combinations of methods and field models, problems, states, histories, step sizes", "why_tests_cant": "The product of all options with all states and histories.", "anchors": ["bolt/lib/nonlinear/timestep.py", "bolt/lib/nonlinear/semi_lagrangian/asl_operators.py:op_fields", "bolt/lib/nonlinear/finite_volume/df_dt_fvm.py:df_dt_fvm", "bolt/lib/nonlinear/temporal_evolution/operator_splitting_methods.py"]}
{"id": "C136", "title": "Light travels through vacuum at the speed of light, unchanged", "statement": "In a periodic box without currents, every plane light wave - any direction, polarisation, phase - below the Courant limit keeps its shape and amplitude for ever in the 'fdtd' solver, whatever the process grid and whatever is queried between the steps; its squared frequency is k^2/(mu eps) to second order in the time step and the cell sizes.", "quantifier": "all periodic boxes, wave vectors, amplitudes, histories, process grids, step sizes below the Courant limit", "why_tests_cant": "A statement about all waves and arbitrarily long histories; a test sees one wave, for a short time, up to a tolerance.", "anchors": ["bolt/lib/nonlinear/fields/fields.py:fields_solver.evolve_electrodynamic_fields", "bolt/lib/nonlinear/fields/fields.py:initialize_fields", "bolt/lib/nonlinear/tests/test_fdtd_explicit.py"]}
{"id": "C137", "title": "Initial E and B are taken at the start of the run", "statement": "If the initial E and B are those of a light wave at one time, the run follows that wave with an error of second order in the time step.", "quantifier": "all standing light waves, histories, step sizes", "why_tests_cant": "An order of convergence is a statement about all step sizes.", "anchors": ["bolt/lib/nonlinear/fields/fields.py:fields_solver.evolve_electrodynamic_fields", "bolt/lib/nonlinear/fields/fields.py:initialize_fields"]}
{"id": "C138", "title": "Fields converge to Maxwell's equations", "statement": "In a periodic box below the Courant limit, for every smooth solution of Maxwell's equations with given currents, the root mean square error of the 'fdtd' fields against that solution, after any time, is at most a factor depending only on the Courant number times the error of the start plus a term proportional to the elapsed time and to dt^2, dq1^2 and dq2^2, whatever the process grid and whatever is queried between the steps.", "quantifier": "all smooth solutions, currents, boxes, grids, step sizes below the Courant limit, histories, process grids", "why_tests_cant": "An order of convergence with stated constants, for all solutions and step sizes; tests fit a slope for one wave.", "anchors": ["bolt/lib/nonlinear/fields/fields.py:fields_solver.evolve_electrodynamic_fields", "bolt/lib/nonlinear/fields/fields.py:initialize_fields", "bolt/lib/nonlinear/tests/test_fdtd_explicit.py"]}
{"id": "C139", "title": "Fourier modes of the linear solver are independent", "statement": "Without collisions, what the linear solver computes in one Fourier mode depends on nothing in the other modes but the mean magnetic field, and a mode that the initial distribution function does not have never appears, whatever the fields, steps and methods.", "quantifier": "all homogeneous collisionless problems, initial data, modes, histories, step sizes, field models", "why_tests_cant": "Compares arbitrary pairs of runs over arbitrarily long histories.", "anchors": ["bolt/lib/linear/linear_solver.py", "bolt/lib/linear/timestep.py", "bolt/lib/linear/df_hat_dt.py", "bolt/lib/linear/fields/fields.py", "bolt/lib/utils/fft_funcs.py", "bolt/lib/utils/calculate_k.py"]}
{"id": "C140", "title": "Moving the initial data moves the linear solution", "statement": "Moving the initial distribution function and fields of the linear solver by whole cells round the periodic box moves f and the fields at all later times by the same cells, also with collisions if the source acts alike at all positions.", "quantifier": "all homogeneous problems, sources, initial data, displacements, histories", "why_tests_cant": "Compares arbitrary pairs of runs over arbitrarily long histories.", "anchors": ["bolt/lib/linear/linear_solver.py", "bolt/lib/linear/timestep.py", "bolt/lib/linear/df_hat_dt.py", "bolt/lib/linear/fields/fields.py", "bolt/lib/utils/fft_funcs.py", "bolt/lib/utils/calculate_k.py"]}
{"id": "C141", "title": "What the linear solver evolves is what it returns", "statement": "The modes the linear solver holds are the transforms of the real f and fields it returns: nothing that takes part in the evolution is missing from what is handed out, dumped or passed to the source.", "quantifier": "all homogeneous problems with real initial data, sources, histories", "why_tests_cant": "An invariant of arbitrarily long histories for all grids.", "anchors": ["bolt/lib/linear/linear_solver.py", "bolt/lib/linear/timestep.py", "bolt/lib/linear/df_hat_dt.py", "bolt/lib/linear/fields/fields.py", "bolt/lib/utils/fft_funcs.py", "bolt/lib/utils/calculate_k.py"]}
{"id": "C142", "title": "Light does not grow in the linear solver", "statement": "In the electrodynamic linear solver without charges, k.E and k.B of every Fourier mode stay what they are and the energy of a transverse mode never grows, for step sizes small against the period of the light.", "quantifier": "all modes, initial fields, methods, step sizes, histories", "why_tests_cant": "A bound over arbitrarily long histories and all modes; tests run one wave for a short time.", "anchors": ["bolt/lib/linear/fields/dfields_hat_dt.py", "bolt/lib/linear/integrators.py", "bolt/lib/linear/timestep.py", "bolt/lib/linear/fields/fields.py"]}
{"id": "C143", "title": "Light travels at the speed of light in the linear solver", "statement": "In the electrodynamic linear solver without charges, the light waves of each mode - both polarisations, along and against k - turn their phase with frequency |k|/sqrt(mu eps); the error of a run with RK4 and RK5 steps is of fifth and sixth order per step, with explicit constants.", "quantifier": "all modes, initial fields, histories of RK4 and RK5 steps within the stated size", "why_tests_cant": "An order of accuracy with constants for all modes and step sizes.", "anchors": ["bolt/lib/linear/fields/dfields_hat_dt.py", "bolt/lib/linear/integrators.py", "bolt/lib/linear/timestep.py", "bolt/lib/linear/fields/fields.py"]}
{"id": "C144", "title": "Collisions conserve particles, momentum and energy", "statement": "With the BGK operator as source, collisions change neither the number of particles nor their momentum nor their energy: these are the same after any sequence of steps of a homogeneous gas.", "quantifier": "all momentum grids, initial f, collision times, methods, step sizes, histories", "why_tests_cant": "An invariant of arbitrarily long histories; the loss per step can be too small to be seen in a test.", "anchors": ["bolt/src/nonrelativistic_boltzmann/collision_operator.py:BGK", "bolt/src/nonrelativistic_boltzmann/collision_operator.py:f0", "bolt/lib/nonlinear/finite_volume/df_dt_fvm.py", "bolt/lib/nonlinear/timestep.py"]}
{"id": "C145", "title": "Instantaneous collisions leave the gas in equilibrium", "statement": "With instantaneous_collisions switched on, f is the equilibrium of its own density, momentum and energy after every time step, whatever happened before.", "quantifier": "all histories of steps, methods, advection schemes, initial states, equilibria", "why_tests_cant": "A statement about every state a run can reach, for each combination of solver and splitting method.", "anchors": ["bolt/lib/nonlinear/semi_lagrangian/asl_operators.py:op_solve_src", "bolt/lib/nonlinear/temporal_evolution/operator_splitting_methods.py", "bolt/lib/nonlinear/timestep.py"]}
{"id": "C146", "title": "The linear solver integrates sources that depend on time to the order of the method", "statement": "Without fields, a source that depends on time, place, momentum and species changes the mean of f at each momentum by the integral of its own mean over the run: exactly, for polynomials in time of degree 1, 3 and 5 with RK2, RK4 and RK5, and otherwise with an error that is small to the corresponding power of the step size, whatever the sequence of methods and steps.", "quantifier": "all sources independent of f, initial states, momenta, species, histories of steps", "why_tests_cant": "Depends on the time each stage of each method is evaluated at; a test with a constant source cannot tell, and orders are statements about all step sizes.", "anchors": ["bolt/lib/linear/integrators.py:RK2", "bolt/lib/linear/integrators.py:RK4", "bolt/lib/linear/integrators.py:RK5", "bolt/lib/linear/df_hat_dt.py", "bolt/lib/linear/timestep.py"]}
{"id": "C147", "title": "Semi-Lagrangian runs have the symmetries of the equation", "statement": "On a periodic grid, a semi-Lagrangian run from moved initial data gives the moved results; with sources linear in f, a run from a combination of two states gives that combination of their results; with sources that treat mirror images alike, a run from the mirror image, in space and momentum, gives the mirror image.", "quantifier": "all interpolations (even ones, for the mirror image), velocities, initial states, process grids, methods, steps within the ghost zones, histories, moves, reflections", "why_tests_cant": "Relations between pairs of runs, for all data and histories; a test compares one run with a reference.", "anchors": ["bolt/lib/nonlinear/semi_lagrangian/interpolation_routines.py:f_interp_2d", "bolt/lib/nonlinear/semi_lagrangian/asl_operators.py", "bolt/lib/nonlinear/temporal_evolution/operator_splitting_methods.py", "bolt/lib/nonlinear/timestep.py"]}
{"id": "C148", "title": "Semi-Lagrangian advection is stable", "statement": "In semi-Lagrangian runs of free particles with the cubic splines, the root mean square of f does not grow at any momentum, however long the steps (within the ghost zones) and the run, with every splitting method.", "quantifier": "all initial states, momenta, species, velocities, grids, process grids, histories of steps with any splitting method", "why_tests_cant": "Instability may take thousands of steps and particular data to show.", "anchors": ["bolt/lib/nonlinear/semi_lagrangian/interpolation_routines.py:f_interp_2d", "bolt/lib/nonlinear/semi_lagrangian/asl_operators.py:op_advect_q", "bolt/lib/nonlinear/temporal_evolution/operator_splitting_methods.py", "bolt/lib/nonlinear/timestep.py"]}
{"id": "C149", "title": "Semi-Lagrangian runs converge to the exact solution", "statement": "In semi-Lagrangian runs of free particles with the cubic splines, the difference to the exact solution is at most a constant times the cube of the cell size for each interpolation, in the root mean square over the grid, with an explicit constant.", "quantifier": "all smooth periodic initial data, velocities, grids, process grids, histories of steps with any splitting method within the ghost zones", "why_tests_cant": "A bound for all data, cell sizes and histories.", "anchors": ["bolt/lib/nonlinear/semi_lagrangian/interpolation_routines.py:f_interp_2d", "bolt/lib/nonlinear/semi_lagrangian/asl_operators.py:op_advect_q", "bolt/lib/nonlinear/temporal_evolution/operator_splitting_methods.py", "bolt/lib/nonlinear/timestep.py"]}
{"id": "C150", "title": "Semi-Lagrangian runs keep f within bounds", "statement": "In semi-Lagrangian runs of free particles with the cubic splines f, which counts particles, stays non-negative and bounded.", "quantifier": "all non-negative initial states, velocities, grids, histories of steps within the ghost zones", "why_tests_cant": "Undershoots are small for smooth data; the bound must hold for all data and arbitrarily long runs.", "anchors": ["bolt/lib/nonlinear/semi_lagrangian/interpolation_routines.py:f_interp_2d", "bolt/lib/nonlinear/semi_lagrangian/asl_operators.py:op_advect_q", "bolt/lib/nonlinear/temporal_evolution/operator_splitting_methods.py", "bolt/lib/nonlinear/timestep.py"]}
{"id": "C151", "title": "Semi-Lagrangian runs: what a cell depends on", "statement": "In semi-Lagrangian runs without collisions the particles of one momentum and species are not influenced by the others; with sources that look at one species at a time, no species influences another; with any sources, the values of a cell after n steps depend only on the initial values within a distance given by n and the ghost zones, whichever rank holds them.", "quantifier": "all interpolations, velocities, sources, pairs of initial states, process grids, methods, histories of steps within the ghost zones", "why_tests_cant": "Independence is a relation between all pairs of runs; a wrong index couples cells only for some sizes.", "anchors": ["bolt/lib/nonlinear/semi_lagrangian/interpolation_routines.py:f_interp_2d", "bolt/lib/nonlinear/semi_lagrangian/asl_operators.py:op_advect_q", "bolt/lib/nonlinear/temporal_evolution/operator_splitting_methods.py", "bolt/lib/nonlinear/timestep.py"]}
{"id": "C152", "title": "The splitting shows only where advection and collisions both act", "statement": "In semi-Lagrangian runs a gas that is the same everywhere stays so and relaxes as its collisions alone prescribe, with each splitting; without collisions Lie and SWSS steps give the same f, and in steady velocities a Strang step is two Lie steps of half the size.", "quantifier": "all interpolations exact for constants, velocities, sources, initial states, process grids, histories of steps within the ghost zones", "why_tests_cant": "Agreement of methods for all data and histories; a wrong order of sub-steps shows only for data both parts change.", "anchors": ["bolt/lib/nonlinear/semi_lagrangian/interpolation_routines.py:f_interp_2d", "bolt/lib/nonlinear/semi_lagrangian/asl_operators.py:op_advect_q", "bolt/lib/nonlinear/temporal_evolution/operator_splitting_methods.py", "bolt/lib/nonlinear/timestep.py"]}
