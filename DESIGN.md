# Design of the formal model of Bolt

## 1. Trusted base

* Coq 8.16.1's kernel (and `coqchk`), the OCaml runtime under it.
* Nothing is postulated in this development. `Print Assumptions` stands under
  every property theorem. Theorems about dispatch, layout, indices, ghost
  exchange, files, validation and state machines are closed under the global
  context unless they mention real numbers. Theorems that mention the real
  numbers use the axioms of the standard library's `Reals`:
  `ClassicalDedekindReals.sig_forall_dec`, `ClassicalDedekindReals.sig_not_dec`
  and `FunctionalExtensionality.functional_extensionality_dep`; results that go
  through derivatives or trigonometry may also list `Classical_Prop.classic`.
* The reading of the Python code by the author of the model, and the reading of
  the documented behaviour of ArrayFire, PETSc, NumPy and Python listed in
  section 3. Each definition cites the file and lines it models.

## 2. Numbers

Arithmetic is exact: the carrier is the standard library's `R`. Floating-point
rounding is not modelled. So "exactly conserved" means "the update formula
conserves identically"; a run conserves up to rounding. Infinities and NaN appear
only abstractly, in the model of `check_divergence`. Structural code (layouts,
ghost exchange, files, dispatch) is polymorphic in the value type. User-supplied
functions (C_q, A_q, C_p, A_p, source, f_left ...) are arbitrary functions; the
velocities take the species index first, since `params` may hold one mass or
charge per species.

## 3. Library semantics taken as given

* `af.shift(a, d)[i] = a[(i - d) mod N]` on each axis.
* `af.sign(x)` is 1 for `x < 0`, else 0. Comparisons give 0/1.
* `af.moddims` keeps column-major order (axis 0 fastest). `af.flat` and
  `to_ndarray` into a 1-D array write column-major order. NumPy `reshape` is
  row-major.
* `af.select(c, a, b)` is element-wise; `af.flip(a, k)` reverses axis k;
  `af.join` concatenates along an axis.
* Indexing an ArrayFire array gives a fresh value. Assigning to an index of an
  array object changes that object, so every Python name bound to the same object
  sees the change. Modelled with an explicit heap where it matters.
* PETSc DMDA: each axis is cut in consecutive blocks; `globalToLocal` fills the
  local array with ghosts, periodic axes wrap, ghost cells outside a 'ghosted'
  (non-periodic) domain are unspecified. PETSc refuses local blocks narrower than
  the stencil width. `Vec.view`/`Vec.load` of a DMDA vector use the natural
  (decomposition independent) ordering.
* Python slices with negative bounds, list comparison, `isinstance` and
  exceptions follow the language reference.
* `af.fft2`, `af.ifft2` compute the textbook DFT sums.
* `af.approx2` is an argument of the model. What is used of it is an explicit
  hypothesis (`Spec/Interp.v`, record `interpolates`): the result has the shape of
  the positions; off the table it is 0; where the four nodes along each axis lie on
  the table it is their combination with weights that depend on the fraction of a
  cell only and are exact at nodes. Conservation and uniform states also assume
  that the weights sum to one. The Catmull-Rom weights of ArrayFire's cubic
  "spline" meet all this (`Props/ExSemiLag.v`). Nothing is assumed next to the
  edges of a table. Given `xp`, `yp`, the Python wrapper counts positions in cells
  from the first node with the distance of the first two.

## 4. What is not modelled

Performance counters and timing prints, device selection, printing, plotting,
example problems, tests, `bandwidth_test`, HDF5/binary byte formats, MPI failures,
GPU/CPU backend bugs,
floating-point rounding; `src/beam_optics/collision_operator.py` (its system cannot be
constructed, see C114) and the value of the optical velocity.

The linear solver imports `calculate_q_center`, which does not exist in the
repository. The model takes it to return the cell centres.

Files of `/repo/bolt` and the model files that cover them:

| file | model |
|------|-------|
| lib/physical_system.py, lib/nonlinear/nonlinear_solver.py (checks, layout) | Validate, Config, Grid, Petsc |
| lib/nonlinear/boundaries.py | Boundaries |
| lib/nonlinear/communicate.py, lib/utils/af_petsc_conversion.py | Petsc, Grid |
| lib/nonlinear/finite_volume/* | Reconstruct, Fvm |
| lib/nonlinear/fields/{fields,boundaries}.py, electrodynamic/ | Em |
| lib/nonlinear/fields/electrostatic/fft.py, lib/utils/{fft_funcs,calculate_k}.py | Fft |
| lib/nonlinear/compute_moments.py, src/nonrelativistic_boltzmann/{moments,collision_operator}.py | Moments, NonRel |
| src/nonrelativistic_boltzmann/advection_terms.py | NonRel |
| src/nonrelativistic_boltzmann/units/* | Units |
| lib/nonlinear/temporal_evolution/* | Integrators, Splitting |
| lib/nonlinear/{timestep,semi_lagrangian/*}.py | Timestep, SemiLag, Solver |
| lib/nonlinear/file_io/*, lib/linear/file_io/* | FileIO |
| lib/linear/* | Linear, LinearHybrid, Fft |
| lib/utils/{calculate_p,calculate_q}.py | Grid |
| lib/utils/parallel_reduction_ops.py | Reductions |
| src/electronic_boltzmann/{matrix_inverse,collision_operator}.py | Electronic |
| src/coordinate_transformation/{advection_terms,source_term}.py | Polar |
| src/electronic_boltzmann/{advection_terms,moment_defs}.py, src/coordinate_transformation/moments.py, src/beam_optics/{advection_terms,moment_defs}.py | Systems |

## 5. Layout of the development

`rocq/theories/`
* `Base/` general lemmas (finite sums, modular indices, Python helpers).
* `Model/` the code, function by function. No proofs about it live here.
* `Spec/` small independent specifications that the property statements use.
* `Proofs/` lemmas.
* `Props/` one file per group of properties. Every theorem there is closed by
  `exact`, followed by `Print Assumptions`, with an `Example` that shows its
  hypotheses are met by a non-trivial case.

## 6. Plan per property

| id | what is modelled | how it is proved |
|----|------------------|------------------|
| C01 | `op_fvm`, `df_dt_fvm` (q part), `communicate_f`, `reconstruct`, `riemann_solver`, decomposition | refinement of one rank's step to a textbook flux-difference scheme on the periodic lattice, then telescoping sums; induction on steps |
| C02 | same | the refinement itself: interior of every rank = global scheme |
| C03 | same | each reconstruction maps constants to constants; flux differences vanish |
| C04 | same with piecewise-constant | the step is a convex combination of shifted values when CFL holds |
| C05 | `minmod`, `slope_minmod`, `reconstruct_minmod` | case analysis on signs, `lra`/`nra` |
| C06 | `reconstruct_ppm` | case analysis and lemmas on limited slopes |
| C07 | `reconstruct` as a function of the name | case analysis on the string |
| C08 | `reconstruct_weno5` | `field` |
| C09 | p part of `df_dt_fvm` | telescoping of periodic shifts in the p-expanded layout |
| C10 | validation + step | refuted by witness; the sufficient condition is C02 |
| C11 | step | corollary of C02 |
| C12 | `communicate_f` over a decomposition | index arithmetic |
| C13 | `apply_mirror_bcs_f_cartesian` | index arithmetic through moddims |
| C14 | finite-volume histories in a box (`Spec/Box.v`: lines continued beyond walls by mirror images) | refinement of the rank-by-rank step to the box method, then pairing of the wall fluxes of x and its mirror image; reflection permutes the momenta |
| C15 | `apply_dirichlet_bcs_f` | pointwise |
| C16 | wrap loops with fuel | termination bound from the Archimedean property, invariants |
| C17 | `apply_bcs_f` | case analysis |
| C18 | constructor checks | refuted by witness (one-sided test), proved half |
| C19 | `physical_system.__init__` checks | induction on lists; refuted for later species and N = 0 |
| C20 | name checks, dispatch | refuted by witness |
| C21 | the two conversions, calculate_p ordering | mixed-radix arithmetic |
| C22 | `calculate_q` | algebra; refuted for q2 at left faces |
| C23 | `calculate_p` | algebra |
| C24 | dump/load f | natural order map, ghost exchange |
| C25 | dump/load EM fields | same |
| C26 | `dump_moments`, sorted public names | index arithmetic; integrals through C51 |
| C27 | `dump_aux_arrays` with its first-call flag | which calls work; refuted by history |
| C28 | `integrators.py` | linear operators over a module: Taylor polynomial |
| C29 | splitting methods | truncated non-commutative series |
| C30 | the four step functions | unfolding over an abstract solver state |
| C31 | the step functions | induction on histories |
| C32 | `check_divergence` | case analysis |
| C33 | swss, jia with heap objects | refuted by witness |
| C34 | `fdtd_evolve_B/E` | shift algebra |
| C35 | same + continuity | shift algebra |
| C36 | same | summation by parts |
| C37 | `initialize_magnetic_fields` | shift algebra |
| C38 | cell/yee conversions | shift algebra |
| C39 | `get_fields`, aliasing, `at_n` | state machine over a heap; refuted |
| C40 | `fft_poisson` | DFT algebra |
| C41 | `op_fields`, `df_dt_fvm`, `fft_poisson`, moments | refinement to a Vlasov-Poisson relation for FVM in p; refuted for ASL in p |
| C42 | interpolation routines, any 4 x 4 node interpolation | each step is interpolation on the periodic global grid at the foot of the characteristic (ghost zones hold the wrapped data, weights do not depend on the rank); induction over steps and methods; p1 part refuted |
| C43 | constructor check | refuted by witness |
| C44 | `_initialize`, `get_dist_func` | DFT inversion |
| C45 | linear `compute_moments` | linearity of DFT |
| C46 | `dfields_hat_dt` | complex algebra |
| C47 | linear electrostatic solver | complex algebra |
| C48 | linear integrators | as C28 |
| C49 | `df_hat_dt` | refuted: independent of its field argument |
| C50 | linear dump/load | refuted: index orders differ |
| C51 | moments | sums, Cauchy-Schwarz |
| C52 | BGK, f0 | algebra, `exp` positivity |
| C53 | advection terms | `ring` |
| C54 | explicit inverses | determinant by expansion; `field` for every entry of both products |
| C55 | the four solvers at a cell | derivative of the residual along the update (Reals' `derivable_pt_lim`); Gram determinants are positive; linear solve |
| C56 | units | `field`, `sqrt` lemmas |
| C57 | reductions | refuted by witness / proved for min |
| C58 | `calculate_k` | algebra, `cos`/`sin` periodicity |
| C59 | fft wrappers | orthogonality of roots of unity |
| C60 | `op_solve_src` | case analysis |
| C61 | reconstruction on reversed data | case analysis; refuted for WENO5 |
| C62 | FDTD over histories | energy identity, Young's inequality |
| C63 | FDTD over histories and ranks | refinement to the Yee scheme, induction on histories |
| C64 | linear `df_hat_dt`, steps | the zero mode's density is a linear invariant of every Runge-Kutta method; summation by parts in p |
| C65 | array extents in `df_hat_dt` | exact condition; refuted by witness |
| C66 | linear `df_hat_dt`, steps | the right-hand side and every Runge-Kutta method are linear |
| C67 | `compute_electrostatic_fields`, `dump_EM_fields` | the update leaves the staggered array alone; refuted since the solution has no mean |
| C68 | VecLoad's length check | natural order on a grid of other extents; refuted by witness |
| C69 | `op_fvm` with `df_dt_fvm`'s field update, step functions | a coupled history is a history of finite-volume steps in some fields; C01 |
| C70 | `op_fields`, hybrid branch | every operation has compatible extents; induction on histories |
| C71 | `RTA` at a cell | C55's fixed points, linearity of sums, case analysis |
| C72 | polar advection and source terms | derivatives of r cos, r sin; uniqueness of limits |
| C73 | the same box, walls 'mirror' or 'mirror+dirichlet' | refinement over histories; the box method does not mention ranks or ghosts |
| C74 | the same box | constant lines have no flux difference; invariant over histories |
| C75 | the same box, first order | convex combination with mirrored neighbours that have the same speeds and bounds |
| C76 | semi-Lagrangian steps in q, fields off | sums over the grid of shifted data; linear functionals kept by both sub-steps are kept by every method |
| C77 | the same on two process grids | both equal the method on the global grid |
| C78 | the same | weights sum to one |
| C79 | one advection sub-step | refuted: the foot is off the local table |
| C80 | momentum sub-step with several species | refuted: the species axis is broadcast against the p2 axis |
| C81 | multiplying f, adding constants | the difference scheme is covariant under affine maps of f (case analysis of the limiters), lifted to runs by a relation kept by every step |
| C82 | translations of data and fields | the global problem at a shifted cell is the problem with shifted data; runs by induction |
| C83 | reflections | the reconstruction of the reversed line is the reversed reconstruction with left and right faces exchanged |
| C84 | finite domain of dependence | each evaluation looks radius + 1 cells away; induction over the calls |
| C85 | momenta and species do not mix | the same induction with the agreeing set restricted to one momentum or one species |
| C86 | first order: order kept, convex distances do not grow | the step is a convex combination of shifted copies with weights that do not depend on f; Jensen's inequality |
| C87 | coupled electrodynamic runs | refinement of every step to a global Vlasov-Maxwell step; the time-level attributes and alias structure are part of the invariant |
| C88 | Gauss's law and div B in coupled runs | discrete continuity equation: the divergence of the face currents is the rate of change of the charge in both stages of the midpoint rule; momentum advection and source do not change the charge |
| C89 | process grids | both runs refine the same global program from the same sampled fields |
| C90 | rest state | the global program keeps uniform current-free data without fields |
| C91 | user-defined initial fields | per-rank sampled coordinates are global coordinates; refuted for E1 and B2 |
| C92 | names of field boundary conditions | per-rank case analysis over edges; 'shearing-box' refuted |
| C93 | FDTD with mirrors | each step refines the Yee step with reflected E (`wall_step`); history by induction; grids compared through the lattice view |
| C94 | B on mirrors | B2, B1 frozen; B3 refuted; quiet walls are an invariant |
| C95 | method of images | image fields are preserved by a step; induction over histories |
| C96 | closed cavity | under quiet walls the reflected terms vanish and the periodic energy identity applies; isolation refuted |
| C97 | first-order convergence | maximum principle for the error plus a remainder bound of one midpoint step; induction over calls |
| C98 | linear profiles | all three reconstructions reproduce lines on their stencil; the region of exactness shrinks by the stencil per stage |
| C99 | bounds of minmod runs | along one axis the two-stage step is a convex combination; in the plane refuted for every dt |
| C100 | linear free streaming, modulus | a step multiplies each mode by the stability polynomial at -iw dt; RK2 refuted |
| C101 | linear free streaming, phase | Taylor bounds for sin and cos against the stability polynomials, summed over steps |
| C102 | hybrid model | refinement of op_fvm with hybrid_fields to hyb_step: Ohm's law cell by cell on each rank's array, then Faraday |
| C103 | div B in hybrid runs | div of a backward curl vanishes; through C102 |
| C104 | hybrid process grids | C102 on both grids from the same initial functions |
| C105 | translations of coupled runs | f, both field lattices related by slides; every operation commutes with slides, including those by a whole period |
| C106 | homogeneous plasmas | invariance under both unit slides makes the discrete curl of E vanish |
| C107 | unmagnetised hybrid plasmas | one-dimensional data: C105 and the formula for E; witness on 3 x 3 cells |
| C108 | uniform ions | at_rest is invariant under hyb_step |
| C109 | mirror images of electrodynamic runs | Spec/Reflect (mirror_yee, mirror_centre, opposite momenta); the run of C87 commutes with it, by induction over the history; corollary: mirror-symmetric plasmas stay so |
| C110 | mirror images of hybrid runs | same for hyb_run with T_e = 0 and no momentum cell centred on zero (partial); refuted for T_e > 0 |
| C111 | Ohm's law in the linear solver | closed form of the solver's E mode by mode: the mean of curl B vanishes, the mean velocity is the drift; with T_e = 0 it is the law (partial); witness with one denser cell; on odd grids the computed pressure term is odd under k -> -k and real, so its transform is imaginary |
| C112 | magnetic field of linear hybrid runs | functionals of the fields that the slope annihilates and the overwriting of E leaves alone are kept by the three integrators; a set of components that stays zero |
| C113 | E after a linear hybrid step | the integrators unfolded (Spec/LinearHybridStage.v): E rows have slope 0, so they are what the last evaluation stored; witness: a beam carrying B3 |
| C114 | the calls of advection terms by the solvers, with argument lists; moments by name | case analysis of the calls for every argument; every set of inputs with the optical moments refused |
| C115 | electronic advection terms, graphene bands | algebra; derivative of v_f\|p\| along the motion, null derivative gives a constant; witness in polar momenta |
| C116 | electronic moments | C51's summation lemmas and a scaling lemma; witness: one electron per cell, two momenta |
| C117 | polar moments | the table is C51's under renaming; witness: uniform motion along x = 1 |
| C118 | hybrid fields for any number of ghost zones from two | on each rank the formula is Ohm's law on the torus of its arrays; witness: 4 x 4 cells on one and on two ranks with two ghost zones |
| C119 | shearing-box sides (`apply_shearing_box_bcs_f`) with FVM runs | the loops bring every position into the domain, approx2 then gives the displaced image; refinement to the textbook method on displaced images by induction on the history; displacement by whole boxes is the periodic method; process grids agree |
| C120 | particle number between sheared sides | whole cells: the fluxes of one side are a cyclic shift of those of the other; first order: interpolation keeps sums; witness with a limiter and half a cell |
| C121 | dump of f and fields, load of both, runs before and after (`resume`, Spec/Restart.v) | the loads give back f and the staggered fields on any process grid, the field solver's invariant holds again, then C87's induction; witness: a uniform plasma with two momenta in closed form |
| C122 | the same with the hybrid model | the same with C102's induction; witness: uniform ions drifting across a magnetic field |
| C123 | electrostatic finite-volume runs as an explicit program (`vp_run`, Spec/Poisson.v) | inverse transform of the solver's spectrum written as a convolution with the periodic Coulomb kernel; then induction over the steps as in C41 |
| C124 | the force of the computed field on its charges | the kernel is odd, so the double sum is minus itself |
| C125 | momentum of the plasma in electrostatic runs | summation by parts over the momentum cells: first-order face values add up to the density, C124 removes the force, the flux through the outer face remains; witnesses on three cells with a kernel of -1, 0, 1 |
| C126 | moved, mirrored and uniform electrostatic plasmas | parities and periodicity of the kernel; the sum of the kernel over the grid is zero; advection terms as in C82 and C109 |
| C127 | fields handed out after an electrostatic step | last field evaluation of C123's program; witness as for C125 |
| C128 | discrete Poynting theorem of coupled runs | summation by parts on the periodic Yee lattice with the currents of `vm_step`, induction over the history |
| C129 | balance of any moment of f | summation by parts around each line of momentum cells; telescoping in space; induction over the history |
| C130 | kinetic plus field energy | C128 with C129 for v^2/2; witness: uniform plasma at rest in a uniform field, every step size |
| C131 | time dependence of velocities, forces and source in both solver modes | runs without fields as a recursion on the global grid; uniform gas: induction over the history; witness: source equal to the time |
| C132 | coupled, electrostatic and field-free runs of one problem in two systems of units | explicit conversion of every input (Spec/Rescale.v); right-hand side, currents, Yee step, Coulomb sum and initial fields scale; induction over the history, then C87, C123 and C131's refinement for both runs |
| C133 | runs with all charges and initial fields reversed | the unit system whose units of charge and field are -1, shown equal to the explicit reversal |
| C134 | one physical system given to the models of both solvers | the initial data as a sum of plane waves (Spec/Agree.v), smooth and periodic; the first-order error bound of C97 against it, the phase error of C101 mode by mode, triangle inequality |
| C135 | time steps of every combination of advection methods, field type, field solver and step method | each operator never raises, or raises on every input; carried through the four splitting methods; induction over the history |
| C136 | the fields of a run without currents against plane waves sampled on the Yee grid (Spec/Light.v) | one step of the Yee scheme on cos/sin modes of a wave number; the lattice relation between frequency and wave number; C63; sin^2 between x^2 - x^4/3 and x^2 |
| C137 | runs started from E and B of a standing wave at time 0 | the run is the standing wave half a step late; refuted by n steps to a quarter period |
| C138 | smooth solutions of Maxwell's equations with currents, histories of the field solver | local truncation error by the mean value theorem, then induction over the history in the energy norm of C36 |
| C139 | pairs of runs of the linear solver that agree in one mode; runs whose initial f lacks a mode | a relation between runs, given by a map of modes and a linear map of amplitudes, is kept by every term, hence by Runge-Kutta steps and histories (identity, one mode; the zero state as second run) |
| C140 | pairs of runs from initial data moved by whole cells | the same relation with the phase factors of the shift theorem |
| C141 | all histories from real initial data | the same relation of a run with itself, conjugation with k to -k, on the modes below the grid frequency; witness at the grid frequency |
| C142 | energy, k.E and k.B of one mode over histories of the electrodynamic linear solver without charges | the four light-wave amplitudes of a mode are linear functionals that the right-hand side turns; a Runge-Kutta step multiplies them with the stability function; the energy is the sum of their squares; witness with RK2 |
| C143 | the four light-wave amplitudes of a mode against exp(+-i w t) | the same functionals, local errors of C101, induction over the history |
| C144 | homogeneous gases whose source is the modelled BGK operator, with finite volumes and any method | uniform states have no fluxes, so a step is the midpoint rule for the collision term; moments are linear; evenness in p is kept; witness: two velocities, the Maxwellian sums to at most 0.999 of its density, induction |
| C145 | `op_solve_src` with instantaneous collisions inside whole runs; parameters with the setting changed | the last sub-step of a Lie step is the replacement by the equilibrium; finite-volume steps never read the setting; witnesses: a source linear in time under finite volumes, a pulse moved by whole cells under Strang |
| C146 | linear time steps with a source that is a given function of time (Spec/LinDriven.v) | the zero mode is not transported, so its slope is the mean of the source; each method is then a quadrature rule (midpoint, Simpson, Boole), exact on powers; mean value theorem for the rest; induction over steps |
| C147 | the semi-Lagrangian runs of C42 (Spec/SlSym.v) | C42 gives a run's values as interpolations on the periodic global grid; interpolation commutes with shifts by whole cells, is linear, and with even weights commutes with reflection (at nodes by nodality); induction over steps |
| C148 | the semi-Lagrangian runs of C42 with the Catmull-Rom weights (Spec/SlAccuracy.v) | autocorrelations of a periodic line: one interpolation at fraction h takes 3/4 p^2 and 1/4 p^3, p = h(1-h), times the squares of the second and third differences from the sum of squares; axis by axis; without sources a Jia step is the mean 2/3, 1/3 of two half steps and one full step; induction over steps |
| C149 | the same runs and the exact free motion | the weights reproduce quadratics, so one interpolation has a cubic error; stability (C148) and the triangle inequality add the errors up over the run |
| C150 | the runs of C148 | upper bound: C148; negative values: one step from a single filled cell, where one weight is negative and the other positive |
| C151 | the semi-Lagrangian runs of C42 | two states that agree at a momentum, in a species, or near a cell, still do after a sub-step, near meaning N_g + 2 cells less along each axis; induction over steps |
| C152 | the semi-Lagrangian runs of C42 | advection leaves a homogeneous state alone and the source acts cell by cell, so each splitting reduces to the source step; without sources it reduces to the advection step; induction over steps |

## 7. Where the code disagrees with the property one would expect

Each has a `_refuted` theorem with a concrete witness.

* C02: C_q[0] on left faces is evaluated at the lower corner of the face, not at
  its centre (`C02_textbook_refuted`).
* C10: the constructors accept N_ghost smaller than the stencil needs.
* C15: with N_ghost = 0 Dirichlet conditions overwrite interior cells.
* C18: a right or top boundary that is periodic while the other side is not is accepted.
* C19: only species 0 has its momentum range checked.
* C20: several accepted field-solver names lead to no field update.
* C22: the second coordinate of left-face centres is the corner's.
* C37: `initialize_A` uses forward differences, the divergence check backward ones.
* C39: the three attributes for the cell-centred fields refer to one array.
* C52: the BGK temperature is k_B T, yet it is multiplied by k_B again in `f0`.
* C61: WENO5 as written has no left-right symmetry.
* C43: the linear solver refuses a domain only when none of its sides is periodic.
* C49: in an electrodynamic linear step f sees the fields of the start of the step.
* C50: the linear solver's load reads the buffer in the opposite index order.
* C65: linear steps with fields fail unless N_species is 1 or N_p2.
* C27: `dump_aux_arrays` fixes the number of components at its first call.
* C67: in electrostatic runs the field dump holds the initial fields.
* C68: a dump of a grid of other extents but the same size loads silently.
* C33: jia steps with fields always raise; swss steps advance the field solver twice.
* C41: with semi-Lagrangian momentum advection the electrostatic field is never recomputed.
* C57: `global_max` reads an undefined name; `global_mean` gives every rank the same weight.
* C42: semi-Lagrangian momentum advection ignores the force along p1.
* C79: displacements beyond the ghost zones silently give 0.
* C80: semi-Lagrangian momentum advection of several species fails or mixes their grids.
* C91: initial E1 and B2 are read half a cell below their place on the Yee grid.
* C92: the field solver lacks the attributes the 'shearing-box' field condition reads.
* C94: B3 on a mirror changes with the normal electric field.
* C96: mirrors leak: E2 in the last column is driven by B3 in the first.
* C99: minmod runs in the plane make f negative at every step size.
* C100: RK2 steps of the linear solver amplify every moving mode.
* C107: the pressure term of the hybrid model has a discrete curl and magnetises the plasma.
* `df_dt_fvm.py`: the electron pressure term on the left face of a cell is divided by the density of that cell, not of the face. The mirror image of a hybrid run is therefore not the hybrid run of the mirror image (C110_hybrid_mirror_refuted). The currents of a hybrid plasma are compared on faces by the sign of p, with zero counted as rightward, so cells of zero momentum also break the symmetry. Momentum faces are cyclic, so a force along an axis that depends on the momentum along that axis (friction) is evaluated at p_start for the last face; C109 asks for forces without that dependence.
* `linear/fields/dfields_hat_dt.py`: the gradient of the electron pressure is T_e k n instead of T_e i k n, and is not divided by the charge (C111_refuted). On grids with odd numbers of points this field has no real part on the grid, whatever T_e (C111_pressure_invisible). A stronger statement, that whole runs do not depend on T_e, fails: the modes of f it produces act back at second order.
* `linear/fields/dfields_hat_dt.py`: the electric field is stored while the slope is computed, so after a step it belongs to the last stage of the integrator, not to the end of the step (C113_refuted); and f is pushed with the field of the stage before.
* `electronic_boltzmann/advection_terms.py`: A_p and C_p take the six field components, but the solvers pass
  the fields solver; every call with fields switched on raises TypeError (C114_electronic_refuted). In polar2D
  momenta the Cartesian force components are used as the rates of |p| and the angle (C115_polar2D_refuted).
* `beam_optics`: no C_q and C_p, no time parameter, moments that are dictionaries: the system cannot be
  constructed (C114_optics_refuted).
* `electronic_boltzmann/moment_defs.py`: the currents carry the factor 4/(2 pi hbar)^2, the density does not, and the
  currents weigh f with the momentum instead of the band velocity (C116_normalisation_refuted, C116_velocity_refuted).
* `coordinate_transformation/moments.py`: the energy lacks the factor r^2 of the angular velocity, so free
  motion changes it (C117_energy_refuted). Neither this module nor the electronic one has the moments that the
  Maxwell solvers ask for (C114_currents_refuted).
* The pressure gradient of the hybrid model (`df_dt_fvm.py:173-198`) reads three cells to the left. With two ghost
  zones, which minmod and upwind reconstruction accept, the cyclic `af.shift` fetches the missing cell from the other
  end of the rank's array, so the fields depend on the number of processes (C118_process_grid_refuted).
* Shearing box (`boundaries.py:6-145`): the ghost zones of the two sheared sides are interpolated independently, and the
  limiter acts on the interpolated values, so what leaves through one side is not what enters through the other; with
  half a cell of displacement a step changes the number of particles (C120_conserved_refuted).
* `load_EM_fields` sets the cell-centred fields to the averages of the staggered ones,
  but a run does not use those: `evolve_electrodynamic_fields` leaves the mean of the
  old cell-centred E and the new average, for ever after.  The files hold the
  staggered fields only, so a restarted run differs from the uninterrupted one
  (C121_continues_refuted, C122_continues_refuted).
* Electrostatic runs do not conserve momentum: particles pushed past the largest
  momentum re-enter with the smallest, and with a limiter along p the plasma exerts
  a net force on itself (C125). The field returned and dumped after a step is that
  of the half-step state, not of the f returned and dumped with it (C127).
* Kinetic plus field energy of an electrodynamic run is not constant, however small the
  steps: the upwind flux in momentum space heats a plasma at rest (C130).
* Terms that depend on time are taken at the start of the step in every evaluation of the
  nonlinear solver, so they are integrated to first order only (C131).
* Three documented combinations can never be advanced: ASL in q with FVM in p and electrodynamic
  fields (`f_left` is used but only the q-part of `df_dt_fvm` sets it), ASL in p with the `fdtd` solver
  outside the hybrid model (`asl_operators.py:226`), and `jia` with fields unless both methods are FVM (C135).
* The initial B is used as B at +dt/2: `fdtd_explicit.py` advances E with it before advancing B, while
  `fields.py:435-436` says that B is at -dt/2. A user who gives E and B at the same time gets fields half a
  step late, to first order in dt (C137). The repository's FDTD tests give B at dt/2.
* With an even number of cells the linear solver gives the mode at the grid frequency the wavenumber -N/2. Its amplitude becomes complex and what is returned is only its real part (C141).
* With RK2 light grows in the linear solver at every step size, as free streaming does (C100, C142).
* BGK collisions do not conserve particles (C144): `f0` is normalised over all of momentum space, and its sum over
  the momentum grid is not the density computed from f. With two velocities a gas at rest decays to nothing.
* `instantaneous_collisions` is read by `op_solve_src` only (and by the linear solver). Finite-volume runs ignore it
  without saying so (C145). With Strang splitting f is transported after the collisions and leaves equilibrium.
* `semi_lagrangian/interpolation_routines.py` interpolates with cubic splines without a limiter: from
  particles in a single cell f becomes negative elsewhere after a step of any size up to a cell's length
  (C150).
* `electronic_boltzmann/collision_operator.py` does not parse (lines 648, 654: a colon is
  missing). The model takes the colons to be there.
