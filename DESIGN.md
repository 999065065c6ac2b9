# quadcoil: machine-checked model — design

The code under study is `lankef/quadcoil` (`/repo`, read as text). It is a JAX
library that designs stellarator coils: a current potential on a Fourier
winding surface is optimised by an augmented-Lagrangian solver so that the
normal field on a plasma surface is small, under user-chosen constraints.

## 1. What is modelled, and how

The model is a shallow embedding in Rocq/Coq 8.16.1: one Gallina function per
Python function, same branches, same order of tests, exceptions as values.
Every definition cites the lines of `/repo` it follows. Three kinds of
carrier are used.

* **Reals (`R`)** for formulas: geometry, Fourier sums, currents, fields,
  log-sum-exp, constraint encodings, augmented Lagrangian, linear algebra.
  Floating-point rounding is not modelled.
* **An arbitrary arithmetic** (`Num`, a record of operations without laws) for
  the control flow of the solver. Termination, iteration counts and bookkeeping
  theorems then hold for any arithmetic, in particular one with NaN and
  infinities where comparisons are all false.
* **Discrete data** (`nat`, `Z`, `string`, lists) for shapes, names,
  registries, argument checks, index sets and error branches.

Arrays sampled on a grid are modelled by the value at one point, as a function
of the point, plus explicit lists where the number of points matters (sums,
maxima, padding, lengths). Array shapes are modelled (as lists of naturals)
only where a shape error is part of the behaviour.

External code is never axiomatised. It is passed in as an argument of the
model (an *oracle*), so theorems hold for every behaviour of it:
optax L-BFGS (`init`, `update`, iteration counter, gradient read-back),
`jnp.linalg.solve`, `jnp.linalg.lstsq`, contouring, file system, DESC and
simsopt objects. Where a theorem needs the oracle to be right (for instance
"the linear solver returns a solution"), that is a hypothesis of the theorem,
with an example that meets it.

Not modelled: JIT compilation, tracing, vmap, dtype promotion and rounding,
plotting output, verbose printing, GPU behaviour, FOCUS/DESC/simsopt internals.

## 2. Trusted base

* The Coq 8.16.1 kernel (`coqc`); no plugins, no native compilation.
* The axioms that `Print Assumptions` lists. Each property file prints them
  beneath each theorem. They are only those of the standard library's reals
  (`ClassicalDedekindReals.sig_forall_dec`, `ClassicalDedekindReals.sig_not_dec`,
  `FunctionalExtensionality.functional_extensionality_dep`) and, for theorems
  that use Coquelicot's derivatives, `Classical_Prop.classic`. Discrete
  theorems are closed under the global context. Section 5 lists them per
  theorem.
* The reading of the Python code: that each model definition says what its
  cited lines do. This is the part a reviewer has to check.

## 3. Layout

`rocq/theories/`
* `Model*.v` — definitions only, with citations. No proofs.
* `Spec*.v` — the independent vocabulary used to state the properties.
* `Proof*.v` — lemmas.
* `Prop*.v` — property theorems (`exact lemma.`), `Print Assumptions`, and an
  `Example` showing a non-trivial instance of the hypotheses.

A property that is false of the code is not bent to fit: the file proves
`..._refuted` with a concrete witness, and `..._partial` for the strongest
version found that does hold. MANIFEST marks it `partial`.

## 4. Plan per property

| id | modelled | proof |
|---|---|---|
| C01 | mode-number arrays and row lengths of the surface operators | induction on list structure; `NoDup`, membership characterisation |
| C02 | full derivative operators (Leibniz sum over binomials) | `is_derive` by parity case split, Pascal's rule for the sum |
| C03 C04 | same operators | trigonometric identities per mode, lifted to dot products |
| C05 | cross products, normal, gradient helper | ring/field identities |
| C06 | unit-normal derivatives, scaled-tangent derivatives | product/quotient rules with `is_derive` |
| C07 | quadrature weights and sums over lists | induction over field periods |
| C08 | flatten/unflatten pairs | case analysis; finite-element class refuted (undefined attribute) |
| C09 | slicing with Python index rules | symmetric surfaces proved, general surfaces and mpol = ntor = 0 refuted |
| C10 | meshgrid enumeration of (m,n) | list lemmas, orbit representatives |
| C11 C12 C13 | rows of the potential operators | per-mode derivative/trig lemmas |
| C14 C15 C16 | K, K derivatives, K.grad K | vector algebra, product rule |
| C17 | K_theta incl. the trig-choice length | symmetric proved, general refuted (shape error) |
| C18 C70 | integrated squares | sums of squares, convexity of affine-squared |
| C19 | Biot–Savart sum | rotation matrices preserve cross product and norm |
| C20 | log-sum-exp | monotonicity of exp/ln, list induction |
| C21 | cylindrical unit vectors | refuted off the mid-plane, proved for z=0 |
| C22 | forward/backward rule with oracle solve | adjoint identity on finite sums |
| C23–C26 | generated f/g/init/approx triples | order reasoning on lists; refutations for the squared variants |
| C27 C28 | quantity constructor and accessors, registry | case analysis; invariant over definition histories |
| C29 | index mask | modular arithmetic |
| C30–C36 | wrapper parsing, merging | list induction, order reasoning; refutations for unit None, approx equality, mixed units |
| C37–C40 | inner loop with arbitrary optimiser | fuel-free loop relation + bounded execution; refutations for stale value and negative start |
| C41–C45 C48 | outer loop | same, invariants over iterations |
| C46 C47 | augmented Lagrangian over R | derivatives of max(0,.)^2; order reasoning |
| C49–C53 C56 | argument checks, dictionaries, packing | case analysis; refutations where the code disagrees |
| C54 C55 | implicit-function assembly, operator preconditioning | chain rule hypotheses, linear algebra on finite sums |
| C57 | weighted normal equations | quadratic expansion |
| C58 C59 | segment test, parity weights | Cramer's rule, parity induction |
| C60 C61 | cumulative arc length, shapes | prefix-sum lemmas; refutations |
| C62 C91–C95 | contour levels, current split, coil construction; contour finder is a parameter | list sums; refutations with concrete contours |
| C63 | real DFT of a curve | geometric sums of roots of unity; refuted at the end of the accepted range |
| C64 C96 C97 | FOCUS writer, body and header | list bookkeeping, equality of Fourier series; refutations |
| C65 C98 | exchange of surfaces and potentials with simsopt | coefficient tables in both directions; refutation for the toroidal current |
| C66 C99 C102 | forward derivative of the wrapped solver, over the full solver model | dictionary lemmas, bilinearity of the contraction; refutations |
| C67 C101 C103 | DESC entry points and unit table; names resolved in the module's namespace | refutations (undefined names), positive theorem with the names supplied |
| C68 C104 | function, axes and values of the contour plots | order reasoning on log-sum-exp; refutations (equality, zero state) |
| C69 C87–C89 | singular-integral force: masked pairwise sum over field periods, frames | list sums, vector identities; refutations |
| C71 C72 | L1 slack form on vector fields, smoothed Huber penalty | refutations |
| C73–C76 | three evaluation modes, field off the surface, change of length unit, symmetry | per-mode algebra lifted to sums |
| C77–C81 | output dictionary, gradients at constrained optima, feasibility report, default scale | case analysis of the whole call; implicit differentiation; refutations |
| C82–C86 | contour rules, smoothing parameter, scaling and reproduction by the generators | list geometry, normal equations, arctan2 branches; refutations |
| C90 | cut points on the winding surface | equality of the two Fourier sums |
| C100 | storage order of VTK structured grids | index arithmetic on nested lists; refuted for the vector export |
| C105–C110 | the package namespace with every shipped quantity, its unit and the documentation tables | case analysis over the table; dimensional analysis of every quantity; refutations where docs and code disagree |
| C111 | convexity of the shipped quantities and of whole problems | affine and convex compositions; chord argument for global optimality |
| C112 | figure of a whole problem | list bookkeeping over panels, order reasoning; refutations |
| C113 | whole problems in other units | dimensional analysis lifted to constraints, weighted sums and optimality |
| C114 | parse_objectives and parse_constraints in slack mode over the shipped quantities | per quantity: any slack array meeting the generated inequalities over-estimates the value, and one array is exact; lifted to whole problems, which share slack variables between uses of one quantity |
| C115 | make_mn columns, all quantity functions and their normed versions | columns of the coarse basis are a subset of those of the fine one; equal potentials have equal derivatives, hence equal current, field, force and every derived number |
| C116 | stellsym branch of the columns, surfaces, grids, the 15 convex quantities, Phi, Bnormal | derivative of the mirrored potential; current and field of the mirror image are the rotated current and field; symmetric grids are permuted by p -> -p modulo the period, so maxima and sums agree; the average of a design and its mirror image has no cosine part, convexity (C111) and C115 finish |
| C117 | from_desc with the result of DESC's ptolemy_identity_rev as input, make_surface, gamma | the coefficient vector split as in C01; the (0,0) sine term vanishes |
| C118 | solve_constrained with any inner optimiser | the subproblems handed to the inner optimiser are the textbook augmented Lagrangian in a scaled unknown, whose value is a difference of squares of new and old multipliers |
| C119 | solve_constrained with any inner optimiser | the slope of the subproblem is that of the Lagrangian with the reported multipliers (C46); tangent inequality for the Lagrangian |
| C120 | a whole call: parsing, packing, scaling, solver, unscaling, report | problem_facts relates flat unknowns and designs both ways (C114 for every dictionary with the right slack variables), then the bounds of C118; example with eps = 0 |
| C121 | a whole call, value_only or with gradients | every step of prepare, solve and finish shown total on valid input: shapes of slack variables, lengths of constraints, termination of both loops |
| C122 | QuadcoilParams with defaults, the integral and maximum quantities | the first n of nfp*n equispaced angles; the square of K, Phi and the area element are 1/nfp-periodic (C12, kval_shift, nrm_shift), so the sum over one period times nfp is the sum over all |
| C123 | f_B, f_K, f_Phi as read from the package, weighted sums of them | each figure is a weighted sum of squares of fields affine in the coefficients (field_superposed); a minimiser of such a sum is built by induction on the number of unknowns (normal_equations), the excess is the energy of the difference |
| C124 | the same, the harmonics on the evaluation grid, the constant column | discrete orthogonality of all columns and of their derivatives on a resolving grid (harm_orthogonal), growth of the objective by the energy of the difference; raised_reads: K and B do not see the constant; refutation on a device with stellsym=False |
| C125 | the solve step of a whole call (ModelQuadcoil.solve) on top of both loops | C37/C38/C41/C42 lifted to calls: bounds, reasons for stopping with the call's own arguments; the documented total budget refuted by a call that returns |
| C126 | C123/C124 with constraints | convex figures are continuous; the quadratic part controls every unknown (least value on the hyperplane where one unknown is 1); least value of a strongly convex function on a closed convex set, coordinate by coordinate without choice |
| C127 | problems as `best`, `feasible`, `weighted` over the package's figures | exchange arguments; multiplier of one bound by completeness of the reals |
| C128 | figures on `on_points` / plasma re-sampled grids; Coquelicot's `RInt` as the reference integral | joint continuity of every sampled field in the two angles, uniform continuity on a rectangle, Riemann sums cell by cell, `period_sum` for the factor nfp |
| C129 | `winding_surface_B`, `Bnormal` with the winding surface re-sampled | as C128, for each component of the integrand and each of the finitely many plasma grid points |
| C130 | `regridded`: evaluation points and plasma surface re-sampled together; `exact_objective`: integrals and least upper bounds in place of grid sums and maxima | a growth rate of the objective in every coefficient that is the same on all resolving grids (discrete orthogonality of the harmonics, bounds of the winding tangents), pointwise convergence of the figures, convexity to make it uniform on boxes |
| C131 | `superposed`: same device, currents and plasma field combined linearly; `best`, `least` over the reported figures | the figures are squared norms of fields affine in the unknowns (C15, C16); a design is best iff the residual is orthogonal to every change of the unknowns (normal equations), and this condition is linear in residual and data; uniqueness from C124 |
| C132 | a whole call: parsing, packing, solver, unscaling, report; the functions handed to the solver and to the implicit derivatives | The function handed to the implicit-function stage (`gs_l`, an expression in the flattened inputs) is identified with independent ones: the objective of any call with the same settings at whose inputs it is evaluated, and the classical augmented Lagrangian `augmented` of `SpecCert` with the reported multipliers (for the hard threshold). It equals the function minimised in the last optimiser run when that pass changed neither multipliers nor penalty. Refuted in general: the multipliers are updated once more after the last run, before the gradients are taken, so the reported design need not be stationary for the function differentiated (min x^2 s.t. x = 9 gives derivative -4 although the run ended exactly at its minimiser). Files `ProofStage.v`, `PropStage.v`. |
| C133 | a whole call: parsing, packing, solver, unscaling, report; the stopping rules of the optimisers | The whole call (`quadcoil`) without constraints. A problem without slack variables is shown to hand the optimiser exactly the weighted sum at the rescaled coefficients (`plain_problem`); the regularised objective is strongly convex with a uniform constant (`uniform_gap`, from C126); the slope at the returned point towards the best design is bounded by strong convexity, and Cauchy-Schwarz gives both bounds. The optimiser is any with a counter that keeps shapes; `slope` says that what it reports as gradient is the gradient (as limit of difference quotients in every direction). Files `SpecNear.v`, `ProofNear.v`, `PropNear.v`, `WitnessNear.v`. |
| C134 | the package quantities on devices built from the arguments, for two values of nfp | Surfaces, parameter objects and the shipped quantities. `same_shape` says that two surfaces report the same points; `fewer_periods` is the relation between the two descriptions (the grids are equispaced over one period of each, the winding grid is a whole turn). The columns of the surface operator and of the potential are relabelled (m, n) to (m, k n) and found in the larger list; the field of the winding surface is shown invariant under the true period (`m_bnval_period`), so that sums over k periods are k times those over one. Files `SpecNfp.v`, `ProofNfp.v` to `ProofNfp4.v`, `PropNfp.v`. |
| C135 | a whole call: parsing, packing, solver, unscaling, report; machines repeated over the periods | As C134. The design is averaged over the k turns by a true period, one turn at a time, by convexity (`averaged_over`), in the version of the problem without stellarator symmetry, where turned potentials can be written; the average is the part of the potential in the harmonics divisible by k (discrete orthogonality), which is a potential of the periodic description with the original symmetry. |
| C136 | the field of the winding surface through the plasma surface | The model of `_Bnormal` (winding surface, `magnetic_field.py`) at a plasma point is a finite sum of current elements, each the curl of K over the distance about one winding point. For one element, (curl A) . (r_phi x r_theta) = d_phi(A . r_theta) - d_theta(A . r_phi), so the double integral over both full turns vanishes (`flux_zero`, `once_flux`); a winding point is reached through the nfp rotations of the plasma point. The floor is Jensen's inequality for the square (`mean_square`) with the grid limit of C128. Files `ProofFlux.v`, `PropFlux.v`. |
| C137 | the writing of the coils file and the loops it is made of | `coil_xyz_from_qp` with its file writer: the file is modelled as the header's number of periods and the list of (point, current) lines per filament (the textual format of the numbers is not modelled). `wires` in `SpecFile.v` is the reading rule, `polygon` the closed polygon, stated by indices. The contour finder is a parameter. Files `SpecFile.v`, `PropFile.v`. |
| C138 | a whole call: parsing, packing, solver, unscaling, report, on axisymmetric surfaces | Surfaces, parameter objects and shipped quantities as in C134/C135. An axisymmetric surface keeps its shape when its declared nfp is multiplied by k with the same coefficients (`relabelled`), so the machine is also one with k*nfp periods whose potentials have no toroidal harmonic (`many_periods`); C135 and C134 transfer the design there and back. Uniqueness is C126. The condition that the number of toroidal points is a multiple of k > ntor is what makes the grid itself invariant under a turn that every toroidal harmonic notices. Files `SpecAxi.v`, `ProofAxi.v`, `PropAxi.v`. |
| C139 | currents crossing closed lines of the winding grid | Uses the field model (`kval`, the code's K) and the shipped quantities. On a uniform grid with more points than harmonics the single-valued part of a potential sums to zero along every grid line (`loop1`, `loop2`), so the current crossing the line is the net current; crossing a line element needs at least that much current density (`through_loop`). The f_K floor adds Cauchy-Schwarz. `r1`, `r2`, `nf` in the statements are what gammadash1, gammadash2 and normal report; the mean length of r1 over a period is the length of the line because the angle runs from 0 to 1. Files `SpecFloor.v`, `ProofFloor.v`, `PropFloor.v`. |
| C140 | the package quantities on devices built from the arguments, sums and largest values over the grids | Shipped quantities as modelled in `ModelPackage.v`, read through `reads`. `area` is defined from the model of `da`. Peaks: every term of the sum is at most the peak; squares: Cauchy-Schwarz with the area elements as weights (non-negative because the angles increase). Files `SpecNorms.v`, `PropNorms.v`. |
| C141 | the field of the winding surface at a distance | Field model of `_winding_surface_B` and the shipped quantities. Each term of the sum is at most the length of n times that of K over d^2 (`contribution_le`), the triangle inequality sums them (`norm_sum`), and periodicity turns the one-period integral of the length of K into the sum over the whole winding grid (`huber_total`). The floors on f_K and f_max_K2 come from C140. `apart` speaks of the points gamma reports; `default_grid` is what QuadcoilParams builds when no evaluation points are given (see C122). Files `SpecDist.v`, `ProofDist.v`, `PropDist.v`. |
| C142 | the package quantities on devices built from the arguments, as functions of the required field | The shipped quantities and best designs as in C123, C124 and C126. Each best design is compared with the other one in its own device by the quadratic growth of the objective (`growth`); adding the two, everything but the mixed term of f_B cancels (`moved`), and an elementwise inequality finishes (`energy_cross`). `other_field` says the devices agree in everything but Bnormal; `superposed 1 (-1)` and `scaled 0` name the device with the difference of the fields and the one with no sources. Files `SpecStable.v`, `ProofStable.v`, `PropStable.v`. |
| C143 | the package quantities on devices built from the arguments, on turned and lifted surfaces | The shipped quantities and best designs as in C123. `moved_surface` compares the points the two surfaces report at corresponding angles; derivatives, normals, areas, current density and field follow by uniqueness of derivatives and because the Biot-Savart sum uses differences of points only (`moved_pt`, `mv_kval`, `mv_bval`). Moved potentials exist by the addition formulas (`shifted_exists`), moved surfaces likewise with the lift on the constant Z harmonic (`moved_surface_exists`); the converse direction moves back (`device_back`). Files `SpecOrigin.v`, `ProofOrigin.v`, `ProofOrigin2.v`, `PropOrigin.v`. |
| C144 | the constrained solver and the multipliers it reports | `solve_constrained` as in C118 and C119; `solved` bundles a finished run and its assumptions. The certificate inequality of C119 holds at every point, not only at admissible ones; weak duality with `relaxed`, `priced` and `loosened` constraints gives the three statements. The example solves x^2 subject to x >= 1 and x >= 1/2 exactly (prices 2 and 1). The inner optimiser (optax L-BFGS) is not modelled; its stationarity is the parameter eta. Files `SpecPrice.v`, `ProofPrice.v`, `WitnessPrice.v`, `PropPrice.v`. |
| C145 | the package quantities on devices built from the arguments, on mirrored surfaces | The surface, field and quantity models of C01-C19 and C23-C29. `mirrored_device` says what the reflected machine is through the points its surfaces report and the grids; `mirrored_potential` through the potential reported on every grid. The proof follows the reflection through tangents, normals, current density and Biot-Savart sum; sums and maxima over reflected grids are compared as permutations. Existence reverses the toroidal number of each harmonic. Files `SpecHand.v`, `ProofHand.v`, `ProofHand2.v`, `PropHand.v`. |
| C146 | parsing of objectives and constraints, the package quantities | `rephrased` is the relation generated by the rewritings; the objective and feasibility are those of `reads` on the package of C105-C110. Each rewriting is shown to keep the feasible designs and the weighted sums; the statement on generated problems adds C114 on both sides. Files `SpecPhrase.v`, `ProofPhrase.v`, `PropPhrase.v`. |
| C147 | a whole call: parsing, packing, solver, unscaling, report; the multipliers | Same whole-call model as C120. `ProofCertify2.v`/`ProofCertify3.v` show that the flat functions prepared for the solver are convex along every segment of unknowns (slack unknowns included) and that each feasible design has unknowns with the same objective; `ProofCertify.v` is the duality inequality for the multiplier update. The optimiser is a parameter; only the final slope `level` is assumed. Quantities with slack admitted: f_max_Bnormal, f_max_Bnormal2, f_max_Phi, f_max_Phi2, f_max_Phi4, f_l1_Phi; f_max_K2 is left out because it is generated with two-sided rows (no positive_definite), one of which, -K2 - s <= 0, is concave. Files `SpecCertify.v`, `ProofCertify.v`, `ProofCertify2.v`, `ProofCertify3.v`, `PropCertify.v`. |
| C148 | approx mode: parsing, smooth maxima and absolute values | Same parsers and quantity model as C114, in mode approx with lse_epsilon given. `ProofApprox.v` bounds each smoothed use between the exact value and the exact value plus lse_epsilon times `loss`; `ProofApprox2.v` shows that the quantities of the package have this form; `ProofApprox3.v` mixes the true best design with a strictly feasible one for the limit. Files `SpecApprox.v`, `ProofApprox.v`, `ProofApprox2.v`, `ProofApprox3.v`, `PropApprox.v`. |
| C149 | a whole call: parsing, packing, solver, unscaling, report, in approx mode with merging | The whole of `quadcoil` as for C120 and C121, in mode approx. `ProofApprox4.v` lists the generated functions (one number per constraint, no slack variables) and bounds them, merged or not; `ProofApprox5.v` turns the solver's flat vector into the user's problem; `ProofApprox6.v` shows that well-formed calls build their problem. Files `SpecApproxCall.v`, `ProofApprox4.v`, `ProofApprox5.v`, `ProofApprox6.v`, `WitnessApproxCall.v`, `PropApproxCall.v`. |
| C150 | a whole call: parsing, packing, solver, unscaling, report; the default grids | `default_quadpoints`, `y_to_qp` and the rest of `quadcoil`. `ProofGrids.v` reads the six grids off the parameter object of a call that returned, shows that it equals the object built without evaluation points, and reuses the period sums of C122; for f_B the normal field repeats in every period because the winding grid does. Files `ProofGrids.v`, `WitnessGrids.v`, `PropGrids.v`. |
| C151 | a whole call: parsing, packing, solver, unscaling, report, one call per weight or bound | The problem posed by objective and constraints over the package quantities, as in C127 (`SpecBest.v`). Best designs of two problems are compared with each other; for the bounds the chord between two designs is used. Files `SpecScan.v`, `PropScan.v`. |
| C152 | the building of surfaces and parameters from the arguments of a call | `y_dict`, `y_to_qp` and the rest of `quadcoil`: the entries of the dictionary of differentiable inputs are looked up one by one, and the fields of the parameter object are read off. Files `ProofDevice.v`, `PropDevice.v`. |
| C153 | a whole call: parsing, packing, solver, unscaling, report; the multipliers of each row | The whole call as in C147, with the rows of the problem followed back to the constraint they come from: `_parse_constraints` is shown to give, constraint by constraint, the rows of the slack variables and then the constraint's own row (`ProofBounds.v`), and the same rows up to a constant when only the bound changes. `shares` in `SpecBounds.v` says which multipliers belong to which constraint, `relief` what a new bound loosens, `worth` the sum of price times relief. The example is the call of C147 with its one bound replaced by any other. Files `SpecBounds.v`, `ProofBounds.v`, `PropBounds.v`. |
| C154 | a whole call: parsing, packing, solver, unscaling, report, with different reporting options | The whole call for an arbitrary namespace; `with_reporting` in `SpecReport.v` is the call with other reporting options. The example is the call of C121 with gradients of three metrics and the same call asked for one of them without gradients. Files `SpecReport.v`, `PropReport.v`. |
| C155 | a whole call: parsing, packing, solver, unscaling, report; the reported f_obj | The whole call with the quantities of the package, as in C121; the value under f_obj is followed back through the flattened unknowns to the terms of `_parse_objectives`. The example is the call of C121 asked for its objective and its term. Files `SpecReport.v`, `PropObjective.v`. |
| C156 | a whole call: parsing, packing, solver, unscaling, report, with f_max_K2; the multipliers | The whole call with the quantities of the package, as in C147, for calls that use f_max_K2. `f_max_K2` is built by `generate_linf_norm` with rows for both signs although K2 is never negative; the rows for -K2 are concave, and the proof bounds how much they bend over a chord, which vanishes to second order near the returned unknowns, so only a nonzero multiplier on them can spoil the certificate. The example is the device of C121 with the bound set at the density of its net currents. Files `SpecCertify.v`, `ProofCertify4.v`, `ProofCertify5.v`, `WitnessDensity.v`, `PropCertify2.v`. |
| C157 | a whole call: parsing, packing, solver, unscaling, report, with f_max_K2; the multipliers | C153 with the certificate of C156; the rows and multipliers of the call are followed as in C153 (`shares`, `worth`). The example is the call of C156. Files `SpecBounds.v`, `PropBounds2.v`. |
| C158 | a whole call: parsing, packing, solver, unscaling, report, with f_max_K2; the multipliers | C156 and C157 with their hypothesis on the multipliers of the rows for -K2 discharged: no row is violated, so the slack variable is positive where the design carries current, so those rows are strictly negative, and complementarity makes their multipliers 0. The example is the call of C156. File `PropCertify3.v`. |
| C159 | all passes of the constrained solver | The model of `solve_constrained` (ModelSolver.v, unchanged). `SpecDual.v` says what a violation is and adds it up over passes. `ProofDual.v` shows that a level pass of weight c raises the lower bound of the Lagrangian by c times the squared violation it leaves (the multiplier update is an ascent step of the dual), and that at a point that meets the constraints the Lagrangian is at most the objective. The example minimises x^2 with x >= 1, where the first pass ends outside the tolerance. File `PropDual.v`. |
| C160 | a whole call: parsing, packing, solver, unscaling, report; the reported rows | `ProofNearly.v` follows each constraint of the user to its rows in the solver's problem: a row of a direct quantity is sign (value - bound) / unit, and the rows of a largest value and of its slack variable add up. `SpecNearly.v` says what meeting a bound up to a tolerance means. The powers of largest values go through the square of the slack variable, so their margin is not linear in e. The margin of f_l1_Phi grows with the area, since each grid point has its own slack variable. The example (`WitnessNearly.v`) is a call with bounds of all four kinds. File `PropNearly.v`. |
| C161 | a whole call: parsing, packing, solver, unscaling, report; all passes of the solver | C159 for the problem of a call (convex by the lemma behind C147, bounded below through the user's objective), with C160 for what small rows mean. The example is the call of C120, whose passes all end level. File `PropNearly.v`. |
| C162 | the helper `_precondition_coordinate_by_matrix`, which no other code calls; `jnp.linalg.svd` is a parameter | An orthogonal basis cancels, and x.(V^T y) = (V x).y turns the form into the sum of squares. What svd returns for a symmetric positive definite matrix (orthonormal eigenvectors, eigenvalues) is a hypothesis. Files `ModelPrecond.v`, `PropPrecond.v`. |
| C163 | the helper `delta_normalized`, which is only mentioned in comments | Case split on the guard and the triangle inequality, entry by entry. File `PropPrecond.v`. |
### Theorems per property

| id | property | status | file | theorems |
|---|---|---|---|---|
| C01 | Surface coefficient vector lists every Fourier mode exactly once | proved | PropSurface.v | `C01_mode_layout`, `C01_wrong_length_rejected` |
| C02 | Surface derivatives of every order are the true partial derivatives | proved | PropSurface.v | `C02_surface_derivatives` |
| C03 | Surface has the field-period and poloidal symmetry its nfp declares | proved | PropSurface.v | `C03_surface_periods` |
| C04 | A stellsym surface is stellarator symmetric | proved | PropSurface.v | `C04_stellarator_symmetry` |
| C05 | Normal, unit normal and tangent-gradient helpers form a consistent frame | proved | PropSurface.v | `C05_frame` |
| C06 | Derived-geometry helpers return the derivatives they name | proved | PropSurface.v | `C06_geometry_derivatives` |
| C07 | One-period surface integrals times nfp equal full-torus integrals | proved | PropSurface.v | `C07_one_period` |
| C08 | Crossing a jit boundary loses nothing | partial | PropField.v, PropSurface.v | `C08_params_roundtrip`, `C08_finite_element_refuted`, `C08_finite_element_always_raises`, `C08_surface_roundtrip` |
| C09 | DESC coefficient conversion round-trips | partial | PropSurface.v | `C09_desc_general_refuted`, `C09_desc_general_always_wrong`, `C09_desc_circle_refuted`, `C09_desc_symmetric_partial` |
| C10 | Current-potential vector lists each independent mode once | proved | PropField.v | `C10_potential_modes` |
| C11 | Current-potential derivative operators are exact | proved | PropField.v | `C11_potential_derivatives` |
| C12 | Current potential respects field-period and stellarator symmetry | proved | PropField.v | `C12_potential_symmetry` |
| C13 | Net currents are exactly the requested G and I | proved | PropField.v | `C13_net_currents` |
| C14 | Surface current is tangential, divergence free and equals n x grad Phi | proved | PropField.v | `C14_current_structure` |
| C15 | Surface current and field superpose | proved | PropField.v | `C15_superposition`, `C15_affine` |
| C16 | K.grad(K) is the directional derivative of K along K | proved | PropField.v | `C16_current_derivatives` |
| C17 | K_theta is the poloidal current density for every parameter object | partial | PropField.v | `C17_K_theta_symmetric_partial`, `C17_K_theta_general_refuted`, `C17_K_theta_general_always_raises` |
| C18 | Quadratic figures of merit are non-negative and convex | proved | PropField.v | `C18_figures_of_merit_convex` |
| C19 | Biot-Savart sum is invariant under rigid rotations about the axis and rotates by field period | proved | PropField.v | `C19_rotation`, `C19_field_periods` |
| C20 | Smooth maximum and absolute value bracket the exact ones | proved | PropMath.v | `C20_smooth_max`, `C20_smooth_abs`, `C20_smooth_linf` |
| C21 | Cylindrical projection is an isometry | partial | PropMath.v | `C21_cylindrical_isometry_refuted`, `C21_cylindrical_isometry_partial`, `C21_cylindrical_length_partial` |
| C22 | Custom linear-solve derivative is the true adjoint | proved | PropMath.v | `C22_linear_solve_adjoint`, `C22_nonfinite_ignored` |
| C23 | Slack form of an L-infinity penalty is exact | proved | PropQuantity.v | `C23_linf_feasible`, `C23_linf_slack_exact`, `C23_linf4_feasible`, `C23_linf4_slack_exact` |
| C24 | Slack form of an L1 penalty is exact | proved | PropQuantity.v | `C24_l1_slack_exact` |
| C25 | Initial slack values are feasible and tight | partial | PropQuantity.v | `C25_initial_slack_refuted`, `C25_squared_characterised_partial`, `C25_linf_initial_partial`, `C25_linf4_initial_partial`, `C25_l1_initial_partial` |
| C26 | Smoothed quantities approach the exact quantity | partial | PropQuantity.v | `C26_approx_squared_refuted`, `C26_approx_fourth_refuted`, `C26_linf_limit_partial`, `C26_l1_limit_partial`, `C26_huber_limit_partial`, `C26_squared_limit_partial`, `C26_fourth_limit_partial` |
| C27 | Smooth quantities do not depend on the smoothing mode | proved | PropQuantity.v | `C27_smooth_quantity_any_mode`, `C27_unknown_mode_rejected` |
| C28 | Slack-variable names never collide between quantities | proved | PropQuantity.v | `C28_slack_names_distinct`, `C28_failed_definition_leaves_registry` |
| C29 | Symmetry-reduced index sets pick one point per orbit | proved | PropQuantity.v | `C29_one_point_per_orbit`, `C29_only_grid_points` |
| C30 | Constraint encoding means what the user wrote | proved | PropWrapper.v | `C30_constraint_meaning`, `C30_slack_constraint_meaning` |
| C31 | Automatic units preserve the meaning of constraints | partial | PropWrapper.v | `C31_auto_unit_refuted`, `C31_auto_unit_partial`, `C31_auto_unit_pointwise_partial` |
| C32 | Smoothed field constraints are conservative | partial | PropWrapper.v | `C32_approx_equality_refuted`, `C32_approx_conservative_partial`, `C32_approx_margin_partial` |
| C33 | Total objective is the weighted sum of scaled objectives | proved | PropWrapper.v | `C33_weighted_sum`, `C33_scaled_value`, `C33_single_name`, `C33_mismatch_rejected` |
| C34 | Unsupported uses of a quantity are rejected before any solve | proved | PropWrapper.v | `C34_constraints_accepted_iff`, `C34_objectives_accepted_iff`, `C34_rejection_class` |
| C35 | Merging constraint functions keeps every constraint | proved | PropWrapper.v | `C35_merge_keeps_every_constraint`, `C35_merge_to_one_is_sound`, `C35_merge_refused_without_approx` |
| C36 | Using one slack quantity twice is consistent | partial | PropWrapper.v | `C36_mixed_units_refuted`, `C36_equal_units_partial` |
| C37 | Inner optimiser always terminates within its iteration budget | proved | PropSolver.v | `C37_inner_terminates` |
| C38 | Inner optimiser stops only for a declared reason | proved | PropSolver.v | `C38_inner_exit_reason` |
| C39 | The mean-decrease test measures actual decrease | partial | PropSolver.v | `C39_mean_decrease_refuted`, `C39_mean_decrease_partial` |
| C40 | Reported objective value belongs to the reported point | partial | PropSolver.v | `C40_reported_value_refuted`, `C40_reported_value_constrained_partial`, `C40_reported_value_unconstrained_partial` |
| C41 | Augmented-Lagrangian loop terminates within a total iteration bound | proved | PropSolver.v | `C41_outer_terminates` |
| C42 | Outer loop exits converged-and-feasible, saturated, or out of budget | proved | PropSolver.v | `C42_outer_exit_reason` |
| C43 | Returned solution satisfies the constraint tolerance when the solver stopped as converged | partial | PropCert.v, PropSolver.v | `C43_violation_bound_partial`, `C43_final_tolerance_refuted` |
| C44 | Inequality multipliers stay non-negative | partial | PropSolver.v | `C44_multipliers_elu_refuted`, `C44_multipliers_nonneg_partial` |
| C45 | Penalty weight only grows and stays bounded | proved | PropSolver.v | `C45_penalty_weight` |
| C46 | Multiplier update is the right one for the augmented Lagrangian | proved | PropSolver.v | `C46_multiplier_update_gradient`, `C46_fixed_point_kkt` |
| C47 | Augmented Lagrangian never exceeds the objective at feasible points | proved | PropSolver.v | `C47_lower_bound` |
| C48 | Rescaling of the unknowns is transparent | proved | PropSolver.v | `C48_rescaling_transparent`, `C48_evaluated_at_the_unscaled_point` |
| C49 | Input validation is decisive | proved | PropQuadcoil.v | `C49_validation`, `C49_call_rejected` |
| C50 | Gradient dictionary covers exactly the differentiable inputs in use | proved | PropQuadcoil.v | `C50_gradient_keys` |
| C51 | value_only returns the same values | partial | PropQuadcoil.v | `C51_value_only_partial`, `C51_f_obj_refuted`, `C51_f_obj_never` |
| C52 | User options reach the solver | partial | PropQuadcoil.v | `C52_options_partial`, `C52_mask_has_no_effect`, `C52_mask_refuted` |
| C53 | Scaling and packing of unknowns round-trips | proved | PropQuadcoil.v | `C53_packing`, `C53_slack_unscaled`, `C53_unpack_injective` |
| C54 | Implicit gradient equals the derivative of the metric along the solution curve | proved | PropQuadcoil.v | `C54_implicit_gradient` |
| C55 | Preconditioned solve solves the same system and the better answer is used | partial | PropQuadcoil.v | `C55_same_solution_partial`, `C55_better_answer`, `C55_cut_off_refuted` |
| C56 | Generated winding surface uses one symmetry convention | partial | PropQuadcoil.v | `C56_generated_partial`, `C56_generated_unusable`, `C56_symmetry_refuted` |
| C57 | Surface fit is the weighted least-squares optimum | proved | PropWinding.v | `C57_least_squares`, `C57_shapes` |
| C58 | Segment-intersection test is exact | proved | PropWinding.v | `C58_intersection_exact` |
| C59 | Self-intersection weights keep a simple polygon and always keep the first vertex | partial | PropWinding.v | `C59_weights_partial`, `C59_first_vertex_refuted` |
| C60 | Arc-length poloidal angle is a valid parametrisation | partial | PropWinding.v | `C60_arc_angles_partial`, `C60_increment_refuted` |
| C61 | Both angle-based generators accept non-symmetric plasmas | partial | PropWinding.v | `C61_generators_partial`, `C61_nonsymmetric_refuted` |
| C62 | Coil cutting conserves current | proved | PropCut.v | `C62_coils_conserve_current` |
| C63 | Fourier coefficients computed for a coil curve reproduce the curve | partial | PropCut.v | `C63_coefficients_partial`, `C63_too_few_samples`, `C63_two_per_order_refuted` |
| C64 | FOCUS file header matches its body | partial | PropCut.v | `C64_header_partial`, `C64_header_refuted` |
| C65 | simsopt import keeps both net currents | partial | PropCut.v | `C65_potential_partial`, `C65_toroidal_current_refuted` |
| C66 | Differentiable wrapper is linear and agrees with the gradient dictionary | proved | PropDiff.v | `C66_jvp_contracts_gradient`, `C66_jvp_linear`, `C66_jvp_returns` |
| C67 | DESC entry point is usable | partial | PropDiff.v | `C67_desc_refuted`, `C67_desc_with_names_partial`, `C67_needs_desc` |
| C68 | Equality constraints can be plotted | partial | PropPlot.v | `C68_equality_refuted`, `C68_inequalities_partial` |
| C69 | Self force excludes exactly the self-pair | partial | PropForce.v | `C69_default_grid_partial`, `C69_masked_integral_partial`, `C69_legacy_integral`, `C69_versions_agree`, `C69_other_grid_refuted` |
| C70 | Normalised normal-field error is normalised | proved | PropField.v | `C70_scaling`, `C70_field_error_zero`, `C70_normalised_error_zero` |
| C71 | Slack form of an L1 penalty works for vector fields | partial | PropQuantity.v | `C71_l1_slack_vector_refuted`, `C71_l1_slack_vector_partial` |
| C72 | Smoothed Huber penalty is even and least at zero field | partial | PropHuber.v, PropQuantity.v | `C72_huber_almost_even_partial`, `C72_huber_even_and_least_at_zero_refuted` |
| C73 | The three evaluation modes of the surface current agree | proved | PropField.v | `C73_current_modes` |
| C74 | The reported field is a Biot-Savart field in space | proved | PropField.v | `C74_field_of_position` |
| C75 | Change of length unit | proved | PropField.v | `C75_size_scaling` |
| C76 | Surface current and field are stellarator symmetric | proved | PropField.v | `C76_current_field_symmetry` |
| C77 | Output dictionary holds exactly the requested metrics | partial | PropQuadcoil.v | `C77_output_keys_partial`, `C77_extra_key_refuted` |
| C78 | Gradient of a metric at a constrained optimum | partial | PropQuadcoil.v | `C78_frozen_multipliers_partial`, `C78_active_constraint_refuted` |
| C79 | Gradient of the objective value | partial | PropQuadcoil.v | `C79_weights_unseen`, `C79_objective_gradient_refuted` |
| C80 | Reported feasibility means the constraints of the user hold | proved | PropQuadcoil.v | `C80_feasible` |
| C81 | Default scale of the unknown is usable | partial | PropQuadcoil.v | `C81_default_unit_partial`, `C81_zero_unit_loses`, `C81_zero_unit_refuted` |
| C82 | Hull rule keeps the corners of the convex hull | partial | PropHull.v, PropWinding.v | `C82_hull_partial`, `C82_hull_refuted` |
| C83 | Every documented contour rule can be used | partial | PropWinding.v | `C83_rules_partial`, `C83_hull_refuted` |
| C84 | The smoothing parameter of the generators can be chosen | partial | PropWinding.v | `C84_smoothing_refuted` |
| C85 | Generated winding surfaces scale with the plasma | proved | PropWinding.v | `C85_size` |
| C86 | Offset generator reproduces an offset surface of its own resolution | proved | PropWinding.v | `C86_offset_exact` |
| C87 | Self-force components refer to the evaluation point | partial | PropForce.v | `C87_frame_refuted` |
| C88 | Self-force is orthogonal to the current | proved | PropForce.v | `C88_force_orthogonal_to_current` |
| C89 | Self-force is quadratic in the current | proved | PropForce.v | `C89_force_quadratic` |
| C90 | Cut coils lie on the winding surface | proved | PropCut.v | `C90_coils_on_winding_surface` |
| C91 | Contour levels are equally spaced and respect the symmetry | proved | PropCut.v | `C91_levels`, `C91_half_and_mirror`, `C91_whole_shift`, `C91_symmetric_shift`, `C91_no_coils` |
| C92 | Contours are contours of the total current potential | proved | PropCut.v | `C92_contours_of_the_potential` |
| C93 | A coil carries the current between neighbouring levels | partial | PropCut.v | `C93_coil_current_partial`, `C93_coil_current_refuted` |
| C94 | The coils file carries the whole net poloidal current | partial | PropCut.v | `C94_file_current_partial`, `C94_file_current_refuted` |
| C95 | Coil curves pass through the contour points | partial | PropCut.v | `C95_curves_through_points_partial`, `C95_even_number_of_points`, `C95_curves_through_points_refuted` |
| C96 | The FOCUS file describes the exported surface | proved | PropCut.v | `C96_focus_file_describes_surface`, `C96_focus_file_from_simsopt` |
| C97 | FOCUS export accepts the three documented surface classes | partial | PropCut.v | `C97_jax_and_simsopt_accepted_partial`, `C97_desc_surface_refuted` |
| C98 | Conversion to simsopt and back is lossless | proved | PropCut.v | `C98_simsopt_round_trip`, `C98_simsopt_round_trip_back` |
| C99 | Differentiable wrapper can be used wherever the solver can | partial | PropDiff.v | `C99_usable_partial`, `C99_verbose_refuted`, `C99_weight_refuted`, `C99_f_obj_refuted` |
| C100 | VTK files keep the grid of the surface | partial | PropPlot.v | `C100_points`, `C100_scalar_field`, `C100_vector_field_partial`, `C100_vector_field_refuted`, `C100_file_name` |
| C101 | DESC current potential can be loaded | partial | PropDiff.v | `C101_load_refuted` |
| C102 | Differentiable wrapper fixes the settings and takes the inputs from the call | proved | PropDiff.v | `C102_kwargs_ignored`, `C102_values_are_the_solver`, `C102_value_only_rejected` |
| C103 | DESC scaling assigns each quantity its own unit | proved | PropDiff.v | `C103_scaling` |
| C104 | Contour plots show the quantity around the given state | partial | PropPlot.v | `C104_values`, `C104_axes_partial`, `C104_axes_refuted` |
| C105 | Documented quantities are available | partial | PropPackage.v | `C105_documented_names_refuted`, `C105_missing_names`, `C105_documented_uses_partial`, `C105_no_other_names` |
| C106 | Quantities return arrays of the documented shape | partial | PropPackage.v | `C106_documented_shapes_partial`, `C106_K_theta_shape_refuted` |
| C107 | DESC unit of a quantity has the dimension of the quantity | partial | PropPackage.v | `C107_units_partial`, `C107_units_off`, `C107_rescaled_exists`, `C107_K_theta_unit_refuted` |
| C108 | Automatic normalisation is not zero | partial | PropPackage.v | `C108_automatic_unit_refuted`, `C108_potential_units_vanish`, `C108_current_units_partial`, `C108_field_units` |
| C109 | Quantities have the documented formulas | proved | PropPackage.v | `C109_largest_values`, `C109_integrals`, `C109_squares`, `C109_current_strength`, `C109_normalised_error`, `C109_total_potential` |
| C110 | Quantities can be called as documented | partial | PropPackage.v | `C110_array_call_refuted`, `C110_dictionary_call_partial` |
| C111 | The problems described as convex are convex | proved | PropConvex.v | `C111_affine_quantities`, `C111_convex_quantities`, `C111_normalised_error_convex`, `C111_local_minimum_is_global` |
| C112 | A problem can be plotted from the arguments given to quadcoil | partial | PropPlot2.v | `C112_several_objectives_refuted`, `C112_default_unit_refuted`, `C112_options_refuted`, `C112_figure_partial` |
| C113 | Designs carry over to another size and field strength | proved | PropScale.v | `C113_quantities_scale`, `C113_designs_scale`, `C113_other_units_exist` |
| C114 | Slack smoothing hands the optimiser exactly the problem the user wrote | proved | PropProblem.v | `C114_smooth_problem_is_the_users`, `C114_same_optimum` |
| C115 | Adding harmonics never makes the best design worse | proved | PropRefine.v | `C115_only_the_potential_matters`, `C115_finer_contains`, `C115_designs_carry_over`, `C115_finer_is_no_worse` |
| C116 | For a stellarator-symmetric problem nothing is lost by solving with stellsym=True | proved | PropMirror.v | `C116_mirror_image`, `C116_symmetric_design_no_worse`, `C116_symmetric_optimum_is_optimum`, `C116_one_sided_bounds` |
| C117 | A surface loaded from DESC is the surface its coefficient tables describe | proved | PropDesc.v | `C117_imported_surface`, `C117_wrong_sizes_rejected_late` |
| C118 | The constrained solver returns a nearly optimal and nearly feasible point | proved | PropCert.v | `C118_near_optimal` |
| C119 | For convex problems the reported multipliers certify optimality | proved | PropCert.v | `C119_certificate` |
| C120 | The design a whole call returns is near-optimal for what the user asked | proved | PropEnd.v | `C120_near_optimal_design`, `C120_near_optimal_unconstrained` |
| C121 | Every valid call returns and reports the quantities it names | proved | PropEnd.v | `C121_valid_calls_return` |
| C122 | Without evaluation points the figures are those of the whole winding surface | proved | PropPeriods.v | `C122_default_points` |
| C123 | Problems built from f_B, f_K and f_Phi have a best design, and the excess of any other is a figure of its own | proved | PropBest.v | `C123_best_design_exists`, `C123_excess`, `C123_growth` |
| C124 | The best design is unique | partial | PropBest.v | `C124_unique_partial`, `C124_unique_up_to_constant`, `C124_constant_is_free`, `C124_unique_refuted` |
| C125 | A call stops only at its budget or its tolerances | partial | PropBudget.v | `C125_budget_partial`, `C125_reasons`, `C125_total_refuted`, `C125_overrun` |
| C126 | A regularised convex problem has exactly one best design, and nearly best designs are near it | proved | PropAttained.v | `C126_one_best_design`, `C126_nearly_best_is_near` |
| C127 | Weights and bounds trade off the way a user expects | proved | PropTrade.v | `C127_raising_a_weight`, `C127_constraints_cost`, `C127_weight_as_bound`, `C127_bound_as_weight` |
| C128 | Figures of merit converge to surface integrals and surface maxima as the grid is refined | proved | PropQuad.v | `C128_integrals_converge`, `C128_maxima_converge`, `C128_field_error_converges` |
| C129 | The reported field converges to the Biot-Savart surface integral as the winding grid is refined | proved | PropQuad.v | `C129_field_converges`, `C129_normal_field_converges` |
| C130 | Best designs on refined grids converge to the best design for the exact integrals | proved | PropLimit.v | `C130_objective_converges`, `C130_best_designs_converge` |
| C131 | Best designs of least-squares problems superpose | proved | PropSuper.v | `C131_best_designs_superpose`, `C131_only_one`, `C131_proportional` |
| C132 | The implicit gradients are taken of the problem that was solved | partial | PropStage.v | `C132_objective`, `C132_lagrangian`, `C132_last_function_partial`, `C132_stationary_refuted` |
| C133 | A small gradient means a design near the best one | proved | PropNear.v | `C133_small_gradient_near_best` |
| C134 | nfp only declares a symmetry | proved | PropNfp.v | `C134_every_surface_has_fewer_periods`, `C134_every_potential_remains`, `C134_same_figures`, `C134_same_fields` |
| C135 | Nothing is lost by imposing the field periods on the potential | proved | PropNfp.v | `C135_periodic_design_no_worse`, `C135_periodic_optimum_is_optimum` |
| C136 | The coils carry no net flux through the plasma surface | proved | PropFlux.v | `C136_no_net_flux`, `C136_grid_flux_vanishes`, `C136_error_floor` |
| C137 | The coils file holds the returned coils as closed loops | proved | PropFile.v | `C137_file_holds_closed_loops`, `C137_saving_is_transparent` |
| C138 | For an axisymmetric machine the best potential is axisymmetric | proved | PropAxi.v | `C138_axisymmetric_design_no_worse`, `C138_best_design_is_axisymmetric` |
| C139 | The net currents set a floor on the current density that no design can beat | proved | PropFloor.v | `C139_peak_current_floor`, `C139_bound_below_floor_is_infeasible`, `C139_power_floor` |
| C140 | Figures built on the same field bound each other through the surface area | proved | PropNorms.v | `C140_peaks_bound_integrals`, `C140_squares_bound_absolute_values`, `C140_peaks_agree` |
| C141 | The distance of the coils sets a floor on the current they need | proved | PropDist.v | `C141_field_bounded_by_current`, `C141_change_of_normal_field`, `C141_current_needed`, `C141_density_needed` |
| C142 | Best designs depend stably on the required normal field | proved | PropStable.v | `C142_coil_quantities_ignore_the_target`, `C142_designs_move_no_more_than_the_target`, `C142_unknowns_move_continuously` |
| C143 | Results do not depend on where angles and heights are counted from | proved | PropOrigin.v | `C143_figures_do_not_depend_on_the_origin`, `C143_vectors_turn_with_the_machine`, `C143_best_designs_move_along`, `C143_machines_can_be_moved` |
| C144 | The reported multipliers are the prices of the constraints | proved | PropPrice.v | `C144_price_of_changed_bounds`, `C144_constraints_without_price`, `C144_gain_between_the_prices` |
| C145 | Left- and right-handed versions of a machine have the same figures | proved | PropHand.v | `C145_mirror_images_have_the_same_figures`, `C145_mirror_images_have_mirrored_fields`, `C145_best_designs_are_mirrored`, `C145_mirror_images_exist`, `C145_whole_turns_mirror_themselves` |
| C146 | Equivalent ways of writing a problem have the same answer | proved | PropPhrase.v | `C146_same_best_designs`, `C146_same_optimum_handed`, `C146_common_factor` |
| C147 | The multipliers of a convex call certify its design | proved | PropCertify.v | `C147_multipliers_certify_the_design` |
| C148 | What smoothing costs in approx mode | proved | PropApprox.v | `C148_smoothed_problem_is_conservative`, `C148_margin_suffices`, `C148_loss_of_smoothing`, `C148_smoothing_vanishes` |
| C149 | What a whole call in approx mode returns and what it is worth | proved | PropApproxCall.v | `C149_near_optimal_design`, `C149_near_optimal_unconstrained`, `C149_valid_calls_return` |
| C150 | A call that gives no grids reports the figures of the whole machine | proved | PropGrids.v | `C150_default_grids`, `C150_whole_machine` |
| C151 | Scanning a weight or a bound traces the trade-off curve | proved | PropScan.v | `C151_slope_between_weights`, `C151_no_better_on_both`, `C151_ends_of_the_scan`, `C151_concave_in_the_weights`, `C151_convex_in_the_bounds` |
| C152 | The device a call works on is the one its arguments describe | proved | PropDevice.v | `C152_device_of_the_call`, `C152_same_device` |
| C153 | The multipliers of a call are the prices of its bounds | proved | PropBounds.v | `C153_prices_of_the_bounds` |
| C154 | What a call is asked to report does not change its design | proved | PropReport.v | `C154_same_design`, `C154_fewer_metrics`, `C154_same_end` |
| C155 | The reported objective is the weighted sum of the reported quantities | proved | PropObjective.v | `C155_reported_objective` |
| C156 | Multipliers certify a design whose largest current density is bounded | proved | PropCertify2.v | `C156_multipliers_certify_bounded_currents`, `C156_rows_of_a_density_bound`, `C156_density_bound` |
| C157 | The last multiplier is the price of the current density bound | proved | PropBounds2.v | `C157_prices_of_the_bounds`, `C157_price_of_a_density_bound` |
| C158 | A call that meets its current density bound certifies its design | proved | PropCertify3.v | `C158_met_density_bound` |
| C159 | The violations left by all passes of a constrained solve add up to a bounded amount | proved | PropDual.v | `C159_violations_add_up`, `C159_reported_violation`, `C159_passes_outside_the_tolerance` |
| C160 | Small reported constraint values mean nearly met bounds | proved | PropNearly.v | `C160_small_rows_mean_nearly_met_bounds` |
| C161 | Returned designs of convex calls nearly meet the bounds | proved | PropNearly.v | `C161_returned_designs_nearly_meet_the_bounds` |
| C162 | Preconditioned coordinates convert back and make the quadratic form round | proved | PropPrecond.v | `C162_coordinates_convert_back`, `C162_quadratic_form_becomes_round` |
| C163 | The normalised difference is a scale-free distance | proved | PropPrecond.v | `C163_normalised_difference` |

### Coverage of the code

Generated from the citations in the `Model*.v` files. "Not modelled" lists the functions no line of which is cited; the rest of each file is modelled, with the simplifications stated at each definition. Printing, tracing, compilation and dtype handling are left out everywhere.

| file | model files | not modelled |
|---|---|---|
| __init__.py | ModelShipped.v | — |
| io/__init__.py | — | — |
| io/coil_cutting.py | ModelCut.v | — |
| io/desc.py | ModelDiff.v | — |
| io/file.py | empty file | |
| io/focus.py | ModelSimsopt.v | — |
| io/jax.py | ModelDiff.v | — |
| io/simsopt.py | ModelSimsopt.v | — |
| math_utils.py | ModelMath.v, ModelQuadcoil.v, ModelSurface.v, ModelWinding.v | `tree_len` (8-11) |
| plotting.py | ModelPlot.v | — |
| quadcoil.py | ModelDiff.v, ModelMath.v, ModelPrecond.v, ModelQuadcoil.v | `_choose_fwd_rev` (1063-1072), `_print_min_blank` (1088-1089), `_print_max_blank` (1091-1092) |
| quadcoil_params.py | ModelField.v, ModelMath.v, ModelParams.v, ModelQuadcoil.v, ModelSurface.v | `QuadcoilParams.make_mn` (209-225), `QuadcoilParamsFiniteElement.tree_unflatten` (474-484) |
| quantity/__init__.py | ModelPackage.v, ModelShipped.v | — |
| quantity/current.py | ModelField.v, ModelPackage.v, ModelParams.v, ModelShipped.v | — |
| quantity/curvature.py | ModelField.v, ModelPackage.v, ModelParams.v, ModelShipped.v | — |
| quantity/dipole.py | ModelField.v, ModelMath.v, ModelPackage.v, ModelParams.v, ModelShipped.v | — |
| quantity/force.py | ModelForce.v, ModelPackage.v, ModelShipped.v | — |
| quantity/helpers.py | — | — |
| quantity/magnetic_field.py | ModelField.v, ModelMath.v, ModelPackage.v, ModelShipped.v | — |
| quantity/quantity.py | ModelArray.v, ModelPackage.v, ModelQuantity.v, ModelShipped.v, ModelWrapper.v | — |
| quantity/regularization.py | ModelShipped.v | `_Phi_coeff` (8-12) |
| solver.py | ModelPrecond.v, ModelQuadcoil.v, ModelSolver.v | `_print_min_blank` (636-637), `_print_max_blank` (639-640) |
| surfacerzfourier_jax.py | ModelDesc.v, ModelMath.v, ModelSimsopt.v, ModelSurface.v | `SurfaceRZFourierJAX.get_dofs` (160-161) |
| winding_surface.py | ModelWinding.v | — |
| wrapper.py | ModelArray.v, ModelQuadcoil.v, ModelQuantity.v, ModelWrapper.v | — |

## 5. Assumptions per theorem

Generated from the output of `Print Assumptions` beneath each theorem of the `Prop*.v` files.

**Closed under the global context** (14 theorems)

`C08_finite_element_always_raises`, `C28_failed_definition_leaves_registry`, `C28_slack_names_distinct`, `C29_one_point_per_orbit`, `C29_only_grid_points`, `C37_inner_terminates`, `C40_reported_value_constrained_partial`, `C40_reported_value_unconstrained_partial`, `C41_outer_terminates`, `C49_validation`, `C100_file_name`, `C101_load_refuted`, `C103_scaling`, `C110_dictionary_call_partial`

**`ClassicalDedekindReals.sig_forall_dec`** (13 theorems)

`C08_params_roundtrip`, `C08_surface_roundtrip`, `C09_desc_general_always_wrong`, `C09_desc_symmetric_partial`, `C22_nonfinite_ignored`, `C53_slack_unscaled`, `C65_potential_partial`, `C97_jax_and_simsopt_accepted_partial`, `C100_points`, `C100_scalar_field`, `C100_vector_field_partial`, `C107_rescaled_exists`, `C113_other_units_exist`

**`ClassicalDedekindReals.sig_forall_dec`, `FunctionalExtensionality.functional_extensionality_dep`** (22 theorems)

`C08_finite_element_refuted`, `C09_desc_circle_refuted`, `C09_desc_general_refuted`, `C27_smooth_quantity_any_mode`, `C27_unknown_mode_rejected`, `C33_mismatch_rejected`, `C33_scaled_value`, `C33_single_name`, `C33_weighted_sum`, `C34_objectives_accepted_iff`, `C34_rejection_class`, `C53_packing`, `C53_unpack_injective`, `C58_intersection_exact`, `C59_first_vertex_refuted`, `C59_weights_partial`, `C65_toroidal_current_refuted`, `C91_half_and_mirror`, `C97_desc_surface_refuted`, `C100_vector_field_refuted`, `C145_whole_turns_mirror_themselves`, `C163_normalised_difference`

**`ClassicalDedekindReals.sig_forall_dec`, `ClassicalDedekindReals.sig_not_dec`, `FunctionalExtensionality.functional_extensionality_dep`** (83 theorems)

`C01_mode_layout`, `C01_wrong_length_rejected`, `C02_surface_derivatives`, `C03_surface_periods`, `C04_stellarator_symmetry`, `C05_frame`, `C06_geometry_derivatives`, `C07_one_period`, `C10_potential_modes`, `C11_potential_derivatives`, `C12_potential_symmetry`, `C13_net_currents`, `C14_current_structure`, `C15_affine`, `C15_superposition`, `C16_current_derivatives`, `C17_K_theta_general_always_raises`, `C17_K_theta_general_refuted`, `C17_K_theta_symmetric_partial`, `C18_figures_of_merit_convex`, `C19_field_periods`, `C19_rotation`, `C21_cylindrical_isometry_partial`, `C21_cylindrical_isometry_refuted`, `C21_cylindrical_length_partial`, `C22_linear_solve_adjoint`, `C26_huber_limit_partial`, `C56_generated_partial`, `C56_generated_unusable`, `C56_symmetry_refuted`, `C57_least_squares`, `C57_shapes`, `C60_arc_angles_partial`, `C60_increment_refuted`, `C62_coils_conserve_current`, `C63_coefficients_partial`, `C63_too_few_samples`, `C63_two_per_order_refuted`, `C64_header_partial`, `C64_header_refuted`, `C69_default_grid_partial`, `C69_legacy_integral`, `C69_masked_integral_partial`, `C69_versions_agree`, `C70_field_error_zero`, `C70_normalised_error_zero`, `C70_scaling`, `C72_huber_almost_even_partial`, `C72_huber_even_and_least_at_zero_refuted`, `C73_current_modes`, `C75_size_scaling`, `C76_current_field_symmetry`, `C88_force_orthogonal_to_current`, `C89_force_quadratic`, `C90_coils_on_winding_surface`, `C91_levels`, `C91_no_coils`, `C91_symmetric_shift`, `C91_whole_shift`, `C92_contours_of_the_potential`, `C93_coil_current_partial`, `C93_coil_current_refuted`, `C94_file_current_partial`, `C94_file_current_refuted`, `C95_curves_through_points_partial`, `C95_curves_through_points_refuted`, `C95_even_number_of_points`, `C96_focus_file_describes_surface`, `C96_focus_file_from_simsopt`, `C98_simsopt_round_trip`, `C98_simsopt_round_trip_back`, `C115_finer_contains`, `C117_imported_surface`, `C117_wrong_sizes_rejected_late`, `C134_every_potential_remains`, `C134_every_surface_has_fewer_periods`, `C137_file_holds_closed_loops`, `C137_saving_is_transparent`, `C143_machines_can_be_moved`, `C145_mirror_images_exist`, `C145_mirror_images_have_mirrored_fields`, `C162_coordinates_convert_back`, `C162_quadratic_form_becomes_round`

**`ClassicalDedekindReals.sig_forall_dec`, `ClassicalDedekindReals.sig_not_dec`, `functional_extensionality_dep`** (2 theorems)

`C129_field_converges`, `C129_normal_field_converges`

**`ClassicalDedekindReals.sig_forall_dec`, `ClassicalDedekindReals.sig_not_dec`, `Classical_Prop.classic`, `FunctionalExtensionality.functional_extensionality_dep`** (235 theorems)

`C20_smooth_abs`, `C20_smooth_linf`, `C20_smooth_max`, `C23_linf4_feasible`, `C23_linf4_slack_exact`, `C23_linf_feasible`, `C23_linf_slack_exact`, `C24_l1_slack_exact`, `C25_initial_slack_refuted`, `C25_l1_initial_partial`, `C25_linf4_initial_partial`, `C25_linf_initial_partial`, `C25_squared_characterised_partial`, `C26_approx_fourth_refuted`, `C26_approx_squared_refuted`, `C26_fourth_limit_partial`, `C26_l1_limit_partial`, `C26_linf_limit_partial`, `C26_squared_limit_partial`, `C30_constraint_meaning`, `C30_slack_constraint_meaning`, `C31_auto_unit_partial`, `C31_auto_unit_pointwise_partial`, `C31_auto_unit_refuted`, `C32_approx_conservative_partial`, `C32_approx_equality_refuted`, `C32_approx_margin_partial`, `C34_constraints_accepted_iff`, `C35_merge_keeps_every_constraint`, `C35_merge_refused_without_approx`, `C35_merge_to_one_is_sound`, `C36_equal_units_partial`, `C36_mixed_units_refuted`, `C38_inner_exit_reason`, `C39_mean_decrease_partial`, `C39_mean_decrease_refuted`, `C40_reported_value_refuted`, `C42_outer_exit_reason`, `C43_final_tolerance_refuted`, `C43_violation_bound_partial`, `C44_multipliers_elu_refuted`, `C44_multipliers_nonneg_partial`, `C45_penalty_weight`, `C46_fixed_point_kkt`, `C46_multiplier_update_gradient`, `C47_lower_bound`, `C48_evaluated_at_the_unscaled_point`, `C48_rescaling_transparent`, `C49_call_rejected`, `C50_gradient_keys`, `C51_f_obj_never`, `C51_f_obj_refuted`, `C51_value_only_partial`, `C52_mask_has_no_effect`, `C52_mask_refuted`, `C52_options_partial`, `C54_implicit_gradient`, `C55_better_answer`, `C55_cut_off_refuted`, `C55_same_solution_partial`, `C61_generators_partial`, `C61_nonsymmetric_refuted`, `C66_jvp_contracts_gradient`, `C66_jvp_linear`, `C66_jvp_returns`, `C67_desc_refuted`, `C67_desc_with_names_partial`, `C67_needs_desc`, `C68_equality_refuted`, `C68_inequalities_partial`, `C69_other_grid_refuted`, `C71_l1_slack_vector_partial`, `C71_l1_slack_vector_refuted`, `C74_field_of_position`, `C77_extra_key_refuted`, `C77_output_keys_partial`, `C78_active_constraint_refuted`, `C78_frozen_multipliers_partial`, `C79_objective_gradient_refuted`, `C79_weights_unseen`, `C80_feasible`, `C81_default_unit_partial`, `C81_zero_unit_loses`, `C81_zero_unit_refuted`, `C82_hull_partial`, `C82_hull_refuted`, `C83_hull_refuted`, `C83_rules_partial`, `C84_smoothing_refuted`, `C85_size`, `C86_offset_exact`, `C87_frame_refuted`, `C99_f_obj_refuted`, `C99_usable_partial`, `C99_verbose_refuted`, `C99_weight_refuted`, `C102_kwargs_ignored`, `C102_value_only_rejected`, `C102_values_are_the_solver`, `C104_axes_partial`, `C104_axes_refuted`, `C104_values`, `C105_documented_names_refuted`, `C105_documented_uses_partial`, `C105_missing_names`, `C105_no_other_names`, `C106_K_theta_shape_refuted`, `C106_documented_shapes_partial`, `C107_K_theta_unit_refuted`, `C107_units_off`, `C107_units_partial`, `C108_automatic_unit_refuted`, `C108_current_units_partial`, `C108_field_units`, `C108_potential_units_vanish`, `C109_current_strength`, `C109_integrals`, `C109_largest_values`, `C109_normalised_error`, `C109_squares`, `C109_total_potential`, `C110_array_call_refuted`, `C111_affine_quantities`, `C111_convex_quantities`, `C111_local_minimum_is_global`, `C111_normalised_error_convex`, `C112_default_unit_refuted`, `C112_figure_partial`, `C112_options_refuted`, `C112_several_objectives_refuted`, `C113_designs_scale`, `C113_quantities_scale`, `C114_same_optimum`, `C114_smooth_problem_is_the_users`, `C115_designs_carry_over`, `C115_finer_is_no_worse`, `C115_only_the_potential_matters`, `C116_mirror_image`, `C116_one_sided_bounds`, `C116_symmetric_design_no_worse`, `C116_symmetric_optimum_is_optimum`, `C118_near_optimal`, `C119_certificate`, `C120_near_optimal_design`, `C120_near_optimal_unconstrained`, `C121_valid_calls_return`, `C122_default_points`, `C123_best_design_exists`, `C123_excess`, `C123_growth`, `C124_constant_is_free`, `C124_unique_partial`, `C124_unique_refuted`, `C124_unique_up_to_constant`, `C125_budget_partial`, `C125_overrun`, `C125_reasons`, `C125_total_refuted`, `C126_nearly_best_is_near`, `C126_one_best_design`, `C127_bound_as_weight`, `C127_constraints_cost`, `C127_raising_a_weight`, `C127_weight_as_bound`, `C131_best_designs_superpose`, `C131_only_one`, `C131_proportional`, `C132_lagrangian`, `C132_last_function_partial`, `C132_objective`, `C132_stationary_refuted`, `C133_small_gradient_near_best`, `C134_same_fields`, `C134_same_figures`, `C135_periodic_design_no_worse`, `C135_periodic_optimum_is_optimum`, `C138_axisymmetric_design_no_worse`, `C138_best_design_is_axisymmetric`, `C139_bound_below_floor_is_infeasible`, `C139_peak_current_floor`, `C139_power_floor`, `C140_peaks_agree`, `C140_peaks_bound_integrals`, `C140_squares_bound_absolute_values`, `C141_change_of_normal_field`, `C141_current_needed`, `C141_density_needed`, `C141_field_bounded_by_current`, `C142_coil_quantities_ignore_the_target`, `C142_designs_move_no_more_than_the_target`, `C142_unknowns_move_continuously`, `C143_best_designs_move_along`, `C143_figures_do_not_depend_on_the_origin`, `C143_vectors_turn_with_the_machine`, `C144_constraints_without_price`, `C144_gain_between_the_prices`, `C144_price_of_changed_bounds`, `C145_best_designs_are_mirrored`, `C145_mirror_images_have_the_same_figures`, `C146_common_factor`, `C146_same_best_designs`, `C146_same_optimum_handed`, `C147_multipliers_certify_the_design`, `C148_loss_of_smoothing`, `C148_margin_suffices`, `C148_smoothed_problem_is_conservative`, `C148_smoothing_vanishes`, `C149_near_optimal_design`, `C149_near_optimal_unconstrained`, `C149_valid_calls_return`, `C150_default_grids`, `C150_whole_machine`, `C151_concave_in_the_weights`, `C151_convex_in_the_bounds`, `C151_ends_of_the_scan`, `C151_no_better_on_both`, `C151_slope_between_weights`, `C152_device_of_the_call`, `C152_same_device`, `C153_prices_of_the_bounds`, `C154_fewer_metrics`, `C154_same_design`, `C154_same_end`, `C155_reported_objective`, `C156_density_bound`, `C156_multipliers_certify_bounded_currents`, `C156_rows_of_a_density_bound`, `C157_price_of_a_density_bound`, `C157_prices_of_the_bounds`, `C158_met_density_bound`, `C159_passes_outside_the_tolerance`, `C159_reported_violation`, `C159_violations_add_up`, `C160_small_rows_mean_nearly_met_bounds`, `C161_returned_designs_nearly_meet_the_bounds`

**`ClassicalDedekindReals.sig_forall_dec`, `ClassicalDedekindReals.sig_not_dec`, `Classical_Prop.classic`, `functional_extensionality_dep`** (8 theorems)

`C128_field_error_converges`, `C128_integrals_converge`, `C128_maxima_converge`, `C130_best_designs_converge`, `C130_objective_converges`, `C136_error_floor`, `C136_grid_flux_vanishes`, `C136_no_net_flux`

## 6. Disagreements found / not expressible

Every property of the list is expressible in the model. The following are false of the code as it stands; each has a `_refuted` theorem with a witness (or for all inputs, where the text says so) and, where something weaker holds, a `_partial` theorem.

* **C08** Crossing a jit boundary loses nothing. False for the finite-element parameter class, whose flattening reads attributes that are never set and always raises (C08_finite_element_refuted, C08_finite_element_always_raises). Proved for the surface and the Fourier parameter object (C08_surface…, C08_params_roundtrip).
* **C09** DESC coefficient conversion round-trips. False for every general surface (table cut at a quarter of the vector) and for mpol=ntor=0; proved for the other symmetric surfaces.  DESC's ptolemy_identity_fwd/rev themselves are not modelled.
* **C17** K_theta is the poloidal current density for every parameter object. False for non-symmetric parameter objects: K_theta raises a shape TypeError for every input (C17_K_theta_general_always_raises). Proved for symmetric ones.
* **C21** Cylindrical projection is an isometry. False off the plane z=0 (the radial unit vector is divided by the 3-D norm); isometry proved for z=0 and the exact length factor proved everywhere.
* **C25** Initial slack values are feasible and tight. False for the squared variant (f_max_Phi2, f_max_force2_cyl): exact characterisation proved; plain, fourth-power and L1 variants proved.
* **C26** Smoothed quantities approach the exact quantity. False for the squared (limit raw/unit^2) and fourth-power (raw/unit^4) variants; plain L-infinity, L1 and Huber proved.
* **C31** Automatic units preserve the meaning of constraints. False for negative reference values; proved for positive ones, with a pointwise characterisation.
* **C32** Smoothed field constraints are conservative. False for '=='; inequalities proved, with the sufficient margin.
* **C36** Using one slack quantity twice is consistent. False for units of different size; proved for units of equal size.
* **C39** The mean-decrease test measures actual decrease. False for starting values below fstop or not positive; proved otherwise.
* **C40** Reported objective value belongs to the reported point. False for unconstrained runs (value one update old); proved for constrained runs.
* **C43** Returned solution satisfies the constraint tolerance when the solver stopped as converged. False: the last pass is not checked against ctol. Proved: if no inner update makes the subproblem larger, every violation after the last pass is bounded by the decrease of the objective, the multipliers and the tolerance (C43_violation_bound_partial).
* **C44** Inequality multipliers stay non-negative. False for gplus_elu; proved for gplus_hard (default) and gplus_softplus.
* **C51** value_only returns the same values. False for the metric f_obj, which is never present in value-only mode; all other metrics, the point and the solver results proved equal.
* **C52** User options reach the solver. False: gplus_mask never reaches the solver (concrete call whose answer would differ); every tolerance and iteration option proved to arrive.
* **C55** Preconditioned solve solves the same system and the better answer is used. False when a positive singular value lies below the cut-off; proved when every singular value is 0 or above it. The choice of the better answer is unconditional.
* **C56** Generated winding surface uses one symmetry convention. False when stellsym and plasma_stellsym differ: the surface is not usable and every field evaluation raises.
* **C59** Self-intersection weights keep a simple polygon and always keep the first vertex. False for the first vertex: with an odd number of crossed edges it gets weight 0. Proved: 0/1 values, simple polygons keep every vertex, and every weight is the parity of the crossed edges before it.
* **C60** Arc-length poloidal angle is a valid parametrisation. False for the increments: the step between two points is proportional to the length of the next edge. Proved: starts at 0, non-decreasing, below 1, exact value of every step.
* **C61** Both angle-based generators accept non-symmetric plasmas. False for the atan generator: TypeError for every non-symmetric plasma with two or more toroidal points and default interpolation. Proved: exact condition for success of the atan generator; arc and offset always succeed with the legal number of coefficients.
* **C63** Fourier coefficients computed for a coil curve reproduce the curve. False at the end of the accepted range: with exactly two samples per order the highest cosine coefficient comes out doubled (C63_two_per_order_refuted). Exact recovery is proved for every order below half the number of samples, and the AssertionError below the range.
* **C64** FOCUS file header matches its body. False: the header counts degrees of freedom and the body has one line per (m, n) in a rectangle, so they differ (C64_header_refuted). They agree exactly for stellarator-symmetric surfaces with mpol = 0 (C64_header_partial).
* **C65** simsopt import keeps both net currents. False: the created object always gets toroidal current 0 (C65_toroidal_current_refuted). Everything else is passed on, and the toroidal current is right exactly when it is 0 (C65_potential_partial).
* **C67** DESC entry point is usable. False: io/desc.py uses names that it neither defines nor imports, so with DESC installed every call raises NameError (C67_desc_refuted). With these names supplied, a call reaches the solver with the data of the equilibrium (C67_desc_with_names_partial); without DESC it raises (C67_needs_desc). The winding surface coefficients and the symmetry flag are not taken from the equilibrium although the docstring says the former are.
* **C68** Equality constraints can be plotted. False for equalities: the code looks for '=' while the parser knows '==', so both spellings raise (C68_equality_refuted). For inequalities the plotted function is at most 0 only where the constraint holds, and where it holds with a margin of 1e-10 times the unit times the logarithm of the number of points (C68_inequalities_partial).
* **C69** Self force excludes exactly the self-pair. False for evaluation grids other than the default one: the mask removes the pair with equal indices even when its two points differ (C69_other_grid_refuted). Proved on the default grid with pairwise distinct winding-surface points, for the integral with arbitrary arrays when the mask marks exactly the coinciding pairs, and without restriction for the legacy integral; the two versions agree on the default grid.
* **C71** Slack form of an L1 penalty works for vector fields. False: the slack objective raises on vector fields.
* **C72** Smoothed Huber penalty is even and least at zero field. False: the smoothed form adds eps^2 inside the norm, so it is neither even nor least at zero for any eps, unit (C72_huber_even_and_least_at_zero_refuted). Proved: both hold up to a gap of second order in eps (C72_huber_almost_even_partial); the limit as eps goes to 0 is C26_huber_limit_partial.
* **C77** Output dictionary holds exactly the requested metrics. False: verbose unconstrained calls add hess_cond, value-only drops f_obj; exact key set proved.
* **C78** Gradient of a metric at a constrained optimum. False for active constraints (multipliers are frozen: 1/3 instead of 1); proved when the result is a stationary point of the Lagrangian with frozen multipliers.
* **C79** Gradient of the objective value. False: the metric does not see the weights (0 instead of 1).
* **C81** Default scale of the unknown is usable. False for surfaces of equal minor radius; the exact value of the default unit proved.
* **C82** Hull rule keeps the corners of the convex hull. False: a lowest point is dropped when another point has the same height (unit square). Proved: every other strict corner is kept (C82_hull_partial).
* **C83** Every documented contour rule can be used. False: the rule hull raises for every input. Proved: no rule but self-intersection produces a surface.
* **C84** The smoothing parameter of the generators can be chosen. False: a given lam_tikhonov raises for every input.
* **C87** Self-force components refer to the evaluation point. False: the integrands are projected on the frame of the source point and the current on the frame of the evaluation point, and the components are contracted and summed as if the frames were the same. On a circular torus with poloidal current the radial component is wrong (C87_frame_refuted).
* **C93** A coil carries the current between neighbouring levels. False: the current is the net current divided by the number of contours found, so a level with two contours halves it (C93_coil_current_refuted). It is right exactly when every level has one contour on average, i.e. n contours with symmetry and 2n without (C93_coil_current_partial).
* **C94** The coils file carries the whole net poloidal current. False for stellarator-symmetric problems: the file holds only the half-period coils, so it carries half the net current (C94_file_current_refuted). Right without symmetry (C94_file_current_partial).
* **C95** Coil curves pass through the contour points. False: the default order is half the number of points, and for an even number of points the curve misses them unless their alternating sum vanishes (C95_even_number_of_points, C95_curves_through_points_refuted). True for the shortest contours with an odd number of points (C95_curves_through_points_partial).
* **C97** FOCUS export accepts the three documented surface classes. False: the DESC branch keeps a JAX surface, which has no get_rc, and raises AttributeError (C97_desc_surface_refuted). The two other classes work and other objects are rejected (C97_jax_and_simsopt_accepted_partial).
* **C99** Differentiable wrapper can be used wherever the solver can. False in three ways: verbose output of an unconstrained problem raises TypeError (C99_verbose_refuted); a single objective with an array of weights raises KeyError (C99_weight_refuted); with metric f_obj evaluation and differentiation return different sets of values (C99_f_obj_refuted). Proved outside these cases (C99_usable_partial).
* **C100** VTK files keep the grid of the surface. False for gamma_and_field_to_vtk on surfaces with different resolutions: the dimensions are swapped, so points are connected across grid lines (C100_vector_field_refuted). Proved for the two other functions, and for square grids and the pairing of points with values here (C100_vector_field_partial).
* **C101** DESC current potential can be loaded. False: the function uses a name that is not imported and always raises NameError (C101_load_refuted).
* **C104** Contour plots show the quantity around the given state. False at the zero state: both axes collapse to the single value 0 (C104_axes_refuted). The values plotted are those of the quantity at the states on the axes (C104_values), and the axes are distinct and span the range when both coefficients and ranges are not 0 (C104_axes_partial).
* **C105** Documented quantities are available. False: two names of the documented list do not exist: f_max_Bnormal_abs (docs/quantity.rst 79; the package has f_max_Bnormal) and Phi_abs (docs/quantity.rst 162); get_quantity raises ValueError for both. Proved for all other documented names: accepted as objective exactly if documented as a number, always accepted with '<='; and nothing outside the documented list and eight more names is accepted.
* **C106** Quantities return arrays of the documented shape. False for K_theta without stellarator symmetry, which raises TypeError (current.py 76-81, see C17). Proved for every other quantity of the package and for K_theta with stellarator symmetry.
* **C107** DESC unit of a quantity has the dimension of the quantity. False for four quantities. K_theta returns the derivative of the potential, a current, but its unit is that of K (current per length): the ratio grows like c. _force_desc_unit (force.py 517) is B*K*a^2, a force, but the quantity is a force per area: the ratios shrink like 1/c^2 (f_max_force_cyl, f_l1_force_cyl) and 1/c^4 (f_max_force2_cyl). Proved for all other 23 quantities, with the exact deviation of the four.
* **C108** Automatic normalisation is not zero. False: the quantities of the single-valued potential (Phi, Phi2, f_max_Phi, f_max_Phi2, f_max_Phi4, f_l1_Phi, f_Phi) vanish at zero coefficients, so their automatic unit is always 0 and the scaled quantity is a division by zero. Proved positive for f_max_K2, f_K and f_huber_K whenever a net current flows; for f_B, f_max_Bnormal and f_max_Bnormal2 it is positive exactly if the net currents leave a normal field on the plasma grid.
* **C110** Quantities can be called as documented. False: the call shown in docs/quantity.rst 26-37, K_theta(qp, phi_mn) with the coefficient array, indexes the array by 'phi' (quantity.py 207) and raises TypeError. Proved for the dictionary form, where slack entries are ignored.
* **C112** A problem can be plotted from the arguments given to quadcoil. False: a tuple of objectives or an objective unit of None, both accepted by quadcoil, raise in plot_quadcoil; equality constraints raise (C68); the extra keyword arguments, such as ngrid, are dropped. Proved for one scalar objective with a numerical unit and inequality constraints on smooth quantities.
* **C124** The best design is unique. False for stellsym=False without f_Phi (the constant mode is a free unknown); proved for resolving evaluation grids with f_Phi weighted, or f_K weighted and stellsym=True; up to a constant otherwise
* **C125** A call stops only at its budget or its tolerances. False for constrained calls: the last-stage run always follows the main loop, so a call whose main loop uses up maxiter_tot exceeds it (C125_total_refuted, C125_overrun). C125_budget_partial gives the true bounds (maxiter_tot without constraints, maxiter_tot-1+2*maxiter_inner with), C125_reasons that nothing but the declared criteria ends a call.
* **C132** The implicit gradients are taken of the problem that was solved. False: the multipliers used in the gradient stage are those after the update that follows the last optimiser run, so the function differentiated is not the one minimised and the reported design need not be stationary for it; proved: identification of the function with the objective / augmented Lagrangian of the problem at the given inputs, and equality with the minimised function when the last pass changed neither multipliers nor penalty

Partial for other reasons:


Smaller observations, visible in the model but not stated as properties:

* The docstring of `quadcoil` names the atan generator as default; the code uses the arc generator.
* `gtol_inner_last` and `maxiter_inner` are not used by a solve without constraints.
* The default scale reads coefficient `2*ntor+1`, which is rc(1,0), for the plasma and for the winding surface, each with its own `ntor`.
* A grid with a single toroidal or poloidal point has spacing 0, hence area 0.
* Array-valued metrics raise in gradient mode.
* `quadcoil_desc` documents that the winding-surface coefficients are replaced by those of the equilibrium; they are not.

Conventions of the model to keep in mind when reading theorems:

* Division by zero is the total division of the standard library; a quotient with zero divisor stands for nan or infinity, and theorems that depend on it carry a hypothesis.
* All broadcasting errors are `ValueError`; JAX uses `TypeError` for some of them. No theorem distinguishes the two.
* Positive theorems about functions that call foreign code (optax, lineax, matplotlib, simsopt, DESC) quantify over that code or state what is asked of it.
