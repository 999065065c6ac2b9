{"id": "C01", "title": "Surface coefficient vector lists every Fourier mode exactly once", "statement": "For given mpol and ntor the coefficient vector of an RZ-Fourier surface has one cosine coefficient for each mode (m,n) with either m=0 and 0<=n<=ntor, or 1<=m<=mpol and |n|<=ntor, one sine coefficient for each of those modes except (0,0), and nothing else; no mode occurs twice. A stellarator-symmetric surface therefore takes exactly 2*(1+ntor+mpol*(2*ntor+1))-1 coefficients and a general one exactly twice that number, and a vector of any other length is rejected when points are evaluated.", "quantifier": "all mpol, ntor >= 0, both symmetry settings, all coefficient vectors", "why_tests_cant": "Tests fix a handful of resolutions; the claim is about every resolution and every vector length.", "anchors": ["src/quadcoil/surfacerzfourier_jax.py: make_rzfourier_mc_ms_nc_ns, dof_to_rz_op, dof_to_gamma"]}
{"id": "C02", "title": "Surface derivatives of every order are the true partial derivatives", "statement": "The (a,b)-derivative reported for the surface position is, componentwise, the a-th partial derivative in phi and b-th partial derivative in theta of the position, for every a and b: differentiating the reported (a,b)-derivative in phi (theta) gives the reported (a+1,b) ((a,b+1))-derivative at every point.", "quantifier": "all coefficient vectors, mpol, ntor, nfp, symmetry, all orders a,b, all real phi, theta", "why_tests_cant": "Finite-difference tests sample a few points, low orders and carry truncation error.", "anchors": ["src/quadcoil/surfacerzfourier_jax.py: gammadash, dof_to_rz_op, dof_to_gamma_op, dof_to_gamma"]}
{"id": "C03", "title": "Surface has the field-period and poloidal symmetry its nfp declares", "statement": "Advancing phi by 1/nfp rotates the surface position and each of its derivatives by 2*pi/nfp about the z axis; advancing theta by 1, or phi by 1, leaves them unchanged.", "quantifier": "all coefficient vectors, resolutions, nfp>=1, derivative orders, points", "why_tests_cant": "Universally quantified over reals and resolutions.", "anchors": ["src/quadcoil/surfacerzfourier_jax.py: dof_to_rz_op, dof_to_gamma_op"]}
{"id": "C04", "title": "A stellsym surface is stellarator symmetric", "statement": "With stellsym set, the surface point at (-phi,-theta) is the surface point at (phi,theta) with y and z negated.", "quantifier": "all coefficient vectors, resolutions, nfp, points", "why_tests_cant": "Universally quantified over reals and resolutions.", "anchors": ["src/quadcoil/surfacerzfourier_jax.py: dof_to_rz_op, dof_to_gamma_op"]}
{"id": "C05", "title": "Normal, unit normal and tangent-gradient helpers form a consistent frame", "statement": "At any point where the tangents are independent: the normal is orthogonal to both tangents and has the length of the area element; the unit normal is that direction with length one; the two contravariant vectors returned by the gradient helper are tangent to the surface and form the dual basis of the two tangents (inner products 1 and 0).", "quantifier": "all surfaces and points with non-vanishing normal", "why_tests_cant": "Identity over all reals, not a finite set of surfaces.", "anchors": ["src/quadcoil/surfacerzfourier_jax.py: normal, unitnormal, grad_helper"]}
{"id": "C06", "title": "Derived-geometry helpers return the derivatives they name", "statement": "At points with non-vanishing normal the unit-normal derivatives equal the phi/theta derivatives of the unit normal, and the derivatives returned for (1/|N|) times the tangents are the true phi/theta derivatives of those fields.", "quantifier": "all surfaces and regular points", "why_tests_cant": "Finite differences only sample points.", "anchors": ["src/quadcoil/surfacerzfourier_jax.py: unitnormaldash, dga_inv_n_dashb"]}
{"id": "C07", "title": "One-period surface integrals times nfp equal full-torus integrals", "statement": "If a surface samples one field period on an equispaced grid, the reported area, and every integrated figure of merit of a field-period-symmetric density, equals the same quadrature carried out over all nfp periods.", "quantifier": "all surfaces, nfp>=1, grids with at least two toroidal points per period, field-period-symmetric scalar fields", "why_tests_cant": "All surfaces/densities/grid sizes.", "anchors": ["src/quadcoil/surfacerzfourier_jax.py: da, integrate, area"]}
{"id": "C08", "title": "Crossing a jit boundary loses nothing", "statement": "Flattening and unflattening (what jit/grad/vmap do to arguments and results) gives back an equal surface and an equal parameter object, for every class registered as a pytree.", "quantifier": "all surfaces, all parameter objects of each registered class", "why_tests_cant": "Holds for every object value, including ones never constructed in tests.", "anchors": ["src/quadcoil/surfacerzfourier_jax.py: tree_flatten, tree_unflatten", "src/quadcoil/quadcoil_params.py: QuadcoilParams, QuadcoilParamsFiniteElement"]}
{"id": "C09", "title": "DESC coefficient conversion round-trips", "statement": "Converting surface coefficients to the four cosine/sine tables handed to DESC gives, in each table, one entry per Fourier mode holding that mode's coefficient (zero for the sine entry of the (0,0) mode and for the tables a symmetric surface does not have), and converting those tables back returns the original coefficient vector, for symmetric and general surfaces.", "quantifier": "all resolutions, all coefficient vectors of legal length, both symmetry settings", "why_tests_cant": "All resolutions and both branches; the general branch is not tested.", "anchors": ["src/quadcoil/surfacerzfourier_jax.py: from_desc, to_desc"]}
{"id": "C10", "title": "Current-potential vector lists each independent mode once", "statement": "The current-potential coefficient count reported by the parameter object equals the number of modes generated from (mpol, ntor); the modes are exactly one representative of each {(m,n),(-m,-n)} with 0<=m<=mpol, |n|<=ntor other than (0,0); the non-symmetric layout adds one constant and one cosine coefficient per mode.", "quantifier": "all mpol, ntor>=0, both symmetry settings", "why_tests_cant": "All resolutions.", "anchors": ["src/quadcoil/quadcoil_params.py: make_mn_helper, QuadcoilParams.ndofs, QuadcoilParams.make_mn, cp_ndofs"]}
{"id": "C11", "title": "Current-potential derivative operators are exact", "statement": "The operators for the first and second phi/theta derivatives of the current potential give the true partial derivatives of the potential as a function of (phi,theta).", "quantifier": "all coefficient vectors, resolutions, nfp, symmetry, all real points", "why_tests_cant": "Universally quantified over reals.", "anchors": ["src/quadcoil/quadcoil_params.py: diff_helper"]}
{"id": "C12", "title": "Current potential respects field-period and stellarator symmetry", "statement": "The single-valued current potential is 1/nfp-periodic in phi and 1-periodic in theta; with stellsym it is odd under (phi,theta)->(-phi,-theta), hence zero at the origin.", "quantifier": "all coefficient vectors, resolutions, nfp, points", "why_tests_cant": "Universally quantified over reals.", "anchors": ["src/quadcoil/quadcoil_params.py: diff_helper", "src/quadcoil/quantity/dipole.py: _Phi"]}
{"id": "C13", "title": "Net currents are exactly the requested G and I", "statement": "The multivalued potential (Phi with net current) increases by exactly the net poloidal current when phi goes once around and by the net toroidal current when theta goes once around, whatever the Fourier coefficients are.", "quantifier": "all coefficient vectors, G, I, resolutions, starting points", "why_tests_cant": "Universally quantified over reals.", "anchors": ["src/quadcoil/quantity/dipole.py: _Phi_with_net_current", "src/quadcoil/quadcoil_params.py: diff_helper"]}
{"id": "C14", "title": "Surface current is tangential, divergence free and equals n x grad Phi", "statement": "At every regular point the reported surface current K is orthogonal to the normal, equals unit-normal cross surface gradient of the multivalued potential, and |N|K has zero surface divergence (the phi derivative of its phi-contravariant part plus the theta derivative of its theta-contravariant part vanishes).", "quantifier": "all parameter objects, coefficient vectors, regular points", "why_tests_cant": "Universally quantified over reals.", "anchors": ["src/quadcoil/quantity/current.py: _K"]}
{"id": "C15", "title": "Surface current and field superpose", "statement": "K, the normal field and the field at any point are affine in the current-potential coefficients for fixed net currents, and jointly linear in (coefficients, G, I).", "quantifier": "all pairs of coefficient vectors, weights, parameter objects", "why_tests_cant": "Algebraic law over all inputs.", "anchors": ["src/quadcoil/quantity/current.py: _K", "src/quadcoil/quantity/magnetic_field.py: _winding_surface_B, _Bnormal"]}
{"id": "C16", "title": "K.grad(K) is the directional derivative of K along K", "statement": "The helper derivatives of K are the true phi/theta derivatives of K, and the reported K.grad(K) is the derivative of K along K on the surface.", "quantifier": "all parameter objects, coefficient vectors, regular points", "why_tests_cant": "Finite differences only sample.", "anchors": ["src/quadcoil/quadcoil_params.py: Kdash_helper", "src/quadcoil/quantity/curvature.py: _K_dot_grad_K"]}
{"id": "C17", "title": "K_theta is the poloidal current density for every parameter object", "statement": "For every parameter object K_theta evaluates successfully to dPhi/dphi + G on the evaluation grid.", "quantifier": "both symmetry settings, all resolutions", "why_tests_cant": "The non-symmetric branch is never exercised by tests.", "anchors": ["src/quadcoil/quantity/current.py: _K_theta"]}
{"id": "C18", "title": "Quadratic figures of merit are non-negative and convex", "statement": "On increasing quadrature angles, f_B, f_K and f_Phi never raise, are non-negative and convex in the current-potential coefficients, so a local minimum is global.", "quantifier": "all parameter objects, coefficient vectors, convex weights", "why_tests_cant": "Convexity ranges over all pairs of points.", "anchors": ["src/quadcoil/quantity/magnetic_field.py: _f_B", "src/quadcoil/quantity/current.py: _f_K", "src/quadcoil/quantity/dipole.py: _f_Phi"]}
{"id": "C19", "title": "Biot-Savart sum is invariant under rigid rotations about the axis and rotates by field period", "statement": "Rotating field points and coil points about the z axis rotates the field; as a result the field of a current sheet on an equispaced full-turn winding grid (a whole number of points per field period) rotates with the field period.", "quantifier": "all currents, surfaces, angles", "why_tests_cant": "Universally quantified over reals.", "anchors": ["src/quadcoil/quantity/magnetic_field.py: _winding_surface_B"]}
{"id": "C20", "title": "Smooth maximum and absolute value bracket the exact ones", "statement": "max <= smooth max <= max + eps*ln(n); |x| <= smooth |x| <= |x| + eps*ln 2; the smooth L-infinity norm is between max|x| and max|x| + eps*ln(2n).", "quantifier": "all non-empty real vectors, all eps>0", "why_tests_cant": "Universally quantified over vectors of any length and reals.", "anchors": ["src/quadcoil/math_utils.py: max_lse, abs_lse, linf_lse"]}
{"id": "C21", "title": "Cylindrical projection is an isometry", "statement": "Projecting a vector field onto (r,phi,z) at a surface point uses three orthonormal directions, so it preserves the length of the vector.", "quantifier": "all points off the axis, all vectors", "why_tests_cant": "Universally quantified over reals.", "anchors": ["src/quadcoil/math_utils.py: project_arr_cylindrical, project_arr_coord"]}
{"id": "C22", "title": "Custom linear-solve derivative is the true adjoint", "statement": "For an invertible matrix and finite cotangent, the gradients returned by the custom reverse rule pair with any perturbation (dA,db) exactly as the cotangent pairs with the first-order change of the solution; non-finite entries of the cotangent contribute nothing.", "quantifier": "all sizes, invertible matrices, right-hand sides, cotangents, perturbations", "why_tests_cant": "Universally quantified linear algebra.", "anchors": ["src/quadcoil/math_utils.py: safe_linear_solve"]}
{"id": "C23", "title": "Slack form of an L-infinity penalty is exact", "statement": "With smoothing=\"slack\" and a positive unit: a value t of the slack variable satisfies the generated inequality constraints exactly when the scaled field is bounded by t in absolute value; consequently the constrained minimum of the generated objective over the slack variable equals the raw quantity divided by the unit, for the plain, squared and fourth-power variants.", "quantifier": "all fields on all grids, all positive units, all slack values", "why_tests_cant": "Equivalence of feasible sets for all reals.", "anchors": ["src/quadcoil/quantity/quantity.py: _Quantity.generate_linf_norm, _Quantity.generate_linf_norm_4"]}
{"id": "C24", "title": "Slack form of an L1 penalty is exact", "statement": "With smoothing=\"slack\" and a positive unit: every slack field satisfying the generated constraints gives an objective at least the raw L1 norm over the unit, and the slack field equal to the scaled absolute field attains it.", "quantifier": "all fields with one value per grid point, weights, positive units, slack fields", "why_tests_cant": "Equivalence for all reals.", "anchors": ["src/quadcoil/quantity/quantity.py: _Quantity.generate_l1_norm"]}
{"id": "C25", "title": "Initial slack values are feasible and tight", "statement": "The initial slack values handed to the solver satisfy the generated constraints and make the generated objective equal to the raw quantity over the unit, for every non-smooth quantity.", "quantifier": "all non-smooth quantities, fields, positive units", "why_tests_cant": "Depends on the magnitude of the field: holds for some ranges and fails for others.", "anchors": ["src/quadcoil/quantity/quantity.py: _Quantity.generate_linf_norm, generate_linf_norm_4, generate_l1_norm"]}
{"id": "C26", "title": "Smoothed quantities approach the exact quantity", "statement": "With smoothing=\"approx\" each non-smooth quantity over its unit tends to the raw quantity over its unit as the smoothing parameter goes to 0, for any positive unit.", "quantifier": "all fields, units, non-smooth quantities", "why_tests_cant": "A limit over a real parameter.", "anchors": ["src/quadcoil/quantity/quantity.py: generate_linf_norm, generate_linf_norm_4, generate_huber, generate_l1_norm"]}
{"id": "C27", "title": "Smooth quantities do not depend on the smoothing mode", "statement": "A quantity built by the smooth constructor has the same scaled value (raw value over unit) in every smoothing mode, creates no constraints and no slack variables; an unknown smoothing mode is rejected with an error for every quantity.", "quantifier": "all smooth quantities, modes, units, inputs", "why_tests_cant": "Every quantity and every string.", "anchors": ["src/quadcoil/quantity/quantity.py: generate_c2, scaled_f_impl, scaled_g_ineq_impl, scaled_h_eq_impl, scaled_slack_dofs_init"]}
{"id": "C28", "title": "Slack-variable names never collide between quantities", "statement": "Over any sequence of quantity definitions, successful or failing, no two successfully defined quantities own the same slack-variable name, and a failed definition leaves the name registry as it was.", "quantifier": "all finite sequences of definitions, including failing ones", "why_tests_cant": "Ranges over histories.", "anchors": ["src/quadcoil/quantity/quantity.py: _Quantity.__init__"]}
{"id": "C29", "title": "Symmetry-reduced index sets pick one point per orbit", "statement": "The index mask for stellarator-symmetric grids selects exactly one of each point and its mirror image (mod grid size).", "quantifier": "all grid sizes", "why_tests_cant": "All grid sizes.", "anchors": ["src/quadcoil/quantity/quantity.py: _get_unique_indices"]}
{"id": "C30", "title": "Constraint encoding means what the user wrote", "statement": "With a positive unit and no or slack smoothing, the generated inequality (equality) function is <= 0 (= 0) exactly when the quantity is <= (>=, ==) the requested value; applies elementwise to field-valued quantities.", "quantifier": "all quantities, values, positive units, types <=, >=, ==, all inputs", "why_tests_cant": "Equivalence for all reals and all constraint lists.", "anchors": ["src/quadcoil/wrapper.py: _parse_constraints, _add_quantity"]}
{"id": "C31", "title": "Automatic units preserve the meaning of constraints", "statement": "When the unit of a constraint is left as None, the generated constraint still holds exactly when the quantity satisfies the requested bound.", "quantifier": "all quantities, parameter objects, values", "why_tests_cant": "Depends on the sign/zero of the reference value.", "anchors": ["src/quadcoil/wrapper.py: _add_quantity"]}
{"id": "C32", "title": "Smoothed field constraints are conservative", "statement": "With smoothing=\"approx\", a field-valued constraint accepted by the smoothed scalar constraint is satisfied at every grid point.", "quantifier": "all fields, values, eps>0, constraint types", "why_tests_cant": "All reals, all vector lengths.", "anchors": ["src/quadcoil/wrapper.py: _parse_constraints"]}
{"id": "C33", "title": "Total objective is the weighted sum of scaled objectives", "statement": "For equally long tuples of names, weights and units the total objective is sum_i weight_i * f_i/unit_i; a single name is its own objective with weight one irrespective of the weight argument; mismatched lengths are rejected; slack constraints of every objective are all kept.", "quantifier": "all tuples of objectives, weights, units", "why_tests_cant": "All lists.", "anchors": ["src/quadcoil/wrapper.py: _parse_objectives"]}
{"id": "C34", "title": "Unsupported uses of a quantity are rejected before any solve", "statement": "A quantity used as an objective or in a constraint type it does not declare, an unknown quantity name, an unknown constraint operator or a non-numeric unit produces an error; a declared use with a valid unit never does.", "quantifier": "all quantity lists and registries", "why_tests_cant": "All strings and lists.", "anchors": ["src/quadcoil/wrapper.py: get_quantity, _add_quantity, _parse_constraints"]}
{"id": "C35", "title": "Merging constraint functions keeps every constraint", "statement": "Concatenated constraint functions are componentwise <=0 exactly when every individual one is; with merge_constraints the single merged value being <=0 implies all of them, and merging is refused unless smoothing is approx.", "quantifier": "all lists of constraint functions and outputs", "why_tests_cant": "All lists.", "anchors": ["src/quadcoil/wrapper.py: merge_callables"]}
{"id": "C36", "title": "Using one slack quantity twice is consistent", "statement": "If a slack-type quantity appears in several objectives/constraints, the combined slack problem is equivalent to the original problem.", "quantifier": "all units chosen for the repeated uses", "why_tests_cant": "Depends on the relation of the units.", "anchors": ["src/quadcoil/wrapper.py: _parse_objectives, _parse_constraints", "src/quadcoil/quantity/quantity.py: generate_linf_norm"]}
{"id": "C37", "title": "Inner optimiser always terminates within its iteration budget", "statement": "The inner optimisation loop makes at least one step and at most max(1, maxiter) steps, and reports exactly the number of steps made, for any objective, including ones returning NaN or infinity.", "quantifier": "all objectives, gradients, optimiser states, tolerances, arithmetic behaviours", "why_tests_cant": "Must hold for every behaviour of an opaque optimiser and non-finite values.", "anchors": ["src/quadcoil/solver.py: run_opt_optax"]}
{"id": "C38", "title": "Inner optimiser stops only for a declared reason", "statement": "When the inner loop stops before the budget, either the gradient norm reported by the optimiser is not above gtol, or the mean decrease over the value record is not above fstop, or step, update and value changes are all not above tolerance.", "quantifier": "all objectives and optimiser behaviours", "why_tests_cant": "All behaviours.", "anchors": ["src/quadcoil/solver.py: run_opt_optax"]}
{"id": "C39", "title": "The mean-decrease test measures actual decrease", "statement": "The inner loop never stops through the mean-decrease test while every step still decreases the objective by more than fstop.", "quantifier": "all objectives and starting values", "why_tests_cant": "Depends on sign of the starting value.", "anchors": ["src/quadcoil/solver.py: run_opt_optax"]}
{"id": "C40", "title": "Reported objective value belongs to the reported point", "statement": "The objective value returned by the solver is the objective evaluated at the returned point, for constrained and unconstrained runs.", "quantifier": "all objectives, starting points, optimiser behaviours", "why_tests_cant": "All behaviours.", "anchors": ["src/quadcoil/solver.py: run_opt_optax, solve_constrained", "src/quadcoil/quadcoil.py: quadcoil"]}
{"id": "C41", "title": "Augmented-Lagrangian loop terminates within a total iteration bound", "statement": "The constrained solver always terminates; its total inner-iteration count, including the last polishing pass, is at most maxiter_tot - 1 + 2*max(1,maxiter_inner), and at least 2.", "quantifier": "all problems, optimiser behaviours, arithmetic behaviours", "why_tests_cant": "All behaviours incl. NaN.", "anchors": ["src/quadcoil/solver.py: solve_constrained"]}
{"id": "C42", "title": "Outer loop exits converged-and-feasible, saturated, or out of budget", "statement": "When the main outer loop ends, either the iteration budget is used up, or the outer step is below xstop_outer and (every inequality is below ctol and every equality within ctol, or the penalty exceeds its safe limit).", "quantifier": "all problems and behaviours", "why_tests_cant": "All behaviours.", "anchors": ["src/quadcoil/solver.py: solve_constrained"]}
{"id": "C43", "title": "Returned solution satisfies the constraint tolerance when the solver stopped as converged", "statement": "If the outer loop ended because constraints were within ctol, the returned point still has constraints within ctol.", "quantifier": "all problems and behaviours", "why_tests_cant": "A final polishing pass follows the test.", "anchors": ["src/quadcoil/solver.py: solve_constrained"]}
{"id": "C44", "title": "Inequality multipliers stay non-negative", "statement": "Starting from non-negative multipliers, every outer iteration produces non-negative inequality multipliers, whichever of the offered penalty masks is used.", "quantifier": "all iterations, constraint values, penalty weights", "why_tests_cant": "Invariant over histories.", "anchors": ["src/quadcoil/solver.py: gplus_hard, gplus_elu, gplus_softplus, solve_constrained"]}
{"id": "C45", "title": "Penalty weight only grows and stays bounded", "statement": "With growth factor >= 1 the penalty weight never decreases over outer iterations, is always c_init times a power of the growth factor, and never exceeds max(c_init, c_safe*growth).", "quantifier": "all problems and behaviours", "why_tests_cant": "Invariant over histories.", "anchors": ["src/quadcoil/solver.py: solve_constrained"]}
{"id": "C46", "title": "Multiplier update is the right one for the augmented Lagrangian", "statement": "At any point the gradient of the augmented Lagrangian equals the gradient of the ordinary Lagrangian with the updated multipliers; hence a stationary point of an inner solve is a KKT-stationary point for the multipliers then reported, and at a fixed point of the update the point is feasible with complementary slackness.", "quantifier": "all smooth f,g,h, multipliers, penalty weights, points", "why_tests_cant": "Universally quantified over functions.", "anchors": ["src/quadcoil/solver.py: gplus_hard, solve_constrained"]}
{"id": "C47", "title": "Augmented Lagrangian never exceeds the objective at feasible points", "statement": "At a point satisfying all constraints, and for non-negative inequality multipliers, the augmented Lagrangian minimised by the inner solver is at most the objective, so its minimum is a lower bound of the constrained optimum.", "quantifier": "all problems, multipliers >=0, c>0", "why_tests_cant": "All reals.", "anchors": ["src/quadcoil/solver.py: solve_constrained, gplus_hard"]}
{"id": "C48", "title": "Rescaling of the unknowns is transparent", "statement": "Scaling the unknowns by x_unit inside an outer iteration evaluates objective and constraints at the unscaled point, and the next scale is always non-zero, so no division by zero occurs.", "quantifier": "all points and scales", "why_tests_cant": "All reals.", "anchors": ["src/quadcoil/solver.py: solve_constrained"]}
{"id": "C49", "title": "Input validation is decisive", "statement": "A call with neither or both of plasma_coil_distance and winding_dofs, with wrongly typed static options, or with constraint tuples of different lengths is rejected; the remaining combinations pass the checks.", "quantifier": "all argument combinations", "why_tests_cant": "All combinations.", "anchors": ["src/quadcoil/quadcoil.py: quadcoil, _input_checking"]}
{"id": "C50", "title": "Gradient dictionary covers exactly the differentiable inputs in use", "statement": "Every metric that is differentiated carries one gradient entry per differentiable input in use for this call (plasma shape, currents, optional normal field, objective weights, constraint values, and either the winding coefficients or the coil distance), no more and no fewer.", "quantifier": "all argument combinations", "why_tests_cant": "All combinations.", "anchors": ["src/quadcoil/quadcoil.py: quadcoil"]}
{"id": "C51", "title": "value_only returns the same values", "statement": "The value-only mode returns the same set of values as the differentiated mode for the same arguments.", "quantifier": "all argument combinations", "why_tests_cant": "All combinations.", "anchors": ["src/quadcoil/quadcoil.py: quadcoil"]}
{"id": "C52", "title": "User options reach the solver", "statement": "The penalty mask chosen by the user (gplus_mask) is the one used while solving.", "quantifier": "all option values", "why_tests_cant": "All options.", "anchors": ["src/quadcoil/quadcoil.py: quadcoil", "src/quadcoil/solver.py: solve_constrained"]}
{"id": "C53", "title": "Scaling and packing of unknowns round-trips", "statement": "Packing the initial guess and slack values into the flat scaled vector and unpacking it returns the original values, for any non-zero scale; slack entries are not affected by the potential scale.", "quantifier": "all guesses, slack dictionaries, scales", "why_tests_cant": "All vectors.", "anchors": ["src/quadcoil/quadcoil.py: quadcoil"]}
{"id": "C54", "title": "Implicit gradient equals the derivative of the metric along the solution curve", "statement": "For an unconstrained stationary problem with invertible Hessian, the assembled gradient (explicit part minus mixed-derivative correction) is the derivative of the metric evaluated at the minimiser with respect to the input.", "quantifier": "all smooth objectives/metrics with invertible Hessian", "why_tests_cant": "Universally quantified over functions.", "anchors": ["src/quadcoil/quadcoil.py: quadcoil"]}
{"id": "C55", "title": "Preconditioned solve solves the same system and the better answer is used", "statement": "The operator-preconditioned linear system has the same solution as the raw one whenever the operator is invertible, and the reported sensitivity uses whichever of the two has the smaller residual.", "quantifier": "all matrices", "why_tests_cant": "All matrices.", "anchors": ["src/quadcoil/quadcoil.py: quadcoil"]}
{"id": "C56", "title": "Generated winding surface uses one symmetry convention", "statement": "When the winding surface is generated from a coil distance, its coefficient vector has the length its symmetry setting requires, for every combination of stellsym arguments.", "quantifier": "all combinations of symmetry flags", "why_tests_cant": "Combination untested.", "anchors": ["src/quadcoil/quadcoil.py: quadcoil", "src/quadcoil/winding_surface.py: fit_surfacerzfourier"]}
{"id": "C57", "title": "Surface fit is the weighted least-squares optimum", "statement": "The fitted coefficients minimise the weighted squared misfit plus the Tikhonov penalty over all coefficient vectors; with zero penalty, full-rank design and data generated by a surface of the same resolution, that surface is recovered exactly.", "quantifier": "all data, weights, penalties >=0", "why_tests_cant": "Optimality over all candidates.", "anchors": ["src/quadcoil/winding_surface.py: fit_surfacerzfourier"]}
{"id": "C58", "title": "Segment-intersection test is exact", "statement": "For non-parallel segments the test returns true exactly when the closed segments share a point; for parallel segments it returns false.", "quantifier": "all pairs of segments", "why_tests_cant": "All reals.", "anchors": ["src/quadcoil/winding_surface.py: get_line_intersection"]}
{"id": "C59", "title": "Self-intersection weights keep a simple polygon and always keep the first vertex", "statement": "If no two non-adjacent edges intersect, every vertex keeps weight one; whatever the polygon, weights are 0 or 1 and the starting vertex keeps weight one.", "quantifier": "all polygons", "why_tests_cant": "All polygons.", "anchors": ["src/quadcoil/winding_surface.py: polygon_self_intersection"]}
{"id": "C60", "title": "Arc-length poloidal angle is a valid parametrisation", "statement": "The poloidal angle assigned to fitted points starts at 0, is non-decreasing along the contour, stays below 1, and the increment between consecutive points is proportional to their distance.", "quantifier": "all closed contours", "why_tests_cant": "All point sets.", "anchors": ["src/quadcoil/winding_surface.py: gen_winding_surface_arc"]}
{"id": "C61", "title": "Both angle-based generators accept non-symmetric plasmas", "statement": "The atan-based winding-surface generator produces coefficients for symmetric and non-symmetric plasma surfaces.", "quantifier": "all inputs of legal shape", "why_tests_cant": "Branch untested.", "anchors": ["src/quadcoil/winding_surface.py: gen_winding_surface_atan"]}
{"id": "C62", "title": "Coil cutting conserves current", "statement": "The coils cut from a current potential carry currents whose sum over one field period equals the net poloidal current per period, each coil carrying an equal share.", "quantifier": "all coil counts, net currents", "why_tests_cant": "All counts.", "anchors": ["src/quadcoil/io/coil_cutting.py: coil_zeta_theta_from_qp, coil_xyz_from_qp, simsopt_coil_from_qp"]}
{"id": "C63", "title": "Fourier coefficients computed for a coil curve reproduce the curve", "statement": "For a curve sampled at N equispaced points that is a trigonometric polynomial of the requested order, the computed coefficients are the coefficients of the curve, for the whole range of orders the routine accepts.", "quantifier": "all N, orders, curves", "why_tests_cant": "All sizes.", "anchors": ["src/quadcoil/io/coil_cutting.py: ifft_simsopt"]}
{"id": "C64", "title": "FOCUS file header matches its body", "statement": "The mode count declared in the header of the exported FOCUS plasma file equals the number of mode lines written.", "quantifier": "all resolutions and symmetry settings", "why_tests_cant": "All resolutions.", "anchors": ["src/quadcoil/io/focus.py"]}
{"id": "C65", "title": "simsopt import keeps both net currents", "statement": "The simsopt bridge passes the net toroidal and net poloidal current of the source on to the created current-potential object.", "quantifier": "all parameter objects", "why_tests_cant": "All values.", "anchors": ["src/quadcoil/io/simsopt.py"]}
{"id": "C66", "title": "Differentiable wrapper is linear and agrees with the gradient dictionary", "statement": "Whenever the forward-mode derivative of the wrapped solver is returned, it is returned for every perturbation, is linear in the perturbation and equals the sum of gradient entries contracted with the perturbations of the inputs in use.", "quantifier": "all perturbations, metrics", "why_tests_cant": "All perturbations.", "anchors": ["src/quadcoil/io/jax.py"]}
{"id": "C67", "title": "DESC entry point is usable", "statement": "Calling the DESC entry point with valid arguments reaches the solver.", "quantifier": "all valid calls", "why_tests_cant": "Requires DESC, untested here.", "anchors": ["src/quadcoil/io/desc.py: quadcoil_desc"]}
{"id": "C68", "title": "Equality constraints can be plotted", "statement": "Plotting a quantity in constraint mode works for each of the three constraint types.", "quantifier": "all constraint types", "why_tests_cant": "Plot code untested.", "anchors": ["src/quadcoil/plotting.py: plot_quantity"]}
{"id": "C69", "title": "Self force excludes exactly the self-pair", "statement": "The regularised force integral drops exactly the contribution of a point on itself and includes all other contributions unregularised, so it equals the direct pairwise sum whenever grid points are distinct.", "quantifier": "all grids, currents, nfp", "why_tests_cant": "All grids.", "anchors": ["src/quadcoil/quantity/force.py: _integrate_force, _integrate_force_legacy"]}
{"id": "C70", "title": "Normalised normal-field error is normalised", "statement": "The normalised field error is unchanged by scaling net currents, coefficients and plasma normal field together, and both field-error measures are zero exactly when the normal field vanishes at all (positive-weight) grid points.", "quantifier": "all parameter objects with increasing plasma grids, all non-zero scalings; for the normalised error, a non-zero error at zero coefficients", "why_tests_cant": "All reals.", "anchors": ["src/quadcoil/quantity/magnetic_field.py: _f_B, _f_B_normalized_by_Bnormal_IG"]}
{"id": "C71", "title": "Slack form of an L1 penalty works for vector fields", "statement": "With smoothing=\"slack\", an L1 penalty of a field with several components per grid point (such as the shipped force penalty f_l1_force_cyl) can be evaluated and is exact.", "quantifier": "all vector-valued fields and grids", "why_tests_cant": "Needs a vector field on a grid whose poloidal size is not 3; broadcasting hides the defect on other sizes.", "anchors": ["src/quadcoil/quantity/quantity.py: _Quantity.generate_l1_norm", "src/quadcoil/quantity/force.py: f_l1_force_cyl"]}
{"id": "C72", "title": "Smoothed Huber penalty is even and least at zero field", "statement": "With smoothing=\"approx\", the Huber-type penalty of a field is the same for the field and its negative and is smallest for the zero field, for every smoothing parameter.", "quantifier": "all fields, grids, smoothing parameters, units", "why_tests_cant": "Universally quantified over reals; the defect is of order eps^2 and invisible at the tolerances tests use.", "anchors": ["src/quadcoil/quantity/quantity.py: _Quantity.generate_huber"]}
{"id": "C73", "title": "The three evaluation modes of the surface current agree", "statement": "The surface current on the evaluation grid, on the winding grid and on one field period of the winding grid are samples of one function of the two angles.", "quantifier": "all parameter objects, coefficient vectors, grids", "why_tests_cant": "All grids.", "anchors": ["src/quadcoil/quantity/current.py: _K"]}
{"id": "C74", "title": "The reported field is a Biot-Savart field in space", "statement": "The reported field at the plasma points is the SI Biot-Savart sum of one fixed list of current elements (position and K dA of each winding grid point); it depends on the plasma surface only through the position of the field point, and is divergence free away from the winding grid points.", "quantifier": "all parameter objects, coefficient vectors, plasma surfaces, positions", "why_tests_cant": "Universally quantified over reals; divergence is a limit.", "anchors": ["src/quadcoil/quantity/magnetic_field.py: _winding_surface_B"]}
{"id": "C75", "title": "Change of length unit", "statement": "Enlarging both surfaces by a factor c>0 with the same coefficients and net currents divides K, the field and the normal field by c, leaves f_B and f_K unchanged and multiplies f_Phi by c^2.", "quantifier": "all parameter objects, coefficient vectors, c>0", "why_tests_cant": "Universally quantified over reals.", "anchors": ["src/quadcoil/quantity/current.py: _K, _f_K", "src/quadcoil/quantity/magnetic_field.py: _winding_surface_B, _Bnormal, _f_B", "src/quadcoil/quantity/dipole.py: _f_Phi"]}
{"id": "C76", "title": "Surface current and field are stellarator symmetric", "statement": "For a symmetric parameter object on a symmetric full-turn winding grid, the surface current and the field map to minus their half-turn images under (phi,theta)->(-phi,-theta), and the normal field of the coils is odd, so one half period determines the rest.", "quantifier": "all symmetric parameter objects, coefficient vectors, points", "why_tests_cant": "Universally quantified over reals.", "anchors": ["src/quadcoil/quantity/current.py: _K", "src/quadcoil/quantity/magnetic_field.py: _winding_surface_B, _Bnormal"]}
{"id": "C77", "title": "Output dictionary holds exactly the requested metrics", "statement": "The dictionary returned by quadcoil has one entry for every requested metric name and no other entry.", "quantifier": "all argument combinations", "why_tests_cant": "All combinations of modes, metric names and verbosity.", "anchors": ["src/quadcoil/quadcoil.py: quadcoil"]}
{"id": "C78", "title": "Gradient of a metric at a constrained optimum", "statement": "For calls with constraints, the reported gradient of a metric is the derivative of the reported metric when the inputs (including constraint values) change and the problem is solved again.", "quantifier": "all families of constrained calls", "why_tests_cant": "Derivative along a family of solved problems.", "anchors": ["src/quadcoil/quadcoil.py: quadcoil"]}
{"id": "C79", "title": "Gradient of the objective value", "statement": "The reported gradient of f_obj is the derivative of the reported f_obj, also with respect to the objective weights.", "quantifier": "all families of calls", "why_tests_cant": "Derivative along a family of solved problems.", "anchors": ["src/quadcoil/quadcoil.py: quadcoil"]}
{"id": "C80", "title": "Reported feasibility means the constraints of the user hold", "statement": "If a constrained call returns and its final inequality and equality residuals are satisfied, then every quantity the user constrained meets the bound the user gave, in the units of the user, at every point of the surface.", "quantifier": "all lists of constraints, all non-zero units and values, without approx smoothing and without merged constraint functions; quantities whose value is their field or whose slack form is exact", "why_tests_cant": "Relates the scaled internal constraints of any call to the physical ones.", "anchors": ["src/quadcoil/quadcoil.py: quadcoil", "src/quadcoil/wrapper.py"]}
{"id": "C81", "title": "Default scale of the unknown is usable", "statement": "When phi_unit is not given, the scale chosen for the current potential is non-zero for any two different surfaces, so that the potential can be recovered from the scaled unknown.", "quantifier": "all surfaces", "why_tests_cant": "All geometries.", "anchors": ["src/quadcoil/quadcoil.py: quadcoil"]}
{"id": "C82", "title": "Hull rule keeps the corners of the convex hull", "statement": "Called directly, the hull scan marks every point of a contour that is a strict corner of the convex hull.", "quantifier": "all contours", "why_tests_cant": "Exact ties of coordinates are measure zero and absent from test contours.", "anchors": ["src/quadcoil/winding_surface.py: graham_scan"]}
{"id": "C83", "title": "Every documented contour rule can be used", "statement": "The arc-length generator accepts the rules self-intersection and hull and rejects any other rule.", "quantifier": "all plasmas, resolutions and rules", "why_tests_cant": "The branch is only reached with a non-default rule, and fails at trace time for every input.", "anchors": ["src/quadcoil/winding_surface.py: gen_winding_surface_arc, graham_scan"]}
{"id": "C84", "title": "The smoothing parameter of the generators can be chosen", "statement": "Passing lam_tikhonov to the atan or arc generator produces a surface fitted with that penalty.", "quantifier": "all plasmas, resolutions and penalties", "why_tests_cant": "Tests only use the default value.", "anchors": ["src/quadcoil/winding_surface.py: gen_winding_surface_atan, gen_winding_surface_arc, fit_surfacerzfourier"]}
{"id": "C85", "title": "Generated winding surfaces scale with the plasma", "statement": "If all plasma points and the offset distance are multiplied by c>0, each of the three generators returns its former coefficients multiplied by c.", "quantifier": "all c>0, plasmas, distances, resolutions, interpolations", "why_tests_cant": "Holds for all plasmas and all factors; passes through angle, weight, fit and interpolation steps.", "anchors": ["src/quadcoil/winding_surface.py: gen_winding_surface_offset, gen_winding_surface_arc, gen_winding_surface_atan"]}
{"id": "C86", "title": "Offset generator reproduces an offset surface of its own resolution", "statement": "If the points moved by the given distance along the given normals lie on a surface of the requested resolution at the poloidal grid angles, and the grid determines the coefficients, the offset generator returns exactly the coefficients of that surface.", "quantifier": "all plasmas, normals, distances, resolutions", "why_tests_cant": "All surfaces and resolutions; angle recovery by arctan2 on all branches.", "anchors": ["src/quadcoil/winding_surface.py: gen_winding_surface_offset"]}
{"id": "C87", "title": "Self-force components refer to the evaluation point", "statement": "The (r, phi, z) components reported at an evaluation point are the components, in the local frame of that point, of the Cartesian force exerted there by the current on the whole winding surface.", "quantifier": "all winding surfaces, currents, evaluation points", "why_tests_cant": "A sum over all pairs of surface points in changing frames; no closed-form reference for general input.", "anchors": ["src/quadcoil/quantity/force.py: _force_cyl, _integrate_force", "src/quadcoil/math_utils.py: project_arr_cylindrical"]}
{"id": "C88", "title": "Self-force is orthogonal to the current", "statement": "At every evaluation point the reported self-force is orthogonal to the reported current in the same components, whatever the surface, the coefficients and the grids.", "quantifier": "all winding surfaces, net currents, coefficients, grids", "why_tests_cant": "Universally quantified over surfaces and coefficients; tests compare single numbers.", "anchors": ["src/quadcoil/quantity/force.py: _force_cyl, _force_integrands_xyz, _integrate_force"]}
{"id": "C89", "title": "Self-force is quadratic in the current", "statement": "Multiplying both net currents and all coefficients by c multiplies the reported self-force at every point by c squared.", "quantifier": "all c, winding surfaces, net currents, coefficients, grids", "why_tests_cant": "For all scalings and surfaces.", "anchors": ["src/quadcoil/quantity/force.py: _force_cyl, _force_integrands_xyz, _integrate_force"]}
{"id": "C90", "title": "Cut coils lie on the winding surface", "statement": "Every point of every coil returned by the coil cutter is the point of the winding surface at the two angles of the contour it came from, for symmetric and non-symmetric winding surfaces alike.", "quantifier": "all parameter objects, potentials, contour finders, coil counts, shifts", "why_tests_cant": "Tests plot a few coils; the statement holds for every contour and every set of surface coefficients.", "anchors": ["src/quadcoil/io/coil_cutting.py: coil_xyz_from_qp", "src/quadcoil/surfacerzfourier_jax.py: to_simsopt"]}
{"id": "C91", "title": "Contour levels are equally spaced and respect the symmetry", "statement": "n coils per half period are cut at levels spaced by 1/(2n), offset by half a spacing. Under stellarator symmetry the n levels together with their mirror images form exactly the full set of 2n levels, and the shift has no effect; without symmetry only the fractional part of the shift matters. Asking for zero coils raises.", "quantifier": "all coil counts, shifts, parameter objects", "why_tests_cant": "A test checks one count; equal spacing and the mirror property are statements about every count and shift.", "anchors": ["src/quadcoil/io/coil_cutting.py: coil_zeta_theta_from_qp"]}
{"id": "C92", "title": "Contours are contours of the total current potential", "statement": "The data handed to the contour finder are the values, at the angles handed to it, of the current potential including the net currents, divided by the net poloidal current per period. This holds on the two neighbouring field periods added on the left and right as well as on the middle one.", "quantifier": "all parameter objects, potentials, toroidal points, uniformly spaced poloidal points, non-negligible net poloidal current", "why_tests_cant": "The padding is correct only because of how the potential changes from one period to the next; a test sees one potential.", "anchors": ["src/quadcoil/io/coil_cutting.py: coil_zeta_theta_from_qp", "src/quadcoil/quantity/dipole.py: _Phi_with_net_current"]}
{"id": "C93", "title": "A coil carries the current between neighbouring levels", "statement": "The current assigned to each coil equals the net poloidal current per period divided by the number 2n of levels per period, the current that flows between two neighbouring contours.", "quantifier": "all parameter objects and potentials", "why_tests_cant": "It depends on how many separate contours each level has, which a test with simple potentials does not vary.", "anchors": ["src/quadcoil/io/coil_cutting.py: coil_xyz_from_qp"]}
{"id": "C94", "title": "The coils file carries the whole net poloidal current", "statement": "The currents written to the coils file, summed over the coils of all the field periods the file declares, add up to the net poloidal current.", "quantifier": "all parameter objects, potentials, coil counts", "why_tests_cant": "A statement relating file content, symmetry flag and number of periods for every input.", "anchors": ["src/quadcoil/io/coil_cutting.py: coil_xyz_from_qp"]}
{"id": "C95", "title": "Coil curves pass through the contour points", "statement": "With the default order, the Fourier curve built from the points of a contour passes through these points.", "quantifier": "all lists of contours", "why_tests_cant": "Interpolation by a trigonometric polynomial depends on the parity of the number of points; tests use one length.", "anchors": ["src/quadcoil/io/coil_cutting.py: simsopt_curves_from_xyz", "src/quadcoil/io/coil_cutting.py: ifft_simsopt"]}
{"id": "C96", "title": "The FOCUS file describes the exported surface", "statement": "The Fourier series read from the mode lines of an exported FOCUS file, with the number of field periods of its header, is the surface that was exported, at every pair of angles.", "quantifier": "all surfaces with legal coefficient vectors, both surface classes", "why_tests_cant": "Equality of two surfaces at all angles for every coefficient vector.", "anchors": ["src/quadcoil/io/focus.py: save_focus", "src/quadcoil/surfacerzfourier_jax.py: to_simsopt"]}
{"id": "C97", "title": "FOCUS export accepts the three documented surface classes", "statement": "save_focus writes a file for a SurfaceRZFourierJAX, a simsopt SurfaceRZFourier and a DESC FourierRZToroidalSurface, and raises for anything else.", "quantifier": "all surfaces", "why_tests_cant": "Needs DESC and simsopt installed and a run for each class.", "anchors": ["src/quadcoil/io/focus.py: save_focus"]}
{"id": "C98", "title": "Conversion to simsopt and back is lossless", "statement": "Converting a surface to simsopt and back returns an equal surface, and converting a simsopt surface to the JAX class and back keeps every coefficient that is a degree of freedom, the angles, the number of periods and the symmetry flag.", "quantifier": "all surfaces with legal coefficient vectors", "why_tests_cant": "Equality for all coefficient vectors and resolutions.", "anchors": ["src/quadcoil/surfacerzfourier_jax.py: to_simsopt", "src/quadcoil/surfacerzfourier_jax.py: from_simsopt"]}
{"id": "C99", "title": "Differentiable wrapper can be used wherever the solver can", "statement": "For every solver call that succeeds with gradients, the function returned by gen_quadcoil_for_diff can be evaluated and differentiated at the same inputs, and both return the same metric values.", "quantifier": "all successful solver calls and matching tangents", "why_tests_cant": "Depends on combinations of verbose, weights and metric names that no test enumerates.", "anchors": ["src/quadcoil/io/jax.py: gen_quadcoil_for_diff"]}
{"id": "C100", "title": "VTK files keep the grid of the surface", "statement": "Each of the three VTK export functions writes a structured grid whose neighbouring nodes are neighbouring points of the surface, with the value of the field at a point attached to that point, in a file whose name ends in .vts exactly once.", "quantifier": "all rectangular arrays of points, all fields, all file names", "why_tests_cant": "Tests would use one shape, often square; the order of axes only matters when the two resolutions differ.", "anchors": ["src/quadcoil/plotting.py: gamma_to_vtk", "src/quadcoil/plotting.py: gamma_and_field_to_vtk", "src/quadcoil/plotting.py: gamma_and_scalar_field_to_vtk"]}
{"id": "C101", "title": "DESC current potential can be loaded", "statement": "With DESC installed, load_FourierCurrentPotentialField turns solved degrees of freedom into a DESC current potential field.", "quantifier": "all solutions", "why_tests_cant": "Needs DESC.", "anchors": ["src/quadcoil/io/desc.py: load_FourierCurrentPotentialField"]}
{"id": "C102", "title": "Differentiable wrapper fixes the settings and takes the inputs from the call", "statement": "The function returned by gen_quadcoil_for_diff depends only on the non-differentiable settings given to the generator; its value function is the solver called in value-only mode with these settings and the inputs given; passing value_only to the generator is rejected.", "quantifier": "all settings and inputs", "why_tests_cant": "All calls.", "anchors": ["src/quadcoil/io/jax.py: gen_quadcoil_for_diff"]}
{"id": "C103", "title": "DESC scaling assigns each quantity its own unit", "statement": "generate_desc_scaling returns, for every objective and every constraint in the order given, the unit that its table assigns to this quantity, in the form (number or tuple) the solver expects, and fails if any of them has no unit.", "quantifier": "all names", "why_tests_cant": "All lists of names.", "anchors": ["src/quadcoil/io/desc.py: generate_desc_scaling"]}
{"id": "C104", "title": "Contour plots show the quantity around the given state", "statement": "plot_quantity evaluates the quantity, in the given unit, on a grid of states that differ from the given one only in the two chosen coefficients, entry (k, l) belonging to the k-th value of the first and l-th value of the second; the values on each axis are distinct and span the given relative range.", "quantifier": "all states, indices, ranges and grid sizes", "why_tests_cant": "All states, including the zero state used as default initial guess.", "anchors": ["src/quadcoil/plotting.py: plot_quantity"]}
{"id": "C105", "title": "Documented quantities are available", "statement": "Every name in the list of available quantities of the documentation can be used: numbers as objectives and as upper bounds, fields as upper bounds and not as objectives; nothing outside the list and the eight further names of the package is accepted.", "quantifier": "all names, units, weights, bounds and smoothing modes", "why_tests_cant": "The list lives in the documentation; a test only looks at the names it uses.", "anchors": ["docs/quantity.rst", "src/quadcoil/quantity/__init__.py", "src/quadcoil/wrapper.py: get_quantity", "src/quadcoil/wrapper.py: _parse_objectives", "src/quadcoil/wrapper.py: _parse_constraints"]}
{"id": "C106", "title": "Quantities return arrays of the documented shape", "statement": "For every problem and coefficient vector each quantity returns an array of the output shape given in the documentation: a number, or one value or three-vector per plasma or evaluation grid point.", "quantifier": "all problems, coefficient vectors and resolutions", "why_tests_cant": "Tests use one set of resolutions and symmetric problems.", "anchors": ["docs/quantity.rst", "src/quadcoil/quantity/current.py", "src/quadcoil/quantity/curvature.py", "src/quadcoil/quantity/magnetic_field.py", "src/quadcoil/quantity/force.py", "src/quadcoil/quantity/dipole.py"]}
{"id": "C107", "title": "DESC unit of a quantity has the dimension of the quantity", "statement": "The value of a quantity divided by its desc_unit does not depend on the units of length and field: multiplying all lengths by c and all fields by b (hence all currents by c b), and the scales accordingly, leaves the ratio unchanged.", "quantifier": "all quantities, problems, coefficient vectors and positive factors", "why_tests_cant": "A test at one scale cannot see a wrong power of a length.", "anchors": ["src/quadcoil/quantity/current.py: _K_desc_unit", "src/quadcoil/quantity/dipole.py: _Phi_desc_unit", "src/quadcoil/quantity/force.py: _force_desc_unit", "src/quadcoil/quantity/quantity.py: _Quantity.desc_unit"]}
{"id": "C108", "title": "Automatic normalisation is not zero", "statement": "When no unit is given, the normalisation constant computed from the quantity at vanishing coefficients is positive for problems with a net current.", "quantifier": "all quantities and problems", "why_tests_cant": "Depends on the quantity chosen, not on the data of a test.", "anchors": ["src/quadcoil/wrapper.py: _add_quantity", "docs/tutorial_inputs.rst"]}
{"id": "C109", "title": "Quantities have the documented formulas", "statement": "f_max_* is the largest value of its field (of the squares, fourth powers, absolute values), f_K, f_B and f_Phi are nfp/2 times the sum of area elements times the squared field, f_l1_Phi and f_huber_K the area-weighted sums of absolute values and lengths, K2 the squared length of K, the normalised error the quotient by its value at zero coefficients, and the total potential the single-valued one plus G phi + I theta.", "quantifier": "all problems and coefficient vectors", "why_tests_cant": "Relates two quantities for all inputs.", "anchors": ["docs/quantity.rst", "src/quadcoil/quantity/quantity.py: _Quantity.generate_linf_norm", "src/quadcoil/quantity/quantity.py: _Quantity.generate_l1_norm", "src/quadcoil/quantity/quantity.py: _Quantity.generate_huber", "src/quadcoil/quantity/current.py", "src/quadcoil/quantity/dipole.py", "src/quadcoil/quantity/magnetic_field.py"]}
{"id": "C110", "title": "Quantities can be called as documented", "statement": "Calling a member of quadcoil.quantity with the parameter object and the Fourier coefficients returned by the solver gives its value; slack variables in the returned dictionary do not matter.", "quantifier": "all quantities, parameter objects and coefficients", "why_tests_cant": "The documented call is with the array, all tests use the dictionary.", "anchors": ["docs/quantity.rst", "src/quadcoil/quantity/quantity.py: _Quantity.__call__"]}
{"id": "C111", "title": "The problems described as convex are convex", "statement": "K, winding_surface_B, Bnormal, Phi and Phi_with_net_current are affine in the coefficients; K2, Bnormal2, Phi2, f_B, f_K, f_Phi, f_max_Bnormal, f_max_Bnormal2, f_max_K2, f_huber_K, f_max_Phi, f_max_Phi2, f_max_Phi4, f_l1_Phi and f_B_normalized_by_Bnormal_IG are convex; hence with a non-negatively weighted sum of these as objective, upper bounds on convex quantities and equalities or bounds on affine ones, a local minimum is a global minimum.", "quantifier": "all parameter objects with regular surfaces, all coefficients, all weights, all lists of constraints", "why_tests_cant": "Convexity and global optimality quantify over every pair of coefficient vectors; tests compare single solutions.", "anchors": ["docs/quantity.rst", "docs/tutorial_inputs.rst: convex", "src/quadcoil/quantity/current.py: K, f_K", "src/quadcoil/quantity/magnetic_field.py: Bnormal, f_B", "src/quadcoil/quantity/dipole.py: Phi, f_max_Phi"]}
{"id": "C112", "title": "A problem can be plotted from the arguments given to quadcoil", "statement": "plot_quadcoil, called with the objective and constraint arguments of quadcoil, draws one panel for the objective and one for each constraint over the same two coefficients, each marking as allowed only states where the constraint holds; extra options reach the panels.", "quantifier": "all problems, objectives, constraints, coefficients and options", "why_tests_cant": "Plots are only looked at; the drawn region is never compared with the constraint.", "anchors": ["src/quadcoil/plotting.py: plot_quadcoil", "src/quadcoil/plotting.py: plot_quantity"]}
{"id": "C113", "title": "Designs carry over to another size and field strength", "statement": "When all lengths are multiplied by c, all fields by b and all currents by c*b, every quantity of the package is multiplied by c and b to the powers of its physical dimension; a coefficient vector is feasible, has a given weighted objective and is a best feasible design exactly when c*b times the vector has the same status with the bounds multiplied and the weights divided by those factors; every problem can be rewritten this way.", "quantifier": "all positive c and b, all parameter objects with regular surfaces, all coefficients, weights and constraints", "why_tests_cant": "Users rescale designs to other machine sizes and field strengths; tests only compare runs at one scale, and optimality quantifies over all coefficient vectors.", "anchors": ["src/quadcoil/quantity/__init__.py", "src/quadcoil/quadcoil.py: quadcoil (objective_weight, constraint_value)", "src/quadcoil/wrapper.py: _parse_objectives, _parse_constraints", "src/quadcoil/quantity/current.py", "src/quadcoil/quantity/magnetic_field.py", "src/quadcoil/quantity/dipole.py", "src/quadcoil/quantity/force.py"]}
{"id": "C114", "title": "Slack smoothing hands the optimiser exactly the problem the user wrote", "statement": "In slack mode, coefficients can be completed by slack variables to a state that satisfies the generated equality and inequality system with objective value at most b exactly when they satisfy the constraints the user wrote and the weighted sum of the quantities is at most b; consequently the best states of the optimiser are exactly the best designs, with the same optimal value.", "quantifier": "all parameter objects with regular surfaces, all lists of objectives with non-negative weights and constraints over the 25 quantities with exact slack forms, all non-zero units (equal in modulus for repeated uses of one slack quantity), all bounds", "why_tests_cant": "The equivalence quantifies over all coefficients and all slack arrays of a non-smooth problem; tests only compare objective values at single solver outputs.", "anchors": ["src/quadcoil/wrapper.py: _parse_objectives, _parse_constraints, _add_quantity", "src/quadcoil/quantity/quantity.py: generate_linf_norm, generate_linf_norm_4, generate_l1_norm, generate_c2", "src/quadcoil/quantity/__init__.py", "src/quadcoil/quadcoil.py: quadcoil (smoothing=\"slack\")"]}
{"id": "C115", "title": "Adding harmonics never makes the best design worse", "statement": "Every quantity of the package depends on the coefficients only through the current potential they describe: two problems on the same device that differ in mpol, ntor and stellsym report the same values for coefficients describing the same potential. Raising mpol or ntor, or dropping stellsym, keeps every potential of the coarser problem, so feasible designs carry over with the same objective and the best design of the finer problem is at least as good.", "quantifier": "all pairs of parameter objects on one device with regular surfaces, all coefficients, weights and constraints (K_theta only where both use stellsym, since it raises otherwise)", "why_tests_cant": "Users run convergence scans in mpol and ntor; the claim quantifies over all coefficients of two different coefficient spaces and over optimality.", "anchors": ["src/quadcoil/quadcoil_params.py: QuadcoilParams, make_mn_helper", "src/quadcoil/quadcoil.py: quadcoil (mpol, ntor, stellsym)", "src/quadcoil/quantity/__init__.py", "src/quadcoil/quantity/current.py", "src/quadcoil/quantity/magnetic_field.py", "src/quadcoil/quantity/dipole.py", "src/quadcoil/quantity/force.py"]}
{"id": "C116", "title": "For a stellarator-symmetric problem nothing is lost by solving with stellsym=True", "statement": "When plasma and winding surface are stellarator symmetric with one nfp, the plasma field is odd and the grids are symmetric, every design has a mirror image (cosine coefficients negated) on which K2, Bnormal2, Phi2 report the same values at mirrored points, all integral and maximum quantities of field, current and potential report the same number, and Phi and Bnormal change sign. If the weighted objective uses those convex quantities and the constraints are upper bounds on them or pairs of opposite bounds on Phi and Bnormal, then for every design feasible with stellsym=False there is one with stellsym=True that is feasible and at least as good; an optimum found with stellsym=True is an optimum of the unrestricted problem. With a one-sided bound on Phi the symmetric problem can be infeasible although the unrestricted one is not.", "quantifier": "all symmetric problems (any surfaces, nfp, mpol, ntor, symmetric grids), all coefficients, all weights and constraints of the stated kinds", "why_tests_cant": "The user chooses stellsym; True halves the unknowns. That it never costs quality is a statement about all designs of a larger space.", "anchors": ["src/quadcoil/quadcoil.py: quadcoil (stellsym)", "src/quadcoil/quadcoil_params.py: QuadcoilParams, make_mn_helper", "src/quadcoil/quantity/current.py", "src/quadcoil/quantity/magnetic_field.py", "src/quadcoil/quantity/dipole.py", "src/quadcoil/surfacerzfourier_jax.py"]}
{"id": "C117", "title": "A surface loaded from DESC is the surface its coefficient tables describe", "statement": "from_desc returns a surface with the nfp, symmetry and quadrature points asked for whose position is the Fourier series with the cosine and sine tables of the DESC surface: R from rc (and rs), Z from zs (and zc), one table entry per mode in one fixed complete mode order, for symmetric and for general surfaces; the sine entries of the (0,0) mode are ignored. Tables whose total size does not fit M and N are accepted on loading and make every later evaluation raise TypeError.", "quantifier": "all resolutions, tables, nfp, quadrature points and both symmetry settings", "why_tests_cant": "The general branch is never exercised by tests, and a swap of blocks gives a plausible but wrong surface.", "anchors": ["src/quadcoil/surfacerzfourier_jax.py: from_desc, make_rzfourier_mc_ms_nc_ns, gamma"]}
{"id": "C118", "title": "The constrained solver returns a nearly optimal and nearly feasible point", "statement": "If the inner optimiser solves each subproblem it is given to within eps, the point returned by solve_constrained has an objective at most eps plus the squared multipliers divided by twice the penalty weight above the objective of every point meeting the constraints, and every constraint violation times the penalty weight is at most the square root of the squared multipliers plus twice the penalty weight times the objective gap (plus the norm of the multipliers for equalities).", "quantifier": "all objectives and constraints (convex or not), starting points, multipliers, positive penalty weights, inner optimisers, iteration limits; hard threshold (the default)", "why_tests_cant": "The bound compares with every feasible point and involves the interplay of scaling, masking and multiplier updates over all passes.", "anchors": ["src/quadcoil/solver.py: solve_constrained, gplus_hard, run_opt_optax"]}
{"id": "C119", "title": "For convex problems the reported multipliers certify optimality", "statement": "If the inner optimiser ends where no direction has a slope below -eta, then for objectives and inequality constraints that are convex and equality constraints that are affine, the reported objective plus the reported multipliers times the reported constraint values is at most the objective of every point meeting the constraints plus eta times its (scaled) distance: the reported numbers bound how far the answer is from the best possible.", "quantifier": "all convex problems, starting points, multipliers, positive penalty weights, inner optimisers, iteration limits; hard threshold", "why_tests_cant": "Compares with every feasible point; a wrong sign or a multiplier that is one update old gives plausible numbers that certify nothing.", "anchors": ["src/quadcoil/solver.py: solve_constrained, gplus_hard"]}
{"id": "C120", "title": "The design a whole call returns is near-optimal for what the user asked", "statement": "Take a call of quadcoil in slack mode, with non-negative weights, quantities of the package and units used consistently, on a legal configuration. If the last pass of the solver minimised the function it was given to within eps, then the returned coefficients have the right number, the reported objective is at most eps plus the squared multipliers over twice the penalty weight above the weighted objective of every design that meets the user's constraints, the reported violations are bounded in the same terms, and if no violation is reported the returned design itself meets every one of the user's constraints and is no worse than reported. Without constraints and slack terms the returned design is within eps of the best design.", "quantifier": "all calls with any number of objective terms and constraints of the package, all configurations, all inner optimisers, iteration limits and eps; slack mode, merge off", "why_tests_cant": "Compares the answer of a whole call with every admissible design of the physical problem, across parsing, scaling, slack variables, the augmented Lagrangian and the unscaling of the result; a test can compare with the few designs it knows.", "anchors": ["src/quadcoil/quadcoil.py: quadcoil", "src/quadcoil/solver.py: solve_constrained, run_opt_optax", "src/quadcoil/wrapper.py: _parse_objectives, _parse_constraints, merge_callables", "src/quadcoil/quantity/quantity.py: _Quantity"]}
{"id": "C121", "title": "Every valid call returns and reports the quantities it names", "statement": "A call of quadcoil in slack mode whose surfaces can be built, whose objective terms and constraints name quantities of the package with uses they support and non-zero units, and whose metrics are quantities of the package (single numbers when gradients are wanted) never raises and never hangs: it returns coefficients of the right number, and under the name of every metric other than f_obj exactly the value which that quantity has at the returned coefficients.", "quantifier": "all such calls: any number of terms, constraints and metrics, any configuration and inner optimiser, with or without gradients", "why_tests_cant": "There is no finite set of name combinations, shapes and modes to try; failures hide in rare combinations (a metric with a shape, one constraint and no slack, an empty list).", "anchors": ["src/quadcoil/quadcoil.py: quadcoil, _input_checking", "src/quadcoil/wrapper.py: _parse_objectives, _parse_constraints, merge_callables, _add_quantity", "src/quadcoil/solver.py: solve_constrained, run_opt_optax", "src/quadcoil/quantity/__init__.py"]}
{"id": "C122", "title": "Without evaluation points the figures are those of the whole winding surface", "statement": "A parameter object built without quadpoints_phi and quadpoints_theta, on a winding surface sampled with at least two equispaced angles per field period over the whole torus, evaluates at the first period of that grid; the integrals it reports (f_K, f_Phi, f_l1_Phi, f_huber_K) are exactly the sums over the whole winding grid of the density times winding_surface.da(), without any further factor, and the maxima it reports (f_max_K2, f_max_Phi, f_max_Phi2, f_max_Phi4) are the maxima over the whole winding grid.", "quantifier": "all surfaces, harmonics, coefficients, net currents, grids with n>=2 angles per period", "why_tests_cant": "A figure that is nfp times too large, or a maximum over the wrong period, changes no trend and passes every self-consistent test.", "anchors": ["src/quadcoil/quadcoil_params.py: _Params.__init__, QuadcoilParams.__init__", "src/quadcoil/quantity/current.py: _f_K", "src/quadcoil/quantity/dipole.py: _f_Phi", "src/quadcoil/quantity/quantity.py: generate_linf_norm, generate_l1_norm"]}
{"id": "C123", "title": "Problems built from f_B, f_K and f_Phi have a best design, and the excess of any other is a figure of its own", "statement": "With non-negative weights on f_B, f_K and f_Phi and no constraints (the REGCOIL problem) there is a coefficient vector with the least objective; the objective of any other vector exceeds it by exactly the same objective evaluated at the difference of the two vectors in the device with zero net currents and zero plasma field. With further convex terms and convex constraints the excess of an admissible vector is at least the f_B, f_K, f_Phi part of that.", "quantifier": "all devices with ordered quadrature points, all weights, all coefficient vectors; for the second part all convex terms and constraints", "why_tests_cant": "Existence of a minimiser on an unbounded space and an identity for every competitor; a test can compare finitely many vectors.", "anchors": ["src/quadcoil/quantity/magnetic_field.py: _f_B", "src/quadcoil/quantity/current.py: _f_K", "src/quadcoil/quantity/dipole.py: _f_Phi", "src/quadcoil/quadcoil.py: quadcoil", "src/quadcoil/solver.py: run_opt_optax"]}
{"id": "C124", "title": "The best design is unique", "statement": "When the evaluation points cover one period with more than twice as many points as the highest harmonic in each direction and f_K or f_Phi has positive weight, a convex problem has at most one best design. False with stellsym=False unless f_Phi has positive weight: the constant potential is one of the unknowns and no figure of current or field depends on it, so the optima form a line (and the Hessian the gradients are computed from is singular); there the best design is unique up to a constant potential.", "quantifier": "all devices, resolutions, weights, convex constraints; both symmetry settings", "why_tests_cant": "Uniqueness compares with all other designs, and a solver started at zero never shows the flat direction.", "anchors": ["src/quadcoil/quadcoil_params.py: make_mn_helper, QuadcoilParams.diff_helper", "src/quadcoil/quantity/current.py: _K, _f_K", "src/quadcoil/quantity/dipole.py: _Phi, _f_Phi", "src/quadcoil/quadcoil.py: quadcoil (stellsym)"]}
{"id": "C125", "title": "A call stops only at its budget or its tolerances", "statement": "Every call makes at most maxiter_tot optimiser iterations (at least one), as documented, and stops only because that budget is used up or because the declared tolerances are met: without constraints the budget is maxiter_tot, the tolerances are fstop_inner_last, xstop_inner_last and gtol_inner; with constraints the outer loop ends with its budget used up or with xstop_outer and ctol_outer met (or the penalty beyond 1e15), and one more run with the last-stage tolerances and at most maxiter_inner iterations follows. The budget holds without constraints; with constraints the final run always comes on top, so that every call that does not converge exceeds maxiter_tot, by at most 2*maxiter_inner-1.", "quantifier": "all calls that return, any counting optimiser, any problem, tolerances and budgets", "why_tests_cant": "Which criterion ended a run, and whether the budget can be exceeded, depends on the whole trajectory; a test sees one run that converges early.", "anchors": ["src/quadcoil/quadcoil.py: quadcoil (648-712)", "src/quadcoil/solver.py: solve_constrained, run_opt_optax, run_opt_lbfgs", "docs/tutorial_inputs.rst: 454-474"]}
{"id": "C126", "title": "A regularised convex problem has exactly one best design, and nearly best designs are near it", "statement": "When the evaluation points resolve the harmonics and f_Phi (or f_K with stellsym=True) has positive weight, a problem with convex objectives and convex constraints that some design satisfies has one and only one best design; a design whose objective exceeds the best one by e differs from it in no unknown by more than sqrt(e/m), where m depends on the device and the weights only, not on the constraints.", "quantifier": "all devices, resolutions, weights, sets of convex constraints that can be met", "why_tests_cant": "Existence and uniqueness quantify over all designs; a solver only returns one point and cannot tell whether the minimum is attained.", "anchors": ["src/quadcoil/quadcoil.py: quadcoil (objective_name, constraint_name)", "src/quadcoil/quadcoil_params.py: make_mn_helper, QuadcoilParams.diff_helper", "src/quadcoil/quantity/current.py: _K, _f_K", "src/quadcoil/quantity/dipole.py: _Phi, _f_Phi"]}
{"id": "C127", "title": "Weights and bounds trade off the way a user expects", "statement": "Raising the weight of an objective never raises its value at the best design and never improves the rest of the objective; adding constraints or tightening bounds never improves the best objective; a best design stays best when a weighted figure is replaced by the bound it reaches; and in a convex problem a bound that can be met strictly can be replaced by a weight, which is zero unless the bound is reached.", "quantifier": "all devices, objectives, weights, constraints and bounds", "why_tests_cant": "Monotonicity and equivalence of two formulations relate optima of different problems, which a test can only sample with a solver that is not exact.", "anchors": ["src/quadcoil/quadcoil.py: quadcoil (objective_weight, constraint_value)", "src/quadcoil/wrapper.py: _parse_objectives, _parse_constraints"]}
{"id": "C128", "title": "Figures of merit converge to surface integrals and surface maxima as the grid is refined", "statement": "With n equispaced toroidal angles in one field period and m equispaced poloidal angles as evaluation points, f_K, f_Phi, f_l1_Phi and f_huber_K converge, as n and m grow, to the integrals of |K|^2/2, Phi^2/2, |Phi| and |K| over the whole winding surface (all nfp periods, area element |normal|), and f_max_K2, f_max_Phi, f_max_Phi2, f_max_Phi4 converge from below to the maxima over all points of the surface. With the plasma surface sampled likewise and a continuous plasma field, f_B converges to nfp times the integral of (B.n)^2/2 over one period of the plasma surface, and f_max_Bnormal, f_max_Bnormal2 to the maxima there.", "quantifier": "all surfaces without vanishing normal, coefficient vectors, net currents, starting angles; all accuracies e > 0, with one N0 that works for every finer pair (n,m)", "why_tests_cant": "A limit: every test evaluates finitely many resolutions, and a wrong constant factor (nfp, spacing, 2 pi) also converges.", "anchors": ["src/quadcoil/surfacerzfourier_jax.py: da, integrate, normal", "src/quadcoil/quantity/current.py: _f_K", "src/quadcoil/quantity/dipole.py: _f_Phi", "src/quadcoil/quantity/magnetic_field.py: _f_B", "src/quadcoil/quantity/quantity.py: generate_linf_norm, generate_l1_norm"]}
{"id": "C129", "title": "The reported field converges to the Biot-Savart surface integral as the winding grid is refined", "statement": "With the winding surface sampled on n toroidal (a multiple of nfp) and m poloidal equispaced angles over the whole torus, winding_surface_B converges at every plasma grid point, in every component, to 1e-7 times the surface integral of K x (P-r)/|P-r|^3 over the whole winding surface, and Bnormal to the normal component of that field plus the plasma field.", "quantifier": "all surfaces where the winding normal does not vanish and the plasma surface does not meet the winding surface; all coefficient vectors, net currents, accuracies", "why_tests_cant": "The code normalises by the number of grid points without looking at the spacing; that this is the surface integral in SI units is a limit over all resolutions.", "anchors": ["src/quadcoil/quantity/magnetic_field.py: _winding_surface_B, _Bnormal", "src/quadcoil/quantity/current.py: _K"]}
{"id": "C130", "title": "Best designs on refined grids converge to the best design for the exact integrals", "statement": "Take any nonnegative weighting of f_B, f_K, f_Phi, f_l1_Phi, f_huber_K and the maxima f_max_K2, f_max_Phi, f_max_Phi2, f_max_Phi4, f_max_Bnormal, f_max_Bnormal2 with a positive weight on f_Phi (or on f_K, for stellarator-symmetric potentials). Replace sums over grid points by surface integrals and maxima over grid points by least upper bounds: this exact objective has exactly one best design. Evaluate the same objective with evaluation points and plasma surface on n by m equispaced points: for every accuracy there are a resolution and a tolerance beyond which every design whose objective is within the tolerance of the least on that grid agrees with the exact best design to that accuracy in every coefficient, and so does its objective value.", "quantifier": "all surfaces with non-vanishing normals, plasma off the winding grid points, continuous plasma fields, weightings with a regularising term, accuracies; all resolutions beyond the stated one", "why_tests_cant": "That optimised coefficients settle as the grid is refined, rather than chase the grid, is a limit statement over all resolutions; a convergence scan tests finitely many.", "anchors": ["src/quadcoil/quadcoil.py: quadcoil", "src/quadcoil/quantity/current.py: _f_K", "src/quadcoil/quantity/magnetic_field.py: _f_B", "src/quadcoil/quantity/dipole.py: _f_Phi", "src/quadcoil/surfacerzfourier_jax.py: integrate"]}
{"id": "C131", "title": "Best designs of least-squares problems superpose", "statement": "Minimise a nonnegative weighting of f_B, f_K and f_Phi without constraints. On one device, let three problems differ only in net_poloidal_current_amperes, net_toroidal_current_amperes and Bnormal_plasma, those of the third being a times those of the first plus b times those of the second. Then a times a best design of the first plus b times a best design of the second is a best design of the third; when the weighting sees every unknown (f_Phi, or f_K with stellarator symmetry) it is the only one. In particular the best design, and the square root of the least objective, are proportional to the currents and plasma field.", "quantifier": "all devices, weightings, coefficients a and b (of either sign), net currents, plasma fields", "why_tests_cant": "Linear dependence of a minimiser on the data is a statement about all pairs of problems; tests compare a few optimiser outputs up to the tolerance of the solver.", "anchors": ["src/quadcoil/quadcoil.py: quadcoil", "src/quadcoil/quantity/current.py: _f_K", "src/quadcoil/quantity/magnetic_field.py: _f_B", "src/quadcoil/quantity/dipole.py: _f_Phi", "src/quadcoil/quadcoil_params.py: QuadcoilParams"]}
{"id": "C132", "title": "The implicit gradients are taken of the problem that was solved", "statement": "The function whose second derivatives give the gradients of the metrics is, at the reported design and the inputs of the call, the function the solver minimised: without constraints the objective; with constraints the augmented Lagrangian, with the multipliers and the penalty of its last optimiser run. Evaluated at other plasma shapes, winding surfaces, currents, weights or thresholds, it is the same function for the problem those inputs define. The reported design is then a stationary point of it whenever the last optimiser run ended at one.", "quantifier": "For all objectives, constraints, settings of the solver, optimisers and perturbed inputs", "why_tests_cant": "A finite-difference test compares final gradients for one problem with a tolerance; it cannot tell a wrong Lagrangian whose error is hidden by near convergence from the right one, nor show the equality for all inputs.", "anchors": ["src/quadcoil/quadcoil.py: quadcoil", "src/quadcoil/solver.py: solve_constrained, l_k", "src/quadcoil/wrapper.py: _parse_objectives, _parse_constraints"]}
{"id": "C133", "title": "A small gradient means a design near the best one", "statement": "Take an unconstrained call whose objective is a non-negatively weighted sum of convex quantities, among them f_Phi, or f_K with stellarator symmetry, with positive weight, on evaluation points that resolve the Fourier modes. There is one positive constant, fixed by the coil description and the terms of the objective, such that for every call that poses this problem (whatever its optimiser, starting point, tolerances and scale of the unknown): if the gradient the optimiser ended with is the gradient of the function it was given at the point it ended at, then the distance of the returned coefficients from the best ones is at most the norm of that gradient over the constant times the scale, and the objective exceeds the best value by at most the square of that norm over the constant times the squared scale. In particular the gradient tolerance bounds the error of the design.", "quantifier": "For all devices, objectives of that kind, optimisers, starting points, tolerances and scales", "why_tests_cant": "The best design is not known in closed form, so a test has nothing to compare with; a bound that holds uniformly over optimisers and starting points is a statement about infinitely many runs.", "anchors": ["src/quadcoil/quadcoil.py: quadcoil", "src/quadcoil/solver.py: run_opt_lbfgs, run_opt_optax", "src/quadcoil/wrapper.py: _parse_objectives"]}
{"id": "C134", "title": "nfp only declares a symmetry", "statement": "A machine with k*N field periods may also be described as a machine with N field periods. Every surface has such a description: the toroidal mode numbers times k, ntor times k, and the other nfp give a surface with the same points. Every current potential of the first description is one of the second, when ntor is at least k times larger. If both descriptions use the same surfaces, net currents, required normal field and winding grid (a whole turn), and evaluation and plasma points that cover one period of each at the same spacing, then the same potential gives the same f_B, f_K, f_Phi, f_l1_Phi, f_huber_K, f_max_* and f_B_normalized_by_Bnormal_IG in both, and the fields K2, Phi and Bnormal of the second are those of the first repeated k times.", "quantifier": "For all machines, numbers of periods, factors k, resolutions, grids, potentials", "why_tests_cant": "nfp enters the code in many places (mode phases, period rotations, integration factors); that they are mutually consistent is a statement about all surfaces and potentials, and both sides of each comparison are computed only approximately by a test.", "anchors": ["src/quadcoil/surfacerzfourier_jax.py: SurfaceRZFourierJAX, dof_to_rz_op", "src/quadcoil/quadcoil_params.py: QuadcoilParams", "src/quadcoil/quantity/magnetic_field.py: Bnormal, f_B", "src/quadcoil/quantity/current.py: f_K, f_max_K2", "src/quadcoil/quantity/dipole.py: f_Phi"]}
{"id": "C135", "title": "Nothing is lost by imposing the field periods on the potential", "statement": "Describe a machine that has k*N field periods with N declared periods only (C134), so that the potential may differ from one true period to the next, and ask for a non-negatively weighted sum of convex quantities that do not depend on the sign of the fields, under upper bounds on such quantities and any bounds on Phi and Bnormal. Every admissible design can be replaced by one of the description with k*N periods (the same harmonics restricted to those with the period) that is admissible and no worse; and an optimum of the description with k*N periods is an optimum of the larger problem.", "quantifier": "For all machines, factors k, resolutions, objectives and constraints of that kind, designs", "why_tests_cant": "A test can compare two optimisation runs, each converged to a tolerance, on one machine; that no design without the symmetry is better is a statement about all designs.", "anchors": ["src/quadcoil/quadcoil.py: quadcoil", "src/quadcoil/quadcoil_params.py: QuadcoilParams", "src/quadcoil/wrapper.py: _parse_objectives, _parse_constraints"]}
{"id": "C136", "title": "The coils carry no net flux through the plasma surface", "statement": "Whatever the design, the normal field of the winding-surface currents integrates to zero over the whole plasma surface, provided the plasma surface is regular and passes through no point of the winding grid; this holds at every winding resolution, so it does not depend on resolving the winding surface. On the plasma grid, the sum of da times Bnormal over a whole turn tends to zero as the grid is refined. In consequence, if the winding grid covers a whole turn uniformly, both surfaces declare the same nfp and the required normal field has a net flux, then for every design f_B on sufficiently fine plasma grids is at least (net flux)^2 / (2 * area), up to any error allowed beforehand (how fine may depend on the design).", "quantifier": "For all machines, windings, designs, required fields (continuous, with the field periods), starting angles of the grids", "why_tests_cant": "A test sees a finite sum that is small but not zero on one machine; that the exact integral vanishes for every discretised winding surface, and that the floor holds for every design, are statements about all designs and about a limit.", "anchors": ["src/quadcoil/quantity/magnetic_field.py: _winding_surface_B, _Bnormal, _f_B", "src/quadcoil/surfacerzfourier_jax.py: SurfaceRZFourierJAX, da"]}
{"id": "C137", "title": "The coils file holds the returned coils as closed loops", "statement": "With save=True the file written declares the number of field periods of the parameter object and holds one filament per returned coil, in the same order. Read the way such files are read (the current on a line flows from its point to the point of the next line), each filament is the closed polygon through the points of the coil, every side carrying the returned coil current, and no other wire. Saving does not change what is returned, and a result that can be returned can be saved unless a contour is empty.", "quantifier": "For all contour finders, parameter objects, potentials, coil counts, shifts", "why_tests_cant": "Tests do not read the file back; closure of every filament is a statement about every number and length of contours.", "anchors": ["src/quadcoil/io/coil_cutting.py: coil_xyz_from_qp"]}
{"id": "C138", "title": "For an axisymmetric machine the best potential is axisymmetric", "statement": "Let both surfaces be surfaces of revolution (with any declared nfp), let the required normal field not depend on the toroidal angle, and let the toroidal grids be uniform with a number of points per period that is a multiple (at least two for the evaluation and plasma points) of some k greater than ntor. For non-negatively weighted sums of convex quantities that do not depend on the sign of the fields, under upper bounds on such quantities and any bounds on Phi and Bnormal, every admissible design can be replaced by one whose current potential depends on the poloidal angle only, admissible and no worse. If the objective is regularised and the evaluation grid resolves the harmonics, the best design itself has this form: toroidal harmonics are never of use.", "quantifier": "For all axisymmetric machines, declared field periods, resolutions, objectives and constraints of that kind, designs", "why_tests_cant": "A test can run the optimiser on one tokamak and see small toroidal harmonics; that they vanish at the exact optimum, whatever the constraints, is a statement about all designs.", "anchors": ["src/quadcoil/quadcoil.py: quadcoil", "src/quadcoil/quadcoil_params.py: QuadcoilParams", "src/quadcoil/surfacerzfourier_jax.py: SurfaceRZFourierJAX", "src/quadcoil/quantity/magnetic_field.py: _Bnormal, _f_B", "src/quadcoil/quantity/current.py: _K, _f_K"]}
{"id": "C139", "title": "The net currents set a floor on the current density that no design can beat", "statement": "Let the evaluation points be uniform with more points than harmonics in each direction, and let the winding surface be regular there. Then for every current potential f_max_K2 times the squared length of any toroidal grid line of the winding surface is at least the square of the net poloidal current, and f_max_K2 times the squared length of any poloidal grid line is at least the square of the net toroidal current. Hence a problem that asks for K2 or f_max_K2 below that floor has no admissible design at all, and 2*f_K times the mean of |r_phi|^2/|n| (resp. |r_theta|^2/|n|) is at least the square of the net current.", "quantifier": "For all winding surfaces, net currents, numbers of field periods and harmonics, uniform evaluation grids, current potentials, constraint lists containing such a bound", "why_tests_cant": "A test can only try some designs and find none below the floor; that no potential whatever gets below it is a lower bound over an infinite set of designs.", "anchors": ["src/quadcoil/quantity/current.py: _K, _K2, _f_K, f_max_K2", "src/quadcoil/quadcoil_params.py: QuadcoilParams", "src/quadcoil/surfacerzfourier_jax.py: SurfaceRZFourierJAX.gammadash1, gammadash2, normal", "src/quadcoil/wrapper.py: _parse_constraints"]}
{"id": "C140", "title": "Figures built on the same field bound each other through the surface area", "statement": "For a problem whose grid angles are in increasing order, with A the area of the winding surface (from the area elements of the evaluation grid, all periods) and Ap that of the plasma surface: 2*f_K <= A*f_max_K2, 2*f_B <= Ap*f_max_Bnormal2, 2*f_Phi <= A*f_max_Phi2, f_l1_Phi <= A*f_max_Phi, f_huber_K <= A*sqrt(f_max_K2); f_l1_Phi^2 <= 2*A*f_Phi and f_huber_K^2 <= 2*A*f_K; and f_max_Bnormal2 = f_max_Bnormal^2, f_max_Phi2 = f_max_Phi^2, f_max_Phi4 = f_max_Phi2^2. So bounding the peak of a field bounds its average, and bounding its mean square bounds its mean absolute value, with the constants a user would expect.", "quantifier": "For all surfaces, parameter objects with increasing angles and current potentials", "why_tests_cant": "The inequalities relate different library functions at every input; a test that evaluates them at some inputs cannot exclude a missing factor (field periods, one half, area element) that only shows on other grids.", "anchors": ["src/quadcoil/quantity/current.py: _K2, _f_K, f_max_K2, f_huber_K", "src/quadcoil/quantity/dipole.py: _Phi, _f_Phi, f_max_Phi, f_l1_Phi", "src/quadcoil/quantity/magnetic_field.py: _Bnormal, _f_B, f_max_Bnormal, f_max_Bnormal2", "src/quadcoil/quantity/quantity.py: _Quantity.generate_linf_norm, _Quantity.generate_l1_norm, _Quantity.generate_huber", "src/quadcoil/surfacerzfourier_jax.py: SurfaceRZFourierJAX.da, integrate"]}
{"id": "C141", "title": "The distance of the coils sets a floor on the current they need", "statement": "With the default evaluation points on a uniformly sampled winding surface, and every plasma point at least d away from every winding point: the field the coils produce at any plasma point is at most 1e-7*f_huber_K/d^2 (f_huber_K is the integral of |K| over the winding surface), and Bnormal differs from the required normal field by no more than that. Hence a design with f_max_Bnormal = b, where the required normal field is somewhere b0 in magnitude, has f_huber_K >= 1e7*d^2*(b0-b), and with A the area of the winding surface 2*A*f_K >= (1e7*d^2*(b0-b))^2 and A*sqrt(f_max_K2) >= 1e7*d^2*(b0-b).", "quantifier": "For all plasma and winding surfaces, required fields, net currents, resolutions, current potentials", "why_tests_cant": "A test evaluates the field for some designs; that no current of a given size can produce a larger field, on any geometry, is a bound over all designs, and it ties together the field, the area element, the evaluation grid and the units of two different modules.", "anchors": ["src/quadcoil/quantity/magnetic_field.py: _winding_surface_B, _Bnormal, f_max_Bnormal", "src/quadcoil/quantity/current.py: _K, _K2, _f_K, f_huber_K, f_max_K2", "src/quadcoil/quadcoil_params.py: QuadcoilParams", "src/quadcoil/surfacerzfourier_jax.py: SurfaceRZFourierJAX"]}
{"id": "C142", "title": "Best designs depend stably on the required normal field", "statement": "Two devices that differ only in the plasma normal field they are asked to cancel (Bnormal_plasma) have the same value of K, K2, Phi, Phi2, f_K, f_Phi, f_l1_Phi, f_huber_K, f_max_K2, f_max_Phi, f_max_Phi2 and f_max_Phi4 at every current potential. Minimise w*f_B plus convex terms, under convex constraints, all of those names, once for each field, and let D be f_B of the difference of the two fields with no coils. Then the field of the difference of the two best designs has f_B at most D, and the quadratic terms (weights times f_K and f_Phi) of the difference of the two designs are at most w*D/4. If f_Phi, or f_K with stellarator symmetry, is among the terms, every unknown moves by at most a constant times sqrt(w*D), with one constant for all required fields, weights w and constraints.", "quantifier": "For all plasma and winding surfaces, pairs of required fields, net currents, weights, convex terms and constraints, resolutions", "why_tests_cant": "A test compares designs for some pairs of fields. That a small error in the required field can never move the best design far, whichever constraints are active, is a statement about all pairs of minimisers; it needs convexity, the exact quadratic growth of the objective and linearity of the field at once.", "anchors": ["src/quadcoil/quantity/magnetic_field.py: _Bnormal, _f_B", "src/quadcoil/quantity/current.py: _K, _K2, _f_K, f_huber_K, f_max_K2", "src/quadcoil/quantity/dipole.py: _Phi, _f_Phi, f_l1_Phi, f_max_Phi", "src/quadcoil/quadcoil_params.py: QuadcoilParams", "src/quadcoil/quadcoil.py: quadcoil"]}
{"id": "C143", "title": "Results do not depend on where angles and heights are counted from", "statement": "Turn both surfaces by a turns about the axis, lift them by h, count the poloidal angle from elsewhere, move all sample points along, and keep the net currents and the required normal field at the points. If the current potential is moved along, K2, Phi, Phi2, Bnormal, Bnormal2, f_B, f_K, f_Phi, f_huber_K, f_l1_Phi, f_B_normalized_by_Bnormal_IG and the f_max quantities of them read exactly the same arrays, and K and winding_surface_B read the same arrays turned about the axis. With the same harmonics (and, if only sine terms are used, no change of the angles), the best designs of the moved problem are the moved best designs, with the same objective; a mere lift leaves every unknown unchanged. Every machine can be moved this way by surfaces without stellarator symmetry of the same resolution.", "quantifier": "For all plasma and winding surfaces, shifts of the two angles and lifts, net currents, required fields, grids, current potentials, weights, constraints of any kind on these quantities", "why_tests_cant": "A test moves one machine by one amount and compares with a tolerance. A formula that uses a height or an angle itself instead of a difference is invisible at the usual origin; that none does, for every shift and every surface, is a statement about all of them.", "anchors": ["src/quadcoil/surfacerzfourier_jax.py: SurfaceRZFourierJAX.gammadash, dof_to_rz_op, dof_to_gamma_op", "src/quadcoil/quantity/magnetic_field.py: _winding_surface_B, _Bnormal, _f_B, _f_B_normalized_by_Bnormal_IG", "src/quadcoil/quantity/current.py: _K, _K2, _f_K", "src/quadcoil/quantity/dipole.py: _Phi, _f_Phi", "src/quadcoil/quadcoil_params.py: QuadcoilParams", "src/quadcoil/quadcoil.py: quadcoil"]}
{"id": "C144", "title": "The reported multipliers are the prices of the constraints", "statement": "Take a finished solve_constrained on a problem with convex objective and inequalities and affine equalities, whose inner optimiser ends where no direction has a slope below -eta. The reported multipliers inner_fin_mu are non-negative, and if the inequalities are allowed up to dg and the equalities moved to dh, no point meeting the changed constraints has an objective below the reported objective plus inner_fin_mu*(inner_fin_g - dg) plus inner_fin_lam*(inner_fin_h - dh), up to eta times its scaled distance. A constraint reported with multiplier 0 could be left out altogether without gaining more. When the bounds are loosened by delta and the problem is solved again, the objective falls by at most the old multipliers times delta and by at least the new multipliers times delta, up to the reported products of multipliers and constraint values and the eta terms, if the answers meet their constraints.", "quantifier": "For all convex problems, changes of the bounds, starting points, non-negative starting multipliers, positive penalty weights, inner optimisers, iteration limits; hard threshold", "why_tests_cant": "A test compares finite differences of re-solved problems with a multiplier at one bound. That the multipliers bound the effect of every change of the bounds, of any size and of several bounds at once, is a statement about all points of all relaxed problems.", "anchors": ["src/quadcoil/solver.py: solve_constrained, inner_fin_mu, inner_fin_lam, inner_fin_g, inner_fin_h, inner_fin_f", "src/quadcoil/quadcoil.py: quadcoil"]}
{"id": "C145", "title": "Left- and right-handed versions of a machine have the same figures", "statement": "Reflect a machine in its horizontal plane: the plasma and winding surfaces become their mirror images (Z changes sign, the poloidal angle is counted the other way), the net poloidal current stays, the net toroidal current changes sign and the required normal field is reflected along, on grids of angles that are reflected up to whole turns and order (the usual full-turn equispaced grids are their own reflection). For the reflected current potential all scalar figures of merit (f_B, f_K, f_Phi, their l1, Huber, max and normalised versions) are exactly the same numbers, and the gridded fields K2, Phi, Bnormal take the same values. K is reflected and reversed, the field of the coils is reflected, and its normal component is the same. The best designs of the reflected problem, under any of these objectives and bounds and with the same harmonics with or without stellarator symmetry, are the reflections of the best designs, with the same objective value. Such a mirror image exists within the surfaces of the package, with the same symmetry flag and resolution.", "quantifier": "For all machines, net currents, required normal fields, resolutions, current potentials, weighted objectives and bounds of these quantities", "why_tests_cant": "A test would compare a few figures of one reflected machine at a floating-point tolerance. Handedness independence of every figure and of the best designs is a statement about all machines and all potentials, and needs all sign conventions (normals, net currents, angles, harmonics) to fit together.", "anchors": ["src/quadcoil/quantity/current.py: _K", "src/quadcoil/quantity/magnetic_field.py: _winding_surface_B, _Bnormal, _f_B", "src/quadcoil/quantity/dipole.py: _Phi", "src/quadcoil/quadcoil_params.py: QuadcoilParams", "src/quadcoil/surfacerzfourier_jax.py: SurfaceRZFourierJAX", "src/quadcoil/quadcoil.py: quadcoil"]}
{"id": "C146", "title": "Equivalent ways of writing a problem have the same answer", "statement": "Changing the order of objective terms or constraints, writing one term as two terms whose weights add up, adding a term of weight 0, writing an equality as two inequalities, repeating a bound or adding a looser one, replacing a bound on f_max_K2, f_max_Bnormal, f_max_Phi or f_max_K_dot_grad_K_cyl by the same bound at every point, or replacing bounds on these maxima by the matching bounds on f_max_Bnormal2, f_max_Phi2, f_max_Phi4, Bnormal2 or Phi2, in any combination and any number of times, changes neither the set of best designs nor the optimal value; the generated problems that parse_objectives and parse_constraints hand to the optimiser in slack mode, with whatever units and slack variables each way needs, also have the same best coefficients and the same optimal value. Multiplying all weights by a positive number multiplies the optimal value and leaves the best designs.", "quantifier": "For all configurations, objectives, weights, constraints, bounds and all finite combinations of these rewritings; slack mode with consistent units for the generated problems", "why_tests_cant": "A test compares two ways of writing one problem through an iterative optimiser with a tolerance. Equality of the sets of best designs for every combination of rewritings is a statement about all problems and all designs.", "anchors": ["src/quadcoil/wrapper.py: _parse_objectives, _parse_constraints", "src/quadcoil/quantity/magnetic_field.py: f_max_Bnormal, f_max_Bnormal2", "src/quadcoil/quantity/dipole.py: f_max_Phi", "src/quadcoil/quantity/current.py: f_max_K2", "src/quadcoil/quadcoil.py: quadcoil"]}
{"id": "C147", "title": "The multipliers of a convex call certify its design", "statement": "When a slack-mode call to quadcoil asks for a convex problem (non-negatively weighted objective terms and constraints whose quantities are affine, or convex with an upper bound), and no straight way from the returned unknowns descends the last augmented Lagrangian faster than eta per unit length, then the reported inequality multipliers are non-negative, and every design that meets the user's constraints has an objective of at least the reported objective plus the products of the reported multipliers with the reported constraint values, less eta times the distance between the unknowns. If nothing is reported violated, those products vanish and eta is 0, the returned design is a best design and the reported objective is the best objective.", "quantifier": "For all configurations, convex objectives and constraints out of the supported quantities, units, weights, optimisers, starting points, numbers of passes and tolerances eta", "why_tests_cant": "A test can compare the returned design with a few other designs. That no design whatsoever does better, and by how much one could, is a bound over a continuum of designs that only a duality argument gives.", "anchors": ["src/quadcoil/quadcoil.py: quadcoil", "src/quadcoil/solver.py: solve_constrained", "src/quadcoil/wrapper.py: _parse_objectives, _parse_constraints", "src/quadcoil/quantity/quantity.py: _Quantity"]}
{"id": "C148", "title": "What smoothing costs in approx mode", "statement": "When a problem is handed over with smoothing='approx', every coefficient vector that satisfies the generated constraints satisfies the user's constraints exactly, and the generated objective lies above the user's by at most lse_epsilon times an amount known beforehand: ln(2n) per unit for the largest of n values, ln 2 times the winding surface's area for f_l1_Phi, nothing for smooth figures, times the weights. Conversely, a vector that meets the user's bounds with a margin of lse_epsilon times the same amount (ln n for a bound on n points) times the unit satisfies the generated constraints, so a best point of the generated problem is admissible and beats every such vector up to that amount. For convex figures whose bounds can be met with room to spare, the objective of the best point of the generated problem tends to the true best objective as lse_epsilon tends to 0. Covered are the 15 quantities without kinks and f_max_K2, f_max_K_dot_grad_K_cyl, f_max_Bnormal, f_max_Bnormal2, f_max_force_cyl, f_max_Phi, f_l1_Phi, with upper and lower bounds; f_max_Phi2, f_max_Phi4 and f_max_force2_cyl are not, because they are smoothed with a different power of the unit (C26), nor are equality constraints (C32).", "quantifier": "For all configurations, coefficient vectors, weights, units, bounds and every lse_epsilon > 0", "why_tests_cant": "A test compares the smoothed value with the exact one at a few points. That the generated problem never admits a vector that breaks a bound, how far its best point can be from the true best, and that the distance vanishes, are statements about all vectors and a limit.", "anchors": ["src/quadcoil/wrapper.py: _parse_objectives, _parse_constraints, _add_quantity", "src/quadcoil/quantity/quantity.py: _Quantity", "src/quadcoil/math_utils.py: max_lse, abs_lse, linf_lse"]}
{"id": "C149", "title": "What a whole call in approx mode returns and what it is worth", "statement": "quadcoil(..., smoothing='approx', smoothing_params={'lse_epsilon': eps}), with merge_constraints on or off: a call whose surfaces can be built, whose quantities exist and are used as they may be, and whose metrics exist, returns; the returned unknowns are exactly the current potential coefficients, and each metric is the unsmoothed value of its quantity at them. The reported objective overstates what the returned design costs by the user's own definition by at most eps times the loss known beforehand (C148), and never understates it. If the last solver pass minimised its augmented Lagrangian to within tol, the reported objective is at most r + eps*loss + tol + W/(2c) for every design of objective r that meets the user's constraints with the margin of the smoothing, where c and W are the penalty weight and the sum of squared multipliers when that pass began; merging n constraints into one widens the margin by eps*ln n units and nothing else. Reported violations are bounded likewise, and if none exceeds k, the returned design violates no constraint of the user by more than k times its unit. Without constraints the design is within tol + eps*loss of the best. Same quantities as C148, upper and lower bounds.", "quantifier": "For all devices, calls, objectives, constraints, optimisers, penalty schedules, eps > 0 and tol", "why_tests_cant": "A test runs one call and has no best design to compare with. The guarantee is a comparison with every design of the configuration, for every call and every behaviour of the optimiser.", "anchors": ["src/quadcoil/quadcoil.py: quadcoil, f_g_ineq_h_eq_from_y, unravel_unscale_x", "src/quadcoil/wrapper.py: merge_callables, _parse_objectives, _parse_constraints", "src/quadcoil/solver.py: solve_constrained, run_opt_lbfgs", "src/quadcoil/math_utils.py: max_lse"]}
{"id": "C150", "title": "A call that gives no grids reports the figures of the whole machine", "statement": "quadcoil() uses every grid that is given as given. A plasma grid left out has 32 toroidal angles in one field period and 34 poloidal angles in a turn; a winding grid left out has 32 toroidal angles in each field period of the whole torus and 34 poloidal ones; evaluation points left out are the first of nfp equal parts of the winding grid, and all of its poloidal angles. Consequently, when the evaluation points are left out and the winding grid is left out (or is uniform over the whole torus with at least two angles per period), f_K, f_Phi, f_l1_Phi and f_huber_K of a returned design are sums over the whole winding grid and f_max_K2, f_max_Phi, f_max_Phi2 and f_max_Phi4 are maxima over the whole of it; and when the plasma grid is left out (or is uniform in one period) and the required field repeats in every period, f_B is a sum over the whole plasma surface.", "quantifier": "For all calls that return, devices, field periods, resolutions, designs and required fields", "why_tests_cant": "A test compares one device at one resolution with one reference number, and cannot tell a figure of one period from a figure of the torus unless it knows the latter. The statement is an identity for every device and every design.", "anchors": ["src/quadcoil/quadcoil.py: quadcoil, y_to_qp", "src/quadcoil/quadcoil_params.py: QuadcoilParams", "src/quadcoil/quantity/magnetic_field.py: _f_B", "src/quadcoil/quantity/current.py: _f_K", "src/quadcoil/surfacerzfourier_jax.py: SurfaceRZFourierJAX"]}
{"id": "C151", "title": "Scanning a weight or a bound traces the trade-off curve", "statement": "A user scans objective_weight or constraint_value and plots what the best designs reach. Between the best designs for two weights of a quantity, what the rest of the objective loses per unit gained on that quantity lies between the two weights. With a positive weight no admissible design is as good on one side and better on the other. For every admissible design y, the best design for weight w has a rest of the objective at most (that of y) + w*(gain of y's quantity over its own) and a quantity at most (that of y) + (difference of the rests)/w, so small weights reach the best rest and large weights the best quantity. The best objective is a concave function of all the weights together and, in a convex problem, a convex function of all the bounds together.", "quantifier": "For all devices, objectives, weights, constraints, bounds and best designs (convexity of the problem only for the last claim)", "why_tests_cant": "A scan in a test has finitely many points on one device. The statements relate the best designs of any two or three problems of a family.", "anchors": ["src/quadcoil/quadcoil.py: quadcoil", "src/quadcoil/wrapper.py: _parse_objectives, _parse_constraints", "src/quadcoil/quantity/quantity.py: _Quantity"]}
{"id": "C152", "title": "The device a call works on is the one its arguments describe", "statement": "The parameter object that quadcoil() returns with its results holds the plasma coefficients, the net currents, the required normal field (zero if none is given), the resolutions and the symmetries that were passed. A winding surface passed as winding_dofs is used as passed; otherwise the winding surface has the coefficients that the generator returned for the points of this plasma surface and the distance asked for. The current density is evaluated on that same winding surface. Two calls that agree on device and grids come back with the same parameter object, whatever objective, constraints, metrics, units, starting point, solver options and libraries they use.", "quantifier": "For all calls that return, with any library, optimiser and set of quantities", "why_tests_cant": "A test checks one call. That no argument is lost, exchanged or replaced by another, in any combination of optional arguments, is a statement about all calls.", "anchors": ["src/quadcoil/quadcoil.py: quadcoil, y_to_qp", "src/quadcoil/quadcoil_params.py: QuadcoilParams", "src/quadcoil/surfacerzfourier_jax.py: SurfaceRZFourierJAX"]}
{"id": "C153", "title": "The multipliers of a call are the prices of its bounds", "statement": "For a call of quadcoil that asks for a convex problem in slack mode with distinct (unmerged) constraints, the multipliers reported with the design say what every bound is worth. The entries of mu are those of the slack variables of the objective (none if the objective has no slack variable) followed by the constraints in the order of the call; each inequality owns as many consecutive entries of mu as its quantity has values (after those of its own slack variables), and each equality as many entries of lam. The price of a constraint is the sum of the entries it owns; prices of inequalities are never negative. If the bounds of the call are replaced by any other bounds, no design that meets the new bounds has an objective below the reported one by more than the sum of price times loosening divided by the unit of the constraint, up to the slope of the final augmented Lagrangian times the distance; changing bounds whose price is zero gains nothing.", "quantifier": "all calls, devices, objectives and constraints of the convex kind, all replaced bounds and all designs that meet them; all optimisers that report consistent counts and shapes", "why_tests_cant": "A test re-solves for a few bounds and compares numbers obtained by an inexact solver; the statement is about every design under every replaced bound, and about which entry of the flat multiplier arrays belongs to which constraint.", "anchors": ["src/quadcoil/quadcoil.py: quadcoil", "src/quadcoil/quadcoil.py: f_g_ineq_h_eq_from_y", "src/quadcoil/wrapper.py: _parse_constraints", "src/quadcoil/wrapper.py: merge_callables", "src/quadcoil/solver.py: solve_constrained"]}
{"id": "C154", "title": "What a call is asked to report does not change its design", "statement": "Two calls of quadcoil that differ only in what they report (metric_name, value_only, verbose, the linear solver used for gradients, svtol) and both return give the same parameter object, the same coefficients and the same solver results, and show the same value under every metric they share (f_obj only when both compute gradients, see C51). If only the metrics differ, a shared metric has the same whole entry, gradient included. Asking for less never makes a call fail: if a call returns, so does the call with some of its metrics, whatever the other reporting options, as long as gradients are not newly asked for. Whether the solver ends does not depend on these options.", "quantifier": "all namespaces of quantities, all arguments, all optimisers and linear solvers, all lists of metrics", "why_tests_cant": "Tests compare a few metric lists on one device; the claim is about the flow of all options through a function of a thousand lines.", "anchors": ["src/quadcoil/quadcoil.py: quadcoil"]}
{"id": "C155", "title": "The reported objective is the weighted sum of the reported quantities", "statement": "A call of quadcoil in slack mode with gradients that is asked for f_obj reports it, and it is the objective value of the solver at the returned unknowns. If the quantities of the objective are among the metrics too, then f_obj is exactly the sum of weight / |unit| times the reported quantity when none of them is handed over through a slack variable; otherwise it is at least that sum as soon as no constraint is reported violated.", "quantifier": "all calls in slack mode with unmerged constraints on legal devices, any number of terms and constraints, all optimisers that report consistent counts and shapes", "why_tests_cant": "f_obj and the quantities are computed along different paths (flattened and scaled unknowns, units, slack variables); a test checks one combination with a tolerance.", "anchors": ["src/quadcoil/quadcoil.py: quadcoil", "src/quadcoil/quadcoil.py: f_g_ineq_h_eq_from_y", "src/quadcoil/wrapper.py: _parse_objectives", "src/quadcoil/quantity/quantity.py: _Quantity"]}
{"id": "C156", "title": "Multipliers certify a design whose largest current density is bounded", "statement": "A call of quadcoil in slack mode that bounds the largest current density (f_max_K2) hands the solver, at every list of unknowns, for each point of the winding grid the rows K2/|unit| - s and -K2/|unit| - s and one row s - bound/|unit|. When the returned unknowns are level to eta for the last augmented Lagrangian, the objective is a weighted sum of convex quantities without slack variable, and the rows that bound -K2 carry no multiplier, then all multipliers are nonnegative, objective + lambda.h + mu.g at the returned state is at most the objective of every design that meets the bound plus eta times its distance, and with eta = 0, no violated row and mu.g = 0 the returned coefficients are the best design that meets the bound. The same holds for any call of convex quantities and f_max_K2 whose rows with a nonzero multiplier are convex.", "quantifier": "all such calls on legal devices, all convex objectives, all bounds and units, all optimisers that report consistent counts and shapes, every tolerance eta", "why_tests_cant": "A test compares one optimum with a few other designs; the certificate is about all designs that meet the bound, and the rows for -K2 are not convex, so the textbook argument does not apply to the whole list.", "anchors": ["src/quadcoil/quadcoil.py: quadcoil", "src/quadcoil/solver.py: solve_constrained", "src/quadcoil/quantity/quantity.py: _Quantity", "src/quadcoil/quantity/current.py: f_max_K2", "src/quadcoil/wrapper.py: _parse_constraints"]}
{"id": "C157", "title": "The last multiplier is the price of the current density bound", "statement": "A call of quadcoil in slack mode whose only constraint is an upper bound on the largest current density (f_max_K2) and whose returned unknowns are level to eta, with no multiplier on the rows that bound -K2, ends its list of multipliers with a nonnegative number m, and m / |unit| is the price of the bound: whatever other bound b' replaces b, no design that meets b' has an objective below the reported one (plus lambda.h + mu.g) by more than m (b' - b) / |unit| plus eta times the distance; with eta = 0, lambda.h = 0 and mu.g = 0 the best objective under b' is at least the reported one less m (b' - b) / |unit|. For any call of convex quantities and f_max_K2 whose rows with a nonzero multiplier are convex the same holds with the prices of C153.", "quantifier": "all such calls on legal devices, all convex objectives, all old and new bounds and units, all optimisers that report consistent counts and shapes, every tolerance eta", "why_tests_cant": "A test reruns the call with one other bound; the claim is about the optimum under every other bound, without solving again.", "anchors": ["src/quadcoil/quadcoil.py: quadcoil", "src/quadcoil/solver.py: solve_constrained", "src/quadcoil/quantity/quantity.py: _Quantity", "src/quadcoil/quantity/current.py: f_max_K2", "src/quadcoil/wrapper.py: _parse_constraints"]}
{"id": "C158", "title": "A call that meets its current density bound certifies its design", "statement": "A call of quadcoil in slack mode whose only constraint is an upper bound b on the largest current density (f_max_K2), with a convex objective without slack variables, that reports no violated row, products of multipliers and rows that add up to 0, unknowns level to eta and a design with f_max_K2 other than 0: no design that meets any other bound b' has an objective below the reported one by more than m (b' - b) / |unit| plus eta times the distance, where m >= 0 is the last multiplier. With eta = 0 the returned coefficients are the best design under the bound. Nothing has to be known about the individual multipliers: those of the nonconvex rows for -K2 vanish by themselves.", "quantifier": "all such calls on legal devices, all convex objectives, all old and new bounds and units, all optimisers that report consistent counts and shapes, every tolerance eta", "why_tests_cant": "A test compares one optimum with a few other designs; the claim is about every design under every bound and rests on the sign of quantities at all grid points.", "anchors": ["src/quadcoil/quadcoil.py: quadcoil", "src/quadcoil/solver.py: solve_constrained", "src/quadcoil/quantity/quantity.py: _Quantity", "src/quadcoil/quantity/current.py: f_max_K2", "src/quadcoil/wrapper.py: _parse_constraints"]}
{"id": "C159", "title": "The violations left by all passes of a constrained solve add up to a bounded amount", "statement": "For a convex problem (convex objective and inequalities, affine equalities), an inner optimiser that ends every pass where its augmented Lagrangian is level, positive starting penalty weight and multipliers with nonnegative inequality part, let low bound the starting Lagrangian from below (with multipliers 0: the objective). The sum over all outer passes of penalty weight times squared violation is at most f(y) - low for every point y that meets the constraints. The state that solve_constrained reports has a squared violation, and so every violated row has a violation, of at most (f(y) - low) over the last penalty weight (and its root), and for a growth factor of at least 1 no more than (f(y) - low) / (c0 tol^2) passes can end with some row off by tol or more.", "quantifier": "all convex problems in any number of unknowns and constraints, all starts, penalty weights and multipliers, all stopping options and numbers of passes, all optimisers whose passes end level", "why_tests_cant": "A test sees the violations of the passes of one solve; the bound is a statement about every sequence of passes of every convex problem, with no limit on their number.", "anchors": ["src/quadcoil/solver.py: solve_constrained"]}
{"id": "C160", "title": "Small reported constraint values mean nearly met bounds", "statement": "A call of quadcoil in slack mode reports the values of its inequalities and equalities (inner_fin_g and inner_fin_h of the solver). If no inequality exceeds e and no equality is off by more than e, then the returned design meets every bound of the user on a quantity that is handed over directly up to e times the unit of the constraint, and every bound on a largest value (f_max_K2, f_max_K_dot_grad_K_cyl, f_max_Bnormal, f_max_Bnormal2, f_max_force_cyl, f_max_Phi) up to 2 e units: one for the rows of the slack variable and one for its bound. A bound b on a squared or fourth power (f_max_force2_cyl, f_max_Phi2, f_max_Phi4) with unit u can be exceeded to at most u (sqrt(b/u + e) + e)^2, and a bound on the sum of the absolute potential (f_l1_Phi) by at most (1 + A) e units, A the area over which it is summed. This holds whatever the optimiser did, for every objective.", "quantifier": "all calls in slack mode on legal devices, all objectives, all lists of constraints of all three types with nonzero units (the same unit up to sign wherever one quantity with slack variables is used twice), all tolerances, all optimisers that report consistent counts and shapes", "why_tests_cant": "A test checks single constraints at single designs; the claim links what the solver reports to the quantities of the user for every design, constraint and unit.", "anchors": ["src/quadcoil/quadcoil.py: quadcoil", "src/quadcoil/solver.py: solve_constrained", "src/quadcoil/wrapper.py: _parse_constraints", "src/quadcoil/quantity/quantity.py: _Quantity"]}
{"id": "C161", "title": "Returned designs of convex calls nearly meet the bounds", "statement": "A convex call of quadcoil in slack mode whose objectives need no slack variables, with an optimiser that ends every pass level. If no design has an objective below low, then for every design that meets the bounds, with objective r, the returned design meets the bounds up to sqrt((r - low) / c) units (2 sqrt((r - low) / c) for largest values, and as in C160 for powers and sums), where c is the penalty weight of the last pass; and for a growth factor of at least 1 at most (r - low) / (c_init tol^2) of the passes end with some row off by tol or more.", "quantifier": "all such calls with units as in C160, all convex objectives and bounds, all positive penalty weights, all tolerances and numbers of passes", "why_tests_cant": "A test sees the violations of one solve; the bound covers every convex call and every number of passes.", "anchors": ["src/quadcoil/quadcoil.py: quadcoil", "src/quadcoil/solver.py: solve_constrained", "src/quadcoil/wrapper.py: _parse_constraints", "src/quadcoil/wrapper.py: _parse_objectives"]}
{"id": "C162", "title": "Preconditioned coordinates convert back and make the quadratic form round", "statement": "The two transforms that _precondition_coordinate_by_matrix returns undo each other, in both orders, whenever all singular values are positive; and for a symmetric positive definite matrix the quadratic form x.(H x) equals the sum of squares of the new coordinates, so that its Hessian there is the identity, as the docstring promises. For an indefinite symmetric matrix the second part fails.", "quantifier": "all sizes, all matrices with positive singular values (first part) or symmetric positive definite ones (second part), all vectors", "why_tests_cant": "A test converts single vectors for single matrices; the claim is for every matrix and every vector, and depends on transposes and square roots being on the right side of both transforms.", "anchors": ["src/quadcoil/quadcoil.py: _precondition_coordinate_by_matrix"]}
{"id": "C163", "title": "The normalised difference is a scale-free distance", "statement": "delta_normalized is symmetric in its arguments, does not change when both are multiplied by the same nonzero number, lies between 0 and 2 entry by entry, and is zero everywhere only if the two arrays are equal; two zero entries give 0, not a division by zero.", "quantifier": "all pairs of real arrays of the same shape, all nonzero factors", "why_tests_cant": "A test compares single pairs; symmetry, scale invariance and the bounds are statements about all pairs, and the division by the larger entry is only safe because of the guard.", "anchors": ["src/quadcoil/solver.py: delta_normalized"]}
