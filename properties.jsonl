{"id": "C01", "title": "Default-unit settings always stay valid", "statement": "set_unit_freq/cap/ind/JJ with a name outside the documented unit lists raises ValueError and changes nothing; with a listed name the matching getter returns it and the other three settings are untouched. So after any sequence of calls, failing or not, every default unit is a valid unit for its element type.", "quantifier": "every finite sequence of unit-setting calls with arbitrary strings", "why_tests_cant": "tests try a handful of names in a fixed order; the claim is about every string and every history of a process-wide global", "anchors": ["SQcircuit/units.py:set_unit_freq", "SQcircuit/units.py:set_unit_cap", "SQcircuit/units.py:set_unit_ind", "SQcircuit/units.py:set_unit_JJ", "SQcircuit/exceptions.py:raise_unit_error"]}
{"id": "C02", "title": "Engine selection", "statement": "set_engine is case-insensitive, an unsupported name raises ValueError and leaves the engine as it was, get_engine always returns \"numpy\" or \"pytorch\", and gradient-only features raise ModeError exactly when the engine is NumPy.", "quantifier": "every string and every history of engine calls", "why_tests_cant": "arbitrary strings and histories", "anchors": ["SQcircuit/settings.py:set_engine", "SQcircuit/settings.py:get_engine", "SQcircuit/settings.py:set_optim_mode", "SQcircuit/settings.py:get_optim_mode", "SQcircuit/exceptions.py:raise_optim_error_if_needed"]}
{"id": "C03", "title": "Noise environment", "statement": "Each noise setter changes only its own entry, an unknown unit raises and changes nothing, and reset_to_default restores all four documented defaults after any history.", "quantifier": "every sequence of noise-setter calls", "why_tests_cant": "history of a process-wide dictionary", "anchors": ["SQcircuit/noise.py:set_temp", "SQcircuit/noise.py:set_low_freq", "SQcircuit/noise.py:set_high_freq", "SQcircuit/noise.py:set_t_exp", "SQcircuit/noise.py:reset_to_default"]}
{"id": "C04", "title": "Capacitor value survives unit conversion", "statement": "A capacitor created (or set) with value v in any allowed unit, farad-like or energy-like, reports exactly v when read back in that unit, and reading in two units always describes the same capacitance: C = e^2/(2 E_C).", "quantifier": "every non-zero value and every pair of the 11 allowed units", "why_tests_cant": "a real-valued law over all values and unit pairs; tests sample 10 GHz", "anchors": ["SQcircuit/elements.py:Capacitor.set_value", "SQcircuit/elements.py:Capacitor.get_value"]}
{"id": "C05", "title": "Inductor value survives unit conversion", "statement": "Same as C04 for inductors with henry-like and energy-like units: L = (Phi0/2pi)^2/E_L.", "quantifier": "every non-zero value and every pair of the 11 allowed units", "why_tests_cant": "real-valued law over all values and unit pairs", "anchors": ["SQcircuit/elements.py:Inductor.set_value", "SQcircuit/elements.py:Inductor.get_value"]}
{"id": "C06", "title": "Junction value read back in its own unit", "statement": "Junction.get_value(u) is documented to return the value in unit u, so a junction set to v in u should report v. The code reports 2*pi*v (angular frequency).", "quantifier": "every value and every frequency unit", "why_tests_cant": "the discrepancy must be characterised for every value and unit", "anchors": ["SQcircuit/elements.py:Junction.set_value", "SQcircuit/elements.py:Junction.get_value"]}
{"id": "C07", "title": "Invalid units are rejected", "statement": "Creating, setting or reading an element with a string that is not one of its allowed units raises the unit ValueError and leaves the element value unchanged; with an allowed unit it never raises a unit error. set_value with unit None instead fails with KeyError after the error attribute was already overwritten.", "quantifier": "every string, every element kind, every prior element state", "why_tests_cant": "arbitrary strings", "anchors": ["SQcircuit/elements.py:Capacitor._check_unit_format", "SQcircuit/elements.py:Inductor._check_unit_format", "SQcircuit/elements.py:Junction._check_unit_format"]}
{"id": "C08", "title": "Omitted unit means the current default unit", "statement": "Creating an element without a unit equals creating it with the unit currently reported by the matching get_unit function, after any history of set_unit calls.", "quantifier": "every value and every history of unit-setting calls", "why_tests_cant": "history dependence", "anchors": ["SQcircuit/elements.py:Capacitor.__init__", "SQcircuit/elements.py:Inductor.__init__", "SQcircuit/elements.py:Junction.__init__", "SQcircuit/units.py"]}
{"id": "C09", "title": "Loop flux and loop noise amplitude", "statement": "Loop.set_flux(x) makes value() return 2*pi*x and touches nothing else. set_noise(A) should agree with constructing the loop with A; the constructor multiplies A by 2*pi but set_noise does not.", "quantifier": "every flux and amplitude", "why_tests_cant": "real-valued law for every argument", "anchors": ["SQcircuit/elements.py:Loop.__init__", "SQcircuit/elements.py:Loop.set_flux", "SQcircuit/elements.py:Loop.set_noise", "SQcircuit/elements.py:Loop.value"]}
{"id": "C10", "title": "Fabrication error", "statement": "With error 0 the stored value is exactly the nominal one; with error e percent the deviation from nominal is exactly e/100 of nominal times the standard-normal draw, whatever the draw.", "quantifier": "every nominal value, error and random draw", "why_tests_cant": "quantifies over the random source", "anchors": ["SQcircuit/elements.py:Element._set_value_with_error"]}
{"id": "C11", "title": "Edge incidence vector and edge matrix agree", "statement": "For an edge between two distinct nodes the edge matrix is the outer product of the edge incidence vector with itself: symmetric, positive semidefinite and independent of edge direction. Degenerate edges (k,k) are accepted and break this: (0,0) adds capacitance at the last node and (k,k) adds a negative one.", "quantifier": "every node count and every edge", "why_tests_cant": "all sizes and all edges", "anchors": ["SQcircuit/circuit.py:CircuitEdge._set_w_at_edge", "SQcircuit/circuit.py:CircuitEdge._set_matrix_rep"]}
{"id": "C12", "title": "Number of nodes", "statement": "Circuit.n should be the largest node label used by any edge. The code takes the largest label of the lexicographically largest edge, which is smaller when another edge holds the largest label, and then construction fails with IndexError.", "quantifier": "every dictionary of edges", "why_tests_cant": "all edge sets", "anchors": ["SQcircuit/circuit.py:Circuit.__init__"]}
{"id": "C13", "title": "Capacitance and susceptance matrices", "statement": "For any circuit, x^T C x is the sum over edges of the total capacitance on the edge (including each inductive element's own capacitor) times the squared voltage drop, and likewise x^T L x with the sum of 1/L of the inductors. Both matrices are symmetric.", "quantifier": "every circuit and every vector x", "why_tests_cant": "all circuits, all sizes", "anchors": ["SQcircuit/circuit.py:Circuit._get_LCWB", "SQcircuit/circuit.py:CircuitEdge.get_eff_cap_value", "SQcircuit/circuit.py:CircuitEdge.get_eff_ind_value"]}
{"id": "C14", "title": "Connected circuits have an invertible capacitance matrix", "statement": "If every capacitance is positive and every node is connected to ground through edges, C is positive definite, hence inverting it at construction cannot fail for any such circuit; if some set of nodes is not connected to ground, C is singular.", "quantifier": "every circuit graph of any size", "why_tests_cant": "graph connectivity over all graphs", "anchors": ["SQcircuit/circuit.py:Circuit.__init__", "SQcircuit/circuit.py:Circuit._get_LCWB"]}
{"id": "C15", "title": "Charge-mode directions see no inductor", "statement": "x^T L x = 0 exactly when the flux drop of x across every inductive edge is zero; consequently the inductor-gradient matrix built from the edge vanishes on charge modes, so summing it over all modes instead of harmonic ones does not change it.", "quantifier": "every circuit with positive inductances, every x", "why_tests_cant": "all circuits", "anchors": ["SQcircuit/circuit.py:Circuit._get_LCWB", "SQcircuit/circuit.py:Circuit._get_quadratic_phi", "SQcircuit/circuit.py:Circuit._get_partial_H"]}
{"id": "C16", "title": "Row bookkeeping of B and W", "statement": "Every inductive element occurrence gets its own row of B, rows are 0..N-1 without gaps in insertion order, and each junction key points at the W row of its own edge; two junctions on one edge share the row, junctions on different edges never do.", "quantifier": "every circuit dictionary", "why_tests_cant": "all dictionaries and repeated elements", "anchors": ["SQcircuit/circuit.py:CircuitEdge.process_edge_and_update_circ", "SQcircuit/circuit.py:Circuit._get_LCWB"]}
{"id": "C17", "title": "Loop registration", "statement": "Circuit.loops lists each loop mentioned by an inductive element exactly once in order of first mention, and after construction each loop records exactly the B rows of the elements that mention it, no matter what the loop recorded before (e.g. from another circuit).", "quantifier": "every circuit dictionary and every prior loop state", "why_tests_cant": "history of loops shared between circuits", "anchors": ["SQcircuit/circuit.py:Circuit.add_loop", "SQcircuit/circuit.py:CircuitEdge.update_circuit_loop_from_element", "SQcircuit/elements.py:Loop.reset"]}
{"id": "C18", "title": "Optimisable parameters", "statement": "In the PyTorch engine .parameters holds each component (element, capacitor of an inductive element, loop) that requires grad or is a non-leaf exactly once, and nothing else, with its current value, in first-visit order.", "quantifier": "every circuit dictionary with arbitrary sharing", "why_tests_cant": "arbitrary sharing of component objects", "anchors": ["SQcircuit/circuit.py:Circuit.add_to_parameters", "SQcircuit/circuit.py:Circuit.parameters", "SQcircuit/circuit.py:CircuitEdge.process_edge_and_update_circ"]}
{"id": "C19", "title": "Declaration order does not matter for C and L", "statement": "Reordering edges, reordering elements on an edge, or flipping edges leaves the capacitance and susceptance matrices unchanged; k parallel capacitors equal one capacitor with the summed value.", "quantifier": "every permutation of every circuit", "why_tests_cant": "all permutations", "anchors": ["SQcircuit/circuit.py:Circuit._get_LCWB"]}
{"id": "C20", "title": "Element sensitivities", "statement": "The stored sensitivity matrix of a capacitor is exactly dC/dc even when the same capacitor object sits on several edges, and that of an inductor is exactly -d(1/L matrix)/dL. In the NumPy engine the capacitor attached to an inductive element gets no sensitivity entry.", "quantifier": "every circuit, every element, arbitrary sharing", "why_tests_cant": "derivatives for all circuits", "anchors": ["SQcircuit/circuit.py:CircuitEdge.process_edge_and_update_circ", "SQcircuit/elements.py:Capacitor.partial_mat", "SQcircuit/elements.py:Inductor.partial_mat"]}
{"id": "C21", "title": "remove_dependent_columns", "statement": "The function should return linearly independent columns spanning the same space. It keeps the first r columns, r being the rank, so it can return dependent columns and drop needed ones; it is right when the non-zero columns are already independent.", "quantifier": "every matrix", "why_tests_cant": "all matrices", "anchors": ["SQcircuit/functions.py:remove_dependent_columns", "SQcircuit/functions.py:remove_zero_columns", "SQcircuit/elements.py:Loop.get_g", "SQcircuit/circuit.py:Circuit._get_LCWB"]}
{"id": "C22", "title": "External flux distribution", "statement": "When construction succeeds with loops, the flux distribution B satisfies: the induced charge on every independent node combination vanishes (K^T C_edge B = 0) and around each loop the oriented sum of B is 1 for that loop and 0 for the others (before rounding), and it is the only such B.", "quantifier": "every circuit with loops and every capacitance assignment", "why_tests_cant": "all circuits", "anchors": ["SQcircuit/circuit.py:Circuit._get_LCWB", "SQcircuit/elements.py:Loop.get_g"]}
{"id": "C23", "title": "Flux distribution rounding", "statement": "Rounding B to 5 decimals changes the external phase of any element by at most 5e-6 times the sum of absolute loop phases, and around each loop the flux sum is off by at most 5e-6 per element.", "quantifier": "every distribution and flux values", "why_tests_cant": "all real inputs", "anchors": ["SQcircuit/circuit.py:Circuit._get_LCWB", "SQcircuit/circuit.py:Circuit._get_external_flux_at_element"]}
{"id": "C24", "title": "Coordinate transformations are canonical", "statement": "After any sequence of applied transformations, R^T S = 1, transformed inverse capacitance is R^T C^-1 R, transformed susceptance is S^T L S, and coord_transform(\"charge\") is the transpose of S.", "quantifier": "every sequence of invertible transformations of any dimension", "why_tests_cant": "all sizes and sequences", "anchors": ["SQcircuit/circuit.py:Circuit._apply_transformation", "SQcircuit/circuit.py:Circuit._get_and_apply_transformation_1", "SQcircuit/circuit.py:Circuit._get_and_apply_transformation_2", "SQcircuit/circuit.py:Circuit._get_and_apply_transformation_3", "SQcircuit/circuit.py:Circuit.coord_transform"]}
{"id": "C25", "title": "Charge modes couple to junctions with 0 or +-1", "statement": "If the second transformation returns, every junction couples to every charge mode with exactly 0, 1 or -1, and this survives the third transformation and mode removal, so the displacement operator is only asked for powers -1, 0, 1.", "quantifier": "every circuit, every random draw and number of retries", "why_tests_cant": "quantifies over retries and random draws", "anchors": ["SQcircuit/circuit.py:Circuit._get_and_apply_transformation_2", "SQcircuit/circuit.py:Circuit._round_to_zero_one", "SQcircuit/circuit.py:Circuit._is_gram_schmidt_successful", "SQcircuit/circuit.py:Circuit._get_and_apply_transformation_3"]}
{"id": "C26", "title": "Removal of uncoupled modes", "statement": "Exactly the modes that couple to no junction are removed: the remaining n equals the number of coupled modes, and the entries for the remaining modes are unchanged and in order in all transformed quantities.", "quantifier": "every coupling matrix", "why_tests_cant": "all matrices", "anchors": ["SQcircuit/circuit.py:Circuit._get_uncoupled_indices", "SQcircuit/circuit.py:Circuit._update_nmodes_remove_uncoupled_modes"]}
{"id": "C27", "title": "Coupling operators after mode removal", "statement": "coupling_op should combine each remaining mode operator with that mode's own coefficient. The coefficient matrix is not reduced when modes are removed, so if a removed mode precedes a kept one the operator uses the wrong coefficients (and so does the external-flux term of the Hamiltonian).", "quantifier": "every circuit and set of removed modes", "why_tests_cant": "all mode sets", "anchors": ["SQcircuit/circuit.py:Circuit.coupling_op", "SQcircuit/circuit.py:Circuit._update_nmodes_remove_uncoupled_modes", "SQcircuit/circuit.py:Circuit._get_inductive_hamil"]}
{"id": "C28", "title": "update() on any circuit", "statement": "update() should refresh any constructed circuit. If construction removed an uncoupled mode, update() always raises IndexError; if the truncation numbers are not set it always raises IndexError.", "quantifier": "every circuit", "why_tests_cant": "all circuits with a removed mode", "anchors": ["SQcircuit/circuit.py:Circuit.update", "SQcircuit/circuit.py:Circuit._get_LCWB", "SQcircuit/circuit.py:CircuitEdge._set_w_at_edge"]}
{"id": "C29", "title": "Truncation numbers", "statement": "set_trunc_nums accepts exactly lists of length n (else ValueError with no change); afterwards trunc_nums returns the same list, the Hilbert dimension of a harmonic mode is N and of a charge mode 2N-1, and dropping the size-1 modes does not change the total dimension.", "quantifier": "every mode layout and list", "why_tests_cant": "all layouts and lists", "anchors": ["SQcircuit/circuit.py:Circuit.set_trunc_nums", "SQcircuit/circuit.py:Circuit.trunc_nums"]}
{"id": "C30", "title": "truncate_circuit respects the total size", "statement": "For K >= 1 the total Hilbert dimension chosen by truncate_circuit never exceeds K and every mode gets dimension at least 1 and within one (harmonic) or two (charge) of K^(1/n); otherwise ValueError.", "quantifier": "every K and every mode layout", "why_tests_cant": "all K and n", "anchors": ["SQcircuit/circuit.py:Circuit.truncate_circuit"]}
{"id": "C31", "title": "Tensor index decomposition", "statement": "_tensor_to_modes inverts the tensor-product index: every index below the product of mode sizes maps to a tuple with each digit below its mode size, recomposing gives the index back, and every digit tuple is hit exactly once.", "quantifier": "every list of mode sizes and every index", "why_tests_cant": "all dimensions", "anchors": ["SQcircuit/circuit.py:Circuit._tensor_to_modes"]}
{"id": "C32", "title": "check_convergence", "statement": "For a normalised eigenvector epsilon lies in [0,1] and is the weight outside the kept box; it should flag weight in the outer t levels. It does not look at the negative end of charge modes, and with t=0 it always reports epsilon 1.", "quantifier": "every state vector, mode sizes, t", "why_tests_cant": "all vectors", "anchors": ["SQcircuit/circuit.py:Circuit.check_convergence"]}
{"id": "C33", "title": "Product operators", "statement": "The stored product of charge operators of two modes equals the matrix product of the two stored charge operators, operators of different modes commute, and each is Hermitian.", "quantifier": "every number of modes, dimensions and isolated operators", "why_tests_cant": "all sizes", "anchors": ["SQcircuit/circuit.py:Circuit._build_op_memory", "SQcircuit/circuit.py:Circuit._charge_op_isolated"]}
{"id": "C34", "title": "Charge displacement operator", "statement": "The displacement operator raises the charge by exactly w for w in {-1,0,1}: n D = D (n + w) entrywise, D for -w is the adjoint, and it is unitary except at the truncation edge.", "quantifier": "every truncation size", "why_tests_cant": "all sizes", "anchors": ["SQcircuit/circuit.py:Circuit._d_op_isolated"]}
{"id": "C35", "title": "The Hamiltonian is Hermitian", "statement": "hamiltonian() equals its conjugate transpose for every circuit, external flux, charge offset and truncation.", "quantifier": "every circuit and setting", "why_tests_cant": "all parameters", "anchors": ["SQcircuit/circuit.py:Circuit.hamiltonian", "SQcircuit/circuit.py:Circuit._get_LC_hamil", "SQcircuit/circuit.py:Circuit._get_inductive_hamil"]}
{"id": "C36", "title": "Quadratic charge energy", "statement": "The half-triangle sums used for charge energy and its gradient equal 1/2 sum_ij A_ij Q_i Q_j for symmetric A; description() reports the matching EC.", "quantifier": "every symmetric matrix and commuting operators", "why_tests_cant": "all sizes", "anchors": ["SQcircuit/circuit.py:Circuit._get_quadratic_Q", "SQcircuit/circuit.py:Circuit._get_LC_hamil", "SQcircuit/circuit.py:Circuit._get_quadratic_cInvTrans"]}
{"id": "C37", "title": "The Hamiltonian tracks settings", "statement": "After any sequence of set_trunc_nums, set_charge_offset, loop set_flux, element set_value and update calls, hamiltonian() equals that of a freshly built circuit with the element values at the last build/update for the linear part and the current charge offsets, fluxes and truncation; right after update() it equals the fresh circuit with all current values.", "quantifier": "every history of API calls", "why_tests_cant": "histories", "anchors": ["SQcircuit/circuit.py:Circuit.update", "SQcircuit/circuit.py:Circuit.set_trunc_nums", "SQcircuit/circuit.py:Circuit.set_charge_offset", "SQcircuit/circuit.py:Circuit.hamiltonian"]}
{"id": "C38", "title": "Results are only served after diag", "statement": "efreqs, evecs, dec_rate, matrix_elements, get_partial_omega, eig_phase_coord raise CircuitStateError until diag has succeeded and again after update(); diag and hamiltonian raise it until truncation numbers are set.", "quantifier": "every history of API calls", "why_tests_cant": "histories", "anchors": ["SQcircuit/circuit.py:Circuit.efreqs", "SQcircuit/circuit.py:Circuit.evecs", "SQcircuit/circuit.py:Circuit.diag", "SQcircuit/circuit.py:Circuit.dec_rate", "SQcircuit/circuit.py:Circuit.matrix_elements"]}
{"id": "C39", "title": "set_charge_noise", "statement": "set_charge_noise(mode, amp) should set the noise amplitude of the charge mode. It always raises: ValueError for a non-charge mode and AttributeError for every charge mode, and never changes anything.", "quantifier": "every circuit, mode and amplitude", "why_tests_cant": "all inputs", "anchors": ["SQcircuit/circuit.py:Circuit.set_charge_noise", "SQcircuit/elements.py:Charge.set_noise"]}
{"id": "C40", "title": "diag pairs eigenvalues with their eigenvectors in ascending order", "statement": "Whatever order the eigensolver returns, diag returns the real parts ascending and the k-th vector belongs to the k-th value, with nothing lost or duplicated.", "quantifier": "every eigensolver output", "why_tests_cant": "order returned by the solver is arbitrary", "anchors": ["SQcircuit/circuit.py:Circuit._diag_np"]}
{"id": "C41", "title": "Frequency unit", "statement": "efreqs and the values returned by diag are the stored angular frequencies divided by 2 pi times the current unit; changing the unit later rescales them by exactly the unit ratio and never alters stored results.", "quantifier": "every history of set_unit_freq", "why_tests_cant": "histories", "anchors": ["SQcircuit/circuit.py:Circuit.efreqs", "SQcircuit/circuit.py:Circuit._diag_np", "SQcircuit/units.py:set_unit_freq"]}
{"id": "C42", "title": "safecopy", "statement": "safecopy should return an independent circuit with the same values. With the PyTorch engine it raises KeyError when an inductive element's own capacitor requires grad; an element placed on two edges becomes two unrelated elements in the copy; save_eigs=True raises AttributeError in the NumPy engine; description() on a copy raises TypeError.", "quantifier": "every circuit", "why_tests_cant": "all sharing patterns", "anchors": ["SQcircuit/circuit.py:Circuit.safecopy", "SQcircuit/circuit.py:Circuit.description"]}
{"id": "C43", "title": "picklecopy and pickling", "statement": "Pickling a picklecopy drops only the operator memory, a later update() restores everything, and pickling the circuit itself or copying it keeps every attribute.", "quantifier": "every circuit state", "why_tests_cant": "all states", "anchors": ["SQcircuit/circuit.py:Circuit.picklecopy", "SQcircuit/circuit.py:Circuit.__getstate__", "SQcircuit/circuit.py:Circuit.__setstate__"]}
{"id": "C44", "title": "Assigning parameters", "statement": "Assigning a list of matching length sets each parameter component in order and leaves all other components alone. A short list raises ValueError but leaves earlier components overwritten; a long list is silently accepted.", "quantifier": "every parameter list and assigned list", "why_tests_cant": "all lengths", "anchors": ["SQcircuit/circuit.py:Circuit.parameters"]}
{"id": "C45", "title": "Thermal factors", "statement": "Upward and downward rates satisfy detailed balance up = down*exp(-hbar w/kT), the total is their sum and equals 2 coth(hbar w/2kT), both are non-negative, and beyond the overflow threshold the approximation error is below 1e-300.", "quantifier": "every frequency and temperature", "why_tests_cant": "all reals", "anchors": ["SQcircuit/circuit.py:Circuit.dec_rate"]}
{"id": "C46", "title": "Dephasing rates", "statement": "Dephasing rates are non-negative, linear in |A| and |d omega|, and zero iff one of the factors vanishes or omega_low*t_exp = 1.", "quantifier": "every amplitude, slope and environment", "why_tests_cant": "all reals", "anchors": ["SQcircuit/circuit.py:Circuit._dephasing"]}
{"id": "C47", "title": "Dephasing-rate gradient", "statement": "The derivative used for backpropagation is the derivative of the dephasing rate with respect to the parameter whenever the slope is non-zero and the amplitude positive; with a negative amplitude its sign is wrong.", "quantifier": "every differentiable dependence", "why_tests_cant": "all functions", "anchors": ["SQcircuit/torch_extensions.py:partial_dephasing_rate", "SQcircuit/circuit.py:Circuit._dephasing"]}
{"id": "C48", "title": "Gradient of the Hamiltonian with respect to flux and junction energy", "statement": "The reported derivative with respect to a loop is the exact derivative of the flux-dependent part of the Hamiltonian, and with respect to a junction energy the exact coefficient, for every circuit including shared junctions.", "quantifier": "every circuit, flux and loop", "why_tests_cant": "all circuits", "anchors": ["SQcircuit/circuit.py:Circuit._get_partial_H", "SQcircuit/circuit.py:Circuit._get_inductive_hamil", "SQcircuit/torch_extensions.py:partial_squared_H_phi"]}
{"id": "C49", "title": "Eigenvector gradient", "statement": "For orthonormal eigenvectors the reported eigenvector derivative is orthogonal to the eigenvector and has the first-order perturbation coefficients on the others.", "quantifier": "every spectrum and perturbation", "why_tests_cant": "all spectra", "anchors": ["SQcircuit/circuit.py:Circuit.get_partial_vec"]}
{"id": "C50", "title": "Mixed derivative with respect to gate charge and capacitance", "statement": "The second derivative used for the charge-noise gradient should be the capacitance derivative of the first one. The code omits the coordinate transformation, so it is wrong whenever R is not the identity.", "quantifier": "every circuit", "why_tests_cant": "all circuits", "anchors": ["SQcircuit/torch_extensions.py:partial_squared_H_ng", "SQcircuit/torch_extensions.py:partial_H_ng"]}
{"id": "C51", "title": "Coupling operators obey Kirchhoff's law", "statement": "coupling_op of (a,b) plus that of (b,c) is that of (a,c), swapping two non-ground nodes flips the sign, and a ground edge gives the node operator itself.", "quantifier": "every circuit and node triple", "why_tests_cant": "all node triples", "anchors": ["SQcircuit/circuit.py:Circuit.coupling_op"]}
{"id": "C52", "title": "System node numbering", "statement": "The node index in the composite system is a bijection between (circuit, node 1..n) pairs and 0..N-1, and the sub-system lookup is its inverse. A coupling to node 0 aliases another node.", "quantifier": "every list of circuits", "why_tests_cant": "all sizes", "anchors": ["SQcircuit/systems.py:System._node_idx_in_sys", "SQcircuit/systems.py:System._node_idx_in_sub_sys"]}
{"id": "C53", "title": "System capacitance matrix", "statement": "cap_matrix is block diagonal plus, for every coupling capacitor, its Laplacian contribution: symmetric if the blocks are, x^T C x is the sum of the block energies and the coupling energies; order of couplings is irrelevant.", "quantifier": "every list of couplings", "why_tests_cant": "all sizes", "anchors": ["SQcircuit/systems.py:System.cap_matrix", "SQcircuit/systems.py:System._bare_cap_matrix"]}
{"id": "C54", "title": "Lifting sub-system operators", "statement": "Lifting is multiplicative, maps identity to identity, and the two-operator lift equals the product of the single lifts for any two sub-systems.", "quantifier": "every number and size of subsystems", "why_tests_cant": "all sizes", "anchors": ["SQcircuit/systems.py:System._op_in_sys", "SQcircuit/systems.py:System._op_times_op_in_sys"]}
{"id": "C55", "title": "System Hamiltonian is Hermitian", "statement": "System.hamiltonian() should be Hermitian. The quadratic form sums only the upper triangle, so for two nodes of one sub-circuit whose truncated charge operators do not commute the result is not Hermitian; it is when every sub-circuit has one node.", "quantifier": "every system", "why_tests_cant": "all systems", "anchors": ["SQcircuit/systems.py:System._quadratic_Q", "SQcircuit/systems.py:System._H_int"]}
{"id": "C56", "title": "Sweeps", "statement": "A one-dimensional sweep stores at grid point i the eigenfrequencies diag returns with exactly that grid value set, for every i, leaving the last value set. A sweep over a grid of two or more dimensions always raises.", "quantifier": "every grid", "why_tests_cant": "all grid shapes", "anchors": ["SQcircuit/sweep.py:Sweep.sweepFlux", "SQcircuit/sweep.py:Sweep.sweepCharge"]}
{"id": "C57", "title": "Printed Hamiltonian", "statement": "The symbolic Hamiltonian printed by description() should denote the same operator as the circuit Hamiltonian. The charge part uses the first mode number twice, so cross terms of two different charge modes are wrong; with at most one charge mode it is right.", "quantifier": "every number of modes", "why_tests_cant": "all sizes", "anchors": ["SQcircuit/symbolic.py:charge_mode_hamil", "SQcircuit/symbolic.py:construct_hamiltonian"]}
{"id": "C58", "title": "loop_description", "statement": "Every row shows the element that owns that B row; on a circuit without loops it raises ValueError.", "quantifier": "every circuit", "why_tests_cant": "all circuits", "anchors": ["SQcircuit/texts.py:HamilTxt.print_loop_description"]}
{"id": "C59", "title": "Phase-space wavefunctions", "statement": "The wavefunction of level n of a harmonic mode should be the normalised Hermite function. From n=250 on the code uses a different formula whose value at phase 0 is 0 for even n, where the true value is not 0.", "quantifier": "every level n and phase", "why_tests_cant": "all n", "anchors": ["SQcircuit/circuit.py:Circuit.eig_phase_coord"]}
{"id": "C60", "title": "Overflow-safe helper functions and default quality factors", "statement": "log_sinh(x) = log(sinh x) for every x > 0; the default capacitor Q is 1e6 at 6 GHz, positive and decreasing in |omega|; the default inductor Q equals 500e6 K0(a)sinh(a)/(K0(b)sinh(b)) and is 5e8 at 0.5 GHz.", "quantifier": "every positive real", "why_tests_cant": "all reals", "anchors": ["SQcircuit/functions.py:log_sinh", "SQcircuit/elements.py:Capacitor._default_q_cap", "SQcircuit/elements.py:Inductor._default_q_ind"]}
{"id": "C61", "title": "Decoherence rates are symmetric in the two states", "statement": "dec_rate with total=True gives the same value for (m,n) and (n,m), is the sum of the two directed rates, and is non-negative for positive element values and quality factors.", "quantifier": "every circuit and state pair", "why_tests_cant": "all circuits", "anchors": ["SQcircuit/circuit.py:Circuit.dec_rate", "SQcircuit/circuit.py:Circuit.matrix_elements"]}
{"id": "C62", "title": "Gram-Schmidt", "statement": "The selected basis is orthonormal and spans every processed row up to the tolerance; the selected indices are distinct.", "quantifier": "every matrix", "why_tests_cant": "all matrices", "anchors": ["SQcircuit/circuit.py:Circuit._independent_rows"]}
{"id": "C63", "title": "Flux quanta in junction loops", "statement": "Raising the external flux of a loop by a whole number of flux quanta leaves every entry of the Hamiltonian unchanged when the loop enters the junctions with integer weights and no inductor.", "quantifier": "every circuit, loop, number of quanta and flux distribution with integer junction weights", "why_tests_cant": "all circuits, fluxes and integers", "anchors": ["SQcircuit/circuit.py:Circuit._get_external_flux_at_element", "SQcircuit/circuit.py:Circuit._get_inductive_hamil"]}
{"id": "C65", "title": "Eigenfrequency gradient", "statement": "The number get_partial_omega reports is the derivative of the m-th eigenfrequency of the circuit Hamiltonian (minus that of the ground state when asked) along any differentiable family of normalised eigenpairs through the stored ones, for every loop and junction and after every history of calls; _get_partial_omega_mn is the difference of two such derivatives.", "quantifier": "every circuit, loop, junction, eigenpair and history", "why_tests_cant": "finite differences check single points of single circuits", "anchors": ["SQcircuit/circuit.py:Circuit.get_partial_omega", "SQcircuit/circuit.py:Circuit._get_partial_omega_mn"]}
{"id": "C66", "title": "The charge-noise operator is the derivative of the Hamiltonian with respect to the offset", "statement": "For every charge mode, -2e times the operator built from cInvTrans and the charge operators is the derivative of the Hamiltonian with respect to the offset set by set_charge_offset, after any history of calls; and the charge dephasing rate is the sum over the islands of the sensitivity of the transition frequency to the offset times the island's noise amplitude times the low-frequency factor.", "quantifier": "all circuits, all histories of calls in which no rebuild failed, all charge modes, all differentiable eigenbranches", "why_tests_cant": "A finite difference checks one circuit at one offset and one truncation; the operator has to be the derivative for every circuit and mode.", "anchors": ["SQcircuit/circuit.py:2476-2507", "SQcircuit/torch_extensions.py:422-451", "SQcircuit/circuit.py:1381-1404"]}
{"id": "C64", "title": "Gradients with respect to capacitors and inductors", "statement": "With the coordinates and operators of the last build held fixed, the gradient reported for a placed capacitor is the derivative of the charge energy (half the quadratic form of R^T C^-1 R in the charge operators) and the one for a placed inductor is the derivative of the flux energy (half the quadratic form of S^T L S in the flux operators plus the external-flux term of every inductor), as the capacitance and susceptance matrices change with the element's value. In the NumPy engine a capacitor inside an inductor or junction is refused. After a mode was removed at construction the gradient is wrong.", "quantifier": "all circuits, all histories of calls in which no rebuild failed and no element was changed after the last build, all element values", "why_tests_cant": "A finite difference checks one circuit at one value; the mode that goes wrong after a removal has to be found by reasoning about coordinates.", "anchors": ["SQcircuit/circuit.py:2649-2775", "SQcircuit/circuit.py:743-835"]}
{"id": "C67", "title": "element_description", "statement": "element_description() prints a line for every edge in order and below it a line for each of its elements with its type, value and SI unit. For a capacitor and an inductor the number is the value in F or H; for a junction the number labelled Hz is the internal value, 2 pi times its energy over h.", "quantifier": "every dictionary of elements", "why_tests_cant": "all dictionaries and values", "anchors": ["SQcircuit/texts.py:HamilTxt.print_el_description", "SQcircuit/elements.py:Junction.get_value"]}
{"id": "C68", "title": "Gradients of the dephasing rates", "statement": "For every loop and every junction of a circuit, the gradients of the flux, critical-current and charge dephasing rates computed by the PyTorch engine (partial_flux_dec, partial_cc_dec, partial_charge_dec) are the derivatives of the rates that dec_rate reports, when all levels were computed, the two levels follow differentiable branches and no term is at a sweet spot. When only the first K levels were computed and eps was added to the denominators, as the code does, the derivative of each rate is the reported one plus exactly the terms of the sum over states that were left out or changed. partial_squared_omega is the sum-over-states formula for the second derivative over the computed levels; with fewer levels exactly the terms of the missing ones are left out. At a sweet spot the reported term is 0 while the rate has a kink. The backward pass multiplies each derivative with the incoming gradient, which is the chain rule.", "quantifier": "all circuits, all histories of calls without a failed rebuild, all loops and junctions, all pairs of levels, all noise amplitudes, all phases the eigensolver may return at each parameter value", "why_tests_cant": "A finite difference checks one circuit at one point and is blind to the arbitrary phases of the eigenvectors at neighbouring points; the statement is about every circuit and every choice of phases.", "anchors": ["SQcircuit/torch_extensions.py:286-383", "SQcircuit/torch_extensions.py:493-657", "SQcircuit/torch_extensions.py:697-827", "SQcircuit/torch_extensions.py:896-1016"]}
{"id": "C69", "title": "Diagonalisation in the PyTorch engine", "statement": "When diag() in the PyTorch engine returns, it returns the frequencies and eigenvectors the NumPy engine returns for the same circuit, and leaves the circuit in the same state. It raises what the NumPy engine raises. It returns exactly when the NumPy engine does, at least two levels of at least two entries were computed and safecopy succeeds; with a single level it raises after replacing the stored results, though the NumPy engine returns that level. The context kept for the backward pass consists of new objects only that show the same circuit, with the same Hamiltonian and results, and no existing object is changed.", "quantifier": "all circuits, all eigensolvers, all histories of unit settings, all numbers of levels", "why_tests_cant": "Tests compare the engines on a few circuits; the statement covers every circuit, solver answer and unit, and every point at which the call can fail.", "anchors": ["SQcircuit/circuit.py:1938-2049", "SQcircuit/torch_extensions.py:22-43", "SQcircuit/torch_extensions.py:134-207"]}
{"id": "C70", "title": "Gradients of eigenvalues and eigenvectors", "statement": "The backward pass of EigenSolver computes from the copy in the context what it would compute from the circuit at the time of diag(), whatever has been done to the components of the circuit since. For every loss that depends on the first M levels, and possibly on the value of the component itself, but not on the phases of the eigenvectors: its entry for a loop or a junction, plus the gradient that reaches the component without passing through diag(), plus exactly the part of the eigenvectors' response that belongs to levels not computed, to the epsilon in the denominators and to levels beyond set_max_eigenvector_grad, is the derivative of the loss by the value of that component. With all levels and no epsilon nothing is missing; for a loss of the eigenvalues alone the entry is always the derivative.", "quantifier": "all circuits, all histories of calls without a failed rebuild, all loops and junctions, all differentiable losses, all phases the eigensolver may return at each parameter value", "why_tests_cant": "A finite difference checks one loss at one point and is blind to the arbitrary phases of the eigenvectors at neighbouring points.", "anchors": ["SQcircuit/torch_extensions.py:209-279", "SQcircuit/circuit.py:get_partial_omega", "SQcircuit/circuit.py:get_partial_vec"]}
{"id": "C71", "title": "Stored operators: half-angle identity, op() and charge_op()", "statement": "After hamiltonian() the stored cos(X) and sin(X/2) of a junction that couples to no charge mode satisfy 2 sin(X/2)^2 = 1 - cos X. In a circuit whose modes are all charge modes the stored sin(X/2) is instead the number sin(phi_ext/2) times the identity, so for a transmon no flux makes the identity true and the quasiparticle decay rate between orthogonal states is always 0. op('sin_half') returns in the PyTorch engine, for any values of the loops, what the NumPy engine returns after hamiltonian() with these values; for an unknown junction it raises. charge_op returns the charge operator of the requested mode (modes count from 1) or its matrix elements between the computed eigenstates, ValueError for another basis and CircuitStateError before set_trunc_nums; mode 0 and negative modes count from the last instead of raising.", "quantifier": "all circuits, all histories of calls without a failed rebuild, all junctions, modes and truncations, all values of loops and offsets; displacement operators are any unitary operators for which half the amplitude gives a square root", "why_tests_cant": "The rate of a transmon is an unremarkable 0 in any test; the identity must hold for every circuit and every truncation.", "anchors": ["SQcircuit/circuit.py:1673-1714", "SQcircuit/circuit.py:1759-1829", "SQcircuit/circuit.py:1831-1936", "SQcircuit/circuit.py:2619-2631"]}
{"id": "C72", "title": "Gradients of the relaxation rates", "statement": "In the PyTorch engine the capacitive, inductive and quasiparticle rates reported by dec_rate between two different levels are differentiable functions of the value of a loop or a junction, of the frequencies and of the eigenvectors, whenever the quality factors or admittances are differentiable at the transition frequency and the thermal weight is not at the frequency where the code cuts the exponential off. What PyTorch then accumulates for the loop or junction (the direct gradient through the value and the half-angle operator, plus the entry of EigenSolver's backward pass), plus exactly the part of the eigenvectors' response that backward leaves out, is the derivative of the reported rate; with all levels and no epsilon it is the derivative itself.", "quantifier": "all circuits, all histories of calls without a failed rebuild, all loops and junctions, all pairs of simple levels, all differentiable quality factors and admittances, all temperatures, total or not", "why_tests_cant": "A finite difference of a rate at one point of one circuit mixes the truncated sum, the epsilon and the arbitrary phases of the eigenvectors; the statement separates them exactly for every circuit.", "anchors": ["SQcircuit/circuit.py:2529-2631", "SQcircuit/circuit.py:1890-1936", "SQcircuit/torch_extensions.py:209-279"]}
{"id": "C73", "title": "Special functions of the PyTorch engine and slopes of the default quality factors", "statement": "K0eSolver and LogK0Solver compute e^x K0(x) and ln K0(x), and the gradients they return are the derivatives of these. maximum and minimum are the larger and the smaller argument, with the gradient going to the argument that is returned (where the two differ). round to a decimals is within half a unit of the last decimal and agrees with the NumPy engine's. The default quality factors of capacitors and inductors and the default admittance of junctions are differentiable functions of the frequency for every positive frequency and temperature, with logarithmic slopes -0.7/w, (hbar/2kT) (K1/K0(z) - coth z) and -(hbar/2kT) (K1/K0(z) - coth z) - 1/w (z = hbar w/2kT), so they meet the premises of C72.", "quantifier": "all positive arguments, all frequencies and temperatures > 0; K0, K1 any positive functions with K0' = -K1, kve their scaled versions", "why_tests_cant": "A test compares with a finite difference at some points with limited precision; the identity holds at every point.", "anchors": ["SQcircuit/functions.py:47-74", "SQcircuit/functions.py:95-98", "SQcircuit/functions.py:129-182", "SQcircuit/elements.py:229-236", "SQcircuit/elements.py:380-392", "SQcircuit/elements.py:579-600"]}
{"id": "C74", "title": "Hamiltonian of a system and Hamiltonian of the whole circuit", "statement": "For circuits coupled by capacitors, System.hamiltonian() is the matrix of the Hamiltonian of the whole circuit between products of the kept levels, less the terms that leak: for a pair of charges of the same circuit the code multiplies after restricting to the kept levels. The whole Hamiltonian is the sum of the circuits' Hamiltonians and 1/2 sum_ij A_ij Q_i Q_j on the product of the full spaces. A is symmetric, and A plus the circuits' own charging energies is R^T C^-1 R with C the capacitance matrix of the whole. The two agree if all levels are kept. What leaks between a charge and itself is the squared length of the part of Q v outside the kept levels, never negative and zero only if that part is zero. In general the two do not agree.", "quantifier": "all systems of any number of diagonalised circuits without removed modes, all couplings, all level numbers, all pairs of product states", "why_tests_cant": "A test compares energies of one system with one truncation; where they differ it cannot tell truncation error of the levels from an error in the formula.", "anchors": ["SQcircuit/systems.py:160-187", "SQcircuit/systems.py:189-294", "SQcircuit/systems.py:296-327"]}
{"id": "C75", "title": "Matrix operations on tensors, qutip objects and arrays", "statement": "qobj_to_tensor, dense, to_numpy and mat_to_op keep shape and entries (an unknown data layer gives ValueError). dag is the conjugate transpose of tensors and qutip objects and the conjugate of vectors; of a two-dimensional numpy array it raises ValueError. In the PyTorch engine mat_mul(A, B) is the matrix product except if A is a tensor and B a qutip object: then it is the transpose of B A where that is defined and RuntimeError where it is not. In the NumPy engine it is the product of two qutip objects. operator_inner_product is <v|A|w> in both engines. tensor_product_torch is the Kronecker product from left to right, as qutip's, and no value for an empty list.", "quantifier": "all shapes, all entries, all data layers, both engines", "why_tests_cant": "Tests call these with symmetric or diagonal operators of a few sizes, for which a wrong order of factors or a missing transposition is not seen.", "anchors": ["SQcircuit/functions.py:226-306", "SQcircuit/functions.py:355-411"]}
{"id": "C76", "title": "Listing printed by description()", "statement": "Every symbol of the printed Hamiltonian that stands for a number (frequency, gate charge, charging, inductive and Josephson energy, external flux) is given a number in the listing, none twice, and the phase operator of every harmonic mode that occurs is explained. Every listed frequency, gate charge and energy occurs in the Hamiltonian. Every number is the exact value up to its rounding: 1e-5(1+|f|) for frequencies, 0.5% for zero-point fluctuations, 0.0005 for energies and gate charges, 0.005 for fluxes. The text has one line for the Hamiltonian, a rule, a line for every mode with its number and kind, a rule, and the lines of parameters and loops. A type other than 'ltx' and 'txt' raises ValueError whatever the circuit. Circuits whose gate charges and fluxes agree after rounding give the same text; their Hamiltonians can differ.", "quantifier": "all circuits, all printers that write an equation on one line", "why_tests_cant": "Tests compare the text of some circuits with stored text; they do not say that no symbol is left unexplained or how far a number may be off.", "anchors": ["SQcircuit/texts.py:49-154", "SQcircuit/circuit.py:1188-1297"]}
{"id": "C77", "title": "Gradients of the parameters", "statement": "In the PyTorch engine, after an update and until a component is given another tensor or flag, parameters, parameters_dict, parameters_elems, get_params_type and parameters_grad show every component whose value requires grad or is computed from other tensors, once, in the order of construction, with current value, type and gradient. zero_grad clears the gradients of exactly these; zero_grad followed by backward gives gradients that do not depend on earlier ones, equal to the derivatives when each parameter is a leaf with its own tensor. parameters_grad is a stacked tensor when every parameter is a leaf, a list with None for each computed parameter, and raises RuntimeError without parameters. set_value and set_flux with a number, and tensors without gradients assigned to .parameters, remove components from the parameters; afterwards any list is accepted. Gradients do not reach a tensor passed as value of an element, and zero_grad does not clear the tensors from which parameters are computed, nor a component changed since the last update. In the NumPy engine all of this raises ModeError.", "quantifier": "all circuits, all sequences of calls", "why_tests_cant": "Tests run one optimisation step of some circuits; stale dictionaries and accumulated gradients need particular orders of calls.", "anchors": ["SQcircuit/elements.py:26-87", "SQcircuit/elements.py:660-672", "SQcircuit/circuit.py:397-440", "SQcircuit/circuit.py:498-591"]}
{"id": "C78", "title": "Constructors of the elements", "statement": "A constructor raises exactly what setting the value raises. The new object has the value, the attribute Q (Y for junctions), the loops and the identifier given or the defaults; without a capacitor an inductive element gets one of its own of 1e-20 F without loss, never shared. The string 'default' stands for the default function; for capacitors and inductors a Python number stands for the constant function and every other object is kept as it is; junctions keep numbers too. With attributes that can be called the three loss rates are those of C61; otherwise inductive and quasiparticle rates raise TypeError: Q=None is accepted by capacitors (no loss) but breaks the rate of an inductor, a number as Y that of a junction. Default identifiers agree exactly when type, printed value and unit agree, and keep naming the old value after set_value.", "quantifier": "all arguments, all circuits, all pairs of states", "why_tests_cant": "Tests construct elements with a few kinds of arguments and do not compute every rate with each.", "anchors": ["SQcircuit/elements.py:89-105", "SQcircuit/elements.py:136-167", "SQcircuit/elements.py:235-244", "SQcircuit/elements.py:280-323", "SQcircuit/elements.py:462-507", "SQcircuit/circuit.py:2594-2631"]}
{"id": "C79", "title": "Reversal of the external fluxes and of the gate charges", "statement": "Reversing the flux of every loop conjugates the Hamiltonian up to a sign for states with an odd number of photons; reversing fluxes and gate charges exchanges the charge states N and -N. So the four bias points (±flux, ±charge) have the same energies, and their states follow from one another by maps that are their own inverses and keep overlaps up to conjugation. Matrix elements of branch charges and of the cosines are conjugated, those of branch fluxes, of the sines and of the sines of half the phase are conjugated and change sign. All six decoherence rates of a circuit are the same at reversed fluxes. The premises on the displacement operators hold for the exponential of the truncated generator, and those on the inductors for charge modes without inductive energy.", "quantifier": "all circuits, all loop fluxes and gate charges, all truncations, all junctions and inductors, all pairs of levels and all six types of decoherence", "why_tests_cant": "Tests compute spectra at a few fluxes, mostly of one sign; equality on all circuits and truncations, including the signs of the matrix elements, cannot be sampled.", "anchors": ["SQcircuit/circuit.py:1560-1619", "SQcircuit/circuit.py:1621-1714", "SQcircuit/circuit.py:1731-1829", "SQcircuit/circuit.py:2147-2164", "SQcircuit/circuit.py:2456-2647"]}
{"id": "C80", "title": "Energies against the numbers of charge states and the gate charges", "statement": "The matrix elements of the Hamiltonian depend on the charges of the islands only relative to the gate charges: two circuits that differ in gate charges and truncation numbers of charge modes have equal matrix elements between states with equal relative charges. Every Hamiltonian has one and only one list of energies in ascending order. Adding charge states never raises an energy, level by level. Raising gate charges by whole Cooper pairs, with as many further charge states, never raises one either, so the energies at raised gate charges lie between those of the smaller and of the larger truncation: the spectrum is periodic in the gate charges up to truncation. set_trunc_nums and set_charge_offset make exactly these changes.", "quantifier": "all circuits, all gate charges and whole shifts of them, all truncation numbers of the charge modes, all levels", "why_tests_cant": "Tests compare a few energies of converged transmons with stored numbers; the bound holds for each level of every circuit at every truncation, which sampling cannot show.", "anchors": ["SQcircuit/circuit.py:1340-1379", "SQcircuit/circuit.py:1381-1404", "SQcircuit/circuit.py:1471-1499", "SQcircuit/circuit.py:1529-1619", "SQcircuit/circuit.py:1731-1829", "SQcircuit/circuit.py:2147-2164"]}
{"id": "C81", "title": "Matrix elements of the branch operators", "statement": "matrix_elements raises CircuitStateError before a diagonalisation, then IndexError for a state that was not computed (negative numbers count from the end), then ValueError for an unknown type. In every session that ends in a diagonalisation it returns <m|A|n> with A the operator of the branch charge or of the branch flux at the present settings. Exchanging the states conjugates it, exchanging the nodes changes its sign, and along a path of nodes the matrix elements add up.", "quantifier": "all circuits and sessions, both coupling types, all nodes and states", "why_tests_cant": "The tests call matrix_elements for one circuit; which operator is read after any sequence of setter calls, and the order of the errors, needs all sessions.", "anchors": ["SQcircuit/circuit.py:2314-2395", "SQcircuit/circuit.py:2397-2434"]}
{"id": "C82", "title": "Energies move continuously with fluxes and junction energies", "statement": "Between two settings with the same inductors (values and external fluxes) every energy moves at most by the sum over the junctions of |EJ - EJ'| + |EJ| |phi - phi'|. So the slope of an energy in the flux of a loop is at most the sum of |EJ B| over the junctions, and the junctions together move an energy at most by the sum of |EJ| from its value without them. The same holds between two calls of hamiltonian() in any session.", "quantifier": "all circuits, all truncations, all fluxes and junction energies, all levels", "why_tests_cant": "A sweep samples finitely many fluxes of a few circuits; a bound on every level between any two settings is a statement about infinitely many spectra.", "anchors": ["SQcircuit/circuit.py:1529-1619", "SQcircuit/circuit.py:1759-1829", "SQcircuit/circuit.py:2147-2164"]}
{"id": "C83", "title": "Displacement operators are the exponentials of the mode fluxes", "statement": "The series for qt.displace(m, a), the exponential of a a+ - conj(a) a on m levels, converges for all m and a and has one limit. The operators are unitary, those of opposite amplitude are inverse, those along a line of amplitudes multiply, and the one of half the amplitude is a square root. The exponential of a junction phase is the shift of the charges times the matrix exponential of i times the phase, the sum over the harmonic modes of the phase per flux times the weight of the mode times its flux operator. So the half-angle identity of C71 and the bounds of C82 hold for the matrix exponential without further premise.", "quantifier": "all numbers of levels, all amplitudes, all circuits, junctions and sessions", "why_tests_cant": "Convergence of a matrix series and identities between limits for every dimension and amplitude cannot be sampled.", "anchors": ["SQcircuit/circuit.py:1585-1619", "SQcircuit/circuit.py:1673-1714"]}
{"id": "C84", "title": "diag returns the lowest energies", "statement": "If the eigensolver keeps its promise (the k eigenvalues of smallest real part, each as often as it occurs, in any order), the frequencies stored and returned are the k lowest energies of the Hamiltonian of the present settings, ascending, in the chosen unit; such a solver exists for every Hermitian matrix. No state has less energy than the first. More charge states lower all returned frequencies, other fluxes and junction energies move them at most by the bound of C82, and the four reversed bias points of C79 give the same numbers.", "quantifier": "all circuits, sessions, numbers of eigenvalues, eigensolvers that keep the promise", "why_tests_cant": "Tests compare a few spectra with stored numbers; that no lower level is missed and how all levels move needs all Hamiltonians.", "anchors": ["SQcircuit/circuit.py:1938-1986", "SQcircuit/circuit.py:2016-2049"]}
{"id": "C85", "title": "Energies against the numbers of photon states", "statement": "For junctions that act on charge modes only (any linear circuit), more photon states and more charge states lower every energy or leave it. In any circuit no energy rises by more than twice the sum of the energies of the junctions on harmonic modes. It can rise: one mode with one junction has lowest energy -EJ with one photon state and -EJ cos r with two, r the zero-point phase, so the expectation that the truncated spectrum is variational is refuted.", "quantifier": "all circuits, truncation numbers, gate charges, fluxes", "why_tests_cant": "A convergence test tries a few truncations of one circuit; the bound and its failure concern all.", "anchors": ["SQcircuit/circuit.py:1471-1527", "SQcircuit/circuit.py:1673-1714", "SQcircuit/circuit.py:1731-1829"]}
{"id": "C86", "title": "Node numbers and the choice of ground", "statement": "Renumbering the nodes of the circuit dictionary, ground included, gives a circuit with the same capacitive and inductive energy for any node potentials, the same determinants, the same singular values and the same mode frequencies; without a change of ground C and L carry the same entries at the new places. Every junction and inductor keeps its row of B and W, and the branch phase its value up to the sign of its edge. The constructor takes the node count from the last edge, so it can fail after a renumbering of a circuit it accepts.", "quantifier": "all circuit dictionaries, renumberings, potentials, square roots and singular value decompositions", "why_tests_cant": "A test compares one pair of numberings of one circuit.", "anchors": ["SQcircuit/circuit.py:78-113", "SQcircuit/circuit.py:299", "SQcircuit/circuit.py:743-835", "SQcircuit/circuit.py:902-939", "SQcircuit/circuit.py:1178"]}
{"id": "C87", "title": "How the external flux is shared does not change the energies of a circuit of charge modes", "statement": "External phases that differ by angles of the charge modes (and whole turns) give Hamiltonians that differ by phases of the charge states, hence the same energies. Any two of the settings 'all', 'junctions' and 'inductors' give shares of each loop's flux that differ by the branch variables of some node variables. So for a circuit whose modes are all charge modes and that has no inductor the energies do not depend on the setting; with the shares rounded to five decimals they differ by at most 1e-5 of the Josephson energies per unit of flux, and so do the frequencies diag returns. With an inductor and a truncated harmonic mode they do depend on it.", "quantifier": "all circuits, settings, fluxes, gate charges, truncations and correct singular value decompositions", "why_tests_cant": "A test compares the settings of one circuit at one flux, within a tolerance.", "anchors": ["SQcircuit/circuit.py:743-835", "SQcircuit/circuit.py:1552-1583", "SQcircuit/circuit.py:1759-1829"]}
{"id": "C88", "title": "Energies scale with the parameters of the circuit", "statement": "Dividing every capacitance and inductance of a circuit by a positive number and multiplying every Josephson energy by it divides the capacitance matrix, multiplies the inverse inductance matrix, leaves the branch matrix, the tables of elements and the shares of the external flux as they are, multiplies the singular values and the mode frequencies by it, and in the same coordinates multiplies the Hamiltonian, its energies and the frequencies diag returns by it.", "quantifier": "all circuits, positive factors, fluxes, gate charges, truncations, correct square roots, decompositions and eigensolvers", "why_tests_cant": "A test rescales one circuit by one factor and compares floating-point frequencies.", "anchors": ["SQcircuit/circuit.py:743-835", "SQcircuit/circuit.py:902-939", "SQcircuit/circuit.py:1455-1527", "SQcircuit/circuit.py:1731-1829"]}
{"id": "C89", "title": "Parts of a circuit that do not act on each other", "statement": "If the modes form two groups without capacitive coupling and every junction acts on one group only, the Hamiltonian is the Hamiltonian of the first group on the first factor plus that of the second on the second, for any truncation numbers, gate charges, fluxes and inductors. Its energies are exactly the sums of an energy of the one and an energy of the other in ascending order; the lowest is the sum of the two lowest and the first excitation is the smaller of the two first excitations; diag returns the first of these sums.", "quantifier": "all circuits, groupings, truncations, fluxes, gate charges and correct eigensolvers", "why_tests_cant": "A test compares one pair of circuits with their union at one truncation, within a tolerance.", "anchors": ["SQcircuit/circuit.py:1621-1757", "SQcircuit/circuit.py:1788-1829", "SQcircuit/circuit.py:2147-2256", "SQcircuit/functions.py:248-265"]}
{"id": "C90", "title": "Circuits of one node from their elements", "statement": "For any list of elements between one node and ground, what construction, the transformations and hamiltonian() compute is the textbook Hamiltonian in rad/s. Without inductors: (2e)^2/(2C hbar) (n - ng)^2 minus the sum of E_J cos(phi + phase_J) in the charge basis, C the sum of the capacitances, whatever inverse, roots, singular values and random numbers numpy returns. With inductors: a+ a / sqrt(L C) with 1/L the sum of the inverse inductances, plus (Phi0/2pi) phase_L / L times the flux of zero-point value sqrt(hbar/2 sqrt(L/C)), minus the junctions as displacement operators of the zero-point phase, up to the sign of the mode; a circuit with junctions whose zero-point phase is below 1e-11 is excluded (the mode is removed).", "quantifier": "all element lists, values, fluxes, gate charges, truncation numbers and correct linear algebra routines", "why_tests_cant": "A test computes one transmon or fluxonium at one setting within a tolerance.", "anchors": ["SQcircuit/circuit.py:315-345", "SQcircuit/circuit.py:743-835", "SQcircuit/circuit.py:837-1186", "SQcircuit/circuit.py:1455-1829", "SQcircuit/circuit.py:2147-2164"]}
{"id": "C91", "title": "Plotting, saving and loading sweeps", "statement": "SQdata.plot shows a figure exactly when there is a frequency table of at most two dimensions whose rows suffice for numEig curves and whose columns match the first axis (or no curve is asked for); curve i has the points (x_j, f_i(x_j) - f_0(x_j)). A sweep over one axis with plotF=True ends as without it and its figure has the frequencies that each grid value, set by itself, gives. save followed by load, whatever happened in between, gives the object as it was at the save: equal tables, grid and parameters, a circuit with the same values and sharing but components of its own, on which every session of calls and (without losses) every further sweep gives the same results. toFile makes the sweep return None; an unwritable file is noticed only after the sweep; plotting a grid of two axes with one empty raises before the file is written; SQdata without a sweep cannot be plotted; a saved picklecopy comes back without its operators. Loading a file twice gives two independent sets of components, and there is room for decay rates exactly when losses were asked for, through every sweep, save and load. A sweep that raises half-way is not undone: the object keeps the table as far as it was filled, and circuit and loops stay where it stopped.", "quantifier": "all data objects, grids, heaps, files, sessions, eigensolver answers", "why_tests_cant": "The tests load a few stored sweeps and compare numbers; save, plot and toFile are not called.", "anchors": ["SQcircuit/storage.py:9-51", "SQcircuit/sweep.py:26-109", "SQcircuit/sweep.py:111-148", "SQcircuit/circuit.py:442-462"]}
{"id": "C92", "title": "Matrices made by the engine wrappers", "statement": "block_diag returns exactly for arguments of at most two dimensions that are not sparse (tensors in the PyTorch engine), and then has the arguments along its diagonal (vectors as rows) and zeros elsewhere; for square blocks it is the matrix systems are built from. On the same numbers the two engines give the same numbers or both raise, for block_diag, diag, mat_inv, copy and (real) array; diag of diag of a vector is the vector; eye, zeros and zero have their entries. sort returns a pair in PyTorch; copy, diag and block_diag refuse objects of the other engine; array drops imaginary parts in PyTorch only. Without blocks block_diag returns a matrix of one row and no column; sparse tensors have no inverse and are refused by NumPy, and qutip objects make no tensors.", "quantifier": "all objects, shapes, entries and lists of blocks", "why_tests_cant": "Tests call the wrappers with a few matrices through larger computations and in one engine at a time.", "anchors": ["SQcircuit/functions.py:189-222", "SQcircuit/functions.py:241-245", "SQcircuit/functions.py:268-271", "SQcircuit/functions.py:339-360"]}
{"id": "C93", "title": "Normal modes and circuits without junctions", "statement": "If the modes treated as charge modes have singular value zero, the mode frequencies left by the transformations are the resonances of the capacitors and inductors, each as often as it occurs: det(L - x C) = det C times the product of (w_i^2 - x). Hence two computations with any correct matrix roots, decompositions, orderings and random numbers give the same frequencies up to their order. Column i of S is an oscillation at w_i: L s = w_i^2 C s; fluxes without inductive energy are exactly those without amplitude in the modes of non-zero frequency. For a circuit without junctions and without external flux hamiltonian() is diagonal at every truncation, with entries sum_i w_i n_i plus half the sum of cI_ij q_i q_j over the charge modes, q = 2e (N - ng)/sqrt(hbar), and diag() returns the lowest of these energies, in ascending order and with multiplicity.", "quantifier": "all circuits, matrices, frames, gate charges, truncation numbers, correct linear algebra routines and eigensolvers", "why_tests_cant": "A test compares a few frequencies of one LC network within a tolerance; it cannot show that no choice made inside numpy matters.", "anchors": ["SQcircuit/circuit.py:882-939", "SQcircuit/circuit.py:1123-1186", "SQcircuit/circuit.py:1716-1808", "SQcircuit/circuit.py:2016-2076", "SQcircuit/circuit.py:2147-2164"]}
{"id": "C94", "title": "Losses of one quality factor", "statement": "In a circuit with a mode for every node, for any two states v, w: the sum over all capacitors (also those of inductors and junctions) of C |<v|Q across|w>|^2 equals sum_ij cI_ij Re(<v|Q_i|w> conj <v|Q_j|w>), and, if the charge modes have singular value zero, the sum over all inductors of |<v|phi across|w>|^2 / L equals the same form of lTilde in the mode fluxes. If v and w are product states that differ by one photon in a harmonic mode i, either sum is w_i n / 2 with n the larger number of photons; if no harmonic mode differs by exactly one photon (alone), both are zero. Hence, when all capacitors (all inductors) have the quality factor Q at the transition frequency, dec_rate of the capacitive (inductive) losses after any calls that change no element is thermal weight times that form over Q, and for a transition of one photon w_i n (n_th + 1)/Q down and w_i n n_th/Q up, the same for capacitive and inductive losses, whatever the circuit.", "quantifier": "all circuits, sessions, truncation numbers, states, temperatures, correct matrix roots and decompositions", "why_tests_cant": "Tests compare a rate with a stored number for one circuit; the equality of the two sums involves every element of every circuit.", "anchors": ["SQcircuit/circuit.py:2314-2434", "SQcircuit/circuit.py:2573-2618", "SQcircuit/circuit.py:882-939"]}
{"id": "C95", "title": "Sweet spots and selection rules", "statement": "At a still bias (no external flux across any inductor, a whole number of half flux quanta across every junction) a level that is alone at its energy is its own time reversal up to a phase, whatever the gate charges; without gate charges it is even or odd under the reflection of all modes. Between levels of the same parity the matrix elements of every mode charge, branch charge, branch flux and junction sine vanish, between levels of different parity those of every junction cosine. Hence for levels alone at their energies at a still bias the derivative of the transition frequency by every loop flux and the dephasing rate by flux noise are zero, without gate charges also the dephasing rate by charge noise; capacitive and inductive losses between levels of the same parity are zero, and without external flux also quasiparticle losses.", "quantifier": "all circuits without flux modes of singular value zero in their inductors, element values, truncation numbers, levels, temperatures above zero, qualities", "why_tests_cant": "Tests evaluate rates at a few numerically chosen bias points where a rate of exactly zero is indistinguishable from a small one.", "anchors": ["SQcircuit/circuit.py:2436-2505", "SQcircuit/circuit.py:2510-2642", "SQcircuit/circuit.py:2849-2873"]}
{"id": "C96", "title": "Systems whose circuits are diagonalised again", "statement": "Every sum of operators in System.hamiltonian is of operators with equal tensor dimensions as long as the circuits have the numbers of levels they had when the System was made; then the Hamiltonian has these dimensions. If the circuits changed since (values, fluxes, a new diag()) but kept their numbers of levels, or if the System has a single circuit, the Hamiltonian (or the error) is that of a System made anew from the same couplings. If it has two or more circuits and one of them now has another number of levels, hamiltonian() raises TypeError; so it does after any diag() of one of its circuits that returns another number of levels.", "quantifier": "all systems, circuits, couplings, element values, units and numbers of levels before and after", "why_tests_cant": "Tests build each System once from freshly diagonalised circuits.", "anchors": ["SQcircuit/systems.py:66-107", "SQcircuit/systems.py:189-327"]}
{"id": "C97", "title": "More capacitance lowers the energies", "statement": "The capacitance matrix grows, as a quadratic form, with the capacitances, and its inverse shrinks. Hence for two circuits built from one netlist of junctions and capacitors, all of whose modes are islands in the same coordinates with the same charge states, gate charges and junction phases, if no edge of the first has more capacitance than in the second, every energy of the second is at most the corresponding energy of the first. For one node this holds for every construction, whatever the numerical library returns for the decompositions. In every circuit the ground energy is a concave function of the energies of the junctions. A lone capacitor without junction is an exception in that its energies do not depend on the capacitance: they are those of one farad.", "quantifier": "all netlists, element values, gate charges, truncation numbers, external fluxes, levels, call sequences that change no element", "why_tests_cant": "Tests compare the energies of single circuits with stored numbers; an order between the energies of all pairs of circuits cannot be enumerated.", "anchors": ["SQcircuit/circuit.py:743-835", "SQcircuit/circuit.py:1731-1757", "SQcircuit/circuit.py:2147-2165"]}
{"id": "C98", "title": "Elements in parallel", "statement": "What an edge contributes to a circuit is a sum over its elements. The capacitance and susceptance matrices, the junction matrix and the number of junction edges without inductor depend on an edge only through its total capacitance, its total inverse inductance and whether it has junctions and inductors; the Hamiltonian depends on its junctions only through the sum of E_J e^(i phase) and on its inductors only through the sum of phase over L. Hence two netlists with the same edges and the same sums have the same modes, Hamiltonian and energies after any sequence of calls that changes no element. Two equal junctions in parallel act as one of energy 2 E cos of half the phase difference (a SQUID), two different ones as one whose squared energy is E^2 + F^2 + 2 E F cos of the phase difference. For one node with junctions and capacitors the energies depend on the junctions only through the modulus of that sum, whatever the flux distribution, the loops and the numerical decompositions.", "quantifier": "all netlists, element values, numbers of elements per edge, loops, external fluxes, truncation numbers, gate charges, call sequences that change no element", "why_tests_cant": "Tests compare a few circuits with stored spectra; that no other property of an edge enters quantifies over all pairs of netlists.", "anchors": ["SQcircuit/circuit.py:743-835", "SQcircuit/circuit.py:1731-1757", "SQcircuit/circuit.py:2147-2165"]}
{"id": "C99", "title": "Sums of the energies", "statement": "The energies of a Hamiltonian add up to its diagonal and their squares to the squared moduli of its entries. If every junction moves charge on some island and no inductor is biased by an island, the sum of all energies is the sum, over all states, of the energies of their photons and charges; hence for a circuit after any sequence of calls that changes no element it does not depend on the energies of the junctions, on loops or on external fluxes. For one node with junctions and capacitors the sum of all squared energies is that of the charging energies plus (m-1)/2 times the squared effective Josephson energy, so that two such circuits with the same capacitance, gate charge and m >= 2 charge states have the same energies exactly when the moduli of their sums of E_J e^(i phase) agree.", "quantifier": "all netlists, element values, loops, external fluxes, truncation numbers, gate charges, call sequences that change no element, decompositions returned by the numerical library", "why_tests_cant": "Tests look at the lowest few energies of fixed circuits; the sums run over all energies and hold for all element values and fluxes.", "anchors": ["SQcircuit/circuit.py:1552-1583", "SQcircuit/circuit.py:1673-1714", "SQcircuit/circuit.py:1731-1757", "SQcircuit/circuit.py:2147-2165"]}
{"id": "C100", "title": "Distinct energies and ground state of an island", "statement": "For one node with junctions and capacitors whose sum of E_J e^(i phase) is not zero, all energies are distinct, so the frequencies diag() returns are strictly ascending; every energy level holds the lowest and the highest charge state; the ground state holds every charge state, and between neighbouring charges it has exactly the phase that gains the junctions' energy. If the sum is zero, the energies are the charging energies in ascending order; then they need not be distinct: two equal junctions with half a flux quantum between them and no gate charge have equal second and third energies.", "quantifier": "all sets of junctions and capacitors between one node and ground, external fluxes, gate charges, numbers of charge states, decompositions returned by the numerical library, eigensolvers that return the lowest energies", "why_tests_cant": "Tests compare a few frequencies with stored values; that none coincide, for any element values, cannot be sampled.", "anchors": ["SQcircuit/circuit.py:1552-1583", "SQcircuit/circuit.py:1731-1757", "SQcircuit/circuit.py:2147-2165", "SQcircuit/circuit.py:1938-1986", "SQcircuit/circuit.py:2016-2049"]}
{"id": "C101", "title": "External flux and the ground energy", "statement": "For a circuit of junctions and capacitors all of whose modes are charge modes, the ground energy with every loop at zero flux is at most the ground energy at any fluxes. For one node the ground energy depends on the junctions through the modulus of the sum of E_J e^(i phase): a larger modulus never raises it, and with two or more charge states lowers it strictly. So the ground energy of two junctions in a loop grows strictly with the external phase between zero and half a flux quantum.", "quantifier": "all netlists of junctions and capacitors with non-negative Josephson energies, sequences of calls that keep the modes, loop fluxes, gate charges, truncation numbers, decompositions returned by the numerical library", "why_tests_cant": "Tests sweep a few fluxes of one circuit; that no flux of any circuit lowers the ground energy cannot be sampled.", "anchors": ["SQcircuit/circuit.py:1552-1583", "SQcircuit/circuit.py:1731-1757", "SQcircuit/circuit.py:1759-1796", "SQcircuit/circuit.py:2147-2165", "SQcircuit/elements.py:661-670"]}
{"id": "C102", "title": "Currents into an island and the sum rule of its charge", "statement": "In every energy level of a circuit the mean Josephson currents E_J sin(phase) of the junctions at a charge mode, each with the direction in which it moves pairs, sum to zero. For every level k the energies E_j - E_k weighted with the squared modulus of the element <j|Q|k> of the operator charge_op() returns sum to (2e)^2/2 times the mean of E_J cos(phase) over the junctions that couple to the mode. So a transition from the ground level has a squared charge of at most (2e)^2/2 times the sum of these E_J divided by its energy.", "quantifier": "all netlists, sequences of calls, external fluxes, gate charges, truncation numbers, energy levels, charge modes, also beside harmonic modes", "why_tests_cant": "Tests compare stored frequencies; identities between all matrix elements of all levels are not sampled.", "anchors": ["SQcircuit/circuit.py:1471-1499", "SQcircuit/circuit.py:1552-1583", "SQcircuit/circuit.py:1809-1829", "SQcircuit/circuit.py:1831-1875", "SQcircuit/circuit.py:2147-2165"]}
{"id": "C103", "title": "Ground energy between two gate charges", "statement": "The gate charge of one charge mode is set to two values and to a weighted mean of them, t and 1-t the weights. The ground energy at the mean is at least the mean of the two ground energies less c(2e)^2/(2 hbar) t(1-t)(b-a)^2, where c is the inverse capacitance of the mode in its coordinates. The sum of all energies follows this parabola exactly. Nothing else in the Hamiltonian depends on the gate charge.", "quantifier": "all netlists the constructor accepts, sequences of calls with updates as documented, charge modes, pairs of gate charges, weights in [0,1], truncation numbers, decompositions returned by the numerical library", "why_tests_cant": "Tests compare energies at a few gate charges of one circuit; a bound on the curvature at every gate charge of every circuit is not visible in samples.", "anchors": ["SQcircuit/circuit.py:1381-1405", "SQcircuit/circuit.py:1473-1493", "SQcircuit/circuit.py:1731-1757"]}
{"id": "C104", "title": "Ground energy against flux on the inductors", "statement": "Where the external flux reaches only inductors, the Hamiltonian the code builds is affine in the loop fluxes: along any segment of flux values that leaves the flux at the junctions unchanged the ground energy is concave and the sum of all energies affine. If no flux reaches the junctions, the ground energy is highest with every loop at zero, at any gate charges, and the sum of all energies does not depend on the fluxes. So the reported ground energy has the opposite trend of flux placed on junctions (C101): the code leaves out the term quadratic in the flux.", "quantifier": "all netlists the constructor accepts, sequences of calls with updates as documented, loop fluxes, gate charges, truncation numbers, displacement operators with the symmetries of the exponential", "why_tests_cant": "Tests compare energies at single flux values; a trend over all fluxes of all circuits, and its dependence on where the flux is placed, is not visible in samples.", "anchors": ["SQcircuit/circuit.py:1731-1757", "SQcircuit/circuit.py:1759-1831", "SQcircuit/circuit.py:2147-2165"]}
{"id": "C105", "title": "Names of the printed symbols", "statement": "Every symbol of the Hamiltonian printed by description() has a plain and a LaTeX name. The subscripts of a charging energy in it are ordered and at most the number of modes, and with at most 110 modes two different symbols have different plain names and different LaTeX names. Symbols other than charging energies have names of their own for any number of modes. With 111 or more modes, all of them charge modes, EC_1111 names both the charging energy of modes 1 and 111 and that of mode 11.", "quantifier": "all printed Hamiltonians: numbers of modes, loops, inductors and junctions", "why_tests_cant": "Tests print circuits of a few modes; the clash of two names first appears at 111 modes.", "anchors": ["SQcircuit/symbolic.py:10-93", "SQcircuit/symbolic.py:108-117"]}
{"id": "C106", "title": "Sums of the lowest energies", "statement": "For every Hamiltonian the code builds and every k, the sum of its lowest k energies is the smallest sum of expectation values in k states of an orthonormal basis, and at most the sum of any k diagonal elements. It is concave in the Josephson energies; between two gate charges of an island it lies above the mean of the two sums less k times the charging energy of the distance; it is concave in flux that falls on inductors. Without flux at the junctions it is highest with every loop at zero, for every k, and the sum of the squares of all energies grows by the squared distance of the Hamiltonians, so energies change as soon as one matrix element does.", "quantifier": "all netlists the constructor accepts, sequences of calls with updates as documented, numbers k of levels, Josephson energies, gate charges, loop fluxes, truncation numbers, displacement operators (with the symmetries of the exponential where fluxes are reversed)", "why_tests_cant": "An inequality for all sums of levels between any two settings cannot be sampled; tests compare single levels at single settings.", "anchors": ["SQcircuit/circuit.py:1731-1757", "SQcircuit/circuit.py:1759-1831", "SQcircuit/circuit.py:2016-2066", "SQcircuit/circuit.py:2147-2165"]}
{"id": "C107", "title": "How far the energies move with a gate charge", "statement": "The Hamiltonian the code builds at gate charge p + t(q - p) of an island is fixed by those at p and q: if the step from p to q changes the energy of every state by between lo and up, then for t >= 0 every level moves by between t lo - g and t up - g, where g is the charging energy of 2e times t(1 - t)(q - p)^2. For one island with junctions and m charge states no level moves by more than (2e)^2/2C |ng' - ng| (m - 1 + |ng + ng'|), whatever the junctions and the flux.", "quantifier": "all netlists the constructor accepts, sequences of calls with updates as documented, gate charges, levels, truncation numbers, displacement operators; for the island all one-node netlists with positive total capacitance, junctions and no inductor", "why_tests_cant": "A bound for all levels and gate charges of all circuits is not visible in energies at sampled gate charges.", "anchors": ["SQcircuit/circuit.py:1381-1405", "SQcircuit/circuit.py:1473-1493", "SQcircuit/circuit.py:1731-1757"]}
{"id": "C108", "title": "Eigensolvers that answer up to a residual", "statement": "If every pair (z, v) the eigensolver answers solves the eigenvalue equation up to a residual, |Hv - zv| <= eps |v|, then every frequency diag keeps is within eps of an exact energy of the Hamiltonian, and the vector kept with it has residual at most eps with that real frequency (dropping imaginary parts does not raise it); the returned frequencies times the angular frequency of the unit are within eps of exact energies, also after any session of set-ups, updates and diagonalisations. If every other energy is at least g away from a kept frequency, the part of its vector outside the exact eigenstate has at most (eps/g)^2 of its squared length. No frequency is more than eps under the lowest energy, and if the n vectors are orthonormal the frequencies add up to at least the sum of the n lowest energies less n eps. (The solver may still miss levels: no bound from above holds.)", "quantifier": "all Hamiltonians the code builds, residuals eps, answers of the eigensolver within eps (also on the second attempt), sorting routines that sort, frequency units", "why_tests_cant": "Tests compare with stored numbers of one ARPACK run; what an inexact answer may do to the returned frequencies is a statement about all answers.", "anchors": ["SQcircuit/circuit.py:1938-1986", "SQcircuit/circuit.py:2016-2066"]}
