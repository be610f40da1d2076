# DESIGN

Subject: stanfordLINQS/SQcircuit at the pinned commit in /repo, read as text only.
The model is a shallow embedding in Coq 8.16.1: one Coq definition per Python
function, exceptions as values, mutable objects as records in explicit state.

## Plan per property

- **C01 Default-unit settings always stay valid** — Units.v models units.py as a state record with four setters; invariant by induction on the list of calls.
- **C02 Engine selection** — Settings.v; same technique.
- **C03 Noise environment** — Noise.v; state record, induction on op lists, defaults as spec constants.
- **C04 Capacitor value survives unit conversion** — Elements.v over R: set/get functions with res monad; field reasoning; spec = closed formula for capacitance.
- **C05 Inductor value survives unit conversion** — Elements.v, as C04.
- **C06 Junction value read back in its own unit** — Elements.v; positive law get=2*pi*v, and refutation of the round trip.
- **C07 Invalid units are rejected** — Elements.v; all strings by membership case split.
- **C08 Omitted unit means the current default unit** — Elements.v + Units.v.
- **C09 Loop flux and loop noise amplitude** — Elements.v Loop record; refutation of ctor/set_noise agreement.
- **C10 Fabrication error** — Elements.v; draw is an argument.
- **C11 Edge incidence vector and edge matrix agree** — Edge.v: list-backed arrays with Python negative indexing and IndexError; spec is the incidence vector.
- **C12 Number of nodes** — Circuit construction node count on lists of edges; correct iff characterisation and refutation.
- **C13 Capacitance and susceptance matrices** — LCWB.v: fold over edges; energies by induction.
- **C14 Connected circuits have an invertible capacitance matrix** — PosDef: graph reachability, quadratic form zero => x=0; mathcomp matrix for invertibility.
- **C15 Charge-mode directions see no inductor** — From C13 energy form.
- **C16 Row bookkeeping of B and W** — LCWB.v bookkeeping fold with invariant.
- **C17 Loop registration** — LCWB.v loop heap with identifiers.
- **C18 Optimisable parameters** — LCWB.v parameter dictionary as ordered map.
- **C19 Declaration order does not matter for C and L** — Permutation proofs on C13 energies.
- **C20 Element sensitivities** — Derivative statement with Coquelicot is_derive on matrix entries.
- **C21 remove_dependent_columns** — mathcomp matrices with rank.
- **C22 External flux distribution** — mathcomp matrices with invmx.
- **C23 Flux distribution rounding** — Reals inequality by induction.
- **C24 Coordinate transformations are canonical** — mathcomp matrices; induction on list of transformations.
- **C25 Charge modes couple to junctions with 0 or +-1** — Model of retry loop with random source as a stream and fuel-free inductive relation.
- **C26 Removal of uncoupled modes** — List filtering model.
- **C27 Coupling operators after mode removal** — Refutation on the model of coupling_op with removed modes and positive theorem if removed modes come last.
- **C28 update() on any circuit** — IndexError propagation in the edge model.
- **C29 Truncation numbers** — Trunc.v lists of nat.
- **C30 truncate_circuit respects the total size** — Trunc.v reals/nat inequality.
- **C31 Tensor index decomposition** — Trunc.v mixed radix.
- **C32 check_convergence** — Sum of squares over indices.
- **C33 Product operators** — Ops.v: finite-dimensional operators as index functions over Coquelicot C.
- **C34 Charge displacement operator** — Ops.v.
- **C35 The Hamiltonian is Hermitian** — Hamil.v.
- **C36 Quadratic charge energy** — Double-sum algebra.
- **C37 The Hamiltonian tracks settings** — CircuitSM.v: state machine with caches; refinement.
- **C38 Results are only served after diag** — CircuitSM.v.
- **C39 set_charge_noise** — CircuitSM.v method lookup.
- **C40 diag pairs eigenvalues with their eigenvectors in ascending order** — Sorting permutation model.
- **C41 Frequency unit** — CircuitSM.v + Units.v.
- **C42 safecopy** — Copy.v object heap.
- **C43 picklecopy and pickling** — Copy.v.
- **C44 Assigning parameters** — Copy.v / LCWB parameter dictionary.
- **C45 Thermal factors** — Decoherence.v reals.
- **C46 Dephasing rates** — Decoherence.v reals.
- **C47 Dephasing-rate gradient** — Coquelicot derivative.
- **C48 Gradient of the Hamiltonian with respect to flux and junction energy** — Coquelicot derivative on matrix entries.
- **C49 Eigenvector gradient** — Finite sums over C.
- **C50 Mixed derivative with respect to gate charge and capacitance** — Refutation with 2x2 witness and positive law for R=1.
- **C51 Coupling operators obey Kirchhoff's law** — Linear algebra over operators.
- **C52 System node numbering** — Systems.v lists of nat.
- **C53 System capacitance matrix** — Systems.v quadratic forms.
- **C54 Lifting sub-system operators** — Systems.v operator lifting.
- **C55 System Hamiltonian is Hermitian** — Refutation with 2x2 operators; positive theorem for one node per sub-circuit.
- **C56 Sweeps** — Sweep.v with numpy fancy-index semantics.
- **C57 Printed Hamiltonian** — Symbolic.v expression evaluation in a non-commutative ring.
- **C58 loop_description** — Texts.v.
- **C59 Phase-space wavefunctions** — Hermite polynomials by recurrence; refutation at 0.
- **C60 Overflow-safe helper functions and default quality factors** — Reals; Bessel K0e is an abstract positive function.
- **C61 Decoherence rates are symmetric in the two states** — Decoherence.v.
- **C62 Gram-Schmidt** — Reals inner products on lists.
- **C63 Flux quanta in junction loops** — changing a loop by whole quanta leaves junction terms unchanged; periodicity of cos and sin under the integer rows of B.
- **C64 Gradients with respect to capacitors and inductors** — Partial.v; derivative of the inverse matrix (Coquelicot).
- **C65 Eigenfrequency gradient** — Hellmann–Feynman for a differentiable family of Hermitian operators.
- **C66 Charge-noise operator** — derivative of the Hamiltonian with respect to the offset.
- **C67 element_description** — Texts.v.
- **C68 gradients of the dephasing rates** — the eigenvalue equation is differentiated along a normalised branch; the code's derivative vector is the branch's derivative up to a change of phase, which drops out of expectation values; each rate is then differentiated term by term.
- **C69 diagonalisation in PyTorch** — the steps of the forward pass are inverted one after the other; the unit conversion there and back is the identity for every unit that can be set.
- **C70 gradients of levels** — the copy carries the derivative operators of the circuit (a renaming of objects commutes with every step of the derivative); a phase-free loss has no slope along a change of phases, so the slope along the stored eigenvectors is that along the response.
- **C71 stored operators** — tensor products of unitary factors are unitary and of square roots are square roots, so the identity reduces to one mode; for charge modes every factor of the root is the identity.
- **C72 gradients of the relaxation rates** — the rate is a sum of products of functions of the value, of the transition frequency and squared matrix elements; a small calculus (sum, product, function of a frequency, squared matrix element) shows that it has gradients, it does not change when eigenvectors change phase, and C70 does the rest.
- **C73 special functions** — the Bessel functions are any positive functions with K0' = −K1; everything else is the chain rule on the code's formulas.
- **C74 system and whole** — matrix elements of tensor products between product states factorise; local terms are diagonal in the kept levels, pairs of charges of different circuits factorise, pairs of the same circuit leave the leak; block matrices multiply block by block, so the circuits' own charging energies are R^T times the inverse of the bare matrix times R.
- **C75 matrix operations** — an object is a kind, a shape and entries; every branch of the dispatch is compared with the textbook product and adjoint of the entries; the wrong order of factors for tensor times qutip object shows with two unit matrices.
- **C76 listing** — the symbols of the Hamiltonian are those of its terms; membership in the listing is decided symbol by symbol; rounding to d decimals and to d significant digits is bounded from `round_even`; the text is cut into lines; an island with 0 and with 1/4000 of a Cooper pair prints alike.
- **C77 gradients of the parameters** — tensors in a heap with their derivatives with respect to leaves; the dictionary as a fold over the visited components is compared with the first occurrences; zero_grad and backward as folds over the heap; invariants of sessions (values exist, graphs end in leaves); witnesses are short sessions.
- **C78 constructors** — objects in a list in order of creation; case analysis on the Python object passed as Q or Y; the loss rates with attributes are compared term by term with those of DecRate; identifiers are cut at the underscores.
- **C79 symmetries of the Hamiltonian** — each isolated operator is related to itself by a sign and a permutation of its basis; tensor products, sums and products inherit the relation, digit by digit of the state number; eigenstates are mapped by the flat form; the rates are compared term by term. The displacement is handled as the limit of the partial sums of the exponential series, the inductors with the null space of the inductive energy (C15).
- **C80 truncation of the charge modes and energies** — the isolated operators are compared entry by entry between states of equal relative charge, and tensor products, sums and products inherit this because the displacement of a charge mode only moves a state by one charge; the smaller matrix is then a principal submatrix of the larger one. The spectral theorem for Hermitian matrices and the min-max principle, both proved here for index functions over the complex numbers, order the energies.
- **C81 matrix elements** — the operators in memory are those of the present settings in every session (C37), so the sums over the memory are the sums of C51; linearity and Hermiticity give the rest.
- **C82 energies between two settings** — the exponentials of the junction phases make no vector longer: unitary displacements and shifts of charge states, and Kronecker products of such operators; so the expectation values of the two Hamiltonians differ at most by the bound, and the min-max principle of C80 carries it to each level.
- **C83 displacement operators** — the generator is i times a Hermitian matrix; by the spectral theorem of Numerics/Spectral.v its powers are sums over eigenvectors, the scalar series is the one of cos and sin in the standard library, and sums over different modes have product eigenvectors.
- **C84 lowest energies** — the energies of a Hermitian matrix are unique (C80), so a sorted rearrangement of the first k of them is the list itself; C79, C80 and C82 then carry over.
- **C85 photon states** — the mode operators of the smaller space are corners of those of the larger one, the displacement operators are not; C82 bounds the difference, two explicit 1x1 and 2x2 Hamiltonians refute the rest.
- **C86 node numbers** — the two quadratic forms are sums over edges of squared branch drops, which do not see the numbers; hence C' and C, L' and L are congruent by one matrix of determinant 1 or -1, C^-1 L and C'^-1 L' are similar, and the characteristic polynomial fixes the descending singular values.
- **C87 flux distribution and energies** — a diagonal unitary turns the charge states; two solutions of the same loop equations with different positive weights differ by an element of the column space of the branch matrix (weighted projection); the rows of W in the new coordinates carry it to angles of the modes; C82 bounds the effect of the rounding.
- **C88 scaling of the energies** — element-wise comparison of the two runs; singular values through the characteristic polynomial (RelabelProofs2.svd_char); the Hamiltonian term by term, impedances and zero-point values being unchanged; C84 for what diag returns.
- **C89 independent parts** — tensor products of families split by associativity of the Kronecker product; every term of the Hamiltonian acts on one factor; the products of eigenvectors are an orthonormal eigenbasis, sorted by energy; C84 for what diag returns.
- **C90 one node** — the matrices of one edge; the charge mode of one junction has the phase of the node exactly (any Gram-Schmidt order, any random rows); scaling of the zero-point values against the frame of the transformations; the Hamiltonian of one mode entry by entry.
- **C91 storage** — unpickling as renaming by an offset behind the present heap; the loaded world is a twin of the saved one (C43), and sweeps of twins agree; plot by the rows of the table.
- **C92 wrappers** — blocks are filled with a running corner: later blocks do not touch earlier rows or columns (induction on the list); agreement of the engines field by field.
- **C93 linear** — determinant of L - x C through the singular value decomposition; columns of the frame; the quadratic part of the Hamiltonian on digits; energies of a diagonal operator sorted, with C84.
- **C94 losses** — sums over elements as the quadratic forms of C and L (C13), congruence by the frame, entries of the mode operators on product states, zero-point energies, C61 for the rate.
- **C95 sweet spots** — the reversed and the mirrored level are levels of the same Hamiltonian (C79), hence proportional to the level; expectation values of operators that change sign vanish; rates by C46, C61.
- **C96 old systems** — operators with their lists of dimensions; the checked sums erase to the sums of C55 when all dimensions agree; two terms of the local sum show the new and the old number at the same place.
- **C100 distinct energies** — the Hamiltonian (C90) joins neighbouring charges only, so an eigenvector is fixed by its first entry; moduli with the phases of the junctions do not raise the energy of the ground state, which is simple.
- **C97 capacitance order** — the matrix is the sum over the edges (C13); inverses of ordered positive forms are ordered; the expectation values of the Hamiltonians are ordered, hence the energies (C80); ground energies by the variational principle.
- **C98 parallel elements** — the matrices are sums over the edges (C13); the junction and inductor parts of the Hamiltonian grouped by the row of W and by the edge; unit diagonal turns relate one-node Hamiltonians with amplitudes of one modulus.
- **C99 sum rules** — traces in an orthonormal eigenbasis; junctions that move charge and flux operators of harmonic modes have no diagonal; the band of the one-node Hamiltonian counted.
- **C101 flux and ground energy** — the moduli of the amplitudes of the ground state are a trial state without flux: on charge modes every e^(i phi) has entries 0 and 1; for one node the ground state of the weaker circuit, turned to the phases of the stronger one, is the trial state, and equality would make it the ground state, which holds every charge (C100).
- **C102 charge sum rule** — LC part and inductors keep the charge of the mode, e^(i phi) of a junction moves one pair; so one commutator with the charge is the current, two are the cosine; energy levels are complete (C84).
- **C103 ground energy between gate charges** — the charge operator of a mode is affine in its gate charge, so the Hamiltonian at the mean is the mean of the two Hamiltonians less a multiple of the identity; the ground state at the mean is a trial state for both.
- **C104 flux on inductors** — the inductive term is linear in the flux and the junction terms do not change, so the Hamiltonian at a mean of fluxes is the mean of the Hamiltonians; the ground state there is a trial state for both ends; time reversal (C79) makes the two ends +f and -f have the same energies.
- **C105 names of printed symbols** — decimal digits are read back (C67); a pair of ordered numbers up to 110 is read back from its digits by a decoder checked on all pairs by computation; the subscripts in the expression by induction over its terms.
- **C106 sums of the lowest energies** — expand any orthonormal basis in the eigenstates; the shares of each eigenstate are at most 1 and add up to k, so they weigh the lowest k energies least; the eigenstates at a mean of two settings are trial states for both; for the squares, the Hamiltonians at +f and -f have the same energies and the one without flux in the middle (parallelogram).
- **C107 drift with a gate charge** — the charge operator is affine in the gate charge, so the Hamiltonian is quadratic in it with a constant second difference (C103); bounds on expectation values carry over to every level by the min-max principle; for one island the difference is diagonal and at most the difference of the charging energies (C90).
- **C108 inexact eigensolvers** — expand the answered vector in the exact eigenstates: the residual is a mean of the squared distances of z to the energies (Weinstein); the pairing of C40 keeps each vector with its value; for sums Bessel's inequality and C106.

## How the development is laid out

- `Model/` — the code, one definition per Python function or block; every definition
  cites file and lines.  Exceptions are values (`res`), mutable objects are records in
  explicit state, `None` results and Python's int 0 are explicit.
- `Spec/` — small separate specifications (what the property says, without model helpers).
- `Proofs/`, `Numerics/` — lemmas; `Numerics/` also bridges the standard library's reals
  to mathcomp's algebra and to Coquelicot.
- `Properties/P_*.v` — one theorem `Cxx_…` per claim, its `Print Assumptions`, and an
  `Example …_case` (or a `_session` theorem) showing a concrete case that meets its
  premises.  Theorems ending in `_refuted` show that an expectation fails, by a witness or
  for every input; the positive part of the same property stands beside them.
- `seeded/LOG.jsonl` — edits of the model and the theorems that they broke.

## Trusted base

1. The kernel of Coq 8.16.1.  No kernel check is switched off, there are no axioms,
   parameters, functors or module types of our own.
2. Axioms of the standard library (table at the end; `Print Assumptions` follows each theorem
   in the property files):
   - `ClassicalDedekindReals.sig_forall_dec`, `ClassicalDedekindReals.sig_not_dec` —
     the construction of the real numbers;
   - `FunctionalExtensionality.functional_extensionality_dep`;
   - `Classical_Prop.classic`;
   - `ClassicalEpsilon.constructive_indefinite_description` — used to give the reals
     mathcomp's structures (`Numerics/RStruct.v`: decidable equality and choice).

   mathcomp, real-closed and Coquelicot are used as libraries of proved lemmas; none adds
   an axiom to any theorem.
3. The reading of the Python source, NumPy, SciPy and QuTiP documentation that the model
   encodes.  The main points are listed below.

### What is idealised everywhere

- Floats are exact real (complex) numbers.  No statement is made about rounding, overflow
  or NaN, except where a definition returns `None` for a non-finite number (Thermal,
  DecRate, PhaseConst) or models rounding explicitly (Rounding, Accuracy, Symbolic).
- Library routines with freedom are arguments: SVD, `sqrtm`, `eigs`, `argsort`, random
  numbers, `displace`, `kve`, `hyperu`, `eval_hermitenorm`, number formatting.  Theorems
  hold for every answer allowed by the premise stated in the theorem (for example: "the
  answer is a singular value decomposition").
- Dimensions of `Qobj` are dropped; an operator is its size and its entries.
- Warnings, printing and plotting have no effect, except for the texts of C57, C58, C67.
- NumPy engine unless a definition says otherwise; of the PyTorch engine the settings, the
  parameter dictionary, safecopy, diag with its backward pass, the second derivatives and the
  dephasing gradients are modelled.
- Objects are numbers in a store; `==` and `in` on circuits, loops and elements compare
  identity, as none of the classes defines `__eq__`.

### Particular readings

- NumPy indexing: a negative index counts from the end, out of range raises `IndexError`;
  row 0 minus 1 is therefore the last row (C11, C51, C52).
- `numpy.linalg.LinAlgError` is a subclass of `ValueError` in NumPy ≥ 1.25 and is recorded
  as such; `ArpackNoConvergence` is a subclass of `RuntimeError` and is recorded as such.
- Edges: `b_id` counts the rows of B over inductive elements, in dictionary order (C16).
- Circuit state machine (CircuitSM): construction, `update`, `set_trunc_nums`,
  `set_charge_offset`, `set_charge_noise`, `diag`, assignment of parameters, unit and value
  changes of elements and loops in any order.  The transformation is computed by a function
  that is asked once per build (`obs`).  C37 compares the Hamiltonian with a fresh build in
  the same coordinates; its premises say that the truncation numbers are set and that no
  element was changed since the last build or offset change.
- Copy: `safecopy` replaces elements and loops by new numbers in the store; the attributes
  the circuit keeps are those listed in the record `obj`.
- `get_partial_vec`: where an energy denominator is 0 the code divides by zero with a NumPy
  warning; the model returns `ZeroDivisionError` and the theorems assume the denominator is
  not 0.
- System: `trunc_nums` is fixed when the `System` is made. System.v adds operators without
  comparing dimensions; SystemDims.v compares them as qutip does (C96).
- Sweep: assignment through `A[:, idx]` with a tuple `idx` is fancy indexing along axis 1.
- Storage: opening a file may fail (`writable`), pickling does not; the figure that stays
  open in pyplot when `plot` raises is left out; the circuit of a sweep has its operators.
- Wrappers: which objects numpy, scipy and torch accept is written down from their
  documentation; number types are left out except that a real dtype drops imaginary parts.
- Symbolic: a symbol is its constructor and subscripts; its printed names are in Names
  (sympy's own LaTeX for `omega_i` is not modelled).
- Texts: names of elements and loops and the formatting of a number are arguments.
- Dephasing gradients (TorchRates): the buffer `torch.zeros(len(...))` of the backward
  pass has single precision, which is not modelled; where torch raises `RuntimeError` for
  an operand that is `None`, the model has `TypeError`.
- Diagonalisation in PyTorch (TorchDiag): `torch.squeeze` removes the axis of the levels
  or of the entries when its length is 1, and `torch.cat` then raises; a denominator of
  shape (1,) divides a vector entry by entry.  PyTorch's convention for the gradient of a
  real loss by a complex entry a + ib is dL/da + i dL/db.
- Stored operators (Operators): indexing a Python list with `None` raises `TypeError`; in the
  PyTorch engine `op` uses the values the loops have at the time of the call.
- Gradients of the relaxation rates (RelaxSpec): automatic differentiation itself is not
  modelled; that PyTorch computes gradients of the rate as a function of the value, the
  frequencies and the eigenvectors is the premise `gradients`, which C72_differentiable
  shows to be satisfiable.
- Special functions (TorchFuns): SciPy's `kve` and PyTorch's scaled Bessel function are premises
  (`bessel`): positive functions with K0' = −K1, scaled by e^x.
- Phase representation: the length of an eigenvector is not checked against the product
  of the dimensions.

### Not modelled

- The byte format of pickled files (a file is the object and the heap at the time of the
  save), sizes and fonts of plots, logging, notebook display, how sympy renders an
  expression in LaTeX.
- `functions.py`: the wrappers that only choose between `np.f` and `torch.f` by the type of
  the argument (`abs`, `cosh`, `exp`, `imag`, `log`, `normal`, `pow`, `real`, `sqrt`, `tanh`,
  `sum`, `sinh`); automatic differentiation itself.
- `__init__.py`, tests.

## Expectations that fail (theorems `…_refuted`)

Each is a statement a user would expect, with the witness in the theorem.

| theorem | what fails |
|---|---|
| C06_junction_roundtrip | a junction set to v in unit u reports 2πv |
| C09_loop_noise | `set_noise` and the constructor differ by 2π |
| C11_degenerate_edges | edges (k,k) are accepted and add a wrong matrix |
| C12_node_count | n is the largest label of the lexicographically largest edge |
| C21_independent_spanning | `remove_dependent_columns` keeps the first r columns |
| C22_connected_circuits_accepted | a connected circuit with loops is refused |
| C25_returns | the second transformation does not return for some circuits |
| C27_own_coefficients | coupling operators use unreduced columns after mode removal |
| C28_removed, C28_untruncated | `update()` raises after mode removal / before truncation |
| C29_positive | zero and negative truncation numbers are accepted |
| C32_negative_edge | weight at the negative end of a charge mode is not seen |
| C34_large | the displacement for \|w\| ≥ 2 is not a shift by w |
| C39_never | `set_charge_noise` always raises |
| C42_keyerror, C42_shared, C42_numpy_eigs, C42_description | safecopy |
| C43_untruncated | a picklecopy before truncation cannot be restored by `update()` |
| C44_short, C44_long, C44_dropped | lists of another length; a parameter is dropped |
| C45_nonneg | negative temperatures give negative factors |
| C47_negative | wrong sign of the gradient for a negative amplitude |
| C49_negative | with a negative index the state itself is not skipped |
| C50 | the transformation is missing in the mixed derivative |
| C51_kirchhoff_ground | Kirchhoff's law through the ground changes a sign |
| C52_ground | coupling to node 0 aliases another node |
| C53_removed | after mode removal the blocks do not match the nodes |
| C55 | the Hamiltonian of a system need not be Hermitian |
| C74 | the Hamiltonian of a system is not the restriction of that of the whole circuit |
| C75 | `mat_mul` of a tensor and a qutip object is not the product (E_01, E_00); `dag` of a numpy matrix raises |
| C78_none, C78_stale_id | an inductor with Q=None or a junction with a number as Y makes the rate fail; the identifier names the old value after set_value |
| C77_source, C77_stale, C77_value | zero_grad leaves the gradients of tensors behind computed parameters and of components changed since the update; setting a value removes the component from the parameters |
| C76 | circuits with different Hamiltonians give the same description (gate charge 0 and 1/4000) |
| C56_empty | a two-dimensional sweep with an empty axis returns an empty table instead of raising like every other |
| C57, C57_angular | cross terms of charge modes; frequencies printed with the factor 2π |
| C59, C59_large, C59_axis, C59_charge | wavefunctions of levels n ≥ 250, axes, charge basis |
| C61_sum, C61_direction | a dephasing rate is not the sum of the two directed ones; a negative state index exchanges up and down |
| C64_removed | gradients after mode removal |
| C69_one | in the PyTorch engine a single level cannot be computed |
| C71_charge | in circuits with charge modes only the stored sin(X/2) is a multiple of the identity |
| C71_transmon | for a transmon the stored operators violate 2 sin(X/2)^2 = 1 - cos X |
| C71_lossless | the quasiparticle decay rate of a transmon is always 0 |
| C71_index | charge_op(0) is the charge of the last mode |
| C67_junction, C67_subclass | value of a junction; KeyError for a subclass |
| C85_photons | more photon states can raise the lowest energy (the truncated spectrum is not variational) |
| C86_count | renumbering the nodes can make the constructor fail |
| C87_inductors | with an inductor and a truncated harmonic mode the energies depend on how the flux is shared |
| C91_unsaved, C91_late | `plotF` of an empty plane raises before the file is written; an unwritable `toFile` is noticed after the sweep |
| C91_stopped | a sweep that raises half-way leaves its table, circuit and loops where it stopped |
| C91_blank, C91_picklecopy | `plot` without a sweep raises; a saved picklecopy comes back without operators |
| C92_sort, C92_mixed, C92_array | `sort` returns a pair in PyTorch; objects of the other engine are refused; `array` drops imaginary parts in PyTorch |
| C96_refuted | a `System` raises TypeError after one of its circuits was diagonalised with another number of levels |
| C97_refuted | the energies of a lone capacitor without junctions do not depend on its capacitance (they are those of one farad) |
| C100_refuted | the energies of a SQUID at half a flux quantum need not be distinct |
| C105_refuted | with 111 or more charge modes the printed Hamiltonian uses the name `EC_1111` for two charging energies |

## Assumptions per theorem

F = `sig_forall_dec`, N = `sig_not_dec`, E = `functional_extensionality_dep`, C = `classic`,
D = `constructive_indefinite_description`.

**closed under the global context** — C02_engine_history, C02_engine_reachable, C02_set_engine_effect, C105_latex, C105_plain, C105_single, C11_degenerate_edges_refuted, C12_node_count_refuted, C12_node_count_right_iff, C29_accepts, C29_dimensions, C29_positive_refuted, C29_round_trip, C29_squeezed, C29_unset, C31_bijection, C31_decompose, C31_overflow, C32_box_exists, C39_never_refuted, C42_description_refuted, C42_numpy_eigs_refuted, C42_shared_refuted, C42_torch, C43_picklecopy, C44_numpy, C75_casts, C77_errors, C77_flag, C77_lost, C77_views, C77_zero, C78_id, C78_id_text, C91_missing, C91_twice, C92_sort_refuted.

**F** — C45_direction.

**F, E** — C01_set_unit_effect, C01_unit_history, C01_units_always_valid, C11_incidence_and_edge_matrix, C12_wrong_count_fails, C13_circuit_matrices, C13_construction_total, C14_C_positive_definite, C15_susceptance_null_space, C16_bare_junctions, C16_keys_in_order, C16_row_bookkeeping, C17_loop_registration, C17_prior_state_irrelevant, C18_numpy_no_parameters, C18_parameters, C19_declaration_order, C19_parallel_capacitors_add, C20_capacitor_sensitivity, C20_inductor_sensitivity, C20_sensitivity_entries, C23_external_phase, C23_induced_charge, C23_loop_sums, C23_rounding_nearest, C32_bounds, C32_errors, C32_flags_top, C32_negative_edge_refuted, C32_small_mode, C32_t_zero, C32_weight_outside, C33_charge_range, C44_distinct, C57_rounding, C58_no_loops, C58_sign, C58_table, C73_extremes, C73_extremes_grad, C73_round, C77_construction, C86_builds, C86_count_refuted, C86_entries, C86_forms, C86_keys, C86_phases, C88_circuit, C98_matrices.

**F, N, E** — C02_requires_grad_needs_pytorch, C03_env_setters, C03_reset, C04_C05_convert_roundtrip, C04_C05_denotes_one_to_one, C04_C05_units_consistent, C04_capacitor_roundtrip, C05_inductor_roundtrip, C06_junction_reports_angular, C07_allowed_unit_failures, C07_invalid_unit_rejected, C07_none_unit_keyerror, C08_constructed_value, C08_default_unit, C09_loop_flux, C10_fabrication_error, C35_flux_bias, C45_limits, C52_bijection, C52_circuits, C52_ground_refuted, C67_lines, C67_subclass_refuted, C67_value, C73_k0e.

**F, E, C, D** — C105_distinct, C105_refuted, C105_subscripts, C14_C_invertible, C14_disconnected_singular, C21_first_rank_columns, C21_grounded_circuits, C21_independent_columns, C21_independent_spanning_refuted, C22_connected_circuits_accepted_refuted, C22_flux_distribution, C22_found, C24_canonical, C26_idempotent, C26_kept, C26_removal, C40_pairing, C51_matrices, C54_acts, C54_two, C68_backward, C68_truncated, C71_basis, C71_untruncated, C75_convert, C75_dag, C75_dag_refuted, C75_dag_vector, C75_inner, C75_product, C75_product_numpy, C75_refuted, C75_reversed, C75_tensor, C77_backward, C77_backward_none, C78_capacitor, C78_numbers, C78_small_cap, C78_truth, C79_inductors, C81_errors, C86_determinants, C86_singular_values, C87_shares, C88_shares, C91_blank_refuted, C91_draws, C91_plot, C92_array_refuted, C92_blocks, C92_create, C92_diag, C92_engines, C92_kinds, C92_mixed_refuted, C92_no_blocks, C92_refused, C92_systems, C97_matrix.

**F, N, E, C** — C06_junction_roundtrip_refuted, C09_loop_noise_refuted, C30_bound, C30_errors, C45_balance, C45_bose, C45_cutoff, C45_nonneg, C45_nonneg_refuted, C45_total, C46_linear, C46_nonneg, C46_undefined, C46_value, C46_zero, C47_corner, C47_gradient, C47_negative, C47_negative_refuted, C59_axis_refuted, C59_factor, C59_large_refuted, C59_orthonormal, C59_oscillator, C59_refuted, C60_default_q_cap, C60_default_q_ind, C60_default_q_ind_anchor, C60_log_sinh, C67_junction_refuted, C73_log_k0, C73_slopes.

**F, N, E, C, D** — C100_cancelled, C100_edges, C100_ground, C100_refuted, C100_returned, C100_simple, C101_flux, C101_order, C101_session, C101_squid, C101_strict, C102_bound, C102_charge_op, C102_currents, C102_rule, C103_ground, C103_session, C103_sum, C104_affine, C104_concave, C104_highest, C104_session, C106_depends, C106_diagonal, C106_flux, C106_gate, C106_highest, C106_junctions, C106_least, C106_session, C106_session_flux, C106_squares, C107_built, C107_island, C107_session, C107_step, C108_bottom, C108_diag, C108_near, C108_returned, C108_session, C108_state, C108_sum, C24_first_diagonal, C24_first_total, C24_normal_form, C25_couplings, C25_first_attempt, C25_returns_refuted, C26_removed_decoupled, C27_columns, C27_own_coefficients_refuted, C27_prefix, C28_corrupted, C28_refreshes, C28_removed_refuted, C28_untruncated_refuted, C33_charge, C33_commute, C33_cooper_pairs, C33_flux, C33_hermitian, C33_number, C33_products, C34_adjoint, C34_displacement, C34_junction, C34_large_refuted, C34_shift, C34_unitary, C35_hermitian, C35_phase, C35_sines, C35_terms, C35_total, C35_unset, C36_LC_energy, C36_description, C36_quadratic_Q, C36_quadratic_phi, C37_after_update, C37_fresh, C37_memory, C38_results, C38_stale, C38_truncation, C40_circuit, C40_eigenpairs, C40_guard, C40_retry, C41_rescale, C41_returned, C42_detached, C42_keyerror_refuted, C42_numpy, C42_torch_returns, C42_values, C43_before_update, C43_memory_unread, C43_pickle, C43_restore, C43_untruncated_refuted, C44_assigned, C44_dropped_refuted, C44_long_refuted, C44_short_refuted, C48_after_diag, C48_junction, C48_loop, C48_loop_inductor, C48_loop_junction, C48_loop_loop, C48_placement, C48_placement_loop, C48_placements, C48_unknown_loop, C49_coefficients, C49_defined, C49_epsilon, C49_exact, C49_negative_refuted, C49_orthogonal, C49_session, C49_span, C50_arguments, C50_difference, C50_first, C50_identity, C50_refuted, C51_errors, C51_ground, C51_kirchhoff, C51_kirchhoff_ground, C51_kirchhoff_ground_refuted, C51_swap, C51_total, C53_energy, C53_entries, C53_order, C53_removed_refuted, C53_symmetric, C54_morphism, C55_commuting, C55_defect, C55_hermitian, C55_not_hermitian, C55_refuted, C55_total, C56_charge, C56_empty_refuted, C56_flux, C56_grid, C56_last_flux, C56_no_axis, C57_angular_refuted, C57_exact, C57_iff, C57_islands, C57_meaning, C57_modes, C57_one_charge, C57_refuted, C59_array, C59_charge_phase, C59_charge_refuted, C59_errors, C59_normalised, C59_operators, C61_capacitive, C61_charge, C61_critical_current, C61_direction_refuted, C61_flux, C61_inductive, C61_nonneg, C61_quasiparticle, C61_sum, C61_sum_refuted, C61_symmetric, C62_bounded, C62_distinct, C62_gram_schmidt, C62_invertible, C63_flux_quanta, C64_capacitor, C64_charge_energy, C64_inductor, C64_inner_capacitor, C64_removed_refuted, C65_absolute, C65_difference, C65_relative, C65_session, C66_charge_rate, C66_operator, C68_cc, C68_cc_levels, C68_charge, C68_charge_levels, C68_flux, C68_flux_levels, C68_formula, C68_sweet_spot, C69_agrees, C69_context, C69_one_refuted, C69_raises, C69_returns, C70_complete, C70_context, C70_gradient, C70_isolated, C70_values, C71_arguments, C71_charge_eig, C71_charge_op, C71_charge_refuted, C71_half_angle, C71_index, C71_index_refuted, C71_lossless_refuted, C71_op, C71_transmon_refuted, C71_unknown, C72_complete, C72_differentiable, C72_gradient, C73_smooth, C74_all_levels, C74_charging, C74_compression, C74_leak, C74_refuted, C76_blind, C76_complete, C76_layout, C76_once, C76_precise, C76_printer, C76_refuted, C76_relevant, C76_type, C77_computed, C77_fresh, C77_kept, C77_nonleaf, C77_plain, C77_sound, C77_source_refuted, C77_stale_refuted, C77_step, C77_sync, C77_tensor, C77_value_refuted, C78_attribute, C78_errors, C78_loss, C78_none_refuted, C78_object, C78_own_capacitor, C78_stale_id_refuted, C78_typeerror, C79_both, C79_displacement, C79_elements, C79_energies, C79_flux, C79_rates, C79_states, C80_elements, C80_energies, C80_levels, C80_periodic, C80_settings, C81_back, C81_exchange, C81_kirchhoff, C81_value, C82_bare, C82_flux, C82_lipschitz, C82_session, C83_energies, C83_exists, C83_group, C83_half, C83_half_angle, C83_junction, C83_unique, C84_lowest, C84_returned, C84_reversal, C84_session, C84_settings, C84_solver, C84_truncation, C84_variational, C85_junctions, C85_linear, C85_one_mode, C85_photons_refuted, C86_frequencies, C87_distributions, C87_gauge, C87_inductors_refuted, C87_near, C87_returned, C87_rounded, C88_frequencies, C88_hamiltonian, C88_returned, C88_singular_values, C89_energies, C89_excitation, C89_ground, C89_hamiltonian, C89_returned, C90_island, C90_oscillator, C91_again, C91_charge_figure, C91_flux_figure, C91_late_refuted, C91_load, C91_losses, C91_picklecopy_refuted, C91_planes, C91_returns, C91_stopped_refuted, C91_unsaved_refuted, C93_charge_modes, C93_linear, C93_normal_mode, C93_resonances, C93_returned, C93_unique, C94_capacitive, C94_capacitors, C94_inductive, C94_inductors, C94_no_photon, C94_photon_capacitive, C94_photon_capacitors, C94_photon_inductive, C94_photon_inductors, C95_charge, C95_elements, C95_flux, C95_forbidden, C95_parity, C95_real, C95_slope, C96_diag, C96_follows, C96_refused, C96_refuted, C96_sums, C97_concave, C97_island, C97_levels, C97_netlist, C97_refuted, C98_hamiltonian, C98_modes, C98_netlists, C98_one, C98_squid, C98_squid_energy, C99_modulus, C99_netlists, C99_one, C99_rules, C99_session, C99_sum.
