# DESIGN

Formal model (Rocq / Coq 8.16.1) of pycqed's `pyscqed` package, read as text
from `/repo`. Nothing of the project is executed.

## Conventions

* Every model definition cites the file and lines it mirrors.
* Exceptions are values (`res A := Ok a | Err e`). Methods that mutate are
  functions `state -> args -> state * res out`, so what is left behind by a
  method that raises half-way is visible.
* Python dicts are association lists in insertion order; Python sets and
  sympy `free_symbols` are iterated through an *order oracle* (an arbitrary
  permutation), so theorems hold for every hash order.
* If the stated property is false of the faithful model, a theorem
  `..._refuted` exhibits a reachable witness, and a `..._partial` theorem
  proves the strongest positive statement found, with its extra hypotheses.
* `theories/*Props.v` contain only the property theorems (closed by
  `exact lemma`), `Print Assumptions`, and non-vacuity examples.

## Plan per property

- **C01 Param.setValue accept/reject rule** - Param.v: shallow model of Param with computable IEEE binary64 (SpecFloat) values and Python argument values; case analysis / induction over call histories.
- **C02 A Param's value never lies outside its bounds** - Param.v: shallow model of Param with computable IEEE binary64 (SpecFloat) values and Python argument values; case analysis / induction over call histories.
- **C03 Param bounds stay ordered and rejected setBounds changes nothing** - Param.v: shallow model of Param with computable IEEE binary64 (SpecFloat) values and Python argument values; case analysis / induction over call histories.
- **C04 linearSweep shape and end points** - Param.v: shallow model of Param with computable IEEE binary64 (SpecFloat) values and Python argument values; case analysis / induction over call histories.
- **C05 Every point of a linear sweep respects the bounds** - numpy.linspace in SpecFloat; refutation in the subnormal range by vm_compute; positive theorem under no-underflow/overflow hypotheses through Flocq rounding lemmas.
- **C06 Adding a parameter is idempotent and the three registries stay in step** - Expr.v, Coll.v (model), CollSpec.v (vocabulary): state machine of ParamCollection (ordered dicts, dependency edges, set-order oracle), expressions as trees over an arbitrary interpretation; invariants over op lists; refutations by vm_compute.
- **C07 Parameterised parameters cannot be set directly** - Expr.v, Coll.v (model), CollSpec.v (vocabulary): state machine of ParamCollection (ordered dicts, dependency edges, set-order oracle), expressions as trees over an arbitrary interpretation; invariants over op lists; refutations by vm_compute.
- **C08 The dependency graph is acyclic in every history** - Expr.v, Coll.v (model), CollSpec.v (vocabulary): state machine of ParamCollection (ordered dicts, dependency edges, set-order oracle), expressions as trees over an arbitrary interpretation; invariants over op lists; refutations by vm_compute.
- **C09 Setting values and expanding expressions always terminates** - Expr.v, Coll.v (model), CollSpec.v (vocabulary): state machine of ParamCollection (ordered dicts, dependency edges, set-order oracle), expressions as trees over an arbitrary interpretation; invariants over op lists; refutations by vm_compute.
- **C10 Parametric values equal their expressions after a set** - Expr.v, Coll.v (model), CollSpec.v (vocabulary): state machine of ParamCollection (ordered dicts, dependency edges, set-order oracle), expressions as trees over an arbitrary interpretation; invariants over op lists; refutations by vm_compute.
- **C11 Results do not depend on hash/set iteration order** - Expr.v, Coll.v (model), CollSpec.v (vocabulary): state machine of ParamCollection (ordered dicts, dependency edges, set-order oracle), expressions as trees over an arbitrary interpretation; invariants over op lists; refutations by vm_compute.
- **C12 A parametric parameter with a missing input keeps its value** - Expr.v, Coll.v (model), CollSpec.v (vocabulary): state machine of ParamCollection (ordered dicts, dependency edges, set-order oracle), expressions as trees over an arbitrary interpretation; invariants over op lists; refutations by vm_compute.
- **C13 Re-parameterising replaces the old dependencies** - Expr.v, Coll.v (model), CollSpec.v (vocabulary): state machine of ParamCollection (ordered dicts, dependency edges, set-order oracle), expressions as trees over an arbitrary interpretation; invariants over op lists; refutations by vm_compute.
- **C14 Removing a parameter leaves the others usable** - Expr.v, Coll.v (model), CollSpec.v (vocabulary): state machine of ParamCollection (ordered dicts, dependency edges, set-order oracle), expressions as trees over an arbitrary interpretation; invariants over op lists; refutations by vm_compute.
- **C15 setParameterValues: order, last-wins and failure behaviour** - Expr.v, Coll.v (model), CollSpec.v (vocabulary): state machine of ParamCollection (ordered dicts, dependency edges, set-order oracle), expressions as trees over an arbitrary interpretation; invariants over op lists; refutations by vm_compute.
- **C16 Names and symbols correspond one to one** - Expr.v, Coll.v (model), CollSpec.v (vocabulary): state machine of ParamCollection (ordered dicts, dependency edges, set-order oracle), expressions as trees over an arbitrary interpretation; invariants over op lists; refutations by vm_compute.
- **C17 Expanded expressions mention only independent parameters and keep their meaning** - Expr.v, Coll.v (model), CollSpec.v (vocabulary): state machine of ParamCollection (ordered dicts, dependency edges, set-order oracle), expressions as trees over an arbitrary interpretation; invariants over op lists; refutations by vm_compute.
- **C18 Swept and non-swept parameters partition the collection** - Expr.v, Coll.v (model), CollSpec.v (vocabulary): state machine of ParamCollection (ordered dicts, dependency edges, set-order oracle), expressions as trees over an arbitrary interpretation; invariants over op lists; refutations by vm_compute.
- **C19 The collapsed sweep grid is the row-major Cartesian product** - Sweep.v: ndSweep / collapsedIndices / computeFuncSweep / getSweepResult on lists with arbitrary element type; induction on dimensions.
- **C20 collapsedIndices is a bijection** - Sweep.v: ndSweep / collapsedIndices / computeFuncSweep / getSweepResult on lists with arbitrary element type; induction on dimensions.
- **C21 computeFuncSweep evaluates each grid point exactly once in order** - Sweep.v: ndSweep / collapsedIndices / computeFuncSweep / getSweepResult on lists with arbitrary element type; induction on dimensions.
- **C22 getSweepResult (one variable) returns the requested slice** - Sweep.v: ndSweep / collapsedIndices / computeFuncSweep / getSweepResult on lists with arbitrary element type; induction on dimensions.
- **C23 getSweepResult rejects incomplete static variables** - Sweep.v: ndSweep / collapsedIndices / computeFuncSweep / getSweepResult on lists with arbitrary element type; induction on dimensions.
- **C24 getSweepResult (several variables) returns the requested sub-mesh** - Sweep.v: ndSweep / collapsedIndices / computeFuncSweep / getSweepResult on lists with arbitrary element type; induction on dimensions.
- **C25 Static values snap to the nearest sweep point** - Sweep.v: ndSweep / collapsedIndices / computeFuncSweep / getSweepResult on lists with arbitrary element type; induction on dimensions.
- **C26 latexify_param_name is total on non-empty names, lossless and greek-aware** - Latex.v: string functions; induction on strings.
- **C27 Unit setters refresh every prefactor** - Units.v: factors and prefactors over R, setters as a state machine; field identities.
- **C28 Unit strings are parsed as prefix+base** - Units.v: factors and prefactors over R, setters as a state machine; field identities.
- **C29 Physical energies do not depend on the input units** - Units.v: factors and prefactors over R, setters as a state machine; field identities.
- **C30 Oscillator and resonator quantities do not depend on the input units** - Units.v: factors and prefactors over R, setters as a state machine; field identities.
- **C31 Unit systems of different objects are independent** - Units.v: factors and prefactors over R, setters as a state machine; field identities.
- **C32 addBranch records exactly the requested branch** - Graph.v: multigraph as ordered edge list with networkx iteration orders, Kruskal, loop extraction; invariants over op lists; parity argument for loops; refutations by vm_compute.
- **C33 A rejected addBranch leaves the circuit usable** - Graph.v: multigraph as ordered edge list with networkx iteration orders, Kruskal, loop extraction; invariants over op lists; parity argument for loops; refutations by vm_compute.
- **C34 Branch types and component lookup are consistent** - Graph.v: multigraph as ordered edge list with networkx iteration orders, Kruskal, loop extraction; invariants over op lists; parity argument for loops; refutations by vm_compute.
- **C35 Spanning tree and closure branches** - Graph.v: multigraph as ordered edge list with networkx iteration orders, Kruskal, loop extraction; invariants over op lists; parity argument for loops; refutations by vm_compute.
- **C36 Each superconducting loop has its own branch** - Graph.v: multigraph as ordered edge list with networkx iteration orders, Kruskal, loop extraction; invariants over op lists; parity argument for loops; refutations by vm_compute.
- **C37 Superconducting loops are closed** - Graph.v: multigraph as ordered edge list with networkx iteration orders, Kruskal, loop extraction; invariants over op lists; parity argument for loops; refutations by vm_compute.
- **C38 Building a valid circuit never crashes** - Graph.v: multigraph as ordered edge list with networkx iteration orders, Kruskal, loop extraction; invariants over op lists; parity argument for loops; refutations by vm_compute.
- **C39 Flux bias rules** - Graph.v: multigraph as ordered edge list with networkx iteration orders, Kruskal, loop extraction; invariants over op lists; parity argument for loops; refutations by vm_compute.
- **C40 Charge bias rules** - Graph.v: multigraph as ordered edge list with networkx iteration orders, Kruskal, loop extraction; invariants over op lists; parity argument for loops; refutations by vm_compute.
- **C41 Biases and couplings survive circuit growth** - Graph.v: multigraph as ordered edge list with networkx iteration orders, Kruskal, loop extraction; invariants over op lists; parity argument for loops; refutations by vm_compute.
- **C42 Mutual coupling rules** - Graph.v: multigraph as ordered edge list with networkx iteration orders, Kruskal, loop extraction; invariants over op lists; parity argument for loops; refutations by vm_compute.
- **C43 Resonator coupling rules** - Graph.v: multigraph as ordered edge list with networkx iteration orders, Kruskal, loop extraction; invariants over op lists; parity argument for loops; refutations by vm_compute.
- **C44 Component names are unique in the whole circuit** - Graph.v: multigraph as ordered edge list with networkx iteration orders, Kruskal, loop extraction; invariants over op lists; parity argument for loops; refutations by vm_compute.
- **C45 The capacitance matrix is the circuit's electrostatic energy form** - Symbolic.v: matrices as functions on indices built by the code's loops, evaluated over R; finite-sum identities, induction on branch lists.
- **C46 When the capacitance matrix is invertible** - Symbolic.v: matrices as functions on indices built by the code's loops, evaluated over R; finite-sum identities, induction on branch lists.
- **C47 Branch fluxes are node flux differences** - Symbolic.v: matrices as functions on indices built by the code's loops, evaluated over R; finite-sum identities, induction on branch lists.
- **C48 The inverse inductance matrix is the circuit's inductive energy form** - Symbolic.v: matrices as functions on indices built by the code's loops, evaluated over R; finite-sum identities, induction on branch lists.
- **C49 Flux bias on an inductor enters as branch flux plus bias** - Symbolic.v: matrices as functions on indices built by the code's loops, evaluated over R; finite-sum identities, induction on branch lists.
- **C50 Every accepted circuit can be turned into a SymbolicSystem** - Symbolic.v: matrices as functions on indices built by the code's loops, evaluated over R; finite-sum identities, induction on branch lists. SymbolicExact.v: the exact condition for success of the constructor, with couplings; each stage of the constructor inverted (names registered, bias keys, inductance matrix), then the parameterisation invariant with the symbols of the matrix entries.
- **C51 Reported coordinate modes** - Symbolic.v: matrices as functions on indices built by the code's loops, evaluated over R; finite-sum identities, induction on branch lists.
- **C52 Generated matrix parameter names never clash** - Symbolic.v: matrices as functions on indices built by the code's loops, evaluated over R; finite-sum identities, induction on branch lists.
- **C53 moveFluxBias conserves the bias terms** - Symbolic.v: matrices as functions on indices built by the code's loops, evaluated over R; finite-sum identities, induction on branch lists.
- **C54 Hilbert space size matches the operators** - NumOp.v, theorems in NumOpProps.v: finite-dimensional operators as functions over Coquelicot's C; Kronecker products, spectral functions of a given eigen-decomposition.
- **C55 Operators of different nodes commute** - NumOp.v, theorems in NumOpProps.v: finite-dimensional operators as functions over Coquelicot's C; Kronecker products, spectral functions of a given eigen-decomposition.
- **C56 Charge-basis displacement is the exact truncated raising operator** - NumOp.v, theorems in NumOpProps.v: finite-dimensional operators as functions over Coquelicot's C; Kronecker products, spectral functions of a given eigen-decomposition.
- **C57 The Hamiltonian is Hermitian** - NumOp.v, theorems in NumOpProps.v: finite-dimensional operators as functions over Coquelicot's C; Kronecker products, spectral functions of a given eigen-decomposition.
- **C58 A parameter sweep equals point-by-point evaluation** - NumSweep.v, theorems in NumSweepProps.v: evaluation loop and substitution caches as state machines; simulation between the sweep and point-by-point evaluation.
- **C59 Two-stage substitution equals one-stage substitution** - NumSweep.v, theorems in NumSweepProps.v: evaluation loop and substitution caches as state machines; simulation between the sweep and point-by-point evaluation.
- **C60 Dependent evaluables use the eigenpairs of their own grid point** - NumSweep.v, theorems in NumSweepProps.v: evaluation loop and substitution caches as state machines; simulation between the sweep and point-by-point evaluation.
- **C61 Every requested evaluation is retrievable** - NumSweep.v, theorems in NumSweepProps.v: evaluation loop and substitution caches as state machines; simulation between the sweep and point-by-point evaluation.
- **C62 The corrected oscillator commutator is canonical** - NumOp.v, theorems in NumOpProps.v: finite-dimensional operators as functions over Coquelicot's C; Kronecker products, spectral functions of a given eigen-decomposition.
- **C63 The classical potential agrees with the Hamiltonian** - NumOp.v, theorems in NumOpProps.v: finite-dimensional operators as functions over Coquelicot's C; Kronecker products, spectral functions of a given eigen-decomposition.
- **C64 Resonator response without coupling is the bare spectrum** - NumOp.v, theorems in NumOpProps.v: finite-dimensional operators as functions over Coquelicot's C; Kronecker products, spectral functions of a given eigen-decomposition.
- **C65 Temporary files return what was written** - Temp.v: file system as finite map path -> content; invariants over interleavings.
- **C66 Sessions do not interfere** - Temp.v: file system as finite map path -> content; invariants over interleavings.
- **C67 getNeighbours returns exactly the Hamming-1 neighbours** - Util.v: list / matrix functions; induction.
- **C68 Cyclic sequences are sound and complete** - Util.v: list / matrix functions; induction.
- **C69 Permutation decomposition reconstructs the Hamiltonian** - Util.v: list / matrix functions; induction.
- **C70 mdot is the ordered matrix product** - Util.v: list / matrix functions; induction.
- **C71 Diagonaliser results are sorted and stay paired** - Util.v: list / matrix functions; induction.
- **C72 Pauli coefficients preserve the gap** - Util.v: list / matrix functions; induction.
- **C73 Shift extraction stays inside the response array** - Util.v: list / matrix functions; induction.
- **C74 stateFromBitstring is an orthonormal encoding** - Util.v: list / matrix functions; induction.
- **C75 Sanitising only removes small components** - Util.v: list / matrix functions; induction.
- **C76 isStoquastic returns a verdict** - Util.v: false; characterise the result for every matrix and order list.
- **C77 Resonator parameters carry the units of the system in use** - Units.v: the accumulated prefactors; true for the first system, false for the second.
- **C78 Parameterised matrices mean the circuit's matrices** - Symbolic.v: the parameterisation loop over the collection model; invariant of the collection between entries; values of expression trees.
- **C79 A single requested evaluation is retrievable** - NumSweep.v: results as values (arrays, dicts); false for dicts.
- **C80 The split Hamiltonian equals the Hamiltonian** - NumEval.v: the two code paths side by side; induction on the branch list.
- **C81 The voltage operator is dH/dQ** - NumEval.v: derivative of the quadratic energy (derivable_pt_lim); eigenvector calculus; false for coupled nodes.
- **C82 The current operator is dE/d(branch flux)** - NumEval.v: derivative of the branch energy and of the recombined operator; false for biased branches and, in sign, for junctions.
- **C83 Current and voltage operators are Hermitian** - NumEval.v: adjoints of products of commuting unitaries.
- **C84 Matrix elements are matrix elements** - NumEval.v: sesquilinear sums; false off the diagonal (only the real part is returned).
- **C85 Reported energies are those of the Hamiltonian** - NumEval.v: second difference of the quadratic energy, swing of the cosine.
- **C86 Loaded resonators and the circuit's matrix agree** - Reson.v: the extended copy by the model of addBranch; block elimination of the resonator node in the quadratic form.
- **C87 Loaded frequency, impedance and coupling** - Reson.v: the elements of the two inverses in terms of the loaded matrix; positivity of the inverse; square roots.
- **C88 A system with resonators can be constructed** - Reson.v: false by three name clashes; attaching succeeds for distinct names (the spanning tree argument of C37/C38 for a pendant node), and the whole constructor (ResonInit.v, as C123) then succeeds.
- **C89 The inductance matrix carries the mutual inductances** - Symbolic.v, Graph.v: entries by induction over the couplings, invariant that couplings join inductors and no pair twice; the energy from the Penrose equations alone. False for an inductor coupled to itself, for branches added after the coupling and for flux biases with a mutual inductance. The node mode of getInductanceMatrix is not modelled.
- **C90 The Josephson and phase slip energies are those of the branches** - SymHam.v: the vectors and biases per branch, each branch of the graph once in the list of branches up to direction; the terms of Rnb Rinv by their signs. The noncommuting products are compared after replacing operators by numbers exp(i phi), hence `_partial`. False for a junction from a node to itself: IndexError.
- **C91 getJosephsonEnergies agrees with the Hamiltonian** - SymHam.v, NumOp.v: the two loops over the branches produce the same matrix. The returned energy is Phi0 I / 2 pi, the Hamiltonian has I: false unless Phi0 = 2 pi.
- **C92 setTransform does not change the physics** - SymHam.v: quadratic forms under congruence. False: the biases are not transformed, and of the coefficients of transformed phases in a junction only the sign is kept.
- **C93 The automatic mode transform diagonalises the inverse inductance matrix** - SymHam.v; sympy's diagonalize is any V, D with Linv V = V D. False: R = V, where V^-1 is needed. Proved for symmetric V with V V a multiple of the identity.
- **C94 The displacements of transformed coordinates** - SymHam.v: the first coefficient in sympy's order, any order. False for a scaling by 2 (the row of R is used, not R^-1) and for integer matrices (TypeError).
- **C95 The modes of transformed coordinates** - SymHam.v: an entry of the matrix as a combination of symbols. False for parallel inductors, whose entries are replaced by independent parameters. At most 111 nodes for the first half, as in C49.
- **C96 Reports on which parameters are set** - CollQuery.v on the state machine of Coll.v. The second half is false for the expression: a factor 0 cancels symbols, a prefactor adds some unnoticed, rmParameter makes a parametric name unknown. Proved for the recorded parameters, which include those of the expression when prefactors bring no new symbols.
- **C97 getParameterisationsInvolving lists the dependent parameters** - CollQuery.v: the loop over names. False for nested dependencies (the FIXME at line 746) and for unknown names after a parametric one. Proved for direct dependents.
- **C98 getSymbols adds what is missing and changes nothing else** - CollQuery.v: loop with the state after each addParameter. False for overrides of existing names and for failing calls; proved otherwise.
- **C99 Value dictionaries give the current values** - CollQuery.v: dict comprehensions as folds. False for getSymbolValuesDict when two names share a symbol.
- **C100 Every loop of loops_map is a loop of the circuit** - LoopGraph.v models `_get_loop_graph`; the result of networkx.cycle_basis is an argument. Proved from: parallel branches are reported in one direction, their keys are 0..m-1 (pigeonhole), a branch is replaced by key 1 only if it has a parallel branch.
- **C101 loops_map is a basis of the loops** - LoopGraphAlg.v: linear algebra over two elements; a basis for the graph of node pairs lifts to the multigraph by adding, for each list of parallel branches, the pairs of neighbours. That networkx returns a basis is the hypothesis `is_cycle_basis`.
- **C102 loop_adjacency_map lists the shared branches** - False: loops of two parallel branches keep the direction in which the branches are reported, cycles are sorted, so a shared branch is missed when the larger node was added first. Proved when the smaller was added first; what is listed is always shared.
- **C103 getEdgesSharedWithLoop returns the loop and its neighbours** - Graph.v; sc_loops contains each branch in one direction only, so disjointness of sets of triples is disjointness of sets of branches.
- **C104 Single particle charging energies are those of one Cooper pair** - SymHam.v: entry of the inverse capacitance matrix; the energy is 1/2 V^T C V for the potentials with C V = charge, C and its inverse being arguments.
- **C105 The flux basis** - NumOp.v, NumFlux.v: exact entries; false because the entry (2t, 0) is removed from D as well.
- **C106 The discretised flux basis** - NumOp.v, NumFlux.v: the discrete Fourier sums for shifts by k steps; false because the eigenstates are in ascending order here, so the wrong corner is removed, and only one entry of it.
- **C107 The charge-basis commutator is canonical** - NumOp.v, NumFlux.v: entries of the commutator with a diagonal charge operator; false, the diagonal is 0.
- **C108 Josephson displacement and flux operator of a node belong together** - NumOp.v, NumFlux.v: exp by any eigen-decomposition, independent of the choice; true in the oscillator basis, opposite sign in the charge basis.
- **C109 computeExprSweep substitutes the swept values at every grid point** - ExprSweep.v on top of Sweep.v and the expression algebras of Expr.v; for every structure satisfying the laws, by induction on the grid.
- **C110 A parameter sweep leaves the parameter values alone** - NumSweep.v; invariant along the grid loop (NumSteady.v), then the uniqueness of solutions for the restoring call. False as stated (the swept parameters stay at the last grid point): refuted on a concrete sweep; what the sweep leaves, and that setting the swept parameters back restores everything, is proved.
- **C111 A sweep runs what was added since the last sweep** - SweepConf.v: the four calls as steps on (system, sweep_specs, evaluations, files); what was asked for is an inductive relation on the calls (SweepConfSpec.v); induction on the calls. False after a raising paramSweep (refuted).
- **C112 Numbers and operators follow the reported parameter values** - NumShared.v (setParameterValues with the state a raising call leaves; systems sharing a SymbolicSystem) over NumSweep.v; coherence is stated in NumCoherentSpec.v through the values reported and the evaluation of expressions. Proved for calls that return (sweeps with fixed impedances, through the refinement of C58); refuted for a raising call, for two systems of one SymbolicSystem and for a sweep of an impedance.
- **C113 Pauli coefficients are those of the local basis** - Pauli.v: the whole function, numpy's eigh being any function that diagonalises Hermitian 2 by 2 matrices (one is constructed as a witness); closed form in the matrix elements from the spectral decomposition. False where the operator is diagonal in the two levels (0/0 gives NaN) and for lists (TypeError): both refuted.
- **C114 Subspace operators may stand for the basis operator** - Pauli.v: both branches of the type test; pointwise equality of the 2 by 2 operators.
- **C115 diagonalize follows the last setDiagConfig of its system** - DiagConf.v: a heap of option dictionaries with the default argument as one shared object; separation invariant by induction on the calls. False: changing an option of a configuration that uses the default changes it for all systems (refuted).
- **C116 The Hamiltonians are the total energy of the circuit** - SymTotal.v on SymHam.v and Symbolic.v: sums of the modelled terms; the charging energy by C v = Q + Qb (duality of the quadratic form), the rest by C49 and C90. False: phase slip nanowires are missing in the classical Hamiltonian (refuted); branches from a node to itself make the quantum one raise.
- **C117 Hamilton's equations of getClassicalHamiltonian are Kirchhoff's laws** - SymTotal.v: derivatives of finite sums (Coquelicot), symmetry of the inverse capacitance matrix. False if a biased inductor shares a node with another, and for flux quanta other than 2 pi (refuted).
- **C118 moveFluxBias does not change the physics** - On Symbolic.v, SymHam.v and SymTotal.v: a function on the branches that vanishes on closed walks is a difference of node potentials (induction on the branches); the potential is the shift. Converse with one junction amplitude at a time and a bias for which the loop sum is an odd multiple of pi. False for branches in opposite directions and for a branch shared with another loop (refuted): the check announced in a comment is missing.
- **C119 Flux quantum periodicity of the Hamiltonian** - On NumOp.v and NumSubst.v (substitute): flux biases of junctions enter through exp(2 pi i b) only, so the matrix is the same (equality). False for biases of inductors, which enter the quadratic form (refuted on an rf SQUID with one oscillator state, whose single eigenvalue moves from -1 to -1/2).
- **C120 Reversing the flux biases keeps the spectrum** - Every node has a signed permutation (identity in the charge basis, alternating signs in the oscillator basis) that with complex conjugation keeps Q and reverses P and exchanges the displacement operators; tensor products, quadratic forms and cosine terms follow, so H(-b) = U H(b)* U^dagger. tidyup commutes with signed permutations and conjugation.
- **C121 Reversing the charge biases keeps the spectrum** - As C120 with the reversal of the charge states in the charge basis and the identity in the oscillator basis.
- **C122 The Hamiltonian depends on the biases of junctions through loop fluxes** - On NumOp.v and NumSubst.v. The difference of the branch biases sums to a whole number round each loop, so it is the difference of a node potential up to whole numbers (potential_whole); the diagonal unitary with the phases of the charge states at the charge nodes turns one Hamiltonian into the other term by term; on nodes joined to ground by inductors the potential is whole. tidyup moves each entry by less than 2e-12. False in the oscillator basis (refuted on two parallel junctions with one oscillator state).
- **C123 The loaded parameters of a resonator are stored with the right values** - ResonInit.v: the whole constructor for circuits with resonators, sympy's results as arguments. Invariant of the collection with ranks (acyclicity), the system built inside the constructor (ResonInitNest.v) and the loop of the outer one (ResonInitMain.v); the values of the expansions by solving the parameterisations for arbitrary component values.
- **C124 The classical potential function exists and takes every flux** - PotIn.v: linear forms of node and bias symbols, the dict of inputs, lambdify as a check that all symbols are arguments, positional arguments. Invariants of the parameter collection (every symbol is the one derived from its name) and of the biases (each on one branch, kept by moveFluxBias); the junction part through C90.
- **C125 Coordinates and biases of the symbolic Hamiltonian can be set independently** - HamSyms.v: sympy symbols as pairs of a name and commutativity, substitution as a function on symbols. Existence of the substitution by parsing names; exact condition and counterexample.
- **C126 Raising charge truncations keeps matrix elements and lowers levels** - NumOp.v, NumSubst.v as before. Matrix elements: the operators of one node sit in those of a larger truncation with an offset, and no product of the Hamiltonian leaves the embedded states; through the Kronecker product, the quadratic form and the product over the nodes of a branch. Levels: Cauchy interlacing, proved by a dimension count (an underdetermined homogeneous system has a solution) and the Rayleigh quotient.
- **C127 Charge biases matter only up to whole Cooper pairs** - NumOp.v, NumSubst.v as before. As C126, where the states of a node are embedded with an offset t' - t + k and its charge operator is moved by k, which the bias takes up; phase slip terms see the bias through a phase of period 1.
- **C128 Energy levels are continuous in the junctions and bounded from below** - NumOp.v, NumSubst.v as before. Operator norms (NumBound.v): the displacement operators of a charge node are partial isometries, those of an oscillator node unitary up to tidyup, the products over the nodes of a branch are bounded by the product of the norms; the difference of two Hamiltonians is bounded by induction over the branches, and Weyl's inequality is proved by a dimension count. For the floor the quadratic parts are shown not to be negative, from the positivity of the circuit's electrostatic and inductive energies (C46, C48).
- **C129 Levels fall when capacitances or inductances grow** - NumOp.v, NumSubst.v as before. The capacitance matrix is the form of the electrostatic energy (C46), which grows with each capacitance; the inverse of a larger positive form is smaller; the inverse inductance form is the inductive energy (C48), which falls with each inductance. The operators of charge nodes are shown to be those of the first run. Weyl's inequality as in C128.
- **C130 The charge of an island is conserved** - NumOp.v, NumSubst.v as before; IslandSpec.v: set of nodes closed under the junctions, sum of charge operators. The charge is diagonal in the tensor basis; a junction inside the set raises one node and lowers the other, so H has non-zero elements only between states of equal charge, and tidyup keeps zeros.
- **C131 The order and direction of the branches do not matter** - NumOp.v, NumSubst.v, Symbolic.v as before; RedrawSpec.v: branches as ends, values and bias, lists equal up to order and turning. Matrix elements are sums over branches; the capacitive and inductive parts are the quadratic forms of SymbolicSpec.v, which are sums over branches too, and inverses are unique.
- **C132 Components in parallel combine** - NumOp.v, NumSubst.v, Symbolic.v as before; ParallelSpec.v: totals of a quantity between two nodes. Every part of the Hamiltonian is a sum over branches of a quantity times a function of the two ends, even or odd under exchange of the ends, so it depends on the totals only.
- **C133 The order of the nodes does not matter** - NumOp.v, NumSubst.v, Symbolic.v as before; RelabelSpec.v: the same circuit with nodes in another order. By induction on the permutation the tensor products over the nodes agree up to a renumbering of the states; the renumbering respects sums and products, so every part of the Hamiltonian follows; the matrices and biases over the nodes are fixed by the totals of C132. The levels follow from the interlacing of C126 applied to the renumbering and to its inverse.
- **C134 Setting one parameter of a NumericalSystem** - NumSetOne.v models the wrapper on top of Coll.v and NumSweep.v; coherence as in C112 (NumCoherentSpec.v). By the invariant of reachable collections an update never writes an independent parameter.

## Trusted base

* Coq 8.16.1's kernel (including its `vm_compute` conversion, which the
  refutations by computation use) and the `coqc` that ran it. No plugin, no
  extraction, no kernel check switched off.
* The correspondence between the model and the Python text in `/repo`, which is
  by reading: every model definition cites file and lines.
* The axioms below, all from Coq's standard library, as listed by
  `Print Assumptions` for each property theorem. None is added here.
  Real numbers bring `sig_not_dec`, `sig_forall_dec` (the classical Dedekind
  reals) and functional extensionality; Coquelicot, Flocq and parts of `Reals`
  also use `Classical_Prop.classic`.

### Assumptions per theorem

<!-- assumptions begin -->
* **no axioms** (closed under the global context) (196 theorems): C04_first_point_refuted, C06_add_existing_changes_nothing, C06_add_new_registers_unset, C06_add_rejected_changes_nothing, C06_registries_in_step, C07_setParameterValue_skips, C07_setParameterValues_skips, C07_skipped_entries, C08_acyclic_always, C08_cycle_check_exact, C09_fuel_irrelevant, C09_terminates_partial, C09_terminates_refuted, C100_loops_closed, C101_loops_basis, C101_loops_number, C102_partial, C102_refuted, C102_sound, C103_shared_branches, C109_expr_sweep, C10_constant_expression_refuted, C10_no_refresh_refuted, C10_values_follow_partial, C110_after_partial, C110_refuted, C110_restore, C111_asked_partial, C111_refuted, C112_raise_refuted, C112_set_partial, C112_shared_refuted, C112_sweep_partial, C112_sweep_refuted, C115_conf_partial, C115_dense, C115_refuted, C11_defined_values_agree_partial, C11_order_irrelevant_partial, C11_order_refuted, C12_missing_input_partial, C12_missing_input_refuted, C134_current, C134_ignored, C134_one_by_one, C134_same, C134_unset, C13_replaced_partial, C13_stale_cycle_refuted, C13_stale_edge_set_refuted, C14_remove_parametric_partial, C14_remove_root_refuted, C15_last_wins_partial, C15_not_atomic_refuted, C16_default_symbols_distinct, C16_symbol_roundtrip, C17_expansion, C17_expansion_returns, C17_meaning_unique, C18_partition_partial, C18_stale_edge_refuted, C19_grid_is_row_major_product, C20_collapsedIndices_bijection, C21_computeFuncSweep_each_point_once, C21_result_at_point, C23_answer_covers_suffix_list_partial, C23_answer_covers_suffix_partial, C23_one_dimensional_refuted, C23_outermost_missing_list_refuted, C23_outermost_missing_refuted, C24_order_irrelevant, C26_iota_refuted, C26_latexify_greek_partial, C26_latexify_greek_refuted, C26_latexify_plain, C26_latexify_total_injective, C32_accepted_branch, C32_wrong_prefix, C33_every_duplicate_blocks, C33_refuted, C33_wrong_prefix_partial, C34_listings_partial, C34_lookup_missing, C34_lookup_sound, C34_lookup_total_partial, C34_one_type, C34_refuted, C35_loop_count, C35_refuted, C35_split_exact, C35_split_partial, C35_tree, C36_own_branch, C37_C38_rooted_partial, C37_grown_partial, C37_refuted, C38_grown_partial, C38_key_refuted, C38_refuted, C39_accepts_partial, C39_refuted, C39_suffixes_distinct, C40_accepts, C40_suffixes_distinct, C41_coupling_partial, C41_flux_partial, C41_refuted, C42_accepts_partial, C42_self_refuted, C42_twice_refuted, C43_accepts, C43_remove_all, C44_branches_and_mutuals_partial, C44_refuted, C45_defined, C50_calls_partial, C50_exact, C50_mutual_fails, C50_no_ground, C50_partial, C50_refuted, C51_modes_partial, C51_modes_refuted, C52_distinct_partial, C52_distinct_refuted, C53_conserves_partial, C53_conserves_refuted, C53_move, C53_rejected, C58_in_sync, C58_ready, C58_sweep_partial, C59_order_refuted, C59_refuted, C59_two_stage_partial, C60_own_pairs_partial, C60_refuted, C61_add, C61_distinct, C61_refuted, C61_retrievable_partial, C65_write_read_roundtrip, C66_after_clear_refuted, C66_clear_exact_partial, C66_id_reuse_refuted, C66_others_cannot_touch_partial, C67_getNeighbours_bad_character, C67_getNeighbours_exact, C68_sequences_return_to_start, C68_sequences_sound_complete, C70_mdot_mismatch, C70_mdot_partial, C70_mdot_refuted, C73_lamb_shift_narrow_array, C73_shift_tables, C74_orthonormal_encoding, C75_sanFloat_refuted, C78_parameterised_refuted, C79_dict_lost, C79_refuted, C79_single_partial, C86_extended, C86_indices, C86_indices_total, C88_component_refuted, C88_coupling_refuted, C88_extended_partial, C88_same_coupling_refuted, C89_bias_refuted, C89_defined_exact, C89_defined_partial, C89_stale_refuted, C89_symmetric, C96_all_set, C96_cancelled_refuted, C96_inputs_exact, C96_inputs_partial, C96_not_parametric, C96_prefactor_refuted, C96_removed_refuted, C97_direct_exact, C97_nested_refuted, C97_parametric_empty_partial, C97_unknown_name_partial, C97_unknown_name_refuted, C98_atomic_refuted, C98_invalid_name_exact, C98_override_refuted, C98_succeeds, C98_symbols, C98_too_few_overrides_exact, C99_symbol_values_partial, C99_symbol_values_refuted, C99_unknown, C99_values, C99_values_dict.
* `ClassicalDedekindReals.sig_forall_dec` (2 theorems): C114_short, C81_errors.
* `ClassicalDedekindReals.sig_forall_dec`, `FunctionalExtensionality.functional_extensionality_dep` (63 theorems): C02_nan_refuted, C104_single_particle, C123_loaded_partial, C124_inductor_exact, C124_refuted, C124_suffix_exact, C124_unset, C125_independent_exact, C25_far_value_refuted, C45_energy_partial, C45_energy_refuted, C45_form_exact, C45_symmetric, C46_positive_definite_partial, C46_positive_definite_refuted, C47_branch_flux, C47_walk_sum, C48_defined, C48_form, C48_semidefinite, C48_symmetric, C49_bias_partial, C49_bias_refuted, C49_exact, C55_product, C69_decomposition_partial, C69_decomposition_refuted, C71_values_only, C76_isStoquastic_all_orders_partial, C76_isStoquastic_never_false, C76_isStoquastic_refuted, C78_parameterised_partial, C81_voltage_exact_partial, C81_voltage_partial, C84_defined, C84_diagonal_partial, C84_errors, C84_real_part_partial, C85_errors, C86_loading, C87_elements, C88_constructed_partial, C89_energy_partial, C89_self_refuted, C89_values_partial, C90_defined_exact, C92_charging_exact, C92_charging_partial, C92_charging_refuted, C92_flux_exact, C92_flux_partial, C92_flux_refuted, C93_modes_partial, C93_modes_refuted, C94_cooper_partial, C94_fluxon_partial, C94_identity, C94_integer_refuted, C94_scaling_exact, C94_scaling_refuted, C95_charge_partial, C95_oscillator_partial, C95_parallel_refuted.
* `ClassicalDedekindReals.sig_forall_dec`, `ClassicalDedekindReals.sig_not_dec`, `FunctionalExtensionality.functional_extensionality_dep` (111 theorems): C105_flux_partial, C105_flux_refuted, C106_grid_partial, C106_grid_refuted, C107_charge_commutator_refuted, C108_charge_refuted, C108_oscillator_partial, C113_basis_partial, C113_coefficients_partial, C113_lists_refuted, C113_nan, C113_phases_partial, C113_refuted, C114_list, C116_classical_exact, C116_classical_partial, C116_quantum_partial, C118_inductors_partial, C118_loops_exact, C118_shared_refuted, C118_shift_partial, C119_defined, C119_inductor_refuted, C119_period_partial, C120_flux, C121_charge, C122_loops_partial, C122_move_partial, C122_oscillator_refuted, C124_inputs_partial, C125_refuted, C125_value, C126_levels, C126_oscillator_refuted, C126_states, C127_levels, C127_period_refuted, C127_states, C128_continuous, C128_floor, C129_levels, C130_charge, C130_junction_leaves, C131_same, C132_same, C133_levels, C133_same, C27_prefactors_refreshed_partial, C27_refuted, C27_successful_call_refreshes_partial, C27_zero_refuted, C28_refuted, C28_setCurrentUnit_partial, C28_setCurrentVoltage_reject, C28_setEnergyUnit_partial, C28_setEnergyUnit_rejects, C28_setUnit_prefixed_partial, C28_setUnit_rejects, C28_setVoltageUnit_partial, C29_quadratic_energies_partial, C29_refuted, C29_tunnelling_energies_partial, C30_coupling_refuted, C30_impedance_refuted, C30_oscillator_quantities_partial, C31_refuted, C31_units_objects_independent_partial, C54_size_partial, C54_size_refuted, C55_commute, C56_charge, C57_hermitian_partial, C57_hermitian_refuted, C57_total_partial, C58_refuted, C62_commutator_partial, C62_commutator_refuted, C63_classical_partial, C63_classical_refuted, C63_quantum_partial, C64_bare_partial, C64_bare_refuted, C71_no_eigenvalues, C71_sorted_and_paired, C72_gap_preserved, C77_first_system_units_partial, C77_refuted, C80_split, C81_voltage_refuted, C82_inductive_exact_partial, C82_inductive_partial, C82_inductive_refuted, C82_junction_partial, C82_junction_refuted, C82_junction_state_partial, C82_units, C83_hermitian, C84_refuted, C85_energies, C87_design, C87_loaded, C90_classical, C90_quantum_partial, C90_self_refuted, C90_slips_partial, C91_coefficient_exact, C91_energies_exact, C91_numerical, C91_numerical_slips, C92_junctions_partial, C92_junctions_refuted.
* `ClassicalDedekindReals.sig_forall_dec`, `ClassicalDedekindReals.sig_not_dec`, `Classical_Prop.classic`, `FunctionalExtensionality.functional_extensionality_dep` (26 theorems): C01_setValue_rule, C02_constructor_refuted, C02_inside_partial, C02_setBounds_refuted, C03_atomic_partial, C03_ordered_partial, C03_overflow_refuted, C04_linearSweep, C05_points_in_bounds_partial, C05_subnormal_refuted, C116_defined_exact, C116_slip_refuted, C117_bias_refuted, C117_currents_exact, C117_currents_partial, C117_units_refuted, C117_voltage_partial, C118_direction_refuted, C128_flux, C22_slice, C24_submesh, C25_nearest_computed, C25_nearest_partial, C75_sanArray, C75_sanFloat_partial, C91_coefficient_refuted.
<!-- assumptions end -->

### What is modelled

| code | model | notes |
|---|---|---|
| text2latex.py (all) | Latex.v | exact |
| dataspec.py `TempData` | Temp.v | file system as a map; pickling is the identity; no other process |
| parameters.py `Param` (19-193) | Param.v, Float.v | IEEE binary64 through SpecFloat; Python argument types as far as the code tells them apart |
| parameters.py `ParamCollection`, values and parameterisations (196-760, 888-927, 1207-1240) | Expr.v, Coll.v, CollQuery.v | sympy is any structure with the laws of Expr.v (`alg_ok`), with two concrete instances; set order is an oracle; networkx DiGraph as lists |
| parameters.py sweeps (771-1166) | Sweep.v | numpy arrays as shape and row-major list |
| units.py, physical_constants.py | Units.v | heap of unit objects so that sharing is visible; numbers abstract, instantiated by the reals |
| util.py | Mat.v, Util.v | exact numbers, or binary64 where the property is about floats |
| circuit_graph.py (all but drawing) | Graph.v, LoopGraph.v | networkx.cycle_basis is an argument of LoopGraph.v; networkx multigraphs as ordered lists, iteration orders as oracles; nodes are natural numbers |
| symbolic_system.py | Symbolic.v | matrix entries as integer combinations of component symbols; pseudo-inverse by oracle or Penrose equations; couplings included |
| symbolic_system.py Josephson and phase slip terms, transforms (93-116, 194-231, 363-394, 396-551, 584-611, 794-823) | SymHam.v | values of the expressions are reals, products of operators lists of factors; coefficients of Rnb Rinv exact |
| symbolic_system.py loaded resonators (679-755) | Reson.v | values of the expressions are reals; inverse and pseudo-inverse by their defining equations; the parameterisations added at the end as formulas |
| numerical_system.py operators, Hamiltonian, potential, resonator response (84-260, 439-594, 736-790, 1057-1268) | NumOp.v | exact complex numbers; eigensolver and inverse are arguments with stated correctness hypotheses |
| numerical_system.py currents, voltages, energies (439-493, 596-734) | NumEval.v | as NumOp.v |
| numerical_system.py substitution and sweeps (318-437, 499-507, 815-1044) | NumSweep.v | evaluables are arbitrary functions of what they can read |
| parameters.py computeExprSweep (974-1002) | ExprSweep.v | as Sweep.v and Expr.v |
| numerical_system.py newSweep, addSweep, addEvaluation, paramSweep, _init_sweep_data (860-931, 1052-1054) as calls on one object | SweepConf.v | system and files left by a raising paramSweep are arbitrary |
| numerical_system.py setParameterValues (831-837) with the state left by an exception; two systems of one SymbolicSystem (41) | NumShared.v | numbers and operators computed before an exception in substitute or prepareOperators are not stored |
| util.py createSubspaceOperators, pauliCoefficients (286-391) | Pauli.v | exact complex numbers in place of complex64; NaN as None; numpy.linalg.eigh is an argument |
| numerical_system.py setDiagConfig, getDiagConfig, diagonalize (790-810) | DiagConf.v | a dictionary passed by the caller is fresh; the solvers are arguments |
| symbolic_system.py getChargingEnergies, getFluxEnergies, getClassicalHamiltonian, getQuantumHamiltonian (526-551) | SymTotal.v | values for given values of the symbols; no transform |
| symbolic_system.py moveFluxBias (253-277) with the Hamiltonians | Symbolic.v, SymTotal.v; spec MoveSpec.v | printing left out |
| numerical_system.py getSymbolicExpressions (280-297), substitute (316-355) | NumSubst.v; spec NumSymSpec.v | matrix inverses are arguments; values of symbols are a function |
| constructor with resonators: symbolic_system.py 15-88, 194-224, 363-385, 690-755 (mode_transform=False) | ResonInit.v | sympy's inverse, pseudo-inverse and the expressions of lines 732-734, 747-748 are arguments |
| classical potential function: numerical_system.py 310-314, 1290-1352 | PotIn.v | numpy arrays as inputs are not modelled; lambdify is modelled by the check that every symbol is an argument, its error for other symbols as SyntaxError |
| symbols of getClassicalHamiltonian: symbolic_system.py 244, 542-545, 569-577, 651-670, 768-770, 786 | HamSyms.v | values instead of expressions; the inverse matrices are arguments |
| numerical_system.py setParameterValue (817-824) | NumSetOne.v | as NumShared.v |
| loop fluxes and unitary equivalence (specification for C122) | NumGaugeSpec.v | no further code modelled |

### What is not modelled

* sympy, numpy, scipy, qutip and networkx themselves: their results enter
  through the definitions above or through hypotheses (eigen-decompositions,
  inverses, order oracles). numpy.linspace, networkx spanning trees and paths
  are modelled because properties depend on their details.
* Floating-point rounding outside Param, sweeps and sanitising: operators,
  units and matrices use exact real or complex numbers.
* Drawing (`drawGraphViz`, `drawParameterisationGraph`), printing, progress
  bars, timing, `pickleWrite`/`pickleRead`.
* sympy's `diagonalize` (any V, D with Linv V = V D) and numerical operators after a transform.
* Getters that only return an attribute (`getNodeList`, `getCircuitGraph`, ...).
* What is left in a NumericalSystem by a sweep that raises.
