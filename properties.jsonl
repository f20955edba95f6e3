{"id": "C01", "title": "Param.setValue accept/reject rule", "statement": "Param.setValue(v) raises TypeError unless type(v) is int, float or np.float64; raises OverflowError for an int too large for a double; raises ValueError when float(v) >= upper bound or float(v) <= lower bound; otherwise getValue() returns exactly float(v). Whenever it raises, value, bounds, sweep and N are what they were.", "quantifier": "every Param state, every Python argument value including NaN, infinities, bools, arbitrary big ints", "why_tests_cant": "the argument domain (all doubles, all unbounded ints, all bound pairs) is infinite and the comparison edge cases (equality with a bound, NaN) need every combination", "anchors": ["pyscqed/parameters.py:Param.setValue", "pyscqed/parameters.py:Param.getValue"]}
{"id": "C02", "title": "A Param's value never lies outside its bounds", "statement": "In every history of constructor, setValue, setBounds and linearSweep calls (accepted or rejected) a Param whose value is set has lower bound < value < upper bound.", "quantifier": "every history of Param calls", "why_tests_cant": "an invariant over unbounded call histories; tests only sample short ones", "anchors": ["pyscqed/parameters.py:Param.__init__", "pyscqed/parameters.py:Param.setValue", "pyscqed/parameters.py:Param.setBounds"]}
{"id": "C03", "title": "Param bounds stay ordered and rejected setBounds changes nothing", "statement": "After any history of calls getBounds() returns [lo, hi] with not lo > hi, and a setBounds call that raises leaves the bounds as they were.", "quantifier": "every history of Param calls, all argument values", "why_tests_cant": "needs every argument pair including ints beyond double range and NaN, at every point of a history", "anchors": ["pyscqed/parameters.py:Param.setBounds", "pyscqed/parameters.py:Param.__init__"]}
{"id": "C04", "title": "linearSweep shape and end points", "statement": "An accepted linearSweep(start, end, N) has N >= 0 and stores and returns exactly N points; for N >= 2 the last point is float(end) exactly; for N >= 1 the first point equals float(start) whenever float(end) - float(start) does not overflow; the sweep array and N reported afterwards are the new ones, and a rejected call (exactly: wrong types, an end point outside the closed bounds, or N < 0) leaves the parameter unchanged.", "quantifier": "all starts, ends, bounds and all N", "why_tests_cant": "quantifies over all doubles and all N", "anchors": ["pyscqed/parameters.py:Param.linearSweep"]}
{"id": "C05", "title": "Every point of a linear sweep respects the bounds", "statement": "An accepted linearSweep(start, end, N) only produces points p with lower bound <= p <= upper bound, in double arithmetic as numpy.linspace computes it.", "quantifier": "all double starts/ends/bounds accepted by the check, all N", "why_tests_cant": "rounding behaviour over all doubles and all N cannot be sampled; the exceptions are measure-zero", "anchors": ["pyscqed/parameters.py:Param.linearSweep"]}
{"id": "C06", "title": "Adding a parameter is idempotent and the three registries stay in step", "statement": "addParameter(name) on an existing name changes nothing (its value, symbol and sweep survive); on a new name it registers an unset parameter. In every history the parameter dictionary and the symbol dictionary have the same keys, without repetition, and each new parameter appears in the dependency graph.", "quantifier": "every history of ParamCollection calls", "why_tests_cant": "unbounded histories of adds, removals and re-adds", "anchors": ["pyscqed/parameters.py:ParamCollection.addParameter", "pyscqed/parameters.py:ParamCollection.rmParameter"]}
{"id": "C07", "title": "Parameterised parameters cannot be set directly", "statement": "setParameterValue and setParameterValues never directly write the value of a parameter that currently has a parametric expression: such an entry is skipped and every other parameter is treated as if the entry was absent.", "quantifier": "every collection state, every list of name/value pairs", "why_tests_cant": "all states and all argument lists", "anchors": ["pyscqed/parameters.py:ParamCollection.setParameterValue", "pyscqed/parameters.py:ParamCollection.setParameterValues"]}
{"id": "C08", "title": "The dependency graph is acyclic in every history", "statement": "After any sequence of API calls the parameterisation dependency graph has no directed cycle; addParameterisation raises AssertionError exactly when the new edges would close a cycle, and then leaves the collection unchanged.", "quantifier": "every history of ParamCollection calls", "why_tests_cant": "acyclicity is an invariant over all histories and all graphs", "anchors": ["pyscqed/parameters.py:ParamCollection.addParameterisation", "pyscqed/parameters.py:ParamCollection.rmParameterisation"]}
{"id": "C09", "title": "Setting values and expanding expressions always terminates", "statement": "In every reachable collection getParametricExpression(name, expand=True), setParameterValue and setParameterValues return (normally or with an exception) after finitely many steps.", "quantifier": "every history of ParamCollection calls, every set iteration order", "why_tests_cant": "termination cannot be tested; depends on every expression graph and hash order", "anchors": ["pyscqed/parameters.py:ParamCollection.getParametricExpression", "pyscqed/parameters.py:ParamCollection.addParameterisationPrefactor", "pyscqed/parameters.py:ParamCollection._update_parameterisations"]}
{"id": "C10", "title": "Parametric values equal their expressions after a set", "statement": "After a successful setParameterValue(s), every parametric parameter whose (nested) independent parameters all have values holds the value of its expression, nested expressions being evaluated recursively, provided that value is a real number strictly inside its bounds.", "quantifier": "every history, every dependency DAG, every set iteration order", "why_tests_cant": "requires all DAG shapes and all histories", "anchors": ["pyscqed/parameters.py:ParamCollection._update_parameterisations", "pyscqed/parameters.py:ParamCollection.setParameterValues"]}
{"id": "C11", "title": "Results do not depend on hash/set iteration order", "statement": "The values held after a successful setParameterValue(s) call are the same for every iteration order of the Python sets and free-symbol sets used internally.", "quantifier": "every pair of iteration orders, every history", "why_tests_cant": "set order varies between interpreter runs (hash randomisation); a test sees one", "anchors": ["pyscqed/parameters.py:ParamCollection._update_parameterisations", "pyscqed/parameters.py:ParamCollection.getParametricExpression"]}
{"id": "C12", "title": "A parametric parameter with a missing input keeps its value", "statement": "After a successful set, a parametric parameter that depends (transitively) on an independent parameter without value still has the value it had before (None if it never had one).", "quantifier": "every history, every dependency DAG", "why_tests_cant": "all DAG shapes and histories", "anchors": ["pyscqed/parameters.py:ParamCollection._update_parameterisations"]}
{"id": "C13", "title": "Re-parameterising replaces the old dependencies", "statement": "addParameterisation on an already parameterised name overwrites it: afterwards only the dependencies of the new expression count, both for cycle detection and for later rmParameterisation and setParameterValues calls.", "quantifier": "every history with repeated addParameterisation on one name", "why_tests_cant": "needs histories mixing overwrite, removal and set", "anchors": ["pyscqed/parameters.py:ParamCollection.addParameterisation", "pyscqed/parameters.py:ParamCollection.rmParameterisation"]}
{"id": "C14", "title": "Removing a parameter leaves the others usable", "statement": "After rmParameter(x) of a parameter no expression uses, setParameterValue on any remaining parameter behaves as if x had never existed.", "quantifier": "every history containing rmParameter", "why_tests_cant": "needs arbitrary histories around the removal", "anchors": ["pyscqed/parameters.py:ParamCollection.rmParameter", "pyscqed/parameters.py:ParamCollection._update_parameterisations"]}
{"id": "C15", "title": "setParameterValues: order, last-wins and failure behaviour", "statement": "For argument lists whose names are all known and values all acceptable, setParameterValues stores for every name the last value given for it and leaves every unmentioned independent parameter unchanged; if it raises on an entry no parameter is changed.", "quantifier": "every collection, every argument list (positional or dict)", "why_tests_cant": "all argument lists; failure atomicity at every position", "anchors": ["pyscqed/parameters.py:ParamCollection.setParameterValues"]}
{"id": "C16", "title": "Names and symbols correspond one to one", "statement": "Distinct non-empty names have distinct default symbols, and in every collection built without clashing symbol overrides getParameterFromSymbol(getSymbol(n)) = n for every registered name n.", "quantifier": "all names, every history", "why_tests_cant": "injectivity over all strings and all histories", "anchors": ["pyscqed/parameters.py:Param.__init__", "pyscqed/parameters.py:ParamCollection.getParameterFromSymbol", "pyscqed/parameters.py:ParamCollection.getSymbol"]}
{"id": "C17", "title": "Expanded expressions mention only independent parameters and keep their meaning", "statement": "getParametricExpression(name, expand=True) has no symbol of a parametric parameter, and for all values of the independent parameters it evaluates to the same number as evaluating the nested expressions one inside the other.", "quantifier": "every history, every dependency DAG, every set iteration order, all values", "why_tests_cant": "all nesting shapes and substitution orders", "anchors": ["pyscqed/parameters.py:ParamCollection.getParametricExpression"]}
{"id": "C18", "title": "Swept and non-swept parameters partition the collection", "statement": "After ndSweep over independent parameters, getSweepParametersDict contains exactly the swept parameters and everything depending on them (transitively); getNonSweepParametersDict contains exactly the rest; together they cover the collection without overlap.", "quantifier": "every history, every dependency DAG, every sweep specification", "why_tests_cant": "transitive closure over all DAGs", "anchors": ["pyscqed/parameters.py:ParamCollection.getSweepParametersDict", "pyscqed/parameters.py:ParamCollection.getNonSweepParametersDict", "pyscqed/parameters.py:ParamCollection.getParameterisationsInvolving"]}
{"id": "C19", "title": "The collapsed sweep grid is the row-major Cartesian product", "statement": "After ndSweep(spec) with distinct names, for all indices (i1..in) in range, sweep_grid_c[p_k][collapsedIndices(i1..in)] equals the i_k-th point of the k-th sweep, each collapsed array has sweep_grid_npts entries, and the last parameter varies fastest.", "quantifier": "any number of dimensions, any sweep lengths, all indices", "why_tests_cant": "number of dimensions and lengths unbounded", "anchors": ["pyscqed/parameters.py:ParamCollection.ndSweep", "pyscqed/parameters.py:ParamCollection.collapsedIndices"]}
{"id": "C20", "title": "collapsedIndices is a bijection", "statement": "collapsedIndices maps the in-range index tuples one-to-one onto 0 .. npts-1.", "quantifier": "any number of dimensions, any sweep lengths", "why_tests_cant": "unbounded dimensions", "anchors": ["pyscqed/parameters.py:ParamCollection.collapsedIndices"]}
{"id": "C21", "title": "computeFuncSweep evaluates each grid point exactly once in order", "statement": "computeFuncSweep(f, spec) calls f once per grid point and sweep_grid_result[collapsedIndices(i1..in)] is f applied to the parameter dictionary with p_k set to its i_k-th point.", "quantifier": "every function, any dimensions", "why_tests_cant": "all f and all grids", "anchors": ["pyscqed/parameters.py:ParamCollection.computeFuncSweep"]}
{"id": "C22", "title": "getSweepResult (one variable) returns the requested slice", "statement": "With every other swept parameter given as static, getSweepResult(var, static) returns data[collapsedIndices(...)] along var with each static parameter at its selected index, in the order of var's sweep, whatever the order of static_vars.", "quantifier": "any number of dimensions, any data, any static values", "why_tests_cant": "unbounded dimensions and index layouts", "anchors": ["pyscqed/parameters.py:ParamCollection.getSweepResult"]}
{"id": "C23", "title": "getSweepResult rejects incomplete static variables", "statement": "getSweepResult raises when a swept parameter is neither an independent nor a static variable.", "quantifier": "all sweep specifications and static dictionaries with a missing entry", "why_tests_cant": "all specs", "anchors": ["pyscqed/parameters.py:ParamCollection.getSweepResult"]}
{"id": "C24", "title": "getSweepResult (several variables) returns the requested sub-mesh", "statement": "With ind_var a list, entry (j_k,...,j_1) of the returned array is the data at indices j_1..j_k of the independent variables in specification order with statics fixed; permuting ind_var does not change the result.", "quantifier": "any number of dimensions and of independent variables", "why_tests_cant": "unbounded dimensions", "anchors": ["pyscqed/parameters.py:ParamCollection.getSweepResult"]}
{"id": "C25", "title": "Static values snap to the nearest sweep point", "statement": "The static value reported is a point of that parameter's sweep, no other point is closer to the requested value, and ties go to the first point.", "quantifier": "all sweeps, all requested values", "why_tests_cant": "all arrays and values", "anchors": ["pyscqed/parameters.py:ParamCollection.getSweepResult"]}
{"id": "C26", "title": "latexify_param_name is total on non-empty names, lossless and greek-aware", "statement": "For every non-empty name the LaTeX name is HEAD_\\mathrm{TAIL} with the original name recoverable (two different names never share a LaTeX name), and a name that starts with a supported Greek symbol name is rendered with that symbol.", "quantifier": "all non-empty strings", "why_tests_cant": "all strings", "anchors": ["pyscqed/text2latex.py:latexify_param_name"]}
{"id": "C27", "title": "Unit setters refresh every prefactor", "statement": "After any sequence of Units calls, every prefactor equals its defining formula of the current unit factors.", "quantifier": "every history of Units calls", "why_tests_cant": "histories of setters", "anchors": ["pyscqed/units.py:Units.setUnit", "pyscqed/units.py:Units._updatePrefactors", "pyscqed/units.py:Units.loadPreset", "pyscqed/units.py:Units.setEnergyUnit"]}
{"id": "C28", "title": "Unit strings are parsed as prefix+base", "statement": "setUnit(prefix+base) sets exactly that base unit's factor to the prefix's power of ten and no other factor; unknown bases or prefixes raise and change nothing; the same for the energy/current/voltage output setters.", "quantifier": "all strings, all states", "why_tests_cant": "all strings", "anchors": ["pyscqed/units.py:Units.setUnit", "pyscqed/units.py:Units.setEnergyUnit", "pyscqed/units.py:Units.setCurrentUnit", "pyscqed/units.py:Units.setVoltageUnit"]}
{"id": "C29", "title": "Physical energies do not depend on the input units", "statement": "For all positive unit factors, the charging, inductive, Josephson and phase-slip energies computed as prefactor times values expressed in those units equal the SI energy times the output energy factor.", "quantifier": "all factors, all physical values", "why_tests_cant": "real-number identity over all factors", "anchors": ["pyscqed/units.py:Units._getEcUnit", "pyscqed/units.py:Units._getElUnit", "pyscqed/units.py:Units._getEjUnit", "pyscqed/units.py:Units._getEpUnit"]}
{"id": "C30", "title": "Oscillator and resonator quantities do not depend on the input units", "statement": "The resonance frequency, impedance, zero-point charge/flux, coupling, voltage and current prefactors give unit-independent physical quantities for all unit factors.", "quantifier": "all factors, all physical values", "why_tests_cant": "real-number identity over all factors", "anchors": ["pyscqed/units.py:Units._getFreqUnit", "pyscqed/units.py:Units._getImpeUnit", "pyscqed/units.py:Units._getChgOscUnit", "pyscqed/units.py:Units._getChgOscCplUnit", "pyscqed/numerical_system.py:NumericalSystem._set_parameter_units"]}
{"id": "C31", "title": "Unit systems of different objects are independent", "statement": "Changing the units of one Units object or of one NumericalSystem changes no other object's factors or prefactors.", "quantifier": "every interleaving of calls on any number of objects", "why_tests_cant": "aliasing across unbounded histories", "anchors": ["pyscqed/units.py:Units.loadPreset", "pyscqed/numerical_system.py:NumericalSystem.__init__"]}
{"id": "C32", "title": "addBranch records exactly the requested branch", "statement": "An accepted addBranch(a, b, comp) adds one branch between a and b carrying comp, with key equal to the number of parallel branches present before; all earlier branches and their components stay; wrong prefixes raise (TypeError for M, ValueError otherwise) and change nothing.", "quantifier": "every circuit, every node pair, every component name", "why_tests_cant": "all multigraphs", "anchors": ["pyscqed/circuit_graph.py:CircuitGraph.addBranch", "pyscqed/circuit_graph.py:CircuitGraph._update_components_map"]}
{"id": "C33", "title": "A rejected addBranch leaves the circuit usable", "statement": "If addBranch raises, the circuit is as it was before and later valid calls succeed.", "quantifier": "every circuit, every rejected call", "why_tests_cant": "all histories around a rejection", "anchors": ["pyscqed/circuit_graph.py:CircuitGraph.addBranch", "pyscqed/circuit_graph.py:CircuitGraph._update_components_map"]}
{"id": "C34", "title": "Branch types and component lookup are consistent", "statement": "In every accepted circuit each branch has exactly one type among capacitive, inductive, Josephson, phase-slip; getComponentEdge returns a branch carrying that component; the four listing functions partition the components.", "quantifier": "every circuit", "why_tests_cant": "all multigraphs", "anchors": ["pyscqed/circuit_graph.py:CircuitGraph.getComponentEdge", "pyscqed/circuit_graph.py:CircuitGraph.getInductiveEdges", "pyscqed/circuit_graph.py:CircuitGraph.isInductiveEdge"]}
{"id": "C35", "title": "Spanning tree and closure branches", "statement": "The spanning tree has no loops and connects exactly what the non-capacitive branches connect; tree and closure branches split the non-capacitive branches; hence the number of closure branches (and of sc_loops) is branches - nodes + connected parts.", "quantifier": "every circuit", "why_tests_cant": "all multigraphs", "anchors": ["pyscqed/circuit_graph.py:CircuitGraph._get_virtual_grounds", "pyscqed/circuit_graph.py:CircuitGraph._get_spanning_tree", "pyscqed/circuit_graph.py:CircuitGraph._get_closure_branches"]}
{"id": "C36", "title": "Each superconducting loop has its own branch", "statement": "Every loop in sc_loops contains its closure branch, and that branch is in no other loop; all its other branches are tree branches.", "quantifier": "every circuit", "why_tests_cant": "all multigraphs (the unit test checks a dozen)", "anchors": ["pyscqed/circuit_graph.py:CircuitGraph._get_sc_loops"]}
{"id": "C37", "title": "Superconducting loops are closed", "statement": "Every loop in sc_loops is a closed loop: at every node an even number of its branches meet.", "quantifier": "every circuit", "why_tests_cant": "all multigraphs and node orders", "anchors": ["pyscqed/circuit_graph.py:CircuitGraph._get_sc_loops"]}
{"id": "C38", "title": "Building a valid circuit never crashes", "statement": "addBranch with a valid, new component name between two nodes always succeeds.", "quantifier": "every circuit, every order of adding branches", "why_tests_cant": "all orders of construction", "anchors": ["pyscqed/circuit_graph.py:CircuitGraph.addBranch", "pyscqed/circuit_graph.py:CircuitGraph._get_sc_loops"]}
{"id": "C39", "title": "Flux bias rules", "statement": "addFluxBias succeeds only for a component in a superconducting loop, with a string suffix of at most 8 characters not already used, on a branch without bias, and (with a mutual inductance) only on an inductor; then exactly that entry is added; otherwise it raises and changes nothing. In every history suffixes are pairwise different.", "quantifier": "every circuit and history", "why_tests_cant": "all histories", "anchors": ["pyscqed/circuit_graph.py:CircuitGraph.addFluxBias"]}
{"id": "C40", "title": "Charge bias rules", "statement": "addChargeBias succeeds exactly for a node of the circuit without bias, a string suffix of at most 8 characters not in use, and (optionally) a capacitor name not naming a branch; then exactly that entry is added; otherwise it raises and changes nothing. In every history suffixes are pairwise different.", "quantifier": "every circuit and history", "why_tests_cant": "all histories", "anchors": ["pyscqed/circuit_graph.py:CircuitGraph.addChargeBias"]}
{"id": "C41", "title": "Biases and couplings survive circuit growth", "statement": "A flux bias or mutual coupling accepted for a component still designates that component's branch after any further accepted addBranch calls.", "quantifier": "every circuit, every later extension", "why_tests_cant": "all extensions", "anchors": ["pyscqed/circuit_graph.py:CircuitGraph.addFluxBias", "pyscqed/circuit_graph.py:CircuitGraph.addBranch", "pyscqed/symbolic_system.py:SymbolicSystem._create_flux_bias_symbols"]}
{"id": "C42", "title": "Mutual coupling rules", "statement": "coupleBranchesInductively accepts only M-prefixed unused names between two different, not yet coupled inductors; then exactly that entry is added; otherwise it raises and changes nothing.", "quantifier": "every circuit and history", "why_tests_cant": "all histories", "anchors": ["pyscqed/circuit_graph.py:CircuitGraph.coupleBranchesInductively"]}
{"id": "C43", "title": "Resonator coupling rules", "statement": "coupleResonatorCapacitively succeeds only for a non-ground node of the circuit without resonator and a capacitor name that is no branch; it stores that coupling with generated names; otherwise it raises and changes nothing; removeAllResonators clears all.", "quantifier": "every circuit and history", "why_tests_cant": "all histories", "anchors": ["pyscqed/circuit_graph.py:CircuitGraph.coupleResonatorCapacitively", "pyscqed/circuit_graph.py:CircuitGraph.removeAllResonators"]}
{"id": "C44", "title": "Component names are unique in the whole circuit", "statement": "No two elements (branches, mutual inductances, bias couplings, resonator couplings) of a circuit share a name.", "quantifier": "every history of accepted calls", "why_tests_cant": "all histories", "anchors": ["pyscqed/circuit_graph.py:CircuitGraph.addBranch", "pyscqed/circuit_graph.py:CircuitGraph.addChargeBias", "pyscqed/circuit_graph.py:CircuitGraph.addFluxBias", "pyscqed/circuit_graph.py:CircuitGraph.coupleBranchesInductively"]}
{"id": "C45", "title": "The capacitance matrix is the circuit's electrostatic energy form", "statement": "getCapacitanceMatrix is symmetric and x^T C x = sum over branch capacitors C_e (x_a - x_b)^2 (ground at 0) + sum of gate and effective resonator capacitances times x_i^2, for all x and all capacitance values.", "quantifier": "every circuit, all values, all x", "why_tests_cant": "all multigraphs, real identity", "anchors": ["pyscqed/symbolic_system.py:SymbolicSystem.getCapacitanceMatrix"]}
{"id": "C46", "title": "When the capacitance matrix is invertible", "statement": "For positive capacitances the capacitance matrix is positive definite (so invertible) iff every node is connected to ground (or a gate/resonator capacitor) through capacitors.", "quantifier": "every circuit, all positive values", "why_tests_cant": "all multigraphs", "anchors": ["pyscqed/symbolic_system.py:SymbolicSystem.getInverseCapacitanceMatrix"]}
{"id": "C47", "title": "Branch fluxes are node flux differences", "statement": "The branch flux vector of getFluxVector(mode='branch') is, for every branch (a,b), flux(a) - flux(b) with ground flux 0, and its signed sum around every closed loop is zero.", "quantifier": "every circuit, all node fluxes", "why_tests_cant": "all multigraphs", "anchors": ["pyscqed/symbolic_system.py:SymbolicSystem._get_topology_matrices", "pyscqed/symbolic_system.py:SymbolicSystem.getFluxVector"]}
{"id": "C48", "title": "The inverse inductance matrix is the circuit's inductive energy form", "statement": "Without mutual coupling getInverseInductanceMatrix is symmetric and x^T Linv x = sum over inductors (x_a - x_b)^2 / L, hence positive semidefinite for positive inductances.", "quantifier": "every circuit, all values, all x", "why_tests_cant": "all multigraphs, real identity", "anchors": ["pyscqed/symbolic_system.py:SymbolicSystem.getInverseInductanceMatrix", "pyscqed/symbolic_system.py:SymbolicSystem.getInductanceMatrix"]}
{"id": "C49", "title": "Flux bias on an inductor enters as branch flux plus bias", "statement": "getFluxEnergies equals sum over inductors (branch flux + bias of the branch)^2 / (2L).", "quantifier": "every circuit, all values", "why_tests_cant": "all multigraphs, real identity", "anchors": ["pyscqed/symbolic_system.py:SymbolicSystem.getFluxEnergies", "pyscqed/symbolic_system.py:SymbolicSystem.getFluxBiasVectorInd"]}
{"id": "C50", "title": "Every accepted circuit can be turned into a SymbolicSystem", "statement": "SymbolicSystem(graph) succeeds for every CircuitGraph containing node 0 whose construction and bias calls were accepted.", "quantifier": "every accepted history", "why_tests_cant": "all histories", "anchors": ["pyscqed/symbolic_system.py:SymbolicSystem.__init__", "pyscqed/symbolic_system.py:SymbolicSystem.getInductanceMatrix"]}
{"id": "C51", "title": "Reported coordinate modes", "statement": "coordinate_modes assigns every node exactly one mode; a node reported 'oscillator' has a non-zero diagonal and no inductive coupling to any other node.", "quantifier": "every circuit", "why_tests_cant": "all matrices", "anchors": ["pyscqed/symbolic_system.py:SymbolicSystem._create_coordinate_transforms"]}
{"id": "C52", "title": "Generated matrix parameter names never clash", "statement": "The parameter names generated for distinct upper-triangular entries of one matrix are distinct.", "quantifier": "every number of nodes", "why_tests_cant": "all sizes", "anchors": ["pyscqed/symbolic_system.py:SymbolicSystem.getCapacitanceMatrix", "pyscqed/symbolic_system.py:SymbolicSystem.getInverseCapacitanceMatrix"]}
{"id": "C53", "title": "moveFluxBias conserves the bias terms", "statement": "moveFluxBias(a, b) moves the bias of branch a to branch b and loses no bias term.", "quantifier": "every bias configuration, all branch pairs", "why_tests_cant": "all histories", "anchors": ["pyscqed/symbolic_system.py:SymbolicSystem.moveFluxBias"]}
{"id": "C54", "title": "Hilbert space size matches the operators", "statement": "getHilbertSpaceSize is the product of the dimensions of the operators generated for the configured nodes.", "quantifier": "every configuration of nodes, bases and truncations", "why_tests_cant": "all configurations", "anchors": ["pyscqed/numerical_system.py:NumericalSystem.getHilbertSpaceSize", "pyscqed/numerical_system.py:NumericalSystem.getOperatorList"]}
{"id": "C55", "title": "Operators of different nodes commute", "statement": "The expanded operators of two different nodes commute, and products on the same node expand to products.", "quantifier": "any number of nodes, all dimensions, all matrices", "why_tests_cant": "all dimensions", "anchors": ["pyscqed/numerical_system.py:NumericalSystem.getExpandedOperatorsMap"]}
{"id": "C56", "title": "Charge-basis displacement is the exact truncated raising operator", "statement": "In the charge basis with truncation t the displacement operator is exactly the shift raising the charge number by one (and annihilating the top state), so [Q, D] = D, and the phase-slip displacement is the identity.", "quantifier": "every truncation", "why_tests_cant": "identity over all truncations involving roots of unity", "anchors": ["pyscqed/numerical_system.py:NumericalSystem._get_charge_basis"]}
{"id": "C57", "title": "The Hamiltonian is Hermitian", "statement": "getHamiltonian returns a Hermitian operator for all parameter values, biases and circuits.", "quantifier": "every circuit, all values", "why_tests_cant": "all operators and values", "anchors": ["pyscqed/numerical_system.py:NumericalSystem.getHamiltonian"]}
{"id": "C58", "title": "A parameter sweep equals point-by-point evaluation", "statement": "paramSweep produces at every grid point the result that setParameterValues at that point followed by the evaluation would give.", "quantifier": "every sweep, every configuration", "why_tests_cant": "all grids, all histories", "anchors": ["pyscqed/numerical_system.py:NumericalSystem.paramSweep", "pyscqed/numerical_system.py:NumericalSystem._presub", "pyscqed/numerical_system.py:NumericalSystem._postsub"]}
{"id": "C59", "title": "Two-stage substitution equals one-stage substitution", "statement": "Substituting the non-swept values before the loop and the swept ones inside it gives the same numbers as substituting all current values at once.", "quantifier": "all expressions, all histories, all sweeps", "why_tests_cant": "all expressions", "anchors": ["pyscqed/numerical_system.py:NumericalSystem._presub", "pyscqed/numerical_system.py:NumericalSystem._postsub", "pyscqed/numerical_system.py:NumericalSystem.substitute"]}
{"id": "C60", "title": "Dependent evaluables use the eigenpairs of their own grid point", "statement": "In a multi-evaluation sweep that completes, each evaluable depending on the Hamiltonian receives the eigenvalues and eigenvectors computed at the same grid point.", "quantifier": "every list of evaluations, every sweep", "why_tests_cant": "all orders and lengths", "anchors": ["pyscqed/numerical_system.py:NumericalSystem._evaluate_multiple"]}
{"id": "C61", "title": "Every requested evaluation is retrievable", "statement": "After paramSweep with several evaluations each requested evaluation's result can be retrieved from the returned data.", "quantifier": "every list of evaluations", "why_tests_cant": "all lists", "anchors": ["pyscqed/numerical_system.py:NumericalSystem._evaluate_multiple", "pyscqed/numerical_system.py:NumericalSystem.getSweep"]}
{"id": "C62", "title": "The corrected oscillator commutator is canonical", "statement": "getCommutator(Q, P, 'oscillator') of the truncated oscillator operators is a multiple of the identity for every truncation >= 2.", "quantifier": "every truncation >= 2", "why_tests_cant": "all truncations", "anchors": ["pyscqed/numerical_system.py:NumericalSystem.getCommutator", "pyscqed/numerical_system.py:NumericalSystem._get_oscillator_basis"]}
{"id": "C63", "title": "The classical potential agrees with the Hamiltonian", "statement": "The function returned by getClassicalPotentialFunction is the potential energy of the Hamiltonian: inductive energy minus sum of Ej cos(branch phase).", "quantifier": "every circuit, all inputs", "why_tests_cant": "all circuits and inputs", "anchors": ["pyscqed/numerical_system.py:ClassicalPotentialBuilder.getPotentialFunction", "pyscqed/numerical_system.py:NumericalSystem.getHamiltonian"]}
{"id": "C64", "title": "Resonator response without coupling is the bare spectrum", "statement": "With zero coupling getResonatorResponse returns E_i + (n - i) * w_r for every strip n and level i, whatever the ordering of the levels.", "quantifier": "all spectra, all resonator frequencies, all photon numbers", "why_tests_cant": "all orderings", "anchors": ["pyscqed/numerical_system.py:NumericalSystem.getResonatorResponse"]}
{"id": "C65", "title": "Temporary files return what was written", "statement": "Within one session readPart(f) returns the object passed to the writePart call that returned f, no matter how many parts are written later.", "quantifier": "every history of writes", "why_tests_cant": "unbounded histories", "anchors": ["pyscqed/dataspec.py:TempData.writePart", "pyscqed/dataspec.py:TempData.readPart", "pyscqed/dataspec.py:TempData.newSession"]}
{"id": "C66", "title": "Sessions do not interfere", "statement": "Data written by one object is never overwritten or deleted by another object's calls, and clearing a session removes exactly that session's files.", "quantifier": "every interleaving of calls of any number of objects", "why_tests_cant": "interleavings", "anchors": ["pyscqed/dataspec.py:TempData.newSession", "pyscqed/dataspec.py:TempData.clearSessionData"]}
{"id": "C67", "title": "getNeighbours returns exactly the Hamming-1 neighbours", "statement": "For every bit string getNeighbours returns each string at Hamming distance 1 exactly once, in position order.", "quantifier": "all bit strings", "why_tests_cant": "all lengths", "anchors": ["pyscqed/util.py:getNeighbours"]}
{"id": "C68", "title": "Cyclic sequences are sound and complete", "statement": "_get_unique_sequences(M,q) returns, once each, exactly the sequences of q shifts in 1..M-1 whose sum is a multiple of M, i.e. which return every state to itself.", "quantifier": "all M and q", "why_tests_cant": "all M, q", "anchors": ["pyscqed/util.py:_get_unique_sequences", "pyscqed/util.py:_get_state_indices"]}
{"id": "C69", "title": "Permutation decomposition reconstructs the Hamiltonian", "statement": "The diagonal and permutation matrices used by isStoquastic satisfy H = sum_j D_j P_j with D_j diagonal, for every matrix of every size.", "quantifier": "all sizes and matrices", "why_tests_cant": "all sizes", "anchors": ["pyscqed/util.py:_get_permutation_matrices", "pyscqed/util.py:_get_decomposition"]}
{"id": "C70", "title": "mdot is the ordered matrix product", "statement": "mdot(A1..Ak) is A1*...*Ak for every k >= 1 and compatible matrices.", "quantifier": "all k, all matrices", "why_tests_cant": "all k", "anchors": ["pyscqed/util.py:mdot"]}
{"id": "C71", "title": "Diagonaliser results are sorted and stay paired", "statement": "diagDenseH/diagSparseH return eigenvalues in ascending order and the i-th vector is the solver's vector for the i-th returned eigenvalue.", "quantifier": "all solver outputs", "why_tests_cant": "all orders incl. ties", "anchors": ["pyscqed/util.py:diagDenseH", "pyscqed/util.py:diagSparseH"]}
{"id": "C72", "title": "Pauli coefficients preserve the gap", "statement": "pauliCoefficients returns hx, hy, hz with hy = 0 and hx^2+hy^2+hz^2 = ((E1-E0)/2)^2 for every unitary local basis with non-zero first row.", "quantifier": "all eigenvalues, all unitary bases", "why_tests_cant": "real identity", "anchors": ["pyscqed/util.py:pauliCoefficients"]}
{"id": "C73", "title": "Shift extraction stays inside the response array", "statement": "getACStarkShift, getCircuitLambShift and getResonatorShift never index outside an array with at least as many columns as rows, and return the documented differences.", "quantifier": "all array shapes and contents", "why_tests_cant": "all shapes", "anchors": ["pyscqed/util.py:getACStarkShift", "pyscqed/util.py:getResonatorShift", "pyscqed/util.py:getCircuitLambShift"]}
{"id": "C74", "title": "stateFromBitstring is an orthonormal encoding", "statement": "Different bit strings of equal length give orthogonal unit basis vectors of dimension 2^n.", "quantifier": "all bit strings", "why_tests_cant": "all lengths", "anchors": ["pyscqed/util.py:stateFromBitstring"]}
{"id": "C75", "title": "Sanitising only removes small components", "statement": "sanArray/sanFloat set components below tol to zero and leave all others unchanged.", "quantifier": "all numbers and tolerances", "why_tests_cant": "all inputs", "anchors": ["pyscqed/util.py:sanArray", "pyscqed/util.py:sanFloat"]}
{"id": "C76", "title": "isStoquastic returns a verdict", "statement": "isStoquastic(H) returns True or False for every finite Hamiltonian and every list of orders.", "quantifier": "all matrix sizes, all Hamiltonians, all orders", "why_tests_cant": "all sizes, matrices and order lists", "anchors": ["pyscqed/util.py:isStoquastic", "pyscqed/util.py:_get_coefficient"]}
{"id": "C77", "title": "Resonator parameters carry the units of the system in use", "statement": "However many NumericalSystems are built from one SymbolicSystem, the derived resonator parameters (Cr, Lr, loaded frequency, loaded impedance, coupling) have the values of the unit system in use.", "quantifier": "any number of constructions, all unit factors, all physical values", "why_tests_cant": "histories of constructions and all unit factors", "anchors": ["pyscqed/numerical_system.py:NumericalSystem._set_parameter_units", "pyscqed/parameters.py:ParamCollection.addParameterisationPrefactor"]}
{"id": "C78", "title": "Parameterised matrices mean the circuit's matrices", "statement": "getCapacitanceMatrix() with its default parameterisation returns a matrix which, for all component values, evaluates to the circuit's capacitance matrix when the new parameters have the values of their expressions, and changes the parameter of no component.", "quantifier": "every circuit, all component values, all component names", "why_tests_cant": "all circuits and names; tests use names that do not look like matrix entries", "anchors": ["pyscqed/symbolic_system.py:SymbolicSystem.getCapacitanceMatrix", "pyscqed/parameters.py:ParamCollection.addParameterisation"]}
{"id": "C79", "title": "A single requested evaluation is retrievable", "statement": "After paramSweep with exactly one requested evaluation (or none, meaning the Hamiltonian) getSweep returns that evaluation's results.", "quantifier": "every evaluation, every sweep", "why_tests_cant": "all evaluables, keyword arguments and grids; whether it works depends on the type of the result", "anchors": ["pyscqed/numerical_system.py:NumericalSystem._evaluate_single", "pyscqed/numerical_system.py:NumericalSystem.getSweep", "pyscqed/parameters.py:ParamCollection.getSweepResult"]}
{"id": "C80", "title": "The split Hamiltonian equals the Hamiltonian", "statement": "For a circuit without phase slips, getLinearPart() plus the operators returned by getStaticJosephsonPart(), recombined with the phases of the branch flux biases, is the operator getHamiltonian() tidies and returns; the two lists have one entry per Josephson branch in branch order.", "quantifier": "all circuits, all component and bias values, all node operators", "why_tests_cant": "all circuits, operators and biases; the two code paths multiply operators in separate loops", "anchors": ["pyscqed/numerical_system.py:NumericalSystem.getLinearPart", "pyscqed/numerical_system.py:NumericalSystem.getStaticJosephsonPart", "pyscqed/numerical_system.py:NumericalSystem.getHamiltonian"]}
{"id": "C81", "title": "The voltage operator is dH/dQ", "statement": "getVoltageOperator(node) acts on every common eigenstate of the node charges as the derivative of the charging energy by that node's charge, in the voltage unit.", "quantifier": "all circuits, nodes, capacitance matrices, biases and eigenstates", "why_tests_cant": "all circuits with more than one coupled node", "anchors": ["pyscqed/numerical_system.py:NumericalSystem.getVoltageOperator", "pyscqed/numerical_system.py:NumericalSystem.getHamiltonian"]}
{"id": "C82", "title": "The current operator is dE/d(branch flux)", "statement": "getCurrentOperator(edge) is the derivative of the energy by the flux through the branch (for a junction: of the Josephson part by the branch bias), in the current unit, with the same sign and unit for inductors and junctions.", "quantifier": "all circuits, branches, inductances, biases and states", "why_tests_cant": "all circuits, biases and operators; needs a derivative", "anchors": ["pyscqed/numerical_system.py:NumericalSystem.getCurrentOperator", "pyscqed/numerical_system.py:NumericalSystem.getStaticJosephsonPart", "pyscqed/numerical_system.py:NumericalSystem.getHamiltonian"]}
{"id": "C83", "title": "Current and voltage operators are Hermitian", "statement": "Whatever getCurrentOperator and getVoltageOperator return is Hermitian, for all truncations and bases.", "quantifier": "all circuits, truncations, bases, component values", "why_tests_cant": "all truncations and circuits", "anchors": ["pyscqed/numerical_system.py:NumericalSystem.getCurrentOperator", "pyscqed/numerical_system.py:NumericalSystem.getVoltageOperator"]}
{"id": "C84", "title": "Matrix elements are matrix elements", "statement": "getCurrentMatrixElement / getVoltageMatrixElement return, for every requested pair (i, j), <v_i|O|v_j>.", "quantifier": "all operators, eigenvectors and pairs", "why_tests_cant": "phases of eigenvectors and all operators", "anchors": ["pyscqed/numerical_system.py:NumericalSystem.getCurrentMatrixElement", "pyscqed/numerical_system.py:NumericalSystem.getVoltageMatrixElement"]}
{"id": "C85", "title": "Reported energies are those of the Hamiltonian", "statement": "getChargingEnergies, getFluxEnergies, getJosephsonEnergies and getPhaseSlipEnergies report, for one key or as a dict over all keys in order, the coefficient of the squared node variable in the quadratic energies and half the height of the branch cosines; an unknown key raises ValueError.", "quantifier": "all circuits, component values and keys", "why_tests_cant": "all circuits and values", "anchors": ["pyscqed/numerical_system.py:NumericalSystem.getChargingEnergies", "pyscqed/numerical_system.py:NumericalSystem.getFluxEnergies", "pyscqed/numerical_system.py:NumericalSystem.getJosephsonEnergies", "pyscqed/numerical_system.py:NumericalSystem.getPhaseSlipEnergies"]}
{"id": "C86", "title": "Loaded resonators and the circuit's matrix agree", "statement": "The loaded values of a resonator are read from a copy of the circuit in which each resonator is one new node with exactly its coupling capacitor, its capacitor and its inductor, at the indices of the coupled node and of that new node; restricted to the circuit's nodes the inverse capacitance matrix of that copy is the inverse of the matrix getCapacitanceMatrix returns for the circuit with its resonators.", "quantifier": "all circuits, resonators, component values and set iteration orders", "why_tests_cant": "two independently written code paths must agree for all circuits and values", "anchors": ["pyscqed/symbolic_system.py:SymbolicSystem._create_loaded_resonator_parameters", "pyscqed/symbolic_system.py:SymbolicSystem.getCapacitanceMatrix", "pyscqed/circuit_graph.py:CircuitGraph.removeAllResonators"]}
{"id": "C87", "title": "Loaded frequency, impedance and coupling", "statement": "For positive element values the loaded frequency and impedance of a resonator lie between those of its LC circuit without the coupling capacitor (upper bound, equal to the design values when Cr and Lr follow from them) and those with the coupling capacitor to ground (lower bound); impedance = frequency * inductance; the coupling is Cc/(Cc+Cr) * Cinv_ii / sqrt(2 Z).", "quantifier": "all circuits without mutual inductance, resonators and positive values", "why_tests_cant": "all circuits and values", "anchors": ["pyscqed/symbolic_system.py:SymbolicSystem._create_loaded_resonator_parameters"]}
{"id": "C88", "title": "A system with resonators can be constructed", "statement": "For a circuit graph whose calls were all accepted, SymbolicSystem(...) does not raise while it attaches the resonators.", "quantifier": "all circuits and resonators", "why_tests_cant": "depends on clashes between given and generated names", "anchors": ["pyscqed/symbolic_system.py:SymbolicSystem._create_loaded_resonator_parameters", "pyscqed/circuit_graph.py:CircuitGraph.coupleResonatorCapacitively"]}
{"id": "C89", "title": "The inductance matrix carries the mutual inductances", "statement": "getInductanceMatrix(mode='branch') holds each inductor's inductance on the diagonal and the mutual inductance of each coupled pair off the diagonal, symmetrically, and the inverse inductance matrix gives the energy of the magnetic field of the branch currents, mutual terms included. It does not raise for a circuit whose calls were all accepted.", "quantifier": "all circuits, couplings, values and pseudo-inverses", "why_tests_cant": "quantifies over all circuits and all currents", "anchors": ["pyscqed/symbolic_system.py:SymbolicSystem.getInductanceMatrix", "pyscqed/symbolic_system.py:SymbolicSystem.getInverseInductanceMatrix", "pyscqed/circuit_graph.py:CircuitGraph.coupleBranchesInductively"]}
{"id": "C90", "title": "The Josephson and phase slip energies are those of the branches", "statement": "getClassicalJosephsonEnergies() is the sum over junctions of minus the amplitude times the cosine of the phase difference plus the flux bias of the branch, getQuantumJosephsonEnergies() is the same expression with displacement operators for exp(i phase), and getQuantumPhaseSlipEnergies() the dual sum over phase slip nanowires with node charges and charge biases. None of them raises.", "quantifier": "all circuits, biases, amplitudes, node phases and charges", "why_tests_cant": "quantifies over all circuits and all values", "anchors": ["pyscqed/symbolic_system.py:SymbolicSystem.getClassicalJosephsonEnergies", "pyscqed/symbolic_system.py:SymbolicSystem.getQuantumJosephsonEnergies", "pyscqed/symbolic_system.py:SymbolicSystem.getQuantumPhaseSlipEnergies"]}
{"id": "C91", "title": "getJosephsonEnergies agrees with the Hamiltonian", "statement": "The symbolic getJosephsonEnergies() returns for each junction the coefficient of its cosine in the Hamiltonian, and the numerical Josephson and phase slip operators are the symbolic expressions with matrices substituted for the displacement operators.", "quantifier": "all circuits, values and operator matrices", "why_tests_cant": "quantifies over all circuits, values and matrices", "anchors": ["pyscqed/symbolic_system.py:SymbolicSystem.getJosephsonEnergies", "pyscqed/symbolic_system.py:SymbolicSystem.getQuantumJosephsonEnergies"]}
{"id": "C92", "title": "setTransform does not change the physics", "statement": "After setTransform(R) the charging, inductive and junction energies as functions of the new coordinates (fluxes R P, charges R^-T Q) are those of the circuit before the transform.", "quantifier": "all invertible R, circuits, biases and coordinates", "why_tests_cant": "quantifies over all invertible real matrices", "anchors": ["pyscqed/symbolic_system.py:SymbolicSystem.setTransform", "pyscqed/symbolic_system.py:SymbolicSystem.getChargingEnergies", "pyscqed/symbolic_system.py:SymbolicSystem.getFluxEnergies", "pyscqed/symbolic_system.py:SymbolicSystem.getQuantumJosephsonEnergies"]}
{"id": "C93", "title": "The automatic mode transform diagonalises the inverse inductance matrix", "statement": "When the symbolic system is created with the mode transform, getInverseInductanceMatrix() is diagonal.", "quantifier": "all circuits whose matrix sympy can diagonalise", "why_tests_cant": "quantifies over all circuits", "anchors": ["pyscqed/symbolic_system.py:SymbolicSystem._create_coordinate_transforms", "pyscqed/symbolic_system.py:SymbolicSystem.getInverseInductanceMatrix"]}
{"id": "C94", "title": "The displacements of transformed coordinates", "statement": "After setTransform(R) cooper_disp and fluxon_disp give the amounts by which one Cooper pair and one fluxon displace each transformed coordinate; setTransform accepts every invertible matrix.", "quantifier": "all invertible R", "why_tests_cant": "quantifies over all invertible matrices and the order of sympy's terms", "anchors": ["pyscqed/symbolic_system.py:SymbolicSystem.setTransform", "pyscqed/symbolic_system.py:SymbolicSystem._create_node_dofs"]}
{"id": "C95", "title": "The modes of transformed coordinates", "statement": "After setTransform(R) a coordinate is a charge mode exactly if moving along it alone stores no energy in any inductor.", "quantifier": "all circuits and invertible R", "why_tests_cant": "quantifies over all circuits and matrices", "anchors": ["pyscqed/symbolic_system.py:SymbolicSystem.setTransform"]}
{"id": "C96", "title": "Reports on which parameters are set", "statement": "allParametersSet() is True exactly if every registered parameter has a value. parameterisationParametersSet(p) raises ValueError if p is not parametric, and otherwise is True exactly if every parameter occurring in p's expression has a value.", "quantifier": "all histories of a ParamCollection and all expressions", "why_tests_cant": "quantifies over all histories and expressions", "anchors": ["pyscqed/parameters.py:ParamCollection.allParametersSet", "pyscqed/parameters.py:ParamCollection.parameterisationParametersSet"]}
{"id": "C97", "title": "getParameterisationsInvolving lists the dependent parameters", "statement": "For independent names getParameterisationsInvolving(*names) lists, once each, the parametric parameters that depend on one of them, also through other parameterisations. It is empty if one of the names is parametric, and raises ValueError if one is not registered.", "quantifier": "all histories of a ParamCollection and all lists of names", "why_tests_cant": "quantifies over all histories and lists", "anchors": ["pyscqed/parameters.py:ParamCollection.getParameterisationsInvolving"]}
{"id": "C98", "title": "getSymbols adds what is missing and changes nothing else", "statement": "getSymbols(*names, symbol_overrides) returns the symbol of each name. Names that are not registered are added without value and without expression; registered ones keep value and symbol. The symbol given in symbol_overrides is the one returned. A call that raises leaves the collection unchanged.", "quantifier": "all histories, lists of names and overrides", "why_tests_cant": "quantifies over all histories and argument lists, including failing ones", "anchors": ["pyscqed/parameters.py:ParamCollection.getSymbols", "pyscqed/parameters.py:ParamCollection.addParameter"]}
{"id": "C99", "title": "Value dictionaries give the current values", "statement": "getParameterValues(*names) and getParameterValuesDict() map each name to its current value, getSymbolValuesDict() maps each parameter's symbol to the parameter's current value. getParameterValues raises ValueError if a name is not registered.", "quantifier": "all histories of a ParamCollection", "why_tests_cant": "quantifies over all histories", "anchors": ["pyscqed/parameters.py:ParamCollection.getParameterValues", "pyscqed/parameters.py:ParamCollection.getParameterValuesDict", "pyscqed/parameters.py:ParamCollection.getSymbolValuesDict"]}
{"id": "C100", "title": "Every loop of loops_map is a loop of the circuit", "statement": "After an accepted addBranch every entry of loops_map is a list of different branches of the circuit that is closed: an even number of branch ends at every node. This holds for every list of cycles that networkx.cycle_basis may return.", "quantifier": "all circuits, all cycle lists", "why_tests_cant": "quantifies over all multigraphs and over the choice made by networkx", "anchors": ["pyscqed/circuit_graph.py:CircuitGraph._get_loop_graph", "pyscqed/circuit_graph.py:CircuitGraph.addBranch"]}
{"id": "C101", "title": "loops_map is a basis of the loops", "statement": "If networkx.cycle_basis returns a basis for the graph without parallel branches, then every closed set of branches of the circuit is the symmetric difference of exactly one choice of loops of loops_map. Their number is the number of reported cycles plus the number of branches beyond the first between each two nodes.", "quantifier": "all circuits, all cycle bases", "why_tests_cant": "an algebraic statement about every multigraph", "anchors": ["pyscqed/circuit_graph.py:CircuitGraph._get_loop_graph", "pyscqed/circuit_graph.py:CircuitGraph.addBranch"]}
{"id": "C102", "title": "loop_adjacency_map lists the shared branches", "statement": "For i < j, loop_adjacency_map[(i, j)] exists exactly if loops i and j of loops_map share a branch, and lists the shared branches.", "quantifier": "all circuits, all cycle lists, all pairs of loops", "why_tests_cant": "fails only for particular node orders, quantifies over all circuits", "anchors": ["pyscqed/circuit_graph.py:CircuitGraph._get_loop_graph", "pyscqed/circuit_graph.py:CircuitGraph.addBranch"]}
{"id": "C103", "title": "getEdgesSharedWithLoop returns the loop and its neighbours", "statement": "getEdgesSharedWithLoop(k) raises ValueError if k is not a key of sc_loops. Otherwise it returns exactly the branches of loop k and of every loop of sc_loops that shares a branch with it.", "quantifier": "all circuits, all keys", "why_tests_cant": "quantifies over all circuits and loops", "anchors": ["pyscqed/circuit_graph.py:CircuitGraph.getEdgesSharedWithLoop"]}
{"id": "C104", "title": "Single particle charging energies are those of one Cooper pair", "statement": "getSingleParticleChargingEnergies() has one entry for each node except ground, in order: the electrostatic energy of the circuit when the node carries one Cooper pair (charge 2e) and the other nodes carry none.", "quantifier": "every circuit with invertible capacitance matrix, all capacitances", "why_tests_cant": "an identity over all circuits and real values", "anchors": ["pyscqed/symbolic_system.py:SymbolicSystem.getSingleParticleChargingEnergies"]}
{"id": "C105", "title": "The flux basis", "statement": "In the flux basis with truncation t the flux operator counts fluxons from -t to t, the phase-slip displacement S raises the count by one and annihilates the top state, [P, S] = S, and the Josephson displacement, exp(2 pi i count), is the identity.", "quantifier": "every truncation", "why_tests_cant": "identity over all truncations involving roots of unity", "anchors": ["pyscqed/numerical_system.py:NumericalSystem._get_flux_basis"]}
{"id": "C106", "title": "The discretised flux basis", "statement": "When one flux quantum is a whole number of grid steps, the Josephson displacement multiplies every grid point by its phase exp(-2 pi i flux), and the phase-slip displacement moves every grid point up by one flux quantum and annihilates the points that would leave the grid.", "quantifier": "every truncation, every number of grid steps per flux quantum", "why_tests_cant": "identity over all truncations involving roots of unity", "anchors": ["pyscqed/numerical_system.py:NumericalSystem._get_discretized_flux_basis"]}
{"id": "C107", "title": "The charge-basis commutator is canonical", "statement": "getCommutator(Q, P, 'charge') of the operators of the charge basis is a non-zero multiple of the identity.", "quantifier": "every truncation", "why_tests_cant": "all truncations", "anchors": ["pyscqed/numerical_system.py:NumericalSystem.getCommutator", "pyscqed/numerical_system.py:NumericalSystem._get_charge_basis"]}
{"id": "C108", "title": "Josephson displacement and flux operator of a node belong together", "statement": "For a node in the charge or the oscillator basis the Josephson displacement is exp(2 pi i P) with P the flux operator generated for the node, in flux quanta (except for the matrix element that joins the ends of the charge basis), so that junctions and inductors on the node see the same flux.", "quantifier": "every truncation, impedance and unit", "why_tests_cant": "identity of matrix functions over all truncations", "anchors": ["pyscqed/numerical_system.py:NumericalSystem._get_charge_basis", "pyscqed/numerical_system.py:NumericalSystem._get_oscillator_basis"]}
{"id": "C109", "title": "computeExprSweep substitutes the swept values at every grid point", "statement": "After computeExprSweep over parameters with distinct symbols, sweep_grid_result has one expression for each point of the sweep grid, in the order of collapsedIndices; for all values of the remaining symbols it has the value the original expression has when the swept symbols take their values at that point.", "quantifier": "every expression, every sweep grid of any dimension, all values", "why_tests_cant": "all grids and expressions", "anchors": ["pyscqed/parameters.py:ParamCollection.computeExprSweep"]}
{"id": "C110", "title": "A parameter sweep leaves the parameter values alone", "statement": "After paramSweep returns, getParameterValue gives for every parameter the value it gave before the call.", "quantifier": "every system, sweep grid, evaluables and parameterisations", "why_tests_cant": "all grids and dependency graphs", "anchors": ["pyscqed/numerical_system.py:NumericalSystem.paramSweep", "pyscqed/numerical_system.py:NumericalSystem._postsub"]}
{"id": "C111", "title": "A sweep runs what was added since the last sweep", "statement": "paramSweep sweeps the parameters given to addSweep and computes the evaluables given to addEvaluation since the previous call of paramSweep or newSweep, and nothing else.", "quantifier": "every sequence of calls", "why_tests_cant": "unbounded call sequences including failing ones", "anchors": ["pyscqed/numerical_system.py:NumericalSystem.newSweep", "pyscqed/numerical_system.py:NumericalSystem.addSweep", "pyscqed/numerical_system.py:NumericalSystem.addEvaluation", "pyscqed/numerical_system.py:NumericalSystem.paramSweep"]}
{"id": "C112", "title": "Numbers and operators follow the reported parameter values", "statement": "After every call of setParameterValues or paramSweep on a NumericalSystem, the substituted matrices are the floats of the symbolic expressions at the values getParameterValue reports, and circ_operators and the operator vectors are those of the reported impedances.", "quantifier": "every system, parameterisations, values, grids and sequences of calls", "why_tests_cant": "all call histories, raising calls and systems sharing one SymbolicSystem", "anchors": ["pyscqed/numerical_system.py:NumericalSystem.setParameterValues", "pyscqed/numerical_system.py:NumericalSystem.substitute", "pyscqed/numerical_system.py:NumericalSystem.prepareOperators", "pyscqed/numerical_system.py:NumericalSystem.paramSweep"]}
{"id": "C113", "title": "Pauli coefficients are those of the local basis", "statement": "At every sweep point pauliCoefficients returns hx, hy, hz such that diag(E0, E1) is (E0+E1)/2 + hx sx + hy sy + hz sz in an orthonormal basis of eigenvectors of the basis operator restricted to the two levels; the numbers do not depend on the phases of the given eigenvectors nor on the diagonaliser, and lists and arrays are accepted.", "quantifier": "all eigenvalues, eigenvectors, Hermitian operators, sweep lengths", "why_tests_cant": "identity over all complex eigenvectors and phases", "anchors": ["pyscqed/util.py:pauliCoefficients"]}
{"id": "C114", "title": "Subspace operators may stand for the basis operator", "statement": "pauliCoefficients gives the same result for a basis operator and for the list createSubspaceOperators makes of its matrix elements; lists of matrix elements that are too short raise.", "quantifier": "all sweeps, operators and eigenvectors", "why_tests_cant": "all sizes", "anchors": ["pyscqed/util.py:createSubspaceOperators", "pyscqed/util.py:pauliCoefficients"]}
{"id": "C115", "title": "diagonalize follows the last setDiagConfig of its system", "statement": "diagonalize calls the solver, with the number of eigenvalues, vectors flag and solver options that the last setDiagConfig on the same system asked for (or the documented defaults), whatever is done to other systems.", "quantifier": "every sequence of constructor, setDiagConfig and getDiagConfig calls on any number of systems", "why_tests_cant": "unbounded call sequences, aliasing between objects", "anchors": ["pyscqed/numerical_system.py:NumericalSystem.setDiagConfig", "pyscqed/numerical_system.py:NumericalSystem.getDiagConfig", "pyscqed/numerical_system.py:NumericalSystem.diagonalize"]}
{"id": "C116", "title": "The Hamiltonians are the total energy of the circuit", "statement": "getClassicalHamiltonian() is the energy of the capacitors at the voltages belonging to the node charges, plus the energy of the biased inductors, the junctions and the phase slip nanowires; getQuantumHamiltonian() with numbers in place of the operators is the same. Neither raises.", "quantifier": "all circuits, component values, biases, node charges, fluxes and phases", "why_tests_cant": "real identity over all multigraphs", "anchors": ["pyscqed/symbolic_system.py:SymbolicSystem.getClassicalHamiltonian", "pyscqed/symbolic_system.py:SymbolicSystem.getQuantumHamiltonian", "pyscqed/symbolic_system.py:SymbolicSystem.getChargingEnergies", "pyscqed/symbolic_system.py:SymbolicSystem.getFluxEnergies"]}
{"id": "C117", "title": "Hamilton's equations of getClassicalHamiltonian are Kirchhoff's laws", "statement": "The derivative of getClassicalHamiltonian() by the charge of a node is the voltage of the node; by its flux it is the sum of the currents leaving it through inductors, (flux + bias) / L, and junctions, I sin(phase + bias).", "quantifier": "all circuits, component values, biases, node charges and fluxes, flux quanta", "why_tests_cant": "derivatives at all real points over all multigraphs", "anchors": ["pyscqed/symbolic_system.py:SymbolicSystem.getClassicalHamiltonian"]}
{"id": "C118", "title": "moveFluxBias does not change the physics", "statement": "After moveFluxBias(a, b) has returned, the classical Hamiltonian is the one before the call up to a shift of the node fluxes and phases.", "quantifier": "all circuits, pairs of branches, component values and biases", "why_tests_cant": "quantifies over all multigraphs, all shifts and real points; existence of a potential", "anchors": ["pyscqed/symbolic_system.py:SymbolicSystem.moveFluxBias"]}
{"id": "C119", "title": "Flux quantum periodicity of the Hamiltonian", "statement": "Adding whole flux quanta to flux biases does not change the spectrum of NumericalSystem.getHamiltonian().", "quantifier": "all circuits, biases, component values, node bases and truncations", "why_tests_cant": "quantifies over real biases, all circuits and all matrix sizes; exact equality of spectra", "anchors": ["pyscqed/numerical_system.py:NumericalSystem.substitute", "pyscqed/numerical_system.py:NumericalSystem.getHamiltonian"]}
{"id": "C120", "title": "Reversing the flux biases keeps the spectrum", "statement": "If all flux biases are replaced by their negatives (up to whole flux quanta on biases of junctions), the spectrum of getHamiltonian() stays the same, with multiplicities; the two Hamiltonians are related by an antiunitary.", "quantifier": "all circuits, biases, component values, and truncations; nodes in the charge or oscillator basis, eigensolver right on the node matrices", "why_tests_cant": "quantifies over real biases, all circuits and all matrix sizes; exact equality of spectra", "anchors": ["pyscqed/numerical_system.py:NumericalSystem.substitute", "pyscqed/numerical_system.py:NumericalSystem.getHamiltonian"]}
{"id": "C121", "title": "Reversing the charge biases keeps the spectrum", "statement": "If all charge biases are replaced by their negatives, the spectrum of getHamiltonian() stays the same, with multiplicities; the two Hamiltonians are related by an antiunitary.", "quantifier": "all circuits, biases, component values, and truncations; nodes in the charge or oscillator basis, eigensolver right on the node matrices", "why_tests_cant": "quantifies over real biases, all circuits and all matrix sizes; exact equality of spectra", "anchors": ["pyscqed/numerical_system.py:NumericalSystem.substitute", "pyscqed/numerical_system.py:NumericalSystem.getHamiltonian"]}
{"id": "C122", "title": "The Hamiltonian depends on the biases of junctions through loop fluxes", "statement": "NumericalSystem.getHamiltonian() of two symbolic systems of one circuit whose loops carry the same external fluxes up to whole flux quanta, and whose inductors have the same flux biases, is the same up to a unitary and tidyup's rounding; in particular moveFluxBias between two junctions of the same loops keeps the spectrum.", "quantifier": "all circuits, spanning trees, biases, component values, node bases and truncations", "why_tests_cant": "quantifies over real biases, all circuits and all matrix sizes; exact equality of spectra of the matrices before rounding", "anchors": ["pyscqed/numerical_system.py:NumericalSystem.substitute", "pyscqed/numerical_system.py:NumericalSystem.getHamiltonian", "pyscqed/symbolic_system.py:SymbolicSystem.moveFluxBias"]}
{"id": "C123", "title": "The loaded parameters of a resonator are stored with the right values", "statement": "After SymbolicSystem(graph) the parameters f<n>rl, Z<n>rl and g<n>r of every resonator are parameterised by expressions of the elements (n,r) and (r,r) of the inverse capacitance matrix and (r,r) of the inverse inductance matrix of the circuit with the resonator as a node, expanded to components; for all values of the components these are the elements of the real inverses.", "quantifier": "all circuits and resonators, component values, iteration orders of sets", "why_tests_cant": "all circuits; equality of symbolic expressions at all real values", "anchors": ["pyscqed/symbolic_system.py:SymbolicSystem.__init__", "pyscqed/symbolic_system.py:SymbolicSystem._create_loaded_resonator_parameters"]}
{"id": "C124", "title": "The classical potential function exists and takes every flux", "statement": "For every circuit whose parameters all have values getClassicalPotentialFunction() returns a function and default inputs: one input 'phi<n>' for each node and 'phi<suffix>' for each flux bias, all 0.0. The function accepts every dict with these inputs and returns the energy at the given node fluxes and biases, in units of the flux quantum; a missing input or an unset parameter gives an AssertionError.", "quantifier": "all circuits, flux biases, component values and inputs, all iteration orders of sets", "why_tests_cant": "all circuits and real inputs; name clashes need particular suffixes", "anchors": ["pyscqed/numerical_system.py:NumericalSystem.getClassicalPotentialFunction", "pyscqed/numerical_system.py:ClassicalPotentialBuilder._get_input_format", "pyscqed/numerical_system.py:ClassicalPotentialBuilder.getPotentialFunction"]}
{"id": "C125", "title": "Coordinates and biases of the symbolic Hamiltonian can be set independently", "statement": "The expression getClassicalHamiltonian() can be evaluated at all values of the components, biases and node coordinates by substituting for its symbols: these are different symbols.", "quantifier": "all circuits with flux and charge biases, all values", "why_tests_cant": "all circuits and suffixes, all real values", "anchors": ["pyscqed/symbolic_system.py:SymbolicSystem.getRedFluxVector", "pyscqed/symbolic_system.py:SymbolicSystem.getClassicalHamiltonian", "pyscqed/symbolic_system.py:SymbolicSystem._create_flux_bias_symbols"]}
{"id": "C126", "title": "Raising charge truncations keeps matrix elements and lowers levels", "statement": "Raising the truncation of nodes in the charge basis that have no inductors (configureOperator with basis 'charge' and a larger truncation, then getExpandedOperatorsMap) makes a Hamiltonian of which the old one is a part: between the old basis states getHamiltonian() and the charge operators have the same matrix elements as before. So no eigenvalue rises: for each k the k-th lowest eigenvalue of the new Hamiltonian is at most that of the old one.", "quantifier": "all circuits without inductors at the nodes concerned, all component and bias values, all truncations t <= t' at any number of nodes, the other nodes in any basis, all k", "why_tests_cant": "all circuits and real parameters; the code has no cross-check between truncations", "anchors": ["pyscqed/numerical_system.py:NumericalSystem._get_charge_basis", "pyscqed/numerical_system.py:NumericalSystem.getExpandedOperatorsMap", "pyscqed/numerical_system.py:NumericalSystem.getHamiltonian", "pyscqed/numerical_system.py:NumericalSystem.configureOperator"]}
{"id": "C127", "title": "Charge biases matter only up to whole Cooper pairs", "statement": "Moving the charge biases of nodes in the charge basis without inductors by integers k (setParameterValue of the bias symbols), with their truncations raised by at least |k|, gives a Hamiltonian of which the old one is a part: under one relabelling of the basis states getHamiltonian() has the old matrix elements and the charge operators have the old ones minus k. So for each j the j-th lowest eigenvalue is at most the one before the move; with the move back, the levels at a bias and at that bias plus an integer enclose each other as the truncations grow.", "quantifier": "all circuits, all component and bias values, all integers k (also negative) at any number of nodes in the charge basis without inductors, all truncations t and t' >= t + |k|, the other nodes in any basis, all j", "why_tests_cant": "all circuits, real parameters and truncations; at one fixed truncation the periodicity does not hold exactly, so no test can compare the numbers", "anchors": ["pyscqed/numerical_system.py:NumericalSystem._get_charge_basis", "pyscqed/numerical_system.py:NumericalSystem.getExpandedOperatorsMap", "pyscqed/numerical_system.py:NumericalSystem.getHamiltonian", "pyscqed/numerical_system.py:NumericalSystem.setParameterValue"]}
{"id": "C128", "title": "Energy levels are continuous in the junctions and bounded from below", "statement": "When only critical currents, phase slip amplitudes and flux biases of junctions are changed (setParameterValue), no eigenvalue of getHamiltonian() moves by more than the Josephson energy prefactor times the sum over the branches of |I' exp(2 pi i f') - I exp(2 pi i f)| plus the phase slip prefactor times the sum of |V' - V|; for a change of flux biases alone, the sum of 2 pi |I| |f' - f|. So levels have no jumps in a sweep of these parameters. With positive capacitances and inductances, no mutual inductances and no capacitor from a node to itself, no eigenvalue lies below minus the sum of all Josephson and phase slip energies. Both up to the rounding by tidyup: a factor 1 + 2 t / 10^12 for each node in the oscillator basis with t states, and 4 N / 10^12 (2 N / 10^12 for the floor) for N states.", "quantifier": "all circuits, all component and bias values, all charge and oscillator bases and truncations, every level", "why_tests_cant": "all circuits and all real parameters; a bound over a continuum of values", "anchors": ["pyscqed/numerical_system.py:NumericalSystem.getHamiltonian", "pyscqed/numerical_system.py:NumericalSystem.setParameterValue", "pyscqed/numerical_system.py:NumericalSystem.newSweep", "pyscqed/numerical_system.py:NumericalSystem._get_charge_basis", "pyscqed/numerical_system.py:NumericalSystem._get_oscillator_basis"]}
{"id": "C129", "title": "Levels fall when capacitances or inductances grow", "statement": "With every node in the charge basis, positive capacitances and inductances, no mutual inductances and no capacitor from a node to itself, making capacitances (also gate, coupling and resonator capacitances) or inductances larger by setParameterValue, with the critical currents, phase slip amplitudes and biases kept, raises no eigenvalue of getHamiltonian(): the k-th level of the new Hamiltonian is at most the k-th level of the old one, for every k, up to the rounding by tidyup (4 N / 10^12 for N states).", "quantifier": "all circuits, all component and bias values, all charge truncations, every level", "why_tests_cant": "all circuits and all pairs of real parameter values; inverses of matrices of any size", "anchors": ["pyscqed/numerical_system.py:NumericalSystem.getHamiltonian", "pyscqed/numerical_system.py:NumericalSystem.setParameterValue", "pyscqed/numerical_system.py:NumericalSystem.substitute", "pyscqed/numerical_system.py:NumericalSystem._get_charge_basis", "pyscqed/symbolic_system.py:SymbolicSystem.getInverseCapacitanceMatrix", "pyscqed/symbolic_system.py:SymbolicSystem.getInverseInductanceMatrix"]}
{"id": "C130", "title": "The charge of an island is conserved", "statement": "When no Josephson junction leaves a set of nodes (and none of it goes to ground), the sum of the charge operators of these nodes, as getChargeOpVector() lists them, commutes with getHamiltonian(), exactly: also after the rounding by tidyup. The nodes of the set are in the charge basis and have no inductors; capacitors, gates, phase slips and any charge and flux biases may be anywhere, and the other nodes may be in any basis. With a junction that leaves the set this is false: the charge of a Cooper pair box does not commute with its Hamiltonian.", "quantifier": "all circuits, all component and bias values, all truncations, all such sets of nodes, all orders in which the terms of a branch are multiplied", "why_tests_cant": "a matrix identity for all circuits and truncations; tests look at single matrices", "anchors": ["pyscqed/numerical_system.py:NumericalSystem.getHamiltonian", "pyscqed/numerical_system.py:NumericalSystem.getChargeOpVector", "pyscqed/numerical_system.py:NumericalSystem._get_charge_basis", "pyscqed/numerical_system.py:NumericalSystem.getExpandedOperatorsMap"]}
{"id": "C131", "title": "The order and direction of the branches do not matter", "statement": "Take two circuits with the same nodes, in the same order, and the same components, values, gates, resonators and charge biases, whose branches were added in other orders, directions and with other names. Let each flux bias be on the same branch, with opposite sign if the direction in the spanning tree is opposite. Then getHamiltonian() is the same matrix for both, element by element, also after the rounding by tidyup, for all bases and truncations of the nodes and whichever orders the terms of a branch are multiplied in. The circuits have no mutual inductances, no capacitor from a node to itself and no zero inductance.", "quantifier": "all pairs of such circuits, all values and biases, all bases and truncations, all multiplication orders", "why_tests_cant": "an equality for all pairs of drawings of a circuit; tests look at single circuits", "anchors": ["pyscqed/circuit_graph.py:CircuitGraph.addBranch", "pyscqed/numerical_system.py:NumericalSystem.getHamiltonian", "pyscqed/numerical_system.py:NumericalSystem.substitute", "pyscqed/symbolic_system.py:SymbolicSystem.getInverseCapacitanceMatrix", "pyscqed/symbolic_system.py:SymbolicSystem.getInverseInductanceMatrix", "pyscqed/symbolic_system.py:SymbolicSystem.getJosephsonVector"]}
{"id": "C132", "title": "Components in parallel combine", "statement": "Take two circuits with the same nodes, in the same order, and the same charge biases, such that between any two nodes (ground included) the following totals agree: capacitances, where gate capacitors and the series of coupling and resonator capacitance count as capacitors to ground; inverse inductances; biases of inductors; critical currents times exp(2 pi i f), f the flux bias of the junction; phase slip amplitudes. Then getHamiltonian() is the same matrix for both, element by element, also after the rounding by tidyup, for all bases and truncations of the nodes. So parallel capacitors add, parallel inductors without bias add inversely, parallel junctions add their critical currents with phases (a SQUID is one junction), and a gate capacitor is a capacitor to ground. The circuits have no mutual inductances, no capacitor from a node to itself and no zero inductance.", "quantifier": "all pairs of such circuits, all values and biases, all bases and truncations, all multiplication orders", "why_tests_cant": "an equality for all pairs of equivalent circuits; tests look at single circuits", "anchors": ["pyscqed/numerical_system.py:NumericalSystem.getHamiltonian", "pyscqed/numerical_system.py:NumericalSystem.substitute", "pyscqed/symbolic_system.py:SymbolicSystem.getInverseCapacitanceMatrix", "pyscqed/symbolic_system.py:SymbolicSystem.getInverseInductanceMatrix", "pyscqed/symbolic_system.py:SymbolicSystem.getJosephsonVector", "pyscqed/symbolic_system.py:SymbolicSystem.getPhaseSlipVector"]}
{"id": "C133", "title": "The order of the nodes does not matter", "statement": "Take two circuits with the same nodes, added in any order, the same charge bias at each node, and the same totals of components between any two nodes as in C132 (so also the order and the direction of the branches are free). Give each node the same basis and truncation. Then both Hilbert spaces have the same size, and there is a renumbering of the basis states under which getHamiltonian() of one circuit is getHamiltonian() of the other, element by element, also after the rounding by tidyup, and under which the charge and flux operators of each node correspond. The eigenvalues, sorted, are the same. The circuits have no mutual inductances, no capacitor from a node to itself and no zero inductance.", "quantifier": "all pairs of such circuits with any number of nodes, all orders of nodes and branches, all values and biases, all bases and truncations, all multiplication orders", "why_tests_cant": "an equality for all permutations of nodes of all circuits; tests build one order", "anchors": ["pyscqed/numerical_system.py:NumericalSystem.getHamiltonian", "pyscqed/numerical_system.py:NumericalSystem.getExpandedOperatorsMap", "pyscqed/numerical_system.py:NumericalSystem.substitute", "pyscqed/symbolic_system.py:SymbolicSystem.getInverseCapacitanceMatrix", "pyscqed/symbolic_system.py:SymbolicSystem.getInverseInductanceMatrix"]}
{"id": "C134", "title": "Setting one parameter of a NumericalSystem", "statement": "After setParameterValue(name, value) of a NumericalSystem returns, the substituted matrices are the floats of the symbolic expressions at the reported values, and the operators are those of the reported impedances. For a parameter that is not parameterised the call does the same as setParameterValues with this one entry, as a dictionary or as two arguments: the same state and the same exception. For a parameterised one it changes no parameter. If another independent parameter has no value, an accepted value raises AssertionError; the value is set all the same, the other independent parameters, the matrices and the operators stay. So independent parameters can be set one call after the other, in any order, whether or not the calls raise: in the end each has the value given.", "quantifier": "all systems, parameterisations, names and values", "why_tests_cant": "all call histories and combinations of set and unset parameters", "anchors": ["pyscqed/numerical_system.py:NumericalSystem.setParameterValue", "pyscqed/numerical_system.py:NumericalSystem.setParameterValues", "pyscqed/numerical_system.py:NumericalSystem.substitute", "pyscqed/numerical_system.py:NumericalSystem.prepareOperators"]}
