{"id": "C01", "title": "Pauli product is the matrix product", "statement": "p*q for two single-site Pauli objects on the same site is the Pauli object on that site whose 2x2 matrix (coefficient included) is the product of the matrices of p and q in that order; for different sites AssertionError is raised.", "quantifier": "all pairs of Pauli objects, all sites, all (exact) complex coefficients", "why_tests_cant": "coefficients are unbounded; tests sample a few of the 16 index pairs and coefficients", "anchors": ["oranssi/pauli.py:Pauli.__mul__", "oranssi/pauli.py:levicevita"]}
{"id": "C02", "title": "Monomial construction normalises or rejects", "statement": "PauliMonomial(ps) holds exactly the given Paulis, sorted by site, with coeff equal to the product of their coefficients, whatever the order of ps; it raises AssertionError exactly when two Paulis share a site.", "quantifier": "all lists of Pauli objects, all orders", "why_tests_cant": "lists are unbounded and every permutation must agree", "anchors": ["oranssi/pauli.py:PauliMonomial.__init__"]}
{"id": "C03", "title": "Monomial product is the operator product", "statement": "The product of two freshly built monomials represents the matrix product of the operators they represent, on every register that contains their sites, for any overlap of their supports.", "quantifier": "all monomials with any sites and coefficients, all register sizes n", "why_tests_cant": "supports and register sizes are unbounded", "anchors": ["oranssi/pauli.py:PauliMonomial.__mul__"]}
{"id": "C04", "title": "Monomial product is well formed and touches nothing else", "statement": "a*b never raises, its locations are the sorted union of the two location sets without repetition, its coeff is the product of its factors' coefficients, and a and b are unchanged.", "quantifier": "all pairs of monomials", "why_tests_cant": "unbounded supports; set iteration order is arbitrary", "anchors": ["oranssi/pauli.py:PauliMonomial.__mul__"]}
{"id": "C05", "title": "Commutator is AB-BA", "statement": "For freshly built monomials a.commutator(b) represents AB-BA: its Pauli string with its coeff equals the matrix commutator on every register.", "quantifier": "all pairs of freshly built monomials, all register sizes", "why_tests_cant": "unbounded supports and coefficients", "anchors": ["oranssi/pauli.py:PauliMonomial.commutator"]}
{"id": "C06", "title": "commutes_with decides commutation", "statement": "a.commutes_with(b) is True exactly when the operators commute; for non-zero coefficients this is exactly when the number of shared sites carrying different non-identity letters is even.", "quantifier": "all pairs of freshly built monomials", "why_tests_cant": "unbounded supports", "anchors": ["oranssi/pauli.py:PauliMonomial.commutes_with"]}
{"id": "C07", "title": "Monomial equality and hash agree", "statement": "On monomials of equal length == is an equivalence relation, equal monomials have equal hashes, and the hash string determines equality; on unequal lengths == raises AssertionError.", "quantifier": "all pairs/triples of monomials", "why_tests_cant": "sets of monomials (simplify, BCH) rely on it for every pair", "anchors": ["oranssi/pauli.py:PauliMonomial.__eq__", "oranssi/pauli.py:PauliMonomial.__hash__", "oranssi/pauli.py:PauliMonomial.__repr__"]}
{"id": "C08", "title": "Pauli equality and hash agree", "statement": "Equal Pauli objects have equal hashes.", "quantifier": "all pairs of Pauli objects", "why_tests_cant": "must hold for every coefficient", "anchors": ["oranssi/pauli.py:Pauli.__eq__", "oranssi/pauli.py:Pauli.__hash__"]}
{"id": "C09", "title": "Monomial < is a strict order compatible with ==", "statement": "< on monomials is irreflexive, asymmetric and transitive and two monomials that are incomparable are ==, so sorting groups equal monomials.", "quantifier": "all pairs/triples of monomials of equal length", "why_tests_cant": "order laws quantify over all triples", "anchors": ["oranssi/pauli.py:PauliMonomial.__lt__"]}
{"id": "C10", "title": "The visible coefficient is the one used", "statement": "The coeff attribute a user reads (and that scalar_mul, commutator, simplify and conj set) is the coefficient used by later products.", "quantifier": "all histories of scalar_mul/commutator/conj/simplify followed by a product", "why_tests_cant": "depends on operation histories", "anchors": ["oranssi/pauli.py:PauliMonomial.__mul__", "oranssi/pauli.py:PauliSum.scalar_mul", "oranssi/pauli.py:PauliMonomial.conj", "oranssi/pauli.py:PauliMonomial.commutator"]}
{"id": "C11", "title": "simplify preserves the operator", "statement": "Building a PauliSum leaves the represented operator unchanged except for removed terms whose merged coefficient is within np.isclose of 0, whatever order the duplicate set is iterated in, and never raises.", "quantifier": "all lists of distinct monomial objects of equal length, all iteration orders of the duplicates set", "why_tests_cant": "unbounded lists; set order depends on hash seeds", "anchors": ["oranssi/pauli.py:PauliSum.__init__", "oranssi/pauli.py:PauliSum.simplify"]}
{"id": "C12", "title": "simplify leaves no duplicates and no zero terms", "statement": "After construction no two monomials of a PauliSum are equal and none has a coefficient close to 0.", "quantifier": "all lists of monomials, all iteration orders", "why_tests_cant": "unbounded lists", "anchors": ["oranssi/pauli.py:PauliSum.simplify"]}
{"id": "C13", "title": "Sum addition", "statement": "A+B represents the sum of the two operators and leaves A and B representing what they did.", "quantifier": "all pairs of sums and all aliasing patterns between them", "why_tests_cant": "aliasing patterns are unbounded", "anchors": ["oranssi/pauli.py:PauliSum.__add__"]}
{"id": "C14", "title": "Sum subtraction", "statement": "A-B represents the difference of the two operators and leaves A and B representing what they did.", "quantifier": "all pairs of sums and all aliasing patterns between them, including A-A", "why_tests_cant": "aliasing patterns are unbounded", "anchors": ["oranssi/pauli.py:PauliSum.__sub__"]}
{"id": "C15", "title": "Sum multiplication", "statement": "A*B represents the product of the operators A and B, up to dropped terms close to 0.", "quantifier": "all pairs of sums of freshly built monomials on the same register", "why_tests_cant": "unbounded lists", "anchors": ["oranssi/pauli.py:PauliSum.__mul__"]}
{"id": "C16", "title": "Conversion to oranssi keys", "statement": "to_oranssi lists exactly the non-identity letters with their sites in increasing order, so rebuilding a monomial from the key gives the same operator with coefficient 1.", "quantifier": "all monomials", "why_tests_cant": "unbounded supports", "anchors": ["oranssi/pauli.py:PauliMonomial.to_oranssi"]}
{"id": "C17", "title": "Scalar multiplication", "statement": "scalar_mul(c) multiplies the represented operator by c and changes nothing else.", "quantifier": "all sums without repeated monomial objects, all scalars", "why_tests_cant": "unbounded lists", "anchors": ["oranssi/pauli.py:PauliSum.scalar_mul"]}
{"id": "C18", "title": "checkEdgeColoring decides proper colouring", "statement": "checkEdgeColoring(G,D) is True exactly when every edge has a colour in 0..D-1 and edges sharing a vertex have different colours.", "quantifier": "all finite simple graphs, all colourings, all D", "why_tests_cant": "graphs are unbounded", "anchors": ["oranssi/edge_coloring.py:properlyColored", "oranssi/edge_coloring.py:checkEdgeColoring"]}
{"id": "C19", "title": "Conflict bookkeeping is exact", "statement": "At every moment of a run the conflict dictionary lists at level l exactly the vertices whose conflict level is l, so the total is the true number of conflicts.", "quantifier": "all graphs of maximum degree <= D, every sequence of random choices, every intermediate state", "why_tests_cant": "every schedule of random choices", "anchors": ["oranssi/edge_coloring.py:createConflictDictionary", "oranssi/edge_coloring.py:updateConflictDictionary", "oranssi/edge_coloring.py:colorEdgeAndUpdate", "oranssi/edge_coloring.py:totalNumberOfConflicts"]}
{"id": "C20", "title": "Recolouring touches only colours and stays in range", "statement": "No colouring routine adds or removes nodes or edges, and after pre-colouring every edge always has a colour in 0..D-1.", "quantifier": "all graphs, all D>=1, every sequence of random choices", "why_tests_cant": "every schedule of random choices", "anchors": ["oranssi/edge_coloring.py:preColoring", "oranssi/edge_coloring.py:KempeProcess", "oranssi/edge_coloring.py:heuristic"]}
{"id": "C21", "title": "Edge colouring never crashes and always terminates", "statement": "On graphs of maximum degree <= D, applyHeuristic terminates without an exception for every sequence of random choices, within an explicit bound on the number of Kempe steps and pre-colourings.", "quantifier": "all simple graphs with max degree <= D, all limits, all random choices", "why_tests_cant": "termination for every random schedule", "anchors": ["oranssi/edge_coloring.py:heuristic", "oranssi/edge_coloring.py:KempeProcess", "oranssi/edge_coloring.py:KempeStart", "oranssi/edge_coloring.py:applyHeuristic"]}
{"id": "C22", "title": "applyHeuristic reports honestly", "statement": "applyHeuristic returns True exactly when the colouring it leaves in G is proper, and this is exactly when its last heuristic round reported success; at most iteration_limit+1 rounds are run.", "quantifier": "all simple graphs with max degree <= D, all limits, all random choices", "why_tests_cant": "every random schedule", "anchors": ["oranssi/edge_coloring.py:applyHeuristic", "oranssi/edge_coloring.py:heuristic"]}
{"id": "C23", "title": "Too few colours can never succeed", "statement": "If some vertex has degree > D no run of applyHeuristic returns True.", "quantifier": "all graphs with a vertex of degree > D, all random choices", "why_tests_cant": "universal over graphs and schedules", "anchors": ["oranssi/edge_coloring.py:applyHeuristic"]}
{"id": "C24", "title": "get_commuting_set returns non-overlapping bonds", "statement": "No two edges returned by get_commuting_set share a qubit.", "quantifier": "all edge lists, all random choices", "why_tests_cant": "every random schedule", "anchors": ["oranssi/circuit_tools.py:get_commuting_set"]}
{"id": "C25", "title": "get_commuting_set returns bonds from its input", "statement": "Every edge returned by get_commuting_set is one of the input edges, with the same orientation (the caller uses it as a dictionary key and as a wire order).", "quantifier": "all edge lists, all random choices", "why_tests_cant": "every graph and schedule", "anchors": ["oranssi/circuit_tools.py:get_commuting_set", "oranssi/opt_tools.py:SquaredLieAlgebraLayer.__call__"]}
{"id": "C26", "title": "get_commuting_set never crashes", "statement": "get_commuting_set returns normally for every edge list.", "quantifier": "all edge lists, all random choices", "why_tests_cant": "every graph and schedule", "anchors": ["oranssi/circuit_tools.py:get_commuting_set", "oranssi/edge_coloring.py:KempeStart"]}
{"id": "C27", "title": "Disjoint edge lists are returned unchanged", "statement": "If no qubit occurs twice in the edge list, get_commuting_set returns the list itself and consumes no randomness.", "quantifier": "all edge lists without repeated qubit", "why_tests_cant": "unbounded lists", "anchors": ["oranssi/circuit_tools.py:get_commuting_set"]}
{"id": "C28", "title": "SU(N) operator enumeration", "statement": "get_su_n_operators(2^n) returns 4^n (identity) or 3^n operators with as many distinct names, in lexicographic order, the operator at a name being the Kronecker product of the letters of the name in order; su_2 and su_4 are the cases n=1,2.", "quantifier": "all n, both flags", "why_tests_cant": "n is unbounded", "anchors": ["oranssi/utils.py:get_su_n_operators", "oranssi/utils.py:get_su_2_operators", "oranssi/utils.py:get_su_4_operators"]}
{"id": "C29", "title": "SU(N) operators are Hermitian orthogonal involutions", "statement": "Every returned operator P satisfies P=P^dagger, P P = I, has trace 0 unless its name is all I, and tr(P Q)=0 for different names.", "quantifier": "all n, all pairs of returned operators", "why_tests_cant": "n is unbounded", "anchors": ["oranssi/utils.py:get_su_n_operators"]}
{"id": "C30", "title": "SU(N) operators with identity form a basis", "statement": "Every 2^n x 2^n complex matrix A equals sum_P tr(P A)/2^n P over the returned operators.", "quantifier": "all n, all matrices", "why_tests_cant": "n and matrices are unbounded", "anchors": ["oranssi/utils.py:get_su_n_operators"]}
{"id": "C31", "title": "operator_2_norm is the Frobenius norm", "statement": "operator_2_norm(R) is sqrt(sum |R_ij|^2): non-negative, zero exactly for R=0, absolutely homogeneous and invariant under unitaries.", "quantifier": "all square complex matrices", "why_tests_cant": "continuous domain", "anchors": ["oranssi/utils.py:operator_2_norm"]}
{"id": "C32", "title": "get_full_operator entries", "statement": "For distinct wires below nqubits, entry (r,c) of get_full_operator(op,wires,nqubits) is op at the bits of r and c on the wires (wire order, big endian) if r and c agree on all other wires, else 0.", "quantifier": "all n, all operators, all tuples of distinct wires", "why_tests_cant": "unbounded register sizes and wire tuples", "anchors": ["oranssi/circuit_tools.py:get_full_operator"]}
{"id": "C33", "title": "get_full_operator is a *-homomorphism", "statement": "For fixed distinct wires it maps products to products, adjoints to adjoints, identity to identity, is linear, and hence maps unitary to unitary and Hermitian to Hermitian operators; traces scale by 2^(n-k).", "quantifier": "all n, wires, operators", "why_tests_cant": "unbounded", "anchors": ["oranssi/circuit_tools.py:get_full_operator"]}
{"id": "C34", "title": "Operators on disjoint wires commute and compose", "statement": "Full operators on disjoint wire tuples commute, and their product is the full operator of the Kronecker product on the concatenated wires; permuting wires together with the operator's tensor factors changes nothing.", "quantifier": "all n, disjoint wires, operators", "why_tests_cant": "unbounded", "anchors": ["oranssi/circuit_tools.py:get_full_operator"]}
{"id": "C35", "title": "get_full_operator rejects bad calls", "statement": "It raises exactly when wires is empty, some wire is >= nqubits, the operator size does not match the number of wires, or the operator is not 2^k x 2^k.", "quantifier": "all argument combinations with non-negative wires", "why_tests_cant": "unbounded", "anchors": ["oranssi/circuit_tools.py:get_full_operator"]}
{"id": "C36", "title": "get_hamiltonian_matrix is the weighted sum", "statement": "It returns sum_i c_i * full(o_i) (c_i = 1 by default), Hermitian for Hermitian observables with real coefficients; fewer coefficients than observables raise IndexError.", "quantifier": "all lists of observables and coefficients", "why_tests_cant": "unbounded lists", "anchors": ["oranssi/circuit_tools.py:get_hamiltonian_matrix"]}
{"id": "C37", "title": "param_shift_comm computes the commutator", "statement": "For a gate t -> exp(-i t/2 O) with O Hermitian and O^2=I, param_shift_comm(rho, gate) is i[rho,O]; for Hermitian rho it is Hermitian and traceless.", "quantifier": "all dimensions, all rho, all involutions O", "why_tests_cant": "continuous domain", "anchors": ["oranssi/circuit_tools.py:param_shift_comm"]}
{"id": "C38", "title": "Lie directions vanish exactly at eigenstates", "statement": "get_all_su_n_directions returns one real number per Pauli word, zero for the identity word, equal to Im<[P,H]>/2^n; all vanish if and only if the state is an eigenvector of the summed Hermitian observables.", "quantifier": "all n, all unitaries, all Hermitian observables", "why_tests_cant": "continuous domain, unbounded n", "anchors": ["oranssi/circuit_tools.py:get_all_su_n_directions"]}
{"id": "C39", "title": "Circuit unitary is the ordered product of its gates", "statement": "The unitary assembled by the optimizers from the extracted gates is the product of full gates, last gate leftmost; it is unitary when the gates are, and concatenating circuits multiplies unitaries.", "quantifier": "all gate lists", "why_tests_cant": "unbounded circuits", "anchors": ["oranssi/optimizers.py:exact_lie_optimizer", "oranssi/optimizers.py:approximate_lie_optimizer", "oranssi/circuit_tools.py:get_ops_from_qnode"]}
{"id": "C40", "title": "Algebra enumerations are complete and duplicate-free", "statement": "After get_all_directions_and_qubits the keys of AlgebraSU2/SU4/SU8 are exactly the pairs of an allowed direction and a strictly increasing tuple of qubits of matching length, each once, each mapped to the full operator of that word; repeating the call changes nothing.", "quantifier": "all nqubits, all flags", "why_tests_cant": "n is unbounded", "anchors": ["oranssi/opt_tools.py:AlgebraSU2", "oranssi/opt_tools.py:AlgebraSU4", "oranssi/opt_tools.py:AlgebraSU8"]}
{"id": "C41", "title": "Stochastic layer can be stepped", "statement": "StochasticLieAlgebraLayer.__call__ returns a new unitary for every input.", "quantifier": "all nqubits, observables and unitaries", "why_tests_cant": "universal", "anchors": ["oranssi/opt_tools.py:StochasticLieAlgebraLayer.__call__", "oranssi/opt_tools.py:AlgebraSU4.get_random_direction_and_qubits"]}
{"id": "C42", "title": "Lie layers preserve unitarity", "statement": "LocalLieAlgebraLayer and CustomDirectionLieAlgebraLayer map unitary circuit unitaries to unitary ones, trotterized or not, for every step size and all Hermitian observables.", "quantifier": "all n, all unitaries, all eta, all Hermitian observables, all direction choices", "why_tests_cant": "continuous domain", "anchors": ["oranssi/opt_tools.py:LocalLieAlgebraLayer.__call__", "oranssi/opt_tools.py:CustomDirectionLieAlgebraLayer.__call__"]}
{"id": "C43", "title": "unitary_error_check repairs drift", "statement": "With unitary_error_check=True a step whose exponential fails the unitarity test is replaced by its projection on the unitary group.", "quantifier": "all step matrices", "why_tests_cant": "numerical drift cannot be exhibited by tests on demand", "anchors": ["oranssi/opt_tools.py:LieLayer._is_unitary", "oranssi/opt_tools.py:LieLayer._project_onto_unitary", "oranssi/opt_tools.py:LocalLieAlgebraLayer.__call__"]}
{"id": "C44", "title": "Direction filters keep exactly the requested directions", "statement": "With a directions argument the layer uses exactly the listed directions, in library order, each paired with its own operator, and rejects unknown names; without one it uses all.", "quantifier": "all direction lists, all n", "why_tests_cant": "unbounded lists", "anchors": ["oranssi/opt_tools.py:LocalLieAlgebraLayer.__init__", "oranssi/opt_tools.py:CustomDirectionLieAlgebraLayer.__init__"]}
{"id": "C45", "title": "Lie layers move downhill to first order", "statement": "The derivative at eta=0 of the cost after one layer step is minus a non-negative multiple of the sum of squared directions of the layer.", "quantifier": "all n, unitaries, Hermitian observables, direction sets", "why_tests_cant": "continuous domain", "anchors": ["oranssi/opt_tools.py:LocalLieAlgebraLayer.__call__", "oranssi/opt_tools.py:CustomDirectionLieAlgebraLayer.__call__"]}
{"id": "C46", "title": "Rotosolve is optimal on one-qubit directions", "statement": "For a one-letter Pauli the angle chosen by rotosolve minimises the cost over all angles, hence never increases it.", "quantifier": "all n, unitaries, Hermitian observables, one-qubit Paulis", "why_tests_cant": "continuous domain", "anchors": ["oranssi/opt_tools.py:rotosolve"]}
{"id": "C47", "title": "Rotosolve is optimal on multi-qubit directions", "statement": "For a two- or three-letter Pauli the angle chosen by rotosolve minimises the cost over all angles, hence never increases it.", "quantifier": "all n, unitaries, Hermitian observables, multi-qubit Paulis", "why_tests_cant": "continuous domain", "anchors": ["oranssi/opt_tools.py:rotosolve", "oranssi/opt_tools.py:SU8_AlgebraLayer.__call__", "oranssi/opt_tools.py:ZassenhausLayer.__call__"]}
{"id": "C48", "title": "Greedy layers pick a largest gradient and do not repeat", "statement": "The direction picked by the SU8/Squared/Adapt layers has the largest absolute gradient among the admissible ones (first such in enumeration order); Squared never picks the same Pauli and Adapt never the same direction twice in a row.", "quantifier": "all histories of calls", "why_tests_cant": "histories are unbounded", "anchors": ["oranssi/opt_tools.py:SquaredLieAlgebraLayer.__call__", "oranssi/opt_tools.py:SU8_AlgebraLayer.__call__", "oranssi/opt_tools.py:AdaptVQELayer.__call__"]}
{"id": "C49", "title": "Zassenhaus layer schedule", "statement": "With ratio (a,b), successful calls alternate a su4 steps and b su8 steps starting with su4; the recorded labels are periodic with period max(a,1)+max(b,1).", "quantifier": "all ratios, all numbers of calls", "why_tests_cant": "histories are unbounded", "anchors": ["oranssi/opt_tools.py:ZassenhausLayer.__call__"]}
{"id": "C50", "title": "Zassenhaus su8 candidates are genuine commutators", "statement": "For every pair of two-qubit words sharing exactly one site, the key looked up in the SU(8) table exists unless the letters on the shared site coincide, its operator times the recorded coefficient is the commutator of the two full operators, and the recorded sign is +-2.", "quantifier": "all n>=3, all pairs of two-qubit words", "why_tests_cant": "n is unbounded", "anchors": ["oranssi/opt_tools.py:ZassenhausLayer.__call__"]}
{"id": "C51", "title": "AdaptVQE gate schedule", "statement": "Each adapt layer applies commuting gates covering every qubit pair of its brick pattern once, reads only parameters that exist in its row, and uses different parameters for different gates.", "quantifier": "all nqubits, all layer histories", "why_tests_cant": "n and histories are unbounded", "anchors": ["oranssi/opt_tools.py:AdaptVQELayer.__call__"]}
{"id": "C52", "title": "get_lie_algebra_directions works for every layer", "statement": "return_omegas / get_lie_algebra_directions returns the directions for every Lie layer.", "quantifier": "all layers with at least one observable", "why_tests_cant": "universal over layers", "anchors": ["oranssi/opt_tools.py:LieLayer.get_lie_algebra_directions", "oranssi/circuit_tools.py:get_all_su_n_directions"]}
{"id": "C53", "title": "exact_lie_optimizer argument validation", "statement": "It accepts exactly nsteps an int >=1, eta a float in [0,1], tol a float >=0, boolean flags, and return_perturbations only with perturbation; anything else is rejected before any optimization step.", "quantifier": "all keyword argument dictionaries over Python values", "why_tests_cant": "value space is unbounded", "anchors": ["oranssi/optimizers.py:exact_lie_optimizer"]}
{"id": "C54", "title": "parameter_shift_optimizer argument validation", "statement": "It accepts exactly nsteps an int >=1, eta a float in [0,1], tol a float >=0 and boolean flags; anything else is rejected before any optimization step.", "quantifier": "all keyword argument dictionaries", "why_tests_cant": "value space is unbounded", "anchors": ["oranssi/optimizers.py:parameter_shift_optimizer"]}
{"id": "C55", "title": "approximate_lie_optimizer argument validation", "statement": "It accepts exactly a list of LieLayers, nsteps an int >=1, eta a float in [0,1], tol None or a float >=0, float escape_tol and boolean flags; anything else is rejected before any optimization step.", "quantifier": "all keyword argument dictionaries", "why_tests_cant": "value space is unbounded", "anchors": ["oranssi/optimizers.py:approximate_lie_optimizer"]}
{"id": "C56", "title": "Histories are aligned", "statement": "Costs have one entry per executed step plus the initial one (between 2 and nsteps+1); requested states, unitaries and parameters have exactly as many, entry k belonging to the same circuit as cost k; omegas and zassenhaus labels have one entry per step.", "quantifier": "all runs of the three optimizers, all cost sequences", "why_tests_cant": "every run length and stop point", "anchors": ["oranssi/optimizers.py"]}
{"id": "C57", "title": "Early stopping rule", "statement": "Without perturbation an optimizer stops exactly at the first step past its warm-up whose cost is close to the reference earlier cost, and otherwise runs all nsteps; tol=None never stops early.", "quantifier": "all cost sequences, tolerances and step counts", "why_tests_cant": "every cost sequence", "anchors": ["oranssi/optimizers.py"]}
{"id": "C58", "title": "Perturbation rule", "statement": "With perturbation all nsteps are run and the reported perturbation steps are exactly the steps past warm-up where the stopping criterion held, in increasing order; without it the list is empty.", "quantifier": "all cost sequences", "why_tests_cant": "every cost sequence", "anchors": ["oranssi/optimizers.py"]}
{"id": "C59", "title": "Layers are applied cyclically", "statement": "Step t of approximate_lie_optimizer applies layer t mod len(layers); an empty layer list is rejected.", "quantifier": "all layer lists, all step counts", "why_tests_cant": "unbounded runs", "anchors": ["oranssi/optimizers.py:approximate_lie_optimizer"]}
{"id": "C60", "title": "Return shape", "statement": "Without return flags the bare cost list is returned, otherwise a tuple with the costs and exactly the requested items in the documented fixed order.", "quantifier": "all flag combinations", "why_tests_cant": "all combinations of flags in every run", "anchors": ["oranssi/optimizers.py"]}
{"id": "C61", "title": "Returned unitary has the last reported cost", "statement": "With return_unitary=True the unitary returned by exact_lie_optimizer has expectation value equal to the last entry of the cost list.", "quantifier": "all runs", "why_tests_cant": "every stop point and perturbation pattern", "anchors": ["oranssi/optimizers.py:exact_lie_optimizer"]}
{"id": "C62", "title": "eta is the learning rate of approximate_lie_optimizer", "statement": "The eta argument of approximate_lie_optimizer determines the step size of the layers.", "quantifier": "all layers and eta values", "why_tests_cant": "universal", "anchors": ["oranssi/optimizers.py:approximate_lie_optimizer", "oranssi/opt_tools.py:LieLayer.set_eta"]}
{"id": "C63", "title": "Exact flow never increases a single-Pauli cost", "statement": "With one Pauli-type observable and any accepted eta, every step of exact_lie_optimizer leaves the cost unchanged or lower.", "quantifier": "all dimensions, states, involutory Hermitian observables, eta in [0,1]", "why_tests_cant": "continuous domain", "anchors": ["oranssi/optimizers.py:exact_lie_optimizer", "oranssi/circuit_tools.py:param_shift_comm"]}
{"id": "C64", "title": "Exact flow stalls exactly at eigenstates", "statement": "With one Pauli-type observable and eta in (0,1], a step leaves the cost unchanged if and only if the state is an eigenstate.", "quantifier": "all dimensions, states, observables, eta", "why_tests_cant": "continuous domain", "anchors": ["oranssi/optimizers.py:exact_lie_optimizer"]}
{"id": "C65", "title": "Exact flow converges to the ground energy", "statement": "With one Pauli-type observable and eta in (0,1], unless the start state is a top eigenstate the costs of the unbounded iteration converge to -1.", "quantifier": "all dimensions, start states, eta", "why_tests_cant": "limits cannot be tested", "anchors": ["oranssi/optimizers.py:exact_lie_optimizer"]}
{"id": "C66", "title": "Optimizers stay on the unitary group", "statement": "Every unitary an optimizer run produces or returns is unitary, so the device never rejects it.", "quantifier": "all runs with unitary gates and Hermitian observables", "why_tests_cant": "all runs", "anchors": ["oranssi/optimizers.py"]}
{"id": "C67", "title": "spherical_to_state gives pure states", "statement": "For all angles the result is Hermitian, has trace 1, is idempotent, and its Bloch vector is (sin t cos p, sin t sin p, cos t).", "quantifier": "all real angles", "why_tests_cant": "continuous domain", "anchors": ["oranssi/plot_utils.py:spherical_to_state"]}
{"id": "C68", "title": "Angle round trip", "statement": "state_to_spherical(spherical_to_state(phi,theta)) = (phi,theta) for theta in (0,pi) and phi in [0,2pi), except that phi within tolerance of 2 pi is reported as 0.", "quantifier": "all angles in range", "why_tests_cant": "continuous domain", "anchors": ["oranssi/plot_utils.py:spherical_to_state", "oranssi/plot_utils.py:state_to_spherical"]}
{"id": "C69", "title": "State round trip", "statement": "For every pure 2x2 density matrix, spherical_to_state(state_to_spherical(rho)) = rho unless phi is snapped near 2 pi.", "quantifier": "all pure qubit states", "why_tests_cant": "continuous domain", "anchors": ["oranssi/plot_utils.py:spherical_to_state", "oranssi/plot_utils.py:state_to_spherical"]}
{"id": "C70", "title": "Zassenhaus layer options can be combined", "statement": "For every combination of add_su2 and add_su4 the su8 calls of the layer do not fail on a missing table entry.", "quantifier": "all n>=3, all observables, all histories of calls", "why_tests_cant": "n and the histories are unbounded", "anchors": ["oranssi/opt_tools.py:ZassenhausLayer.__init__", "oranssi/opt_tools.py:ZassenhausLayer.__call__"]}
{"id": "C71", "title": "A new Adapt layer uses its own parameter row", "statement": "The circuit of an AdaptVQE call depends on the row of parameters added for the new layer, whatever parameters the caller started with.", "quantifier": "all nqubits>=2, all histories, all initial parameter rows", "why_tests_cant": "histories and parameters are unbounded", "anchors": ["oranssi/opt_tools.py:AdaptVQELayer.__call__", "oranssi/optimizers.py:approximate_lie_optimizer"]}
{"id": "C72", "title": "Adapt layers can be called on every register they can be made for", "statement": "Whenever AdaptVQELayer can be constructed, calling it with an optimizer that returns a parameter history returns a circuit unitary.", "quantifier": "all nqubits>=1, all observables, all histories", "why_tests_cant": "n and histories are unbounded", "anchors": ["oranssi/opt_tools.py:AdaptVQELayer.__init__", "oranssi/opt_tools.py:AdaptVQELayer.__call__"]}
{"id": "C73", "title": "Exact flow step is the Riemannian gradient step", "statement": "One step of exact_lie_optimizer with Pauli-type observables multiplies the circuit unitary by exp(eta/2 [rho, O]) for each observable in turn, with rho the current state; the result does not depend on the eigenvectors numpy.linalg.eigh happens to return.", "quantifier": "all dimensions, observables, eta, circuits and correct eigendecompositions", "why_tests_cant": "degenerate eigenvalues make the eigenvectors arbitrary; a test sees one choice", "anchors": ["oranssi/optimizers.py:exact_lie_optimizer"]}
{"id": "C74", "title": "Angles of mixed states", "statement": "For every density matrix, mixed ones included, state_to_spherical returns the azimuth and polar angle of its Bloch vector.", "quantifier": "all 2x2 density matrices", "why_tests_cant": "continuous domain; the tests use pure states only", "anchors": ["oranssi/plot_utils.py:state_to_spherical"]}
{"id": "C75", "title": "commute=True in the optimizer", "statement": "approximate_lie_optimizer(..., layers=[SquaredLieAlgebraLayer(...)], commute=True) runs and its layers apply sets of commuting rotations; layers of the other classes are not affected by the argument.", "quantifier": "all circuits, observables, layer lists, numbers of steps and other arguments", "why_tests_cant": "the argument reaches the layers through **kwargs and combines with every layer class and every run; no test passes it", "anchors": ["oranssi/optimizers.py:approximate_lie_optimizer", "oranssi/opt_tools.py:SquaredLieAlgebraLayer.__call__"]}
{"id": "C76", "title": "Commuting layer of a single call", "statement": "A call of SquaredLieAlgebraLayer with commute=True and an optimizer returns the circuit followed by rotations that all have one Pauli direction, whose gradients are tied for the largest and whose qubit tuples do not overlap, so that the rotations commute; the angles are the last parameters the optimizer returned for exactly this circuit.", "quantifier": "all observables, circuits, previous calls, optimizers and random choices of the colouring", "why_tests_cant": "the chosen set depends on a randomised edge colouring and on ties between continuous gradients; every graph of tied bonds can occur", "anchors": ["oranssi/opt_tools.py:SquaredLieAlgebraLayer.__call__", "oranssi/circuit_tools.py:get_commuting_set"]}
{"id": "C77", "title": "stride of LocalLieAlgebraLayer", "statement": "With locality 2 the argument stride selects which neighbouring pairs of qubits a LocalLieAlgebraLayer acts on: stride 0 and stride 1 give layers with different effects, so alternating them gives a brick-wall circuit; other strides are rejected.", "quantifier": "all numbers of qubits, observables, step sizes, lists of directions, flags and input circuits", "why_tests_cant": "two layer objects have to be compared on every circuit and for every list of observables", "anchors": ["oranssi/opt_tools.py:LocalLieAlgebraLayer.__init__", "oranssi/opt_tools.py:LocalLieAlgebraLayer.__call__"]}
{"id": "C78", "title": "return_omegas of approximate_lie_optimizer", "statement": "approximate_lie_optimizer(..., return_omegas=True) returns, for every step, the components of the Riemannian gradient of the observables of the layer called in that step, in all Pauli directions, at the circuit that step produced, for every layer class of the package.", "quantifier": "all circuits, observables, layers of all classes, layer lists, numbers of steps and other arguments", "why_tests_cant": "depends on the layer class, on which step a layer is reached in, and on the circuits of a run of any length", "anchors": ["oranssi/optimizers.py:approximate_lie_optimizer", "oranssi/opt_tools.py:LieLayer.get_lie_algebra_directions"]}
{"id": "C79", "title": "Exact flow never increases the total cost", "statement": "exact_lie_optimizer with a list of Pauli observables never increases the total cost, the sum of the expectation values, from one step to the next, for every accepted step size; for small step sizes it strictly decreases it unless the state is an eigenstate of the sum.", "quantifier": "all numbers of qubits, circuits, lists of Pauli observables and accepted step sizes", "why_tests_cant": "the per-observable factors do not commute, so whether their product still descends depends on the state and on a continuum of step sizes", "anchors": ["oranssi/optimizers.py:exact_lie_optimizer"]}
{"id": "C80", "title": "parameter_shift_optimizer follows the parameter-shift rule", "statement": "For a circuit in which every parameter is the angle of at most one Pauli rotation, every step of parameter_shift_optimizer replaces each parameter by itself minus eta times half the difference of the total cost with that parameter shifted by plus and by minus pi/2, all costs taken at the parameters before the step; the circuits AdaptVQELayer optimizes are of this kind.", "quantifier": "all circuits of Pauli rotations and fixed gates, parameters, lists of observables, accepted keyword arguments and steps of a run", "why_tests_cant": "an identity between derivatives and finite shifts over a continuum of parameters and circuits of any size", "anchors": ["oranssi/optimizers.py:parameter_shift_optimizer", "oranssi/opt_tools.py:AdaptVQELayer.__call__"]}
{"id": "C81", "title": "parameter_shift_optimizer never increases the cost", "statement": "For every accepted learning rate eta a step of parameter_shift_optimizer does not increase the cost; to first order in eta the cost falls by eta times the squared length of the gradient.", "quantifier": "all circuits of Pauli rotations, parameters, lists of observables and learning rates in [0,1]", "why_tests_cant": "whether a learning rate is small enough depends on the number of observables and on the point, and both are unbounded", "anchors": ["oranssi/optimizers.py:parameter_shift_optimizer"]}
{"id": "C82", "title": "A plain LieLayer in the list of layers", "statement": "approximate_lie_optimizer called with a list that contains an instance of the base class LieLayer raises NotImplementedError before any optimization step, wherever it is in the list and however many steps are asked for.", "quantifier": "all circuits, lists of layers of all classes, positions and keyword arguments", "why_tests_cant": "has to hold even if no step would reach that layer, for every list and number of steps", "anchors": ["oranssi/optimizers.py:approximate_lie_optimizer", "oranssi/opt_tools.py:LieLayer.__repr__"]}
{"id": "C83", "title": "ZassenhausLayerV2 multiplies its fitted step onto the circuit", "statement": "A call of a ZassenhausLayerV2 object with a circuit on at least two qubits fits the three angles of X0, X1 and Z0 Z1 to the gradient of the cost times eta and returns a unitary that is the given circuit followed by the fitted step; the cost does not go up for small eta.", "quantifier": "all numbers of qubits, observables, step sizes, results of the minimizer, circuits and histories of calls", "why_tests_cant": "the result goes through a numerical minimizer, so that tests see a few of its answers, and the angles are real numbers", "anchors": ["oranssi/opt_tools.py:ZassenhausLayerV2"]}
{"id": "C84", "title": "ZassenhausLayerV2 expands the logarithm of the product to second order", "statement": "The names and coefficients of a ZassenhausLayerV2 object form A + B + C + ([A,B] + [A,C] + [B,C])/2 with A = -i x0 X0, B = -i x1 X1 and C = -i z12 Z0 Z1, whatever order Python iterates over its sets in, and no name occurs twice.", "quantifier": "all values of the symbols, numbers of qubits, iteration orders of sets", "why_tests_cant": "set iteration order depends on hashes and cannot be chosen by a test; the identity is between polynomials with matrix coefficients on any number of qubits", "anchors": ["oranssi/opt_tools.py:ZassenhausLayerV2.__init__", "oranssi/pauli.py:PauliMonomial.commutator", "oranssi/pauli.py:PauliMonomial.to_oranssi"]}
{"id": "C85", "title": "The commutator graphs contain the Lie algebra generated by the monomials", "statement": "generate_product_algebra_graph and generate_product_algebra_digraph stop for every list of three-qubit Pauli monomials with coefficients 1, -1, i or -i. The nodes of the result are exactly the nonzero nested commutators of the list, each once up to a real factor. Two nodes of the undirected graph are adjacent when one is the commutator of the other with a node. In the directed graph the attribute depth of a node is the least nesting of commutators that yields it, and a node of positive depth has edges from two earlier nodes whose commutator it is. The monomials of SU4_to_SU8_algebra generate all of su(8).", "quantifier": "all lists of three-qubit monomials with unit coefficients, all iteration orders of sets", "why_tests_cant": "the loop runs until nothing is added, so a test can neither show that it always stops nor that no commutator of any depth is missing", "anchors": ["experiments_paper/algebra_graphs.py:generate_product_algebra_graph", "experiments_paper/algebra_graphs.py:generate_product_algebra_digraph", "experiments_paper/algebra_graphs.py:SU4_to_SU8_algebra", "oranssi/pauli.py:PauliMonomial.commutator", "oranssi/pauli.py:PauliMonomial.__hash__"]}
{"id": "C86", "title": "An AdaptVQELayer call trains all parameters by gradient descent", "statement": "When approximate_lie_optimizer calls an AdaptVQELayer, the training starts at the rows passed in followed by a new row of 0.1s, every step is a parameter-shift step with learning rate 0.01 on the circuit of all layers chosen so far, at most 40 steps are taken and the training ends early only by the stopping rule with tolerance 1e-5. The rows returned are the last point of the training and the unitary returned has the last cost. A row beyond those of the layers is returned unchanged.", "quantifier": "all observables, numbers of qubits, caller's parameters, circuits and call histories of the layer", "why_tests_cant": "a test compares energies of a few runs and cannot tell which rows were trained, with which rate and from which start", "anchors": ["oranssi/opt_tools.py:AdaptVQELayer.__call__", "oranssi/optimizers.py:parameter_shift_optimizer"]}
{"id": "C87", "title": "Layer objects keep their own state during a run", "statement": "A run of approximate_lie_optimizer makes one call per step, of the layers in turn. Circuit and parameters are handed on from call to call. Every object, also one listed several times, is called in the state its own earlier calls left it in, whatever objects are called in between. The omegas returned are the directions of the object just called at the circuit it returned, and the zassenhaus entries name the kind of step each call makes.", "quantifier": "all lists of layer objects of every class, circuits, observables, keyword arguments and numbers of steps", "why_tests_cant": "interleavings of stateful objects are unbounded and their states are not returned", "anchors": ["oranssi/optimizers.py:approximate_lie_optimizer", "oranssi/opt_tools.py:AdaptVQELayer.__call__", "oranssi/opt_tools.py:SquaredLieAlgebraLayer.__call__", "oranssi/opt_tools.py:ZassenhausLayer.__call__", "oranssi/opt_tools.py:ZassenhausLayerV2.__call__"]}
{"id": "C88", "title": "The direction plots show the Lie algebra directions of every step", "statement": "For a non-empty list of unitaries on a device of the size a direction plot is named after (SU(16): four qubits, SU(8): three), the plot returns a figure. The curve for i identities gives at every step the sum of the absolute values of the directions of all Pauli words with exactly i identities; the individual plots give one curve per word whose direction exceeds the tolerance 1e-8 at some step, labelled with the word. All sums vanish at a step exactly when the state of that step is an eigenvector of the sum of the observables.", "quantifier": "all lists of unitaries, all observables on the device, all numbers of qubits", "why_tests_cant": "the sums range over 4^n words for arbitrary unitaries and observables, and the failures depend on the number of qubits", "anchors": ["oranssi/plot_utils.py:plot_su16_directions", "oranssi/plot_utils.py:plot_su16_directions_separate", "oranssi/plot_utils.py:plot_su8_directions", "oranssi/plot_utils.py:plot_su8_directions_individually"]}
{"id": "C89", "title": "bch_recusion collects the terms of the Baker-Campbell-Hausdorff series", "statement": "Starting from [[X, Y]] for Pauli monomials X and Y, every call of bch_recusion appends one level. The monomials of level two add up to ½[X,Y] and those of level three to (1/12)([X,[X,Y]] + [Y,[Y,X]]), the terms of degree two and three of log(exp X exp Y). Commuting monomials add nothing, and an empty list raises IndexError.", "quantifier": "all Pauli monomials X, Y with any coefficients on any number of qubits, all numbers of calls", "why_tests_cant": "holds or fails for operators of exponential size and any number of levels; a test fixes X, Y and the depth", "anchors": ["experiments_paper/BCH.py:bch_recusion", "experiments_paper/BCH.py:closeness_3"]}
{"id": "C90", "title": "A small learning rate makes parameter_shift_optimizer descend at a definite rate", "statement": "Let the total cost stay between -B and B, let the circuit have m parametrised Pauli rotations and let no parameter enter more than r of them. If eta*B*m*r <= 1, every step of a run of parameter_shift_optimizer lowers the cost by at least eta/2 times the squared length of the gradient; hence the returned costs never rise, and among T steps one starts at parameters where the squared gradient is at most 4B/(eta*T). For observables that square to the identity B is their number. In particular a call of AdaptVQELayer returns a circuit that costs no more than the circuit with the new layer at its starting angles as long as the number of observables times qubits times layers is at most 100.", "quantifier": "all circuits of Pauli rotations, numbers of qubits, lists of observables, start parameters, learning rates, numbers of steps and tolerances; all histories of an AdaptVQELayer", "why_tests_cant": "a bound on the step size that works for every circuit and a rate of convergence for runs of any length cannot be sampled", "anchors": ["oranssi/optimizers.py:parameter_shift_optimizer", "oranssi/opt_tools.py:AdaptVQELayer"]}
{"id": "C91", "title": "exact_lie_optimizer lowers a sum of observables at a definite rate", "statement": "For m observables that square to the identity, every step of exact_lie_optimizer with learning rate eta lowers the total cost by at least eta times the variance of the total observable in the current state, up to an error of at most (3/2)*m^3*eta^2. Hence in a run of T steps without perturbations one step starts from a circuit whose variance is at most 2m/(eta*T) + (3/2)*m^3*eta; if the run stops early because the cost no longer changes by more than tol, the variance before the last step is at most (tol + m/10^5)/eta + (3/2)*m^3*eta; and the cost of a circuit differs from some eigenvalue of the total observable by at most the square root of its variance.", "quantifier": "all numbers of qubits, circuits, lists of such observables, learning rates, tolerances, numbers of steps and every correct eigh", "why_tests_cant": "a rate that holds for every circuit, every number of observables and runs of any length cannot be sampled", "anchors": ["oranssi/optimizers.py:exact_lie_optimizer"]}
{"id": "C92", "title": "The Lie algebra layers lower the cost at a definite rate", "statement": "For m observables that square to the identity, a call of LocalLieAlgebraLayer or CustomDirectionLieAlgebraLayer with learning rate eta changes the total cost by minus eta/2^n times the sum of the squared components of the Riemannian gradient along the directions of the layer, up to an error of at most 2m(eta/2^n * A)^2, where A is the sum of the absolute components for the single observables. For one observable and N directions with 4*eta*N <= 2^n the cost falls by at least eta/2^(n+1) times the sum of the squared components. Hence in a run of approximate_lie_optimizer over such layers without perturbations the costs never rise, among T steps one starts at a circuit whose squared gradient along the directions of its layer is at most 2^(n+2)/(eta*T), and if the run stops early the squared gradients of its last five steps, weighted with the learning rates, add up to at most 2^(n+1)(tol + 10^-5).", "quantifier": "all numbers of qubits, circuits, observables, direction sets, learning rates, numbers of steps, tolerances, sequences of layers, with and without trotterization, and every correct svd", "why_tests_cant": "a step size that works for every circuit and direction set and a rate of convergence for runs of any length cannot be sampled", "anchors": ["oranssi/opt_tools.py:LocalLieAlgebraLayer", "oranssi/opt_tools.py:CustomDirectionLieAlgebraLayer", "oranssi/optimizers.py:approximate_lie_optimizer"]}
{"id": "C93", "title": "The printed forms of Pauli objects are faithful", "statement": "repr of a Pauli determines its site, letter and coefficient, and repr and tex of a monomial determine its sites, letters and coefficient (without the coefficient: sites and letters), so objects that print the same are the same operator; tex of a Pauli determines the object as well. None of them raises.", "quantifier": "all Paulis and monomials on any sites with any coefficients, and every rendering of complex numbers that is injective and free of blanks", "why_tests_cant": "injectivity over all sites, letters and coefficients ranges over pairs of unbounded objects", "anchors": ["oranssi/pauli.py:Pauli.__repr__", "oranssi/pauli.py:Pauli.__tex__", "oranssi/pauli.py:PauliMonomial.__repr__", "oranssi/pauli.py:PauliMonomial.__tex__"]}
{"id": "C94", "title": "save_path_creator leaves a directory behind, also with several experiments at once", "statement": "save_path_creator(path, name) returns the joined path; afterwards it is a directory, its missing ancestors have been made and nothing else has changed; calling it again changes nothing. This also holds if several processes call it at the same time, for the same or different paths.", "quantifier": "all file systems, paths, numbers of processes and interleavings of their system calls", "why_tests_cant": "failures depend on the order of the system calls of several processes; tests see a few orders only", "anchors": ["oranssi/utils.py:save_path_creator"]}
{"id": "C95", "title": "fixed_points.py shows the gradient and the energy of a covering family of states", "statement": "For every grid point in the unit ball the script uses a special unitary matrix, and every special unitary matrix is reached up to sign; the gradients stored for the point are the derivatives of the energy of its state along X, Y and Z (halved), all zero exactly at the eigenvalues of X+Y; the cost stored is that energy, so the point printed at the end is a grid point of least energy. Points outside the ball get zeros.", "quantifier": "all real grid points and all special unitary matrices", "why_tests_cant": "the derivative and the covering of the group are statements about a continuum", "anchors": ["experiments_paper/fixed_points.py:unitary", "oranssi/circuit_tools.py:get_all_su_n_directions"]}
{"id": "C96", "title": "level_surface draws the level set of the energy on the 3-sphere", "statement": "For all r3, r4 and every level, level_surface(r3, r4, const) returns the r2 for which some r1 makes (r1, r2, r3, r4) a point of the unit sphere whose unitary has energy const for X+Y; every such point is on the surface, and nan means that there is none.", "quantifier": "all real r3, r4, levels and points of the 3-sphere", "why_tests_cant": "the level set is a surface; samples do not show that a closed formula solves its equation everywhere", "anchors": ["experiments_paper/3_sphere_level_curves.py:level_surface", "experiments_paper/fixed_points.py:unitary"]}
{"id": "C97", "title": "The trajectories of red_blue_comparison.py lie where the maps show their costs", "statement": "For all starting angles, learning rates in [0, 1] and step numbers, both optimizations of the script return lists of one length; the k-th point (phi, theta) of each trajectory lies in the chart of the blue map, at a place whose height in that map is the k-th cost (exactly, unless the azimuth is rounded to 0 near a full turn, where the error is at most twice the tolerance); the k-th point on the red map is the k-th parameter pair modulo full turns and has the k-th cost as its height; the parameters follow gradient descent of sin(a)(cos(b)+sin(b)); both trajectories start at the state of the circuit. The maps hold exactly the points of their grids, each with the energy of its state and the cost of its circuit.", "quantifier": "all real starting angles, learning rates, step counts, grid sizes, and eigensolvers that are correct", "why_tests_cant": "the claim is about every run and every point of continuous maps; tests only compare a few numbers", "anchors": ["experiments_paper/red_blue_comparison.py:plot_difference_2_obs_sep_figs", "oranssi/plot_utils.py:state_to_spherical", "oranssi/optimizers.py:parameter_shift_optimizer", "oranssi/optimizers.py:exact_lie_optimizer"]}
{"id": "C98", "title": "The label of the last point is its step", "statement": "In the figures of red_blue_comparison.py the first point of a trajectory is labelled k = 0 and the last one with the number of the step that produced it.", "quantifier": "all runs of the two optimizations", "why_tests_cant": "the label is text in a figure and depends on when the run stops", "anchors": ["experiments_paper/red_blue_comparison.py:plot_difference_2_obs_sep_figs"]}
{"id": "C99", "title": "plot_bloch_sphere_2d draws the documented matrix", "statement": "Given K values of phi, L values of theta and the K x L matrix with the cost of (phi_k, theta_l) in row k, column l, plot_bloch_sphere_2d draws that cost at (phi_k, theta_l).", "quantifier": "all K, L at least 2, all axes and all matrices", "why_tests_cant": "callers only use square grids, where a transposed matrix is accepted", "anchors": ["oranssi/plot_utils.py:plot_bloch_sphere_2d"]}
{"id": "C100", "title": "The costs are never below the ground-state energy the figures compare them with", "statement": "For every circuit and list of Hermitian observables, every cost returned by the three optimizers lies between the smallest and the largest eigenvalue of the Hamiltonian of the observables, so that the plotted |cost - min(eigvals)| is cost - min(eigvals); a cost equals the smallest (largest) eigenvalue exactly if the state returned with it is an eigenvector of it. The eigenvalues an eigensolver returns are exactly the eigenvalues of the matrix.", "quantifier": "all qubit numbers, circuits, Hermitian observables, accepted arguments and correct eigensolvers", "why_tests_cant": "the bound is about every state any run visits; tests only see some costs", "anchors": ["oranssi/optimizers.py:exact_lie_optimizer", "oranssi/optimizers.py:approximate_lie_optimizer", "oranssi/optimizers.py:parameter_shift_optimizer", "oranssi/circuit_tools.py:get_hamiltonian_matrix", "experiments_paper/tfim_su4_linesearch.py", "experiments_paper/zassenhaus.py"]}
{"id": "C101", "title": "What the figure of eigenstate_perturbation.py shows", "statement": "The script runs without an error. Its matrix is the Hamiltonian of its observables; the dashed lines are the two smallest eigenvalues, -1-sqrt 2 and 1-sqrt 2. Both curves start at 2; the curve without perturbations never gets below the second line, hence never reaches the minimum, and the one with perturbations never gets below the first. The first entry of a diagonalization panel is the last cost of its curve (for the perturbed run unless the last step stalls), and the rest of the first column of U^* H U vanishes exactly if the state is an eigenvector.", "quantifier": "all correct eigensolvers that sort the eigenvalues and all random matrices; the panel for all qubit numbers, unitaries and Hermitian matrices", "why_tests_cant": "that a curve stays above a line in every run is not settled by one picture", "anchors": ["experiments_paper/eigenstate_perturbation.py:two_observables_2_qubits", "oranssi/optimizers.py:exact_lie_optimizer"]}
{"id": "C102", "title": "exact_lie_optimizer conserves what commutes with the observables", "statement": "If the state of the circuit is an eigenvector of a matrix that commutes with all the observables (Pauli words or any Hermitian matrices that square to the identity), then without perturbations every state of the run is an eigenvector of it for the same eigenvalue.", "quantifier": "all qubit numbers, circuits, observables of that kind, commuting matrices, eigenvalues and accepted arguments", "why_tests_cant": "a conservation law over runs of any length", "anchors": ["oranssi/optimizers.py:exact_lie_optimizer"]}
{"id": "C103", "title": "The perturbation marks show the perturbed circuits", "statement": "In the figure of eigenstate_perturbation.py the mark for a perturbation is drawn at the cost of the circuit that was perturbed.", "quantifier": "all runs of exact_lie_optimizer with perturbation and return_perturbations", "why_tests_cant": "the shift by one entry is invisible when the costs have converged", "anchors": ["experiments_paper/eigenstate_perturbation.py:two_observables_2_qubits", "oranssi/optimizers.py:exact_lie_optimizer"]}
{"id": "C104", "title": "Conjugating a monomial changes only that monomial", "statement": "m.conj() and p.conj() change the object they are called on; every other monomial reads as before (locations, Paulis, coefficients) and later products with it are the same.", "quantifier": "all programs of constructor calls, products, commutators, conj and assignments to coeff, all iteration orders of sets", "why_tests_cant": "depends on which objects a whole program shares", "anchors": ["oranssi/pauli.py:Pauli.conj", "oranssi/pauli.py:PauliMonomial.conj", "oranssi/pauli.py:PauliMonomial.__init__", "oranssi/pauli.py:PauliMonomial.__mul__"]}
{"id": "C105", "title": "Double precision decides commutation correctly", "statement": "For monomials built from finite double precision coefficients, a.commutes_with(b) is True exactly when the two Pauli strings commute as matrices, and a.commutator(b) has coefficient zero for commuting strings and twice the coefficient of a*b otherwise, provided the coefficient of the computed product a*b is finite and not zero. If it underflows to zero the answer is always True; if it contains nan the answer is always False. With coefficients 1, 1j, -1, -1j nothing is rounded.", "quantifier": "all monomials on any sites with any finite double precision complex coefficients, all iteration orders of sets", "why_tests_cant": "the two products are computed in different orders with rounding; tests cover a few coefficients", "anchors": ["oranssi/pauli.py:PauliMonomial.commutes_with", "oranssi/pauli.py:PauliMonomial.commutator", "oranssi/pauli.py:PauliMonomial.__mul__", "oranssi/pauli.py:Pauli.__mul__"]}
{"id": "C106", "title": "LocalLieAlgebraLayer and CustomDirectionLieAlgebraLayer conserve commuting Pauli strings", "statement": "If a Pauli string commutes with all the observables and the state of the circuit is an eigenvector of it, then the state is still one, for the same eigenvalue, after a call of a LocalLieAlgebraLayer or a CustomDirectionLieAlgebraLayer with any directions, learning rate and options, and after every step of a run of approximate_lie_optimizer with such layers and without perturbations.", "quantifier": "all qubit numbers, circuits, Hermitian observables, Pauli strings, eigenvalues, layers of the two classes, and accepted arguments", "why_tests_cant": "a conservation law over runs of any length, for every choice of directions", "anchors": ["oranssi/opt_tools.py:LocalLieAlgebraLayer", "oranssi/opt_tools.py:CustomDirectionLieAlgebraLayer", "oranssi/optimizers.py:approximate_lie_optimizer"]}
{"id": "C107", "title": "The greedy layers conserve commuting Pauli strings", "statement": "If a Pauli string commutes with all the observables and the state of the circuit is an eigenvector of it, then it is still one, for the same eigenvalue, after a call of a SquaredLieAlgebraLayer (without commute) or a SU8_AlgebraLayer.", "quantifier": "all qubit numbers, circuits, observables, Pauli strings, eigenvalues and previous directions", "why_tests_cant": "the calls that break it are those where all gradients vanish, which random circuits do not meet", "anchors": ["oranssi/opt_tools.py:SquaredLieAlgebraLayer", "oranssi/opt_tools.py:SU8_AlgebraLayer", "oranssi/opt_tools.py:rotosolve"]}
{"id": "C108", "title": "The figure of approximate_example.py", "statement": "The script approximate_example.py runs without an exception. It draws 28 costs that start at 1 and fall towards the lowest eigenvalue -sqrt 2 of its observables, the last one within 5.4e-7; the curves are exactly those of the directions YY and ZZ, and they are opposite. More generally every such run with layers in the directions YY and ZZ of learning rate eta has the costs sqrt 2 cos(a_k) with a_0 = pi/4 and a_(k+1) = a_k + 2 sqrt 2 eta sin a_k; for 0 < 2 sqrt 2 eta <= 1 they fall strictly and converge to the lowest eigenvalue.", "quantifier": "all eigendecompositions and singular value decompositions that are correct, all random numbers; for the runs in general all learning rates and arguments without perturbation", "why_tests_cant": "a run shows one sequence of costs for one learning rate and cannot show a limit; that the other curves vanish exactly depends on the circuit", "anchors": ["experiments_paper/approximate_example.py:circuit", "oranssi/optimizers.py:approximate_lie_optimizer", "oranssi/opt_tools.py:CustomDirectionLieAlgebraLayer", "oranssi/plot_utils.py:plot_su8_directions_individually"]}
{"id": "C109", "title": "nsteps only truncates a run", "statement": "Two calls of the same optimizer that differ in nsteps (and return flags) only: the cost history of the call with fewer steps is the beginning of the other one, of nsteps + 1 entries or all of it, and so are the lists of states, parameters, unitaries, omegas and labels both return; the perturbed steps are those of the longer run below nsteps. If the longer call returns, the shorter one with the same flags does.", "quantifier": "all three optimizers, all circuits, observables and layers (any operations, which may raise), all accepted arguments", "why_tests_cant": "a relation between two runs for all step counts and all circuits", "anchors": ["oranssi/optimizers.py:parameter_shift_optimizer", "oranssi/optimizers.py:exact_lie_optimizer", "oranssi/optimizers.py:approximate_lie_optimizer"]}
{"id": "C110", "title": "tol only truncates a run", "statement": "Two calls of the same optimizer without perturbation that differ in tol (and return flags) only: the histories of the call with the larger tolerance are beginnings of those of the other call. No tolerance counts as the smallest for approximate_lie_optimizer.", "quantifier": "all three optimizers, all operations, all accepted arguments including infinite tolerances", "why_tests_cant": "a relation between two runs for all pairs of tolerances", "anchors": ["oranssi/optimizers.py:parameter_shift_optimizer", "oranssi/optimizers.py:exact_lie_optimizer", "oranssi/optimizers.py:approximate_lie_optimizer"]}
{"id": "C111", "title": "The return flags only observe", "statement": "Two calls of the same optimizer that differ in return_* flags only have the same cost history, and what both return is the same. For approximate_lie_optimizer without perturbation the learning rate eta does not matter either.", "quantifier": "all three optimizers, all operations, all accepted arguments, with and without perturbation", "why_tests_cant": "a test compares some of the 64 combinations of flags on some circuits", "anchors": ["oranssi/optimizers.py:parameter_shift_optimizer", "oranssi/optimizers.py:exact_lie_optimizer", "oranssi/optimizers.py:approximate_lie_optimizer"]}
{"id": "C112", "title": "Resuming a run", "statement": "Without perturbation a run of k steps followed by a run of m steps from the returned unitary (for parameter_shift_optimizer: from the last returned parameters) has the costs of a run of k + m steps, entry by entry as far as both go; if no run stops early the histories are equal and so is the final unitary of exact_lie_optimizer. For approximate_lie_optimizer this holds if the first run made whole cycles of its layers and the calls of the layers depend on the circuit only.", "quantifier": "all three optimizers, all operations, all accepted arguments, all k and m", "why_tests_cant": "a relation between three runs for all k, m and circuits", "anchors": ["oranssi/optimizers.py:parameter_shift_optimizer", "oranssi/optimizers.py:exact_lie_optimizer", "oranssi/optimizers.py:approximate_lie_optimizer"]}
{"id": "C113", "title": "Only the prepared state matters, and not its global phase", "statement": "Two circuits that prepare the same state up to a global phase (their unitaries may differ otherwise) give the same run of exact_lie_optimizer and approximate_lie_optimizer with the same arguments: the same exception, or the same costs, omegas, parameters, perturbed steps and labels, and states equal up to a phase. For parameter_shift_optimizer the same holds for parametrised circuits whose states agree up to phases that may depend on the parameters.", "quantifier": "all circuits, observables and keyword arguments, every layer class and every list of layers made for the number of qubits, with and without perturbation, any eigh, svd, random numbers, set orders and minimize", "why_tests_cant": "a relation between two runs for all pairs of circuits and all layer classes", "anchors": ["oranssi/optimizers.py:parameter_shift_optimizer", "oranssi/optimizers.py:exact_lie_optimizer", "oranssi/optimizers.py:approximate_lie_optimizer", "oranssi/opt_tools.py"]}
{"id": "C114", "title": "Chains and even rings are always split into disjoint bonds", "statement": "If every qubit has at most two bonds and the bonds join two sublattices (open chains and rings of even length do), applyHeuristic with two colours succeeds in its first round whatever the random numbers and limits, and get_commuting_set returns pairwise disjoint bonds that cover every qubit with two bonds; on a ring of even length from four on they cover every qubit.", "quantifier": "all such bond lists, all random streams, all limits", "why_tests_cant": "the colouring is random; a test sees a few of the random streams", "anchors": ["oranssi/edge_coloring.py:applyHeuristic", "oranssi/circuit_tools.py:get_commuting_set"]}
{"id": "C115", "title": "Runs depend on the observables through their sum only", "statement": "Two lists of observables with the same Hamiltonian matrix (for example the same list in another order) give the same results, return values and errors included, in parameter_shift_optimizer and in approximate_lie_optimizer with Squared, SU8, Zassenhaus, AdaptVQE and ZassenhausV2 layers; this should hold as well for exact_lie_optimizer and the local layer.", "quantifier": "all observables that fit the register, all circuits, layers, arguments and oracles", "why_tests_cant": "the lists range over all decompositions of a Hamiltonian, the results over all histories of a run", "anchors": ["oranssi/optimizers.py:exact_lie_optimizer", "oranssi/optimizers.py:approximate_lie_optimizer", "oranssi/optimizers.py:parameter_shift_optimizer", "oranssi/opt_tools.py:LocalLieAlgebraLayer", "oranssi/opt_tools.py:SquaredLieAlgebraLayer"]}
{"id": "C116", "title": "With enough colours the first pre-colouring succeeds; loops never do", "statement": "If every edge of a simple graph meets fewer than D others (for example D = 2d - 1 for graphs with at most d edges at a vertex), preColoring already gives a proper colouring, so applyHeuristic returns True after one round, without a recolouring and with one random number per edge; and a graph with a loop is never reported as coloured.", "quantifier": "all simple graphs, all random streams, limits, starting colours; all graphs with a loop", "why_tests_cant": "the colouring is random; a test sees a few of the random streams", "anchors": ["oranssi/edge_coloring.py:applyHeuristic", "oranssi/edge_coloring.py:preColoring"]}
{"id": "C117", "title": "What the scripts on the transverse field Ising model show", "statement": "tfim_su4_adapt_vqe.py, tfim_su4_linesearch.py and tfim_su8_linesearch.py show at most nsteps + 1 costs, the first of which is the number n of qubits and none of which is below the lowest eigenvalue, -sqrt(16 + 8 sqrt 2) for four and -2 sqrt 2 (1 + sqrt 3) for six qubits; the dashed lines are these eigenvalues, up to 5e-15 for the literal in the first script; the residuals of the second are the distances to it; the figures of the directions appear; and the circuit prepares, as its comment says, the lowest eigenstate.", "quantifier": "all correct eigh and svd, all random numbers; the start for all n from 2 on", "why_tests_cant": "the lowest eigenvalue is irrational and the runs depend on the library's choice of eigenvectors", "anchors": ["experiments_paper/tfim_su4_adapt_vqe.py:circuit", "experiments_paper/tfim_su4_linesearch.py:circuit", "experiments_paper/tfim_su8_linesearch.py:circuit", "oranssi/optimizers.py:approximate_lie_optimizer"]}
{"id": "C118", "title": "What the toy example shows", "statement": "toy_example.py draws its figure. The curve PS holds the energies cos a cos b + cos a cos(a+b) + cos a sin b of the circuit at the points of gradient descent with rate 1/2 from (0.1, 1.2); the curve of exact_lie_optimizer starts at the same cost; both have 2 to 41 costs and end by the stopping rule with tolerance 0.001; the line Minimum is the lowest eigenvalue -(1 + sqrt 2), over the steps of the longer curve. No cost is below the line, and none of the curve PS comes nearer to it than 0.12.", "quantifier": "all correct eigh, all random numbers", "why_tests_cant": "the distance of the circuit from the minimum is a statement about all real parameters, and the run depends on the library's choice of eigenvectors", "anchors": ["experiments_paper/toy_example.py:two_observables_2_qubits_parameter_shift", "oranssi/optimizers.py:parameter_shift_optimizer", "oranssi/optimizers.py:exact_lie_optimizer"]}
{"id": "C119", "title": "The labels of return_zassenhaus and the figure of zassenhaus.py", "statement": "Whenever approximate_lie_optimizer with a single ZassenhausLayer of ratio (a, b) and return_zassenhaus returns, it returns one label fewer than costs, and label k is 'su4' if k mod (A + B) < A and 'su8' otherwise, where A and B are a and b raised to at least 1; a run of at most A steps does return. Whenever two_observables_3_qubits_zassenhaus of zassenhaus.py draws its figure, the curve is the distance of the costs from the lowest eigenvalue -(1 + sqrt 5), never negative; the first cost is 2 cos 0.2 cos 1.4 + sin 0.2 - sin 0.2 cos 0.2 sin 1.4; the line Minimum is at that negative number although the axis is logarithmic; there is one point on the curve for every cost but the last, crimson if its index mod 6 is below 4 and navy otherwise, and only the points 0 and 4 enter the legend. With 1 to 4 steps the figure is drawn.", "quantifier": "all circuits, observables, ratios, keyword arguments and oracles; for the script all oracles and further keyword arguments", "why_tests_cant": "the schedule is claimed for runs of any length and every ratio, and the lowest eigenvalue is an exact number", "anchors": ["experiments_paper/zassenhaus.py:two_observables_3_qubits_zassenhaus", "oranssi/optimizers.py:approximate_lie_optimizer", "oranssi/opt_tools.py:ZassenhausLayer"]}
