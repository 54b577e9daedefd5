{
 "claims": [
  {
   "property": "C01",
   "status": "proved",
   "theorems": [
    "C01_pauli_product"
   ],
   "note": "exact coefficients (Gaussian rationals)"
  },
  {
   "property": "C02",
   "status": "proved",
   "theorems": [
    "C02_monomial_construction"
   ],
   "note": ""
  },
  {
   "property": "C03",
   "status": "proved",
   "theorems": [
    "C03_monomial_product"
   ],
   "note": "for every set iteration order"
  },
  {
   "property": "C04",
   "status": "proved",
   "theorems": [
    "C04_product_wellformed"
   ],
   "note": "Pauli objects are values in the model; the product is the same for every set order"
  },
  {
   "property": "C05",
   "status": "proved",
   "theorems": [
    "C05_commutator"
   ],
   "note": ""
  },
  {
   "property": "C06",
   "status": "proved",
   "theorems": [
    "C06_commutes_with"
   ],
   "note": ""
  },
  {
   "property": "C07",
   "status": "proved",
   "theorems": [
    "C07_equality_and_hash",
    "C07_equivalence"
   ],
   "note": "the hashed text is modelled as a real string"
  },
  {
   "property": "C08",
   "status": "partial",
   "theorems": [
    "C08_pauli_hash_refuted",
    "C08_pauli_hash_partial"
   ],
   "note": "false of the code: == ignores the coefficient, the hashed text contains it. Holds when the coefficients agree"
  },
  {
   "property": "C09",
   "status": "partial",
   "theorems": [
    "C09_order_refuted",
    "C09_order_partial",
    "C09_prefix_first"
   ],
   "note": "false of the code: real against non-real compares True both ways, and sites are ignored. Holds within one class on equal sites"
  },
  {
   "property": "C10",
   "status": "partial",
   "theorems": [
    "C10_commutator_coeff_refuted",
    "C10_scaled_coeff_refuted",
    "C10_conj_coeff_refuted",
    "C10_product_expressions_partial"
   ],
   "note": "false of the code: products read the factors' coefficients, the other operations set only the visible one. Holds for expressions built from constructor and products"
  },
  {
   "property": "C11",
   "status": "proved",
   "theorems": [
    "C11_simplify_preserves_operator"
   ],
   "note": "also with repeated references"
  },
  {
   "property": "C12",
   "status": "partial",
   "theorems": [
    "C12_no_duplicates_refuted",
    "C12_no_duplicates_partial"
   ],
   "note": "false of the code when a string occurs with real and non-real coefficients, and zero terms survive when there was no duplicate"
  },
  {
   "property": "C13",
   "status": "partial",
   "theorems": [
    "C13_addition_mutates_refuted",
    "C13_addition_partial"
   ],
   "note": "the value of A+B is right for every aliasing; operands are changed when they share a string"
  },
  {
   "property": "C14",
   "status": "partial",
   "theorems": [
    "C14_subtraction_refuted",
    "C14_subtraction_partial"
   ],
   "note": "false of the code: A-A is -2A and B is negated in place. The value is right when no object is shared"
  },
  {
   "property": "C15",
   "status": "partial",
   "theorems": [
    "C15_sum_product_partial",
    "C15_different_sites_refuted"
   ],
   "note": "proved when all terms have the same sites; otherwise AssertionError can be raised"
  },
  {
   "property": "C16",
   "status": "proved",
   "theorems": [
    "C16_to_oranssi"
   ],
   "note": ""
  },
  {
   "property": "C17",
   "status": "proved",
   "theorems": [
    "C17_scalar_mul",
    "C17_other_types"
   ],
   "note": ""
  },
  {
   "property": "C18",
   "status": "proved",
   "theorems": [
    "C18_check_decides_proper_coloring"
   ],
   "note": "simple graphs; the two stored directions of an edge share one attribute dictionary, hence the symmetry hypothesis"
  },
  {
   "property": "C19",
   "status": "proved",
   "theorems": [
    "C19_conflict_dictionary_exact"
   ],
   "note": "every state after creation of the dictionary and after each recolouring is logged by the model; holds for any degree whenever the run returns"
  },
  {
   "property": "C20",
   "status": "proved",
   "theorems": [
    "C20_colors_in_range_and_nothing_else_changes"
   ],
   "note": "nodes and edges are not part of the mutable state of the model because the code never writes them"
  },
  {
   "property": "C21",
   "status": "proved",
   "theorems": [
    "C21_never_crashes_and_terminates"
   ],
   "note": ""
  },
  {
   "property": "C22",
   "status": "proved",
   "theorems": [
    "C22_reports_honestly"
   ],
   "note": "limits range over all integers; a negative limit counts as 0"
  },
  {
   "property": "C23",
   "status": "proved",
   "theorems": [
    "C23_too_few_colors_never_succeeds"
   ],
   "note": "also for graphs with self loops"
  },
  {
   "property": "C24",
   "status": "partial",
   "theorems": [
    "C24_overlapping_bonds_refuted",
    "C24_disjoint_when_coloring_succeeds_partial"
   ],
   "note": "false of the code: on a triangle overlapping bonds are returned. Holds when the colouring run succeeds or the bonds are disjoint to begin with"
  },
  {
   "property": "C25",
   "status": "partial",
   "theorems": [
    "C25_orientation_refuted",
    "C25_up_to_orientation_partial"
   ],
   "note": "false of the code: (2,3) can come back as (3,2). Holds up to orientation"
  },
  {
   "property": "C26",
   "status": "partial",
   "theorems": [
    "C26_star_always_crashes_refuted",
    "C26_no_crash_up_to_two_neighbours_partial"
   ],
   "note": "false of the code: a qubit with three neighbours raises IndexError. Holds when no qubit has more than two neighbours"
  },
  {
   "property": "C27",
   "status": "proved",
   "theorems": [
    "C27_disjoint_lists_unchanged"
   ],
   "note": ""
  },
  {
   "property": "C28",
   "status": "proved",
   "theorems": [
    "C28_su_n_enumeration",
    "C28_other_sizes",
    "C28_su_2_and_su_4"
   ],
   "note": "for every ring with conjugation; int(np.log2) is the exact floor; without identity there are 3^n operators, not the N^2-1 the docstring promises; for n=0 the code returns the Python integer 1, modelled as a 1x1 array"
  },
  {
   "property": "C29",
   "status": "proved",
   "theorems": [
    "C29_hermitian_orthogonal_involutions"
   ],
   "note": ""
  },
  {
   "property": "C30",
   "status": "proved",
   "theorems": [
    "C30_pauli_basis"
   ],
   "note": ""
  },
  {
   "property": "C31",
   "status": "proved",
   "theorems": [
    "C31_frobenius_norm",
    "C31_norm_laws"
   ],
   "note": "exact real arithmetic; np.sqrt is the principal complex root"
  },
  {
   "property": "C32",
   "status": "proved",
   "theorems": [
    "C32_full_operator_entries"
   ],
   "note": "wires are non-negative; numpy's limits on axes, labels and memory are not modelled"
  },
  {
   "property": "C33",
   "status": "proved",
   "theorems": [
    "C33_star_homomorphism"
   ],
   "note": ""
  },
  {
   "property": "C34",
   "status": "proved",
   "theorems": [
    "C34_disjoint_wires",
    "C34_permuted_wires"
   ],
   "note": ""
  },
  {
   "property": "C35",
   "status": "proved",
   "theorems": [
    "C35_rejects_exactly"
   ],
   "note": "repeated wires are accepted by the code"
  },
  {
   "property": "C36",
   "status": "proved",
   "theorems": [
    "C36_weighted_sum"
   ],
   "note": "extra coefficients are ignored"
  },
  {
   "property": "C37",
   "status": "proved",
   "theorems": [
    "C37_parameter_shift_commutator"
   ],
   "note": "the docstring promises [rho,O]; the code computes i[rho,O]. The exponential is the entrywise power series"
  },
  {
   "property": "C38",
   "status": "proved",
   "theorems": [
    "C38_directions"
   ],
   "note": "the state is the first column of the unitary"
  },
  {
   "property": "C39",
   "status": "proved",
   "theorems": [
    "C39_circuit_unitary"
   ],
   "note": "a circuit is the list of its gates; PennyLane's tape is not modelled"
  },
  {
   "property": "C40",
   "status": "proved",
   "theorems": [
    "C40_su2_enumeration",
    "C40_su4_enumeration",
    "C40_su8_enumeration"
   ],
   "note": "for every ring with conjugation; SU(4)/SU(8) directions contain no identity letters"
  },
  {
   "property": "C41",
   "status": "partial",
   "theorems": [
    "C41_stochastic_step_refuted"
   ],
   "note": "false of the code: every call raises NotImplementedError"
  },
  {
   "property": "C42",
   "status": "proved",
   "theorems": [
    "C42_local_layer_unitary",
    "C42_custom_layer_unitary"
   ],
   "note": "svd is any function correct on unitary matrices; an empty direction list without trotterization makes the code raise, hence that hypothesis"
  },
  {
   "property": "C43",
   "status": "partial",
   "theorems": [
    "C43_unitary_repair_refuted",
    "C43_projection_partial"
   ],
   "note": "false of the code: the test is inverted, steps that fail it are left alone and steps that pass it are projected"
  },
  {
   "property": "C44",
   "status": "partial",
   "theorems": [
    "C44_local_directions",
    "C44_custom_directions",
    "C44_custom_default_refuted"
   ],
   "note": "proved for the local layer and for the custom layer with a directions argument; without one the custom layer stores names and every call raises TypeError"
  },
  {
   "property": "C45",
   "status": "proved",
   "theorems": [
    "C45_local_descent",
    "C45_custom_descent"
   ],
   "note": "constant 1/2^n"
  },
  {
   "property": "C52",
   "status": "partial",
   "theorems": [
    "C52_directions_refuted",
    "C52_layers_refuted",
    "C52_directions_partial"
   ],
   "note": "false of the code for the Local, Custom and Stochastic layers, which replace the observables by arrays: AttributeError. Holds for the layers that keep them"
  },
  {
   "property": "C46",
   "status": "proved",
   "theorems": [
    "C46_rotosolve_one_qubit"
   ],
   "note": "exact arithmetic; negative zero in arctan2 is not distinguished"
  },
  {
   "property": "C47",
   "status": "partial",
   "theorems": [
    "C47_rotosolve_multi_qubit_refuted",
    "C47_rotosolve_multi_qubit_partial"
   ],
   "note": "false of the code: for words of two or more letters the gate angle is scaled by 1/2^(k-1), the three-point formula is not, and a step can raise the cost. Holds when the angle is a half turn"
  },
  {
   "property": "C48",
   "status": "proved",
   "theorems": [
    "C48_squared_greedy",
    "C48_su8_greedy",
    "C48_adapt_greedy"
   ],
   "note": "all three greedy layers, every history of successful calls; ties go to the first in enumeration order"
  },
  {
   "property": "C49",
   "status": "proved",
   "theorems": [
    "C49_zassenhaus_schedule"
   ],
   "note": "the labels are those approximate_lie_optimizer records before each call"
  },
  {
   "property": "C50",
   "status": "proved",
   "theorems": [
    "C50_commutator_keys",
    "C50_su8_call",
    "C50_su4_call"
   ],
   "note": "for every iteration order of the sets in the Pauli product; in call form for every reachable layer. With add_su2 the add_su4 table is needed, see C70"
  },
  {
   "property": "C70",
   "status": "partial",
   "theorems": [
    "C70_su8_with_su2_refuted",
    "C50_su8_call"
   ],
   "note": "false of the code: with add_su2=True and add_su4=False every su8 call raises KeyError. Holds for the other three combinations"
  },
  {
   "property": "C51",
   "status": "proved",
   "theorems": [
    "C51_adapt_schedule"
   ],
   "note": "n>=2, no initial parameters, any optimizer that keeps the shape of the parameters; initial parameters see C71, one qubit see C72"
  },
  {
   "property": "C71",
   "status": "partial",
   "theorems": [
    "C71_own_row_refuted",
    "C71_own_row_partial"
   ],
   "note": "false of the code: with initial parameter rows the new layer reads the caller's row at its index. Holds when the object starts without parameters"
  },
  {
   "property": "C72",
   "status": "partial",
   "theorems": [
    "C72_one_qubit_refuted",
    "C51_adapt_schedule"
   ],
   "note": "false of the code: on one qubit every call raises KeyError. Holds for n>=2"
  },
  {
   "property": "C53",
   "status": "proved",
   "theorems": [
    "C53_exact_arguments"
   ],
   "note": "Accepted calls succeed for all operations that succeed; every other call is rejected with an error that does not depend on the operations."
  },
  {
   "property": "C54",
   "status": "partial",
   "theorems": [
    "C54_shift_arguments_refuted",
    "C54_shift_arguments_partial"
   ],
   "note": "Refuted: return_params is never checked (the integer 2 is accepted, a string fails only after the optimization). Proved for all other arguments."
  },
  {
   "property": "C55",
   "status": "proved",
   "theorems": [
    "C55_approximate_arguments"
   ],
   "note": "As C53; the empty list of layers passes the checks and is the subject of C59."
  },
  {
   "property": "C56",
   "status": "proved",
   "theorems": [
    "C56_shift_histories",
    "C56_exact_histories",
    "C56_C59_approximate_histories"
   ],
   "note": "For all operations, runs and accepted arguments."
  },
  {
   "property": "C57",
   "status": "proved",
   "theorems": [
    "C57_shift_stop",
    "C57_exact_stop",
    "C57_approximate_stop"
   ],
   "note": "Warm-up and lag are (2,1), (3,1) and (8,5)."
  },
  {
   "property": "C58",
   "status": "proved",
   "theorems": [
    "C58_exact_perturbations",
    "C58_approximate_perturbations",
    "C57_approximate_stop"
   ],
   "note": "The empty list without perturbation is in C57_approximate_stop; exact_lie_optimizer rejects that request (C53)."
  },
  {
   "property": "C59",
   "status": "proved",
   "theorems": [
    "C56_C59_approximate_histories",
    "C59_no_layers"
   ],
   "note": "The empty list is rejected with StopIteration, after the initial cost was evaluated."
  },
  {
   "property": "C60",
   "status": "proved",
   "theorems": [
    "C60_shift_shape",
    "C60_exact_shape",
    "C60_approximate_shape"
   ],
   "note": "The result types spell out the tuples."
  },
  {
   "property": "C61",
   "status": "partial",
   "theorems": [
    "C61_returned_cost_refuted",
    "C61_returned_cost_partial"
   ],
   "note": "Refuted: if the last step stalls with perturbation=True, the returned unitary is the perturbed one (witness: Z on one qubit, 5 steps, any correct eigh). Proved when the last step is not perturbed."
  },
  {
   "property": "C63",
   "status": "proved",
   "theorems": [
    "C63_exact_descent",
    "C63_exact_run"
   ],
   "note": "One step for all unitaries, observables and eigendecompositions; for runs, a cost rises only after a perturbation."
  },
  {
   "property": "C64",
   "status": "proved",
   "theorems": [
    "C64_exact_stall"
   ],
   "note": "A step keeps the cost iff the state is an eigenvector of the embedded observable."
  },
  {
   "property": "C65",
   "status": "proved",
   "theorems": [
    "C65_exact_limit"
   ],
   "note": "The iteration exists and its costs tend to -1, unless the observable fixes the start state, and then they stay 1."
  },
  {
   "property": "C66",
   "status": "proved",
   "theorems": [
    "C66_exact_unitary",
    "C66_approximate_unitary",
    "C66_approximate_returns"
   ],
   "note": "Every returning run keeps its circuits unitary; runs with layers built from documented arguments, outside commute mode, return."
  },
  {
   "property": "C73",
   "status": "proved",
   "theorems": [
    "C73_exact_exponential"
   ],
   "note": "For Pauli-type observables the loop over the observables is U -> exp(eta/2 [rho,O]) U one after the other, independent of the eigenbasis."
  },
  {
   "property": "C62",
   "status": "partial",
   "theorems": [
    "C62_eta_refuted",
    "C62_eta_partial"
   ],
   "note": "False as stated: without perturbations the result does not depend on eta. Partial: eta is the step size of the perturbations."
  },
  {
   "property": "C67",
   "status": "proved",
   "theorems": [
    "C67_states"
   ],
   "note": "All real angles."
  },
  {
   "property": "C68",
   "status": "proved",
   "theorems": [
    "C68_angles"
   ],
   "note": "Both poles included, where phi is reported as 0. Zeros have no sign in the model."
  },
  {
   "property": "C69",
   "status": "proved",
   "theorems": [
    "C69_states",
    "C69_accepts"
   ],
   "note": "With the error bound when phi is snapped, and what the function accepts."
  },
  {
   "property": "C74",
   "status": "partial",
   "theorems": [
    "C74_mixed_refuted",
    "C74_mixed_partial",
    "C74_too_long"
   ],
   "note": "False: theta is arccos of the third component, not of its ratio to the length. Partial: phi is right."
  },
  {
   "property": "C75",
   "status": "partial",
   "theorems": [
    "C75_commute_optimizer_refuted",
    "C75_commute_ignored_partial",
    "C75_commute_values"
   ],
   "note": "False: no optimizer reaches the layer, every such call raises. Partial: the argument has no effect on the other classes."
  },
  {
   "property": "C76",
   "status": "partial",
   "theorems": [
    "C76_star_refuted",
    "C76_reversed_refuted",
    "C76_commute_call_partial",
    "C76_commute_returns_partial"
   ],
   "note": "False: calls can raise IndexError (a qubit in three tied bonds) or KeyError (a bond turned around), and overlapping bonds are C24. Partial: everything claimed about calls that return, non-overlapping tuples when the ties do not overlap or the colouring succeeds, and that calls return when the ties do not overlap."
  },
  {
   "property": "C77",
   "status": "partial",
   "theorems": [
    "C77_stride_refuted",
    "C77_stride_partial"
   ],
   "note": "False: both strides give layers that act alike on every circuit. Partial: other strides are rejected with locality 2, and no stride matters with locality 1."
  },
  {
   "property": "C78",
   "status": "partial",
   "theorems": [
    "C78_omegas_refuted",
    "C78_omegas_partial"
   ],
   "note": "False: a run that reaches a Local, Custom or Stochastic layer raises. Partial: for the other layers the entries are the gradient components."
  },
  {
   "property": "C79",
   "status": "partial",
   "theorems": [
    "C79_total_descent_refuted",
    "C79_total_descent_partial"
   ],
   "note": "False: with Z and X on one qubit every run from the minimum raises the cost in its first step. Partial: the derivative in the step size is minus the variance of the sum, so small enough steps descend away from eigenstates."
  },
  {
   "property": "C80",
   "status": "proved",
   "theorems": [
    "C80_shift_rule",
    "C80_adapt_circuits"
   ],
   "note": "For circuits in which every parameter turns at most one Pauli rotation, and the circuits of AdaptVQELayer are such."
  },
  {
   "property": "C81",
   "status": "partial",
   "theorems": [
    "C81_shift_descent_refuted",
    "C81_shift_descent_partial"
   ],
   "note": "False for every learning rate: enough copies of an observable make the first step overshoot. Partial: the derivative in the learning rate at 0 is minus the squared gradient, so small learning rates improve strictly away from critical points."
  },
  {
   "property": "C82",
   "status": "proved",
   "theorems": [
    "C82_base_layer"
   ],
   "note": "The exception comes from printing the layers."
  },
  {
   "property": "C83",
   "status": "partial",
   "theorems": [
    "C83_v2_step_refuted",
    "C83_v2_call_partial",
    "C83_v2_flat",
    "C83_v2_one_angle",
    "C83_v2_one_qubit"
   ],
   "note": "False: the given circuit only enters the fit and is then forgotten, so from the minimum of Z0 + Z1 every call raises the cost. Partial: what the call returns for every minimizer (the product at half the fitted angles in reversed order after Hadamards), that it is unitary, its state, which keeps one of the three angles only, and the KeyError on one qubit."
  },
  {
   "property": "C84",
   "status": "proved",
   "theorems": [
    "C84_v2_polynomial"
   ],
   "note": "For every iteration order of the sets."
  },
  {
   "property": "C85",
   "status": "partial",
   "theorems": [
    "C85_identity_refuted",
    "C85_graph_partial",
    "C85_digraph",
    "C85_errors",
    "C85_su8"
   ],
   "note": "False for the undirected graph: a monomial commutes with itself, the zero commutator compares equal to the identity, and so the identity becomes a node joined to every node. Partial: apart from that node the claim holds; the directed graph satisfies it in full."
  },
  {
   "property": "C86",
   "status": "proved",
   "theorems": [
    "C86_adapt_training"
   ],
   "note": "For layers reached by any number of calls from any rows of the right length."
  },
  {
   "property": "C87",
   "status": "proved",
   "theorems": [
    "C87_layer_objects"
   ],
   "note": "The state of an object is given by a run of the object alone on its own calls."
  },
  {
   "property": "C88",
   "status": "partial",
   "theorems": [
    "C88_direction_plots_refuted",
    "C88_direction_plots_partial"
   ],
   "note": "False for three of the four plots: the SU(8) plots look up the word XX and raise KeyError on three qubits, and plot_su16_directions_separate passes one argument too many and always raises TypeError (IndexError for an empty list). Partial: the SU(16) plot on four qubits, the SU(8) plots on two qubits, and the error in every other case."
  },
  {
   "property": "C89",
   "status": "partial",
   "theorems": [
    "C89_bch_terms_refuted",
    "C89_bch_terms_partial"
   ],
   "note": "False: level two holds the term of degree two twice, and from level three on every level adds up to zero, because an assigned coefficient is lost in the next product. Partial: the number of levels, the two equal terms of level two, the vanishing sums, each term as a commutator with a word divided by the factorial, and the commuting and empty cases."
  },
  {
   "property": "C90",
   "status": "proved",
   "theorems": [
    "C90_shift_run",
    "C90_pauli_bound",
    "C90_pauli_run",
    "C90_adapt_training"
   ],
   "note": "For any number of rotations and steps; exact arithmetic. Complements C81, which fails without a bound on the learning rate."
  },
  {
   "property": "C91",
   "status": "proved",
   "theorems": [
    "C91_exact_rate",
    "C91_exact_run",
    "C91_eigenvalue"
   ],
   "note": "Complements C79, which fails as stated: the observables are treated one after another, so the error term cannot be dropped."
  },
  {
   "property": "C92",
   "status": "proved",
   "theorems": [
    "C92_layer_rate",
    "C92_single_descent",
    "C92_run"
   ],
   "note": "For a run the theorem covers one observable and layers with 4*eta*N <= 2^n; for several observables the bound is per call."
  },
  {
   "property": "C93",
   "status": "partial",
   "theorems": [
    "C93_repr_faithful",
    "C93_same_text_same_operator",
    "C93_tex_faithful_refuted",
    "C93_tex_faithful_partial"
   ],
   "note": "False for Pauli.tex: the identities on different sites print the same. Everything else holds; partial: tex of Paulis with another letter, tex of monomials."
  },
  {
   "property": "C94",
   "status": "partial",
   "theorems": [
    "C94_save_path_refuted",
    "C94_processes_partial",
    "C94_separate_partial",
    "C94_single_call_partial",
    "C94_figures",
    "C94_strings",
    "C94_empty_call"
   ],
   "note": "False: of two processes for the same new path one can raise FileExistsError, and an existing file is returned as if it were a directory when the path does not end in a slash. Partial: a single call without a file in the way, processes whose paths are not above each other, the call with the name (empty string) as the experiments make it, and for any processes the list of possible outcomes and changes."
  },
  {
   "property": "C95",
   "status": "partial",
   "theorems": [
    "C95_gradients_partial",
    "C95_chart",
    "C95_cost_refuted"
   ],
   "note": "False for the costs: the initial matrix of the script is not a state, so the cost is 0 wherever the gradients vanish and orders grid points wrongly. Everything else is proved."
  },
  {
   "property": "C96",
   "status": "partial",
   "theorems": [
    "C96_lower_half_partial",
    "C96_level_surface_refuted"
   ],
   "note": "False: the surface is the lower half of the level set only, and on the line r3 + r4 = 0 it has values without a point. Partial: away from this line it is exactly the lower half."
  },
  {
   "property": "C97",
   "status": "proved",
   "theorems": [
    "C97_maps",
    "C97_shift",
    "C97_riemann"
   ],
   "note": "Polar angles and costs in exact arithmetic; matplotlib is reduced to which height belongs to which point."
  },
  {
   "property": "C98",
   "status": "partial",
   "theorems": [
    "C98_label_refuted",
    "C98_label_partial"
   ],
   "note": "False for every run: the label is the number of points, one more than the step of the last point."
  },
  {
   "property": "C99",
   "status": "partial",
   "theorems": [
    "C99_plot_refuted",
    "C99_plot_partial"
   ],
   "note": "False: such a matrix raises TypeError when K and L differ and is drawn transposed when they agree. Partial: the L x K matrix is drawn as expected."
  },
  {
   "property": "C100",
   "status": "proved",
   "theorems": [
    "C100_eigenvalues",
    "C100_exact",
    "C100_approximate",
    "C100_shift",
    "C100_residual"
   ],
   "note": "For the Hamiltonian of get_hamiltonian_matrix without weights."
  },
  {
   "property": "C101",
   "status": "proved",
   "theorems": [
    "C101_hamiltonian",
    "C101_diagonal",
    "C101_figure"
   ],
   "note": "Exact arithmetic; that eigh is correct and sorts its eigenvalues is assumed, and shown to be possible in C101_case."
  },
  {
   "property": "C102",
   "status": "proved",
   "theorems": [
    "C102_step",
    "C102_run"
   ],
   "note": "Without perturbations; C102_case is the circuit of eigenstate_perturbation.py."
  },
  {
   "property": "C103",
   "status": "partial",
   "theorems": [
    "C103_marks_refuted",
    "C103_marks_partial"
   ],
   "note": "False: the mark is one entry to the left of the cost of the perturbed circuit. Partial: the two costs differ by at most the tolerance of the stall test."
  },
  {
   "property": "C104",
   "status": "partial",
   "theorems": [
    "C104_shared_refuted",
    "C104_values",
    "C104_effect_partial",
    "C104_products_partial",
    "C104_separate_partial"
   ],
   "note": "False: PauliMonomial keeps the Pauli objects it is given, and conj changes them in place, so two monomials built from one Pauli change together. Partial: exactly which Paulis a statement changes; products and commutators hold objects of their own; programs that give each Pauli object to one monomial are safe. C104_values: the value model gives the results of the objects."
  },
  {
   "property": "C105",
   "status": "proved",
   "theorems": [
    "C105_same_program",
    "C105_commutes_with",
    "C105_commutator",
    "C105_range_refuted",
    "C105_units_exact"
   ],
   "note": "IEEE 754 binary64 of Coq.Floats.SpecFloat, complex products as CPython computes them. C105_range_refuted shows that the conditions on the computed product are needed."
  },
  {
   "property": "C106",
   "status": "proved",
   "theorems": [
    "C106_layer",
    "C106_run"
   ],
   "note": "Case: the circuit and observables of eigenstate_perturbation.py with all two-qubit directions, where the costs stay above 1 - sqrt 2 while the lowest eigenvalue is -1 - sqrt 2."
  },
  {
   "property": "C107",
   "status": "partial",
   "theorems": [
    "C107_squared_partial",
    "C107_su8_partial",
    "C107_squared_refuted"
   ],
   "note": "Conserved by every call for which some admissible direction has a nonzero gradient. Refuted otherwise: the layer then turns along the first direction of its table, here X on the state |0> with the observable Z."
  },
  {
   "property": "C108",
   "status": "proved",
   "theorems": [
    "C108_run",
    "C108_limit",
    "C108_figure"
   ],
   "note": "The bound on the last residual comes from rational brackets of all 28 angles. Exact numbers instead of floats."
  },
  {
   "property": "C109",
   "status": "proved",
   "theorems": [
    "C109_shift",
    "C109_exact",
    "C109_approximate",
    "C109_shift_returns",
    "C109_exact_returns",
    "C109_approximate_returns"
   ],
   "note": "Random perturbations are a fixed function of the step in the model."
  },
  {
   "property": "C110",
   "status": "proved",
   "theorems": [
    "C110_shift",
    "C110_exact",
    "C110_approximate"
   ],
   "note": ""
  },
  {
   "property": "C111",
   "status": "proved",
   "theorems": [
    "C111_shift",
    "C111_exact",
    "C111_approximate"
   ],
   "note": "For calls that return; return_omegas can make a call raise (C52)."
  },
  {
   "property": "C112",
   "status": "proved",
   "theorems": [
    "C112_shift",
    "C112_exact",
    "C112_approximate"
   ],
   "note": "C112_inside_cycle shows the layers out of step when a run is resumed inside a cycle."
  },
  {
   "property": "C113",
   "status": "proved",
   "theorems": [
    "C113_exact",
    "C113_approximate",
    "C113_shift"
   ],
   "note": "In exact arithmetic. C113_case shows two circuits whose unitaries do not differ by a phase, C113_relative_phase that a relative phase does not count."
  },
  {
   "property": "C114",
   "status": "proved",
   "theorems": [
    "C114_always_colored",
    "C114_disjoint_bonds",
    "C114_even_ring",
    "C114_chain",
    "C114_ring_matching"
   ],
   "note": "For calls that return; with enough fuel they do (C26). Odd rings cannot be coloured (C114_odd_ring, C24)."
  },
  {
   "property": "C115",
   "status": "partial",
   "theorems": [
    "C115_shift",
    "C115_approximate",
    "C115_order",
    "C115_exact_refuted",
    "C115_local_refuted"
   ],
   "note": "Refuted for exact_lie_optimizer and LocalLieAlgebraLayer: they apply one exponential per observable in the order of the list, so already the order changes the cost after the first step, for every step size in (0,1]. Over exact reals: with floats the sums depend on the order in the last digits."
  },
  {
   "property": "C116",
   "status": "proved",
   "theorems": [
    "C116_enough_colors",
    "C116_twice_the_degree",
    "C116_loops_rejected"
   ],
   "note": ""
  },
  {
   "property": "C117",
   "status": "partial",
   "theorems": [
    "C117_start",
    "C117_lowest_eigenstate_refuted",
    "C117_adapt_vqe",
    "C117_su4_linesearch",
    "C117_su8_linesearch"
   ],
   "note": "false: the circuits do not prepare the lowest eigenstate (the state has cost n, the lowest eigenvalue is at most -n); tfim_su4_adapt_vqe.py ends in a TypeError and tfim_su8_linesearch.py in a KeyError before the figure of the directions. The rest is proved; the curve of the parameter shift optimizer in tfim_su4_linesearch.py is not modelled"
  },
  {
   "property": "C118",
   "status": "proved",
   "theorems": [
    "C118_toy"
   ],
   "note": "exact reals; the optimizer of PennyLane takes steps along the exact partial derivatives"
  },
  {
   "property": "C119",
   "status": "proved",
   "theorems": [
    "C119_labels",
    "C119_first_part_returns",
    "C119_figure",
    "C119_short"
   ],
   "note": "statements about runs that return; whether the forty steps of the script itself return is not decided, since a call on SU(8) can raise"
  }
 ]
}