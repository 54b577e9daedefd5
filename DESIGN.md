# Formal model of oranssi: design

The properties are listed in `properties.jsonl` (C01...). This file says what is
modelled, how each property is proved, and what is trusted. `MANIFEST.json` maps
properties to theorems, `seeded/LOG.jsonl` records the wrong programs the theorems
were tested against.

## Conventions

Numbers: the code computes in floating point; the model uses exact arithmetic
(Gaussian rationals for the symbolic Pauli algebra, reals and complex numbers for
the circuit part). Rounding is modelled for monomials only (C105). `np.isclose` is modelled literally
(`|a-b| <= atol + rtol*|b|`).

Randomness: every `random.choice` / `randint` reads the next number of an
arbitrary stream `nat -> nat`; theorems quantify over all streams. The iteration
order of Python sets is an arbitrary permutation. Random matrices are arguments.

Exceptions are values (`Err KeyError`, ...). Loops that are not obviously finite
carry fuel; running out is the separate value `Err OutOfFuel`, excluded by the
termination theorem C21.

External libraries: PennyLane state and expectation QNodes are the first column of
the unitary and the quadratic form of the full observable; `scipy.linalg.expm` is
the sum of the exponential series; `numpy.linalg.eigh` and `svd` are arbitrary
functions satisfying their documented equations (`Spectral.v` proves that such an
`eigh` exists); `networkx.Graph` is an ordered adjacency structure;
`qml.GradientDescentOptimizer` is gradient descent with the exact derivatives.

A property that is false of the code has a theorem `..._refuted`: a concrete
witness, or a statement for all inputs of a class. Beside it stands the strongest
true variant found, `..._partial`. Such a property has status "partial".

## Layout (rocq/theories)

| files | content |
|---|---|
| `Py.v` | results with exceptions as values, small list lemmas |
| `StarRing.v`, `Matrix.v` | commutative ring with conjugation and `i`; finite sums; matrices `nat -> nat -> K`; product, adjoint, trace, Kronecker product |
| `GaussQ.v`, `Cplx.v` | the two instances: Gaussian rationals (executable) and Coquelicot's complex numbers |
| `PauliSpec.v`, `PauliSem.v`, `EdgeSpec.v` | specification notions independent of the modelled code: Pauli matrices and words, what a monomial stands for, proper colourings |
| `Bits.v`, `PauliBasis.v`, `Expm.v`, `MDeriv.v`, `Spectral.v` | mathematics: bit indexing and embeddings, Pauli basis, matrix exponential, derivatives, spectral theorem |
| `*Model.v` | the models, without proofs; each definition cites the lines it models |
| `*Proofs*.v`, `*Witness.v` | lemmas |
| `Prop*.v` | the property theorems with `Print Assumptions`, the specification notions they need, and an `Example ..._case` beside each that meets its hypotheses |

## Plan per property

| id | code | model | statements | proof method |
|---|---|---|---|---|
| C01-C10, C16 | `pauli.py` 7-248 | `PauliModel.v` | `PropPauli.v` | case analysis; induction on the register with Kronecker products |
| C11-C15, C17 | `pauli.py` 250-313 | `PauliSumModel.v`: monomial objects on a heap, sums are lists of references | `PropPauliSum.v` | induction over the duplicate list, for every iteration order; witnesses by `vm_compute` |
| C18-C23 | `edge_coloring.py` | `EdgeModel.v`: ordered adjacency, colour map, conflict dictionary, random stream | `PropEdge.v` | invariant over every step; measure for termination |
| C24-C27 | `circuit_tools.py` 174-191 | `EdgeModel.v` | `PropEdge.v` | corollaries; witness runs by `vm_compute`; for the star, every run |
| C28-C31 | `utils.py` | `UtilsModel.v` | `PropUtils.v` | induction on n |
| C32-C36, C38, C39 | `circuit_tools.py` 12-171, `optimizers.py` circuit assembly | `CircuitModel.v`: einsum, reshape, QNodes | `PropCircuit.v` | bijection between bit lists and indices; Pauli basis completeness |
| C37 | `circuit_tools.py` `param_shift_comm` | `CircuitModel.v`, `Expm.v` | `PropCircuit.v` | exponential of an involution |
| C40 | `opt_tools.py` 1028-1269 | `AlgebraModel.v` | `PropAlgebra.v` | induction over the enumerations |
| C41-C45, C52 | `opt_tools.py` 19-375 | `LayerModel.v` | `PropLayers.v`, `PropGreedy.v` (C52) | exponential of an anti-Hermitian matrix is unitary; derivative of the cost |
| C46-C49 | `opt_tools.py` 378-481, 605-893, 1272-1305 | `GreedyModel.v` | `PropGreedy.v` | closed form of the cost along a Pauli rotation; induction over histories of calls |
| C50, C70 | `opt_tools.py` 684-893 | `GreedyModel.v` | `PropZassenhaus.v` | commutator of Pauli words that share one site, table lookups |
| C48, C51, C71, C72 | `opt_tools.py` 484-602 | `AdaptModel.v`, `ShiftModel.v` | `PropAdapt.v` | induction over histories of calls |
| C53-C60 | `optimizers.py` 13-389 | `OptimizerModel.v`: keyword dictionaries, loops over arbitrary operations | `PropOptArgs.v`, `PropOptRun.v` | case analysis over Python values; induction over steps |
| C61, C63-C66, C73 | `optimizers.py` 100-226 | `FlowModel.v` | `PropFlow.v` | the step is a rotation in the plane of phi and O phi; monotone sequence |
| C62, C66 | `optimizers.py` 229-389 with every layer class | `ApproxModel.v`, `ZasV2Model.v` | `PropApprox.v` | invariant of the layer objects over the run |
| C67-C69, C74 | `plot_utils.py` 13-73 | `SphereModel.v` | `PropSphere.v` | trigonometry with `acos` and `atan2` |
| C75, C76 | `opt_tools.py` 424-463 | `CommuteModel.v` | `PropCommute.v` | case analysis; commuting involutions; witnesses on four qubits |
| C77, C78 | `opt_tools.py` 127-195, `optimizers.py` 128-290 | `LayerModel.v`, `ApproxModel.v` | `PropOptions.v` | unfolding of the constructors; invariant of the layer objects along a run |
| C79 | `optimizers.py` 100-226 | `FlowModel.v` | `FlowMany.v`, `PropMany.v` | derivative of the product of the factors at step size zero; explicit two-observable counterexample |
| C80, C81 | `optimizers.py` 13-97 | `ShiftModel.v`, `AdaptModel.v` | `ShiftProofs.v`, `PropShift.v` | closed form of the cost along one angle; derivative of a product of rotations along any direction of the parameters |
| C82 | `optimizers.py` 327, `opt_tools.py` 73-77 | `ApproxModel.v` | `PropOptions.v` | induction over the list |
| C83 | `opt_tools.py` 977-1018 | `ZasV2Model.v` | `PropZasV2.v` | the seven gates as one two-qubit matrix, embedded; invariant of the object over calls; any minimizer |
| C84 | `opt_tools.py` 944-976 | `ZasV2Model.v` | `PropZasV2.v` | the sets up to permutation for every iteration order, then matrix algebra |
| C85 | `experiments_paper/algebra_graphs.py` 8-102 | `AlgGraphModel.v` | `PropAlgGraph.v` | loop invariants on the keys (class, word) of the nodes, termination by counting edges or nodes; keys and operators correspond; the 63 words of su(8) by a saturated set; refuted: the identity node of the undirected graph |
| C86 | `opt_tools.py` 529-590, `optimizers.py` 13-97 | `AdaptModel.v`, `ShiftModel.v` | `PropLayerState.v` | C80, C56 and C57 instantiated with the keywords of line 577; invariant on the number of rows over the calls |
| C87 | `optimizers.py` 229-389 | `ApproxModel.v` | `PropLayerState.v` | from the histories of C56/C59: induction over the steps with a separate relation for the calls of one object |
| C88 | `plot_utils.py` 96-259 | `PlotModel.v` | `PropPlot.v` | a figure is the list of its labelled curves; invariant of the accumulating loop over the words; eigenvectors from C38. False as stated: exact errors, and what each plot shows where it works |
| C89 | `experiments_paper/BCH.py` 118-132, 148-149 | `BchModel.v` | `PropBch.v` | each level is a list together with the list of its opposites (induction over the levels); the value behind an overwritten coefficient is a word in X and Y. False as stated; the value of every level is proved |
| C90 | `optimizers.py` 13-97, `opt_tools.py` 570-586 | `ShiftModel.v`, `AdaptModel.v` | `ShiftDescent.v`, `PropShiftRun.v` | the cost is sinusoidal and bounded in each rotation angle, so its slopes are Lipschitz with constant B; descent lemma along the step, Cauchy-Schwarz for shared parameters, telescoping sum over the run |
| C91 | `optimizers.py` 182-215 | `FlowModel.v`, `OptimizerModel.v` | `FlowRate.v`, `PropFlowRate.v` | closed form of the state after one observable, Cauchy-Schwarz for the real part of the inner product, bounds on x - sin x and 1 - cos x, induction over the observables, telescoping sum over the run; spectral decomposition for the eigenvalue |
| C92 | `opt_tools.py` 102-304, `optimizers.py` 229-390 | `LayerModel.v`, `ApproxModel.v` | `LayerRate.v`, `PropLayerRate.v` | derivative of a product of exponentials along the flow, mean value bounds for unit vectors, Cauchy-Schwarz for the directions, telescoping sum over the run |
| C93 | `pauli.py` 62-91, 188-215 | `PrintModel.v` | `PropPrint.v` | separators do not occur in the separated texts; decimal notation is injective |
| C94 | `utils.py` 117-122 | `PathModel.v` | `PropPath.v` | programs as trees of system calls; rely-guarantee invariant over all interleavings, number of remaining calls as measure |
| C95 | `experiments_paper/fixed_points.py` 7-43 | `S3Model.v` | `PropS3.v` | directions from C38 in closed form, derivatives along the three rotations, the second column of a special unitary is determined by the first. False as stated for the costs |
| C96 | `experiments_paper/3_sphere_level_curves.py` 6-9 | `S3Model.v` | `PropS3.v` | elimination of r1 turns the two equations into one quadratic equation for r2; False as stated |
| C97 | `experiments_paper/red_blue_comparison.py` 16-167 | `RedBlueModel.v` | `PropRedBlue.v` | histories of C56, states of C66, angles of C69, the circuit in closed form, the descent step from its derivatives |
| C98 | `experiments_paper/red_blue_comparison.py` 112-119, 160-167 | `RedBlueModel.v` | `PropRedBlue.v` | lengths of the lists of C97; False as stated |
| C99 | `plot_utils.py` 29-48 | `RedBlueModel.v` | `PropRedBlue.v` | indices of a matrix against the axes; False as stated |
| C100 | `optimizers.py` 12-391, `circuit_tools.py` `get_hamiltonian_matrix` | models of C56 and C36 | `PropSpectrum.v` | spectral theorem, weights of the state in the eigenbasis, histories of C56 and C66 |
| C101 | `experiments_paper/eigenstate_perturbation.py` 13-79 | `EigenstateModel.v` | `PropEigenstate.v` | eigenvalues by hand, C100, C102 for X on the second qubit and a sum of squares, C61 |
| C102 | `optimizers.py` `exact_lie_optimizer` | model of C56 | `PropConserved.v` | closed form of a step, induction over the observables and the run |
| C103 | `experiments_paper/eigenstate_perturbation.py` 75-79 | `EigenstateModel.v` | `PropEigenstate.v` | histories of C56 and C58; False as stated |
| C104 | `pauli.py` 13-248 | `PauliHeapModel.v`: Pauli objects on a heap, monomials hold references, programs of statements | `PropPauliHeap.v` | simulation of the value model of `PauliModel.v` by the objects; invariant over all programs; False as stated |
| C105 | `pauli.py` 7-55, 98-243 | `FloatPauliModel.v`: the products over any kind of numbers, at pairs of IEEE doubles (`Coq.Floats.SpecFloat`) and at the Gaussian rationals (equal to `PauliModel.v`) | `PropFloat.v` | the two orders of each factor differ by a sign that survives rounding (up to the sign of zero); relational lifting between the two kinds of numbers |
| C106 | `opt_tools.py` 100-206, 209-298; `optimizers.py` 178-360 | as C92 | `PropSymmetry.v` | a direction commutes or anticommutes with the string; in the second case its component of the gradient is zero; exponentials of what commutes with the string conserve its eigenvectors |
| C107 | `opt_tools.py` 378-481, 605-681, 1272-1305 | as C48 | `PropSymmetry.v` | the direction of largest gradient commutes with the string unless all gradients are zero |
| C108 | `experiments_paper/approximate_example.py` 11-43 | `ApproxExampleModel.v` | `ApproxExampleNum.v`, `ApproxExampleProofs.v`, `PropApproxExample.v` | the states stay in a plane, where a call of the layer adds 2 sqrt 2 eta sin t to an angle t; brackets of the angles decide at which step the run stops |
| C109-C112 | `optimizers.py` 13-389 | `OptimizerModel.v` | `PropPrefix.v` | relational: two runs agree entry by entry as long as both go on; the stopping rules decide which one ends first |
| C113 | `optimizers.py` 13-389, `opt_tools.py` | `OptimizerModel.v`, `ApproxModel.v`, `FlowModel.v`, `ShiftModel.v` | `PropPhase.v` | relational: gradients, energies and the density matrix are unchanged by a phase, every step is a left multiplication |
| C114 | `edge_coloring.py` 66-148, `circuit_tools.py` 174-191 | `EdgeModel.v` | `PropBipartite.v` | a Kempe chain that starts at a conflict never comes back to itself between two sublattices, so that every chain lowers the number of conflicts |
| C115 | `optimizers.py` 30-388, `opt_tools.py` 94-935 | `OptimizerModel.v`, `ShiftModel.v`, `ApproxModel.v`, `FlowModel.v` | `PropHamiltonian.v` | gradients and costs are linear in the sum of the embedded observables, so the two runs go through equal values step by step; counterexamples: Z and X from the state minus, X, X, Y from the state 0 |
| C116 | `edge_coloring.py` 20-55, 104-148 | `EdgeModel.v` | `PropGreedyColor.v` | fewer than D entries of the two colour lists are set, so a colour is free at every edge; a loop counts twice in the degree but has one colour |
| C117 | `experiments_paper/tfim_su4_adapt_vqe.py` 15-74, `tfim_su4_linesearch.py` 36-98, `tfim_su8_linesearch.py` 14-63 | `TfimModel.v` | `TfimNum.v`, `TfimProofs.v`, `TfimLowest.v`, `PropTfim.v` | the Hamiltonian is an integer matrix; computed rows of products of it give a polynomial that every eigenvalue is a root of, a computed integer vector over the field of the roots is an eigenvector of the lowest root; the state of Hadamard gates is fixed by every X and has mean 0 for every ZZ; the rest from C60, C66, C88, C100 |
| C118 | `experiments_paper/toy_example.py` 9-58, `oranssi/optimizers.py` 70-81 | `ToyModel.v` | `ToyProofs.v`, `PropToy.v` | the state is computed gate by gate; the cost is a sum of products of cosines, its square at most a quartic in cos a (Cauchy-Schwarz in b), which is a sum of squares below 5.2; X + Y on the second qubit has the square 2 and commutes with X on the first, which gives the eigenvalues; the runs from C54, C56, C57, C60, C66, C100 |
| C119 | `experiments_paper/zassenhaus.py` 12-74, `oranssi/optimizers.py` 338-389 | `ZasFigModel.v` | `ZasFigProofs.v`, `PropZasFig.v` | the calls of a run are a chain of layer calls (C56), whose labels C49 gives; the first A calls are greedy steps, which never raise; the part B of the Hamiltonian on the qubits 1 and 2 has (B B - 3)(B B - 3) = 4 and commutes with X on qubit 0, which bounds the eigenvalues, and the lowest is attained at an explicit vector; the circuit prepares three equal qubits, whose energy follows from the Bloch vector of one; the loop over the points by induction |

## How to read seeded/LOG.jsonl

Each line is one edit of a model definition in a scratch copy, followed by a rebuild that
goes on past errors. `first_failing_lemmas` is what the prover reported.
`own_proof_failed` lists the theorems of the manifest among these: their own proof was
seen to break. `theorems_failed` is wider and partly inferred: it adds the theorems whose
proofs mention a failing lemma, directly or through others, found by comparing names in
the sources. They did not build in that copy, but it was not tried whether another proof
would have rescued them. For some edits the failing lemmas were then admitted in the
scratch copy to see what breaks further on; these are in `first_failing_lemmas` as well.
In lines 307 to 322 every failing lemma was admitted in the scratch copy, and
`theorems_failed` adds the theorems for which `Print Assumptions` then lists one of them;
from line 323 on nothing was admitted.
An edit that nothing failed on has empty lists; `theorems_tightened` and `note` say what
was done about it.

## Trusted base

* The kernel of Coq 8.16.1, with `vm_compute`.
* The reading of the source: every definition of the models cites file and lines
  and states its simplifications; they are collected below.
* The axioms below. All are axioms of Coq's standard library: those of the real
  numbers (`ClassicalDedekindReals.sig_forall_dec`, `sig_not_dec`),
  `FunctionalExtensionality.functional_extensionality_dep` and
  `Classical_Prop.classic`. The development adds none.

What `Print Assumptions` lists for each theorem of the manifest:

* no axioms ("Closed under the global context"):
  `C01_pauli_product`, `C02_monomial_construction`, `C03_monomial_product`, `C04_product_wellformed`, `C05_commutator`, `C06_commutes_with`, `C07_equality_and_hash`, `C07_equivalence`, `C08_pauli_hash_partial`, `C08_pauli_hash_refuted`, `C09_order_partial`, `C09_order_refuted`, `C09_prefix_first`, `C104_effect_partial`, `C104_products_partial`, `C104_separate_partial`, `C104_shared_refuted`, `C104_values`, `C105_commutator`, `C105_commutes_with`, `C105_range_refuted`, `C105_same_program`, `C105_units_exact`, `C10_commutator_coeff_refuted`, `C10_conj_coeff_refuted`, `C10_product_expressions_partial`, `C10_scaled_coeff_refuted`, `C114_always_colored`, `C114_chain`, `C114_disjoint_bonds`, `C114_even_ring`, `C114_ring_matching`, `C116_enough_colors`, `C116_loops_rejected`, `C116_twice_the_degree`, `C11_simplify_preserves_operator`, `C12_no_duplicates_partial`, `C12_no_duplicates_refuted`, `C13_addition_mutates_refuted`, `C13_addition_partial`, `C14_subtraction_partial`, `C14_subtraction_refuted`, `C15_different_sites_refuted`, `C15_sum_product_partial`, `C16_to_oranssi`, `C17_other_types`, `C17_scalar_mul`, `C18_check_decides_proper_coloring`, `C19_conflict_dictionary_exact`, `C20_colors_in_range_and_nothing_else_changes`, `C21_never_crashes_and_terminates`, `C22_reports_honestly`, `C23_too_few_colors_never_succeeds`, `C24_disjoint_when_coloring_succeeds_partial`, `C24_overlapping_bonds_refuted`, `C25_orientation_refuted`, `C25_up_to_orientation_partial`, `C26_no_crash_up_to_two_neighbours_partial`, `C26_star_always_crashes_refuted`, `C27_disjoint_lists_unchanged`, `C28_other_sizes`, `C28_su_2_and_su_4`, `C28_su_n_enumeration`, `C29_hermitian_orthogonal_involutions`, `C32_full_operator_entries`, `C33_star_homomorphism`, `C34_disjoint_wires`, `C34_permuted_wires`, `C35_rejects_exactly`, `C36_weighted_sum`, `C39_circuit_unitary`, `C40_su2_enumeration`, `C40_su4_enumeration`, `C40_su8_enumeration`, `C85_digraph`, `C85_errors`, `C85_graph_partial`, `C85_identity_refuted`, `C85_su8`, `C89_bch_terms_partial`, `C89_bch_terms_refuted`, `C93_repr_faithful`, `C93_same_text_same_operator`, `C93_tex_faithful_partial`, `C93_tex_faithful_refuted`, `C94_empty_call`, `C94_figures`, `C94_processes_partial`, `C94_save_path_refuted`, `C94_separate_partial`, `C94_single_call_partial`, `C94_strings`, `C99_plot_partial`.
* `sig_forall_dec`, `functional_extensionality_dep`:
  `C100_residual`, `C101_diagonal`, `C101_hamiltonian`, `C109_approximate`, `C109_approximate_returns`, `C109_exact`, `C109_exact_returns`, `C109_shift`, `C109_shift_returns`, `C110_approximate`, `C110_exact`, `C110_shift`, `C111_approximate`, `C111_exact`, `C111_shift`, `C112_approximate`, `C112_exact`, `C112_shift`, `C115_order`, `C30_pauli_basis`, `C38_directions`, `C44_custom_directions`, `C44_local_directions`, `C50_commutator_keys`, `C52_directions_partial`, `C52_directions_refuted`, `C52_layers_refuted`, `C53_exact_arguments`, `C54_shift_arguments_partial`, `C54_shift_arguments_refuted`, `C55_approximate_arguments`, `C56_C59_approximate_histories`, `C56_exact_histories`, `C56_shift_histories`, `C57_approximate_stop`, `C57_exact_stop`, `C57_shift_stop`, `C58_approximate_perturbations`, `C58_exact_perturbations`, `C59_no_layers`, `C60_approximate_shape`, `C60_exact_shape`, `C60_shift_shape`, `C77_stride_partial`, `C88_direction_plots_partial`, `C88_direction_plots_refuted`, `C99_plot_refuted`.
* `sig_forall_dec`, `sig_not_dec`, `functional_extensionality_dep`:
  `C102_run`, `C102_step`, `C103_marks_partial`, `C113_exact`, `C113_shift`, `C115_shift`, `C117_start`, `C31_frobenius_norm`, `C31_norm_laws`, `C37_parameter_shift_commutator`, `C41_stochastic_step_refuted`, `C42_custom_layer_unitary`, `C42_local_layer_unitary`, `C43_projection_partial`, `C43_unitary_repair_refuted`, `C44_custom_default_refuted`, `C48_adapt_greedy`, `C51_adapt_schedule`, `C61_returned_cost_partial`, `C66_exact_unitary`, `C67_states`, `C71_own_row_partial`, `C71_own_row_refuted`, `C72_one_qubit_refuted`, `C73_exact_exponential`, `C76_commute_call_partial`, `C76_commute_returns_partial`, `C76_reversed_refuted`, `C76_star_refuted`, `C77_stride_refuted`, `C79_total_descent_partial`, `C80_adapt_circuits`, `C83_v2_call_partial`, `C83_v2_flat`, `C83_v2_one_angle`, `C83_v2_one_qubit`, `C83_v2_step_refuted`, `C84_v2_polynomial`, `C95_chart`, `C95_cost_refuted`, `C96_level_surface_refuted`, `C96_lower_half_partial`, `C97_maps`.
* `sig_forall_dec`, `classic`, `functional_extensionality_dep`:
  `C100_eigenvalues`, `C90_pauli_bound`, `C91_eigenvalue`.
* `sig_forall_dec`, `sig_not_dec`, `classic`, `functional_extensionality_dep`:
  `C100_approximate`, `C100_exact`, `C100_shift`, `C101_figure`, `C103_marks_refuted`, `C106_layer`, `C106_run`, `C107_squared_partial`, `C107_squared_refuted`, `C107_su8_partial`, `C108_figure`, `C108_limit`, `C108_run`, `C113_approximate`, `C115_approximate`, `C115_exact_refuted`, `C115_local_refuted`, `C117_adapt_vqe`, `C117_lowest_eigenstate_refuted`, `C117_su4_linesearch`, `C117_su8_linesearch`, `C118_toy`, `C119_figure`, `C119_first_part_returns`, `C119_labels`, `C119_short`, `C45_custom_descent`, `C45_local_descent`, `C46_rotosolve_one_qubit`, `C47_rotosolve_multi_qubit_partial`, `C47_rotosolve_multi_qubit_refuted`, `C48_squared_greedy`, `C48_su8_greedy`, `C49_zassenhaus_schedule`, `C50_su4_call`, `C50_su8_call`, `C61_returned_cost_refuted`, `C62_eta_partial`, `C62_eta_refuted`, `C63_exact_descent`, `C63_exact_run`, `C64_exact_stall`, `C65_exact_limit`, `C66_approximate_returns`, `C66_approximate_unitary`, `C68_angles`, `C69_accepts`, `C69_states`, `C70_su8_with_su2_refuted`, `C74_mixed_partial`, `C74_mixed_refuted`, `C74_too_long`, `C75_commute_ignored_partial`, `C75_commute_optimizer_refuted`, `C75_commute_values`, `C78_omegas_partial`, `C78_omegas_refuted`, `C79_total_descent_refuted`, `C80_shift_rule`, `C81_shift_descent_partial`, `C81_shift_descent_refuted`, `C82_base_layer`, `C86_adapt_training`, `C87_layer_objects`, `C90_adapt_training`, `C90_pauli_run`, `C90_shift_run`, `C91_exact_rate`, `C91_exact_run`, `C92_layer_rate`, `C92_run`, `C92_single_descent`, `C95_gradients_partial`, `C97_riemann`, `C97_shift`, `C98_label_partial`, `C98_label_refuted`.

The existence lemma `eigh_exists` of `PropFlow.v` and the examples that use it,
`C63_case`, `C66_C62_case`, `C78_case`, `C87_case`, `C92_case`, `ascending_exists`, `C101_case`, `C108_case`, `C117_case`, `C118_case` and `C119_case`, also need `constructive_indefinite_description` of
`Coq.Logic.IndefiniteDescription` (and the axioms above).

## Modelled

`pauli.py`, `edge_coloring.py` (without the functions that
draw or generate graphs), `utils.py`, `circuit_tools.py`, `optimizers.py` 1-389,
`opt_tools.py` 19-1305, `plot_utils.py` 13-73 (of `contourf` only which height belongs to which point) and 96-259 (the curves of the figures only), `experiments_paper/algebra_graphs.py` 8-102, `experiments_paper/BCH.py` 118-132 (numbers as coefficients) and the loop 148-149, `experiments_paper/fixed_points.py` 7-43 (without the grid), `experiments_paper/3_sphere_level_curves.py` 6-9, `experiments_paper/red_blue_comparison.py` 16-167 (data of the figures only), `experiments_paper/eigenstate_perturbation.py` 13-79 (data of the figures only), `experiments_paper/approximate_example.py` 11-43 (data of the figure only), `experiments_paper/tfim_su4_adapt_vqe.py` 15-74, `experiments_paper/tfim_su4_linesearch.py` 36-38, 44-98 (without the curve of the parameter shift optimizer) and `experiments_paper/tfim_su8_linesearch.py` 14-63 (data of the figures only), `experiments_paper/toy_example.py` 9-58 (data of the figure only), `experiments_paper/zassenhaus.py` 12-74 (data of the figure only).

## Not modelled

* The commented-out code of `optimizers.py` 390-1322, the Bloch sphere plot and the layout of the other plots of `plot_utils.py`, the experiment scripts (except for the lines above).
* The output of `print`, the texts of error messages and the rendering of numbers.
* `PathModel.v`: `..` components, symbolic links, permissions,
  programs that remove entries.
* Floating-point rounding outside `FloatPauliModel.v` (there: no fused multiply-add; a real
  coefficient is a complex one with imaginary part 0.0, which differs from Python once a
  product of reals overflows); negative zero (matters in `arctan2` only); numpy's limits
  on axes, labels and memory.
* sympy: the coefficients of `ZassenhausLayerV2` are numbers times powers of the three
  symbols, elsewhere coefficients are numbers. scipy's `minimize` is an arbitrary
  function of the cost function.
* PennyLane: tape, device, its own check of unitarity, the Hamiltonian of an empty
  list of observables, failures while reading the operations of a QNode.
* `OptimizerModel.v`: duplicated keyword names; a callable passed as the keyword
  `optimizer`; `PyOther` stands for values that cannot be compared with numbers;
  `np.array` of lists of different lengths.
* `ZassenhausLayer`: a division by zero (`previous_eta` 0) is recorded as an error of
  the same call; in the code the next QNode rejects the result.
* `AdaptVQELayer`: the layer after a call that raised.
