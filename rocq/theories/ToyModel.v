(** Model of experiments_paper/toy_example.py: the two optimizations and the data of the figure.
    Simplifications: exact reals instead of floats; the parameter list [a, b] is a pair; one step
    of qml.GradientDescentOptimizer is gradient descent with the exact partial derivatives;
    colours, axes, legends and the file of the figure are left out, as is the print of line 30. *)
From Coq Require Import ZArith Arith Bool String Reals.
From Coquelicot Require Import Coquelicot.
From Verif Require Import Py StarRing Matrix Cplx UtilsModel CircuitModel LayerModel AdaptModel OptimizerModel FlowModel ShiftModel ZasV2Model ApproxExampleModel.
From Coq Require Import List.
Import ListNotations.
Local Open Scope nat_scope.

(** lines 14-22 and 32-40: circuit(params); the second one returns qml.state() in addition *)
Definition toy_gates (p : R * R) : list (qop C) :=
  [gate_qop (AH 0); gate_qop (AH 1);
   gate_qop (ARot (fst p) "Z"%string [0]); gate_qop (ARot (fst p) "Z"%string [1]);
   mkqop cnot_matrix [0; 1];
   gate_qop (ARot (snd p) "Z"%string [0]); gate_qop (ARot (snd p) "Z"%string [1])].
(** line 25: [qml.PauliX(1), qml.PauliX(0), qml.PauliY(1)] *)
Definition toy_observables : list (qop C) := [mkqop lit_X [1]; mkqop lit_X [0]; mkqop lit_Y [1]].
(** line 26 *)
Definition toy_params : R * R := (/ 10, 12 / 10)%R.
(** lines 12, 27 and 42: eta=eta *)
Definition toy_kwargs : kwargs := [("eta"%string, PyFloat (Fin (/ 2)))].

(** optimizers.py lines 70-71: cost_fn *)
Definition toy_cost (p : R * R) : res R := do u <- circuit_unitary 2 (toy_gates p); exact_cost 2 toy_observables (a_ent u).
(** optimizers.py lines 54-59: circuit_state *)
Definition toy_state (p : R * R) : res (nat -> C) := do u <- circuit_unitary 2 (toy_gates p); Ok (qnode_state (a_ent u)).
(** optimizers.py line 80: opt.step_and_cost(cost_fn, params)[0] *)
Definition toy_step (eta : R) (p : R * R) : res (R * R) :=
  do _ <- toy_cost p;
  Ok (fst p - eta * Derive (fun x => value (toy_cost (x, snd p))) (fst p), snd p - eta * Derive (fun x => value (toy_cost (fst p, x))) (snd p))%R.

(** lines 27-28 and 42: the costs of both runs; no flag is set, so a list is returned *)
Definition toy_shift : res (list R) :=
  do r <- parameter_shift_optimizer (Om := unit) (U := unit) (Z := unit) toy_step toy_cost toy_state RetPlain toy_params toy_kwargs;
  match r with RList costs => Ok costs | RTuple _ => Err TypeError end.
Definition toy_exact (eigh : eigh_fun) (random : nat -> nat -> nat -> R) : res (list R) :=
  do r <- exact_optimizer (P := unit) (Om := unit) (Z := unit) eigh random 2 (toy_gates toy_params) toy_observables RetState toy_kwargs;
  match r with RList costs => Ok costs | RTuple _ => Err TypeError end.

(** the curves of the figure, lines 45-50 *)
Record toy_figure := mktoy { toy_ps : list R; toy_lie : list R; toy_line : list R }.

(** lines 9-58: two_observables_2_qubits_parameter_shift() *)
Definition two_observables_2_qubits_parameter_shift (eigh : eigh_fun) (random : nat -> nat -> nat -> R) : res toy_figure :=
  do costs_parameter_shift <- toy_shift;
  do H <- get_hamiltonian_matrix 2 toy_observables None;
  do costs_exact <- toy_exact eigh random;
  Ok (mktoy costs_parameter_shift costs_exact
        (map (fun _ => min_eigenvalue eigh (2 ^ 2) (a_ent H)) (seq 0 (Nat.max (List.length costs_exact) (List.length costs_parameter_shift))))).
