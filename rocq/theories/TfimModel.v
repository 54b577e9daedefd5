(** Model of experiments_paper/tfim_su4_adapt_vqe.py, tfim_su4_linesearch.py and
    tfim_su8_linesearch.py: the runs on the transverse field Ising model and the data of
    their figures.
    Simplifications: exact numbers instead of floats; colors, labels, axes, printing and the
    files are left out. Of tfim_su4_linesearch.py the part of the parameter shift optimizer
    (lines 17-34, 39-41 and its curve, line 61) is left out. The parameters of the circuits, which
    they do not use and the layers but AdaptVQELayer only pass on, are written as rows. *)
From Coq Require Import ZArith Arith Bool String Reals.
From Coquelicot Require Import Coquelicot.
From Verif Require Import Py StarRing Matrix Cplx UtilsModel CircuitModel LayerModel AdaptModel OptimizerModel FlowModel ShiftModel GreedyModel ApproxModel PlotModel ApproxExampleModel.
From Coq Require Import List.
Import ListNotations.
Local Open Scope R_scope.

(** circuit: adapt_vqe lines 20-26, su4_linesearch lines 44-48, su8_linesearch lines 19-28 *)
Definition tfim_circuit (n : nat) : list (qop C) := map (fun w => gate_qop (AH w)) (seq 0 n).
(** observables: adapt_vqe lines 28-30, su4_linesearch lines 36-38, su8_linesearch lines 31-33;
    the matrix of qml.PauliZ(i) @ qml.PauliZ(j) is the Kronecker product *)
Definition tfim_x (i : nat) : qop C := mkqop lit_X [i].
Definition tfim_zz (i j : nat) : qop C := mkqop (np_kron lit_Z lit_Z) [i; j].
Definition tfim_observables (n : nat) : list (qop C) :=
  map tfim_x (seq 0 n) ++ map (fun i => tfim_zz i (i + 1)) (seq 0 (n - 1)) ++ [tfim_zz (n - 1) 0].

(** what a script shows: the costs, the other curve of the figure of the costs, the residuals
    if it draws them, and what becomes of the figures of the directions, which come last *)
Record tfim_output := mktfim {
  tf_costs : list R;
  tf_min : list R;
  tf_residuals : list R;
  tf_directions : res (list curve)
}.

(** adapt_vqe lines 37-39, and the literal of the dashed line, lines 50 and 58 *)
Definition adapt_kwargs : kwargs :=
  [("eta"%string, PyFloat (Fin 1)); ("return_unitary"%string, PyBool true); ("nsteps"%string, PyInt 15); ("escape_tol"%string, PyFloat (Fin (/ 100000)))].
Definition adapt_line : R := - (5226251859505502 / 1000000000000000).

(** tfim_su4_adapt_vqe.py, lines 15-74; the learning rate of the layer is its default
    (opt_tools.py line 506) *)
Definition tfim_su4_adapt_vqe (x : oracles) (eigh : eigh_fun) (random : nat -> nat -> nat -> R) : res tfim_output :=
  let n := 4%nat in let obs := tfim_observables n in
  do _ <- get_hamiltonian_matrix n obs None;
  do l <- AdaptVQELayer n obs (/ 10);
  do r <- approx_optimizer x eigh random n (tfim_circuit n) obs [OAdapt obs l] RetState (AList [Some 0%nat]) [] adapt_kwargs;
  match r with
  | RTuple [ItCosts costs; ItUnitaries us] =>
      do _ <- all_omegas n us obs;
      Ok (mktfim costs (map (fun _ => adapt_line) costs) []
           (do a <- plot_su16_directions_separate us; do b <- plot_su16_directions n n us obs; Ok (a ++ b)))
  | _ => Err ValueError
  end.

(** su4_linesearch lines 56-57 *)
Definition su4_kwargs : kwargs :=
  [("eta"%string, PyFloat (Fin (/ 10))); ("nsteps"%string, PyInt 50); ("tol"%string, PyFloat (Fin (/ 1000000))); ("return_unitary"%string, PyBool true)].

(** tfim_su4_linesearch.py, lines 51-98 without the curve of line 61;
    the learning rate of the layer is its default (opt_tools.py line 402) *)
Definition tfim_su4_linesearch (x : oracles) (eigh : eigh_fun) (random : nat -> nat -> nat -> R) : res tfim_output :=
  let n := 4%nat in let obs := tfim_observables n in
  do H <- get_hamiltonian_matrix n obs None;
  let lowest := min_eigenvalue eigh (2 ^ n) (a_ent H) in
  do l <- SquaredLieAlgebraLayer n obs (/ 10);
  do r <- approx_optimizer x eigh random n (tfim_circuit n) obs [OSquared obs l] RetState (AList [Some 0%nat]) [[/ 10; / 10; / 10; / 10]] su4_kwargs;
  match r with
  | RTuple [ItCosts costs; ItUnitaries us] =>
      do _ <- all_omegas n us obs;
      Ok (mktfim costs (map (fun _ => lowest) costs) (map (fun c => Rabs (c - lowest)) costs) (plot_su16_directions n n us obs))
  | _ => Err ValueError
  end.

(** su8_linesearch lines 40-43 *)
Definition su8_kwargs : kwargs :=
  [("eta"%string, PyFloat (Fin 1)); ("return_unitary"%string, PyBool true); ("nsteps"%string, PyInt 30); ("escape_tol"%string, PyFloat (Fin (/ 100000)))].

(** tfim_su8_linesearch.py, lines 14-63; the learning rate of the layer is its default
    (opt_tools.py line 627) *)
Definition tfim_su8_linesearch (x : oracles) (eigh : eigh_fun) (random : nat -> nat -> nat -> R) : res tfim_output :=
  let n := 6%nat in let obs := tfim_observables n in
  do H <- get_hamiltonian_matrix n obs None;
  let lowest := min_eigenvalue eigh (2 ^ n) (a_ent H) in
  do l <- SU8_AlgebraLayer n obs (/ 10) true true;
  do r <- approx_optimizer x eigh random n (tfim_circuit n) obs [OSU8 obs l] RetState (AList [Some 0%nat]) [] su8_kwargs;
  match r with
  | RTuple [ItCosts costs; ItUnitaries us] =>
      do _ <- all_omegas n us obs;
      Ok (mktfim costs (map (fun _ => lowest) costs) [] (plot_su16_directions n n us obs))
  | _ => Err ValueError
  end.
