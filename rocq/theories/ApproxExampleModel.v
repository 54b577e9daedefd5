(** Model of experiments_paper/approximate_example.py: the run and the data of the figure.
    Simplifications: exact numbers instead of floats; colors, labels, axes, the printed
    layer and the file are left out; the parameters of the circuit, which it does not use
    and the layer only passes on, are written as two rows of two numbers. *)
From Coq Require Import ZArith Arith Bool String Reals.
From Coquelicot Require Import Coquelicot.
From Verif Require Import Py StarRing Matrix Cplx UtilsModel CircuitModel LayerModel AdaptModel OptimizerModel FlowModel ShiftModel ApproxModel PlotModel.
From Coq Require Import List.
Import ListNotations.
Local Open Scope R_scope.

(** lines 17-20: circuit(params), a Hadamard gate on each wire *)
Definition ae_circuit : list (qop C) := map gate_qop [AH 0; AH 1].
(** line 22: [qml.PauliX(0), qml.PauliY(0)@qml.PauliZ(1)]; the matrix of the second is the
    Kronecker product *)
Definition ae_observables : list (qop C) := [mkqop lit_X [0%nat]; mkqop (np_kron lit_Y lit_Z) [0%nat; 1%nat]].
(** line 13 *)
Definition ae_params : rows := [[/ 10; / 10]; [/ 10; / 10]].
(** lines 29-30 *)
Definition ae_kwargs : kwargs :=
  [("eta"%string, PyFloat (Fin (/ 10))); ("nsteps"%string, PyInt 50); ("tol"%string, PyFloat (Fin (/ 1000000))); ("return_unitary"%string, PyBool true)].

(** min(eigvals), line 42, of the eigenvalues of line 25 *)
Definition min_eigenvalue (eigh : eigh_fun) (d : nat) (H : mat C) : R :=
  let f := fst (eigh d H) in fold_left Rmin (map f (seq 1 (d - 1))) (f 0%nat).

(** what the figure shows *)
Record ae_figure := mkae {
  ae_curves : list curve;   (* line 33 *)
  ae_costs : list R;        (* line 27 *)
  ae_residuals : list R     (* line 42 *)
}.

(** lines 24-43; the learning rate of the layer is its default (opt_tools.py line 234) *)
Definition approximate_example (x : oracles) (eigh : eigh_fun) (random : nat -> nat -> nat -> R) : res ae_figure :=
  do H <- get_hamiltonian_matrix 2 ae_observables None;
  do l <- CustomDirectionLieAlgebraLayer 2 ae_observables (Some ["YY"%string; "ZZ"%string]) (/ 10) false false;
  do r <- approx_optimizer x eigh random 2 ae_circuit ae_observables [OCustom l] RetState (AList [Some 0%nat]) ae_params ae_kwargs;
  match r with
  | RTuple [ItCosts costs; ItUnitaries us] =>
      do cs <- plot_su8_directions_individually 2 us ae_observables;
      Ok (mkae cs costs (map (fun c => Rabs (c - min_eigenvalue eigh 4 (a_ent H))) costs))
  | _ => Err ValueError
  end.
