(** Model of experiments_paper/eigenstate_perturbation.py: the two runs and the data
    drawn in the three panels.
    Simplifications: exact numbers instead of floats; the printed arrays, colors, labels,
    legends and files are left out; the second figure (lines 90-118) draws the same data
    as the third panel. *)
From Coq Require Import ZArith Arith Bool String Reals.
From Coquelicot Require Import Coquelicot.
From Verif Require Import Py StarRing Matrix Cplx UtilsModel CircuitModel LayerModel AdaptModel OptimizerModel FlowModel.
From Coq Require Import List.
Import ListNotations.
Local Open Scope R_scope.

(** lines 18-31: circuit(params), which does not use its parameters *)
Definition ep_circuit : list (qop C) := map gate_qop [AH 0; AH 1].
(** line 33: [qml.PauliX(1), qml.PauliX(0), qml.PauliY(0)] *)
Definition ep_observables : list (qop C) := [mkqop lit_X [1%nat]; mkqop lit_X [0%nat]; mkqop lit_Y [0%nat]].
(** lines 34-35 *)
Definition ep_H : res (mat C) :=
  let paulis := fst (get_su_2_operators (K := C) true false) in
  do p0 <- list_get paulis 0;
  do p1 <- list_get paulis 1;
  do p2 <- list_get paulis 2;
  Ok (madd (K := C) (madd (K := C) (a_ent (np_kron p1 p0)) (a_ent (np_kron p2 p0))) (a_ent (np_kron p0 p1))).

(** lines 45 and 54 with the real part of lines 58 and 61 *)
Definition diagonalization (d : nat) (u H : mat C) : nat -> nat -> R := fun i j => Re (mmul (K := C) d (mmul (K := C) d (madj (K := C) u) H) u i j).

(** lines 75-79: the points marked as perturbations *)
Definition marks (costs : list R) (perturbations : list nat) : res (list (nat * R)) :=
  mapM (fun p => do c <- list_get costs p; Ok (p, c)) perturbations.

(** what the figure shows *)
Record figure := mkfigure {
  diag1 : nat -> nat -> R; diag2 : nat -> nat -> R;   (* lines 58 and 61 *)
  costs_p : list R; costs_unp : list R;               (* lines 67 and 68 *)
  line0 : R; line1 : R;                               (* lines 69-74 *)
  marked : list (nat * R)                             (* lines 75-79 *)
}.

(** lines 13-79; [random] are the matrices drawn by the second run *)
Definition two_observables_2_qubits (eigh : eigh_fun) (random : nat -> nat -> nat -> R) : res figure :=
  do H <- ep_H;
  let eigenvalues := fst (eigh 4%nat H) in
  do r1 <- exact_optimizer (P := unit) (Om := unit) (Z := unit) eigh random 2 ep_circuit ep_observables RetState
             [("eta"%string, PyFloat (Fin (/ 5))); ("return_unitary"%string, PyBool true); ("nsteps"%string, PyInt 100)];
  do r2 <- exact_optimizer (P := unit) (Om := unit) (Z := unit) eigh random 2 ep_circuit ep_observables RetState
             [("eta"%string, PyFloat (Fin (/ 5))); ("perturbation"%string, PyBool true); ("return_perturbations"%string, PyBool true);
              ("return_unitary"%string, PyBool true); ("nsteps"%string, PyInt 100)];
  match r1, r2 with
  | RTuple [ItCosts c1; ItUnitary u1], RTuple [ItCosts c2; ItPerturbations ps; ItUnitary u2] =>
      do m <- marks c2 ps;
      Ok (mkfigure (diagonalization 4 u1 H) (diagonalization 4 u2 H) c2 c1 (eigenvalues 0%nat) (eigenvalues 1%nat) m)
  | _, _ => Err ValueError
  end.
