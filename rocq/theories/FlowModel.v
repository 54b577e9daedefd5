(** Model of the operations of exact_lie_optimizer (oranssi/optimizers.py): the
    step over the observables, the cost, the state and the random perturbation.
    Simplifications: exact complex numbers instead of floats; numpy.linalg.eigh
    and the random matrices are arguments; PennyLane's tape, device and numerical
    check of unitarity are not modelled. *)
From Coq Require Import Arith Lia Bool String Reals List.
From Coquelicot Require Import Coquelicot.
From Verif Require Import Py StarRing Matrix Cplx Expm UtilsModel CircuitModel LayerModel OptimizerModel.
From Coq Require Import List.
Import ListNotations.
Local Open Scope nat_scope.

(** numpy.linalg.eigh of a d x d matrix: the eigenvalues and the matrix of
    eigenvectors *)
Definition eigh_fun := nat -> mat C -> (nat -> R) * mat C.

(** np.diag *)
Definition np_diag (f : nat -> C) : mat C := fun i j => if Nat.eqb i j then f i else RtoC 0.
(** np.exp(-1j * eta / 2 * s) for a real s *)
Definition phase (eta s : R) : C := (cos (eta / 2 * s), - sin (eta / 2 * s))%R.

(** lines 189-193 and 209-213: the unitary V diag(exp(-i eta/2 S)) V^* applied to
    the circuit *)
Definition eigh_step (eigh : eigh_fun) (d : nat) (eta : R) (H u : mat C) : mat C :=
  let '(Sv, V) := eigh d H in
  mmul d (mmul d (mmul d V (np_diag (fun i => phase eta (Sv i)))) (madj V)) u.

(** lines 184-193 for one observable *)
Definition flow_step (eigh : eigh_fun) (n : nat) (eta : R) (u : mat C) (o : qop C) : res (mat C) :=
  let phi := qnode_state u in
  let rho : mat C := fun i j => Cmult (phi i) (Cconj (phi j)) in
  do F <- full n o;
  let H := param_shift_comm (2 ^ n) rho (fun t => expm (2 ^ n) (mscale (Cmult (Copp Ci) (RtoC (t / 2))) (a_ent F))) in
  Ok (eigh_step eigh (2 ^ n) eta H u).

(** the loop of lines 182-193 *)
Definition exact_flow (eigh : eigh_fun) (n : nat) (obs : list (qop C)) (eta : R) (u : mat C) : res (mat C) :=
  foldM (flow_step eigh n eta) obs u.

(** the expectation value of an observable, lines 174-176 and 196-199 *)
Definition expval (n : nat) (u : mat C) (o : qop C) : res R :=
  do F <- full n o; Ok (qnode_expval n u (a_ent F)).
(** the sum over the observables *)
Definition exact_cost (n : nat) (obs : list (qop C)) (u : mat C) : res R :=
  foldM (fun c o => do e <- expval n u o; Ok (c + e)%R) obs 0%R.

(** lines 206-213; [random step] is the matrix np.random.randn(d, d) drawn in that
    step *)
Definition random_perturb (eigh : eigh_fun) (n : nat) (random : nat -> nat -> nat -> R) (eta : R) (step : nat) (u : mat C) : mat C :=
  let m i j := (random step i j * / 10)%R in
  let a i j := (/ 2 * (m i j - m j i))%R in
  eigh_step eigh (2 ^ n) eta (fun i j => Cmult (Copp Ci) (RtoC (a i j))) u.

(** exact_lie_optimizer on a circuit given by its operations *)
Definition exact_optimizer {P Om Z} (eigh : eigh_fun) (random : nat -> nat -> nat -> R) (n : nat) (gates : list (qop C)) (obs : list (qop C))
    (ret : circ_ret) (kw : kwargs) : res (retval (item (nat -> C) P Om (mat C) Z)) :=
  exact_lie_optimizer (exact_flow eigh n obs) (exact_cost n obs) (fun u => Ok (qnode_state u)) (random_perturb eigh n random)
    ret (do u <- circuit_unitary n gates; Ok (a_ent u)) kw.
