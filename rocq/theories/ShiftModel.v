(** Model of what parameter_shift_optimizer (oranssi/optimizers.py lines 13-97)
    computes for a circuit whose parameters are rows of real numbers, as
    AdaptVQELayer uses it (oranssi/opt_tools.py line 577).
    Simplifications: qml.GradientDescentOptimizer is gradient descent with the
    exact partial derivatives; qml.ExpvalCost of the Hamiltonian with unit
    coefficients is the sum of the expectation values of the observables; the
    parameters are exact reals and always trainable. *)
From Coq Require Import ZArith Arith Lia Bool String Reals.
From Coquelicot Require Import Coquelicot.
From Verif Require Import Py StarRing Matrix Cplx Expm UtilsModel CircuitModel LayerModel AdaptModel OptimizerModel FlowModel.
From Coq Require Import List.
Import ListNotations.
Local Open Scope nat_scope.

(** the first [i] elements, x, and the elements after position i *)
Fixpoint replace_at {A} (l : list A) (i : nat) (x : A) : list A :=
  match l, i with
  | [], _ => []
  | _ :: r, O => x :: r
  | a :: r, S i' => a :: replace_at r i' x
  end.

Definition rows := list (list R).
(** the parameters with entry (j, k) set to x *)
Definition set_entry (p : rows) (j k : nat) (x : R) : rows := replace_at p j (replace_at (nth j p []) k x).

(** cost_fn, lines 70-71 *)
Definition vqe_cost (n : nat) (obs : list (qop C)) (circ : rows -> res (list agate)) (p : rows) : res R :=
  do gs <- circ p; do u <- circuit_unitary n (map gate_qop gs); exact_cost n obs (a_ent u).
(** circuit_state, lines 54-59 *)
Definition vqe_state (n : nat) (circ : rows -> res (list agate)) (p : rows) : res (nat -> C) :=
  do gs <- circ p; do u <- circuit_unitary n (map gate_qop gs); Ok (qnode_state (a_ent u)).

Definition value (r : res R) : R := match r with Ok x => x | Err _ => 0%R end.
(** the partial derivative of the cost *)
Definition partial (cost : rows -> res R) (p : rows) (j k : nat) : R :=
  Derive (fun x => value (cost (set_entry p j k x))) (nth k (nth j p []) 0%R).
(** numbered elements *)
Definition enum {A} (l : list A) : list (nat * A) := combine (seq 0 (List.length l)) l.
(** opt.step_and_cost(cost_fn, params)[0] *)
Definition gd_step (cost : rows -> res R) (eta : R) (p : rows) : res rows :=
  do _ <- cost p;
  Ok (map (fun jr => map (fun kx => (snd kx - eta * partial cost p (fst jr) (fst kx))%R) (enum (snd jr))) (enum p)).

(** parameter_shift_optimizer on such a circuit *)
Definition shift_optimizer {Om U Z} (n : nat) (obs : list (qop C)) (circ : rows -> res (list agate)) (ret : circ_ret) (p : rows) (kw : kwargs)
    : res (retval (item (nat -> C) rows Om U Z)) :=
  parameter_shift_optimizer (gd_step (vqe_cost n obs circ)) (vqe_cost n obs circ) (vqe_state n circ) ret p kw.

(** the call in AdaptVQELayer.__call__, line 577: only the second component of
    the result, params_per_step, is used *)
Definition layer_optimizer (n : nat) (obs : list (qop C)) (circ : rows -> res (list agate)) (p : rows) : res (list rows) :=
  do r <- shift_optimizer (Om := unit) (U := unit) (Z := unit) n obs circ RetPlain p
            [("return_params"%string, PyBool true); ("eta"%string, PyFloat (Fin (/ 100))); ("tol"%string, PyFloat (Fin (/ 100000)))];
  match r with RTuple [_; ItParams h] => Ok h | _ => Err ValueError end.
