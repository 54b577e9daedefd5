(** Model of oranssi/circuit_tools.py: get_full_operator, get_hamiltonian_matrix,
    get_all_su_n_directions, param_shift_comm, and the assembly of the circuit
    unitary in oranssi/optimizers.py. get_commuting_set is in EdgeModel.v. *)
From Coq Require Import Arith Lia Bool String Reals List.
From Coquelicot Require Import Coquelicot.
From Verif Require Import Py StarRing Matrix Cplx Bits UtilsModel.
From Coq Require Import List.
Import ListNotations.
Local Open Scope nat_scope.

(** max(wires) for a tuple of non-negative integers; max(()) raises ValueError *)
Definition py_max (l : list nat) : res nat :=
  match l with [] => Err ValueError | x :: r => Ok (fold_left Nat.max r x) end.

Definition py_assert (b : bool) : res unit := if b then Ok tt else Err AssertionError.

(** l[i] = x on a Python list, i non-negative *)
Fixpoint list_set {A} (l : list A) (i : nat) (x : A) : res (list A) :=
  match l, i with
  | [], _ => Err IndexError
  | _ :: r, O => Ok (x :: r)
  | a :: r, S j => do r' <- list_set r j x; Ok (a :: r')
  end.

(** for i, w in enumerate(wires): target[w] = source[i + off]
    (lines 48-49 with off = len(wires), lines 51-52 with off = 0) *)
Fixpoint assign_loop (i : nat) (wires : list nat) (off : nat) (source target : list nat) : res (list nat) :=
  match wires with
  | [] => Ok target
  | w :: r => do s <- list_get source (i + off); do t <- list_set target w s; assign_loop (S i) r off source t
  end.

(** first occurrences *)
Fixpoint dedup (l : list nat) : list nat :=
  match l with [] => [] | x :: r => x :: filter (fun y => negb (Nat.eqb x y)) (dedup r) end.

(** the value of a label: the first pair with that label *)
Fixpoint label_val (labels values : list nat) (x : nat) : nat :=
  match labels, values with
  | l :: ls, v :: vs => if Nat.eqb l x then v else label_val ls vs x
  | _, _ => 0
  end.

Section Full.
Context {K : Type} {SR : StarRing K}.
Local Open Scope K_scope.

(** A tensor all of whose axes have length 2, as a function of the multi-index. *)
Definition tensor := list nat -> K.

(** A.reshape([2] * d) in C order. numpy raises ValueError when the number of
    entries is not 2^d. *)
Definition np_reshape2 (A : arr K) (d : nat) : res tensor :=
  if Nat.eqb (a_rows A * a_cols A) (2 ^ d)
  then Ok (fun m => a_ent A (unbits m / a_cols A)%nat (unbits m mod a_cols A)%nat)
  else Err ValueError.

(** np.einsum(A, la, B, lb, out) for tensors whose axes all have length 2:
    labels not in [out] are summed over. numpy raises ValueError for a repeated
    output label and for an output label that no input has. Simplification:
    numpy's limits of 32 axes and 52 labels are not modelled. *)
Definition np_einsum (A : tensor) (la : list nat) (B : tensor) (lb : list nat) (out : list nat) : res tensor :=
  if forallb (fun x => mem x (la ++ lb)) out && Nat.eqb (List.length (dedup out)) (List.length out) then
    let summed := filter (fun x => negb (mem x out)) (dedup (la ++ lb)) in
    Ok (fun o => lsum (fun s =>
          A (map (label_val (out ++ summed) (o ++ s)) la) * B (map (label_val (out ++ summed) (o ++ s)) lb))
        (allbits (List.length summed)))
  else Err ValueError.

(** T.reshape((2 ** n, 2 ** n)) of a tensor with 2 n axes *)
Definition unreshape2 (n : nat) (T : tensor) : arr K :=
  mkarr (2 ^ n) (2 ^ n) (fun r c => T (bits n r ++ bits n c)).

(** circuit_tools.py lines 25-56. Wires are non-negative integers. *)
Definition get_full_operator (op : arr K) (wires : list nat) (nqubits : nat) : res (arr K) :=
  do m <- py_max wires;
  do _ <- py_assert (Nat.ltb m nqubits);
  do opsize <- int_log2 (a_rows op);
  do _ <- py_assert (Nat.eqb opsize (List.length wires));
  do final_operator <- np_reshape2 (np_eye (2 ^ nqubits)) (2 * nqubits);
  do opt <- np_reshape2 op (2 * List.length wires);
  let idx_op := seq 0 (2 * List.length wires) in
  let idx_final := seq (2 * List.length wires) (2 * nqubits) in
  do idx_final' <- assign_loop 0 wires (List.length wires) idx_op idx_final;
  do idx_out <- assign_loop 0 wires 0 idx_op idx_final';
  do T <- np_einsum opt idx_op final_operator idx_final' idx_out;
  Ok (unreshape2 nqubits T).

(** A PennyLane observable or gate, reduced to its matrix and wires *)
Record qop := mkqop { q_matrix : arr K; q_wires : list nat }.

Definition full (nqubits : nat) (o : qop) : res (arr K) := get_full_operator (q_matrix o) (q_wires o) nqubits.

(** the loop of lines 142-143; [c i] is coeffs[i] *)
Fixpoint ham_loop (nqubits : nat) (c : nat -> res K) (i : nat) (obs : list qop) (h : mat K) : res (mat K) :=
  match obs with
  | [] => Ok h
  | o :: r => do x <- c i; do F <- full nqubits o; ham_loop nqubits c (S i) r (madd h (mscale x (a_ent F)))
  end.

(** circuit_tools.py lines 126-144 *)
Definition get_hamiltonian_matrix (nqubits : nat) (observables : list qop) (coeffs : option (list K)) : res (arr K) :=
  let c := match coeffs with
           | None => list_get (repeat 1 (List.length observables))
           | Some l => list_get l
           end in
  do h <- ham_loop nqubits c 0 observables mzero;
  Ok (mkarr (2 ^ nqubits) (2 ^ nqubits) h).

(** The gates of a circuit as extracted by get_ops_from_qnode (lines 103-123):
    the matrices and wires of the operations of the tape in order. PennyLane's
    tape is not modelled; a circuit is the list of its operations.
    optimizers.py lines 160-162 and 307-309: the loop building circuit_unitary *)
Fixpoint unitary_loop (nqubits : nat) (gates : list qop) (u : mat K) : res (mat K) :=
  match gates with
  | [] => Ok u
  | g :: r => do F <- full nqubits g; unitary_loop nqubits r (mmul (2 ^ nqubits) (a_ent F) u)
  end.
Definition circuit_unitary (nqubits : nat) (gates : list qop) : res (arr K) :=
  do u <- unitary_loop nqubits gates (a_ent (np_eye (2 ^ nqubits)));
  Ok (mkarr (2 ^ nqubits) (2 ^ nqubits) u).

End Full.
Arguments qop K : clear implicits.

(** circuit_tools.py lines 10-22; [n] is the dimension of rho *)
Definition param_shift_comm (n : nat) (rho : mat C) (gate : R -> mat C) : mat C :=
  msub (mmul n (gate (PI / 2)%R) (mmul n rho (madj (gate (PI / 2)%R))))
       (mmul n (gate (- PI / 2)%R) (mmul n rho (madj (gate (- PI / 2)%R)))).

(** circuit_tools.py lines 82-100 run as a QNode on a device with wires
    0..n-1: the state is the unitary applied to |0...0>, that is its first
    column. Simplification: the unitary has the full size 2^n, and PennyLane's
    numerical check of unitarity is not modelled; the theorems assume unitarity. *)
Definition qnode_state (U : mat C) : nat -> C := fun i => U i 0%nat.

(** phi.conj().T @ M @ phi *)
Definition quad (d : nat) (phi : nat -> C) (M : mat C) : C :=
  lsum (fun i => lsum (fun j => kmul (kmul (kconj (phi i)) (M i j)) (phi j)) (seq 0 d)) (seq 0 d).

(** circuit_tools.py lines 59-79 run as a QNode: the expectation value of an
    observable with full matrix [F] in that state *)
Definition qnode_expval (n : nat) (U F : mat C) : R :=
  Re (quad (2 ^ n) (qnode_state U) F).

(** circuit_tools.py lines 147-171, the returned dictionary as the list of its
    items in insertion order (the names are distinct) *)
Definition get_all_su_n_directions (nqubits : nat) (U : mat C) (observables : list (qop C)) : res (list (string * R)) :=
  do observables_full <- mapM (full nqubits) observables;
  do r <- get_su_n_operators (2 ^ nqubits) true true;
  match r with
  | (paulis, Some names) =>
      let phi := qnode_state U in
      Ok (map (fun pn => (snd pn,
            fold_left (fun om obs => (om + Im (quad (2 ^ nqubits) phi
                (msub (mmul (2 ^ nqubits) (a_ent (fst pn)) (a_ent obs)) (mmul (2 ^ nqubits) (a_ent obs) (a_ent (fst pn))))) / 2 ^ nqubits)%R)
              observables_full 0%R)) (combine paulis names))
  | (_, None) => Err ValueError
  end.
