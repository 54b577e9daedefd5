(** What the graphs of repeated commutators are supposed to contain, in terms of
    the operators of the monomials. *)
From Coq Require Import List Arith QArith Qcanon.
From Verif Require Import Py StarRing Matrix GaussQ PauliSpec PauliModel PauliSem.
Import ListNotations.

(** a monomial on the qubits 0, 1, 2 as the constructor returns it, with total coefficient 1, -1, i or -i *)
Definition three_qubit (m : mono) : Prop :=
  fresh m /\ m_locs m = [0; 1; 2]%nat /\
  (m_coeff m = g1 \/ m_coeff m = gopp g1 \/ m_coeff m = gi \/ m_coeff m = gopp gi).

(** equal up to a rational factor that is not zero *)
Definition proportional (A B : mat gq) : Prop :=
  exists q : Qc, q <> 0%Qc /\ meq 8 A (mscale (GQ q 0) B).

(** nested commutators of the operators of [gens], nested at most [d] deep *)
Inductive nested (gens : list mono) : nat -> mat gq -> Prop :=
| nested_gen m d : In m gens -> nested gens d (denote 3 m)
| nested_comm d A B : nested gens d A -> nested gens d B ->
    nested gens (S d) (msub (mmul 8 A B) (mmul 8 B A)).

(** no two entries of the list have proportional operators *)
Definition no_repeats (ms : list mono) : Prop :=
  ForallOrdPairs (fun a b => ~ proportional (denote 3 a) (denote 3 b)) ms.

(** the node [v] is the commutator of [u] with some node *)
Definition commutator_with (ms : list mono) (u v : mono) : Prop :=
  exists b, In b ms /\
    proportional (denote 3 v) (msub (mmul 8 (denote 3 u) (denote 3 b)) (mmul 8 (denote 3 b) (denote 3 u))).

(** the letters of a monomial on the three qubits, and the 64 Pauli words *)
Definition letters (m : mono) : nat * nat * nat := (letter_on m 0, letter_on m 1, letter_on m 2).
Definition pauli_words : list (nat * nat * nat) := list_prod (list_prod (seq 0 4) (seq 0 4)) (seq 0 4).
