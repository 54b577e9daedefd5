(** What Pauli objects, monomials and lists of monomials stand for: matrices over
    the Gaussian rationals. Reads only the attributes a user sees. *)
From Coq Require Import List Arith ZArith QArith Qcanon Bool.
From Verif Require Import Py StarRing Matrix GaussQ PauliSpec PauliModel.
Import ListNotations.
Local Open Scope nat_scope.

(** the 2x2 matrix of a Pauli object *)
Definition pauli_mat (p : pauli) : mat gq := mscale (p_coeff p) (sigma (p_gamma p)).

(** an object that the constructor can return *)
Definition constructible (p : pauli) : Prop :=
  exists alpha gamma coeff, Pauli_init alpha gamma coeff = Ok p.

(** a monomial as returned by the constructor, not modified since *)
Definition fresh (m : mono) : Prop :=
  exists ps, Forall constructible ps /\ mono_init ps = Ok m.

(** the letter a monomial has on site [s] (identity where it has no factor) *)
Definition letter_on (m : mono) (s : nat) : nat :=
  match find (fun p => Nat.eqb (p_alpha p) s) (m_paulis m) with
  | Some p => p_gamma p
  | None => 0
  end.

(** the Pauli string of a monomial on a register of [n] sites *)
Definition mono_string (n : nat) (m : mono) : list nat := map (letter_on m) (seq 0 n).

(** the operator on [n] sites: visible coefficient times Pauli string *)
Definition denote (n : nat) (m : mono) : mat gq := mscale (m_coeff m) (pword (mono_string n m)).

(** the register contains the sites of the monomial *)
Definition sites_below (n : nat) (m : mono) : Prop :=
  Forall (fun p => p_alpha p < n) (m_paulis m).

(** [ord] only reorders *)
Definition reorders (ord : list nat -> list nat) : Prop :=
  forall l, Permutation.Permutation (ord l) l.

(** number of sites where both monomials have a non-identity letter and the letters differ *)
Definition clashes (n : nat) (a b : mono) : nat :=
  length (filter (fun s => negb (letter_on a s =? 0) && negb (letter_on b s =? 0)
                           && negb (letter_on a s =? letter_on b s)) (seq 0 n)).
