(** Model of ZassenhausLayerV2, oranssi/opt_tools.py lines 896-1027.
    Printing is left out. Otherwise simplifications as in GreedyModel.v. *)
From Coq Require Import ZArith QArith Qcanon Qreals Arith Lia Bool String Reals List.
From Coquelicot Require Import Coquelicot.
From Verif Require Import Py StarRing Matrix GaussQ Cplx Expm UtilsModel CircuitModel AlgebraModel LayerModel PauliModel GreedyModel AdaptModel.
From Coq Require Import List.
Import ListNotations.
Local Open Scope nat_scope.

(** A PauliMonomial whose coefficient is the sympy product
      c * x0^a * x1^b * z12^d,
    with c the Gaussian rational coefficient of [sm_mono] and [sm_exps] the three
    exponents. The code of pauli.py only multiplies coefficients, so that the
    numbers are computed as in PauliModel.v and the exponents of a product are
    the sums of the exponents. *)
Record smono := mksmono { sm_mono : mono; sm_exps : nat * nat * nat }.

Definition add_exps (e f : nat * nat * nat) : nat * nat * nat :=
  let '(a, b, c) := e in let '(a', b', c') := f in (a + a', b + b', c + c').

(** term_i.commutator(term_i_plus_one) and coeff *= 0.5, lines 959-960. Both
    products have the same exponents, so that sympy combines them. *)
Definition s_comm (ord : list nat -> list nat) (s t : smono) : res smono :=
  do c <- mono_commutator ord (sm_mono s) (sm_mono t);
  Ok (mksmono (set_coeff c (gmul (m_coeff c) (gofQ (1 # 2)))) (add_exps (sm_exps s) (sm_exps t))).

(** Adding to a Python set of monomials: np.isreal of a sympy coefficient is
    True, so that __eq__ and __hash__ (pauli.py lines 147-158, 205-208) look at
    the Paulis only. All monomials here have length 2. *)
Definition s_add (t : smono) (s : list smono) : list smono :=
  if existsb (fun u => zip_eq (m_paulis (sm_mono t)) (m_paulis (sm_mono u))) s then s else s ++ [t].

(** lines 948-950: PauliMonomial([Pauli(0, g, coeff=-1j * symbol), Pauli(1, h)])
    and its variant with the coefficient on site 1 *)
Definition s_term (g h : string) (first : bool) (e : nat * nat * nat) : res smono :=
  let c := gopp gi in
  do p <- Pauli_init 0 (GStr g) (CNum (if first then c else g1));
  do q <- Pauli_init 1 (GStr h) (CNum (if first then g1 else c));
  do m <- mono_init [p; q];
  Ok (mksmono m e).
Definition v2_circuit : res (list smono) :=
  do a <- s_term "X" "I" true (1, 0, 0);
  do b <- s_term "I" "X" false (0, 1, 0);
  do c <- s_term "Z" "Z" true (0, 0, 1);
  Ok [a; b; c].

(** One iteration of the loop of lines 952-966. [b] is the dictionary bch_terms
    by position, [ordS] the order in which Python iterates over a set of
    monomials. Line 963 also drops commutators whose number is close to zero;
    the numbers that occur are 0, 1 and -1. *)
Definition bch_step (ord : list nat -> list nat) (ordS : list smono -> list smono) (circuit : list smono)
    (b : list (list smono)) (i : nat) : res (list (list smono)) :=
  do ci <- list_get circuit i;
  do cj <- list_get circuit (i + 1);
  do bi <- list_get b i;
  do bj <- list_get b (i + 1);
  let bi := s_add ci bi in
  let bj := s_add cj bj in
  do new <- foldM (fun new ti =>
      foldM (fun new tj => do c <- s_comm ord ti tj;
                           Ok (if geqb (m_coeff (sm_mono c)) g0 then new else s_add c new))
            (ordS bj) (s_add ti new))
    (ordS bi) [];
  do b <- list_set b i bi;
  list_set b (i + 1) (fold_left (fun s t => s_add t s) (ordS new) bj).

(** nqubits, eta, lastates[0..2].full_paulis, observables_full, the pairs of
    lie_algebra_vector and lie_algebra_polynomial, params *)
Record v2_layer := mkv2 {
  v2_n : nat; v2_eta : R; v2_su2 : list (key * arr C); v2_su4 : list (key * arr C); v2_su8 : list (key * arr C);
  v2_obs : list (arr C); v2_terms : list (key * (gq * (nat * nat * nat))); v2_params : R * R * R }.

(** lines 897-976; the assertions on the types of the keyword arguments always
    hold here *)
Definition ZassenhausLayerV2 (ord : list nat -> list nat) (ordS : list smono -> list smono)
    (n : nat) (observables : list (qop C)) (eta : R) (add_su2 add_su4 : bool) : res v2_layer :=
  do _ <- mapM (full n) observables;
  do _ <- py_assert (Rleb 0 eta && Rleb eta 1);
  do a2 <- AlgebraSU2 (K := C) n;
  do a4 <- AlgebraSU4 (K := C) n add_su2;
  do a8 <- AlgebraSU8 (K := C) n add_su2 add_su4;
  do obs <- mapM (full n) observables;
  do b2 <- get_all_directions_and_qubits a2;
  do b4 <- get_all_directions_and_qubits a4;
  do b8 <- get_all_directions_and_qubits8 a8;
  do circuit <- v2_circuit;
  do bch <- foldM (bch_step ord ordS circuit) (seq 0 (List.length circuit - 1)) (repeat [] (List.length circuit));
  do last <- list_get bch 2;
  do terms <- mapM (fun t => do k <- mono_to_oranssi (sm_mono t); Ok (k, (m_coeff (sm_mono t), sm_exps t))) (ordS last);
  Ok (mkv2 n eta (al_full (al_core b2)) (al_full (al_core b4)) (al_full (al8_core b8)) obs terms
        (/ 10, 12 / 10, 6 / 10)%R).

(** the imaginary part of a coefficient at given values of the symbols *)
Definition term_imag (t : gq * (nat * nat * nat)) (x : R * R * R) : R :=
  let '(a, b, c) := snd t in let '(x0, x1, z) := x in
  (Q2R (this (gim (fst t))) * (x0 ^ a * x1 ^ b * z ^ c))%R.

(** qml.CNOT *)
Definition cnot_matrix : arr C :=
  mkarr 4 4 (fun i j => if Nat.eqb (nth i [0; 1; 3; 2] 4) j then RtoC 1 else RtoC 0).

(** lines 1001-1009 *)
Definition v2_gates (x : R * R * R) : list (qop C) :=
  let '(x0, x1, z) := x in
  [gate_qop (AH 0); gate_qop (AH 1); gate_qop (ARot x0 "X" [0]); gate_qop (ARot x1 "X" [1]);
   mkqop cnot_matrix [0; 1]; gate_qop (ARot z "Z" [1]); mkqop cnot_matrix [0; 1]].

(** __call__, lines 977-1018. [minimize] is scipy's minimize with its fixed
    starting point, an arbitrary function of the cost function. *)
Definition v2_call (minimize : (R * R * R -> R) -> R * R * R) (l : v2_layer) (U : mat C) : res (mat C * v2_layer) :=
  let n := v2_n l in
  let phi := qnode_state U in
  do omegas <- mapM (fun kt =>
      let len := String.length (fst (fst kt)) in
      do P <- dget key_eqb (if Nat.eqb len 1 then v2_su2 l else if Nat.eqb len 2 then v2_su4 l else v2_su8 l) (fst kt);
      Ok (gradient n phi (v2_obs l) (a_ent P))) (v2_terms l);
  let cost := fun x =>
    (fold_left Rplus (map (fun to => (term_imag (snd (fst to)) x - v2_eta l * snd to) ^ 2) (combine (v2_terms l) omegas)) 0
     / INR (List.length (v2_terms l)))%R in
  let x := minimize cost in
  do V <- circuit_unitary n (v2_gates x);
  let '(p0, p1, p2) := v2_params l in let '(x0, x1, x2) := x in
  Ok (a_ent V, mkv2 n (v2_eta l) (v2_su2 l) (v2_su4 l) (v2_su8 l) (v2_obs l) (v2_terms l) (p0 + x0, p1 + x1, p2 + x2)%R).
