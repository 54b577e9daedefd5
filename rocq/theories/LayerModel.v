(** Model of LieLayer, LocalLieAlgebraLayer, CustomDirectionLieAlgebraLayer and
    StochasticLieAlgebraLayer of oranssi/opt_tools.py (lines 19-375).
    Simplifications throughout: exact complex numbers instead of floats; the
    keyword arguments have the documented types (a float, booleans), so the
    isinstance assertions hold; printing is left out; the scratch attribute
    self.op is not kept, since every call fills it before reading it. *)
From Coq Require Import Arith Lia Bool String Reals List.
From Coquelicot Require Import Coquelicot.
From Verif Require Import Py StarRing Matrix Cplx Expm UtilsModel CircuitModel AlgebraModel.
From Coq Require Import List.
Import ListNotations.
Local Open Scope nat_scope.

(** a for loop over a list whose body updates a value and may raise *)
Fixpoint foldM {A B} (f : B -> A -> res B) (l : list A) (b : B) : res B :=
  match l with [] => Ok b | a :: r => do b' <- f b a; foldM f r b' end.

Definition Rleb (x y : R) : bool := if Rle_dec x y then true else false.

(** numpy.linalg.svd of a d x d matrix: P, the singular values, Q. It is an
    argument of everything below. *)
Definition svd_fun := nat -> mat C -> mat C * (nat -> R) * mat C.

(** _is_unitary, lines 41-60: the largest entry of U U^* - 1 is at most 1e-8 *)
Definition is_unitary (d : nat) (U : mat C) : bool :=
  forallb (fun i => forallb (fun j => Rleb (Cmod (msub (mmul d U (madj U)) mid i j)) (/ 10 ^ 8)) (seq 0 d)) (seq 0 d).

(** _project_onto_unitary, lines 62-73 *)
Definition project_onto_unitary (svd : svd_fun) (d : nat) (U : mat C) : mat C :=
  match svd d U with (P, _, Q) => mmul d P Q end.

(** lines 191-192, 201-202, 282-283, 294-295 and 354-355 *)
Definition checked_step (svd : svd_fun) (check : bool) (d : nat) (M : mat C) : mat C :=
  if check && is_unitary d M then project_onto_unitary svd d M else M.

(** phi.conj().T @ (pauli @ obs - obs @ pauli) @ phi *)
Definition omega (d : nat) (phi : nat -> C) (P O : mat C) : C :=
  quad d phi (msub (mmul d P O) (mmul d O P)).

(** the exponential ssla.expm(- eta / 2 ** nqubits * op) followed by the check *)
Definition riemann (svd : svd_fun) (check : bool) (n : nat) (eta : R) (op : mat C) : mat C :=
  checked_step svd check (2 ^ n) (expm (2 ^ n) (mscale (RtoC (- eta / 2 ^ n)) op)).

(** The body of the loop over the groups of Paulis, lines 182-204, and (with the
    one group of all Paulis) lines 274-296. For an empty group without
    trotterization sum() is the integer 0 and expm of a scalar is not a
    2^n x 2^n matrix: depending on the scipy version expm itself or the product
    with circuit_unitary raises; recorded here as ValueError. *)
Definition group_step (svd : svd_fun) (check trot : bool) (n : nat) (eta : R) (phi : nat -> C)
    (O : mat C) (group : list (arr C)) (U : mat C) : res (mat C) :=
  if trot then
    Ok (fold_left (fun u P => mmul (2 ^ n) (riemann svd check n eta (mscale (omega (2 ^ n) phi (a_ent P) O) (a_ent P))) u) group U)
  else
    match group with
    | [] => Err ValueError
    | _ =>
        let op := fold_left (fun s P => madd s (mscale (omega (2 ^ n) phi (a_ent P) O) (a_ent P))) group mzero in
        Ok (mmul (2 ^ n) (riemann svd check n eta op) U)
    end.

(** ** LocalLieAlgebraLayer, lines 102-210 *)
Record local_layer := mklocal {
  lc_n : nat; lc_locality : nat; lc_stride : nat; lc_eta : R; lc_check : bool; lc_trotterize : bool;
  lc_directions : list string; lc_observables : list (arr C); lc_full_paulis : list (list (arr C)) }.

(** d in directions *)
Definition str_in (d : string) (l : list string) : bool := existsb (String.eqb d) l.

(** the pairs (pauli, d) kept by the loop of lines 151-156 *)
Definition keep_directions (paulis : list (arr C)) (names ds : list string) : list (arr C * string) :=
  filter (fun pd => str_in (snd pd) ds) (combine paulis names).

(** lines 103-175; lines 37-38 of the base class compute the same observables first *)
Definition LocalLieAlgebraLayer (n : nat) (observables : list (qop C)) (locality : nat)
    (eta : R) (stride : nat) (directions : option (list string)) (check trot : bool) : res local_layer :=
  do _ <- mapM (full n) observables;
  do _ <- py_assert (Rleb 0 eta && Rleb eta 1);
  do _ <- py_assert (Nat.eqb locality 1 || Nat.eqb locality 2);
  do pds <- (if Nat.eqb locality 2 then
               do _ <- py_assert (Nat.even n);
               do r <- get_su_4_operators false true;
               do ns <- su_names r;
               do _ <- py_assert (Nat.eqb stride 0 || Nat.eqb stride 1);
               Ok (fst r, ns, stride)
             else
               do ns <- su_names (get_su_2_operators (K := C) false true);
               Ok (fst (get_su_2_operators (K := C) false true), ns, 0));
  let '(paulis, names, stride') := pds in
  do pd <- (match directions with
            | None => Ok (paulis, names)
            | Some ds =>
                do _ <- py_assert (forallb (fun d => str_in d names) ds);
                let kept := keep_directions paulis names ds in
                Ok (map fst kept, map snd kept)
            end);
  let '(paulis, names) := pd in
  do obs <- mapM (full n) observables;
  do groups <- mapM (fun q => mapM (fun p => get_full_operator p q n) paulis)
                 (if Nat.eqb locality 1 then map (fun i => [i]) (seq 0 n) else combinations (seq 0 n) 2);
  Ok (mklocal n locality stride' eta check trot names obs groups).

(** set_eta, lines 81-89 *)
Definition local_set_eta (l : local_layer) (eta : R) : local_layer :=
  mklocal (lc_n l) (lc_locality l) (lc_stride l) eta (lc_check l) (lc_trotterize l) (lc_directions l)
    (lc_observables l) (lc_full_paulis l).

(** __call__, lines 177-206 *)
Definition local_call (svd : svd_fun) (l : local_layer) (U : mat C) : res (mat C) :=
  let phi := qnode_state U in
  foldM (fun u obs => foldM (fun v g => group_step svd (lc_check l) (lc_trotterize l) (lc_n l) (lc_eta l) phi (a_ent obs) g v)
                        (lc_full_paulis l) u) (lc_observables l) U.

(** ** CustomDirectionLieAlgebraLayer, lines 213-304 *)

(** A value of the dictionary full_paulis: without a directions argument
    self.paulis is the dictionary itself and zip iterates over its keys
    (lines 242 and 257), so the values are keys. *)
Inductive pyobj := OMat (F : arr C) | OKey (k : key).
(** its use as an operand of @ with an array: a tuple becomes an array of
    strings, for which matmul has no loop *)
Definition as_array (o : pyobj) : res (arr C) :=
  match o with OMat F => Ok F | OKey _ => Err TypeError end.

Record custom_layer := mkcustom {
  cu_n : nat; cu_eta : R; cu_check : bool; cu_trotterize : bool; cu_directions : list key;
  cu_full_paulis : list (key * pyobj); cu_observables : list (arr C) }.

(** lines 214-269 *)
Definition CustomDirectionLieAlgebraLayer (n : nat) (observables : list (qop C)) (directions : option (list string))
    (eta : R) (check trot : bool) : res custom_layer :=
  do _ <- mapM (full n) observables;
  do _ <- py_assert (Rleb 0 eta && Rleb eta 1);
  do a0 <- AlgebraSU4 (K := C) n true;
  do a <- get_all_directions_and_qubits a0;
  let items := al_full (al_core a) in
  do dp <- (match directions with
            | None => Ok (map fst items, map (fun kv => OKey (fst kv)) items)
            | Some ds =>
                do _ <- py_assert (forallb (fun d => str_in d (al_directions (al_core a))) ds);
                let kept := filter (fun kv => str_in (fst (fst kv)) ds) items in
                Ok (map fst kept, map (fun kv => OMat (snd kv)) kept)
            end);
  let '(ds, paulis) := dp in
  do obs <- mapM (full n) observables;
  Ok (mkcustom n eta check trot ds (dzip key_eqb ds paulis) obs).

Definition custom_set_eta (l : custom_layer) (eta : R) : custom_layer :=
  mkcustom (cu_n l) eta (cu_check l) (cu_trotterize l) (cu_directions l) (cu_full_paulis l) (cu_observables l).

(** __call__, lines 271-297. When a value is not an array the call raises
    TypeError; nothing done before that is visible afterwards. *)
Definition custom_call (svd : svd_fun) (l : custom_layer) (U : mat C) : res (mat C) :=
  let phi := qnode_state U in
  foldM (fun u obs =>
      do ps <- mapM as_array (map snd (cu_full_paulis l));
      group_step svd (cu_check l) (cu_trotterize l) (cu_n l) (cu_eta l) phi (a_ent obs) ps u)
    (cu_observables l) U.

(** ** StochasticLieAlgebraLayer, lines 307-375 *)
Record stochastic_layer := mkstoch {
  st_n : nat; st_eta : R; st_check : bool; st_alg : alg C; st_observables : list (arr C) }.

(** lines 308-348 *)
Definition StochasticLieAlgebraLayer (n : nat) (observables : list (qop C)) (eta : R) (check : bool) : res stochastic_layer :=
  do _ <- mapM (full n) observables;
  do _ <- py_assert (Rleb 0 eta && Rleb eta 1);
  do a <- AlgebraSU4 (K := C) n true;
  do obs <- mapM (full n) observables;
  Ok (mkstoch n eta check a obs).

(** __call__, lines 350-366 *)
Definition stochastic_call (svd : svd_fun) (l : stochastic_layer) (U : mat C) : res (mat C) :=
  let phi := qnode_state U in
  do r <- get_random_direction_and_qubits (st_alg l);
  let '(direction, qubits, a) := r in
  foldM (fun u obs =>
      do P <- dget key_eqb (al_full (al_core a)) (direction, qubits);
      Ok (mmul (2 ^ st_n l)
            (riemann svd (st_check l) (st_n l) (st_eta l) (mscale (omega (2 ^ st_n l) phi (a_ent P) (a_ent obs)) (a_ent P))) u))
    (st_observables l) U.

(** ** get_lie_algebra_directions, lines 91-100, on the attribute observables:
    PennyLane observables or, in the three classes above, arrays *)
Inductive pyobs := ObsQ (o : qop C) | ObsArr (F : arr C).
(** get_full_operator(obs.matrix, obs.wires, n): an array has no attribute matrix *)
Definition as_qop (o : pyobs) : res (qop C) :=
  match o with ObsQ q => Ok q | ObsArr _ => Err AttributeError end.
Definition get_lie_algebra_directions (n : nat) (observables : list pyobs) (U : mat C) : res (list (string * R)) :=
  do _ <- mapM (fun o => do q <- as_qop o; full n q) observables;
  do qs <- mapM as_qop observables;
  get_all_su_n_directions n U qs.
