(** Model of AdaptVQELayer, oranssi/opt_tools.py lines 484-602. *)
From Coq Require Import ZArith Arith Lia Bool String Ascii Reals.
From Coquelicot Require Import Coquelicot.
From Verif Require Import Py StarRing Matrix Cplx PauliSpec Bits PauliBasis Expm UtilsModel CircuitModel AlgebraModel LayerModel GreedyModel.
From Coq Require Import List.
Import ListNotations.
Local Open Scope nat_scope.

(** the second component of the keys of layer_omegas *)
Inductive brick := Single | Even | Odd.

(** range(a, b, 2) *)
Definition range2 (a b : nat) : list nat := map (fun k => a + 2 * k) (seq 0 ((b - a + 1) / 2)).

(** sum([...]) of values that may be missing *)
Definition sum_get (d : list (key * R)) (ks : list key) : res R :=
  do vs <- mapM (dget key_eqb d) ks; Ok (fold_left Rplus vs 0%R).

(** lines 541-551: the entries of layer_omegas of one direction *)
Definition direction_omegas (n : nat) (omegas : list (key * R)) (direction : string) : res (list ((string * brick) * R)) :=
  if Nat.eqb (String.length direction) 1 then
    do s <- sum_get omegas (map (fun i => (direction, [i])) (seq 0 n));
    Ok [((direction, Single), s)]
  else
    do e <- sum_get omegas (map (fun i => (direction, [i; i + 1])) (range2 0 (n - 1)));
    do o <- sum_get omegas (map (fun i => (direction, [i; i + 1])) (range2 1 (n - 1)));
    do w <- dget key_eqb omegas (direction, [0; n - 1]);
    Ok [((direction, Even), e); ((direction, Odd), (o + w)%R)].

(** The attributes nqubits, lastate.directions, lastate.full_paulis,
    observables_full, previous_direction ([None] for the initial ('Null', 0),
    which is no direction) and layers. *)
Record adapt_layer := mkadapt {
  ad_n : nat; ad_dirs : list string; ad_table : list (key * arr C); ad_obs : list (arr C);
  ad_prev : option string; ad_layers : list (string * brick) }.

(** lines 485-527 *)
Definition AdaptVQELayer (n : nat) (observables : list (qop C)) (eta : R) : res adapt_layer :=
  do _ <- mapM (full n) observables;
  do _ <- py_assert (Rleb 0 eta && Rleb eta 1);
  do a0 <- AlgebraSU4 (K := C) n true;
  do obs <- mapM (full n) observables;
  do a <- get_all_directions_and_qubits a0;
  Ok (mkadapt n (al_directions (al_core a)) (al_full (al_core a)) obs None []).

(** The operations of circuit_vqe: qml.Hadamard(wires=w), and
    qml.PauliRot(theta, word, wires) together with its one-letter cases
    qml.RX, qml.RY, qml.RZ *)
Inductive agate := AH (w : nat) | ARot (theta : R) (word : string) (wires : list nat).

(** l[i] and l[-1] on rows of parameters *)
Definition row_last (r : list R) : res R := match rev r with [] => Err IndexError | x :: _ => Ok x end.

(** lines 558-575: the operations of layer j, read from the row params[j] *)
Definition layer_gates (n : nat) (layer : string * brick) (row : list R) : res (list agate) :=
  let d := fst layer in
  if Nat.eqb (String.length d) 1 then
    mapM (fun i => do t <- list_get row i; Ok (ARot t d [i])) (seq 0 n)
  else
    match snd layer with
    | Even => mapM (fun ki => do t <- list_get row (fst ki); Ok (ARot t d [snd ki; snd ki + 1]))
                (combine (seq 0 (List.length (range2 0 (n - 1)))) (range2 0 (n - 1)))
    | _ =>
        do gs <- mapM (fun ki => do t <- list_get row (fst ki); Ok (ARot t d [snd ki; snd ki + 1]))
                   (combine (seq 0 (List.length (range2 1 (n - 1)))) (range2 1 (n - 1)));
        do t <- row_last row;
        Ok (gs ++ [ARot t d [0; n - 1]])
    end.

(** circuit_vqe. Parameters are a list of rows. params[j] is looked up once per
    gate in the code; for n = 0 it is not looked up at all, which is not
    distinguished here. *)
Definition circuit_vqe (n : nat) (layers : list (string * brick)) (params : list (list R)) : res (list agate) :=
  do gs <- mapM (fun jl => do row <- list_get params (fst jl); layer_gates n (snd jl) row)
             (combine (seq 0 (List.length layers)) layers);
  Ok (map AH (seq 0 n) ++ List.concat gs).

(** the letters of a word as indices *)
Definition letter_index (c : Ascii.ascii) : nat :=
  if Ascii.eqb c "X"%char then 1 else if Ascii.eqb c "Y"%char then 2 else if Ascii.eqb c "Z"%char then 3 else 0.
Fixpoint word_of (s : string) : list nat :=
  match s with EmptyString => [] | Coq.Strings.String.String c r => letter_index c :: word_of r end.

Definition hadamard_matrix : arr C :=
  mkarr 2 2 (fun i j => RtoC (if Nat.eqb i 1 && Nat.eqb j 1 then (- / sqrt 2)%R else (/ sqrt 2)%R)).

(** the matrix and the wires of an operation; PauliRot(theta, P) is
    exp(-i theta/2 P) *)
Definition gate_qop (g : agate) : qop C :=
  match g with
  | AH w => mkqop hadamard_matrix [w]
  | ARot t s ws =>
      let k := 2 ^ List.length (word_of s) in
      mkqop (mkarr k k (expm k (mscale (mit (t / 2)) (pword (word_of s))))) ws
  end.

(** params_ext[-1] *)
Definition last_params (h : list (list (list R))) : res (list (list R)) :=
  match rev h with [] => Err IndexError | p :: _ => Ok p end.

(** __call__, lines 529-590. [opt] is the keyword argument optimizer reduced to
    what is used: it gets the circuit function and the parameters and returns the
    list params_per_step. The caller's params list is extended in place, which
    only matters to a caller that keeps using it. When an exception is raised
    after line 553 the layer keeps the appended entry; the model has no state
    after an exception. *)
Definition adapt_call (opt : (list (list R) -> res (list agate)) -> list (list R) -> res (list (list (list R))))
    (l : adapt_layer) (U : mat C) (params : list (list R)) : res (mat C * list (list R) * adapt_layer) :=
  let n := ad_n l in
  let omegas := abs_gradients n (qnode_state U) (ad_obs l) (ad_table l) in
  do los <- mapM (direction_omegas n omegas)
              (filter (fun d => match ad_prev l with Some p => negb (String.eqb d p) | None => true end) (ad_dirs l));
  do k_max <- py_max_key (List.concat los);
  let layers := ad_layers l ++ [k_max] in
  let params_ext := params ++ [repeat (/ 10)%R n] in
  do h <- opt (circuit_vqe n layers) params_ext;
  do p <- last_params h;
  do gs <- circuit_vqe n layers p;
  do V <- circuit_unitary n (map gate_qop gs);
  Ok (a_ent V, p, mkadapt n (ad_dirs l) (ad_table l) (ad_obs l) (Some (fst k_max)) layers).
