(** Model of SquaredLieAlgebraLayer.__call__ with commute=True, oranssi/opt_tools.py
    lines 424-463. *)
From Coq Require Import ZArith Arith Lia Bool String Reals.
From Coquelicot Require Import Coquelicot.
From Verif Require Import Py StarRing Matrix Cplx Expm UtilsModel CircuitModel AlgebraModel LayerModel GreedyModel AdaptModel EdgeModel OptimizerModel.
From Coq Require Import List.
Import ListNotations.
Local Open Scope nat_scope.

(** max(omegas.values()) *)
Definition max_value (l : list (key * R)) : res R :=
  match l with [] => Err ValueError | (_, v) :: r => Ok (fold_left (fun m kv => Rmax m (snd kv)) r v) end.

(** lines 440-443: the keys whose value is close to the maximum, their first
    direction and its tuples of qubits *)
Definition tied_edges (omegas : list (key * R)) : res (string * list (list nat)) :=
  do m <- max_value omegas;
  let max_omegas := filter (fun kv => isclose (Fin (/ 1000)) (snd kv) m) omegas in
  do first <- list_get max_omegas 0;
  let direction := fst (fst first) in
  Ok (direction, map (fun kv => snd (fst kv)) (filter (fun kv => String.eqb (fst (fst kv)) direction) max_omegas)).

(** get_commuting_set on tuples of one or two qubits (the keys of AlgebraSU4); for
    tuples of one qubit the test of circuit_tools.py line 185 succeeds, because
    the keys are distinct. [k] is the position of the random stream. *)
Definition commuting (fa fh fk : nat) (rnd : nat -> nat) (k : nat) (es : list (list nat)) : res (list (list nat)) :=
  if forallb (fun e => Nat.eqb (List.length e) 2) es then
    do r <- get_commuting_set fa fh fk rnd k (map (fun e => (nth 0 e 0, nth 1 e 0)) es);
    Ok (map (fun e => [fst e; snd e]) (fst r))
  else Ok es.

(** the circuit circuit_lie, lines 445-448 *)
Definition circuit_lie (n : nat) (U : mat C) (direction : string) (edges : list (list nat)) (params : list R) : res (list (qop C)) :=
  do gs <- mapM (fun ie => do t <- list_get params (fst ie); Ok (gate_qop (ARot t direction (snd ie)))) (combine (seq 0 (List.length edges)) edges);
  Ok (mkqop (mkarr (2 ^ n) (2 ^ n) U) (seq 0 n) :: gs).

(** lines 455-463. [optimizer] is the keyword argument of that name (None when it
    is not given), reduced to the list params_per_step it returns for a circuit
    and initial parameters. *)
Definition commute_call (fa fh fk : nat) (rnd : nat -> nat) (k : nat)
    (optimizer : option ((list R -> res (list (qop C))) -> list R -> res (list (list R)))) (l : greedy_layer) (U : mat C)
    : res (mat C * list (key * R)) :=
  let n := gr_n l in
  let omegas := abs_gradients n (qnode_state U) (gr_obs l) (filter (fun kv => negb (is_prev (gr_prev l) (fst kv))) (gr_table l)) in
  do de <- tied_edges omegas;
  let '(direction, es) := de in
  do edges <- commuting fa fh fk rnd k es;
  do opt <- match optimizer with None => Err TypeError | Some f => Ok f end;
  do h <- opt (circuit_lie n U direction edges) (repeat (/ 10)%R (List.length edges));
  do ps <- match rev h with [] => Err IndexError | p :: _ => Ok p end;
  do r <- foldM (fun V ie =>
      do t <- list_get ps (fst ie);
      do P <- dget key_eqb (gr_table l) (direction, snd ie);
      Ok (mmul (2 ^ n) (expm (2 ^ n) (mscale (mit (t / 2)) (a_ent P))) V)) (combine (seq 0 (List.length edges)) edges) U;
  do used <- mapM (fun ie => do t <- list_get ps (fst ie); Ok ((direction, snd ie), t)) (combine (seq 0 (List.length edges)) edges);
  Ok (r, used).
