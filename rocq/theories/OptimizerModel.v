(** Model of oranssi/optimizers.py lines 1-389: parameter_shift_optimizer,
    exact_lie_optimizer and approximate_lie_optimizer. The code of lines 390-1322
    is commented out. The three functions are written over arbitrary operations
    (the quantum circuits and layers); FlowModel.v, ShiftModel.v and ApproxModel.v
    supply them.
    Simplifications: exact reals instead of floats in the costs, printing is left
    out, np.copy and np.array do not change the values they are given. *)
From Coq Require Import ZArith Arith Lia Bool String Reals.
From Coquelicot Require Import Coquelicot.
From Verif Require Import Py UtilsModel CircuitModel LayerModel.
From Coq Require Import List.
Import ListNotations.
Local Open Scope nat_scope.

(** ** Python values of keyword arguments *)

(** a float (np.float64 is a subclass of float) *)
Inductive flt := Fin (x : R) | PInf | NInf | NaN.
(** [PyOther] stands for any value that is none of the others and cannot be
    compared with a number; the boolean is its truth value *)
Inductive pyv := PyInt (z : Z) | PyBool (b : bool) | PyFloat (x : flt) | PyNone | PyStr (s : string) | PyOther (truth : bool).

Definition kwargs := list (string * pyv).
(** kwargs.get(name, default) *)
Fixpoint kw_get (kw : kwargs) (name : string) (default : pyv) : pyv :=
  match kw with [] => default | (k, v) :: r => if String.eqb k name then v else kw_get r name default end.

(** x <= y *)
Definition fle (x y : flt) : bool :=
  match x, y with
  | NaN, _ | _, NaN => false
  | NInf, _ | _, PInf => true
  | Fin a, Fin b => Rleb a b
  | _, _ => false
  end.
(** a bool is an int *)
Definition number (v : pyv) : option flt :=
  match v with
  | PyInt z => Some (Fin (IZR z))
  | PyBool b => Some (Fin (if b then 1 else 0))
  | PyFloat x => Some x
  | _ => None
  end.
(** lo <= v <= hi: a comparison with a value that is not a number raises TypeError *)
Definition between (lo : flt) (v : pyv) (hi : flt) : res bool :=
  match number v with
  | Some x => Ok (fle lo x && fle x hi)
  | None => Err TypeError
  end.
Definition is_int (v : pyv) : bool := match v with PyInt _ | PyBool _ => true | _ => false end.
Definition is_float (v : pyv) : bool := match v with PyFloat _ => true | _ => false end.
Definition is_bool (v : pyv) : bool := match v with PyBool _ => true | _ => false end.
Definition truthy (v : pyv) : bool :=
  match v with
  | PyInt z => negb (Z.eqb z 0)
  | PyBool b => b
  | PyFloat (Fin x) => if Req_EM_T x 0 then false else true
  | PyFloat _ => true
  | PyNone => false
  | PyStr s => negb (String.eqb s "")
  | PyOther b => b
  end.

(** assert isinstance(v, T) & (lo <= v <= hi): both operands of & are evaluated *)
Definition check (inst : bool) (lo : flt) (v : pyv) (hi : flt) : res unit :=
  do c <- between lo v hi; py_assert (inst && c).

(** range(v) *)
Definition steps_of (v : pyv) : nat := match v with PyInt z => Z.to_nat z | PyBool true => 1 | _ => 0 end.
Definition real_of (v : pyv) : R := match v with PyFloat (Fin x) => x | _ => 0%R end.
Definition flt_of (v : pyv) : flt := match v with PyFloat x => x | _ => NaN end.

(** np.isclose(a, b, atol=tol) for finite a and b *)
Definition isclose (tol : flt) (a b : R) : bool :=
  match tol with
  | Fin t => Rleb (Rabs (a - b)) (t + / 100000 * Rabs b)
  | PInf => true
  | _ => false
  end.

(** l[-k] *)
Definition from_end {A} (l : list A) (k : nat) : res A := list_get (rev l) (k - 1).

(** for step in range(i, i + k): the body returns the new variables and whether
    it left the loop *)
Fixpoint for_range {V} (body : nat -> V -> res (V * bool)) (i k : nat) (v : V) : res V :=
  match k with
  | O => Ok v
  | S k' => do r <- body i v; if snd r then Ok (fst r) else for_range body (S i) k' (fst r)
  end.

(** what the circuit function returns: a measurement of the state, another
    measurement with a return_type, or something without return_type *)
Inductive circ_ret := RetState | RetMeasurement | RetPlain.

(** The entries of the returned tuples *)
Inductive item (St P Om U Z : Type) :=
| ItCosts (l : list R) | ItStates (l : list St) | ItParams (l : list P) | ItOmegas (l : list Om)
| ItUnitaries (l : list U) | ItUnitary (u : U) | ItGates | ItPerturbations (l : list nat) | ItZassenhaus (l : list Z).
Arguments ItCosts {St P Om U Z} l. Arguments ItStates {St P Om U Z} l. Arguments ItParams {St P Om U Z} l.
Arguments ItOmegas {St P Om U Z} l. Arguments ItUnitaries {St P Om U Z} l. Arguments ItUnitary {St P Om U Z} u.
Arguments ItGates {St P Om U Z}. Arguments ItPerturbations {St P Om U Z} l. Arguments ItZassenhaus {St P Om U Z} l.
Inductive retval (I : Type) := RList (costs : list R) | RTuple (l : list I).
Arguments RList {I} costs. Arguments RTuple {I} l.

(** tuple(returnable for r, returnable in enumerate(returnables) if boolean_returnables[r]) *)
Definition select {I} (returnables : list I) (flags : list bool) : list I :=
  map fst (filter (fun rf => snd rf) (combine returnables flags)).
(** sum of booleans *)
Definition count_true (l : list bool) : nat := List.length (filter (fun b => b) l).

(** ** parameter_shift_optimizer, lines 13-97 *)
Record ps_args := mkps { ps_nsteps : nat; ps_eta : R; ps_tol : flt; ps_state : bool; ps_params : pyv }.

(** lines 34-53; line 52 checks return_state again instead of return_params *)
Definition ps_validate (ret : circ_ret) (kw : kwargs) : res ps_args :=
  do _ <- (match ret with RetPlain => Ok tt | _ => Err AttributeError end);
  let nsteps := kw_get kw "nsteps" (PyInt 40) in
  do _ <- check (is_int nsteps) (Fin 1) nsteps PInf;
  let eta := kw_get kw "eta" (PyFloat (Fin (/ 10))) in
  do _ <- check (is_float eta) (Fin 0) eta (Fin 1);
  let tol := kw_get kw "tol" (PyFloat (Fin (/ 1000))) in
  do _ <- check (is_float tol) (Fin 0) tol PInf;
  let return_state := kw_get kw "return_state" (PyBool false) in
  do _ <- py_assert (is_bool return_state);
  let return_params := kw_get kw "return_params" (PyBool false) in
  do _ <- py_assert (is_bool return_state);
  Ok (mkps (steps_of nsteps) (real_of eta) (flt_of tol) (truthy return_state) return_params).

(** sum([b, v]) < 1 *)
Definition sum_below_one (b : bool) (v : pyv) : res bool :=
  match number v with
  | None => Err TypeError
  | Some NaN => Ok false
  | Some PInf => Ok false
  | Some NInf => Ok true
  | Some (Fin x) => Ok (if Rlt_dec ((if b then 1 else 0) + x) 1 then true else false)
  end.

Section ParameterShift.
Context {St P : Type}.
(** opt.step_and_cost(cost_fn, params)[0] for the gradient descent with stepsize
    eta, cost_fn and circuit_state *)
Variables (descend : R -> P -> res P) (cost : P -> res R) (state : P -> res St).

Record ps_vars := mkpsv { pv_params : P; pv_costs : list R; pv_states : list St; pv_pps : list P }.

(** lines 80-89 *)
Definition ps_body (a : ps_args) (step : nat) (v : ps_vars) : res (ps_vars * bool) :=
  do p <- descend (ps_eta a) (pv_params v);
  do c <- cost p;
  let costs := pv_costs v ++ [c] in
  do states <- (if ps_state a then do s <- state p; Ok (pv_states v ++ [s]) else Ok (pv_states v));
  let pps := if truthy (ps_params a) then pv_pps v ++ [p] else pv_pps v in
  let v' := mkpsv p costs states pps in
  if 2 <? step then
    do c1 <- from_end costs 1;
    do c2 <- from_end costs 2;
    Ok (v', isclose (ps_tol a) c1 c2)
  else Ok (v', false).

(** lines 66-97 *)
Definition ps_run {Om U Z} (a : ps_args) (params : P) : res (retval (item St P Om U Z)) :=
  do states <- (if ps_state a then do s <- state params; Ok [s] else Ok []);
  let pps := if truthy (ps_params a) then [params] else [] in
  do c <- cost params;
  do v <- for_range (ps_body a) 0 (ps_nsteps a) (mkpsv params [c] states pps);
  do small <- sum_below_one (ps_state a) (ps_params a);
  if small then Ok (RList (pv_costs v))
  else Ok (RTuple (select [ItCosts (pv_costs v); ItStates (pv_states v); ItParams (pv_pps v)]
                          [true; ps_state a; truthy (ps_params a)])).

Definition parameter_shift_optimizer {Om U Z} (ret : circ_ret) (params : P) (kw : kwargs) : res (retval (item St P Om U Z)) :=
  do a <- ps_validate ret kw; ps_run a params.
End ParameterShift.

(** ** exact_lie_optimizer, lines 100-226 *)
Record ex_args := mkex { ex_nsteps : nat; ex_eta : R; ex_tol : flt; ex_state : bool; ex_perturbation : bool; ex_perturbations : bool; ex_unitary : bool }.

(** lines 121-152 *)
Definition ex_validate (ret : circ_ret) (kw : kwargs) : res ex_args :=
  do _ <- (match ret with RetState => Ok tt | _ => Err AssertionError end);
  let nsteps := kw_get kw "nsteps" (PyInt 40) in
  do _ <- check (is_int nsteps) (Fin 1) nsteps PInf;
  let eta := kw_get kw "eta" (PyFloat (Fin (/ 10))) in
  do _ <- check (is_float eta) (Fin 0) eta (Fin 1);
  let tol := kw_get kw "tol" (PyFloat (Fin (/ 1000))) in
  do _ <- check (is_float tol) (Fin 0) tol PInf;
  let return_state := kw_get kw "return_state" (PyBool false) in
  do _ <- check (is_bool return_state) (Fin 0) tol PInf;
  let perturbation := kw_get kw "perturbation" (PyBool false) in
  do _ <- py_assert (is_bool perturbation);
  let return_perturbations := kw_get kw "return_perturbations" (PyBool false) in
  do _ <- (if truthy return_perturbations then py_assert (truthy perturbation) else Ok tt);
  do _ <- py_assert (is_bool return_perturbations);
  let return_unitary := kw_get kw "return_unitary" (PyBool false) in
  do _ <- py_assert (is_bool return_unitary);
  Ok (mkex (steps_of nsteps) (real_of eta) (flt_of tol) (truthy return_state) (truthy perturbation)
           (truthy return_perturbations) (truthy return_unitary)).

Section Exact.
Context {St U : Type}.
(** the loop over the observables of lines 181-193 with stepsize eta, the cost of
    lines 197-200, the state, and the update of lines 206-213 with the random
    matrix drawn in this step *)
Variables (flow : R -> U -> res U) (cost : U -> res R) (state : U -> res St) (perturb : R -> nat -> U -> U).

Record ex_vars := mkexv { ev_u : U; ev_costs : list R; ev_states : list St; ev_perturbations : list nat }.

(** lines 180-218 *)
Definition ex_body (a : ex_args) (step : nat) (v : ex_vars) : res (ex_vars * bool) :=
  do u <- flow (ex_eta a) (ev_u v);
  do states <- (if ex_state a then do s <- state u; Ok (ev_states v ++ [s]) else Ok (ev_states v));
  do c <- cost u;
  let costs := ev_costs v ++ [c] in
  if 3 <? step then
    do c1 <- from_end costs 1;
    do c2 <- from_end costs 2;
    if isclose (ex_tol a) c1 c2 then
      if ex_perturbation a then
        Ok (mkexv (perturb (ex_eta a) step u) costs states (ev_perturbations v ++ [step]), false)
      else Ok (mkexv u costs states (ev_perturbations v), true)
    else Ok (mkexv u costs states (ev_perturbations v), false)
  else Ok (mkexv u costs states (ev_perturbations v), false).

(** lines 168-226 *)
Definition ex_run {P Om Z} (a : ex_args) (u0 : U) : res (retval (item St P Om U Z)) :=
  do states <- (if ex_state a then do s <- state u0; Ok [s] else Ok []);
  do c <- cost u0;
  do v <- for_range (ex_body a) 0 (ex_nsteps a) (mkexv u0 [c] states []);
  if count_true [ex_state a; ex_perturbations a; ex_unitary a] <? 1 then Ok (RList (ev_costs v))
  else Ok (RTuple (select [ItCosts (ev_costs v); ItStates (ev_states v); ItPerturbations (ev_perturbations v); ItUnitary (ev_u v)]
                          [true; ex_state a; ex_perturbations a; ex_unitary a])).

Definition exact_lie_optimizer {P Om Z} (ret : circ_ret) (start : res U) (kw : kwargs) : res (retval (item St P Om U Z)) :=
  do a <- ex_validate ret kw; do u0 <- start; ex_run a u0.
End Exact.

(** ** approximate_lie_optimizer, lines 229-389 *)

(** the argument layers: not a list, or a list whose elements are layer objects
    (here their identity) or something else *)
Inductive layers_arg := NotAList | AList (l : list (option nat)).

Record ap_args := mkap { ap_layers : list nat; ap_nsteps : nat; ap_eta : R; ap_tol : option flt; ap_state : bool; ap_omegas : bool;
  ap_unitary : bool; ap_gates : bool; ap_perturb : bool; ap_perturbations : bool; ap_zassenhaus : bool }.

Definition flag (kw : kwargs) (name : string) : res bool :=
  let v := kw_get kw name (PyBool false) in do _ <- py_assert (is_bool v); Ok (truthy v).

(** lines 250-302 *)
Definition ap_validate (ret : circ_ret) (layers : layers_arg) (kw : kwargs) : res ap_args :=
  do _ <- (match ret with RetState => Ok tt | _ => Err AssertionError end);
  let nsteps := kw_get kw "nsteps" (PyInt 40) in
  do ls <- (match layers with NotAList => Err AssertionError | AList l => Ok l end);
  do _ <- py_assert (forallb (fun x => match x with Some _ => true | None => false end) ls);
  do _ <- check (is_int nsteps) (Fin 1) nsteps PInf;
  let eta := kw_get kw "eta" (PyFloat (Fin (/ 10))) in
  do _ <- check (is_float eta) (Fin 0) eta (Fin 1);
  let tol := kw_get kw "tol" (PyFloat (Fin (/ 1000))) in
  do _ <- (match tol with PyNone => Ok tt | _ => check (is_float tol) (Fin 0) tol PInf end);
  do _ <- py_assert (is_float (kw_get kw "escape_tol" (PyFloat (Fin (/ 1000)))));
  do f1 <- flag kw "return_state";
  do f2 <- flag kw "return_omegas";
  do f3 <- flag kw "return_unitary";
  do f4 <- flag kw "return_gates";
  do f5 <- flag kw "perturb";
  do f6 <- flag kw "return_perturbations";
  do f7 <- flag kw "return_zassenhaus";
  Ok (mkap (List.concat (map (fun x => match x with Some i => [i] | None => [] end) ls)) (steps_of nsteps) (real_of eta)
           (match tol with PyNone => None | _ => Some (flt_of tol) end) f1 f2 f3 f4 f5 f6 f7).

(** next(it.cycle(layers)): the elements still to come in this round *)
Definition cycle_next (all rest : list nat) : res (nat * list nat) :=
  match rest with
  | x :: r => Ok (x, r)
  | [] => match all with [] => Err StopIteration | x :: r => Ok (x, r) end
  end.

Section Approximate.
(** [W]: the layer objects with their attributes; a call may change them. *)
Context {St P Om U Z W : Type}.
(** a call of a layer (lines 344-348) with the circuit unitary and, for the
    adaptive layers, the parameters; [su_state] and [directions] are the
    attribute and the method of the layer *)
Variables (call : nat -> W -> U -> P -> res (U * P * W)) (su_state : nat -> W -> res Z) (directions : nat -> W -> U -> res Om).
Variables (cost : U -> res R) (state : U -> res St) (perturb : R -> nat -> U -> U).

Record ap_vars := mkapv { av_rest : list nat; av_w : W; av_u : U; av_params : P; av_costs : list R; av_states : list St;
  av_omegas : list Om; av_unitaries : list U; av_perturbations : list nat; av_zas : list Z }.

(** lines 338-380 *)
Definition ap_body (a : ap_args) (step : nat) (v : ap_vars) : res (ap_vars * bool) :=
  do lr <- cycle_next (ap_layers a) (av_rest v);
  let layer := fst lr in
  do zas <- (if ap_zassenhaus a then do z <- su_state layer (av_w v); Ok (av_zas v ++ [z]) else Ok (av_zas v));
  do r <- call layer (av_w v) (av_u v) (av_params v);
  let '(u, p, w) := r in
  do c <- cost u;
  let costs := av_costs v ++ [c] in
  do states <- (if ap_state a then do s <- state u; Ok (av_states v ++ [s]) else Ok (av_states v));
  do oms <- (if ap_omegas a then do o <- directions layer w u; Ok (av_omegas v ++ [o]) else Ok (av_omegas v));
  let us := if ap_unitary a then av_unitaries v ++ [u] else av_unitaries v in
  let v' := mkapv (snd lr) w u p costs states oms us (av_perturbations v) zas in
  match ap_tol a with
  | Some tol =>
      if 8 <? step then
        do c1 <- from_end costs 1;
        do c6 <- from_end costs 6;
        if isclose tol c1 c6 then
          if ap_perturb a then
            Ok (mkapv (snd lr) w (perturb (ap_eta a) step u) p costs states oms us (av_perturbations v ++ [step]) zas, false)
          else Ok (v', true)
        else Ok (v', false)
      else Ok (v', false)
  | None => Ok (v', false)
  end.

(** lines 304-389 *)
Definition ap_run (a : ap_args) (w : W) (u0 : U) (params : P) : res (retval (item St P Om U Z)) :=
  do states <- (if ap_state a then do s <- state u0; Ok [s] else Ok []);
  let us := if ap_unitary a then [u0] else [] in
  do c <- cost u0;
  do v <- for_range (ap_body a) 0 (ap_nsteps a) (mkapv [] w u0 params [c] states [] us [] []);
  if count_true [ap_state a; ap_omegas a; ap_unitary a; ap_gates a; ap_perturbations a; ap_zassenhaus a] <? 1 then Ok (RList (av_costs v))
  else Ok (RTuple (select [ItCosts (av_costs v); ItStates (av_states v); ItOmegas (av_omegas v); ItUnitaries (av_unitaries v); ItGates;
                           ItPerturbations (av_perturbations v); ItZassenhaus (av_zas v)]
                          [true; ap_state a; ap_omegas a; ap_unitary a; ap_gates a; ap_perturbations a; ap_zassenhaus a])).

Definition approximate_lie_optimizer (ret : circ_ret) (layers : layers_arg) (w : W) (start : res U) (params : P) (kw : kwargs) : res (retval (item St P Om U Z)) :=
  do a <- ap_validate ret layers kw; do u0 <- start; ap_run a w u0 params.
End Approximate.
