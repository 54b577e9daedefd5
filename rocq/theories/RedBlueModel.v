(** Model of experiments_paper/red_blue_comparison.py: the two optimizations, the
    two maps and the data drawn on them.
    Simplifications: exact reals instead of floats; the flat parameter list [a, b]
    is the only row of the parameters of ShiftModel.v; costs_converted, which is
    computed and never used, axes, legends and files are left out. *)
From Coq Require Import ZArith Arith Bool String Reals.
From Coquelicot Require Import Coquelicot.
From Verif Require Import Py StarRing Matrix Cplx UtilsModel CircuitModel LayerModel AdaptModel OptimizerModel FlowModel ShiftModel SphereModel.
From Coq Require Import List.
Import ListNotations.
Local Open Scope R_scope.

(** lines 17-19: circuit(params); lines 46-49, 124-127 and 133-137 apply the same gates *)
Definition rb_circuit (params : rows) : res (list agate) :=
  do p <- list_get params 0;
  do a <- list_get p 0;
  do b <- list_get p 1;
  Ok [ARot a "Y"%string [0%nat]; ARot b "Z"%string [0%nat]].
(** lines 22, 52 and 129: [qml.PauliX(0), qml.PauliY(0)] *)
Definition rb_observables : list (qop C) := [mkqop lit_X [0%nat]; mkqop lit_Y [0%nat]].

(** lines 36-41 and 64-69: the points of the trajectory; an angle that is nan is None *)
Definition trajectory (states : list (nat -> C)) : res (list R * list (option R)) :=
  do pts <- mapM (fun psi => state_to_spherical (fun i j => Cmult (psi i) (Cconj (psi j)))) states;
  Ok (map fst pts, map snd pts).

(** a column of the parameters: np.array(params)[:, k] % (2 * np.pi), lines 42-43 *)
Definition column (k : nat) (params : list rows) : res (list R) :=
  mapM (fun p => do r <- list_get p 0; do x <- list_get r k; Ok (fmod x (2 * PI))) params.

(** lines 16-43: ps_optimization(eta, nsteps, params) *)
Definition ps_optimization (eta : R) (nsteps : Z) (a b : R) : res (list R * list (option R) * list R * list R * list R) :=
  do r <- shift_optimizer (Om := unit) (U := unit) (Z := unit) 1 rb_observables rb_circuit RetPlain [[a; b]]
            [("eta"%string, PyFloat (Fin eta)); ("return_state"%string, PyBool true); ("return_params"%string, PyBool true); ("nsteps"%string, PyInt nsteps)];
  match r with
  | RTuple [ItCosts costs; ItStates states; ItParams params] =>
      do pts <- trajectory states;
      do c0 <- column 0 params;
      do c1 <- column 1 params;
      Ok (fst pts, snd pts, c0, c1, costs)
  | _ => Err ValueError
  end.

(** lines 45-71: riemann_optimization(eta, nsteps, params) *)
Definition riemann_optimization (eigh : eigh_fun) (random : nat -> nat -> nat -> R) (eta : R) (nsteps : Z) (a b : R) : res (list R * list (option R) * list R) :=
  do gates <- rb_circuit [[a; b]];
  do r <- exact_optimizer (P := unit) (Om := unit) (Z := unit) eigh random 1 (map gate_qop gates) rb_observables RetState
            [("eta"%string, PyFloat (Fin eta)); ("return_state"%string, PyBool true); ("nsteps"%string, PyInt nsteps)];
  match r with
  | RTuple [ItCosts costs; ItStates states] => do pts <- trajectory states; Ok (fst pts, snd pts, costs)
  | _ => Err ValueError
  end.

(** np.linspace(lo, hi, n) *)
Definition linspace (lo hi : R) (n : nat) : list R := map (fun i => lo + INR i * ((hi - lo) / INR (n - 1))) (seq 0 n).
(** np.meshgrid(x, y), both arrays as lists of rows *)
Definition meshgrid (x y : list R) : list (list R) * list (list R) := (map (fun _ => x) y, map (fun v => map (fun _ => v) x) y).
(** np.array(l).reshape((rows, cols)) *)
Fixpoint chunks (rows cols : nat) (l : list R) : list (list R) :=
  match rows with O => [] | S r => firstn cols l :: chunks r cols (skipn cols l) end.
Definition reshape (rows cols : nat) (l : list R) : res (list (list R)) :=
  if Nat.eqb (List.length l) (rows * cols) then Ok (chunks rows cols l) else Err ValueError.
(** ax.contourf(x, y, z): the points with their heights, in the order of z. z has to
    have a row for every element of y and a column for every element of x, and at least
    two of each *)
Definition contourf (x y : list R) (z : list (list R)) : res (list (R * R * R)) :=
  let cols := match z with [] => 0%nat | r :: _ => List.length r end in
  if negb (Nat.leb 2 (List.length z) && Nat.leb 2 cols) then Err TypeError
  else if negb (Nat.eqb (List.length x) cols) then Err TypeError
  else if negb (Nat.eqb (List.length y) (List.length z)) then Err TypeError
  else Ok (List.concat (map (fun yr => map (fun xv => (fst xv, fst yr, snd xv)) (combine x (snd yr))) (combine y z))).
(** plot_utils.py lines 29-48: plot_bloch_sphere_2d *)
Definition plot_bloch_sphere_2d (phi theta : list R) (costs : list (list R)) : res (list (R * R * R)) := contourf phi theta costs.

(** lines 88-89: cost_function *)
Definition rb_cost (rho : mat C) : res C :=
  let paulis := fst (get_su_2_operators (K := C) false false) in
  do X <- list_get paulis 0; do Y <- list_get paulis 1;
  Ok (mtrace (K := C) 2 (mmul (K := C) 2 (madd (K := C) (a_ent X) (a_ent Y)) rho)).

(** lines 80-96: the blue map *)
Definition blue_map (gran : nat) : res (list (R * R * R)) :=
  let phi := linspace 0 (2 * PI) gran in
  let theta := linspace 0 PI gran in
  let '(phi_phi, theta_theta) := meshgrid phi theta in
  do costs <- mapM (fun pt => do c <- rb_cost (spherical_to_state (fst pt) (snd pt)); Ok (Re c)) (combine (List.concat phi_phi) (List.concat theta_theta));
  do costs_bloch <- reshape gran gran costs;
  plot_bloch_sphere_2d phi theta costs_bloch.

(** lines 124-150: the red map *)
Definition red_map (gran : nat) : res (list (R * R * R)) :=
  let alpha := linspace 0 (2 * PI) gran in
  let beta := linspace 0 (2 * PI) gran in
  let '(alpha_alpha, beta_beta) := meshgrid alpha beta in
  do costs <- mapM (fun ab => vqe_cost 1 rb_observables rb_circuit [[fst ab; snd ab]]) (combine (List.concat alpha_alpha) (List.concat beta_beta));
  do costs_bloch <- reshape gran gran costs;
  contourf alpha beta costs_bloch.

(** lines 116 and 164: the number written next to the last point of a trajectory *)
Definition last_label (costs : list R) : nat := List.length costs.
