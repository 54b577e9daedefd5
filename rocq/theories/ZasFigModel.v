(** Model of two_observables_3_qubits_zassenhaus in experiments_paper/zassenhaus.py, lines 12-74:
    the run of approximate_lie_optimizer with a ZassenhausLayer and the data of its figure.
    Simplifications: exact numbers instead of floats; the drawing order, the axes, the legend, the
    title and the file are left out. The parameters, which ZassenhausLayer does not read, are
    written as a row. *)
From Coq Require Import ZArith Arith Bool String Reals.
From Coquelicot Require Import Coquelicot.
From Verif Require Import Py StarRing Matrix Cplx UtilsModel CircuitModel LayerModel AdaptModel OptimizerModel FlowModel ShiftModel GreedyModel ApproxModel ApproxExampleModel.
From Coq Require Import List.
Import ListNotations.
Local Open Scope nat_scope.

(** line 17: [qml.PauliX(0), qml.PauliX(1), qml.PauliY(2), qml.PauliZ(2) @ qml.PauliY(1)] *)
Definition zf_observables : list (qop C) :=
  [mkqop lit_X [0]; mkqop lit_X [1]; mkqop lit_Y [2]; mkqop (np_kron lit_Z lit_Y) [2; 1]].
(** line 18 *)
Definition zf_params : R * R := (2 / 10, 14 / 10)%R.
(** lines 23-33 *)
Definition zf_circuit (p : R * R) : list (qop C) :=
  map gate_qop [AH 0; AH 1; AH 2;
    ARot (fst p) "Z"%string [0]; ARot (fst p) "Z"%string [1]; ARot (fst p) "Z"%string [2];
    ARot (snd p) "Y"%string [0]; ARot (snd p) "Y"%string [1]; ARot (snd p) "Y"%string [2]].
(** line 35 *)
Definition zf_ratio : Z * Z := (4, 2)%Z.
(** lines 15 and 37 *)
Definition zf_kwargs : kwargs := [("eta"%string, PyFloat (Fin (/ 10))); ("return_zassenhaus"%string, PyBool true)].

(** axs.scatter(x, y, color=.., label=..) *)
Record point := mkpoint { pt_x : nat; pt_y : R; pt_color : string; pt_label : option string }.
(** the curve of lines 40-41, the dashed line of lines 42-43 and the points of lines 45-64 *)
Record zf_figure := mkzf { zf_curve : list R; zf_line : list R; zf_points : list point }.

(** one round of the loop of lines 47-64; the flags are firstsu4 and firstsu8 (line 45) *)
Definition zf_round (costs : list R) (gs_en : R) (zassenhaus : list (option string)) (v : bool * bool * list point) (i : nat) : res (bool * bool * list point) :=
  let '(first4, first8, pts) := v in
  do z <- list_get zassenhaus i;
  let is s := match z with Some t => String.eqb t s | None => false end in
  if is "su4"%string then
    do c <- list_get costs i;
    Ok (false, first8, pts ++ [mkpoint i (Rabs (if first4 then Rabs (c - gs_en) else c - gs_en)) "crimson" (if first4 then Some "SU(4) layer"%string else None)])
  else if is "su8"%string then
    do c <- list_get costs i;
    Ok (first4, false, pts ++ [mkpoint i (Rabs (c - gs_en)) "navy" (if first8 then Some "Zass. SU(8) layer"%string else None)])
  else Ok v.

(** lines 12-74; the script calls it with [more] = []: further keyword arguments are not passed.
    The learning rate of the layer is its default (opt_tools.py line 706), as are add_su2 and
    add_su4. *)
Definition two_observables_3_qubits_zassenhaus (x : oracles) (eigh : eigh_fun) (random : nat -> nat -> nat -> R) (more : kwargs) : res zf_figure :=
  do H <- get_hamiltonian_matrix 3 zf_observables None;
  let gs_en := min_eigenvalue eigh (2 ^ 3) (a_ent H) in
  do l <- ZassenhausLayer 3 zf_observables (/ 10) false false zf_ratio;
  do r <- approx_optimizer x eigh random 3 (zf_circuit zf_params) zf_observables [OZassenhaus zf_observables l] RetState (AList [Some 0]) [[fst zf_params; snd zf_params]] (zf_kwargs ++ more);
  match r with
  | RTuple [ItCosts costs; ItZassenhaus zas] =>
      do v <- foldM (zf_round costs gs_en zas) (seq 0 (List.length zas)) (true, true, []);
      Ok (mkzf (map (fun c => Rabs (c - gs_en)) costs) (map (fun _ => gs_en) costs) (snd v))
  | _ => Err ValueError
  end.
