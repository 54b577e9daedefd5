(** Model of the two coordinate functions of oranssi/plot_utils.py. *)
From Coq Require Import ZArith Arith Lia Bool String Reals Lra.
From Coquelicot Require Import Coquelicot.
From Verif Require Import Py StarRing Matrix Cplx UtilsModel CircuitModel.
From Coq Require Import List.
Import ListNotations.
Local Open Scope R_scope.

(** plot_utils.py line 25: the two amplitudes *)
Definition bloch_psi (phi theta : R) (i : nat) : C :=
  match i with O => RtoC (cos (theta / 2)) | _ => Cmult (cos phi, sin phi) (RtoC (sin (theta / 2))) end.
(** plot_utils.py lines 13-26: np.outer(psi, psi.conj()) *)
Definition spherical_to_state (phi theta : R) : mat C :=
  fun i j => Cmult (bloch_psi phi theta i) (Cconj (bloch_psi phi theta j)).

(** np.arctan2(y, x) on real numbers, where zero has no sign: np.arctan2 of a
    negative zero is not modelled *)
Definition arctan2 (y x : R) : R :=
  if Rlt_dec 0 x then atan (y / x)
  else if Rlt_dec x 0 then (if Rle_dec 0 y then atan (y / x) + PI else atan (y / x) - PI)
  else if Rlt_dec 0 y then PI / 2 else if Rlt_dec y 0 then - (PI / 2) else 0.
(** np.arccos: nan (None) outside [-1, 1] *)
Definition arccos (x : R) : option R := if Rle_dec (-1) x then if Rle_dec x 1 then Some (acos x) else None else None.
(** x % m of floats, m > 0 *)
Definition fmod (x m : R) : R := x - m * IZR (Int_part (x / m)).
(** np.isclose(x, 2*np.pi, atol=1e-3) with the default rtol=1e-5 *)
Definition near_2pi (x : R) : bool := if Rle_dec (Rabs (x - 2 * PI)) (/ 1000 + / 100000 * Rabs (2 * PI)) then true else false.
(** np.isclose(t, 1) of a complex number with the default tolerances *)
Definition near_1 (t : C) : bool := if Rle_dec (Cmod (Cminus t (RtoC 1))) (/ 100000000 + / 100000 * 1) then true else false.

(** plot_utils.py lines 51-73, for an argument that is a 2x2 array; nan is None *)
Definition state_to_spherical (rho : mat C) : res (R * option R) :=
  do _ <- py_assert (near_1 (mtrace (K := C) 2 rho));
  let paulis := fst (get_su_2_operators (K := C) false false) in
  do cs <- mapM (fun i => do P <- list_get paulis i; Ok (Re (mtrace (K := C) 2 (mmul (K := C) 2 rho (a_ent P))))) (seq 0 3);
  do c2 <- list_get cs 2;
  do c1 <- list_get cs 1;
  do c0 <- list_get cs 0;
  let theta := option_map (fun t => fmod t (2 * PI)) (arccos c2) in
  let phi := fmod (arctan2 c1 c0) (2 * PI) in
  let phi := if near_2pi phi then 0 else phi in
  let theta := option_map (fun t => if near_2pi t then 0 else t) theta in
  Ok (phi, theta).
