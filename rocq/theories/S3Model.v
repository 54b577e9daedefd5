(** Model of the computations of experiments_paper/fixed_points.py 11-45 and
    experiments_paper/3_sphere_level_curves.py 6-9. The grids, the plots and the
    histograms are left out. *)
From Coq Require Import Arith Bool String Reals.
From Coquelicot Require Import Coquelicot.
From Verif Require Import Py StarRing Matrix Cplx UtilsModel CircuitModel AlgebraModel.
From Coq Require Import List.
Import ListNotations.
Local Open Scope R_scope.

(** np.sqrt on a real number; nan is None *)
Definition np_sqrt (x : R) : option R := if Rlt_dec x 0 then None else Some (sqrt x).

(** np.allclose(A, B) for n x n matrices: |a - b| <= atol + rtol |b| with the default tolerances *)
Definition allclose (n : nat) (A B : mat C) : bool :=
  forallb (fun i => forallb (fun j => if Rle_dec (Cmod (Cminus (A i j) (B i j))) (/ 100000000 + / 100000 * Cmod (B i j)) then true else false) (seq 0 n)) (seq 0 n).

(** fixed_points.py:14-15 *)
Definition sphere_matrix (a b c d : R) : mat C := fun i j =>
  match i, j with
  | 0%nat, 0%nat => (a, b) | 0%nat, 1%nat => (- c, d)
  | 1%nat, 0%nat => (c, d) | 1%nat, 1%nat => (a, - b)
  | _, _ => RtoC 0
  end.
(** fixed_points.py:11-16: unitary(r); a matrix with nan entries is None, and np.allclose is False for it *)
Definition sphere_unitary (r0 r1 r2 : R) : option (mat C) * bool :=
  let norm := (sqrt (r0 ^ 2 + r1 ^ 2 + r2 ^ 2)) ^ 2 in
  match np_sqrt (1 - norm) with
  | None => (None, false)
  | Some r3 => let U := sphere_matrix r0 r1 r2 r3 in (Some U, allclose 2 (mmul 2 U (madj U)) mid)
  end.

(** fixed_points.py:7 *)
Definition fp_observables : list (qop C) := [mkqop lit_X [0%nat]; mkqop lit_Y [0%nat]].
(** fixed_points.py:30-31 *)
Definition fp_rho_0 : mat C := fun i j => match i, j with 1%nat, 0%nat => RtoC 1 | _, _ => RtoC 0 end.

(** fixed_points.py:34-43: the row of gradients and the entry of costs for the grid point r *)
Definition fixed_point (r0 r1 r2 : R) : res (list R * R) :=
  do hamiltonian <- get_hamiltonian_matrix 1 fp_observables None;
  match sphere_unitary r0 r1 r2 with
  | (Some U, true) =>
      do directions <- get_all_su_n_directions 1 U fp_observables;
      do gx <- dget String.eqb directions "X"%string;
      do gy <- dget String.eqb directions "Y"%string;
      do gz <- dget String.eqb directions "Z"%string;
      Ok ([gx; gy; gz], Re (mtrace 2 (mmul 2 (mmul 2 (mmul 2 U fp_rho_0) (madj U)) (a_ent hamiltonian))))
  | _ => Ok ([0; 0; 0], 0)
  end.

(** 3_sphere_level_curves.py:6-9; nan (the root of a negative number, 0/0) is None *)
Definition level_surface (r3 r4 const : R) : option R :=
  match np_sqrt (- (r3 + r4) ^ 2 * (const ^ 2 + 8 * r3 ^ 4 - 8 * r4 ^ 2 + 8 * r4 ^ 4 + 8 * r3 ^ 2 * (-1 + 2 * r4 ^ 2))) with
  | None => None
  | Some s =>
      let den := 4 * (r3 ^ 2 + r4 ^ 2) in
      if Req_EM_T den 0 then None else Some ((- const * r3 + const * r4 - s) / den)
  end.
