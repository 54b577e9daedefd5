(** Model of the plots of directions in oranssi/plot_utils.py, lines 96-259. A
    figure is the list of its curves: label and values. Axes, colours, legends and
    printed text are left out. *)
From Coq Require Import ZArith Arith Lia Bool String Ascii Reals.
From Coquelicot Require Import Coquelicot.
From Verif Require Import Py StarRing Matrix Cplx UtilsModel CircuitModel AlgebraModel LayerModel.
From Coq Require Import List.
Import ListNotations.
Local Open Scope nat_scope.

Definition curve := (string * list R)%type.
(** the dictionary returned by get_all_su_n_directions *)
Definition omega_dict := list (string * R).

(** k.count('I'), lines 120-129, 153-159, 189-193 and 227-231 *)
Fixpoint count_I (k : string) : nat :=
  match k with
  | EmptyString => 0
  | String c r => (if Ascii.eqb c "I"%char then 1 else 0) + count_I r
  end.

(** [om[k] for om in omegas], lines 115, 121, 148, 154, 184, 191, 222 and 229 *)
Definition steps_of (omegas : list omega_dict) (k : string) : res (list R) := mapM (fun om => dget String.eqb om k) omegas.

(** the sum of two arrays of the same shape, += in lines 154-160, 191-195 and 229-233 *)
Definition vadd (v w : list R) : list R := map (fun p => (fst p + snd p)%R) (combine v w).

(** the body of the loops of lines 152-160, 188-196 and 226-234 as far as
    omegas_length_m is concerned; the keys of this dictionary are the numbers of
    letters I that are asked for, so at most one of the ifs applies *)
Definition accumulate (omegas : list omega_dict) (m : list (nat * list R)) (k : string) : res (list (nat * list R)) :=
  if dmem Nat.eqb m (count_I k) then
    do vs <- steps_of omegas k;
    do old <- dget Nat.eqb m (count_I k);
    Ok (dset Nat.eqb m (count_I k) (vadd old (map Rabs vs)))
  else Ok m.

(** np.allclose(om, 0), lines 202, 206, 238 and 242: atol is 1e-8 *)
Definition all_small (v : list R) : bool := forallb (fun x => if Rle_dec (Rabs x) (/ 100000000) then true else false) v.

(** omegas of lines 141-143, 177-179 and 215-217; [n] is the number of wires of the device *)
Definition all_omegas (n : nat) (unitaries : list (mat C)) (observables : list (qop C)) : res (list omega_dict) :=
  mapM (fun u => get_all_su_n_directions n u observables) unitaries.

(** {0: np.zeros(stepstotal), ...}, lines 149, 185 and 223 *)
Definition zeros (rows steps : nat) : list (nat * list R) := map (fun i => (i, repeat 0%R steps)) (seq 0 rows).

(** axs.plot([0 for _ in range(len(omegas_length_m[0]))], label='Min.') and the loops
    of lines 162-168 and 248-254 *)
Definition length_curves (labels : list string) (m : list (nat * list R)) : res (list curve) :=
  do m0 <- dget Nat.eqb m 0;
  do cs <- mapM (fun il => do v <- dget Nat.eqb m (fst il); Ok (snd il, v)) (combine (seq 0 (List.length labels)) labels);
  Ok (("Min."%string, repeat 0%R (List.length m0)) :: cs).

(** lines 140-173; rf'SU$({2 ** (4 - i)})$' for i in range(4). The argument nqubits
    is not used. *)
Definition plot_su16_directions (nqubits : nat) (n : nat) (unitaries : list (mat C)) (observables : list (qop C)) : res (list curve) :=
  do omegas <- all_omegas n unitaries observables;
  do xs <- steps_of omegas "XXXX";
  do first <- list_get omegas 0;
  do m <- foldM (accumulate omegas) (map fst first) (zeros 4 (List.length xs));
  length_curves ["SU$(16)$"; "SU$(8)$"; "SU$(4)$"; "SU$(2)$"]%string m.

(** get_all_su_n_directions called with four positional arguments, line 99;
    the function (circuit_tools.py line 147) takes three *)
Definition four_arguments (u : mat C) : res omega_dict := Err TypeError.
(** lines 96-138. Since [four_arguments] raises, nothing after line 104 can be
    reached; it is left out. *)
Definition plot_su16_directions_separate (unitaries : list (mat C)) : res (list curve) :=
  do omegas <- mapM four_arguments unitaries;
  do first <- list_get omegas 0;
  Ok [].

(** the names and curves with i letters I, in the order of the keys (lines 188-196, 226-234) *)
Definition named_curves (omegas : list omega_dict) (i : nat) (keys : list string) : res (list curve) :=
  mapM (fun k => do vs <- steps_of omegas k; Ok (k, vs)) (filter (fun k => Nat.eqb (count_I k) i) keys).

(** the first part of both functions, lines 177-196 and 215-234: the sums, and the
    curves with one and with no letter I. The loop that fills all of these is split
    into one loop for each. *)
Definition su8_data (n : nat) (unitaries : list (mat C)) (observables : list (qop C)) : res (list (nat * list R) * list curve * list curve) :=
  do omegas <- all_omegas n unitaries observables;
  do xs <- steps_of omegas "XX";
  do first <- list_get omegas 0;
  do m <- foldM (accumulate omegas) (map fst first) (zeros 2 (List.length xs));
  do su4 <- named_curves omegas 1 (map fst first);
  do su8 <- named_curves omegas 0 (map fst first);
  Ok (m, su4, su8).

(** the loops of lines 201-207 and 237-243 *)
Definition visible (cs : list curve) : list curve := filter (fun c => negb (all_small (snd c))) cs.

(** lines 176-211 *)
Definition plot_su8_directions_individually (n : nat) (unitaries : list (mat C)) (observables : list (qop C)) : res (list curve) :=
  do r <- su8_data n unitaries observables;
  let '(m, su4, su8) := r in Ok (visible su4 ++ visible su8).

(** lines 214-259: the figure shown first and the figure returned; rf'SU$({2 ** (2 - i)})$'
    for i in range(2). The argument nqubits is not used. *)
Definition plot_su8_directions (nqubits : nat) (n : nat) (unitaries : list (mat C)) (observables : list (qop C)) : res (list curve * list curve) :=
  do r <- su8_data n unitaries observables;
  let '(m, su4, su8) := r in
  do cs <- length_curves ["SU$(4)$"; "SU$(2)$"]%string m;
  Ok (visible su4 ++ visible su8, cs).
