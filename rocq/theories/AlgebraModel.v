(** Model of the classes AlgebraSU2, AlgebraSU4 and AlgebraSU8 of
    oranssi/opt_tools.py (lines 1028-1269). *)
From Coq Require Import Arith Lia Bool String List.
From Verif Require Import Py StarRing Matrix UtilsModel CircuitModel.
From Coq Require Import List.
Import ListNotations.
Local Open Scope nat_scope.

(** ** Python dictionaries: lists of items in insertion order *)
Section Dict.
Context {A B : Type} (eqb : A -> A -> bool).

(** d[k], which raises KeyError for a missing key *)
Fixpoint dget (d : list (A * B)) (k : A) : res B :=
  match d with
  | [] => Err KeyError
  | (a, b) :: r => if eqb a k then Ok b else dget r k
  end.
(** k in d *)
Definition dmem (d : list (A * B)) (k : A) : bool := existsb (fun p => eqb (fst p) k) d.
(** d[k] = v: an existing key keeps its place, a new one goes last *)
Fixpoint dset (d : list (A * B)) (k : A) (v : B) : list (A * B) :=
  match d with
  | [] => [(k, v)]
  | (a, b) :: r => if eqb a k then (a, v) :: r else (a, b) :: dset r k v
  end.
(** dict(zip(ks, vs)) *)
Definition dzip (ks : list A) (vs : list B) : list (A * B) :=
  fold_left (fun d p => dset d (fst p) (snd p)) (combine ks vs) [].
End Dict.

(** itertools.combinations(l, r) *)
Fixpoint combinations {A} (l : list A) (r : nat) : list (list A) :=
  match r, l with
  | O, _ => [[]]
  | S _, [] => []
  | S r', x :: t => map (cons x) (combinations t r') ++ combinations t r
  end.

(** the keys (direction, q1, ..., qk) of full_paulis *)
Definition key := (string * list nat)%type.
Fixpoint natlist_eqb (l m : list nat) : bool :=
  match l, m with
  | [], [] => true
  | x :: l', y :: m' => Nat.eqb x y && natlist_eqb l' m'
  | _, _ => false
  end.
Definition key_eqb (a b : key) : bool := String.eqb (fst a) (fst b) && natlist_eqb (snd a) (snd b).

Section Algebra.
Context {K : Type} {SR : StarRing K}.

(** The attributes nqubits, directions, paulis and full_paulis. The attributes
    directions_left and FIRST_CALL are only used by get_random_direction_and_qubits
    after its raise statement and are left out. *)
Record core := mkcore {
  al_n : nat; al_directions : list string;
  al_paulis : list (string * arr K); al_full : list (key * arr K) }.

Definition init_core (n : nat) (ops : list (arr K)) (names : list string) : core :=
  mkcore n names (dzip String.eqb names ops) [].

(** the names of a result (get_su_..._operators(return_names=True)) *)
Definition su_names (r : su_result (K := K)) : res (list string) :=
  match snd r with Some ns => Ok ns | None => Err TypeError end.

(** AlgebraSU2 and AlgebraSU4 also have the array qubits_left *)
Record alg := mkalg { al_core : core; al_left : list nat }.

(** lines 1030-1050; the argument add_su2 is stored but not used *)
Definition AlgebraSU2 (nqubits : nat) : res alg :=
  let r := get_su_2_operators false true in
  do ns <- su_names r;
  Ok (mkalg (init_core nqubits (fst r) ns) (repeat 0 nqubits)).

(** lines 1124-1151 *)
Definition AlgebraSU4 (nqubits : nat) (add_su2 : bool) : res alg :=
  do p4 <- get_su_4_operators false false;
  do d4 <- get_su_4_operators false true;
  do n4 <- su_names d4;
  if add_su2 then
    do n2 <- su_names (get_su_2_operators (K := K) false true);
    Ok (mkalg (init_core nqubits (fst (get_su_2_operators false false) ++ fst p4) (n2 ++ n4)) (repeat 0 nqubits))
  else Ok (mkalg (init_core nqubits (fst p4) n4) (repeat 0 nqubits)).

(** lines 1112-1115, 1211-1214 and 1266-1269 *)
Definition add_pauli (c : core) (direction : string) (qubits : list nat) : res core :=
  if dmem key_eqb (al_full c) (direction, qubits) then Ok c
  else
    do p <- dget String.eqb (al_paulis c) direction;
    do F <- get_full_operator p qubits (al_n c);
    Ok (mkcore (al_n c) (al_directions c) (al_paulis c) (dset key_eqb (al_full c) (direction, qubits) F)).

(** the inner loop of lines 1107-1110 and 1206-1209 *)
Fixpoint qubit_loop (c : core) (direction : string) (qs : list (list nat)) : res core :=
  match qs with
  | [] => Ok c
  | q :: r =>
      do c' <- (if Nat.eqb (List.length q) (String.length direction) then add_pauli c direction q else Ok c);
      qubit_loop c' direction r
  end.
Fixpoint direction_loop (c : core) (ds : list string) (qs : list (list nat)) : res core :=
  match ds with
  | [] => Ok c
  | d :: r => do c' <- qubit_loop c d qs; direction_loop c' r qs
  end.

(** np.where(l == 0)[0].tolist() *)
Definition where0 (l : list nat) : list nat :=
  filter (fun i => Nat.eqb (nth i l 0) 0) (seq 0 (List.length l)).

(** get_all_directions_and_qubits, lines 1090-1110 and 1189-1209 *)
Definition get_all_directions_and_qubits (a : alg) : res alg :=
  let idx := where0 (al_left a) in
  let left := match idx with [] => repeat 0 (al_n (al_core a)) | _ => al_left a end in
  let idx := match idx with [] => where0 left | _ => idx end in
  let qubits := if Nat.ltb 1 (List.length idx)
                then map (fun q => [q]) idx ++ combinations idx 2
                else map (fun q => [q]) idx in
  do c <- direction_loop (al_core a) (al_directions (al_core a)) qubits;
  Ok (mkalg c left).

(** get_random_direction_and_qubits, lines 1052-1088, 1153-1187 and 1255-1256:
    the first statement raises *)
Definition get_random_direction_and_qubits (a : alg) : res (string * list nat * alg) := Err NotImplementedError.

(** AlgebraSU8 has the dictionary qubits: number of letters -> tuples *)
Record alg8 := mkalg8 { al8_core : core; al8_qubits : list (nat * list (list nat)) }.

(** lines 1227-1253 *)
Definition AlgebraSU8 (nqubits : nat) (add_su2 add_su4 : bool) : res alg8 :=
  do p4 <- (if add_su4 then (do r <- get_su_4_operators false true; Ok [r]) else Ok []);
  do p8 <- get_su_n_operators 8 false true;
  let p_d_list := (if add_su2 then [get_su_2_operators false true] else []) ++ p4 ++ [p8] in
  do nss <- mapM su_names p_d_list;
  let paulis := flat_map fst p_d_list in
  let directions := List.concat nss in
  let q := [(3, combinations (seq 0 nqubits) 3)] in
  let q := if add_su2 then dset Nat.eqb q 1 (map (fun i => [i]) (seq 0 nqubits)) else q in
  let q := if add_su4 then dset Nat.eqb q 2 (combinations (seq 0 nqubits) 2) else q in
  Ok (mkalg8 (init_core nqubits paulis directions) q).

(** lines 1258-1262 *)
Fixpoint qubit_loop8 (c : core) (direction : string) (qs : list (list nat)) : res core :=
  match qs with
  | [] => Ok c
  | q :: r => do c' <- add_pauli c direction q; qubit_loop8 c' direction r
  end.
Fixpoint direction_loop8 (c : core) (ds : list string) (qd : list (nat * list (list nat))) : res core :=
  match ds with
  | [] => Ok c
  | d :: r => do qs <- dget Nat.eqb qd (String.length d); do c' <- qubit_loop8 c d qs; direction_loop8 c' r qd
  end.
Definition get_all_directions_and_qubits8 (a : alg8) : res alg8 :=
  do c <- direction_loop8 (al8_core a) (al_directions (al8_core a)) (al8_qubits a);
  Ok (mkalg8 c (al8_qubits a)).

End Algebra.
Arguments core K : clear implicits.
Arguments alg K : clear implicits.
Arguments alg8 K : clear implicits.
