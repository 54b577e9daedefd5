(** Model of oranssi/utils.py. *)
From Coq Require Import List Arith Lia Bool String Ascii Reals.
From Coquelicot Require Import Coquelicot.
From Verif Require Import Py StarRing Matrix Cplx.
Import ListNotations.
Local Open Scope nat_scope.

Section Arrays.
Context {K : Type} {SR : StarRing K}.
Local Open Scope K_scope.

(** A two-dimensional numpy array. Simplification: entries are exact elements of
    a commutative ring with conjugation instead of complex128 floats; entries
    outside the shape are never looked at. *)
Record arr := mkarr { a_rows : nat; a_cols : nat; a_ent : mat K }.

(** np.array([[a, b], [c, d]], complex) *)
Definition lit2 (a b c d : K) : arr :=
  mkarr 2 2 (fun i j => match i, j with O, O => a | O, _ => b | _, O => c | _, _ => d end).

(** np.eye(n, n, dtype=complex) *)
Definition np_eye (n : nat) : arr := mkarr n n (fun i j => if Nat.eqb i j then 1 else 0).

(** np.kron for two-dimensional arrays *)
Definition np_kron (A B : arr) : arr :=
  mkarr (a_rows A * a_rows B) (a_cols A * a_cols B)
    (fun i j => a_ent A (i / a_rows B)%nat (j / a_cols B)%nat * a_ent B (i mod a_rows B)%nat (j mod a_cols B)%nat).

(** utils.py lines 20-23, 48-51 and 80-83: the four literals, repeated in each
    of the three functions *)
Definition lit_I : arr := np_eye 2.
Definition lit_X : arr := lit2 0 1 1 0.
Definition lit_Y : arr := lit2 0 (- ki) ki 0.
Definition lit_Z : arr := lit2 1 0 0 (- (1)).

(** utils.py lines 52-55 and 84-87 *)
Definition paulis_of (identity : bool) : list arr :=
  if identity then [lit_I; lit_X; lit_Y; lit_Z] else [lit_X; lit_Y; lit_Z].

(** utils.py lines 6-7: the two dictionaries, a missing key raising KeyError *)
Definition pauli_int_to_str_id (i : nat) : res string :=
  match i with 0%nat => Ok "I" | 1%nat => Ok "X" | 2%nat => Ok "Y" | 3%nat => Ok "Z" | _ => Err KeyError end%string.
Definition pauli_int_to_str (i : nat) : res string :=
  match i with 0%nat => Ok "X" | 1%nat => Ok "Y" | 2%nat => Ok "Z" | _ => Err KeyError end%string.

(** itertools.product(range(m), repeat=n): the last position moves fastest *)
Fixpoint it_product (m n : nat) : list (list nat) :=
  match n with
  | O => [[]]
  | S n' => flat_map (fun t => map (fun x => t ++ [x]) (seq 0 m)) (it_product m n')
  end.

(** Indexing a Python list with a non-negative integer *)
Definition list_get {A} (l : list A) (i : nat) : res A :=
  match nth_error l i with Some a => Ok a | None => Err IndexError end.

(** ''.join([table[i] for i in n]) of lines 64, 66, 99 and 101 *)
Definition join_name (identity : bool) (comb : list nat) : res string :=
  do cs <- mapM (if identity then pauli_int_to_str_id else pauli_int_to_str) comb;
  Ok (String.concat "" cs).

(** the pair (operators, names); without return_names only the operators *)
Definition su_result := (list arr * option (list string))%type.

(** utils.py lines 10-35 *)
Definition get_su_2_operators (identity return_names : bool) : su_result :=
  if identity then
    (if return_names then (paulis_of true, Some ["I"; "X"; "Y"; "Z"]%string) else (paulis_of true, None))
  else
    (if return_names then (paulis_of false, Some ["X"; "Y"; "Z"]%string) else (paulis_of false, None)).

(** utils.py lines 38-68 *)
Definition get_su_4_operators (identity return_names : bool) : res su_result :=
  let paulis := paulis_of identity in
  let combs := it_product (List.length paulis) 2 in
  do operators <- mapM (fun comb =>
      do c0 <- list_get comb 0; do c1 <- list_get comb 1;
      do a <- list_get paulis c0; do b <- list_get paulis c1; Ok (np_kron a b)) combs;
  if return_names then do ns <- mapM (join_name identity) combs; Ok (operators, Some ns)
  else Ok (operators, None).

(** int(np.log2(N)) of line 90 for a non-negative integer N. np.log2(0) is -inf
    and int(-inf) raises OverflowError. Simplification: exact arithmetic, so
    the result is the floor of the logarithm for every N. *)
Definition int_log2 (N : nat) : res nat :=
  match N with O => Err OverflowError | _ => Ok (Nat.log2 N) end.

(** the inner loop of lines 92-94. Simplification: the Python integer 1 that op
    starts from is the 1x1 array [[1]], so for N = 1 the single operator is that
    array and not the integer. *)
Fixpoint kron_loop (paulis : list arr) (comb : list nat) (ns : list nat) (op : arr) : res arr :=
  match ns with
  | [] => Ok op
  | n :: r => do c <- list_get comb n; do p <- list_get paulis c; kron_loop paulis comb r (np_kron op p)
  end.

(** utils.py lines 70-103 *)
Definition get_su_n_operators (N : nat) (identity return_names : bool) : res su_result :=
  let paulis := paulis_of identity in
  do n <- int_log2 N;
  let combs := it_product (List.length paulis) n in
  do operators <- mapM (fun comb => kron_loop paulis comb (seq 0 n) (np_eye 1)) combs;
  if return_names then do ns <- mapM (join_name identity) combs; Ok (operators, Some ns)
  else Ok (operators, None).

End Arrays.
Arguments arr K : clear implicits.

(** np.sqrt of a complex number: the principal root *)
Definition csqrt (z : C) : C :=
  (sqrt ((Cmod z + Re z) / 2),
   if Rlt_dec (Im z) 0 then (- sqrt ((Cmod z - Re z) / 2))%R else sqrt ((Cmod z - Re z) / 2)).

(** utils.py lines 105-115: np.sqrt(np.trace(R.conjugate().transpose() @ R)).real;
    the argument R is called M here *)
Definition operator_2_norm (M : arr C) : R :=
  Re (csqrt (lsum (fun i => lsum (fun k => kmul (kconj (a_ent M k i)) (a_ent M k i)) (seq 0 (a_rows M)))
       (seq 0 (a_cols M)))).
