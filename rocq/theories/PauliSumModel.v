(** Model of oranssi/pauli.py, class [PauliSum] (lines 250-314), with monomial
    objects on a heap so that sharing between sums is visible. A sum is the list
    of references held in [pauli_sum]; the list objects themselves are never
    mutated in place by the code, only replaced. *)
From Coq Require Import List Arith ZArith QArith Qcanon Bool.
From Verif Require Import Py StarRing GaussQ PauliModel.
Import ListNotations.
Local Open Scope nat_scope.

(** object store: reference -> monomial object *)
Definition heap := nat -> mono.

(** assignment [obj.coeff = c] (pauli.py:286, 314) *)
Definition hset (h : heap) (r : nat) (c : gq) : heap :=
  fun x => if Nat.eqb x r then set_coeff (h r) c else h x.

(** [==] as used by list.count and set: identity first, then [__eq__] *)
Definition ref_eq (h : heap) (r s : nat) : res bool :=
  if Nat.eqb r s then Ok true else mono_eq (h r) (h s).

Fixpoint filterM {A} (f : A -> res bool) (l : list A) : res (list A) :=
  match l with
  | [] => Ok []
  | x :: t => do b <- f x; do t' <- filterM f t; Ok (if b then x :: t' else t')
  end.

(** [self.pauli_sum.count(i)] (pauli.py:270) *)
Definition count_eq (h : heap) (refs : list nat) (i : nat) : res nat :=
  do l <- filterM (fun s => ref_eq h s i) refs; Ok (length l).

(** [set([...])] of monomials: the first of several equal objects is kept *)
Fixpoint set_of (h : heap) (l acc : list nat) : res (list nat) :=
  match l with
  | [] => Ok acc
  | r :: t => do hit <- filterM (fun s => ref_eq h s r) acc;
              set_of h t (match hit with [] => acc ++ [r] | _ => acc end)
  end.

(** pauli.py:270 *)
Definition duplicates (h : heap) (refs : list nat) : res (list nat) :=
  do l <- filterM (fun i => do c <- count_eq h refs i; Ok (1 <? c)) refs;
  set_of h l [].

(** pauli.py:279-282, the inner for loop *)
Fixpoint scan (h : heap) (dup j : nat) (refs : list nat) (coeff : gq) (idx : list nat)
  : res (gq * list nat) :=
  match refs with
  | [] => Ok (coeff, idx)
  | r :: t =>
      do b <- mono_eq (h r) (h dup);
      if b then scan h dup (S j) t (gadd coeff (m_coeff (h r))) (idx ++ [j])
      else scan h dup (S j) t coeff idx
  end.

(** [[i for j, i in enumerate(l) if j not in bad]] (pauli.py:284) *)
Fixpoint drop_at (j : nat) (bad : list nat) (refs : list nat) : list nat :=
  match refs with
  | [] => []
  | r :: t => if mem j bad then drop_at (S j) bad t else r :: drop_at (S j) bad t
  end.

(** pauli.py:275-286, one iteration of the outer loop *)
Definition merge_step (h : heap) (refs : list nat) (dup : nat) : res (heap * list nat) :=
  do ci <- scan h dup 0 refs g0 [];
  let (coeff, idx) := ci : gq * list nat in
  let refs' := if 1 <? length idx then drop_at 0 (tl idx) refs else refs in
  match idx with
  | [] => Err IndexError
  | i0 :: _ => match nth_error refs' i0 with
               | Some r0 => Ok (hset h r0 coeff, refs')
               | None => Err IndexError
               end
  end.

Fixpoint merge_loop (h : heap) (refs dups : list nat) : res (heap * list nat) :=
  match dups with
  | [] => Ok (h, refs)
  | d :: t => do hr <- merge_step h refs d;
              let (h', refs') := hr : heap * list nat in merge_loop h' refs' t
  end.

(** [np.isclose(c, 0.0)]: |c| <= atol = 1e-8 *)
Definition isclose0 (c : gq) : bool :=
  if Qclt_le_dec (Q2Qc (1 # 10000000000000000)) (gnorm2 c) then false else true.

(** pauli.py:269-287 [PauliSum.simplify]; [ord] is the iteration order of the set *)
Definition simplify (ord : list nat -> list nat) (h : heap) (refs : list nat) : res (heap * list nat) :=
  do dups <- duplicates h refs;
  match dups with
  | [] => Ok (h, refs)
  | _ => do hr <- merge_loop h refs (ord dups);
         let (h', refs') := hr : heap * list nat in
         Ok (h', filter (fun r => negb (isclose0 (m_coeff (h' r)))) refs')
  end.

(** pauli.py:251-263 [PauliSum.__init__] *)
Definition psum_init (ord : list nat -> list nat) (h : heap) (refs : list nat) : res (heap * list nat) :=
  if forallb (fun r => match refs with
                       | [] => true
                       | r0 :: _ => Nat.eqb (length (m_paulis (h r))) (length (m_paulis (h r0)))
                       end) refs
  then simplify ord h refs
  else Err AssertionError.

(** pauli.py:299-302 [PauliSum.__add__] *)
Definition psum_add (ord : list nat -> list nat) (h : heap) (a b : list nat) : res (heap * list nat) :=
  psum_init ord h (a ++ b).

(** the scalar argument by Python type *)
Inductive scalar_arg := SNum (c : gq) (* int, float or complex *) | SOther.

(** pauli.py:311-314 [PauliSum.scalar_mul] *)
Definition scalar_mul (h : heap) (refs : list nat) (s : scalar_arg) : res heap :=
  match s with
  | SOther => Err AssertionError
  | SNum c => Ok (fold_left (fun h r => hset h r (gmul (m_coeff (h r)) c)) refs h)
  end.

(** pauli.py:304-309 [PauliSum.__sub__]: the copy of [other] is shallow *)
Definition psum_sub (ord : list nat -> list nat) (h : heap) (a b : list nat) : res (heap * list nat) :=
  do h1 <- scalar_mul h b (SNum (gopp g1));
  psum_init ord h1 (a ++ b).

(** store a new object *)
Definition halloc (h : heap) (next : nat) (m : mono) : heap :=
  fun x => if Nat.eqb x next then m else h x.

(** pauli.py:293-296: the products, allocated in order; returns heap, next free
    reference and the list of new references *)
Fixpoint alloc_products (ordm : list nat -> list nat) (h : heap) (next : nat)
    (pairs : list (nat * nat)) : res (heap * nat * list nat) :=
  match pairs with
  | [] => Ok (h, next, [])
  | (i, j) :: t =>
      do m <- mono_mul ordm (h i) (h j);
      do r <- alloc_products ordm (halloc h next m) (S next) t;
      let '(h', next', refs) := r : heap * nat * list nat in
      Ok (h', next', next :: refs)
  end.

(** pauli.py:291-297 [PauliSum.__mul__] *)
Definition psum_mul (ordm ord : list nat -> list nat) (h : heap) (next : nat) (a b : list nat)
  : res (heap * nat * list nat) :=
  do r <- alloc_products ordm h next (flat_map (fun i => map (fun j => (i, j)) b) a);
  let '(h1, next1, refs) := r : heap * nat * list nat in
  do hr <- psum_init ord h1 refs;
  let (h2, refs2) := hr : heap * list nat in
  Ok (h2, next1, refs2).
