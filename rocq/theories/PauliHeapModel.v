(** Model of the Pauli objects of oranssi/pauli.py (lines 13-248) as objects: a
    monomial holds references to Pauli objects, and [conj] (lines 93-96 and
    217-221) changes these in place. PauliModel.v treats them as values. *)
From Coq Require Import List Arith ZArith QArith Qcanon Bool.
From Verif Require Import Py StarRing GaussQ PauliModel.
Import ListNotations.
Local Open Scope nat_scope.

(** The Pauli objects in the order of their creation; a reference is a position. *)
Definition pheap := list pauli.

(** attribute access through a reference; a program that uses a name it has not
    bound is recorded as IndexError *)
Definition pget (h : pheap) (r : nat) : res pauli :=
  match nth_error h r with Some p => Ok p | None => Err IndexError end.

(** a new Pauli object and its reference *)
Definition palloc (h : pheap) (p : pauli) : pheap * nat := (h ++ [p], length h).

(** assignment to an object *)
Fixpoint pset (h : pheap) (r : nat) (p : pauli) : pheap :=
  match h, r with
  | [], _ => []
  | _ :: t, O => p :: t
  | q :: t, S k => q :: pset t k p
  end.

(** attributes locations, monomial, coeff of a monomial object (lines 115-118) *)
Record hmono := { h_locs : list nat; h_refs : list nat; h_coeff : gq }.

(** sorted(list_of_paulis, key=lambda x: x.alpha) on references with their objects *)
Fixpoint insert_ref (x : nat * pauli) (l : list (nat * pauli)) : list (nat * pauli) :=
  match l with
  | [] => [x]
  | y :: r => if Nat.leb (p_alpha (snd x)) (p_alpha (snd y)) then x :: l else y :: insert_ref x r
  end.
Definition sort_refs (l : list (nat * pauli)) : list (nat * pauli) := fold_right insert_ref [] l.

(** lines 100-118 [PauliMonomial.__init__]: the references are kept, not copied *)
Definition hmono_init (h : pheap) (refs : list nat) : res hmono :=
  do ps <- mapM (pget h) refs;
  let s := sort_refs (combine refs ps) in
  let locs := map (fun x => p_alpha (snd x)) s in
  if Nat.eqb (length (nodup Nat.eq_dec locs)) (length s)
  then Ok {| h_locs := locs; h_refs := map fst s; h_coeff := gprod (map (fun x => p_coeff (snd x)) s) |}
  else Err AssertionError.

(** self[self.locations.index(i)] *)
Definition hmono_at (h : pheap) (m : hmono) (i : nat) : res pauli :=
  do k <- list_index (h_locs m) i;
  match nth_error (h_refs m) k with Some r => pget h r | None => Err IndexError end.

(** a loop that creates one Pauli object per site and appends it to new_monomial *)
Fixpoint alloc_loop (f : pheap -> nat -> res pauli) (h : pheap) (new : list nat) (sites : list nat) : res (pheap * list nat) :=
  match sites with
  | [] => Ok (h, new)
  | i :: r => do p <- f h i; let (h', x) := palloc h p in alloc_loop f h' (new ++ [x]) r
  end.

(** lines 124-145 [PauliMonomial.__mul__]; [ord] is the iteration order of sets *)
Definition hmono_mul (ord : list nat -> list nat) (h : pheap) (a b : hmono) : res (pheap * hmono) :=
  let sa := nodup Nat.eq_dec (h_locs a) in
  let sb := nodup Nat.eq_dec (h_locs b) in
  let common := filter (fun i => mem i sb) sa in
  let a_unique := filter (fun i => negb (mem i common)) sa in
  let b_unique := filter (fun i => negb (mem i common)) sb in
  do r1 <- alloc_loop (fun h i => do p <- hmono_at h a i; do q <- hmono_at h b i; Pauli_mul p q) h [] (ord common);
  let (h1, l1) := r1 : pheap * list nat in
  do r2 <- alloc_loop (fun h j => do p <- hmono_at h a j; Pauli_copy p) h1 l1 (ord a_unique);
  let (h2, l2) := r2 : pheap * list nat in
  do r3 <- alloc_loop (fun h k => do p <- hmono_at h b k; Pauli_copy p) h2 l2 (ord b_unique);
  let (h3, l3) := r3 : pheap * list nat in
  do m <- hmono_init h3 l3;
  Ok (h3, m).

(** lines 234-243 [PauliMonomial.commutator] *)
Definition hmono_commutator (ord : list nat -> list nat) (h : pheap) (a b : hmono) : res (pheap * hmono) :=
  do l <- hmono_mul ord h a b;
  let (h1, left_side) := l : pheap * hmono in
  do r <- hmono_mul ord h1 b a;
  let (h2, right_side) := r : pheap * hmono in
  Ok (h2, {| h_locs := h_locs left_side; h_refs := h_refs left_side; h_coeff := gsub (h_coeff left_side) (h_coeff right_side) |}).

(** lines 93-96 [Pauli.conj] *)
Definition pconj (h : pheap) (r : nat) : res pheap :=
  do p <- pget h r; Ok (pset h r (Pauli_conj p)).

(** lines 217-221 [PauliMonomial.conj], the loop over self.monomial *)
Fixpoint conj_loop (h : pheap) (refs : list nat) : res pheap :=
  match refs with
  | [] => Ok h
  | r :: t => do h' <- pconj h r; conj_loop h' t
  end.

(** ** Programs *)

(** the Pauli and monomial objects a program has made, in the order of creation *)
Record store := mkstore { st_paulis : pheap; st_monos : list hmono }.

(** The statements of a program that works with these objects. Objects are named by
    their position in the store, so a program may refer to any Pauli object, for
    instance as m[k]. The right hand side of [SSetCoeff] is any number: scalar_mul
    and simplify of PauliSum assign to coeff. *)
Inductive stmt :=
| SPauli (alpha : Z) (gamma : gamma_arg) (coeff : coeff_arg)   (* Pauli(alpha, gamma, coeff) *)
| SPauliMul (p q : nat)                                        (* p * q *)
| SMono (refs : list nat)                                      (* PauliMonomial([...]) *)
| SMul (a b : nat)                                             (* a * b *)
| SCommutator (a b : nat)                                      (* a.commutator(b) *)
| SConjPauli (p : nat)                                         (* p.conj() *)
| SConjMono (m : nat)                                          (* m.conj() *)
| SSetCoeff (m : nat) (c : gq).                                (* m.coeff = c *)

Definition mget (st : store) (m : nat) : res hmono :=
  match nth_error (st_monos st) m with Some x => Ok x | None => Err IndexError end.

Fixpoint set_hcoeff (l : list hmono) (m : nat) (c : gq) : list hmono :=
  match l, m with
  | [], _ => []
  | x :: t, O => {| h_locs := h_locs x; h_refs := h_refs x; h_coeff := c |} :: t
  | x :: t, S k => x :: set_hcoeff t k c
  end.

Definition exec (ord : list nat -> list nat) (st : store) (s : stmt) : res store :=
  let h := st_paulis st in
  match s with
  | SPauli a g c => do p <- Pauli_init a g c; Ok (mkstore (fst (palloc h p)) (st_monos st))
  | SPauliMul p q => do x <- pget h p; do y <- pget h q; do z <- Pauli_mul x y; Ok (mkstore (fst (palloc h z)) (st_monos st))
  | SMono refs => do m <- hmono_init h refs; Ok (mkstore h (st_monos st ++ [m]))
  | SMul a b => do x <- mget st a; do y <- mget st b; do r <- hmono_mul ord h x y; Ok (mkstore (fst r) (st_monos st ++ [snd r]))
  | SCommutator a b => do x <- mget st a; do y <- mget st b; do r <- hmono_commutator ord h x y; Ok (mkstore (fst r) (st_monos st ++ [snd r]))
  | SConjPauli p => do h' <- pconj h p; Ok (mkstore h' (st_monos st))
  | SConjMono m => do x <- mget st m; do h' <- conj_loop h (h_refs x); Ok (mkstore h' (st_monos st))
  | SSetCoeff m c => do _ <- mget st m; Ok (mkstore h (set_hcoeff (st_monos st) m c))
  end.

Fixpoint run_from (ord : list nat -> list nat) (st : store) (prog : list stmt) : res store :=
  match prog with
  | [] => Ok st
  | s :: r => do st' <- exec ord st s; run_from ord st' r
  end.
Definition run (ord : list nat -> list nat) (prog : list stmt) : res store := run_from ord (mkstore [] []) prog.
