(** The products of oranssi/pauli.py (lines 7-55 and 98-243) once more, over any
    kind of numbers, and the kind the code computes with: pairs of IEEE double
    precision numbers. At the Gaussian rationals the definitions agree with
    PauliModel.v (C105_same_program). *)
From Coq Require Import ZArith Bool Floats.SpecFloat Arith List.
From Verif Require Import Py PauliModel.
Import ListNotations.
Local Open Scope nat_scope.

(** 1.0, *, -, == on coefficients, and 1j * levicevita(i, j, k) *)
Record numbers (K : Type) := mknumbers {
  n_one : K; n_mul : K -> K -> K; n_sub : K -> K -> K; n_eqb : K -> K -> bool; n_ilevi : Z -> Z -> Z -> K }.
Arguments n_one {K}. Arguments n_mul {K}. Arguments n_sub {K}. Arguments n_eqb {K}. Arguments n_ilevi {K}.

Record gpauli (K : Type) := mkgpauli { ga : nat; gg : nat; gc : K }.
Arguments mkgpauli {K}. Arguments ga {K}. Arguments gg {K}. Arguments gc {K}.
Record gmono (K : Type) := mkgmono { gm_locs : list nat; gm_paulis : list (gpauli K); gm_coeff : K }.
Arguments mkgmono {K}. Arguments gm_locs {K}. Arguments gm_paulis {K}. Arguments gm_coeff {K}.

Section Gen.
Context {K : Type} (N : numbers K).

(** lines 14-36 for a non-negative alpha and an integer gamma *)
Definition gPauli_init (alpha gamma : nat) (c : K) : res (gpauli K) :=
  if Nat.leb gamma 3 then Ok (mkgpauli alpha gamma c) else Err AssertionError.

(** lines 38-55; the factors in the last case are multiplied from the left *)
Definition gPauli_mul (p q : gpauli K) : res (gpauli K) :=
  if negb (Nat.eqb (ga p) (ga q)) then Err AssertionError
  else if Nat.eqb (gg p) (gg q) then gPauli_init (ga p) 0 (n_mul N (gc p) (gc q))
  else if Nat.eqb (gg p) 0 then gPauli_init (ga p) (gg q) (n_mul N (gc p) (gc q))
  else if Nat.eqb (gg q) 0 then gPauli_init (ga p) (gg p) (n_mul N (gc p) (gc q))
  else match filter (fun x => negb (mem x [gg p; gg q])) [1; 2; 3] with
       | [] => Err IndexError
       | new_gamma :: _ =>
           gPauli_init (ga p) new_gamma
             (n_mul N (n_mul N (n_ilevi N (Z.of_nat (gg p)) (Z.of_nat (gg q)) (Z.of_nat new_gamma)) (gc p)) (gc q))
       end.

Fixpoint g_insert (p : gpauli K) (l : list (gpauli K)) : list (gpauli K) :=
  match l with
  | [] => [p]
  | q :: r => if Nat.leb (ga p) (ga q) then p :: l else q :: g_insert p r
  end.
Definition g_sort (l : list (gpauli K)) : list (gpauli K) := fold_right g_insert [] l.

(** np.prod: the reduction starts with 1 and multiplies from the left *)
Definition g_prod (l : list K) : K := fold_left (n_mul N) l (n_one N).

(** lines 100-118 *)
Definition gmono_init (ps : list (gpauli K)) : res (gmono K) :=
  let ps := g_sort ps in
  let locs := map ga ps in
  if Nat.eqb (length (nodup Nat.eq_dec locs)) (length ps)
  then Ok (mkgmono locs ps (g_prod (map gc ps)))
  else Err AssertionError.

Definition gmono_at (m : gmono K) (i : nat) : res (gpauli K) :=
  do k <- list_index (gm_locs m) i;
  match nth_error (gm_paulis m) k with Some p => Ok p | None => Err IndexError end.

(** lines 124-145 *)
Definition gmono_mul (ord : list nat -> list nat) (a b : gmono K) : res (gmono K) :=
  let sa := nodup Nat.eq_dec (gm_locs a) in
  let sb := nodup Nat.eq_dec (gm_locs b) in
  let common := filter (fun i => mem i sb) sa in
  let a_unique := filter (fun i => negb (mem i common)) sa in
  let b_unique := filter (fun i => negb (mem i common)) sb in
  do l1 <- mapM (fun i => do p <- gmono_at a i; do q <- gmono_at b i; gPauli_mul p q) (ord common);
  do l2 <- mapM (fun j => do p <- gmono_at a j; gPauli_init (ga p) (gg p) (gc p)) (ord a_unique);
  do l3 <- mapM (fun k => do p <- gmono_at b k; gPauli_init (ga p) (gg p) (gc p)) (ord b_unique);
  gmono_init (l1 ++ l2 ++ l3).

(** lines 223-232 *)
Definition gmono_commutes_with (ord : list nat -> list nat) (a b : gmono K) : res bool :=
  do l <- gmono_mul ord a b;
  do r <- gmono_mul ord b a;
  Ok (n_eqb N (gm_coeff r) (gm_coeff l)).

(** lines 234-243 *)
Definition gmono_commutator (ord : list nat -> list nat) (a b : gmono K) : res (gmono K) :=
  do l <- gmono_mul ord a b;
  do r <- gmono_mul ord b a;
  Ok (mkgmono (gm_locs l) (gm_paulis l) (n_sub N (gm_coeff l) (gm_coeff r))).

End Gen.

(** ** Double precision *)

Definition float := spec_float.
Definition fmul : float -> float -> float := SFmul 53 1024.
Definition fadd : float -> float -> float := SFadd 53 1024.
Definition fsub : float -> float -> float := SFsub 53 1024.
Definition feqb : float -> float -> bool := SFeqb.
Definition f0 : float := S754_zero false.
Definition f1 : float := S754_finite false 4503599627370496 (-52).

(** Python's complex numbers: CPython's _Py_c_prod and numpy's loop multiply in this
    order; products fused with additions (some processors) are not modelled. A real
    coefficient is a complex one with imaginary part 0.0: the same results as
    Python's real arithmetic as long as nothing overflows *)
Definition fcomplex := (float * float)%type.
Definition cmul (x y : fcomplex) : fcomplex :=
  (fsub (fmul (fst x) (fst y)) (fmul (snd x) (snd y)), fadd (fmul (fst x) (snd y)) (fmul (snd x) (fst y))).
Definition csub (x y : fcomplex) : fcomplex := (fsub (fst x) (fst y), fsub (snd x) (snd y)).
Definition ceqb (x y : fcomplex) : bool := feqb (fst x) (fst y) && feqb (snd x) (snd y).

(** line 7: an integer divided by 2, rounded to double precision *)
Definition flevicevita (i j k : Z) : float := binary_normalize 53 1024 ((i - j) * (j - k) * (k - i)) (-1) false.

(** a float operand of * becomes a complex number with imaginary part 0.0 *)
Definition doubles : numbers fcomplex :=
  mknumbers _ (f1, f0) cmul csub ceqb (fun i j k => cmul (f0, f1) (flevicevita i j k, f0)).
