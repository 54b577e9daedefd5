(** Model of bch_recusion in experiments_paper/BCH.py (lines 118-132). Coefficients
    are numbers here; the script also uses sympy symbols. np.math is taken to be the
    module math, as in numpy before version 1.25. *)
From Coq Require Import List Arith ZArith QArith Qcanon Bool.
From Verif Require Import Py StarRing GaussQ PauliModel AlgGraphModel.
Import ListNotations.
Local Open Scope nat_scope.

(** 1 / math.factorial(n) and 1 / (-1 * math.factorial(n)), lines 127 and 132 *)
Definition inv_fact (n : nat) : gq := gofQ (1 # Pos.of_nat (fact n)).

(** lines 123-127 and 128-132: append the commutator, remove it again if its
    coefficient is 0, otherwise scale it *)
Definition bch_append (level : list mono) (c : mono) (q : gq) : list mono :=
  if geqb (m_coeff c) g0 then level else level ++ [set_coeff c (gmul (m_coeff c) q)].

(** lines 122-132, the body of the loop for the monomial t *)
Definition bch_body (ord : list nat -> list nat) (X Y : mono) (n : nat) (level : list mono) (t : mono) : res (list mono) :=
  do c <- mono_commutator ord X t;
  let level := bch_append level c (inv_fact n) in
  do d <- mono_commutator ord Y t;
  Ok (bch_append level d (gopp (inv_fact n))).

(** lines 118-132; the function changes the list [terms], which is returned here.
    [terms[-2]] raises IndexError when [terms] was empty before the call. *)
Definition bch_recusion (ord : list nat -> list nat) (X Y : mono) (terms : list (list mono)) : res (list (list mono)) :=
  let n := List.length terms + 1 in
  match rev terms with
  | [] => Err IndexError
  | previous :: _ => do level <- foldM_list (bch_body ord X Y n) previous []; Ok (terms ++ [level])
  end.

(** the loop of closeness_3, lines 148-149, with k rounds *)
Fixpoint bch_rounds (ord : list nat -> list nat) (X Y : mono) (k : nat) (terms : list (list mono)) : res (list (list mono)) :=
  match k with
  | 0 => Ok terms
  | S k' => do terms' <- bch_recusion ord X Y terms; bch_rounds ord X Y k' terms'
  end.
