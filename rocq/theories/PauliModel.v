(** Model of oranssi/pauli.py: [Pauli] and [PauliMonomial] (lines 7-248).

    Coefficients are Gaussian rationals (exact arithmetic instead of complex
    floats); sympy coefficients are not modelled. Pauli objects are values;
    PauliHeapModel.v represents Pauli objects shared by several monomials, and
    C104_values shows that the results below are the same. *)
From Coq Require Import List Arith ZArith QArith Qcanon Bool String Ascii Decimal DecimalString.
From Verif Require Import Py StarRing GaussQ.
Import ListNotations.
Local Open Scope nat_scope.

(** Arguments of the constructor, by Python type. *)
Inductive gamma_arg := GInt (z : Z) | GStr (s : string) | GOther.
Inductive coeff_arg := CNum (c : gq) (* float or complex *) | CInt (z : Z) | COther.

(** pauli.py:14-36, attributes alpha, gamma, coeff *)
Record pauli := { p_alpha : nat; p_gamma : nat; p_coeff : gq }.

(** pauli.py:8 [pauli_idx_str2int_map] *)
Definition pauli_idx_str2int_map : list (string * nat) :=
  [("I"%string, 0); ("X"%string, 1); ("Y"%string, 2); ("Z"%string, 3)].
Definition str2int (s : string) : option nat :=
  match find (fun kv => String.eqb (fst kv) s) pauli_idx_str2int_map with
  | Some kv => Some (snd kv) | None => None
  end.
(** pauli.py:9-10 [pauli_idx_int2str_map] *)
Definition int2str (g : nat) : option string :=
  match find (fun kv => Nat.eqb (snd kv) g) pauli_idx_str2int_map with
  | Some kv => Some (fst kv) | None => None
  end.

(** pauli.py:14-36 [Pauli.__init__]. alpha is an [int] here (any other type is
    rejected by line 15). An [int] coefficient is rejected by lines 19-20. *)
Definition Pauli_init (alpha : Z) (gamma : gamma_arg) (coeff : coeff_arg) : res pauli :=
  if (alpha <? 0)%Z then Err AssertionError
  else match gamma, coeff with
  | GOther, _ => Err AssertionError
  | _, CInt _ => Err AssertionError
  | _, COther => Err AssertionError
  | GStr s, CNum c =>
      match str2int s with
      | Some g => Ok {| p_alpha := Z.to_nat alpha; p_gamma := g; p_coeff := c |}
      | None => Err AssertionError
      end
  | GInt z, CNum c =>
      if existsb (fun kv => Z.eqb z (Z.of_nat (snd kv))) pauli_idx_str2int_map
      then Ok {| p_alpha := Z.to_nat alpha; p_gamma := Z.to_nat z; p_coeff := c |}
      else Err AssertionError
  end.

(** pauli.py:7 [levicevita] *)
Definition levicevita (i j k : Z) : gq := gofQ (((i - j) * (j - k) * (k - i)) # 2).

(** pauli.py:38-55 [Pauli.__mul__] *)
Definition Pauli_mul (p q : pauli) : res pauli :=
  if negb (Nat.eqb (p_alpha p) (p_alpha q)) then Err AssertionError
  else
    let a := Z.of_nat (p_alpha p) in
    let g := p_gamma p in let h := p_gamma q in
    let c := gmul (p_coeff p) (p_coeff q) in
    if Nat.eqb g h then Pauli_init a (GInt 0) (CNum c)
    else if Nat.eqb g 0 then Pauli_init a (GInt (Z.of_nat h)) (CNum c)
    else if Nat.eqb h 0 then Pauli_init a (GInt (Z.of_nat g)) (CNum c)
    else match filter (fun x => negb (mem x [g; h])) [1; 2; 3] with
         | [] => Err IndexError
         | new_gamma :: _ =>
             Pauli_init a (GInt (Z.of_nat new_gamma))
               (CNum (gmul (gmul (gmul gi (levicevita (Z.of_nat g) (Z.of_nat h) (Z.of_nat new_gamma)))
                                 (p_coeff p)) (p_coeff q)))
         end.

(** pauli.py:57-60 [Pauli.__eq__] *)
Definition Pauli_eq (p q : pauli) : bool :=
  Nat.eqb (p_alpha p) (p_alpha q) && Nat.eqb (p_gamma p) (p_gamma q).

(** decimal rendering of a non-negative integer in an f-string *)
Definition show_nat (n : nat) : string := NilEmpty.string_of_uint (Nat.to_uint n).

(** pauli.py:83 [Pauli.__repr__(coeff=False)] *)
Definition Pauli_repr_nocoeff (p : pauli) : string :=
  ("S(" ++ show_nat (p_alpha p) ++ "," ++ show_nat (p_gamma p) ++ ")")%string.

(** pauli.py:75-83 [Pauli.__repr__], with [show] the rendering of a complex
    coefficient (left arbitrary); this is also the text that is hashed (85-87). *)
Definition Pauli_repr (show : gq -> string) (p : pauli) : string :=
  if geqb (p_coeff p) g1 then Pauli_repr_nocoeff p
  else (show (p_coeff p) ++ " * " ++ Pauli_repr_nocoeff p)%string.

(** pauli.py:93-96 [Pauli.conj] *)
Definition Pauli_conj (p : pauli) : pauli :=
  {| p_alpha := p_alpha p; p_gamma := p_gamma p; p_coeff := gconj (p_coeff p) |}.

(** ** PauliMonomial *)

(** attributes locations, monomial, coeff (pauli.py:115-118) *)
Record mono := { m_locs : list nat; m_paulis : list pauli; m_coeff : gq }.

(** Python's stable [sorted(..., key=alpha)] as insertion sort. *)
Fixpoint insert_alpha (p : pauli) (l : list pauli) : list pauli :=
  match l with
  | [] => [p]
  | q :: r => if Nat.leb (p_alpha p) (p_alpha q) then p :: l else q :: insert_alpha p r
  end.
Definition sort_alpha (l : list pauli) : list pauli := fold_right insert_alpha [] l.

(** [np.prod] of a list of coefficients (1.0 for the empty list) *)
Definition gprod (l : list gq) : gq := fold_left gmul l g1.

(** pauli.py:100-118 [PauliMonomial.__init__] *)
Definition mono_init (ps : list pauli) : res mono :=
  let ps := sort_alpha ps in
  let locs := map p_alpha ps in
  if Nat.eqb (List.length (nodup Nat.eq_dec locs)) (List.length ps)
  then Ok {| m_locs := locs; m_paulis := ps; m_coeff := gprod (map p_coeff ps) |}
  else Err AssertionError.

(** [list.index] *)
Fixpoint list_index (l : list nat) (x : nat) : res nat :=
  match l with
  | [] => Err ValueError
  | y :: r => if Nat.eqb y x then Ok 0 else do k <- list_index r x; Ok (S k)
  end.

(** pauli.py:120-122 [PauliMonomial.__getitem__] *)
Definition mono_getitem (m : mono) (k : nat) : res pauli :=
  match nth_error (m_paulis m) k with Some p => Ok p | None => Err IndexError end.

(** [self[self.locations.index(i)]] *)
Definition mono_at (m : mono) (i : nat) : res pauli :=
  do k <- list_index (m_locs m) i; mono_getitem m k.

(** [Pauli(p.alpha, p.gamma, p.coeff)] *)
Definition Pauli_copy (p : pauli) : res pauli :=
  Pauli_init (Z.of_nat (p_alpha p)) (GInt (Z.of_nat (p_gamma p))) (CNum (p_coeff p)).

(** pauli.py:124-145 [PauliMonomial.__mul__]. [ord] is the (arbitrary) order in
    which Python iterates over a set. *)
Definition mono_mul (ord : list nat -> list nat) (a b : mono) : res mono :=
  let sa := nodup Nat.eq_dec (m_locs a) in
  let sb := nodup Nat.eq_dec (m_locs b) in
  let common := filter (fun i => mem i sb) sa in
  let a_unique := filter (fun i => negb (mem i common)) sa in
  let b_unique := filter (fun i => negb (mem i common)) sb in
  do l1 <- mapM (fun i => do p <- mono_at a i; do q <- mono_at b i; Pauli_mul p q) (ord common);
  do l2 <- mapM (fun j => do p <- mono_at a j; Pauli_copy p) (ord a_unique);
  do l3 <- mapM (fun k => do p <- mono_at b k; Pauli_copy p) (ord b_unique);
  mono_init (l1 ++ l2 ++ l3).

(** [np.isreal]: imaginary part equal to 0 *)
Definition isreal (c : gq) : bool := Qc_eq_bool (gim c) 0%Qc.

(** [all([p == q for p, q in zip(l, l')])] *)
Fixpoint zip_eq (l l' : list pauli) : bool :=
  match l, l' with
  | p :: r, q :: r' => Pauli_eq p q && zip_eq r r'
  | _, _ => true
  end.

(** pauli.py:147-158 [PauliMonomial.__eq__] *)
Definition mono_eq (a b : mono) : res bool :=
  if negb (Nat.eqb (List.length (m_paulis a)) (List.length (m_paulis b))) then Err AssertionError
  else if (isreal (m_coeff a) && isreal (m_coeff b)) ||
          (negb (isreal (m_coeff a)) && negb (isreal (m_coeff b)))
  then Ok (zip_eq (m_paulis a) (m_paulis b))
  else Ok false.

(** Python's [<] on lists of integers *)
Fixpoint list_lt (l l' : list nat) : bool :=
  match l, l' with
  | _, [] => false
  | [], _ :: _ => true
  | x :: r, y :: r' => if Nat.eqb x y then list_lt r r' else Nat.ltb x y
  end.

Definition Qcltb (x y : Qc) : bool := if Qclt_le_dec x y then true else false.

(** pauli.py:163-186 [PauliMonomial.__lt__] *)
Definition mono_lt (a b : mono) : bool :=
  let ga := map p_gamma (m_paulis a) in
  let gb := map p_gamma (m_paulis b) in
  if list_eq_dec Nat.eq_dec ga gb then
    if negb (isreal (m_coeff a)) && isreal (m_coeff b) then true
    else if isreal (m_coeff a) && negb (isreal (m_coeff b)) then true
    else Qcltb (gre (m_coeff a) + gim (m_coeff a))%Qc (gre (m_coeff b) + gim (m_coeff b))%Qc
  else list_lt ga gb.

(** pauli.py:205-208: the text hashed by [PauliMonomial.__hash__] *)
Definition mono_hash_text (m : mono) : string :=
  ((if isreal (m_coeff m) then "re" else "im")
     ++ String.concat " " (map Pauli_repr_nocoeff (m_paulis m)))%string.

(** pauli.py:217-221 [PauliMonomial.conj]: the monomial's own coeff is not touched *)
Definition mono_conj (m : mono) : mono :=
  {| m_locs := m_locs m; m_paulis := map Pauli_conj (m_paulis m); m_coeff := m_coeff m |}.

(** pauli.py:223-232 [PauliMonomial.commutes_with] *)
Definition mono_commutes_with (ord : list nat -> list nat) (a b : mono) : res bool :=
  do l <- mono_mul ord a b;
  do r <- mono_mul ord b a;
  Ok (geqb (m_coeff r) (m_coeff l)).

(** assignment to the attribute [coeff] *)
Definition set_coeff (m : mono) (c : gq) : mono :=
  {| m_locs := m_locs m; m_paulis := m_paulis m; m_coeff := c |}.

(** pauli.py:234-243 [PauliMonomial.commutator] *)
Definition mono_commutator (ord : list nat -> list nat) (a b : mono) : res mono :=
  do l <- mono_mul ord a b;
  do r <- mono_mul ord b a;
  Ok (set_coeff l (gsub (m_coeff l) (m_coeff r))).

(** one character of the string of [to_oranssi]; indices outside 0..3 raise KeyError *)
Definition letter (p : pauli) : res string :=
  match int2str (p_gamma p) with Some s => Ok s | None => Err KeyError end.

(** pauli.py:245-248 [PauliMonomial.to_oranssi] *)
Definition mono_to_oranssi (m : mono) : res (string * list nat) :=
  let ps := filter (fun p => negb (Nat.eqb (p_gamma p) 0)) (m_paulis m) in
  do ls <- mapM letter ps;
  Ok (String.concat "" ls, map p_alpha ps).
