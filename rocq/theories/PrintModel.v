(** Model of the printed forms of pauli.py. [show] is the rendering of a complex
    coefficient by Python ('{}'.format and f-strings), left arbitrary. *)
From Coq Require Import List Arith Bool String Ascii.
From Verif Require Import Py GaussQ PauliModel.
Import ListNotations.
Local Open Scope nat_scope.

(** pauli.py:70-73 [Pauli.__tex__(coeff=False)]; an index outside 0..3 raises KeyError *)
Definition Pauli_tex_nocoeff (p : pauli) : res string :=
  if p_gamma p =? 0 then Ok ("I_{" ++ show_nat (p_alpha p) ++ "}")%string
  else do g <- letter p; Ok ("\sigma_{" ++ show_nat (p_alpha p) ++ "}^{" ++ g ++ "}")%string.

(** pauli.py:62-69 [Pauli.__tex__()], 89-91 [Pauli.tex] *)
Definition Pauli_tex (show : gq -> string) (p : pauli) : res string :=
  if p_gamma p =? 0 then Ok (show (p_coeff p) ++ " I")%string
  else do g <- letter p; Ok (show (p_coeff p) ++ " \sigma_{" ++ show_nat (p_alpha p) ++ "}^{" ++ g ++ "}")%string.

(** pauli.py:188-193 [PauliMonomial.__tex__], 210-215 [PauliMonomial.tex] *)
Definition mono_tex (show : gq -> string) (coeff : bool) (m : mono) : res string :=
  do ts <- mapM Pauli_tex_nocoeff (m_paulis m);
  Ok (if coeff then (show (m_coeff m) ++ " " ++ String.concat " " ts)%string else String.concat " " ts).

(** pauli.py:195-203 [PauliMonomial.__repr__] *)
Definition mono_repr (show : gq -> string) (coeff : bool) (m : mono) : string :=
  let w := String.concat " " (map Pauli_repr_nocoeff (m_paulis m)) in
  if coeff then if geqb (m_coeff m) g1 then w else (show (m_coeff m) ++ " * " ++ w)%string else w.
