(** Model of rotosolve (oranssi/opt_tools.py lines 1272-1305) and of the layers
    that use it: SquaredLieAlgebraLayer without commute (lines 378-481),
    SU8_AlgebraLayer (605-681) and ZassenhausLayer (684-893).
    Simplifications as in LayerModel.v; in addition the QNode obs_qnode applied
    to an observable is the quadratic form of its full matrix. *)
From Coq Require Import ZArith QArith Qcanon Qreals Arith Lia Bool String Ascii Reals List.
From Coquelicot Require Import Coquelicot.
From Verif Require Import Py StarRing Matrix GaussQ Cplx Expm UtilsModel CircuitModel AlgebraModel LayerModel PauliModel.
From Coq Require Import List.
Import ListNotations.
Local Open Scope nat_scope.

(** np.arctan2(y, x). The reals have one zero, so the cases of negative zero
    are not distinguished. *)
Definition np_arctan2 (y x : R) : R :=
  if Rlt_dec 0 x then atan (y / x)
  else if Rlt_dec x 0 then (if Rlt_dec y 0 then atan (y / x) - PI else atan (y / x) + PI)
  else if Rlt_dec 0 y then PI / 2
  else if Rlt_dec y 0 then - (PI / 2) else 0.

(** ssla.expm(-1j * t * pauli / 2 ** k) *)
Definition roto_gate (n k : nat) (P : mat C) (t : R) : mat C := expm (2 ^ n) (mscale (mit (t / 2 ^ k)) P).

(** the sum over the observables of obs_qnode(unitary=U, observable=o) *)
Definition total_cost (n : nat) (obs : list (arr C)) (U : mat C) : R :=
  fold_left (fun s o => (s + qnode_expval n U (a_ent o))%R) obs 0%R.

(** lines 1272-1305; [k] is the argument called nqubits there *)
Definition rotosolve (n : nat) (P : mat C) (obs : list (arr C)) (U : mat C) (k : nat) : mat C * R :=
  let d := 2 ^ n in
  let H_0 := total_cost n obs U in
  let H_p := total_cost n obs (mmul d (roto_gate n k P (PI / 2)) U) in
  let H_m := total_cost n obs (mmul d (roto_gate n k P (- (PI / 2))) U) in
  let eta := (- PI / 2 - np_arctan2 (2 * H_0 - H_p - H_m) (H_p - H_m))%R in
  (mmul d (roto_gate n k P eta) U, eta).

(** the sum over the observables of
    float((phi.conj().T @ (pauli @ obs - obs @ pauli) @ phi).imag[0, 0]) *)
Definition gradient (n : nat) (phi : nat -> C) (obs : list (arr C)) (P : mat C) : R :=
  fold_left (fun s o => (s + Im (omega (2 ^ n) phi P (a_ent o)))%R) obs 0%R.

(** max(d, key=d.get): the first key with the largest value *)
Fixpoint argmax {A} (best : A) (v : R) (l : list (A * R)) : A :=
  match l with
  | [] => best
  | (k, w) :: r => if Rlt_dec v w then argmax k w r else argmax best v r
  end.
Definition py_max_key {A} (l : list (A * R)) : res A :=
  match l with [] => Err ValueError | (k, v) :: r => Ok (argmax k v r) end.

(** ** SquaredLieAlgebraLayer and SU8_AlgebraLayer *)

(** nqubits, lastate.full_paulis, observables_full, previous_pauli ([None] for
    the initial ('Null', 0), which is no key). The attribute current_pauli is
    always equal to previous_pauli after a call and is not read elsewhere. *)
Record greedy_layer := mkgreedy {
  gr_n : nat; gr_table : list (key * arr C); gr_obs : list (arr C); gr_prev : option key }.

(** lines 379-425 *)
Definition SquaredLieAlgebraLayer (n : nat) (observables : list (qop C)) (eta : R) : res greedy_layer :=
  do _ <- mapM (full n) observables;
  do _ <- py_assert (Rleb 0 eta && Rleb eta 1);
  do a0 <- AlgebraSU4 (K := C) n true;
  do obs <- mapM (full n) observables;
  do a <- get_all_directions_and_qubits a0;
  Ok (mkgreedy n (al_full (al_core a)) obs None).

Definition is_prev (prev : option key) (k : key) : bool :=
  match prev with Some p => key_eqb k p | None => false end.

(** the dictionary omegas: the keys other than the excluded one, with |gradient| *)
Definition abs_gradients (n : nat) (phi : nat -> C) (obs : list (arr C)) (table : list (key * arr C)) : list (key * R) :=
  map (fun kv => (fst kv, Rabs (gradient n phi obs (a_ent (snd kv))))) table.

(** k_max = max(...) followed by rotosolve(full_paulis[k_max], ..., len(k_max[0])) *)
Definition greedy_step (n : nat) (table admissible : list (key * arr C)) (obs : list (arr C)) (U : mat C)
    : res (key * (mat C * R)) :=
  do k <- py_max_key (abs_gradients n (qnode_state U) obs admissible);
  do P <- dget key_eqb table k;
  Ok (k, rotosolve n (a_ent P) obs U (String.length (fst k))).

(** __call__ with commute=False, lines 427-438 and 465-475 *)
Definition squared_call (l : greedy_layer) (U : mat C) : res (mat C * greedy_layer) :=
  do r <- greedy_step (gr_n l) (gr_table l) (filter (fun kv => negb (is_prev (gr_prev l) (fst kv))) (gr_table l)) (gr_obs l) U;
  Ok (fst (snd r), mkgreedy (gr_n l) (gr_table l) (gr_obs l) (Some (fst r))).

(** lines 606-651 *)
Definition SU8_AlgebraLayer (n : nat) (observables : list (qop C)) (eta : R) (add_su2 add_su4 : bool) : res greedy_layer :=
  do _ <- mapM (full n) observables;
  do _ <- py_assert (Rleb 0 eta && Rleb eta 1);
  do _ <- py_assert (Nat.leb 3 n);
  do a0 <- AlgebraSU8 (K := C) n add_su2 add_su4;
  do obs <- mapM (full n) observables;
  do a <- get_all_directions_and_qubits8 a0;
  Ok (mkgreedy n (al_full (al8_core a)) obs None).

(** __call__, lines 653-671 *)
Definition su8_call (l : greedy_layer) (U : mat C) : res (mat C * greedy_layer) :=
  do r <- greedy_step (gr_n l) (gr_table l) (gr_table l) (gr_obs l) U;
  Ok (fst (snd r), mkgreedy (gr_n l) (gr_table l) (gr_obs l) (Some (fst r))).

(** ** ZassenhausLayer *)

(** The attributes used by the calls: eta, lastates[1].full_paulis,
    lastates[2].full_paulis, observables_full, ratio, counter, su_state (true
    for 'su4'), current_pauli, previous_eta (both absent at first). The
    elements of ratio are integers. *)
Record zas_layer := mkzas {
  za_n : nat; za_eta : R; za_su4 : list (key * arr C); za_su8 : list (key * arr C); za_obs : list (arr C);
  za_ratio : Z * Z; za_counter : Z; za_state : bool; za_current : option key; za_prev_eta : option R }.

(** lines 685-744; lastates[0] is built but not used by the calls *)
Definition ZassenhausLayer (n : nat) (observables : list (qop C)) (eta : R) (add_su2 add_su4 : bool) (ratio : Z * Z) : res zas_layer :=
  do _ <- mapM (full n) observables;
  do _ <- py_assert (Rleb 0 eta && Rleb eta 1);
  do _ <- py_assert (Nat.leb 3 n);
  do a2 <- AlgebraSU2 (K := C) n;
  do a4 <- AlgebraSU4 (K := C) n add_su2;
  do a8 <- AlgebraSU8 (K := C) n add_su2 add_su4;
  do obs <- mapM (full n) observables;
  do _ <- get_all_directions_and_qubits a2;
  do b4 <- get_all_directions_and_qubits a4;
  do b8 <- get_all_directions_and_qubits8 a8;
  Ok (mkzas n eta (al_full (al_core b4)) (al_full (al8_core b8)) obs ratio 0%Z true None None).

(** the characters of a string as strings *)
Fixpoint chars (s : string) : list string :=
  match s with EmptyString => [] | Coq.Strings.String.String c r => Coq.Strings.String.String c EmptyString :: chars r end.

(** PauliMonomial([Pauli(loc, pauli) for pauli, loc in zip(k[0], k[1:])]), lines 790-792 *)
Definition key_mono (k : key) : res mono :=
  do ps <- mapM (fun cl => Pauli_init (Z.of_nat (snd cl)) (GStr (fst cl)) (CNum g1)) (combine (chars (fst k)) (snd k));
  mono_init ps.

(** lines 793-796: the key of a monomial, identity letters included *)
Definition mono_key (m : mono) : res key :=
  do ls <- mapM letter (m_paulis m); Ok (String.concat "" ls, map p_alpha (m_paulis m)).

(** sum(ki in current[1:] for ki in k[1:]), line 788 *)
Definition shared_sites (current k : key) : nat :=
  List.length (filter (fun q => mem q (snd current)) (snd k)).

(** p_ab.coeff.imag *)
Definition imag_coeff (m : mono) : R := Q2R (this (gim (m_coeff m))).

(** the dictionaries omegas_su8, omegas_su8_k, omegas_su8_signs, omegas_su4;
    the first three always have the same keys and are kept together *)
Record cands := mkcands { cd_su8 : list (key * (R * key * R)); cd_su4 : list (key * R) }.

(** one iteration of the loop of lines 787-814; [ord] is the iteration order of
    the sets inside PauliMonomial.__mul__ *)
Definition cand_step (ord : list nat -> list nat) (n : nat) (phi : nat -> C) (obs : list (arr C))
    (su4 su8 : list (key * arr C)) (current : key) (c : cands) (kP : key * arr C) : res cands :=
  let k := fst kP in
  if negb (Nat.eqb (shared_sites current k) 1) then Ok c
  else
    do p_a <- key_mono current;
    do p_b <- key_mono k;
    do p_ab <- mono_commutator ord p_a p_b;
    do AB <- mono_key p_ab;
    if str_in "I"%string (chars (fst AB)) then Ok c
    else
      do P8 <- dget key_eqb su8 AB;
      do P4 <- dget key_eqb su4 k;
      Ok (mkcands (dset key_eqb (cd_su8 c) AB (Rabs (gradient n phi obs (a_ent P8)), k, imag_coeff p_ab))
                  (dset key_eqb (cd_su4 c) k (gradient n phi obs (a_ent P4)))).

(** the loop of lines 819-828: the first candidate with a visible gradient whose
    partner has a non-zero gradient *)
Fixpoint pick_cand (c4 : list (key * R)) (l : list (key * (R * key * R))) : res (option (key * key)) :=
  match l with
  | [] => Ok None
  | (k, (v, B, _)) :: r =>
      if Rlt_dec (/ 1000) (Rabs v) then
        do w <- dget key_eqb c4 B;
        if Rlt_dec 0 (Rabs w) then Ok (Some (k, B)) else pick_cand c4 r
      else pick_cand c4 r
  end.

(** __call__, lines 746-881. A call in state 'su8' needs current_pauli and
    previous_eta, which the first call in state 'su4' sets; before that the
    lookup full_paulis[None] raises KeyError. Without a candidate k_max is
    unbound. When previous_eta is 0 the quotient is infinite or nan and the
    result is not unitary, which the next QNode rejects with ValueError;
    recorded here already in this call. *)
Definition zas_call (ord : list nat -> list nat) (l : zas_layer) (U : mat C) : res (mat C * zas_layer) :=
  let n := za_n l in
  let phi := qnode_state U in
  if za_state l then
    do r <- greedy_step n (za_su4 l) (za_su4 l) (za_obs l) U;
    let '(k, (V, eta)) := r in
    let c := (za_counter l + 1)%Z in
    let switch := Z.leb (fst (za_ratio l)) c in
    Ok (V, mkzas n (za_eta l) (za_su4 l) (za_su8 l) (za_obs l) (za_ratio l)
             (if switch then 0%Z else c) (negb switch) (Some k) (Some eta))
  else
    match za_current l, za_prev_eta l with
    | Some current, Some omegas_A =>
        do _ <- dget key_eqb (za_su4 l) current;
        do cs <- foldM (cand_step ord n phi (za_obs l) (za_su4 l) (za_su8 l) current) (za_su4 l) (mkcands [] []);
        do kB <- pick_cand (cd_su4 cs) (cd_su8 cs);
        match kB with
        | None => Err UnboundLocalError
        | Some (k_max, B) =>
            do P8 <- dget key_eqb (za_su8 l) k_max;
            do vBs <- dget key_eqb (cd_su8 cs) k_max;
            let sign := snd vBs in
            if Req_EM_T omegas_A 0 then Err ValueError
            else
              let omegas_AB := gradient n phi (za_obs l) (a_ent P8) in
              let omegas_B := (- (omegas_AB * 2 / omegas_A) / sign)%R in
              do PB <- dget key_eqb (za_su4 l) B;
              let V := mmul (2 ^ n) (expm (2 ^ n) (mscale (mit (za_eta l * omegas_B / 2 ^ n)) (a_ent PB))) U in
              let c := (za_counter l + 1)%Z in
              let switch := Z.leb (snd (za_ratio l)) c in
              Ok (V, mkzas n (za_eta l) (za_su4 l) (za_su8 l) (za_obs l) (za_ratio l)
                       (if switch then 0%Z else c) switch (Some B) (za_prev_eta l))
        end
    | _, _ => Err KeyError
    end.
