(** Properties C32-C39: oranssi/circuit_tools.py and the circuit unitary. *)
From Coq Require Import Arith Lia Bool String Permutation Reals Lra Ring Setoid Morphisms.
From Coquelicot Require Import Coquelicot.
From Verif Require Import Py StarRing Matrix GaussQ Cplx PauliSpec Bits PauliBasis UtilsModel UtilsProofs Expm CircuitModel CircuitProofs CircuitProofs2.
From Coq Require Import List.
Import ListNotations.
Local Open Scope nat_scope.

(** ** Specification: wire [w] of an n-qubit index, wire 0 most significant *)
Definition wire_bit (n w r : nat) : nat := (r / 2 ^ (n - 1 - w)) mod 2.

Lemma nth_bits n : forall w r, w < n -> r < 2 ^ n -> nth w (bits n r) 0 = wire_bit n w r.
Proof.
  unfold wire_bit. induction n as [|n IH]; intros w r Hw Hr; [lia|]. cbn [bits]. destruct w as [|w].
  - cbn [nth]. replace (S n - 1 - 0) with n by lia. rewrite Nat.mod_small; auto.
    apply Nat.div_lt_upper_bound; [apply pow2_nz|]. rewrite Nat.pow_succ_r' in Hr. lia.
  - cbn [nth]. rewrite IH; [|lia|apply Nat.mod_upper_bound, pow2_nz].
    replace (S n - 1 - S w) with (n - 1 - w) by lia.
    assert (E : 2 ^ n = 2 ^ (n - 1 - w) * (2 * 2 ^ w)).
    { rewrite <- Nat.pow_succ_r', <- Nat.pow_add_r. f_equal. lia. }
    set (a := 2 ^ (n - 1 - w)) in *. set (b := 2 ^ w) in *.
    assert (a <> 0) by apply pow2_nz. assert (b <> 0) by apply pow2_nz.
    rewrite E, Nat.mod_mul_r by lia.
    rewrite (Nat.mul_comm a), Nat.div_add by auto.
    rewrite (Nat.div_small (r mod a)) by (apply Nat.mod_upper_bound; auto). rewrite Nat.add_0_l.
    rewrite (Nat.mod_mul_r _ 2 b) by lia. rewrite Nat.mul_comm, Nat.mod_add by lia. apply Nat.mod_mod. lia.
Qed.

Lemma nth_ext0 (l m : list nat) : List.length l = List.length m -> (forall i, i < List.length l -> nth i l 0 = nth i m 0) -> l = m.
Proof. intros H1 H2. apply (nth_ext l m 0 0); auto. Qed.

Lemma sel_spec n ws r a : Forall (fun w => w < n) ws -> r < 2 ^ n -> a < 2 ^ List.length ws ->
  (forall i, i < List.length ws -> wire_bit (List.length ws) i a = wire_bit n (nth i ws 0) r) ->
  unbits (sel ws (bits n r)) = a.
Proof.
  intros Hw Hr Ha H. rewrite <- (unbits_bits (List.length ws) a) by auto. f_equal.
  unfold sel. apply nth_ext0; rewrite map_length; [rewrite bits_length; auto|]. intros i Hi.
  rewrite nth_bits by auto. rewrite H by auto.
  rewrite (nth_indep _ 0 (nth 0 (bits n r) 0)) by (rewrite map_length; auto).
  rewrite (map_nth (fun w => nth w (bits n r) 0)). rewrite nth_bits; auto. rewrite Forall_forall in Hw. apply Hw. apply nth_In; auto.
Qed.

(** C32. [a], [b] are the row and column of the small operator whose wires
    carry the bits of [r], [c] on the given wires. *)
Theorem C32_full_operator_entries : forall (K : Type) (SR : StarRing K) n ws (op : arr K),
  ws <> [] -> NoDup ws -> Forall (fun w => w < n) ws ->
  a_rows op = 2 ^ List.length ws -> a_cols op = 2 ^ List.length ws ->
  exists F, get_full_operator op ws n = Ok F /\ a_rows F = 2 ^ n /\ a_cols F = 2 ^ n /\
  forall r c, r < 2 ^ n -> c < 2 ^ n ->
    ((exists v, v < n /\ ~ In v ws /\ wire_bit n v r <> wire_bit n v c) -> a_ent F r c = k0) /\
    ((forall v, v < n -> ~ In v ws -> wire_bit n v r = wire_bit n v c) ->
     forall a b, a < 2 ^ List.length ws -> b < 2 ^ List.length ws ->
       (forall i, i < List.length ws -> wire_bit (List.length ws) i a = wire_bit n (nth i ws 0) r) ->
       (forall i, i < List.length ws -> wire_bit (List.length ws) i b = wire_bit n (nth i ws 0) c) ->
       a_ent F r c = a_ent op a b).
Proof.
  intros K SR n ws op Hne Hnd Hw Hr Hc.
  destruct (full_is_emb n ws op Hne (conj Hnd Hw) Hr Hc) as (F & E & E1 & E2 & M).
  exists F. split; [exact E|]. split; [exact E1|]. split; [exact E2|]. intros r c Hr' Hc'. rewrite (M r c Hr' Hc'). unfold emb.
  split.
  - intros (v & Hv & Hin & Hb). destruct (agree_off n ws (bits n r) (bits n c)) eqn:Ea; auto.
    exfalso. apply Hb. rewrite <- !nth_bits by auto. rewrite agree_off_spec in Ea. apply Ea; auto.
  - intros Hag a b Ha Hb Hra Hcb. destruct (agree_off n ws (bits n r) (bits n c)) eqn:Ea.
    + f_equal; apply sel_spec; auto.
    + exfalso. apply Bool.not_true_iff_false in Ea. apply Ea. apply agree_off_spec. intros v Hv Hin.
      rewrite !nth_bits by auto. auto.
Qed.
Print Assumptions C32_full_operator_entries.

(** the CNOT gate with control 2 and target 0 on three qubits: |001> -> |101> *)
Definition cnot : arr gq := mkarr 4 4 (fun i j => if ((i =? 0) && (j =? 0)) || ((i =? 1) && (j =? 1)) || ((i =? 2) && (j =? 3)) || ((i =? 3) && (j =? 2)) then (k1 : gq) else (k0 : gq)).
Example C32_case : exists F, get_full_operator cnot [2; 0] 3 = Ok F /\ a_ent F 5 1 = (k1 : gq) /\ a_ent F 1 1 = (k0 : gq) /\ a_ent F 4 4 = (k1 : gq).
Proof. eexists. split; [reflexivity|]. repeat split; vm_compute; reflexivity. Qed.

(** C33. For fixed wires [Phi] is the map the function computes. *)
Theorem C33_star_homomorphism : forall (K : Type) (SR : StarRing K) n ws,
  ws <> [] -> NoDup ws -> Forall (fun w => w < n) ws ->
  exists Phi : mat K -> mat K,
    (forall A, exists F, get_full_operator (mkarr (2 ^ List.length ws) (2 ^ List.length ws) A) ws n = Ok F /\
       a_rows F = 2 ^ n /\ a_cols F = 2 ^ n /\ meq (2 ^ n) (a_ent F) (Phi A)) /\
    (forall A B, meq (2 ^ n) (Phi (mmul (2 ^ List.length ws) A B)) (mmul (2 ^ n) (Phi A) (Phi B))) /\
    (forall A, meq (2 ^ n) (Phi (madj A)) (madj (Phi A))) /\
    meq (2 ^ n) (Phi mid) mid /\
    (forall A B, meq (2 ^ n) (Phi (madd A B)) (madd (Phi A) (Phi B))) /\
    (forall x A, meq (2 ^ n) (Phi (mscale x A)) (mscale x (Phi A))) /\
    (forall A, unitary2 (2 ^ List.length ws) A -> unitary2 (2 ^ n) (Phi A)) /\
    (forall A, hermitian (2 ^ List.length ws) A -> hermitian (2 ^ n) (Phi A)) /\
    (forall A, mtrace (2 ^ n) (Phi A) = kmul (knat (2 ^ (n - List.length ws))) (mtrace (2 ^ List.length ws) A)).
Proof.
  intros K SR n ws Hne Hnd Hw. assert (Hok : wires_ok n ws) by (split; auto). exists (emb n ws). split; [|split; [|split; [|split; [|split; [|split; [|split; [|split]]]]]]].
  - intros A. apply (full_is_emb n ws (mkarr _ _ A)); auto.
  - intros A B. symmetry. apply emb_mul; auto.
  - intros A. symmetry. apply emb_adj.
  - apply emb_id; auto.
  - intros A B. apply emb_add.
  - intros x A. apply emb_scale.
  - intros A. apply emb_unitary; auto.
  - intros A. apply emb_hermitian.
  - intros A. rewrite emb_trace by auto. rewrite lsum_const. f_equal. f_equal.
    rewrite <- (Permutation_length (allbits_perm (n - List.length ws))), map_length, seq_length. reflexivity.
Qed.
Print Assumptions C33_star_homomorphism.
Example C33_case : [2; 0] <> [] /\ NoDup [2; 0] /\ Forall (fun w => w < 3) [2; 0].
Proof. split; [discriminate|]. split; repeat constructor; simpl; lia. Qed.

(** C34 *)
Theorem C34_disjoint_wires : forall (K : Type) (SR : StarRing K) n ws vs (A B : mat K),
  ws <> [] -> vs <> [] -> NoDup (ws ++ vs) -> Forall (fun w => w < n) (ws ++ vs) ->
  let k := 2 ^ List.length ws in let l := 2 ^ List.length vs in
  exists F G FG GF, get_full_operator (mkarr k k A) ws n = Ok F /\ get_full_operator (mkarr l l B) vs n = Ok G /\
    get_full_operator (np_kron (mkarr k k A) (mkarr l l B)) (ws ++ vs) n = Ok FG /\
    get_full_operator (np_kron (mkarr l l B) (mkarr k k A)) (vs ++ ws) n = Ok GF /\
    meq (2 ^ n) (mmul (2 ^ n) (a_ent F) (a_ent G)) (mmul (2 ^ n) (a_ent G) (a_ent F)) /\
    meq (2 ^ n) (mmul (2 ^ n) (a_ent F) (a_ent G)) (a_ent FG) /\
    meq (2 ^ n) (a_ent FG) (a_ent GF).
Proof.
  intros K SR n ws vs A B Hw Hv Hnd Hlt k l.
  assert (Hok : wires_ok n (ws ++ vs)) by (split; auto). destruct (wires_ok_app _ _ _ Hok) as (Hws & Hvs & _).
  assert (Hok' : wires_ok n (vs ++ ws)).
  { split; [eapply Permutation_NoDup; [apply Permutation_app_comm|auto]|]. apply Forall_app in Hlt. apply Forall_app. tauto. }
  destruct (full_is_emb n ws (mkarr k k A) Hw Hws) as (F & EF & _ & _ & MF); auto.
  destruct (full_is_emb n vs (mkarr l l B) Hv Hvs) as (G & EG & _ & _ & MG); auto.
  destruct (full_is_emb n (ws ++ vs) (np_kron (mkarr k k A) (mkarr l l B))) as (FG & EFG & _ & _ & MFG); auto.
  { destruct ws; simpl; congruence. }
  { rewrite app_length, Nat.pow_add_r. reflexivity. } { rewrite app_length, Nat.pow_add_r. reflexivity. }
  destruct (full_is_emb n (vs ++ ws) (np_kron (mkarr l l B) (mkarr k k A))) as (GF & EGF & _ & _ & MGF); auto.
  { destruct vs; simpl; congruence. }
  { rewrite app_length, Nat.pow_add_r. reflexivity. } { rewrite app_length, Nat.pow_add_r. reflexivity. }
  exists F, G, FG, GF. do 4 (split; [assumption|]). simpl a_ent in *.
  assert (E1 : meq (2 ^ n) (mmul (2 ^ n) (a_ent F) (a_ent G)) (mmul (2 ^ n) (a_ent G) (a_ent F))).
  { rewrite MF, MG. apply emb_commute; auto. }
  assert (E2 : meq (2 ^ n) (mmul (2 ^ n) (a_ent F) (a_ent G)) (a_ent FG)).
  { rewrite MF, MG, MFG. apply emb_mul_disjoint; auto. }
  split; [exact E1|]. split; [exact E2|]. rewrite <- E2, E1, MF, MG, MGF. apply emb_mul_disjoint; auto.
Qed.
Print Assumptions C34_disjoint_wires.

(** any permutation [p] of the positions: [A'] has the tensor factors of [A] in
    the order [p] *)
Theorem C34_permuted_wires : forall (K : Type) (SR : StarRing K) n ws p (A A' : mat K),
  ws <> [] -> NoDup ws -> Forall (fun w => w < n) ws -> Permutation p (seq 0 (List.length ws)) ->
  let k := 2 ^ List.length ws in
  (forall a b a' b', a < k -> b < k -> a' < k -> b' < k ->
     (forall i, i < List.length ws -> wire_bit (List.length ws) i a' = wire_bit (List.length ws) (nth i p 0) a /\
                                      wire_bit (List.length ws) i b' = wire_bit (List.length ws) (nth i p 0) b) ->
     A' a' b' = A a b) ->
  exists F F', get_full_operator (mkarr k k A) ws n = Ok F /\
    get_full_operator (mkarr k k A') (map (fun i => nth i ws 0) p) n = Ok F' /\ meq (2 ^ n) (a_ent F) (a_ent F').
Proof.
  intros K SR n ws p A A' Hne Hnd Hw Hp k HA. set (m := List.length ws) in *.
  assert (Hlp : List.length p = m) by (rewrite (Permutation_length Hp), seq_length; auto).
  assert (Hpm : Permutation (map (fun i => nth i ws 0) p) ws).
  { rewrite (Permutation_map _ Hp). assert (E : map (fun i => nth i ws 0) (seq 0 (List.length ws)) = ws); [|unfold m; rewrite E; auto].
    apply nth_ext0; [rewrite map_length, seq_length; auto|]. intros i Hi. rewrite map_length, seq_length in Hi.
    rewrite (nth_indep _ 0 (nth 0 ws 0)) by (rewrite map_length, seq_length; auto). rewrite (map_nth (fun i => nth i ws 0)), seq_nth; auto. }
  destruct (full_is_emb n ws (mkarr k k A) Hne (conj Hnd Hw)) as (F & EF & _ & _ & MF); auto.
  destruct (full_is_emb n (map (fun i => nth i ws 0) p) (mkarr k k A')) as (F' & EF' & _ & _ & MF').
  { destruct p; [simpl in Hlp; unfold m in Hlp; destruct ws; [congruence|discriminate]|discriminate]. }
  { split; [eapply Permutation_NoDup; [symmetry; exact Hpm|auto]|]. eapply Permutation_Forall; [symmetry; exact Hpm|auto]. }
  { simpl. rewrite map_length, Hlp. reflexivity. } { simpl. rewrite map_length, Hlp. reflexivity. }
  exists F, F'. split; [exact EF|]. split; [exact EF'|]. simpl a_ent in *. rewrite MF, MF'. symmetry. apply emb_permute; auto.
  intros b c Hb Hc. fold m in Hb, Hc. 
  assert (Hs : forall x, bitlist m x -> bitlist m (sel p x)).
  { intros x Hx. rewrite <- Hlp. apply (sel_bitlist m p x). auto. }
  apply HA; try (apply unbits_lt'; auto).
  intros i Hi. rewrite <- !nth_bits; auto; try (apply unbits_lt'; auto).
  2,3: assert (Hin : In (nth i p 0) (seq 0 m)) by (eapply Permutation_in; [exact Hp|apply nth_In; lia]); apply in_seq in Hin; lia.
  rewrite !bits_unbits by auto. unfold sel.
  assert (En : forall x : list nat, nth i (map (fun w => nth w x 0) p) 0 = nth (nth i p 0) x 0).
  { intros x. rewrite (nth_indep _ 0 (nth 0 x 0)) by (rewrite map_length; lia). apply (map_nth (fun w => nth w x 0)). }
  split; apply En.
Qed.
Print Assumptions C34_permuted_wires.
Example C34_case : NoDup ([2; 0] ++ [1]) /\ Forall (fun w => w < 3) ([2; 0] ++ [1]) /\ Permutation [1; 0] (seq 0 2).
Proof. split; [repeat constructor; simpl; lia|]. split; [repeat constructor|constructor]. Qed.

(** C35. Repeated wires are not among the rejected calls. *)
Theorem C35_rejects_exactly : forall (K : Type) (SR : StarRing K) n ws (op : arr K),
  (exists e, get_full_operator op ws n = Err e) <->
  (ws = [] \/ Exists (fun w => n <= w) ws \/ a_rows op <> 2 ^ List.length ws \/ a_cols op <> 2 ^ List.length ws).
Proof. intros. apply full_raises. Qed.
Print Assumptions C35_rejects_exactly.
Example C35_case : get_full_operator cnot [3; 0] 3 = Err AssertionError /\ get_full_operator cnot [1] 3 = Err AssertionError /\
  get_full_operator cnot [] 3 = Err ValueError /\ exists F, get_full_operator cnot [1; 1] 3 = Ok F.
Proof. repeat split; try reflexivity. eexists; reflexivity. Qed.

(** ** C36. [on_wires] says that [F] is the full operator of [o], as fixed by
    C32; the specification of the Hamiltonian is the entrywise weighted sum. *)
Definition fits {K} (n : nat) (o : qop K) : Prop :=
  q_wires o <> [] /\ NoDup (q_wires o) /\ Forall (fun w => w < n) (q_wires o) /\
  a_rows (q_matrix o) = 2 ^ List.length (q_wires o) /\ a_cols (q_matrix o) = 2 ^ List.length (q_wires o).

Lemma combine_nth_error {A B} (l : list A) (m : list B) : forall i a b, nth_error l i = Some a -> nth_error m i = Some b ->
  nth_error (combine l m) i = Some (a, b).
Proof.
  revert m. induction l as [|x l IH]; intros [|y m] [|i] a b H1 H2; simpl in *; try discriminate; [congruence|auto].
Qed.

Lemma wsum_entries {K} {SR : StarRing K} n : forall obs c (Fs : list (arr K)), List.length obs <= List.length c ->
  Forall2 (fun F o => meq (2 ^ n) (a_ent F) (qmat n o)) Fs obs -> 
  meq (2 ^ n) (wsum n c obs) (msum (fun p => mscale (fst p) (a_ent (snd p))) (combine c Fs)).
Proof.
  induction obs as [|o r IH]; intros c Fs Hl HF; inversion HF as [|F ? Fs' ? HM HF']; subst.
  - intros i j _ _. destruct c; reflexivity.
  - destruct c as [|x c]; [simpl in Hl; lia|]. simpl in Hl. intros i j Hi Hj. unfold wsum, msum. cbn [combine]. rewrite !lsum_cons.
    unfold mscale at 1 3. cbn [fst snd]. rewrite (HM i j Hi Hj). f_equal. apply (IH c Fs'); auto. lia.
Qed.

Lemma mapM_full_gen {K} {SR : StarRing K} n (obs : list (qop K)) : Forall (valid_qop n) obs -> exists Fs,
  mapM (full n) obs = Ok Fs /\ Forall2 (fun F o => meq (2 ^ n) (a_ent F) (qmat n o)) Fs obs.
Proof.
  induction 1 as [|o r Ho Hr (Fs & E & HF)]; simpl; [exists []; auto|].
  destruct (full_ok n o Ho) as (F & EF & _ & _ & M). rewrite EF, E. simpl. exists (F :: Fs). auto.
Qed.

Theorem C36_weighted_sum : forall (K : Type) (SR : StarRing K) n (obs : list (qop K)) coeffs,
  Forall (fits n) obs ->
  let c := match coeffs with None => repeat k1 (List.length obs) | Some l => l end in
  (List.length obs <= List.length c -> exists H Fs,
     get_hamiltonian_matrix n obs coeffs = Ok H /\ a_rows H = 2 ^ n /\ a_cols H = 2 ^ n /\
     mapM (fun o => get_full_operator (q_matrix o) (q_wires o) n) obs = Ok Fs /\
     (forall r s, r < 2 ^ n -> s < 2 ^ n -> a_ent H r s = lsum (fun p => kmul (fst p) (a_ent (snd p) r s)) (combine c Fs)) /\
     (Forall (fun x => kconj x = x) c -> Forall (fun o => hermitian (2 ^ List.length (q_wires o)) (a_ent (q_matrix o))) obs ->
        hermitian (2 ^ n) (a_ent H))) /\
  (List.length c < List.length obs -> get_hamiltonian_matrix n obs coeffs = Err IndexError).
Proof.
  intros K SR n obs coeffs Hf c. destruct (hamiltonian_spec n obs coeffs Hf) as [H1 H2]. fold c in H1, H2. split; [|exact H2].
  intros Hl. destruct (H1 Hl) as (H & E & Er & Ec & M). destruct (mapM_full_gen n obs Hf) as (Fs & EF & HF).
  exists H, Fs. split; [exact E|]. split; [exact Er|]. split; [exact Ec|]. split; [exact EF|]. split.
  - intros r s Hr Hs. rewrite (M r s Hr Hs). rewrite (wsum_entries n obs c Fs Hl HF r s Hr Hs). reflexivity.
  - intros Hc Ho. pose proof (wsum_hermitian n c obs Hc Ho) as Hh. unfold hermitian in *. rewrite M. exact Hh.
Qed.
Print Assumptions C36_weighted_sum.

Definition qZ : arr gq := lit_Z. Definition qX : arr gq := lit_X.
Example C36_case : Forall (fits 2) [mkqop qZ [0]; mkqop qX [1]] /\
  (exists H, get_hamiltonian_matrix 2 [mkqop qZ [0]; mkqop qX [1]] None = Ok H /\ a_ent H 2 2 = kopp (K:=gq) k1 /\ a_ent H 2 3 = (k1 : gq)) /\
  get_hamiltonian_matrix 2 [mkqop qZ [0]; mkqop qX [1]] (Some [(k1 : gq)]) = Err IndexError.
Proof.
  split; [repeat constructor; simpl; try discriminate; auto; lia|]. split; [|reflexivity].
  eexists. split; [reflexivity|]. split; vm_compute; reflexivity.
Qed.

(** C37. The docstring promises [rho,O]; the code computes i[rho,O]. *)
Theorem C37_parameter_shift_commutator : forall d (rho O : mat C),
  hermitian d O -> meq d (mmul d O O) mid ->
  let gate := fun t : R => expm d (mscale (Cmult (Copp Ci) (RtoC (t / 2))) O) in
  meq d (param_shift_comm d rho gate) (mscale Ci (msub (mmul d rho O) (mmul d O rho))) /\
  (hermitian d rho -> hermitian d (param_shift_comm d rho gate)) /\
  mtrace d (param_shift_comm d rho gate) = RtoC 0.
Proof.
  intros d rho O Hh Hs gate. assert (E := param_shift_comm_spec d rho O Hh Hs). split; [exact E|].
  change gate with (shift_gate d O). split.
  - intros Hr. pose proof (comm_hermitian d rho O Hh Hr) as Hc. unfold hermitian in *. rewrite E. exact Hc.
  - rewrite (mtrace_meq d _ _ E). apply comm_traceless.
Qed.
Print Assumptions C37_parameter_shift_commutator.
Example C37_case : hermitian (2 ^ 2) (pword (K := C) [1; 3]) /\ meq (2 ^ 2) (mmul (2 ^ 2) (pword (K := C) [1; 3]) (pword [1; 3])) mid.
Proof. split; [apply (pword_herm [1; 3])|apply (pword_sq [1; 3])]; repeat constructor. Qed.

(** C38. [x] is the state, H the sum of the full observables, P a Pauli word. *)
Theorem C38_directions : forall n (U : mat C) (obs : list (qop C)),
  unitary (2 ^ n) U -> Forall (fits n) obs ->
  Forall (fun o => hermitian (2 ^ List.length (q_wires o)) (a_ent (q_matrix o))) obs ->
  exists Fs names ops dirs,
    mapM (fun o => get_full_operator (q_matrix o) (q_wires o) n) obs = Ok Fs /\
    get_su_n_operators (2 ^ n) true true = Ok (ops, Some names) /\
    get_all_su_n_directions n U obs = Ok dirs /\ map fst dirs = names /\
    let x := fun i => U i 0 in let H := msum a_ent Fs in
    let comm P := msub (mmul (2 ^ n) P H) (mmul (2 ^ n) H P) in
    let ev M := lsum (fun i => lsum (fun j => Cmult (Cmult (Cconj (x i)) (M i j)) (x j)) (seq 0 (2 ^ n))) (seq 0 (2 ^ n)) in
    map snd dirs = map (fun P => (Im (ev (comm (a_ent P))) / 2 ^ n)%R) ops /\
    (forall P, In P ops -> Re (ev (comm (a_ent P))) = 0%R) /\
    In (word_name (repeat 0 n), 0%R) dirs /\
    ((forall p, In p dirs -> snd p = 0%R) <->
     exists lam : R, forall i, i < 2 ^ n -> lsum (fun j => Cmult (H i j) (x j)) (seq 0 (2 ^ n)) = Cmult (RtoC lam) (x i)).
Proof.
  intros n U obs HU Hf Hh. destruct (mapM_full n obs Hf) as (Fs & EF & HF).
  pose proof (directions_spec n U obs Hf) as ED.
  assert (HH : hermitian (2 ^ n) (obs_sum n obs)) by (apply obs_sum_hermitian; auto).
  assert (EH : meq (2 ^ n) (msum a_ent Fs) (obs_sum n obs)).
  { clear - HF. intros i j Hi Hj. unfold obs_sum, msum. induction HF as [|F o Fs' obs' HM _ IH]; [reflexivity|].
    rewrite !lsum_cons, IH, (HM i j Hi Hj). reflexivity. }
  assert (Esu := su_n_eq (K := C) (2 ^ n) true true (pow2_pos n)). rewrite Nat.log2_pow2 in Esu by lia.
  change (alpha true) with 4 in Esu.
  set (W := words 4 n) in *.
  assert (Hop : forall w, In w W -> meq (2 ^ n) (a_ent (su_op (K := C) true w)) (pword w)).
  { intros w Hw. destruct (su_op_spec (K := C) true n w Hw) as (_ & _ & M). rewrite map_add0 in M. exact M. }
  eexists Fs, _, _, _. split; [exact EF|]. split; [exact Esu|]. split; [exact ED|].
  split. { rewrite map_map. cbn [fst]. apply map_ext_in. intros w _. simpl first. rewrite map_add0. reflexivity. }
  cbv zeta.
  assert (Eq : forall w, In w W -> quad (2 ^ n) (qnode_state U) (msub (mmul (2 ^ n) (a_ent (su_op true w)) (msum a_ent Fs)) (mmul (2 ^ n) (msum a_ent Fs) (a_ent (su_op true w))))
     = quad (2 ^ n) (qnode_state U) (msub (mmul (2 ^ n) (pword w) (obs_sum n obs)) (mmul (2 ^ n) (obs_sum n obs) (pword w)))).
  { intros w Hw. apply quad_comm_ext; auto. }
  assert (Hherm : forall w, In w W -> hermitian (2 ^ n) (pword (K := C) w)).
  { intros w Hw. apply words_spec in Hw. destruct Hw as [Hl Hw]. rewrite <- Hl. apply pword_herm.
    eapply Forall_impl; [|exact Hw]. simpl; intros; lia. }
  split; [|split; [|split]].
  - rewrite !map_map. apply map_ext_in. intros w Hw. cbn [snd]. rewrite <- (Eq w Hw). reflexivity.
  - intros P HP. apply in_map_iff in HP. destruct HP as (w & <- & Hw).
    etransitivity; [apply (f_equal Re (Eq w Hw))|]. apply comm_imaginary; auto.
  - apply in_map_iff. exists (repeat 0 n). split.
    + f_equal. rewrite quad_identity_word. simpl. unfold Rdiv. ring.
    + apply words_spec. split; [apply repeat_length|]. apply Forall_forall. intros y Hy. apply repeat_spec in Hy. lia.
  - assert (Hn : ip (2 ^ n) (qnode_state U) (qnode_state U) = RtoC 1) by (apply state_norm; auto; apply pow2_pos).
    pose proof (directions_zero n (qnode_state U) (obs_sum n obs) Hn HH) as Hd. fold W in Hd.
    transitivity (forall w, In w W -> Im (quad (2 ^ n) (qnode_state U) (msub (mmul (2 ^ n) (pword w) (obs_sum n obs)) (mmul (2 ^ n) (obs_sum n obs) (pword w)))) = 0%R).
    + split.
      * intros H w Hw. specialize (H _ (in_map _ _ _ Hw)). cbn [snd] in H.
        assert (Hp : (2 ^ n)%R <> 0%R) by (apply pow_nonzero; lra).
        apply (f_equal (fun z => (z * 2 ^ n)%R)) in H. unfold Rdiv in H. rewrite Rmult_assoc, Rinv_l in H by auto. lra.
      * intros H p Hp. apply in_map_iff in Hp. destruct Hp as (w & <- & Hw). cbn [snd]. rewrite (H w Hw). unfold Rdiv. ring.
    + rewrite Hd. assert (Em : forall i, i < 2 ^ n -> mv (2 ^ n) (obs_sum n obs) (qnode_state U) i =
         lsum (fun j => Cmult (msum a_ent Fs i j) (U j 0)) (seq 0 (2 ^ n))).
      { intros i Hi. unfold mv. apply lsum_ext. intros j Hj. apply in_seq in Hj. rewrite <- (EH i j) by lia. reflexivity. }
      split; intros [lam Hl]; exists lam; intros i Hi.
      * rewrite <- Em by auto. apply Hl; auto.
      * rewrite Em by auto. apply Hl; auto.
Qed.
Print Assumptions C38_directions.

Example C38_case : unitary (2 ^ 2) (mid (K := C)) /\ Forall (fits 2) [mkqop (K := C) lit_Z [0]; mkqop lit_X [1]] /\
  Forall (fun o => hermitian (2 ^ List.length (q_wires o)) (a_ent (q_matrix o))) [mkqop (K := C) lit_Z [0]; mkqop lit_X [1]].
Proof.
  split; [unfold unitary; rewrite madj_id, mmul_1_l; reflexivity|]. split.
  - repeat constructor; simpl; try discriminate; auto; lia.
  - repeat constructor; intros i j Hi Hj; simpl in Hi, Hj; (destruct i as [|[|i]]; [| |lia]); (destruct j as [|[|j]]; [| |lia]);
      unfold madj; simpl; apply C_ext; simpl; ring.
Qed.

(** C39. [mprod] multiplies a list of matrices, first factor leftmost. *)
Theorem C39_circuit_unitary : forall (K : Type) (SR : StarRing K) n (gates more : list (qop K)),
  Forall (fits n) gates -> Forall (fits n) more ->
  exists U V W Fs,
    circuit_unitary n gates = Ok U /\ circuit_unitary n more = Ok V /\ circuit_unitary n (gates ++ more) = Ok W /\
    a_rows U = 2 ^ n /\ a_cols U = 2 ^ n /\
    mapM (fun o => get_full_operator (q_matrix o) (q_wires o) n) gates = Ok Fs /\
    meq (2 ^ n) (a_ent U) (mprod (2 ^ n) (map a_ent (rev Fs))) /\
    (Forall (fun o => unitary2 (2 ^ List.length (q_wires o)) (a_ent (q_matrix o))) gates -> unitary2 (2 ^ n) (a_ent U)) /\
    meq (2 ^ n) (a_ent W) (mmul (2 ^ n) (a_ent V) (a_ent U)).
Proof.
  intros K SR n gates more Hg Hm.
  destruct (circuit_unitary_spec n gates Hg) as (U & EU & R1 & R2 & MU).
  destruct (circuit_unitary_spec n more Hm) as (V & EV & _ & _ & MV).
  destruct (circuit_unitary_spec n (gates ++ more)) as (W & EW & _ & _ & MW); [apply Forall_app; auto|].
  destruct (mapM_full_gen n gates Hg) as (Fs & EF & HF).
  exists U, V, W, Fs. do 6 (split; [assumption|]). split; [|split].
  - rewrite MU. assert (HF' : Forall2 (fun F o => meq (2 ^ n) (a_ent F) (qmat n o)) (rev Fs) (rev gates)).
    { clear - HF. induction HF; simpl; [constructor|]. apply Forall2_app; auto. }
    revert HF'. generalize (rev Fs) (rev gates). clear. intros l m H. induction H as [|F o l m HM _ IH]; simpl; [reflexivity|].
    rewrite IH, HM. reflexivity.
  - intros Hu. eapply unitary2_proper; [symmetry; exact MU|]. apply mprod_unitary. apply Forall_forall. intros A HA. apply in_map_iff in HA.
    destruct HA as (o & <- & Ho). apply in_rev in Ho. rewrite Forall_forall in Hg, Hu. apply qmat_unitary; [apply Hg|apply Hu]; auto.
  - rewrite MW, MV, MU. rewrite rev_app_distr, map_app. apply mprod_app.
Qed.
Print Assumptions C39_circuit_unitary.
Example C39_case : Forall (fits 3) [mkqop cnot [2; 0]; mkqop qX [1]].
Proof. repeat constructor; simpl; try discriminate; auto; lia. Qed.
