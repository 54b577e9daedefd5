(** Lemmas about two_observables_3_qubits_zassenhaus of experiments_paper/zassenhaus.py: its
    circuit and the eigenvalues of its Hamiltonian. *)
From Coq Require Import ZArith Arith Lia Bool String Reals Lra Psatz Classical.
From Coquelicot Require Import Coquelicot.
From Verif Require Import Py StarRing Matrix Cplx PauliSpec Bits PauliBasis Expm UtilsModel UtilsProofs CircuitModel CircuitProofs CircuitProofs2 LayerModel LayerProofs AdaptModel AdaptProofs
  OptimizerModel OptProofs RotoProofs FlowModel FlowProofs FlowProofs2 Spectral FlowMany FlowRate ShiftModel ShiftProofs ZasV2Model ZasV2Proofs ApproxExampleModel PropCircuit PropLayers PropGreedy PropOptArgs PropOptRun PropFlow PropFlowRate PropSpectrum PropSymmetry PropEigenstate CommuteProofs PropMany ZasFigModel.
From Coq Require Import List.
Import ListNotations.
Local Open Scope nat_scope.

Lemma zf_gates_unitary p : Forall (unitary_gate 3) (zf_circuit p).
Proof.
  assert (R : forall t s g w, word_of s = [g] -> g <= 3 -> w < 3 -> unitary_gate 3 (gate_qop (ARot t s [w]))).
  { intros t s g w Es Hg Hw. split.
    - split; [discriminate|]. split; [constructor; [intros []|constructor]|]. split; [constructor; [exact Hw|constructor]|]. cbn [gate_qop q_matrix a_rows a_cols q_wires List.length]. rewrite Es. split; reflexivity.
    - cbn [gate_qop q_wires q_matrix a_ent]. rewrite Es. change (2 ^ List.length [w]) with (2 ^ List.length [g]). apply rotation_unitary. apply pword_herm. constructor; [exact Hg|constructor]. }
  assert (Hd : forall w, w < 3 -> unitary_gate 3 (gate_qop (AH w))).
  { intros w Hw. split; [|apply hadamard_unitary]. split; [discriminate|]. split; [constructor; [intros []|constructor]|]. split; [constructor; [exact Hw|constructor]|]. split; reflexivity. }
  unfold zf_circuit. cbn [map]. repeat apply Forall_cons; try apply Forall_nil;
  match goal with |- unitary_gate _ (gate_qop (AH _)) => apply Hd; lia | |- unitary_gate _ (gate_qop (ARot _ "Z" _)) => apply (R _ _ 3); [reflexivity|lia|lia] | _ => apply (R _ _ 2); [reflexivity|lia|lia] end.
Qed.

Lemma zf_fits : Forall (fits 3) zf_observables.
Proof. repeat constructor; cbn; try discriminate; auto; try lia. Qed.
Lemma zf_hermitian : Forall hermitian_obs zf_observables.
Proof.
  repeat apply Forall_cons; try apply Forall_nil; unfold hermitian_obs, hermitian; cbn [q_wires List.length q_matrix];
  first [change (2 ^ 1) with 2|change (2 ^ 2) with 4]; intros i j Hi Hj;
  try solve [(destruct i as [|[|i]]; [| |lia]); (destruct j as [|[|j]]; [| |lia]); apply C_ext; cbn; ring];
  four i Hi; four j Hj; apply C_ext; cbn; ring.
Qed.

Definition zf_table (r c : nat) : C :=
  match r, c with
  | 0, 4 | 4, 0 | 1, 5 | 5, 1 | 2, 6 | 6, 2 | 3, 7 | 7, 3 => (1, 0)%R
  | 0, 2 | 3, 1 | 4, 6 | 7, 5 => (1, -1)%R
  | 2, 0 | 1, 3 | 6, 4 | 5, 7 => (1, 1)%R
  | 0, 1 | 2, 3 | 4, 5 | 6, 7 => (0, -1)%R
  | 1, 0 | 3, 2 | 5, 4 | 7, 6 => (0, 1)%R
  | _, _ => (0, 0)%R
  end.
Ltac eight i Hi := destruct i as [|[|[|[|[|[|[|[|i]]]]]]]]; [| | | | | | | |exfalso; simpl in Hi; lia].
Lemma zf_ham : exists G, get_hamiltonian_matrix 3 zf_observables None = Ok G /\ meq 8 (a_ent G) zf_table.
Proof.
  destruct (hamiltonian_spec 3 zf_observables None zf_fits) as [A _]. destruct A as (G & EG & _ & _ & M); [cbn; lia|]. exists G. split; [exact EG|].
  intros r c Hr Hc. rewrite (M r c Hr Hc). eight r Hr; eight c Hc; apply C_ext; cbn; ring.
Qed.
Lemma zf_herm H : meq 8 H zf_table -> hermitian 8 H.
Proof. intros M i j Hi Hj. unfold madj. rewrite !M by assumption. eight i Hi; eight j Hj; apply C_ext; cbn; ring. Qed.

(** the part of the Hamiltonian on the qubits 1 and 2, B, has (B B - 3) (B B - 3) = 4: its
    eigenvalues are at most sqrt 5 in absolute value *)
Lemma zf_part_value t (a0 b0 a1 b1 a2 b2 a3 b3 : R) :
  (b1 + (a2 + b2) = t * a0 -> - a1 + (b2 - a2) = t * b0 ->
   - b0 + (a3 - b3) = t * a1 -> a0 + (a3 + b3) = t * b1 ->
   (a0 - b0) + b3 = t * a2 -> (a0 + b0) - a3 = t * b2 ->
   (a1 + b1) - b2 = t * a3 -> (b1 - a1) + a2 = t * b3 ->
   ~ (a0 = 0 /\ b0 = 0 /\ a1 = 0 /\ b1 = 0 /\ a2 = 0 /\ b2 = 0 /\ a3 = 0 /\ b3 = 0) -> t * t <= 5)%R.
Proof.
  intros A0 B0 A1 B1 A2 B2 A3 B3 N.
  assert (P : forall x : R, (x <> 0 -> (t * t - 3) * (t * t - 3) * x = 4 * x -> t * t <= 5)%R).
  { intros x Hx E. assert (Q : ((t * t - 3) * (t * t - 3) = 4)%R) by (apply (Rmult_eq_reg_r x); [lra|exact Hx]). nra. }
  assert (S0 : (t * (t * a0) = t * b1 + (t * a2 + t * b2))%R) by (rewrite <- A0; ring). assert (S0' : (t * (t * b0) = - (t * a1) + (t * b2 - t * a2))%R) by (rewrite <- B0; ring).
  assert (S1 : (t * (t * a1) = - (t * b0) + (t * a3 - t * b3))%R) by (rewrite <- A1; ring). assert (S1' : (t * (t * b1) = t * a0 + (t * a3 + t * b3))%R) by (rewrite <- B1; ring).
  assert (S2 : (t * (t * a2) = (t * a0 - t * b0) + t * b3)%R) by (rewrite <- A2; ring). assert (S2' : (t * (t * b2) = (t * a0 + t * b0) - t * a3)%R) by (rewrite <- B2; ring).
  assert (S3 : (t * (t * a3) = (t * a1 + t * b1) - t * b2)%R) by (rewrite <- A3; ring). assert (S3' : (t * (t * b3) = (t * b1 - t * a1) + t * a2)%R) by (rewrite <- B3; ring).
  assert (T0 : (t * t * a0 = 3 * a0 + 2 * b3)%R) by lra. assert (T0' : (t * t * b0 = 3 * b0 - 2 * a3)%R) by lra.
  assert (T1 : (t * t * a1 = 3 * a1 - 2 * b2)%R) by lra. assert (T1' : (t * t * b1 = 3 * b1 + 2 * a2)%R) by lra.
  assert (T2 : (t * t * a2 = 3 * a2 + 2 * b1)%R) by lra. assert (T2' : (t * t * b2 = 3 * b2 - 2 * a1)%R) by lra.
  assert (T3 : (t * t * a3 = 3 * a3 - 2 * b0)%R) by lra. assert (T3' : (t * t * b3 = 3 * b3 + 2 * a0)%R) by lra.
  clear A0 B0 A1 B1 A2 B2 A3 B3 S0 S0' S1 S1' S2 S2' S3 S3'. set (q := (t * t)%R) in *. clearbody q.
  assert (K : forall x y s, (q * x = 3 * x + s * y -> q * y = 3 * y + s * x -> s * s = 4 -> (q - 3) * (q - 3) * x = 4 * x)%R).
  { intros x y s E1 E2 Es. transitivity (s * s * x)%R; [|rewrite Es; reflexivity]. transitivity ((q - 3) * (s * y))%R; [|transitivity (s * (s * x))%R; [|ring]].
    - replace (s * y)%R with (q * x - 3 * x)%R by lra. ring.
    - replace (s * x)%R with (q * y - 3 * y)%R by lra. ring. }
  assert (L : forall x y s, (q * x = 3 * x + s * y -> q * y = 3 * y + s * x -> s * s = 4 -> ~ q <= 5 -> x = 0)%R).
  { intros x y s E1 E2 Es Hq. apply NNPP. intros Hx. apply Hq. apply (P x Hx). apply (K x y s E1 E2 Es). }
  apply NNPP. intros Hq. apply N.
  split; [apply (L a0 b3 2%R)|split; [apply (L b0 a3 (-2)%R)|split; [apply (L a1 b2 (-2)%R)|split; [apply (L b1 a2 2%R)|split; [apply (L a2 b1 2%R)|split; [apply (L b2 a1 (-2)%R)|split; [apply (L a3 b0 (-2)%R)|apply (L b3 a0 2%R)]]]]]]]; lra.
Qed.

Lemma zf_values m : eigenvalue 8 zf_table m -> ((m - 1) * (m - 1) <= 5 \/ (m + 1) * (m + 1) <= 5)%R.
Proof.
  intros (v & (i & Hi & Nv) & Hv).
  pose proof (Hv 0 ltac:(lia)) as E0. pose proof (Hv 1 ltac:(lia)) as E1. pose proof (Hv 2 ltac:(lia)) as E2. pose proof (Hv 3 ltac:(lia)) as E3.
  pose proof (Hv 4 ltac:(lia)) as E4. pose proof (Hv 5 ltac:(lia)) as E5. pose proof (Hv 6 ltac:(lia)) as E6. pose proof (Hv 7 ltac:(lia)) as E7. clear Hv.
  cbn [seq] in *. rewrite !lsum_cons, lsum_nil in *. cbn [kadd k0 CStar zf_table] in *.
  destruct (v 0) as [a0 b0] eqn:V0, (v 1) as [a1 b1] eqn:V1, (v 2) as [a2 b2] eqn:V2, (v 3) as [a3 b3] eqn:V3.
  destruct (v 4) as [a4 b4] eqn:V4, (v 5) as [a5 b5] eqn:V5, (v 6) as [a6 b6] eqn:V6, (v 7) as [a7 b7] eqn:V7.
  apply (f_equal (fun z => (Re z, Im z))) in E0, E1, E2, E3, E4, E5, E6, E7. simpl in E0, E1, E2, E3, E4, E5, E6, E7.
  injection E0 as A0 B0. injection E1 as A1 B1. injection E2 as A2 B2. injection E3 as A3 B3. injection E4 as A4 B4. injection E5 as A5 B5. injection E6 as A6 B6. injection E7 as A7 B7.
  destruct (classic (a0 + a4 = 0 /\ b0 + b4 = 0 /\ a1 + a5 = 0 /\ b1 + b5 = 0 /\ a2 + a6 = 0 /\ b2 + b6 = 0 /\ a3 + a7 = 0 /\ b3 + b7 = 0)%R) as [Z|N].
  - right. apply (zf_part_value (m + 1) (a0 - a4) (b0 - b4) (a1 - a5) (b1 - b5) (a2 - a6) (b2 - b6) (a3 - a7) (b3 - b7)); try lra.
    intros (N0 & M0 & N1 & M1 & N2 & M2 & N3 & M3). destruct Z as (N4 & M4 & N5 & M5 & N6 & M6 & N7 & M7).
    apply Nv. eight i Hi; [rewrite V0|rewrite V1|rewrite V2|rewrite V3|rewrite V4|rewrite V5|rewrite V6|rewrite V7]; apply C_ext; simpl; lra.
  - left. apply (zf_part_value (m - 1) (a0 + a4) (b0 + b4) (a1 + a5) (b1 + b5) (a2 + a6) (b2 + b6) (a3 + a7) (b3 + b7)); first [exact N|lra].
Qed.
Lemma zf_reached (s e : R) : (s * s = 5 -> e * e = 1 -> eigenvalue 8 zf_table (s + e))%R.
Proof.
  intros Hs He. exists (fun i => let p := match i mod 4 with 0 => RtoC s | 1 => (-1, 2)%R | 2 => (2, 1)%R | _ => (0, s)%R end in if i <? 4 then p else Cmult (RtoC e) p).
  split; [exists 1; split; [lia|]; intros Q; apply (f_equal Re) in Q; cbn in Q; lra|].
  intros i Hi. cbn [seq]. rewrite !lsum_cons, lsum_nil. cbn [kadd k0 CStar].
  assert (F1 : (e * (s * s) = 5 * e)%R) by (rewrite Hs; ring). assert (F2 : (e * e * s = s)%R) by (rewrite He; ring).
  eight i Hi; apply C_ext; cbn; ring_simplify; lra.
Qed.
Lemma root_5 : (sqrt 5 * sqrt 5 = 5 /\ 0 < sqrt 5)%R.
Proof. split; [apply sqrt_sqrt; lra|apply sqrt_lt_R0; lra]. Qed.
Lemma zf_lowest H : meq 8 H zf_table -> lowest 8 H (- (1 + sqrt 5)) /\ highest 8 H (1 + sqrt 5).
Proof.
  intros M. destruct root_5 as [Q P]. assert (M' : meq 8 zf_table H) by (symmetry; exact M). split; split.
  - apply (eigenvalue_ext 8 zf_table H _ M'). replace (- (1 + sqrt 5))%R with (- sqrt 5 + -1)%R by ring. apply zf_reached; lra.
  - intros m Hm. apply (eigenvalue_ext 8 H zf_table _ M), zf_values in Hm. destruct Hm; nra.
  - apply (eigenvalue_ext 8 zf_table H _ M'). replace (1 + sqrt 5)%R with (sqrt 5 + 1)%R by ring. apply zf_reached; lra.
  - intros m Hm. apply (eigenvalue_ext 8 H zf_table _ M), zf_values in Hm. destruct Hm; nra.
Qed.

(** ** The cost of the circuit *)
Definition prod8 (u v w : nat -> C) : nat -> C := fun i => Cmult (u (i / 4)) (Cmult (v (i / 2 mod 2)) (w (i mod 2))).
Lemma prod8_gate (A : mat C) u v w :
  veq 8 (mv 8 (emb 3 [0] A) (prod8 u v w)) (prod8 (mv 2 A u) v w) /\
  veq 8 (mv 8 (emb 3 [1] A) (prod8 u v w)) (prod8 u (mv 2 A v) w) /\
  veq 8 (mv 8 (emb 3 [2] A) (prod8 u v w)) (prod8 u v (mv 2 A w)).
Proof.
  split; [|split]; intros i Hi; unfold mv; cbn [seq]; rewrite !lsum_cons, !lsum_nil; unfold prod8; rewrite ?lsum_cons, ?lsum_nil; cbn [kadd k0 CStar];
  eight i Hi; cbn -[Cmult Cplus]; ring.
Qed.

Definition zf_ground : nat -> C := fun i => match i with 0 => RtoC 1 | _ => RtoC 0 end.
Definition zf_rot (t : R) (g : nat) : mat C := madd (mscale (RtoC (cos (t / 2))) mid) (mscale (mit (sin (t / 2))) (sigma g)).
Lemma zf_rot_ok t s g w : word_of s = [g] -> g <= 3 -> meq 8 (qmat 3 (gate_qop (ARot t s [w]))) (emb 3 [w] (zf_rot t g)).
Proof.
  intros E Hg. unfold qmat. cbn [gate_qop q_wires q_matrix a_ent]. change 8 with (2 ^ 3). apply emb_proper. change (2 ^ List.length [w]) with 2. rewrite E. change (2 ^ List.length [g]) with 2.
  rewrite expm_involution.
  - intros i j Hi Hj. unfold zf_rot, madd, mscale. rewrite (pword_one g i j Hi Hj). reflexivity.
  - change 2 with (2 ^ List.length [g]). apply pword_sq. constructor; [exact Hg|constructor].
Qed.

(** the state of one qubit *)
Definition zf_qubit (a b : R) : nat -> C := mv 2 (zf_rot b 2) (mv 2 (zf_rot a 3) (mv 2 (a_ent hadamard_matrix) zf_ground)).
Lemma zf_column a b : exists U, circuit_unitary 3 (zf_circuit (a, b)) = Ok U /\ veq 8 (qnode_state (a_ent U)) (prod8 (zf_qubit a b) (zf_qubit a b) (zf_qubit a b)).
Proof.
  assert (Hf : Forall (valid_qop 3) (zf_circuit (a, b))) by (eapply Forall_impl; [|apply zf_gates_unitary]; intros g [G _]; exact G).
  destruct (circuit_unitary_spec 3 _ Hf) as (U & E & _ & _ & M). exists U. split; [exact E|].
  set (h := a_ent (hadamard_matrix)).
  set (Ms := [emb 3 [2] (zf_rot b 2); emb 3 [1] (zf_rot b 2); emb 3 [0] (zf_rot b 2); emb 3 [2] (zf_rot a 3); emb 3 [1] (zf_rot a 3); emb 3 [0] (zf_rot a 3); emb 3 [2] h; emb 3 [1] h; emb 3 [0] h]).
  assert (EM : meq 8 (a_ent U) (mprod 8 Ms)).
  { change (2 ^ 3) with 8 in M. rewrite M. unfold Ms. unfold zf_circuit. cbn [map rev app mprod fst snd].
    rewrite !(zf_rot_ok a "Z" 3) by (reflexivity || lia). rewrite !(zf_rot_ok b "Y" 2) by (reflexivity || lia). reflexivity. }
  assert (A : veq 8 (qnode_state (a_ent U)) (mv 8 (mprod 8 Ms) (prod8 zf_ground zf_ground zf_ground))).
  { intros i Hi. unfold qnode_state. rewrite (EM i 0 Hi ltac:(lia)). generalize (mprod 8 Ms). intros N. unfold mv. cbn [seq]. rewrite !lsum_cons, lsum_nil. cbn [kadd k0 CStar]. unfold prod8, zf_ground. cbn -[Cmult Cplus]. ring. }
  assert (T : forall M v w, veq 8 v w -> veq 8 (mv 8 M v) (mv 8 M w)). { intros. apply mv_ext; [reflexivity|assumption]. }
  assert (TT : forall x y w : nat -> C, veq 8 x y -> veq 8 y w -> veq 8 x w). { intros x y w H1 H2 i Hi. rewrite H1, H2 by exact Hi. reflexivity. }
  assert (P0 := fun A u v w => proj1 (prod8_gate A u v w)). assert (P1 := fun A u v w => proj1 (proj2 (prod8_gate A u v w))). assert (P2 := fun A u v w => proj2 (proj2 (prod8_gate A u v w))).
  eapply TT; [exact A|]. unfold Ms, zf_qubit. fold h.
  eapply TT; [apply mv_mprod|]. eapply TT; [apply T|apply P2]. eapply TT; [apply mv_mprod|]. eapply TT; [apply T|apply P1]. eapply TT; [apply mv_mprod|]. eapply TT; [apply T|apply P0].
  eapply TT; [apply mv_mprod|]. eapply TT; [apply T|apply P2]. eapply TT; [apply mv_mprod|]. eapply TT; [apply T|apply P1]. eapply TT; [apply mv_mprod|]. eapply TT; [apply T|apply P0].
  eapply TT; [apply mv_mprod|]. eapply TT; [apply T|apply P2]. eapply TT; [apply mv_mprod|]. eapply TT; [apply T|apply P1]. eapply TT; [apply mv_mprod|]. eapply TT; [apply T|apply P0].
  intros i Hi. cbn [mprod]. apply mv_id. exact Hi.
Qed.

Lemma zf_energy u : exact_cost 3 zf_observables u = Ok (Re (ip 8 (qnode_state u) (mv 8 zf_table (qnode_state u)))).
Proof.
  assert (Q : exists Fs, Forall2 (fun o F => full 3 o = Ok F) zf_observables Fs /\ Forall2 (embedded 3) zf_observables Fs).
  { pose proof zf_fits as Hf. induction Hf as [|o l Ho _ (Fs & A & B)]; [exists []; split; constructor|]. destruct (obs_one 3 o Ho) as (F & EF & HE & _). exists (F :: Fs). split; constructor; assumption. }
  destruct zf_ham as (G & EG & MG). destruct Q as (Fs & A & B). rewrite (cost_energy 3 _ Fs u A). f_equal. destruct (hamiltonian_sum 3 zf_observables Fs G zf_fits zf_hermitian B EG) as [M _].
  rewrite energy_quad, !quad_ip. f_equal. apply ip_ext; [apply veq_refl|]. apply mv_ext; [|apply veq_refl]. change (2 ^ 3) with 8 in *. rewrite <- M. exact MG.
Qed.

(** the energy of three equal qubits in terms of the Bloch vector of one *)
Lemma zf_product (u : nat -> C) p q r s : u 0 = (p, q) -> u 1 = (r, s) ->
  let N := (p * p + q * q + (r * r + s * s))%R in let x := (2 * (p * r + q * s))%R in let y := (2 * (p * s - q * r))%R in let z := (p * p + q * q - (r * r + s * s))%R in
  Re (ip 8 (prod8 u u u) (mv 8 zf_table (prod8 u u u))) = (2 * x * (N * N) + y * (N * N) + N * y * z)%R.
Proof.
  intros E0 E1 N x y z. unfold ip, mv. cbn [seq]. rewrite !lsum_cons, !lsum_nil. unfold prod8. cbn -[Cmult Cplus Cconj Re]. rewrite E0, E1. simpl. unfold N, x, y, z. ring.
Qed.

Lemma zf_start_cost a b : exists U, circuit_unitary 3 (zf_circuit (a, b)) = Ok U /\
  exact_cost 3 zf_observables (a_ent U) = Ok (2 * (cos a * cos b) + sin a - sin a * (cos a * sin b))%R.
Proof.
  destruct (zf_column a b) as (U & E & V). exists U. split; [exact E|]. rewrite zf_energy. f_equal.
  rewrite (ip_ext 8 _ (prod8 (zf_qubit a b) (zf_qubit a b) (zf_qubit a b)) _ (mv 8 zf_table (prod8 (zf_qubit a b) (zf_qubit a b) (zf_qubit a b))) V) by (apply mv_ext; [reflexivity|exact V]).
  set (k := (/ sqrt 2)%R). assert (K : (k * k = / 2)%R) by apply inv_sqrt2.
  assert (Qa := sin2_cos2 (a / 2)). assert (Qb := sin2_cos2 (b / 2)). unfold Rsqr in Qa, Qb.
  assert (Ca : (cos a = cos (a / 2) * cos (a / 2) - sin (a / 2) * sin (a / 2))%R) by (rewrite <- cos_2a; f_equal; field).
  assert (Sa : (sin a = 2 * sin (a / 2) * cos (a / 2))%R) by (rewrite <- sin_2a; f_equal; field).
  assert (Cb : (cos b = cos (b / 2) * cos (b / 2) - sin (b / 2) * sin (b / 2))%R) by (rewrite <- cos_2a; f_equal; field).
  assert (Sb : (sin b = 2 * sin (b / 2) * cos (b / 2))%R) by (rewrite <- sin_2a; f_equal; field).
  rewrite Ca, Sa, Cb, Sb.
  assert (E0 : zf_qubit a b 0 = (k * (cos (b / 2) * cos (a / 2) - sin (b / 2) * cos (a / 2)), k * (- (cos (b / 2) * sin (a / 2)) - sin (b / 2) * sin (a / 2)))%R).
  { unfold zf_qubit, zf_rot, mv. cbn. fold k. apply C_ext; simpl; ring. }
  assert (E1 : zf_qubit a b 1 = (k * (sin (b / 2) * cos (a / 2) + cos (b / 2) * cos (a / 2)), k * (cos (b / 2) * sin (a / 2) - sin (b / 2) * sin (a / 2)))%R).
  { unfold zf_qubit, zf_rot, mv. cbn. fold k. apply C_ext; simpl; ring. }
  rewrite (zf_product _ _ _ _ _ E0 E1). clear E0 E1 Ca Sa Cb Sb V E.
  set (c := cos (a / 2)) in *. set (s := sin (a / 2)) in *. set (d := cos (b / 2)) in *. set (t := sin (b / 2)) in *. clearbody c s d t k.
  set (N := (_ + (_ + _))%R).
  assert (HN : N = 1%R). { unfold N. transitivity (k * k * 2 * (s * s + c * c) * (t * t + d * d))%R; [ring|rewrite K, Qa, Qb; field]. }
  rewrite HN.
  assert (X : (2 * (k * (d * c - t * c) * (k * (t * c + d * c)) + k * (- (d * s) - t * s) * (k * (d * s - t * s))) = (c * c - s * s) * (d * d - t * t))%R) by (transitivity (k * k * 2 * ((c * c - s * s) * (d * d - t * t)))%R; [ring|rewrite K; field]).
  assert (Y : (2 * (k * (d * c - t * c) * (k * (d * s - t * s)) - k * (- (d * s) - t * s) * (k * (t * c + d * c))) = 2 * s * c)%R) by (transitivity (k * k * 2 * (2 * s * c) * (t * t + d * d))%R; [ring|rewrite K, Qb; field]).
  assert (Z : (k * (d * c - t * c) * (k * (d * c - t * c)) + k * (- (d * s) - t * s) * (k * (- (d * s) - t * s)) - (k * (t * c + d * c) * (k * (t * c + d * c)) + k * (d * s - t * s) * (k * (d * s - t * s))) = - ((c * c - s * s) * (2 * t * d)))%R) by (transitivity (k * k * 2 * (- ((c * c - s * s) * (2 * t * d))))%R; [ring|rewrite K; field]).
  rewrite X, Y, Z. ring.
Qed.
