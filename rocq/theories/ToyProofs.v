(** Lemmas about experiments_paper/toy_example.py: the cost of its circuit and the eigenvalues of
    its Hamiltonian. *)
From Coq Require Import ZArith Arith Lia Bool String Reals Lra Psatz Classical.
From Coquelicot Require Import Coquelicot.
From Verif Require Import Py StarRing Matrix Cplx PauliSpec Bits PauliBasis Expm MDeriv UtilsModel UtilsProofs CircuitModel CircuitProofs CircuitProofs2 LayerModel LayerProofs AdaptModel AdaptProofs OptimizerModel OptProofs RotoProofs
  FlowModel FlowProofs FlowProofs2 Spectral FlowMany FlowRate ShiftModel ShiftProofs ZasV2Model ZasV2Proofs ApproxExampleModel PropCircuit PropLayers PropGreedy PropOptArgs PropOptRun PropFlow PropFlowRate PropSpectrum PropSymmetry PropEigenstate CommuteProofs PropMany ToyModel.
From Coq Require Import List.
Import ListNotations.
Local Open Scope nat_scope.

(** ** The circuit *)
Lemma toy_gates_fit p : Forall (fits 2) (toy_gates p).
Proof.
  unfold toy_gates. repeat apply Forall_cons; try apply Forall_nil; (split; [discriminate|]); (split; [repeat constructor; simpl; lia|]); (split; [repeat constructor; cbn; lia|]); split; reflexivity.
Qed.
Lemma toy_gates_unitary p : Forall (unitary_gate 2) (toy_gates p).
Proof.
  pose proof (toy_gates_fit p) as Hf. rewrite Forall_forall in Hf. apply Forall_forall. intros g Hg. split; [apply Hf, Hg|].
  assert (R : forall t w, unitary2 (2 ^ List.length (q_wires (gate_qop (ARot t "Z"%string [w])))) (a_ent (q_matrix (gate_qop (ARot t "Z"%string [w]))))).
  { intros t w. cbn [gate_qop q_wires q_matrix a_ent]. change (word_of "Z"%string) with [3]. change (2 ^ List.length [w]) with (2 ^ List.length [3]). apply rotation_unitary. apply pword_herm. repeat constructor. }
  destruct Hg as [<-|[<-|[<-|[<-|[<-|[<-|[<-|[]]]]]]]]; [apply hadamard_unitary|apply hadamard_unitary|apply R|apply R|apply cnot_unitary|apply R|apply R].
Qed.

(** the state before the last global phase: the amplitudes are the halves of these phases *)
Definition toy_vector (a b : R) : nat -> C := fun i => Cmult (RtoC (/ 2)) (Cexp_i (match i with 0 => - a - b | 1 => 0 | 2 => a | _ => b end)).

Lemma toy_column a b : exists U, circuit_unitary 2 (toy_gates (a, b)) = Ok U /\ veq 4 (qnode_state (a_ent U)) (toy_vector a b).
Proof.
  destruct (circuit_unitary_spec 2 _ (toy_gates_fit (a, b))) as (U & E & _ & _ & M). exists U. split; [exact E|].
  set (Ms := [emb 2 [1] (rz b); emb 2 [0] (rz b); a_ent cnot_matrix; emb 2 [1] (rz a); emb 2 [0] (rz a); emb 2 [1] (a_ent hadamard_matrix); emb 2 [0] (a_ent hadamard_matrix)]).
  assert (EM : meq 4 (a_ent U) (mprod 4 Ms)).
  { assert (I : forall A, meq 4 (emb (K := C) 2 [0; 1] A) A) by exact (emb_all 2).
    change (2 ^ 2) with 4 in M. rewrite M. unfold Ms. cbn [toy_gates rev app map mprod fst snd].
    pose proof (had_small 2 0 ltac:(lia) ltac:(lia)) as H0. pose proof (had_small 2 1 ltac:(lia) ltac:(lia)) as H1.
    pose proof (fun t => rot_small 2 t "Z" 3 0 ltac:(auto) ltac:(lia) ltac:(lia)) as R0. pose proof (fun t => rot_small 2 t "Z" 3 1 ltac:(auto) ltac:(lia) ltac:(lia)) as R1.
    change (2 ^ 2) with 4 in H0, H1, R0, R1. rewrite I in H0, H1. rewrite H0, H1, !R0, !R1, !I.
    assert (C0 : meq 4 (qmat 2 (mkqop cnot_matrix [0; 1])) (a_ent cnot_matrix)) by apply I. rewrite C0. reflexivity. }
  assert (A : veq 4 (qnode_state (a_ent U)) (mv 4 (mprod 4 Ms) (v4 (RtoC 1) (RtoC 0) (RtoC 0) (RtoC 0)))).
  { intros i Hi. unfold qnode_state. rewrite (EM i 0 Hi ltac:(lia)). generalize (mprod 4 Ms). intros N. unfold mv. cbn. destruct (N i 0), (N i 1), (N i 2), (N i 3). apply C_ext; simpl; ring. }
  assert (S1 : veq 4 (mv 4 (emb 2 [0] (a_ent hadamard_matrix)) (v4 (RtoC 1) (RtoC 0) (RtoC 0) (RtoC 0))) (v4 (RtoC (/ sqrt 2)) (RtoC 0) (RtoC (/ sqrt 2)) (RtoC 0))).
  { intros i Hi. rewrite mv_first by exact Hi. revert i Hi. apply veq4; cbn; apply C_ext; simpl; ring. }
  assert (S2 : veq 4 (mv 4 (emb 2 [1] (a_ent hadamard_matrix)) (v4 (RtoC (/ sqrt 2)) (RtoC 0) (RtoC (/ sqrt 2)) (RtoC 0))) (v4 (RtoC (/ 2)) (RtoC (/ 2)) (RtoC (/ 2)) (RtoC (/ 2)))).
  { rewrite <- inv_sqrt2. intros i Hi. rewrite mv_second by exact Hi. revert i Hi. apply veq4; cbn; apply C_ext; simpl; ring. }
  assert (S4 : forall a b c d, veq 4 (mv 4 (a_ent cnot_matrix) (v4 a b c d)) (v4 a b d c)).
  { intros [a1 a2] [b1 b2] [c1 c2] [d1 d2]. apply veq4; unfold mv; cbn; apply C_ext; simpl; ring. }
  assert (S5 : forall z a b c d, veq 4 (mv 4 (emb 2 [1] (rz z)) (v4 a b c d)) (v4 (Cmult (Cexp_i (- (z / 2))) a) (Cmult (Cexp_i (z / 2)) b) (Cmult (Cexp_i (- (z / 2))) c) (Cmult (Cexp_i (z / 2)) d))).
  { intros z [a1 a2] [b1 b2] [c1 c2] [d1 d2]. destruct (rz_entries z) as (E0 & E1 & E2 & E3). unfold Cexp_i. rewrite cos_neg, sin_neg.
    intros i Hi. rewrite mv_second by exact Hi. rewrite E0, E1, E2, E3. revert i Hi. apply veq4; unfold v4; cbn [nth]; apply C_ext; simpl; ring. }
  assert (S6 : forall z a b c d, veq 4 (mv 4 (emb 2 [0] (rz z)) (v4 a b c d)) (v4 (Cmult (Cexp_i (- (z / 2))) a) (Cmult (Cexp_i (- (z / 2))) b) (Cmult (Cexp_i (z / 2)) c) (Cmult (Cexp_i (z / 2)) d))).
  { intros z [a1 a2] [b1 b2] [c1 c2] [d1 d2]. destruct (rz_entries z) as (E0 & E1 & E2 & E3). unfold Cexp_i. rewrite cos_neg, sin_neg.
    intros i Hi. rewrite mv_first by exact Hi. rewrite E0, E1, E2, E3. revert i Hi. apply veq4; unfold v4; cbn [nth]; apply C_ext; simpl; ring. }
  assert (T : forall M v w, veq 4 v w -> veq 4 (mv 4 M v) (mv 4 M w)). { intros. apply mv_ext; [reflexivity|assumption]. }
  assert (TT : forall x y w : nat -> C, veq 4 x y -> veq 4 y w -> veq 4 x w). { intros x y w H1 H2 i Hi. rewrite H1, H2 by exact Hi. reflexivity. }
  eapply TT; [exact A|]. eapply TT. { unfold Ms.
    eapply TT; [apply mv_mprod|]. eapply TT; [apply T|apply S5]. eapply TT; [apply mv_mprod|]. eapply TT; [apply T|apply S6].
    eapply TT; [apply mv_mprod|]. eapply TT; [apply T|apply S4]. eapply TT; [apply mv_mprod|]. eapply TT; [apply T|apply S5].
    eapply TT; [apply mv_mprod|]. eapply TT; [apply T|apply S6]. eapply TT; [apply mv_mprod|]. eapply TT; [apply T|apply S2].
    eapply TT; [apply mv_mprod|]. eapply TT; [apply T|apply S1]. intros i Hi. cbn [mprod]. apply mv_id. exact Hi. }
  assert (E4 : forall s t, Cmult (Cexp_i s) (Cexp_i t) = Cexp_i (s + t)).
  { intros s t. unfold Cexp_i. rewrite cos_plus, sin_plus. apply C_ext; simpl; ring. }
  assert (Q : forall w x y z r, Cmult (Cexp_i w) (Cmult (Cexp_i x) (Cmult (Cexp_i y) (Cmult (Cexp_i z) r))) = Cmult r (Cexp_i (w + x + y + z))).
  { intros. rewrite <- !E4. ring. }
  intros i Hi. unfold toy_vector. four i Hi; cbn [v4 nth]; rewrite Q; do 2 f_equal; field.
Qed.

(** ** The cost *)
Definition toy_table (r c : nat) : C :=
  match r, c with
  | 0, 2 | 1, 3 | 2, 0 | 3, 1 => (1, 0)%R
  | 0, 1 | 2, 3 => (1, -1)%R
  | 1, 0 | 3, 2 => (1, 1)%R
  | _, _ => (0, 0)%R
  end.
Lemma toy_fits : Forall (fits 2) toy_observables.
Proof. repeat constructor; cbn; try discriminate; auto; try lia. Qed.
Lemma toy_hermitian : Forall hermitian_obs toy_observables.
Proof.
  repeat apply Forall_cons; try apply Forall_nil; unfold hermitian_obs, hermitian; cbn [q_wires List.length q_matrix]; change (2 ^ 1) with 2; intros i j Hi Hj;
  (destruct i as [|[|i]]; [| |lia]); (destruct j as [|[|j]]; [| |lia]); apply C_ext; cbn; ring.
Qed.
Lemma toy_ham : exists G, get_hamiltonian_matrix 2 toy_observables None = Ok G /\ meq 4 (a_ent G) toy_table.
Proof.
  destruct (hamiltonian_spec 2 toy_observables None toy_fits) as [A _]. destruct A as (G & EG & _ & _ & M); [cbn; lia|]. exists G. split; [exact EG|].
  intros r c Hr Hc. rewrite (M r c Hr Hc). four r Hr; four c Hc; apply C_ext; cbn; ring.
Qed.
Lemma toy_energy u : exact_cost 2 toy_observables u = Ok (Re (ip 4 (qnode_state u) (mv 4 toy_table (qnode_state u)))).
Proof.
  assert (Q : exists Fs, Forall2 (fun o F => full 2 o = Ok F) toy_observables Fs /\ Forall2 (embedded 2) toy_observables Fs).
  { pose proof toy_fits as Hf. induction Hf as [|o l Ho _ (Fs & A & B)]; [exists []; split; constructor|]. destruct (obs_one 2 o Ho) as (F & EF & HE & _). exists (F :: Fs). split; constructor; assumption. }
  destruct toy_ham as (G & EG & MG). destruct Q as (Fs & A & B). rewrite (cost_energy 2 _ Fs u A). f_equal. destruct (hamiltonian_sum 2 toy_observables Fs G toy_fits toy_hermitian B EG) as [M _].
  rewrite energy_quad, !quad_ip. f_equal. apply ip_ext; [apply veq_refl|]. apply mv_ext; [|apply veq_refl]. change (2 ^ 2) with 4 in *. rewrite <- M. exact MG.
Qed.

Lemma toy_cost_ok a b : toy_cost (a, b) = Ok (cos a * (cos b + sin b) + cos a * cos (a + b))%R.
Proof.
  unfold toy_cost. destruct (toy_column a b) as (U & -> & V). cbn [bind]. rewrite toy_energy. f_equal.
  rewrite (ip_ext 4 _ (toy_vector a b) _ (mv 4 toy_table (toy_vector a b)) V) by (apply mv_ext; [reflexivity|exact V]).
  unfold ip, mv. cbn [seq]. rewrite !lsum_cons, !lsum_nil. unfold toy_vector, Cexp_i. cbn.
  replace (- a - b)%R with (- (a + b))%R by ring. rewrite cos_neg, sin_neg, cos_0, sin_0, cos_plus, sin_plus.
  assert (Qa := sin2_cos2 a). assert (Qb := sin2_cos2 b). unfold Rsqr in Qa, Qb. set (ca := cos a) in *. set (sa := sin a) in *. set (cb := cos b) in *. set (sb := sin b) in *.
  transitivity (ca * (cb + sb) + ca * (ca * cb - sa * sb) + / 2 * cb * (1 - (sa * sa + ca * ca)))%R; [field|rewrite Qa; ring].
Qed.

(** the partial derivatives of the cost *)
Definition toy_slope (p : R * R) : R * R :=
  let (a, b) := p in (- (sin a * (cos b + sin b)) - sin (a + (a + b)), cos a * (cos b - sin b) - cos a * sin (a + b))%R.
Lemma toy_step_ok eta a b : toy_step eta (a, b) = Ok (a - eta * fst (toy_slope (a, b)), b - eta * snd (toy_slope (a, b)))%R.
Proof.
  unfold toy_step. rewrite toy_cost_ok. cbn [bind fst snd toy_slope].
  assert (D1 : Derive (fun x => value (toy_cost (x, b))) a = (- (sin a * (cos b + sin b)) - sin (a + (a + b)))%R).
  { apply is_derive_unique. apply (is_derive_extR (fun x => cos x * (cos b + sin b) + cos x * cos (x + b))%R _ a (- (sin a * (cos b + sin b)) - sin (a + (a + b)))%R); [intros x; rewrite toy_cost_ok; reflexivity|reflexivity|]. auto_derive; [exact I|]. rewrite (sin_plus a (a + b)). ring. }
  assert (D2 : Derive (fun x => value (toy_cost (a, x))) b = (cos a * (cos b - sin b) - cos a * sin (a + b))%R).
  { apply is_derive_unique. apply (is_derive_extR (fun x => cos a * (cos x + sin x) + cos a * cos (a + x))%R _ b (cos a * (cos b - sin b) - cos a * sin (a + b))%R); [intros x; rewrite toy_cost_ok; reflexivity|reflexivity|]. auto_derive; [exact I|ring]. }
  rewrite D1, D2. reflexivity.
Qed.

(** ** The eigenvalues *)
Lemma toy_eigenvalue m : eigenvalue 4 toy_table m <-> ((m - 1) * (m - 1) = 2 \/ (m + 1) * (m + 1) = 2)%R.
Proof.
  split.
  - intros (v & (i & Hi & Nv) & Hv). pose proof (Hv 0 ltac:(lia)) as E0. pose proof (Hv 1 ltac:(lia)) as E1. pose proof (Hv 2 ltac:(lia)) as E2. pose proof (Hv 3 ltac:(lia)) as E3.
    cbn [seq] in E0, E1, E2, E3. rewrite !lsum_cons, lsum_nil in E0, E1, E2, E3. cbn [kadd k0 CStar toy_table] in E0, E1, E2, E3.
    destruct (v 0) as [a0 b0] eqn:V0, (v 1) as [a1 b1] eqn:V1, (v 2) as [a2 b2] eqn:V2, (v 3) as [a3 b3] eqn:V3.
    apply (f_equal (fun z => (Re z, Im z))) in E0, E1, E2, E3. simpl in E0, E1, E2, E3. injection E0 as A0 B0. injection E1 as A1 B1. injection E2 as A2 B2. injection E3 as A3 B3.
    destruct (classic ((a0 + a2, b0 + b2)%R <> RtoC 0 \/ (a1 + a3, b1 + b3)%R <> RtoC 0)) as [N|N].
    + left. apply (xy_value (m - 1) (a0 + a2, b0 + b2)%R (a1 + a3, b1 + b3)%R N); apply C_ext; simpl; lra.
    + right. apply (xy_value (m + 1) (a0 - a2, b0 - b2)%R (a1 - a3, b1 - b3)%R); [|apply C_ext; simpl; lra|apply C_ext; simpl; lra].
      apply NNPP. intros N'. apply not_or_and in N. apply not_or_and in N'. destruct N as [N0 N1], N' as [M0 M1]. apply NNPP in N0, N1, M0, M1.
      apply (f_equal (fun z => (Re z, Im z))) in N0, N1, M0, M1. simpl in N0, N1, M0, M1. injection N0 as N0 N0'. injection N1 as N1 N1'. injection M0 as M0 M0'. injection M1 as M1 M1'.
      apply Nv. four i Hi; [rewrite V0|rewrite V1|rewrite V2|rewrite V3]; apply C_ext; simpl; lra.
  - intros Hm. assert (E : exists s e : R, (s * s = 2 /\ e * e = 1 /\ m = s + e)%R) by (destruct Hm; [exists (m - 1)%R, 1%R|exists (m + 1)%R, (-1)%R]; repeat split; lra).
    destruct E as (s & e & Hs & He & ->).
    exists (fun i => match i with 0 => RtoC s | 2 => RtoC (e * s) | 1 => (1, 1)%R | _ => (e, e)%R end). split; [exists 1; split; [lia|]; intros Q; apply (f_equal Re) in Q; simpl in Q; lra|].
    intros i Hi. cbn [seq]. rewrite !lsum_cons, lsum_nil. cbn [kadd k0 CStar]. four i Hi; apply C_ext; cbn; ring_simplify; try (replace (s ^ 2)%R with 2%R by (cbn; lra)); try (replace (e ^ 2)%R with 1%R by (cbn; lra)); try ring; try nra.
Qed.
Lemma toy_lowest H : meq 4 H toy_table -> lowest 4 H (- 1 - sqrt 2) /\ highest 4 H (1 + sqrt 2).
Proof.
  intros M. destruct root2 as [Q P]. assert (M' : meq 4 toy_table H) by (symmetry; exact M).
  split; (split; [apply (eigenvalue_ext 4 toy_table H _ M'), toy_eigenvalue; first [left; nra|right; nra]|]; intros m Hm; apply (eigenvalue_ext 4 H toy_table _ M), toy_eigenvalue in Hm; destruct Hm; nra).
Qed.
Lemma toy_herm H : meq 4 H toy_table -> hermitian 4 H.
Proof. intros M i j Hi Hj. unfold madj. rewrite !M by assumption. four i Hi; four j Hj; apply C_ext; cbn; ring. Qed.

(** ** What the circuit reaches *)
Lemma toy_quartic c s : (c * c + s * s = 1 -> c * c * (3 + 2 * c - 2 * s) <= 26 / 5)%R.
Proof.
  intros H. assert (A : (- 2 * s <= s * s * (20 / 3) + 3 / 20)%R) by (assert (K := Rle_0_sqr (s + 3 / 20)); unfold Rsqr in K; nra).
  assert (B : (c * c * (3 + 2 * c - 2 * s) <= c * c * (3 + 2 * c + (1 - c * c) * (20 / 3) + 3 / 20))%R) by (apply Rmult_le_compat_l; nra).
  assert (K1 := Rle_0_sqr (c * c - 3 / 20 * c - 81 / 100)). assert (K2 := Rle_0_sqr (c - 97 / 100)). unfold Rsqr in *. nra.
Qed.
Lemma toy_floor a b : (- 229 / 100 <= cos a * (cos b + sin b) + cos a * cos (a + b))%R.
Proof.
  rewrite cos_plus. assert (Qa := sin2_cos2 a). assert (Qb := sin2_cos2 b). unfold Rsqr in Qa, Qb. set (c := cos a) in *. set (s := sin a) in *. set (x := cos b) in *. set (y := sin b) in *.
  assert (T := toy_quartic c s ltac:(lra)). set (g := (x * (1 + c) + y * (1 - s))%R).
  replace (c * (x + y) + c * (c * x - s * y))%R with (c * g)%R by (unfold g; ring).
  assert (G : (g * g <= 3 + 2 * c - 2 * s)%R).
  { assert (K := Rle_0_sqr (y * (1 + c) - x * (1 - s))). unfold Rsqr in K. assert (E : (g * g + (y * (1 + c) - x * (1 - s)) * (y * (1 + c) - x * (1 - s)) = (y * y + x * x) * ((1 + c) * (1 + c) + (1 - s) * (1 - s)))%R) by (unfold g; ring). rewrite Qb in E. nra. }
  assert (F : (c * g * (c * g) <= 26 / 5)%R) by (assert (c * c * (g * g) <= c * c * (3 + 2 * c - 2 * s))%R by (apply Rmult_le_compat_l; nra); nra). nra.
Qed.
