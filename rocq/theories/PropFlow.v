(** Properties C61, C63 to C66 and C73: the Riemannian flow of exact_lie_optimizer. *)
From Coq Require Import ZArith Arith Lia Bool String Reals Lra Ring Setoid Morphisms Classical IndefiniteDescription.
From Coquelicot Require Import Coquelicot.
From Verif Require Import Py StarRing Matrix Cplx Bits Expm UtilsModel CircuitModel CircuitProofs CircuitProofs2 LayerModel LayerProofs OptimizerModel OptProofs
  FlowModel FlowProofs FlowProofs2 Spectral PropLayers PropGreedy PropOptArgs PropOptRun.
From Coq Require Import List.
Import ListNotations.
Local Open Scope nat_scope.
Local Open Scope list_scope.

(** ** Specification *)

(** np.linalg.eigh of Hermitian d x d matrices: real eigenvalues S_k and a unitary
    matrix V with H_ij = sum_k V_ik S_k conj(V_jk) *)
Definition eigh_correct (d : nat) (eigh : eigh_fun) : Prop := forall H, hermitian d H ->
  let '(Sv, V) := eigh d H in
  unitary2 d V /\ forall i j, i < d -> j < d -> H i j = lsum (SR := CStar) (fun k => Cmult (Cmult (V i k) (RtoC (Sv k))) (Cconj (V j k))) (seq 0 d).

(** a Hermitian observable whose square is the identity, such as every Pauli word *)
Definition pauli_type (o : qop C) : Prop :=
  hermitian_obs o /\ meq (2 ^ List.length (q_wires o)) (mmul (2 ^ List.length (q_wires o)) (a_ent (q_matrix o)) (a_ent (q_matrix o))) mid.

(** gates of a circuit: unitary matrices on wires of the device *)
Definition unitary_gate (n : nat) (g : qop C) : Prop := fits n g /\ unitary2 (2 ^ List.length (q_wires g)) (a_ent (q_matrix g)).

(** the state of a circuit is an eigenvector of F *)
Definition eigenstate (n : nat) (F : mat C) (u : mat C) : Prop :=
  exists c : R, forall i, i < 2 ^ n -> lsum (SR := CStar) (fun j => Cmult (F i j) (u j 0)) (seq 0 (2 ^ n)) = Cmult (RtoC c) (u i 0).

(** ** Proofs *)
Lemma eigh_correct_at d eigh H : eigh_correct d eigh -> hermitian d H -> eigh_at d H (eigh d H).
Proof.
  intros He Hh. specialize (He H Hh). destruct (eigh d H) as [Sv V]. destruct He as [Hu HH]. split; [exact Hu|]. cbn [fst snd].
  intros i j Hi Hj. rewrite (HH i j Hi Hj). unfold mmul at 1. apply lsum_ext. intros k Hk. apply in_seq in Hk. unfold madj. cbn [kmul kconj CStar]. f_equal.
  unfold mmul. rewrite (lsum_single (SR := CStar) _ _ k).
  - unfold np_diag. rewrite Nat.eqb_refl. reflexivity.
  - apply seq_NoDup.
  - apply in_seq. lia.
  - intros l _ Hl. unfold np_diag. assert (E : (l =? k) = false) by (apply Nat.eqb_neq; auto). rewrite E. cbn [kmul k0 CStar]. apply Cmult_0_r.
Qed.

Lemma obs_one n o : fits n o -> exists F, full n o = Ok F /\ embedded n o F /\ (hermitian_obs o -> hermitian (2 ^ n) (a_ent F)) /\
  (pauli_type o -> meq (2 ^ n) (mmul (2 ^ n) (a_ent F) (a_ent F)) mid).
Proof.
  intros Hf. assert (Hf' := Hf). destruct (full_ok n o Hf') as (F & E & R1 & R2 & M).
  exists F. split; [exact E|]. split; [|split].
  - assert (Q : Forall2 (embedded n) [o] [F]).
    { apply full_embedded; [constructor; [exact Hf|constructor]|]. cbn [mapM]. rewrite E. reflexivity. }
    inversion Q; subst. assumption.
  - intros Hh. unfold hermitian. rewrite M. apply emb_hermitian. exact Hh.
  - intros [_ H2]. rewrite M. unfold qmat. destruct Hf' as (_ & W1 & W2 & _). rewrite emb_mul by (split; assumption). rewrite <- (emb_id n (q_wires o)) by (split; assumption).
    apply emb_proper. exact H2.
Qed.

Lemma pure_hermitian d phi : hermitian d (fun i j => Cmult (phi i) (Cconj (phi j))).
Proof. intros i j _ _. unfold madj. cbn [kconj CStar]. destruct (phi i), (phi j). apply C_ext; simpl; ring. Qed.

Lemma shift_hermitian d rho gate : hermitian d rho -> hermitian d (param_shift_comm d rho gate).
Proof.
  intros H. unfold hermitian in *. unfold param_shift_comm. rewrite madj_sub, !madj_mul, !madj_adj_eq, H.
  rewrite <- !mmul_assoc. reflexivity.
Qed.

Lemma flow_one eigh n eta u o : fits n o -> eigh_correct (2 ^ n) eigh -> exists F H, full n o = Ok F /\ embedded n o F /\
  (hermitian_obs o -> hermitian (2 ^ n) (a_ent F)) /\ (pauli_type o -> meq (2 ^ n) (mmul (2 ^ n) (a_ent F) (a_ent F)) mid) /\ eigh_at (2 ^ n) H (eigh (2 ^ n) H) /\
  (pauli_type o -> meq (2 ^ n) H (mscale Ci (msub (mmul (2 ^ n) (outer (qnode_state u)) (a_ent F)) (mmul (2 ^ n) (a_ent F) (outer (qnode_state u)))))) /\
  flow_step eigh n eta u o = Ok (mmul (2 ^ n) (spin (2 ^ n) eta (eigh (2 ^ n) H)) u).
Proof.
  intros Hf He. destruct (obs_one n o Hf) as (F & E & HE & Hh & H2). exists F. eexists. split; [exact E|]. split; [exact HE|]. split; [exact Hh|]. split; [exact H2|].
  unfold flow_step. rewrite E. cbn [bind]. rewrite eigh_step_spin. split; [|split; [|reflexivity]].
  - apply eigh_correct_at; [exact He|]. apply shift_hermitian, pure_hermitian.
  - intros Hp. apply (param_shift_comm_spec (2 ^ n) (outer (qnode_state u)) (a_ent F)); [apply Hh, Hp|apply H2, Hp].
Qed.

Lemma cost_one n o F u : full n o = Ok F -> exact_cost n [o] u = Ok (Re (quad (2 ^ n) (qnode_state u) (a_ent F))).
Proof. intros E. unfold exact_cost. cbn [foldM]. unfold expval. rewrite E. cbn [bind]. unfold qnode_expval. rewrite Rplus_0_l. reflexivity. Qed.
Lemma flow_single eigh n o eta u : exact_flow eigh n [o] eta u = flow_step eigh n eta u o.
Proof. unfold exact_flow. cbn [foldM]. destruct (flow_step eigh n eta u o); reflexivity. Qed.

Lemma pow2_pos' n : 0 < 2 ^ n.
Proof. induction n; simpl; lia. Qed.

(** the new cost of one step, as a function of the old *)
Lemma flow_next eigh n o eta u : fits n o -> pauli_type o -> eigh_correct (2 ^ n) eigh -> unitary2 (2 ^ n) u ->
  exists u' F c, exact_flow eigh n [o] eta u = Ok u' /\ unitary2 (2 ^ n) u' /\ full n o = Ok F /\ embedded n o F /\ c = energy n [F] u /\
    exact_cost n [o] u = Ok c /\ exact_cost n [o] u' = Ok (next_cost eta c) /\ energy n [F] u' = next_cost eta c /\ (-1 <= c <= 1)%R /\
    hermitian (2 ^ n) (a_ent F) /\ meq (2 ^ n) (mmul (2 ^ n) (a_ent F) (a_ent F)) mid.
Proof.
  intros Hf Hp He Hu. destruct (flow_one eigh n eta u o Hf He) as (F & H & EF & HE & Hh & H2 & Ha & HH & Es).
  specialize (Hh (proj1 Hp)). specialize (H2 Hp). specialize (HH Hp).
  eexists. exists F, (Re (quad (2 ^ n) (qnode_state u) (a_ent F))). rewrite flow_single, Es. split; [reflexivity|].
  pose proof (flow_cost (2 ^ n) (a_ent F) H _ u eta (pow2_pos' n) Hh H2 Hu HH Ha) as Hc. cbv zeta in Hc.
  split; [apply unitary2_mul; [apply spin_unitary; apply Ha|exact Hu]|]. split; [exact EF|]. split; [exact HE|].
  assert (En : forall w, energy n [F] w = Re (quad (2 ^ n) (qnode_state w) (a_ent F))) by (intros w; unfold energy, rsum; simpl; unfold qnode_state; ring).
  rewrite !En, !(cost_one n o F _ EF), Hc. repeat (split; [reflexivity|]). split; [|split; assumption].
  apply (exp_bound (2 ^ n) (a_ent F) (qnode_state u) Hh H2). apply state_norm; [apply pow2_pos'|apply Hu].
Qed.

(** ** C63 *)
Theorem C63_exact_descent : forall n o eta eigh u, fits n o -> pauli_type o -> (0 <= eta <= 1)%R -> eigh_correct (2 ^ n) eigh -> unitary2 (2 ^ n) u ->
  exists u' F c c', exact_flow eigh n [o] eta u = Ok u' /\ unitary2 (2 ^ n) u' /\ embedded n o F /\
    exact_cost n [o] u = Ok c /\ exact_cost n [o] u' = Ok c' /\ c = energy n [F] u /\ c' = energy n [F] u' /\ (-1 <= c' <= c)%R /\ (c <= 1)%R.
Proof.
  intros n o eta eigh u Hf Hp Ht He Hu. destruct (flow_next eigh n o eta u Hf Hp He Hu) as (u' & F & c & E1 & E2 & _ & HE & Ec & C1 & C2 & Ec' & B & _).
  exists u', F, c, (next_cost eta c). repeat (split; [first [assumption|symmetry; assumption]|]). split; [apply next_cost_le; lra|lra].
Qed.
Print Assumptions C63_exact_descent.

(** ** C64 *)
Theorem C64_exact_stall : forall n o eta eigh u, fits n o -> pauli_type o -> (0 < eta <= 1)%R -> eigh_correct (2 ^ n) eigh -> unitary2 (2 ^ n) u ->
  exists u' F c c', exact_flow eigh n [o] eta u = Ok u' /\ embedded n o F /\ exact_cost n [o] u = Ok c /\ exact_cost n [o] u' = Ok c' /\
    (c' = c <-> eigenstate n (a_ent F) u).
Proof.
  intros n o eta eigh u Hf Hp Ht He Hu. destruct (flow_next eigh n o eta u Hf Hp He Hu) as (u' & F & c & E1 & E2 & EF & HE & Ec & C1 & C2 & Ec' & B & Hh & H2).
  exists u', F, c, (next_cost eta c). repeat (split; [assumption|]). rewrite next_cost_stall by assumption.
  rewrite (cost_one n o F u EF) in C1. injection C1 as C1. rewrite <- C1.
  rewrite (eigen_iff (2 ^ n) (a_ent F) (qnode_state u) Hh H2) by (apply state_norm; [apply pow2_pos'|apply Hu]).
  unfold eigenstate, veq, mv, qnode_state. reflexivity.
Qed.
Print Assumptions C64_exact_stall.

(** ** C65. The iteration exists, and its costs tend to -1 unless the start
    state is left fixed by the observable. *)
Theorem C65_exact_limit : forall n o eta eigh u, fits n o -> pauli_type o -> (0 < eta <= 1)%R -> eigh_correct (2 ^ n) eigh -> unitary2 (2 ^ n) u ->
  exists (us : nat -> mat C) (c : nat -> R) F, us 0 = u /\ embedded n o F /\
    (forall k, exact_flow eigh n [o] eta (us k) = Ok (us (S k)) /\ exact_cost n [o] (us k) = Ok (c k)) /\
    ((exists i, i < 2 ^ n /\ lsum (SR := CStar) (fun j => Cmult (a_ent F i j) (u j 0)) (seq 0 (2 ^ n)) <> u i 0) -> is_lim_seq c (-1)%R) /\
    ((forall i, i < 2 ^ n -> lsum (SR := CStar) (fun j => Cmult (a_ent F i j) (u j 0)) (seq 0 (2 ^ n)) = u i 0) -> forall k, c k = 1%R).
Proof.
  intros n o eta eigh u Hf Hp Ht He Hu.
  set (us := fix it k := match k with O => u | S k' => match exact_flow eigh n [o] eta (it k') with Ok v => v | Err _ => u end end).
  set (c := fun k => match exact_cost n [o] (us k) with Ok x => x | Err _ => 0%R end).
  assert (Hus : forall k, unitary2 (2 ^ n) (us k)).
  { induction k as [|k IH]; [exact Hu|]. destruct (flow_next eigh n o eta (us k) Hf Hp He IH) as (u' & F & x & E1 & E2 & _). cbn [us]. fold us. rewrite E1. exact E2. }
  destruct (flow_next eigh n o eta u Hf Hp He Hu) as (_ & F & _ & _ & _ & EF & HE & _ & _ & _ & _ & _ & Hh & H2).
  assert (Hk : forall k, exact_flow eigh n [o] eta (us k) = Ok (us (S k)) /\ exact_cost n [o] (us k) = Ok (c k) /\ c (S k) = next_cost eta (c k) /\ (-1 <= c k <= 1)%R).
  { intros k. destruct (flow_next eigh n o eta (us k) Hf Hp He (Hus k)) as (u' & F' & x & E1 & E2 & _ & _ & _ & C1 & C2 & _ & B & _).
    assert (Q : us (S k) = u') by (cbn [us]; fold us; rewrite E1; reflexivity). unfold c. rewrite Q, E1, C1, C2. auto. }
  exists us, c, F. split; [reflexivity|]. split; [exact HE|]. split; [intros k; destruct (Hk k) as (A & B & _); auto|].
  assert (N : ip (2 ^ n) (qnode_state u) (qnode_state u) = RtoC 1) by (apply state_norm; [apply pow2_pos'|apply Hu]).
  assert (C0 : c 0 = Re (quad (2 ^ n) (qnode_state u) (a_ent F))). { unfold c. cbn [us]. rewrite (cost_one n o F u EF). reflexivity. }
  split.
  - intros (i & Hi & Hne). apply (next_cost_limit eta c Ht).
    + destruct (Hk 0) as (_ & _ & _ & B). split; [lra|]. destruct (Req_dec (c 0) 1) as [E|E]; [|lra]. exfalso. apply Hne.
      assert (Q : (Re (quad (2 ^ n) (qnode_state u) (a_ent F)) * Re (quad (2 ^ n) (qnode_state u) (a_ent F)) = 1)%R) by (rewrite <- C0, E; ring).
      apply (eigen_iff (2 ^ n) (a_ent F) (qnode_state u) Hh H2 N) in Q. destruct Q as (x & Hx).
      assert (Ex : x = 1%R).
      { rewrite C0 in E. rewrite quad_ip in E. rewrite (ip_ext (2 ^ n) _ _ _ _ (veq_refl _ _) Hx) in E. rewrite ip_scale_r, N in E. simpl in E. lra. }
      specialize (Hx i Hi). rewrite Ex in Hx. unfold mv, qnode_state in Hx. cbn [kmul CStar] in Hx. rewrite Hx. apply Cmult_1_l.
    + intros k. apply Hk.
  - intros Hfix. assert (E0 : c 0 = 1%R).
    { rewrite C0, quad_ip. rewrite (ip_ext (2 ^ n) _ (qnode_state u) _ (qnode_state u)); [rewrite N; reflexivity|apply veq_refl|].
      intros i Hi. unfold mv, qnode_state. cbn [kmul CStar]. apply Hfix. exact Hi. }
    induction k as [|k IH]; [exact E0|]. destruct (Hk k) as (_ & _ & -> & _). rewrite IH. apply next_cost_stall; lra.
Qed.
Print Assumptions C65_exact_limit.

(** ** C73. The step of exact_lie_optimizer is U -> exp(eta/2 [rho, O]) U for every
    observable in turn, whatever eigendecompositions were computed. *)
Definition density (u : mat C) : mat C := fun i j => Cmult (u i 0) (Cconj (u j 0)).
Definition riemann_step (n : nat) (eta : R) (u : mat C) (F : arr C) : mat C :=
  mmul (2 ^ n) (expm (2 ^ n) (mscale (RtoC (eta / 2)) (msub (mmul (2 ^ n) (density u) (a_ent F)) (mmul (2 ^ n) (a_ent F) (density u))))) u.

Lemma riemann_proper n eta u v F : meq (2 ^ n) u v -> meq (2 ^ n) (riemann_step n eta u F) (riemann_step n eta v F).
Proof.
  intros H. unfold riemann_step. apply mmul_proper; [|exact H]. apply expm_proper.
  assert (Hd : meq (2 ^ n) (density u) (density v)) by (intros i j Hi Hj; unfold density; rewrite (H i 0 Hi (pow2_pos' n)), (H j 0 Hj (pow2_pos' n)); reflexivity).
  rewrite Hd. reflexivity.
Qed.

Theorem C73_exact_exponential : forall n obs eta eigh u, Forall (fits n) obs -> Forall pauli_type obs -> eigh_correct (2 ^ n) eigh ->
  exists u' Fs, exact_flow eigh n obs eta u = Ok u' /\ Forall2 (embedded n) obs Fs /\ meq (2 ^ n) u' (fold_left (riemann_step n eta) Fs u).
Proof.
  intros n obs eta eigh u Hf Hp He. revert u. induction Hf as [|o r Ho Hr IH]; intros u.
  - exists u, []. split; [reflexivity|]. split; [constructor|reflexivity].
  - pose proof (Forall_inv Hp) as Hpo. destruct (flow_one eigh n eta u o Ho He) as (F & H & EF & HE & Hh & H2 & Ha & HH & Es).
    destruct (IH (Forall_inv_tail Hp) (mmul (2 ^ n) (spin (2 ^ n) eta (eigh (2 ^ n) H)) u)) as (u' & Fs & E & HF & M).
    exists u', (F :: Fs). unfold exact_flow in *. cbn [foldM]. rewrite Es. cbn [bind]. split; [exact E|]. split; [constructor; assumption|].
    rewrite M. cbn [fold_left]. clear - Ha HH Hpo.
    assert (S : meq (2 ^ n) (mmul (2 ^ n) (spin (2 ^ n) eta (eigh (2 ^ n) H)) u) (riemann_step n eta u F)).
    { unfold riemann_step. apply mmul_proper; [|reflexivity]. rewrite (spin_expm _ eta H _ Ha). apply expm_proper. rewrite (HH Hpo).
      intros i j _ _. unfold mscale, mit. cbn [kmul CStar]. change (outer (qnode_state u)) with (density u).
      destruct (msub _ _ i j) as [a b]. apply C_ext; simpl; field. }
    revert S. generalize (mmul (2 ^ n) (spin (2 ^ n) eta (eigh (2 ^ n) H)) u) (riemann_step n eta u F). clear. induction Fs as [|G Fs IH]; intros x y S; cbn [fold_left]; [exact S|].
    apply IH. apply riemann_proper. exact S.
Qed.
Print Assumptions C73_exact_exponential.

(** ** C66, exact_lie_optimizer. The runs succeed, every circuit of a run is
    unitary, and so are the returned unitary and the norms of the states. *)
Lemma eigh_step_unitary eigh d eta H u : eigh_correct d eigh -> hermitian d H -> unitary2 d u -> unitary2 d (eigh_step eigh d eta H u).
Proof. intros He Hh Hu. rewrite eigh_step_spin. apply unitary2_mul; [apply spin_unitary; apply eigh_correct_at; assumption|exact Hu]. Qed.

Lemma flow_unitary eigh n obs eta : Forall (fits n) obs -> eigh_correct (2 ^ n) eigh ->
  forall u, exists u', exact_flow eigh n obs eta u = Ok u' /\ (unitary2 (2 ^ n) u -> unitary2 (2 ^ n) u').
Proof.
  intros Hf He. induction Hf as [|o r Ho Hr IH]; intros u; [exists u; split; [reflexivity|auto]|].
  destruct (flow_one eigh n eta u o Ho He) as (F & H & EF & HE & Hh & H2 & Ha & HH & Es).
  destruct (IH (mmul (2 ^ n) (spin (2 ^ n) eta (eigh (2 ^ n) H)) u)) as (u' & E & Hu'). exists u'. unfold exact_flow in *. cbn [foldM]. rewrite Es. cbn [bind].
  split; [exact E|]. intros Hu. apply Hu'. apply unitary2_mul; [apply spin_unitary; apply Ha|exact Hu].
Qed.

Lemma perturb_unitary eigh n random eta s u : eigh_correct (2 ^ n) eigh -> unitary2 (2 ^ n) u -> unitary2 (2 ^ n) (random_perturb eigh n random eta s u).
Proof.
  intros He Hu. unfold random_perturb. apply eigh_step_unitary; [exact He| |exact Hu].
  intros i j _ _. unfold madj. cbn [kconj CStar]. apply C_ext; simpl; field.
Qed.

Lemma cost_total n obs u : Forall (fits n) obs -> forall c0, exists c, foldM (fun c o => do e <- expval n u o; Ok (c + e)%R) obs c0 = Ok c.
Proof.
  induction 1 as [|o r Ho Hr IH]; intros c0; cbn [foldM]; [eauto|]. destruct (obs_one n o Ho) as (F & E & _). unfold expval at 1. rewrite E. cbn [bind]. apply IH.
Qed.

Lemma start_unitary n gates : Forall (unitary_gate n) gates -> exists U, circuit_unitary (K := C) n gates = Ok U /\ unitary2 (2 ^ n) (a_ent U).
Proof.
  intros Hg. destruct (PropCircuit.C39_circuit_unitary C CStar n gates []) as (U & V & W & Fs & EU & _ & _ & _ & _ & _ & _ & Hu & _).
  - eapply Forall_impl; [|exact Hg]. intros g Hgg. apply Hgg.
  - constructor.
  - exists U. split; [exact EU|]. apply Hu. eapply Forall_impl; [|exact Hg]. intros g Hgg. apply Hgg.
Qed.

Lemma chain_forall {U} (Q : U -> Prop) on warm lag tol cs perturb flow us : (forall s u, Q u -> Q (perturb s u)) -> (forall u v, Q u -> flow u = Ok v -> Q v) ->
  (forall u0, nth_error us 0 = Some u0 -> Q u0) ->
  chain (fun k x y => exists x' : U, restart on warm lag tol cs perturb k x x' /\ flow x' = Ok y) us -> Forall Q us.
Proof.
  intros Hp Hfl H0 Hc. apply Forall_forall. intros x Hx. apply In_nth_error in Hx. destruct Hx as (k & Hk). revert x Hk.
  induction k as [|k IH]; intros x Hk; [auto|]. destruct (nth_error us k) as [y|] eqn:Ey.
  - destruct (Hc k y x Ey Hk) as (y' & Hr & Hf). apply (Hfl y'); [|exact Hf]. specialize (IH y eq_refl). destruct k as [|j]; cbn [restart] in Hr; [subst; auto|].
    destruct Hr as [(_ & _ & ->)|(_ & ->)]; auto.
  - apply nth_error_None in Ey. assert (S k < List.length us) by (apply nth_error_Some; congruence). lia.
Qed.

(** the sum of the expectation values of the embedded observables *)
Lemma cost_energy n obs Fs u : Forall2 (fun o F => full n o = Ok F) obs Fs -> exact_cost n obs u = Ok (energy n Fs u).
Proof.
  intros H. unfold exact_cost, energy. assert (Q : forall c0, foldM (fun c o => do e <- expval n u o; Ok (c + e)%R) obs c0 = Ok (c0 + rsum (fun O => Re (quad (2 ^ n) (fun i => u i 0%nat) (a_ent O))) Fs)%R).
  { induction H as [|o F r Fr EF Hr IH]; intros c0; cbn [foldM]; [unfold rsum; cbn; f_equal; ring|]. unfold expval at 1. rewrite EF. cbn [bind]. rewrite IH. f_equal.
    unfold rsum, qnode_expval, qnode_state. cbn [map fold_right]. ring. }
  rewrite Q. f_equal. ring.
Qed.

Theorem C66_exact_unitary : forall P Om Z n gates obs eigh random kw,
  Forall (unitary_gate n) gates -> Forall (fits n) obs -> eigh_correct (2 ^ n) eigh -> ex_accepts kw ->
  exists r : retval (item (nat -> C) P Om (mat C) Z), exact_optimizer eigh random n gates obs RetState kw = Ok r /\
  forall cs ss ps u, ex_result kw r cs ss ps u ->
    (exists circuits Fs, Forall2 (embedded n) obs Fs /\ Forall (unitary2 (2 ^ n)) circuits /\ cs = map (energy n Fs) circuits /\
       (the_flag kw "return_state" = true -> ss = map (fun w i => w i 0) circuits)) /\
    (the_flag kw "return_unitary" = true -> unitary2 (2 ^ n) u).
Proof.
  intros P Om Z n gates obs eigh random kw Hg Hf He Ha. destruct (start_unitary n gates Hg) as (U & EU & HU).
  assert (T1 : forall e u, exists u', exact_flow eigh n obs e u = Ok u') by (intros e u; destruct (flow_unitary eigh n obs e Hf He u) as (u' & E & _); eauto).
  assert (T2 : forall u, exists c, exact_cost n obs u = Ok c) by (intros u; apply cost_total; exact Hf).
  destruct (proj1 (C53_exact_arguments (nat -> C) (mat C) P Om Z RetState kw) (conj eq_refl Ha) (exact_flow eigh n obs) (exact_cost n obs) (fun u => Ok (qnode_state u)) (random_perturb eigh n random) (a_ent U) T1 T2) as (r & Er).
  { intros u. eexists. reflexivity. }
  exists r. unfold exact_optimizer. rewrite EU. cbn [bind]. split; [exact Er|].
  intros cs ss ps u Hr. destruct (C56_exact_histories _ _ _ _ _ _ _ _ _ _ _ _ _ _ _ _ Ha Er Hr) as (circuits & u0 & m & E0 & H0 & Hl & Hm & Hc & Hcost & Hst & Hun).
  injection E0 as E0.
  assert (HQ : Forall (unitary2 (2 ^ n)) circuits).
  { eapply chain_forall; [| | |exact Hc].
    - intros s w Hw. apply perturb_unitary; assumption.
    - intros w v Hw Ef. destruct (flow_unitary eigh n obs (the_eta kw) Hf He w) as (v' & Ev & Hv). rewrite Ef in Ev. injection Ev as ->. auto.
    - intros w Hw. rewrite H0 in Hw. injection Hw as <-. rewrite <- E0. exact HU. }
  split.
  - destruct (obs_embedded n obs Hf) as (Fs & EFs & HFs). exists circuits, Fs. split; [exact HFs|]. split; [exact HQ|].
    assert (Q2 : Forall2 (fun o F => full n o = Ok F) obs Fs).
    { clear - EFs. revert Fs EFs. induction obs as [|o r IH]; intros Fs E; cbn [mapM] in E; [injection E as <-; constructor|].
      destruct (full n o) as [F|] eqn:EF; cbn [bind] in E; [|discriminate]. destruct (mapM (full n) r) as [Fr|]; cbn [bind] in E; [|discriminate]. injection E as <-. constructor; auto. }
    split.
    + clear - Hcost Q2. induction Hcost as [|w c cw cc E H IH]; [reflexivity|]. cbn [map]. rewrite <- IH. f_equal. rewrite (cost_energy n obs Fs w Q2) in E. injection E. auto.
    + intros Hs. specialize (Hst Hs). clear - Hst. induction Hst as [|w s cw cc E H IH]; [reflexivity|]. cbn [map]. rewrite <- IH. f_equal. injection E. auto.
  - intros Hu. destruct (Hun Hu) as (last & Hlast & Hre). assert (HL : unitary2 (2 ^ n) last) by (rewrite Forall_forall in HQ; apply HQ; eapply nth_error_In; exact Hlast).
    destruct m as [|j]; cbn [restart] in Hre; [subst; exact HL|]. destruct Hre as [(_ & _ & ->)|(_ & ->)]; [apply perturb_unitary; assumption|exact HL].
Qed.
Print Assumptions C66_exact_unitary.

(** C63 for whole runs: a cost is larger than the one before only if the step
    before was perturbed *)
Theorem C63_exact_run : forall P Om Z n gates o eigh random kw (r : retval (item (nat -> C) P Om (mat C) Z)) cs ss ps u,
  Forall (unitary_gate n) gates -> fits n o -> pauli_type o -> eigh_correct (2 ^ n) eigh -> ex_accepts kw ->
  exact_optimizer eigh random n gates [o] RetState kw = Ok r -> ex_result kw r cs ss ps u ->
  forall k c c', nth_error cs k = Some c -> nth_error cs (S k) = Some c' -> (c' <= c)%R \/
    (the_flag kw "perturbation" = true /\ exists j, k = S j /\ stalls 3 1 (Some (the_tol kw)) cs j).
Proof.
  intros P Om Z n gates o eigh random kw r cs ss ps u Hg Hf Hp He Ha E Hr k c c' Ec Ec'.
  destruct (start_unitary n gates Hg) as (U & EU & HU). unfold exact_optimizer in E. rewrite EU in E. cbn [bind] in E.
  destruct (C56_exact_histories _ _ _ _ _ _ _ _ _ _ _ _ _ _ _ _ Ha E Hr) as (circuits & u0 & m & E0 & H0 & Hl & Hm & Hc & Hcost & Hst & Hun).
  injection E0 as E0.
  assert (Heta : (0 <= the_eta kw <= 1)%R).
  { destruct Ha as (_ & A & _). unfold the_eta. unfold allowed in A. destruct (arg kw "eta") as [v|]; [|lra]. destruct (A v eq_refl) as (x & -> & Hx). exact Hx. }
  assert (HQ : Forall (unitary2 (2 ^ n)) circuits).
  { eapply chain_forall; [| | |exact Hc].
    - intros s w Hw. apply perturb_unitary; assumption.
    - intros w v Hw Ef. destruct (flow_unitary eigh n [o] (the_eta kw) (Forall_cons _ Hf (Forall_nil _)) He w) as (v' & Ev & Hv). rewrite Ef in Ev. injection Ev as ->. auto.
    - intros w Hw. rewrite H0 in Hw. injection Hw as <-. rewrite <- E0. exact HU. }
  assert (Q : forall i x, nth_error cs i = Some x -> exists w, nth_error circuits i = Some w /\ exact_cost n [o] w = Ok x).
  { clear - Hcost. induction Hcost as [|w y cw cc Ew H IH]; intros [|i] x Hx; try discriminate; cbn in Hx |- *; [injection Hx as <-; eauto|apply IH; exact Hx]. }
  destruct (Q k c Ec) as (w & Hw & Cw). destruct (Q (S k) c' Ec') as (w' & Hw' & Cw'). destruct (Hc k w w' Hw Hw') as (x & Hx & Ef).
  assert (D : x = w -> (c' <= c)%R).
  { intros ->. assert (Hu : unitary2 (2 ^ n) w) by (rewrite Forall_forall in HQ; apply HQ; eapply nth_error_In; exact Hw).
    destruct (C63_exact_descent n o (the_eta kw) eigh w Hf Hp Heta He Hu) as (v & F & a & b & Ev & _ & _ & Ca & Cb & _ & _ & Hab & _).
    rewrite Ef in Ev. injection Ev as <-. rewrite Cw in Ca. rewrite Cw' in Cb. injection Ca as <-. injection Cb as <-. lra. }
  destruct k as [|j]; cbn [restart] in Hx; [left; auto|]. destruct Hx as [(H1 & H2 & _)|(_ & H2)]; [right; eauto|left; auto].
Qed.
Print Assumptions C63_exact_run.

(** ** C61: refuted. When the last step stalls with perturbation=True the returned
    unitary is the perturbed one, whose cost was never computed. *)
Theorem C61_returned_cost_partial : forall P Om Z n gates obs eigh random kw (r : retval (item (nat -> C) P Om (mat C) Z)) cs ss ps u,
  ex_accepts kw -> exact_optimizer eigh random n gates obs RetState kw = Ok r -> ex_result kw r cs ss ps u -> the_flag kw "return_unitary" = true ->
  ~ (the_flag kw "perturbation" = true /\ stalls 3 1 (Some (the_tol kw)) cs (List.length cs - 2)) -> exact_cost n obs u = Ok (last cs 0%R).
Proof.
  intros P Om Z n gates obs eigh random kw r cs ss ps u Ha E Hr Hf Hno. unfold exact_optimizer in E.
  destruct (C56_exact_histories _ _ _ _ _ _ _ _ _ _ _ _ _ _ _ _ Ha E Hr) as (circuits & u0 & m & _ & _ & Hl & Hm & _ & Hcost & _ & Hun).
  destruct (Hun Hf) as (x & Hx & Hre). pose proof (Forall2_length' _ _ _ Hcost) as Hlen.
  assert (Hcs : List.length cs = S m) by lia.
  assert (x = u) as <-.
  { destruct m as [|j]; [lia|]. cbn [restart] in Hre. destruct Hre as [(H1 & H2 & _)|(_ & ->)]; [|reflexivity]. exfalso. apply Hno. split; [exact H1|]. rewrite Hcs. replace (S (S j) - 2) with j by lia. exact H2. }
  assert (Q : forall k w, nth_error circuits k = Some w -> exists c, nth_error cs k = Some c /\ exact_cost n obs w = Ok c).
  { clear - Hcost. induction Hcost as [|w y cw cc Ew H IH]; intros [|i] v Hx; try discriminate; cbn in Hx |- *; [injection Hx as <-; eauto|apply IH; exact Hx]. }
  destruct (Q m x Hx) as (c & Ec & Cx). rewrite Cx. f_equal. clear - Ec Hcs. revert m Ec Hcs. induction cs as [|y cs IH]; intros m Ec Hcs; [discriminate|].
  destruct m as [|m]; cbn in Ec, Hcs; [destruct cs; [injection Ec; auto|discriminate]|]. destruct cs as [|z cs]; [discriminate|]. change (last (y :: z :: cs) 0%R) with (last (z :: cs) 0%R). apply (IH m); [exact Ec|lia].
Qed.
Print Assumptions C61_returned_cost_partial.

Definition z_obs : qop C := mkqop lit_Z [0].
Lemma z_obs_fit : fits 1 z_obs.
Proof. repeat constructor; simpl; try discriminate; auto; lia. Qed.
Lemma z_obs_pauli : pauli_type z_obs.
Proof.
  split; intros i j Hi Hj; simpl in Hi, Hj; (destruct i as [|[|i]]; [| |lia]); (destruct j as [|[|j]]; [| |lia]);
    unfold hermitian_obs, madj, mmul, mid; simpl; apply C_ext; simpl; ring.
Qed.
Lemma z_cost u : exact_cost 1 [z_obs] u = Ok (let x := u 0 0 in let y := u 1 0 in (Re x * Re x + Im x * Im x - (Re y * Re y + Im y * Im y))%R).
Proof.
  destruct (obs_one 1 z_obs z_obs_fit) as (F & EF & (_ & _ & HE) & _). rewrite (cost_one 1 z_obs F u EF). f_equal.
  assert (E : forall r c, r < 2 -> c < 2 -> a_ent F r c = a_ent (lit_Z (K := C)) r c).
  { intros r c Hr Hc. destruct (HE r c Hr Hc) as (_ & H). apply H; [|exact Hr|exact Hc|intros i Hi; simpl in Hi; replace i with 0 by lia; reflexivity|intros i Hi; simpl in Hi; replace i with 0 by lia; reflexivity].
    intros v Hv Hn. exfalso. apply Hn. left. lia. }
  unfold quad, qnode_state. cbn [Nat.pow Nat.mul Nat.add seq]. rewrite !lsum_cons, !lsum_nil, !E by lia. cbn [kadd kmul kconj k0 CStar]. simpl.
  destruct (u 0 0) as [a b], (u 1 0) as [c e]. simpl. ring.
Qed.

(** a random matrix that turns the state over *)
Definition turn (_ i j : nat) : R := if (i =? 0) && (j =? 1) then (20 * PI)%R else 0%R.
Lemma turn_cost eigh s u c : eigh_correct (2 ^ 1) eigh -> exact_cost 1 [z_obs] u = Ok c -> exact_cost 1 [z_obs] (random_perturb eigh 1 turn 1 s u) = Ok (- c)%R.
Proof.
  intros He Hc. rewrite z_cost in *. injection Hc as <-. f_equal. unfold random_perturb. rewrite eigh_step_spin. set (H := fun i j => Cmult (Copp Ci) _).
  assert (Hh : hermitian (2 ^ 1) H) by (intros i j _ _; unfold madj, H; cbn [kconj CStar]; apply C_ext; simpl; field).
  assert (A := eigh_correct_at _ _ _ He Hh). set (phi := qnode_state u).
  assert (E : forall i x, mv (2 ^ 1) H x i = Cplus (Cmult (H i 0) (x 0)) (Cmult (H i 1) (x 1))).
  { intros i x. unfold mv. cbn [Nat.pow Nat.mul Nat.add seq]. rewrite !lsum_cons, !lsum_nil. cbn [kadd k0 CStar]. ring. }
  assert (H00 : H 0 0 = RtoC 0) by (unfold H, turn; cbn; apply C_ext; simpl; ring). assert (H11 : H 1 1 = RtoC 0) by (unfold H, turn; cbn; apply C_ext; simpl; ring).
  assert (H01 : H 0 1 = (0, - PI)%R) by (unfold H, turn; cbn; apply C_ext; simpl; field). assert (H10 : H 1 0 = (0, PI)%R) by (unfold H, turn; cbn; apply C_ext; simpl; field).
  assert (HH : veq (2 ^ 1) (mv (2 ^ 1) H (mv (2 ^ 1) H phi)) (fun i => Cmult (RtoC (PI * PI)) (phi i))).
  { intros i Hi. rewrite !E. simpl in Hi. destruct i as [|[|i]]; [| |lia]; rewrite H00, H11, H01, H10; destruct (phi 0), (phi 1); apply C_ext; simpl; ring. }
  assert (Pi : (PI <> 0)%R) by (pose proof PI_RGT_0; lra).
  assert (Sp := spin_action (2 ^ 1) 1 H _ phi PI (/ PI) A ltac:(pose proof PI_RGT_0; lra)).
  replace (1 / 2 * PI)%R with (PI / 2)%R in Sp by field. rewrite cos_PI2, sin_PI2 in Sp. specialize (Sp ltac:(field; exact Pi) HH).
  assert (S0 : forall i, mmul (2 ^ 1) (spin (2 ^ 1) 1 (eigh (2 ^ 1) H)) u i 0 = mv (2 ^ 1) (spin (2 ^ 1) 1 (eigh (2 ^ 1) H)) phi i) by (intros i; reflexivity).
  rewrite !S0, (Sp 0 ltac:(simpl; lia)), (Sp 1 ltac:(simpl; lia)), !E, H00, H11, H01, H10. change (u 0 0) with (phi 0). change (u 1 0) with (phi 1).
  destruct (phi 0), (phi 1). simpl. field. exact Pi.
Qed.

Definition last_kw : kwargs := [("nsteps", PyInt 5); ("eta", PyFloat (Fin 1)); ("perturbation", PyBool true); ("return_unitary", PyBool true)]%string.
Lemma last_kw_ok : ex_accepts last_kw.
Proof.
  unfold ex_accepts, allowed, arg. cbn. split; [intros v H; injection H as <-; right; exists 5%Z; split; [reflexivity|lia]|].
  split; [intros v H; injection H as <-; exists 1%R; split; [reflexivity|lra]|]. split; [intros v H; discriminate|].
  split; [|intros H; discriminate]. intros name Hin v H. simpl in Hin. intuition; subst; cbn in H; try discriminate; injection H as <-; eexists; reflexivity.
Qed.

Theorem C61_returned_cost_refuted : forall P Om Z, exists n gates obs random kw,
  Forall (unitary_gate n) gates /\ Forall (fits n) obs /\ Forall pauli_type obs /\ ex_accepts kw /\
  forall eigh, eigh_correct (2 ^ n) eigh -> exists cs u c,
    exact_optimizer (P := P) (Om := Om) (Z := Z) eigh random n gates obs RetState kw = Ok (RTuple [ItCosts cs; ItUnitary u]) /\
    exact_cost n obs u = Ok c /\ c <> last cs 0%R.
Proof.
  intros P Om Z. exists 1, [], [z_obs], turn, last_kw. split; [constructor|]. split; [constructor; [apply z_obs_fit|constructor]|]. split; [constructor; [apply z_obs_pauli|constructor]|].
  split; [apply last_kw_ok|]. intros eigh He.
  destruct (C66_exact_unitary P Om Z 1 [] [z_obs] eigh turn last_kw (Forall_nil _) (Forall_cons _ z_obs_fit (Forall_nil _)) He last_kw_ok) as (r & Er & _).
  assert (Er' := Er). unfold exact_optimizer in Er'. assert (E0 : exists U, circuit_unitary (K := C) 1 [] = Ok U /\ meq 2 (a_ent U) mid) by (eexists; split; [reflexivity|reflexivity]).
  destruct E0 as (U & EU & MU). rewrite EU in Er'. cbn [bind] in Er'.
  destruct (C60_exact_shape _ _ _ _ _ _ _ _ _ _ _ r last_kw_ok Er') as (cs & ss & ps & u & Hr).
  destruct (C56_exact_histories _ _ _ _ _ _ _ _ _ _ _ _ _ _ _ _ last_kw_ok Er' Hr) as (us & u0 & m & Eu0 & Hu0 & Hl & Hm & Hch & Hcost & _ & Hun).
  destruct (C58_exact_perturbations _ _ _ _ _ _ _ _ _ _ _ r cs ss ps u last_kw_ok Er' Hr eq_refl) as (Hlc & _).
  change (the_steps last_kw) with 5 in *. change (the_eta last_kw) with 1%R in *. change (the_tol last_kw) with (Fin (/ 1000)) in *. change (the_flag last_kw "perturbation") with true in *.
  pose proof (Forall2_length' _ _ _ Hcost) as Hlen. assert (m = 5) by lia. subst m. injection Eu0 as <-.
  assert (Q : forall k w, nth_error us k = Some w -> exists c, nth_error cs k = Some c /\ exact_cost 1 [z_obs] w = Ok c).
  { clear - Hcost. induction Hcost as [|w y cw cc Ew H IH]; intros [|i] v Hx; try discriminate; cbn in Hx |- *; [injection Hx as <-; eauto|apply IH; exact Hx]. }
  assert (HQ : Forall (unitary2 (2 ^ 1)) us).
  { eapply chain_forall; [| | |exact Hch].
    - intros s w Hw. apply perturb_unitary; assumption.
    - intros w v Hw Ef. destruct (flow_unitary eigh 1 [z_obs] 1 (Forall_cons _ z_obs_fit (Forall_nil _)) He w) as (v' & Ev & Hv). rewrite Ef in Ev. injection Ev as ->. auto.
    - intros w Hw. rewrite Hu0 in Hw. injection Hw as <-. apply (unitary2_proper (2 ^ 1) mid); [symmetry; exact MU|apply unitary2_id]. }
  assert (H1 : forall k w, k <= 5 -> nth_error us k = Some w -> exact_cost 1 [z_obs] w = Ok 1%R).
  { induction k as [|k IH]; intros w Hk Hw.
    - rewrite Hu0 in Hw. injection Hw as <-. rewrite z_cost, (MU 0 0), (MU 1 0) by lia. f_equal. simpl. ring.
    - destruct (nth_error us k) as [x|] eqn:Ex; [|apply nth_error_None in Ex; lia]. specialize (IH x ltac:(lia) eq_refl).
      destruct (Hch k x w Ex Hw) as (x' & Hx' & Ef).
      assert (x' = x) as ->. { destruct k as [|j]; cbn [restart] in Hx'; [exact Hx'|]. destruct Hx' as [(_ & (Hj & _) & _)|(_ & ->)]; [lia|reflexivity]. }
      assert (Hux : unitary2 (2 ^ 1) x) by (rewrite Forall_forall in HQ; apply HQ; eapply nth_error_In; exact Ex).
      destruct (flow_next eigh 1 z_obs 1 x z_obs_fit z_obs_pauli He Hux) as (v & F & c & Ev & _ & _ & _ & _ & C1 & C2 & _).
      rewrite Ef in Ev. injection Ev as <-. rewrite IH in C1. injection C1 as <-. rewrite C2. f_equal. apply next_cost_stall; lra. }
  destruct (Hun eq_refl) as (x & Hx & Hre). assert (Cx := H1 5 x ltac:(lia) Hx).
  assert (C5 : nth_error cs 5 = Some 1%R) by (destruct (Q 5 x Hx) as (c & Ec & Cc); rewrite Cx in Cc; injection Cc as <-; exact Ec).
  assert (C4 : nth_error cs 4 = Some 1%R).
  { destruct (nth_error us 4) as [y|] eqn:Ey; [|apply nth_error_None in Ey; lia]. destruct (Q 4 y Ey) as (c & Ec & Cc). rewrite (H1 4 y ltac:(lia) Ey) in Cc. injection Cc as <-. exact Ec. }
  assert (St : stalls 3 1 (Some (Fin (/ 1000))) cs 4).
  { split; [lia|]. exists (Fin (/ 1000)), 1%R, 1%R. split; [reflexivity|]. split; [exact C5|]. split; [exact C4|]. cbn. rewrite Rminus_eq_0, Rabs_R0. rewrite Rabs_R1. lra. }
  cbn [restart] in Hre. destruct Hre as [(_ & _ & ->)|(Hno & _)]; [|exfalso; apply Hno; auto].
  exists cs, (random_perturb eigh 1 turn 1 4 x), (- (1))%R. split; [rewrite Er; f_equal; exact Hr|]. split; [apply turn_cost; [exact He|exact Cx]|].
  do 6 (destruct cs as [|? cs]; [discriminate|]). destruct cs; [|discriminate]. cbn in C5 |- *. injection C5 as ->. lra.
Qed.
Print Assumptions C61_returned_cost_refuted.

(** ** Cases meeting the hypotheses: correct eigendecompositions exist for all
    sizes, Z on one qubit is a Pauli-type observable, |0> is an eigenstate. *)
Example eigh_exists : exists eigh, forall d, eigh_correct d eigh.
Proof.
  destruct (functional_choice (fun (p : nat * mat C) r => hermitian (fst p) (snd p) -> eigh_at (fst p) (snd p) r)) as (f & Hf).
  - intros [d H]. cbn [fst snd]. destruct (classic (hermitian d H)) as [Hh|Hh].
    + destruct (spectral d H Hh) as (r & Hr). exists r. auto.
    + exists (fun _ => 0%R, mid). intros Hc. contradiction.
  - exists (fun d H => f (d, H)). intros d H Hh. specialize (Hf (d, H) Hh). cbn [fst snd] in Hf. destruct (f (d, H)) as [Sv V]. destruct Hf as [Hu HM]. cbn [fst snd] in *. split; [exact Hu|].
    intros i j Hi Hj. rewrite (HM i j Hi Hj). unfold mmul at 1. apply lsum_ext. intros k Hk. apply in_seq in Hk. unfold madj. cbn [kmul kconj CStar]. f_equal.
    unfold mmul. rewrite (lsum_single (SR := CStar) _ _ k).
    + unfold np_diag. rewrite Nat.eqb_refl. reflexivity.
    + apply seq_NoDup.
    + apply in_seq. lia.
    + intros l _ Hl. unfold np_diag. assert (E : (l =? k) = false) by (apply Nat.eqb_neq; auto). rewrite E. cbn [kmul k0 CStar]. apply Cmult_0_r.
Qed.
Print Assumptions eigh_exists.

Example C63_case : fits 1 z_obs /\ pauli_type z_obs /\ Forall (unitary_gate 1) [mkqop lit_X [0]] /\ ex_accepts last_kw /\ unitary2 (2 ^ 1) (mid (K := C)) /\
  (exists eigh, eigh_correct (2 ^ 1) eigh).
Proof.
  split; [apply z_obs_fit|]. split; [apply z_obs_pauli|]. split; [|split; [apply last_kw_ok|split; [apply unitary2_id|destruct eigh_exists as (e & H); exists e; apply H]]].
  constructor; [|constructor]. split; [repeat constructor; simpl; try discriminate; auto; lia|].
  split; intros i j Hi Hj; simpl in Hi, Hj; (destruct i as [|[|i]]; [| |lia]); (destruct j as [|[|j]]; [| |lia]); unfold madj, mmul, mid; simpl; apply C_ext; simpl; ring.
Qed.
