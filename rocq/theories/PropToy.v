(** Property C118: the figure of experiments_paper/toy_example.py. *)
From Coq Require Import ZArith Arith Lia Bool String Reals Lra Psatz.
From Coquelicot Require Import Coquelicot.
From Verif Require Import Py StarRing Matrix Cplx UtilsModel CircuitModel LayerModel AdaptModel OptimizerModel OptProofs FlowModel FlowProofs FlowProofs2 Spectral
  ShiftModel ZasV2Model ApproxExampleModel PropCircuit PropLayers PropGreedy PropOptArgs PropOptRun PropFlow PropSpectrum PropEigenstate PropRedBlue PropTfim ToyModel ToyProofs.
From Coq Require Import List.
Import ListNotations.
Local Open Scope nat_scope.

(** ** Specification *)

(** the energy <X_1> + <X_0> + <Y_1> of the circuit with the parameters a and b, and its partial
    derivatives *)
Definition toy_height (p : R * R) : R := let (a, b) := p in (cos a * cos b + cos a * cos (a + b) + cos a * sin b)%R.
Definition toy_gradient (p : R * R) : R * R :=
  let (a, b) := p in (- (sin a * cos b) - sin (2 * a + b) - sin a * sin b, - (cos a * sin b) - cos a * sin (a + b) + cos a * cos b)%R.

(** The gradient is the one of the height. *)
Lemma toy_gradient_ok a b : is_derive (fun x => toy_height (x, b)) a (fst (toy_gradient (a, b))) /\ is_derive (fun x => toy_height (a, x)) b (snd (toy_gradient (a, b))).
Proof.
  unfold toy_height, toy_gradient. cbn [fst snd]. split; auto_derive; try exact I; [|ring]. replace (2 * a + b)%R with (a + (a + b))%R by ring. rewrite (sin_plus a (a + b)). ring.
Qed.

(** ** Lemmas *)
Lemma toy_kwargs_ps : ps_accepts toy_kwargs.
Proof.
  unfold ps_accepts, allowed. split; [|split; [|split]].
  - intros v E. discriminate.
  - intros v E. cbn in E. injection E as <-. exists (/ 2)%R. split; [reflexivity|lra].
  - intros v E. discriminate.
  - intros name [<-|[<-|[]]] v E; discriminate.
Qed.
Lemma toy_kwargs_ex : ex_accepts toy_kwargs.
Proof.
  unfold ex_accepts, allowed. split; [|split; [|split; [|split]]].
  - intros v E. discriminate.
  - intros v E. cbn in E. injection E as <-. exists (/ 2)%R. split; [reflexivity|lra].
  - intros v E. discriminate.
  - intros name Hn v E. cbn in Hn. destruct Hn as [<-|[<-|[<-|[<-|[]]]]]; discriminate.
  - intros E. discriminate.
Qed.
Lemma toy_cost_height p : toy_cost p = Ok (toy_height p).
Proof. destruct p as [a b]. rewrite toy_cost_ok. unfold toy_height. f_equal. ring. Qed.
Lemma toy_descend eta p : toy_step eta p = Ok (fst p - eta * fst (toy_gradient p), snd p - eta * snd (toy_gradient p))%R.
Proof.
  destruct p as [a b]. rewrite toy_step_ok. unfold toy_gradient, toy_slope. cbn [fst snd]. do 2 f_equal; [|ring]. replace (2 * a + b)%R with (a + (a + b))%R by ring. ring.
Qed.
Lemma toy_total : ps_total toy_step toy_cost toy_state.
Proof.
  split; [|split].
  - intros e p. rewrite toy_descend. eauto.
  - intros p. rewrite toy_cost_height. eauto.
  - intros [a b]. unfold toy_state. destruct (toy_column a b) as (U & -> & _). cbn [bind]. eauto.
Qed.

(** ** C118 *)

(** The script draws its figure. The curve PS holds the energies of the circuit at the points of
    gradient descent with rate 1/2 from (0.1, 1.2), up to the step where two costs in a row are
    close; the other curve starts at the same cost; the
    line Minimum is drawn at the lowest eigenvalue of the Hamiltonian, - (1 + sqrt 2), over the
    steps of the longer curve. No cost is below the line, and no cost of the curve PS comes nearer
    to it than 3/25: the circuit cannot prepare the ground state. *)
Theorem C118_toy : forall eigh random, eigh_correct 4 eigh -> exists fig points H, two_observables_2_qubits_parameter_shift eigh random = Ok fig /\
  nth_error points 0 = Some (/ 10, 12 / 10)%R /\
  chain (fun _ p p' => p' = (fst p - / 2 * fst (toy_gradient p), snd p - / 2 * snd (toy_gradient p))%R) points /\
  toy_ps fig = map toy_height points /\ stop_rule 2 1 (Some (Fin (/ 1000))) 40 (toy_ps fig) /\ 2 <= List.length (toy_ps fig) <= 41 /\
  nth_error (toy_lie fig) 0 = nth_error (toy_ps fig) 0 /\ stop_rule 3 1 (Some (Fin (/ 1000))) 40 (toy_lie fig) /\ 2 <= List.length (toy_lie fig) <= 41 /\
  get_hamiltonian_matrix 2 toy_observables None = Ok H /\ lowest 4 (a_ent H) (- (1 + sqrt 2)) /\
  toy_line fig = repeat (- (1 + sqrt 2))%R (Nat.max (List.length (toy_ps fig)) (List.length (toy_lie fig))) /\
  Forall (fun c => - (1 + sqrt 2) <= c <= 1 + sqrt 2)%R (toy_lie fig) /\
  Forall (fun c => - (1 + sqrt 2) + 3 / 25 <= c)%R (toy_ps fig).
Proof.
  intros eigh random He. destruct toy_ham as (G & EG & MG). destruct (toy_lowest _ MG) as [Lo Hi]. pose proof (toy_herm _ MG) as Hh.
  destruct (proj1 (C54_shift_arguments_partial (nat -> C) (R * R) unit unit unit RetPlain toy_kwargs) (conj eq_refl toy_kwargs_ps) toy_step toy_cost toy_state toy_params toy_total) as (r1 & E1).
  destruct (C60_shift_shape _ _ _ _ _ _ _ _ _ _ _ toy_kwargs_ps E1) as (cs & ss & ps & R1).
  destruct (C56_shift_histories _ _ _ _ _ _ _ _ _ _ _ _ _ _ toy_kwargs_ps E1 R1) as (points & H0 & Hch & Hlen & Hc & _).
  destruct (C66_exact_unitary unit unit unit 2 _ toy_observables eigh random toy_kwargs (toy_gates_unitary toy_params) toy_fits He toy_kwargs_ex) as (r2 & E2 & _).
  assert (E2' := E2). unfold exact_optimizer in E2'.
  destruct (C60_exact_shape _ _ _ _ _ _ _ _ _ _ _ _ toy_kwargs_ex E2') as (cx & sx & px & u & R2).
  pose proof (C100_exact _ _ _ _ _ _ _ _ _ _ _ _ _ _ _ (toy_gates_unitary toy_params) toy_fits toy_hermitian He toy_kwargs_ex E2 R2 EG _ _ Lo Hi) as [B _].
  destruct (C56_exact_histories _ _ _ _ _ _ _ _ _ _ _ _ _ _ _ _ toy_kwargs_ex E2' R2) as (ws & w0 & m & S0 & F0 & Lw & Hm & _ & D & _).
  pose proof (C57_shift_stop _ _ _ _ _ _ _ _ _ _ _ _ _ _ toy_kwargs_ps E1 R1) as T1. pose proof (C57_exact_stop _ _ _ _ _ _ _ _ _ _ _ _ _ _ _ _ toy_kwargs_ex E2' R2 eq_refl) as T2.
  change (the_tol toy_kwargs) with (Fin (/ 1000)) in *. change (the_steps toy_kwargs) with 40 in *. change (the_eta toy_kwargs) with (/ 2)%R in *.
  assert (Ecs : cs = map toy_height points) by (clear - Hc; induction Hc as [|p c points cs Ec _ IH]; [reflexivity|]; cbn; rewrite toy_cost_height in Ec; f_equal; congruence).
  assert (Z : nth_error cx 0 = Some (toy_height toy_params)).
  { destruct D as [|w c ws cx Ec _]; [discriminate|]. cbn in F0 |- *. pose proof (toy_cost_height toy_params) as T. unfold toy_cost in T. destruct (circuit_unitary 2 (toy_gates toy_params)) as [U|]; [|discriminate]. cbn [bind] in S0, T. assert (w = a_ent U) as -> by congruence. cbn beta in Ec. rewrite T in Ec. injection Ec as <-. reflexivity. }
  pose proof (min_lowest 4 (a_ent G) eigh _ Hh He ltac:(lia) Lo) as Em.
  exists (mktoy cs cx (map (fun _ => - (1 + sqrt 2))%R (seq 0 (Nat.max (List.length cx) (List.length cs))))), points, G.
  unfold ps_result in R1. unfold ex_result in R2. cbn in R1, R2. subst r1 r2. split.
  { unfold two_observables_2_qubits_parameter_shift, toy_shift, toy_exact. rewrite E1. cbn [bind]. rewrite EG. cbn [bind]. rewrite E2. cbn [bind]. change (2 ^ 2) with 4. rewrite Em. do 2 f_equal. apply map_ext. intros _. ring. }
  cbn [toy_ps toy_lie toy_line]. split; [exact H0|]. split; [intros k p p' E E'; specialize (Hch k p p' E E'); cbn beta in Hch; rewrite toy_descend in Hch; congruence|].
  split; [exact Ecs|]. split; [exact T1|]. split; [rewrite Ecs, map_length; exact Hlen|]. split. { rewrite Z, Ecs, nth_error_map, H0. reflexivity. }
  split; [exact T2|]. split. { pose proof (Forall2_length' _ _ _ D) as L. lia. }
  split; [exact EG|]. replace (- (1 + sqrt 2))%R with (- 1 - sqrt 2)%R by ring. split; [exact Lo|]. split; [|split].
  - generalize (- 1 - sqrt 2)%R. intros x. rewrite Nat.max_comm. generalize (Nat.max (List.length cs) (List.length cx)). intros n. generalize 0. induction n as [|n IH]; intros k; [reflexivity|]. cbn [seq map repeat]. rewrite IH. reflexivity.
  - exact B.
  - rewrite Ecs. apply Forall_forall. intros c Hcc. apply in_map_iff in Hcc. destruct Hcc as ([a b] & <- & _). pose proof (toy_floor a b) as F. unfold toy_height.
    assert (Q : (141 / 100 < sqrt 2)%R) by (destruct root2; nra). lra.
Qed.
Print Assumptions C118_toy.

(** A decomposition as the theorem asks for exists. With it both curves start above 3/2, and the
    line is below -2.4. *)
Example C118_case : exists eigh fig c, eigh_correct 4 eigh /\ two_observables_2_qubits_parameter_shift eigh (fun _ _ _ => 0%R) = Ok fig /\
  nth_error (toy_ps fig) 0 = Some c /\ nth_error (toy_lie fig) 0 = Some c /\ (3 / 2 < c)%R /\ (nth 0 (toy_line fig) 0 < - (12 / 5))%R.
Proof.
  destruct eigh_exists as (eigh & He). destruct (C118_toy eigh (fun _ _ _ => 0%R) (He 4)) as (fig & points & H & E & P0 & _ & Eps & _ & L1 & E0 & _ & L2 & _ & _ & El & _ & _).
  exists eigh, fig, (toy_height (/ 10, 12 / 10)%R). split; [exact (He 4)|]. split; [exact E|]. assert (Z : nth_error (toy_ps fig) 0 = Some (toy_height (/ 10, 12 / 10)%R)) by (rewrite Eps, nth_error_map, P0; reflexivity).
  split; [exact Z|]. split; [rewrite E0; exact Z|]. split.
  - unfold toy_height.
    assert (C1 : (99 / 100 <= cos (/ 10))%R) by (eapply Rle_trans; [|apply (pre_cos_bound (/ 10) 0); lra]; unfold cos_approx, cos_term; cbn; lra).
    assert (C2 : (36 / 100 <= cos (12 / 10))%R) by (eapply Rle_trans; [|apply (pre_cos_bound (12 / 10) 1); lra]; unfold cos_approx, cos_term; cbn; lra).
    assert (C3 : (26 / 100 <= cos (/ 10 + 12 / 10))%R) by (eapply Rle_trans; [|apply (pre_cos_bound (/ 10 + 12 / 10) 1); lra]; unfold cos_approx, cos_term; cbn; lra).
    assert (S1 : (91 / 100 <= sin (12 / 10))%R) by (eapply Rle_trans; [|apply (pre_sin_bound (12 / 10) 0); lra]; unfold sin_approx, sin_term; cbn; lra).
    nra.
  - rewrite El. destruct (List.length (toy_ps fig)) as [|k]; [lia|]. destruct (Nat.max (S k) (List.length (toy_lie fig))) as [|j] eqn:Ej; [lia|]. cbn [repeat nth].
    assert (Q : (141 / 100 < sqrt 2)%R) by (destruct root2; nra). lra.
Qed.
