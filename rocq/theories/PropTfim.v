(** Property C117: the scripts on the transverse field Ising model. *)
From Coq Require Import ZArith Arith Lia Bool String Reals Lra Ring Setoid Morphisms.
From Coquelicot Require Import Coquelicot.
From Verif Require Import Py StarRing Matrix Cplx Bits Expm UtilsModel CircuitModel CircuitProofs CircuitProofs2 LayerModel LayerProofs GreedyModel GreedyProofs AdaptModel AdaptProofs OptimizerModel OptProofs RotoProofs FlowModel FlowProofs FlowProofs2 Spectral FlowMany FlowRate
  ShiftModel ApproxModel PlotModel ApproxExampleModel PropCircuit PropLayers PropGreedy PropAdapt PropOptArgs PropOptRun PropFlow PropFlowRate PropSpectrum PropSymmetry PropEigenstate PropApprox PropPlot TfimModel TfimNum TfimProofs TfimLowest.
From Coq Require Import List.
Import ListNotations.
Local Open Scope nat_scope.
Local Open Scope list_scope.

(** ** Lemmas *)
Lemma product_unitary n G : a_rows G = 2 -> a_cols G = 2 -> unitary2 2 (a_ent G) -> Forall (unitary_gate n) (product_circuit n G).
Proof.
  intros R1 R2 HG. apply Forall_forall. intros o Ho. apply in_map_iff in Ho. destruct Ho as (w & <- & Hw). apply in_seq in Hw. split; [|exact HG].
  repeat split; cbn; try discriminate; auto; repeat constructor; simpl; auto; lia.
Qed.
Lemma tfim_gates n : Forall (unitary_gate n) (tfim_circuit n).
Proof. apply (product_unitary n hadamard_matrix); [reflexivity|reflexivity|apply hadamard_unitary]. Qed.
Lemma plus_flip : meq 2 (mmul 2 X1 (a_ent hadamard_matrix)) (mscale (SR := CStar) (RtoC 1) (mmul 2 (a_ent hadamard_matrix) Z1)).
Proof. intros i j Hi Hj. (destruct i as [|[|i]]; [| |lia]); (destruct j as [|[|j]]; [| |lia]); apply C_ext; cbn; ring. Qed.
(** X, then a Hadamard gate *)
Definition minus_gate : arr C := mkarr 2 2 (mmul 2 (a_ent hadamard_matrix) X1).
Lemma minus_flip : meq 2 (mmul 2 X1 (a_ent minus_gate)) (mscale (SR := CStar) (RtoC (-1)) (mmul 2 (a_ent minus_gate) Z1)).
Proof. intros i j Hi Hj. (destruct i as [|[|i]]; [| |lia]); (destruct j as [|[|j]]; [| |lia]); apply C_ext; cbn; ring. Qed.
Lemma x_unitary : unitary2 2 X1.
Proof. split; intros i j Hi Hj; (destruct i as [|[|i]]; [| |lia]); (destruct j as [|[|j]]; [| |lia]); apply C_ext; cbn; ring. Qed.
Lemma minus_unitary : unitary2 2 (a_ent minus_gate).
Proof. cbn [minus_gate a_ent]. apply unitary2_mul; [apply hadamard_unitary|apply x_unitary]. Qed.

Lemma product_cost n G s : 2 <= n -> a_rows G = 2 -> a_cols G = 2 -> unitary2 2 (a_ent G) -> s <> 0%R -> meq 2 (mmul 2 X1 (a_ent G)) (mscale (SR := CStar) (RtoC s) (mmul 2 (a_ent G) Z1)) ->
  exists U, circuit_unitary n (product_circuit n G) = Ok U /\ unitary2 (2 ^ n) (a_ent U) /\ exact_cost n (tfim_observables n) (a_ent U) = Ok (INR n * s)%R.
Proof.
  intros Hn R1 R2 HG Hs Hf. destruct (start_unitary n _ (product_unitary n G R1 R2 HG)) as (U & EU & HU). exists U. split; [exact EU|]. split; [exact HU|].
  apply tfim_cost; [exact Hn|exact HU|exact Hs|]. intros i Hi. apply (product_state n G s R1 R2 Hf U EU i Hi).
Qed.

Lemma highest_exists d H : hermitian d H -> 0 < d -> exists hi, highest d H hi.
Proof.
  intros Hh Hd. destruct (spectral d H Hh) as ([Sv V] & HA). destruct (argmin (fun k => - Sv k)%R d Hd) as (k & Hk & Hm). exists (Sv k).
  split; [apply (eigen_column d H Sv V HA k Hk)|]. intros m Em. destruct (eigen_only d H Sv V m HA Em) as (j & Hj & ->). specialize (Hm j Hj). lra.
Qed.

(** ** C117 *)

(** The circuit prepares a state of cost n, for every number of qubits: all runs of
    approximate_lie_optimizer and exact_lie_optimizer from it start there. *)
Theorem C117_start : forall n, 2 <= n -> exists U, circuit_unitary n (tfim_circuit n) = Ok U /\ exact_cost n (tfim_observables n) (a_ent U) = Ok (INR n).
Proof.
  intros n Hn. destruct (product_cost n hadamard_matrix 1 Hn eq_refl eq_refl hadamard_unitary ltac:(lra) plus_flip) as (U & EU & _ & E). exists U. split; [exact EU|]. rewrite E. f_equal. ring.
Qed.
Print Assumptions C117_start.

(** The comment in the circuits says LOWEST EIGENSTATE. The lowest eigenvalue is at most -n, far
    below the cost n of the state, which therefore is not a lowest eigenstate. *)
Theorem C117_lowest_eigenstate_refuted : forall n H lo U, 2 <= n -> get_hamiltonian_matrix n (tfim_observables n) None = Ok H -> lowest (2 ^ n) (a_ent H) lo ->
  circuit_unitary n (tfim_circuit n) = Ok U -> (lo <= - INR n)%R /\ ~ has_value (2 ^ n) (a_ent H) lo (fun i => a_ent U i 0).
Proof.
  intros n H lo U Hn EH Hlo EU. pose proof (tfim_fits n Hn) as Hf. pose proof (tfim_hermitian n) as Hh. destruct (obs_embedded n _ Hf) as (Fs & EF & HE).
  assert (HF : Forall2 (fun o F => full n o = Ok F) (tfim_observables n) Fs) by (apply mapM_each; exact EF).
  destruct (hamiltonian_sum n _ Fs H Hf Hh HE EH) as [_ Her]. destruct (highest_exists (2 ^ n) (a_ent H) Her (pow2_pos n)) as (hi & Hhi).
  destruct (product_cost n minus_gate (-1) Hn eq_refl eq_refl minus_unitary ltac:(lra) minus_flip) as (V & EV & HV & CV). rewrite (cost_energy n _ Fs (a_ent V) HF) in CV. injection CV as CV.
  destruct (cost_range n _ Fs H (a_ent V) lo hi Hf Hh HE EH HV Hlo Hhi) as [[B _] _].
  assert (L : (lo <= - INR n)%R) by lra. split; [exact L|]. intros Q.
  destruct (product_cost n hadamard_matrix 1 Hn eq_refl eq_refl hadamard_unitary ltac:(lra) plus_flip) as (U' & EU' & HU & CU). change (product_circuit n hadamard_matrix) with (tfim_circuit n) in EU'. rewrite EU in EU'. injection EU' as <-.
  rewrite (cost_energy n _ Fs (a_ent U) HF) in CU. injection CU as CU. destruct (cost_range n _ Fs H (a_ent U) lo hi Hf Hh HE EH HU Hlo Hhi) as (_ & [_ W] & _). specialize (W Q).
  assert (P : (2 <= INR n)%R) by (apply (le_INR 2); exact Hn). lra.
Qed.
Print Assumptions C117_lowest_eigenstate_refuted.

(** ** The scripts *)
Lemma fold_min (l : list R) a : (forall x, In x (fold_left Rmin l a :: nil) -> In x (a :: l)) /\ (forall x, In x (a :: l) -> fold_left Rmin l a <= x)%R.
Proof.
  revert a. induction l as [|b l IH]; intros a; cbn [fold_left].
  - split; [intros x H; exact H|]. intros x [<-|[]]. lra.
  - destruct (IH (Rmin a b)) as [A B]. split.
    + intros x H. apply A in H. destruct H as [<-|H]; [|right; right; exact H]. unfold Rmin. destruct Rle_dec; [left|right; left]; reflexivity.
    + intros x [<-|[<-|H]]; [| |apply B; right; exact H]; (eapply Rle_trans; [apply (B (Rmin a b)); left; reflexivity|]); [apply Rmin_l|apply Rmin_r].
Qed.
Lemma min_lowest d H eigh lo : hermitian d H -> eigh_correct d eigh -> 0 < d -> lowest d H lo -> min_eigenvalue eigh d H = lo.
Proof.
  intros Hh He Hd [El Hm]. destruct (C100_eigenvalues d H eigh Hh He Hd) as [A _]. unfold min_eigenvalue. set (f := fst (eigh d H)) in *.
  destruct (fold_min (map f (seq 1 (d - 1))) (f 0)) as [B1 B2].
  assert (S0 : f 0 :: map f (seq 1 (d - 1)) = map f (seq 0 d)) by (destruct d as [|d]; [lia|]; cbn [seq map Nat.sub]; rewrite Nat.sub_0_r; reflexivity). rewrite S0 in B1, B2.
  apply Rle_antisym.
  - apply A in El. destruct El as (k & Hk & ->). apply B2. apply in_map. apply in_seq. lia.
  - apply Hm, A. specialize (B1 _ (or_introl eq_refl)). apply in_map_iff in B1. destruct B1 as (k & Ek & Hk). apply in_seq in Hk. exists k. split; [lia|symmetry; exact Ek].
Qed.

Lemma tfim_ham n : 2 <= n -> exists Fs H, mapM (full n) (tfim_observables n) = Ok Fs /\ get_hamiltonian_matrix n (tfim_observables n) None = Ok H /\ hermitian (2 ^ n) (a_ent H).
Proof.
  intros Hn. pose proof (tfim_fits n Hn) as Hf. pose proof (tfim_hermitian n) as Hh. destruct (obs_embedded n _ Hf) as (Fs & EF & HE). destruct (hamiltonian_spec n (tfim_observables n) None Hf) as [A _]. destruct A as (H & EH & _); [rewrite repeat_length; lia|].
  exists Fs, H. split; [exact EF|]. split; [exact EH|]. apply (hamiltonian_sum n _ Fs H Hf Hh HE EH).
Qed.

Definition only_unitaries (kw : kwargs) : Prop :=
  the_flag kw "return_state" = false /\ the_flag kw "return_omegas" = false /\ the_flag kw "return_unitary" = true /\ the_flag kw "return_gates" = false /\ the_flag kw "return_perturbations" = false /\ the_flag kw "return_zassenhaus" = false.

Lemma tfim_run x eigh random n o p0 kw H lo : 2 <= n -> svd_correct (or_svd x) -> eigh_correct (2 ^ n) eigh -> built x n o -> dependable n o -> Forall (fun r => List.length r = n) p0 ->
  ap_accepts (AList [Some 0]) kw -> arg kw "commute" = None -> only_unitaries kw ->
  get_hamiltonian_matrix n (tfim_observables n) None = Ok H -> hermitian (2 ^ n) (a_ent H) -> lowest (2 ^ n) (a_ent H) lo ->
  exists cs us, approx_optimizer x eigh random n (tfim_circuit n) (tfim_observables n) [o] RetState (AList [Some 0]) p0 kw = Ok (RTuple [ItCosts cs; ItUnitaries us]) /\
    nth_error cs 0 = Some (INR n) /\ Forall (fun c => lo <= c)%R cs /\ List.length us = List.length cs /\ 2 <= List.length cs <= S (the_steps kw) /\
    Forall2 (fun u c => exact_cost n (tfim_observables n) u = Ok c) us cs.
Proof.
  intros Hn Hs He Hb Hd Hp A Hcm (F1 & F2 & F3 & F4 & F5 & F6) EH Her Hlo. pose proof (tfim_fits n Hn) as Hf. pose proof (tfim_hermitian n) as Hh.
  destruct (C66_approximate_returns x eigh random n (tfim_circuit n) (tfim_observables n) [o] [0] p0 kw (tfim_gates n) Hf Hs He) as (r & Er); [constructor; [exact Hd|constructor]|discriminate|repeat constructor|exact Hp|exact A|left; exact Hcm|rewrite F2; discriminate|].
  change (map Some [0]) with [Some 0] in Er. pose proof Er as Er'. unfold approx_optimizer in Er'.
  destruct (C60_approximate_shape _ _ _ _ _ _ _ _ _ _ _ _ _ _ _ _ _ _ A Er') as (cs & ss & os & us & ps & zs & Hr).
  destruct (C56_C59_approximate_histories _ _ _ _ _ _ _ _ _ _ _ _ _ _ _ _ _ _ _ _ _ _ _ _ A Er' Hr) as (confs & u0 & k & ls & _ & Es & E0 & Lc & Hk & _ & Hcs & _ & Hu & _ & _). specialize (Hu F3).
  assert (Hb1 : Forall (built x n) [o]) by (constructor; [exact Hb|constructor]).
  pose proof (C100_approximate x eigh random n (tfim_circuit n) (tfim_observables n) [o] _ p0 kw r cs ss os us ps zs H (tfim_gates n) Hf Hh Hs He Hb1 A Er Hr EH) as B.
  destruct (C100_eigenvalues (2 ^ n) (a_ent H) eigh Her He (pow2_pos n)) as (_ & _ & hi & Hhi). destruct (B lo hi Hlo Hhi) as [B1 _].
  exists cs, us. assert (Lcs : List.length cs = S k) by (rewrite <- Lc; clear - Hcs; induction Hcs; cbn; congruence).
  split. { rewrite Er. rewrite Hr, F1, F2, F3, F4, F5, F6. reflexivity. }
  split. { destruct (C117_start n Hn) as (U & EU & EC). rewrite EU in Es. cbn [bind] in Es. destruct (print_layers [o] (AList [Some 0])); cbn [bind] in Es; [|discriminate]. injection Es as <-.
    destruct confs as [|c0 confs]; [discriminate|]. cbn in E0. injection E0 as ->. inversion Hcs as [|? c ? cs' Hc0 _]; subst. cbn in Hc0. rewrite EC in Hc0. injection Hc0 as <-. reflexivity. }
  split. { eapply Forall_impl; [|exact B1]. intros c [L _]. exact L. }
  split; [rewrite Hu, map_length; lia|]. split; [lia|].
  rewrite Hu. clear - Hcs. induction Hcs; constructor; auto.
Qed.

Lemma adapt_kwargs_ok : ap_accepts (AList [Some 0]) adapt_kwargs.
Proof.
  unfold ap_accepts, allowed, arg. cbn. split; [exists [0]; reflexivity|]. split; [intros v H; injection H as <-; right; exists 15%Z; split; [reflexivity|lia]|].
  split; [intros v H; injection H as <-; exists 1%R; split; [reflexivity|lra]|]. split; [intros v H; discriminate|]. split; [intros v H; injection H as <-; eexists; reflexivity|].
  intros name Hin v H. simpl in Hin. intuition; subst; cbn in H; try discriminate; injection H as <-; eexists; reflexivity.
Qed.
Lemma su8_kwargs_ok : ap_accepts (AList [Some 0]) su8_kwargs.
Proof.
  unfold ap_accepts, allowed, arg. cbn. split; [exists [0]; reflexivity|]. split; [intros v H; injection H as <-; right; exists 30%Z; split; [reflexivity|lia]|].
  split; [intros v H; injection H as <-; exists 1%R; split; [reflexivity|lra]|]. split; [intros v H; discriminate|]. split; [intros v H; injection H as <-; eexists; reflexivity|].
  intros name Hin v H. simpl in Hin. intuition; subst; cbn in H; try discriminate; injection H as <-; eexists; reflexivity.
Qed.
Lemma su4_kwargs_ok : ap_accepts (AList [Some 0]) su4_kwargs.
Proof.
  unfold ap_accepts, allowed, arg. cbn. split; [exists [0]; reflexivity|]. split; [intros v H; injection H as <-; right; exists 50%Z; split; [reflexivity|lia]|].
  split; [intros v H; injection H as <-; exists (/ 10)%R; split; [reflexivity|lra]|]. split; [intros v H; injection H as <-; right; right; exists (/ 1000000)%R; split; [reflexivity|lra]|]. split; [intros v H; discriminate|].
  intros name Hin v H. simpl in Hin. intuition; subst; cbn in H; try discriminate; injection H as <-; eexists; reflexivity.
Qed.

Lemma separate_fails us : us <> [] -> plot_su16_directions_separate us = Err TypeError.
Proof. destruct us as [|u us]; [congruence|reflexivity]. Qed.

(** what all three show: at most [steps] + 1 costs, the first of which is [n], none below the
    lowest eigenvalue *)
Definition tfim_run_shown (n steps : nat) (lo : R) (out : tfim_output) : Prop :=
  nth_error (tf_costs out) 0 = Some (INR n) /\ 2 <= List.length (tf_costs out) <= S steps /\ Forall (fun c => lo <= c)%R (tf_costs out).

(** tfim_su4_adapt_vqe.py: the dashed line is drawn above the lowest eigenvalue - sqrt (16 + 8 sqrt 2),
    by less than 5e-15; after the figure of the costs the script ends in a TypeError. *)
Theorem C117_adapt_vqe : forall x eigh random, svd_correct (or_svd x) -> eigh_correct (2 ^ 4) eigh -> exists out, tfim_su4_adapt_vqe x eigh random = Ok out /\
  tfim_run_shown 4 15 (- sqrt (16 + 8 * sqrt 2)) out /\
  (exists m, tf_min out = map (fun _ => m) (tf_costs out) /\ 0 < m + sqrt (16 + 8 * sqrt 2) < 5 / 10 ^ 15)%R /\
  tf_residuals out = [] /\ tf_directions out = Err TypeError.
Proof.
  intros x eigh random Hs He. destruct (tfim_ham 4 ltac:(lia)) as (Fs & H & EF & EH & Her). destruct (adapt_init 4 _ Fs (/ 10) EF ltac:(lra)) as (t & El & _). set (l := mkadapt _ _ _ _ _ _) in El.
  pose proof (tfim_fits 4 ltac:(lia)) as Hf. pose proof (tfim_hermitian 4) as Hh.
  destruct (tfim_run x eigh random 4 (OAdapt (tfim_observables 4) l) [] adapt_kwargs H lowest4 ltac:(lia) Hs He) as (cs & us & Er & E0 & Hlo & Lu & Lc & _);
    [exact (built_adapt x 4 _ (/ 10) l Hf ltac:(lia) El)|exact (dep_adapt 4 _ (/ 10) l Hf Hh ltac:(lra) ltac:(lia) El)|constructor|exact adapt_kwargs_ok|reflexivity|repeat split|exact EH|exact Her|apply lowest_4; exact EH|].
  destruct (omegas_eq 4 us _ Hf) as (Gs & _ & EO). assert (Nu : us <> []) by (intros ->; cbn in Lu; lia).
  eexists. split. { unfold tfim_su4_adapt_vqe. rewrite EH. cbn [bind]. rewrite El. cbn [bind]. rewrite Er. cbn [bind]. rewrite EO. cbn [bind]. rewrite (separate_fails us Nu). cbn [bind]. reflexivity. }
  unfold tfim_run_shown. cbn [tf_costs tf_min tf_directions tf_residuals]. split; [split; [exact E0|]; split; [exact Lc|exact Hlo]|]. split; [|split; reflexivity].
  exists adapt_line. split; [reflexivity|]. pose proof line_close as Q. unfold lowest4 in Q. lra.
Qed.
Print Assumptions C117_adapt_vqe.

(** tfim_su4_linesearch.py: the dashed line is the lowest eigenvalue, the residuals are the
    distances to it, and the figure of the directions appears. *)
Theorem C117_su4_linesearch : forall x eigh random, svd_correct (or_svd x) -> eigh_correct (2 ^ 4) eigh -> exists out, tfim_su4_linesearch x eigh random = Ok out /\
  tfim_run_shown 4 50 (- sqrt (16 + 8 * sqrt 2)) out /\
  tf_min out = map (fun _ => - sqrt (16 + 8 * sqrt 2))%R (tf_costs out) /\
  tf_residuals out = map (fun c => c + sqrt (16 + 8 * sqrt 2))%R (tf_costs out) /\
  exists us Fs cs, Forall2 (fun u c => exact_cost 4 (tfim_observables 4) u = Ok c) us (tf_costs out) /\
    mapM (fun o => get_full_operator (q_matrix o) (q_wires o) 4) (tfim_observables 4) = Ok Fs /\
    tf_directions out = Ok cs /\ sums_figure 4 (msum a_ent Fs) us ["SU$(16)$"; "SU$(8)$"; "SU$(4)$"; "SU$(2)$"]%string cs.
Proof.
  intros x eigh random Hs He. destruct (tfim_ham 4 ltac:(lia)) as (Fs & H & EF & EH & Her). destruct (squared_init 4 _ Fs (/ 10) EF ltac:(lra)) as (t & El & _). set (l := mkgreedy _ _ _ _) in El.
  pose proof (tfim_fits 4 ltac:(lia)) as Hf. pose proof (tfim_hermitian 4) as Hh. pose proof (lowest_4 H EH) as Hlow.
  destruct (tfim_run x eigh random 4 (OSquared (tfim_observables 4) l) [[/ 10; / 10; / 10; / 10]%R] su4_kwargs H lowest4 ltac:(lia) Hs He) as (cs & us & Er & E0 & Hlo & Lu & Lc & HC);
    [exact (built_squared x 4 _ (/ 10) l Hf El)|exact (dep_squared 4 _ (/ 10) l Hf Hh ltac:(lra) ltac:(lia) El)|constructor; [reflexivity|constructor]|exact su4_kwargs_ok|reflexivity|repeat split|exact EH|exact Her|exact Hlow|].
  destruct (omegas_eq 4 us _ Hf) as (Gs & _ & EO). assert (Nu : us <> []) by (intros ->; cbn in Lu; lia).
  destruct (C88_direction_plots_partial 4 us _ Hf) as (Ks & EK & _ & Hp & _). destruct (Hp Nu 4) as (_ & _ & H4 & _). destruct (H4 eq_refl) as (fig & EP & SF). clear Hp H4.
  pose proof (min_lowest (2 ^ 4) (a_ent H) eigh lowest4 Her He (pow2_pos 4) Hlow) as Em.
  eexists. split. { unfold tfim_su4_linesearch. rewrite EH. cbn [bind]. rewrite El. cbn [bind]. rewrite Er. cbn [bind]. rewrite EO. cbn [bind]. rewrite Em. reflexivity. }
  unfold tfim_run_shown. cbn [tf_costs tf_min tf_directions tf_residuals]. split; [split; [exact E0|]; split; [exact Lc|exact Hlo]|]. split; [reflexivity|].
  split. { apply map_ext_in. intros c Hc. rewrite Forall_forall in Hlo. specialize (Hlo c Hc). rewrite Rabs_pos_eq by lra. unfold lowest4. ring. }
  exists us, Ks, fig. split; [exact HC|]. split; [exact EK|]. split; [exact EP|exact SF].
Qed.
Print Assumptions C117_su4_linesearch.

(** tfim_su8_linesearch.py: six qubits, the lowest eigenvalue is - 2 sqrt 2 (1 + sqrt 3); after the
    figure of the costs the script ends in a KeyError, since its figure of the directions asks
    for the word XXXX. *)
Theorem C117_su8_linesearch : forall x eigh random, svd_correct (or_svd x) -> eigh_correct (2 ^ 6) eigh -> exists out, tfim_su8_linesearch x eigh random = Ok out /\
  tfim_run_shown 6 30 (- (2 * sqrt 2 * (1 + sqrt 3))) out /\
  tf_min out = map (fun _ => - (2 * sqrt 2 * (1 + sqrt 3)))%R (tf_costs out) /\
  tf_residuals out = [] /\ tf_directions out = Err KeyError.
Proof.
  intros x eigh random Hs He. destruct (tfim_ham 6 ltac:(lia)) as (Fs & H & EF & EH & Her). destruct (su8_init 6 _ Fs (/ 10) true true EF ltac:(lra) ltac:(lia)) as (t & El & _). set (l := mkgreedy _ _ _ _) in El.
  pose proof (tfim_fits 6 ltac:(lia)) as Hf. pose proof (tfim_hermitian 6) as Hh. pose proof (lowest_6 H EH) as Hlow.
  destruct (tfim_run x eigh random 6 (OSU8 (tfim_observables 6) l) [] su8_kwargs H lowest6 ltac:(lia) Hs He) as (cs & us & Er & E0 & Hlo & Lu & Lc & HC);
    [exact (built_su8 x 6 _ (/ 10) true true l Hf El)|exact (dep_su8 6 _ (/ 10) true true l Hf Hh ltac:(lra) ltac:(lia) El)|constructor|exact su8_kwargs_ok|reflexivity|repeat split|exact EH|exact Her|exact Hlow|].
  destruct (omegas_eq 6 us _ Hf) as (Gs & _ & EO). assert (Nu : us <> []) by (intros ->; cbn in Lu; lia).
  destruct (C88_direction_plots_partial 6 us _ Hf) as (Ks & EK & _ & Hp & _). destruct (Hp Nu 6) as (H6 & _). specialize (H6 ltac:(lia)). clear Hp.
  pose proof (min_lowest (2 ^ 6) (a_ent H) eigh lowest6 Her He (pow2_pos 6) Hlow) as Em.
  eexists. split. { unfold tfim_su8_linesearch. rewrite EH. cbn [bind]. rewrite El. cbn [bind]. rewrite Er. cbn [bind]. rewrite EO. cbn [bind]. rewrite Em, H6. reflexivity. }
  unfold tfim_run_shown. cbn [tf_costs tf_min tf_directions tf_residuals]. split; [split; [exact E0|]; split; [exact Lc|exact Hlo]|]. split; [reflexivity|split; reflexivity].
Qed.
Print Assumptions C117_su8_linesearch.

(** Decompositions as the theorems ask for exist. With them the three scripts show costs that
    start at 4, 4 and 6, far above the lines drawn at about -5.2 and -7.7; the Hamiltonian of two
    qubits, of which the refutation speaks as well, has a lowest eigenvalue. *)
Example C117_case : exists x eigh a b c, svd_correct (or_svd x) /\ (forall d, eigh_correct d eigh) /\
  tfim_su4_adapt_vqe x eigh (fun _ _ _ => 0%R) = Ok a /\ tfim_su4_linesearch x eigh (fun _ _ _ => 0%R) = Ok b /\ tfim_su8_linesearch x eigh (fun _ _ _ => 0%R) = Ok c /\
  nth_error (tf_costs a) 0 = Some 4%R /\ (9 < nth 0 (tf_residuals b) 0)%R /\ (nth 0 (tf_min c) 0 < -7)%R /\
  exists H lo, get_hamiltonian_matrix 2 (tfim_observables 2) None = Ok H /\ lowest (2 ^ 2) (a_ent H) lo /\ (lo <= -2)%R.
Proof.
  destruct eigh_exists as (eigh & He). set (x := mkoracles svd_trivial (fun l => l) (fun _ => 0) (0, 0, 0) (fun f => (f (0, 0, 0)%R, 0, 0)%R)).
  destruct (C117_adapt_vqe x eigh (fun _ _ _ => 0%R) svd_trivial_correct (He _)) as (a & Ea & (Ca & _) & _).
  destruct (C117_su4_linesearch x eigh (fun _ _ _ => 0%R) svd_trivial_correct (He _)) as (b & Eb & (Cb & _) & _ & Rb & _).
  destruct (C117_su8_linesearch x eigh (fun _ _ _ => 0%R) svd_trivial_correct (He _)) as (c & Ec & (Cc & _) & Mc & _).
  exists x, eigh, a, b, c. split; [apply svd_trivial_correct|]. split; [exact He|]. split; [exact Ea|]. split; [exact Eb|]. split; [exact Ec|].
  destruct root_2 as [Q2 P2]. destruct root_3 as [Q3 P3]. destruct root_4 as [Q4 P4].
  split; [rewrite Ca; f_equal; cbn; ring|]. split.
  { rewrite Rb. destruct (tf_costs b) as [|c0 cs]; [discriminate|]. cbn in Cb. injection Cb as ->. cbn [map nth]. clear - Q2 P2 Q4 P4. set (s := sqrt 2) in *. set (t := sqrt (16 + 8 * s)) in *. clearbody s t. assert (1.4 < s)%R by nra. assert (5.1 < t)%R by nra. lra. }
  split. { rewrite Mc. destruct (tf_costs c) as [|c0 cs]; [discriminate|]. cbn [map nth]. clear - Q2 P2 Q3 P3. set (s := sqrt 2) in *. set (t := sqrt 3) in *. clearbody s t. assert (1.4 < s)%R by nra. assert (1.7 < t)%R by nra. nra. }
  destruct (tfim_ham 2 ltac:(lia)) as (Fs & H & _ & EH & Her). destruct (C100_eigenvalues (2 ^ 2) (a_ent H) eigh Her (He _) (pow2_pos 2)) as (_ & (lo & Hlo) & _). exists H, lo. split; [exact EH|]. split; [exact Hlo|].
  destruct (C117_start 2 ltac:(lia)) as (U & EU & _). destruct (C117_lowest_eigenstate_refuted 2 H lo U ltac:(lia) EH Hlo EU) as [L _]. cbn in L. lra.
Qed.
