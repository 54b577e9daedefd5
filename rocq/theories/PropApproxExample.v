(** Property C108: the run and the figure of approximate_example.py. *)
From Coq Require Import ZArith Arith Lia Bool String Sorted Reals Lra Ring Setoid Morphisms Classical Permutation.
From Coquelicot Require Import Coquelicot.
From Verif Require Import Py StarRing Matrix Cplx PauliSpec Bits PauliBasis Expm MDeriv UtilsModel CircuitModel CircuitProofs CircuitProofs2 AlgebraModel AlgebraProofs CommProofs
  LayerModel LayerProofs LayerProofs2 OptimizerModel OptProofs GreedyModel RotoProofs GreedyProofs FlowModel FlowProofs FlowProofs2 FlowMany FlowRate LayerRate AdaptModel AdaptProofs ApproxModel ApproxProofs
  PropAlgebra PropLayers PropGreedy PropOptArgs PropOptRun PropFlow PropApprox PropFlowRate PropLayerState PropOptions PropShiftRun PropLayerRate PropSpectrum PropConserved PropMany.
From Verif Require Import AlgebraProofs UtilsProofs PropZassenhaus EigenstateModel PropEigenstate PlotModel PropPlot ApproxExampleModel ApproxExampleNum ApproxExampleProofs.
From Coq Require Import List.
Import ListNotations.
Local Open Scope nat_scope.
Local Open Scope list_scope.


(** ** One call of the layer *)
(** the matrices of [Y_0 Y_1, H] and of [Z_0 Z_1, H] *)
Definition ae_comm (s r c : nat) : C :=
  match s, r, c with
  | 2, 0, 1 | 2, 3, 2 => (-2, 2)%R
  | 2, 1, 0 | 2, 2, 3 => (2, 2)%R
  | 3, 0, 2 | 3, 3, 1 => (2, -2)%R
  | 3, 1, 3 | 3, 2, 0 => (-2, -2)%R
  | _, _, _ => (0, 0)%R
  end.
Lemma ae_comm_spec s : s = 2 \/ s = 3 -> meq 4 (msub (mmul 4 (pword [s; s]) ae_table) (mmul 4 ae_table (pword [s; s]))) (ae_comm s).
Proof.
  intros Hs r c Hr Hc. unfold msub, mmul. cbn [seq]. rewrite !lsum_cons, !lsum_nil. destruct Hs as [-> | ->]; four r Hr; four c Hc; apply C_ext; cbn; ring.
Qed.
Lemma ae_omega phi t (P : mat C) s : veq 4 phi (example_state t) -> meq 4 P (pword [s; s]) -> s = 2 \/ s = 3 -> forall H, meq 4 H ae_table ->
  Im (omega 4 phi P H) = (if s =? 2 then 2 * (sqrt 2 * sin t) else - (2 * (sqrt 2 * sin t)))%R.
Proof.
  intros Hp HP Hs H HH. unfold omega. rewrite quad_ip.
  rewrite (ip_ext 4 _ (example_state t) _ (mv 4 (ae_comm s) (example_state t)) Hp) by (apply mv_ext; [rewrite HP, HH; apply ae_comm_spec; exact Hs|exact Hp]).
  set (a := ((t - PI / 4) / 2)%R).
  assert (Et : (sqrt 2 * sin t = 2 * sin a * cos a + (cos a * cos a - sin a * sin a))%R).
  { replace t with (2 * a + PI / 4)%R by (unfold a; field). rewrite sin_plus, cos_2a, sin_2a, cos_PI4, sin_PI4. destruct root2. field. lra. }
  rewrite Et. unfold ip, mv. cbn [seq]. rewrite !lsum_cons, !lsum_nil. unfold example_state. fold a. destruct Hs as [-> | ->]; cbn; field.
Qed.

Definition yyzz (d : string) (q : list nat) : Prop := In d ["YY"%string; "ZZ"%string] /\ qubit_tuple 2 (String.length d) q.

Lemma two_qubits q : qubit_tuple 2 2 q -> q = [0; 1].
Proof.
  intros (Hl & Hs & Hf). destruct q as [|a [|b [|c q]]]; try discriminate. inversion Hs as [|? ? _ H1]; subst. inversion H1; subst. inversion Hf as [|? ? Ha Hb]; subst. inversion Hb; subst. f_equal; [lia|]. f_equal; lia.
Qed.

Lemma yyzz_ops Ps : direction_set 2 yyzz Ps -> exists P Q, (Ps = [P; Q] \/ Ps = [Q; P]) /\ meq 4 (a_ent P) (pword [2; 2]) /\ meq 4 (a_ent Q) (pword [3; 3]).
Proof.
  intros (ks & Hn & Hk & HP). assert (HI : incl ks [("YY"%string, [0; 1]); ("ZZ"%string, [0; 1])]).
  { intros [d q] Hin. apply Hk in Hin. destruct Hin as [[<-|[<-|[]]] Hq]; apply two_qubits in Hq; subst q; [left|right; left]; reflexivity. }
  assert (Hq : qubit_tuple 2 2 [0; 1]) by (repeat split; repeat constructor).
  assert (A : In ("YY"%string, [0; 1]) ks) by (apply Hk; split; [left; reflexivity|exact Hq]). assert (B : In ("ZZ"%string, [0; 1]) ks) by (apply Hk; split; [right; left; reflexivity|exact Hq]).
  assert (W : forall s F d, (s = 2 \/ s = 3) -> d = word_name [s; s] -> word_operator 2 d [0; 1] F -> meq 4 (a_ent F) (pword [s; s])).
  { intros s F d Hs -> HF. destruct (HF [s; s] [s; s] eq_refl) as (_ & _ & M); [destruct Hs as [-> | ->]; repeat constructor|reflexivity|intros [|[|i]] Hi; try reflexivity; simpl in Hi; lia|intros [|[|p]] Hp Hp'; [exfalso; apply Hp'; simpl; auto|exfalso; apply Hp'; simpl; auto|lia]|exact M]. }
  assert (L : List.length ks <= 2) by (apply (NoDup_incl_length Hn HI)).
  destruct ks as [|k1 [|k2 [|k3 ks]]]; [destruct A| |..].
  - destruct A as [->|[]]. destruct B as [B|[]]. discriminate.
  - inversion HP as [|? P1 ? Ps1 W1 HP1]; subst. inversion HP1 as [|? P2 ? Ps2 W2 HP2]; subst. inversion HP2; subst.
    destruct A as [A|[A|[]]], B as [B|[B|[]]]; try congruence; subst k1 k2; cbn [fst snd] in W1, W2.
    + exists P1, P2. split; [left; reflexivity|]. split; [apply (W 2 P1 "YY"%string); auto|apply (W 3 P2 "ZZ"%string); auto].
    + exists P2, P1. split; [right; reflexivity|]. split; [apply (W 2 P2 "YY"%string); auto|apply (W 3 P1 "ZZ"%string); auto].
  - simpl in L. lia.
Qed.

(** A call with learning rate eta advances the angle by 2 sqrt 2 eta sin t. *)
Lemma ae_call eta o x commute U p t : rate_layer 2 ae_observables eta o yyzz -> svd_correct (or_svd x) -> veq 4 (qnode_state U) (example_state t) ->
  exists V, obj_call x commute o U p = Ok (V, p, o) /\ veq 4 (qnode_state V) (example_state (next_angle (2 * sqrt 2 * eta) t)).
Proof.
  intros Hr Hs HU. destruct (rate_call 2 ae_observables eta o yyzz ae_fits ae_hermitian Hr) as (Os & groups & trot & _ & HE & HO & HG & HD & Hcall). destruct (Hcall x commute U p Hs) as (V & E & M). exists V. split; [exact E|].
  change (2 ^ 2) with 4 in *. destruct (yyzz_ops _ HD) as (P & Q & HPQ & MP & MQ).
  assert (HG' : Forall (Forall (fun P => hermitian 4 (a_ent P) /\ (meq 4 (a_ent P) (pword [2; 2]) \/ meq 4 (a_ent P) (pword [3; 3])))) groups).
  { apply Forall_forall. intros g Hg. apply Forall_forall. intros F HF. rewrite Forall_forall in HG. specialize (HG g Hg). rewrite Forall_forall in HG. split; [apply HG; exact HF|].
    assert (In F (List.concat groups)) as Hin by (apply in_concat; exists g; auto). destruct HPQ as [EQ|EQ]; rewrite EQ in Hin; destruct Hin as [<-|[<-|[]]]; auto. }
  destruct (all_gens_bell trot (qnode_state U) Os groups HO HG') as (ts & Ht & Es).
  assert (EV : veq 4 (qnode_state V) (qnode_state (apply_gens 4 (RtoC (- eta / 4)) (all_gens 4 trot (qnode_state U) Os groups) U))).
  { intros i Hi. unfold qnode_state. rewrite (M i 0 Hi ltac:(lia)). replace (- eta / 4)%R with (- eta / 2 ^ 2)%R by (simpl; field). reflexivity. }
  intros i Hi. rewrite (EV i Hi), (bell_gens _ _ ts Ht t U HU i Hi). f_equal. unfold next_angle.
  assert (S2 : pair_sign P = (-1)%R /\ pair_sign Q = 1%R) by (unfold pair_sign; rewrite !MP, !MQ by lia; cbn; split; ring). destruct S2 as [SP SQ].
  assert (W : rsum (fun O => rsum (fun P => Im (omega 4 (qnode_state U) (a_ent P) (a_ent O)) * pair_sign P)%R (List.concat groups)) Os = (pair_sign P * Im (omega 4 (qnode_state U) (a_ent P) (msum a_ent Os)) + pair_sign Q * Im (omega 4 (qnode_state U) (a_ent Q) (msum a_ent Os)))%R).
  { change (msum a_ent Os) with (msum (fun O => a_ent O) Os). rewrite <- !omega_msum, !lsum_Im, <- !rsum_scale, <- rsum_plus. apply rsum_ext. intros O _. destruct HPQ as [-> | ->]; cbn [rsum]; ring. }
  rewrite Es, W, SP, SQ, (ae_omega _ t (a_ent P) 2 HU MP (or_introl eq_refl) _ (ae_sum Os HE)), (ae_omega _ t (a_ent Q) 3 HU MQ (or_intror eq_refl) _ (ae_sum Os HE)). cbn [Nat.eqb]. field.
Qed.

Lemma ae_store_call eta w i : (exists o, nth_error w i = Some o /\ rate_layer 2 ae_observables eta o yyzz) ->
  forall x commute w' U p V p' w'' t, svd_correct (or_svd x) -> nth_error w' i = nth_error w i -> veq 4 (qnode_state U) (example_state t) -> store_call x commute i w' U p = Ok (V, p', w'') ->
  (forall j, nth_error w'' j = nth_error w' j) /\ veq 4 (qnode_state V) (example_state (next_angle (2 * sqrt 2 * eta) t)).
Proof.
  intros (o & Eo & Hr) x commute w' U p V p' w'' t Hs Ew HU E. destruct (ae_call eta o x commute U p t Hr Hs HU) as (V1 & E1 & E2).
  unfold store_call, list_get in E. rewrite Ew, Eo in E. cbn [bind] in E. rewrite E1 in E. cbn [bind] in E. injection E as <- <- <-. split; [|exact E2].
  intros j. destruct (Nat.eq_dec j i) as [->|N]; [|apply replace_at_other; exact N]. rewrite Ew, Eo. apply (replace_at_here w' i o o). congruence.
Qed.

(** ** C108 *)

(** Runs of approximate_lie_optimizer on this circuit and these observables, with layers in the
    directions YY and ZZ of learning rate eta and any other arguments: the costs are sqrt 2 times
    the cosines of the angles, the states are known exactly, and the run stops by the rule of C57. *)
Theorem C108_run : forall x eigh random eta w ls p0 kw r cs ss os us ps zs,
  svd_correct (or_svd x) -> ap_accepts (AList (map Some ls)) kw -> the_flag kw "perturb" = false ->
  (forall i, In i ls -> exists o, nth_error w i = Some o /\ rate_layer 2 ae_observables eta o yyzz) ->
  approx_optimizer x eigh random 2 ae_circuit ae_observables w RetState (AList (map Some ls)) p0 kw = Ok r -> ap_result kw r cs ss os us ps zs ->
  (forall k c, nth_error cs k = Some c -> c = sqrt 2 * cos (angle (2 * sqrt 2 * eta) k))%R /\
  (the_flag kw "return_unitary" = true -> List.length us = List.length cs /\ forall k u, nth_error us k = Some u -> veq 4 (fun i => u i 0) (example_state (angle (2 * sqrt 2 * eta) k))) /\
  stop_rule 8 5 (the_opt_tol kw) (the_steps kw) cs.
Proof.
  intros x eigh random eta w ls p0 kw r cs ss os us ps zs Hs Ha Hpert Hls E Hr. unfold approx_optimizer in E. set (cm := truthy (kw_get kw "commute" (PyBool false))) in E.
  destruct (C56_C59_approximate_histories _ _ _ _ _ _ _ _ _ _ _ _ _ _ _ _ _ _ _ _ _ _ _ _ Ha E Hr) as (confs & u0 & T & ls' & Els & E0 & H0 & Hl & HT & Hch & Hcost & _ & Hun & _).
  destruct (C57_approximate_stop _ _ _ _ _ _ _ _ _ _ _ _ _ _ _ _ _ _ _ _ _ _ _ _ Ha E Hr Hpert) as (Hstop & _).
  assert (ls' = ls). { injection Els as Els. clear -Els. revert ls' Els. induction ls as [|b ls IH]; intros [|c ls'] Els; try discriminate; [reflexivity|]. injection Els as -> Els. f_equal. apply IH. exact Els. }
  subst ls'. destruct ep_start as (U & EU & MU). change ep_circuit with ae_circuit in EU. rewrite EU in E0. cbn [bind] in E0. destruct (print_layers w (AList (map Some ls))) as [[]|]; cbn [bind] in E0; [|discriminate]. injection E0 as <-.
  assert (Hk : forall k y, nth_error confs k = Some y -> (forall j, nth_error (objects y) j = nth_error w j) /\ veq 4 (qnode_state (unitary_of y)) (example_state (angle (2 * sqrt 2 * eta) k))).
  { induction k as [|k IH]; intros y Ey.
    - rewrite H0 in Ey. injection Ey as <-. split; [reflexivity|]. intros i Hi. unfold qnode_state. cbn [unitary_of fst snd]. rewrite MU by exact Hi. unfold example_state. cbn [angle]. replace ((PI / 4 - PI / 4) / 2)%R with 0%R by field. rewrite cos_0, sin_0. four i Hi; apply C_ext; cbn; field.
    - destruct (nth_error confs k) as [y0|] eqn:Ey0; [|apply nth_error_None in Ey0; assert (S k < List.length confs) by (apply nth_error_Some; congruence); lia].
      destruct (IH y0 eq_refl) as (I1 & I2). destruct (Hch k y0 y Ey0 Ey) as (u' & i & Hre & Ei & Ec & _).
      assert (u' = unitary_of y0) as ->. { rewrite Hpert in Hre. destruct k; cbn [restart] in Hre; [exact Hre|]. destruct Hre as [(Q & _)|(_ & Q)]; [discriminate|exact Q]. }
      destruct (ae_store_call eta w i (Hls i (nth_error_In _ _ Ei)) x cm _ _ _ _ _ _ _ Hs (I1 i) I2 Ec) as (Q1 & Q2). split; [intros j; rewrite Q1; apply I1|exact Q2]. }
  split; [|split; [|exact Hstop]].
  - intros k c Ec. assert (Q : exists y, nth_error confs k = Some y /\ exact_cost 2 ae_observables (unitary_of y) = Ok c).
    { destruct (nth_error confs k) as [y|] eqn:Ey; [|apply nth_error_None in Ey; rewrite (F2_length _ _ _ Hcost) in Ey; assert (k < List.length cs) by (apply nth_error_Some; congruence); lia].
      destruct (PropLayerState.Forall2_nth _ _ _ Hcost) as (_ & Q). destruct (Q k y Ey) as (c' & Ec' & Q'). exists y. split; [reflexivity|]. rewrite Ec in Ec'. injection Ec' as ->. exact Q'. }
    destruct Q as (y & Ey & Ey'). destruct (Hk k y Ey) as [_ Q]. rewrite (ae_cost _ _ Q) in Ey'. injection Ey' as <-. reflexivity.
  - intros Hf. rewrite (Hun Hf). split; [rewrite map_length; apply (F2_length _ _ _ Hcost)|]. intros k u Eu. rewrite nth_error_map in Eu. destruct (nth_error confs k) as [y|] eqn:Ey; [|discriminate]. injection Eu as <-. apply (Hk k y Ey).
Qed.
Print Assumptions C108_run.

(** ** The limit *)
Lemma angle_range rate k : (0 < rate <= 1)%R -> (0 < angle rate k < PI)%R /\ (angle rate k < angle rate (S k) < PI)%R.
Proof.
  intros Hr. pose proof PI_RGT_0 as HP. assert (S : forall a, (0 < a < PI)%R -> (a < next_angle rate a < PI)%R).
  { intros a Ha. assert (S1 : (sin a < PI - a)%R) by (rewrite <- sin_PI_x; apply sin_lt_x; lra). assert (S0 : (0 < sin a)%R) by (apply sin_gt_0; lra). unfold next_angle. nra. }
  assert (A : (0 < angle rate k < PI)%R) by (induction k as [|k IH]; cbn [angle]; [lra|specialize (S _ IH); lra]). split; [exact A|]. cbn [angle]. exact (S _ A).
Qed.

Lemma ae_eigenvalue m : eigenvalue 4 ae_table m <-> (m * m = 2)%R.
Proof.
  split.
  - intros (v & (i & Hi & Nv) & Hv). pose proof (Hv 0 ltac:(lia)) as E0. pose proof (Hv 1 ltac:(lia)) as E1. pose proof (Hv 2 ltac:(lia)) as E2. pose proof (Hv 3 ltac:(lia)) as E3.
    cbn [seq] in E0, E1, E2, E3. rewrite !lsum_cons, lsum_nil in E0, E1, E2, E3. cbn [kadd k0 CStar ae_table] in E0, E1, E2, E3.
    destruct (v 0) as [a0 b0] eqn:V0, (v 1) as [a1 b1] eqn:V1, (v 2) as [a2 b2] eqn:V2, (v 3) as [a3 b3] eqn:V3.
    apply (f_equal (fun z => (fst z, snd z))) in E0, E1, E2, E3. cbn in E0, E1, E2, E3. injection E0 as E0 F0. injection E1 as E1 F1. injection E2 as E2 F2. injection E3 as E3 F3.
    assert (Z : forall a b, ((m * m - 2) * a = 0 -> (m * m - 2) * b = 0 -> m * m = 2 \/ (a, b) = RtoC 0)%R).
    { intros a b Ea Eb. apply Rmult_integral in Ea. apply Rmult_integral in Eb. destruct Ea as [Ea|Ea]; [left; lra|]. destruct Eb as [Eb|Eb]; [left; lra|]. right. subst. reflexivity. }
    assert (W : (m * m = 2)%R \/ v i = RtoC 0).
    { four i Hi; rewrite ?V0, ?V1, ?V2, ?V3; apply Z; nra. }
    destruct W as [W|W]; [exact W|contradiction].
  - intros Hm. assert (N : m <> 0%R) by nra. exists (fun i => match i with 0 => RtoC m | 2 => (1, 1)%R | _ => RtoC 0 end). split.
    + exists 2. split; [lia|]. intros Q. apply (f_equal fst) in Q. cbn in Q. lra.
    + intros i Hi. cbn [seq]. rewrite !lsum_cons, lsum_nil. four i Hi; apply C_ext; cbn; nra.
Qed.
Lemma ae_lowest H : meq 4 H ae_table -> lowest 4 H (- sqrt 2).
Proof.
  intros M. destruct root2 as [Q P]. split; [apply (eigenvalue_ext 4 ae_table H); [symmetry; exact M|]; apply ae_eigenvalue; nra|].
  intros m Hm. apply (eigenvalue_ext 4 H ae_table _ M), ae_eigenvalue in Hm. nra.
Qed.

(** For 0 < 2 sqrt 2 eta <= 1 these costs fall strictly and converge to the lowest eigenvalue of
    the observables without reaching it. *)
Theorem C108_limit : forall rate, (0 < rate <= 1)%R -> let c k := (sqrt 2 * cos (angle rate k))%R in
  c 0 = 1%R /\ (forall k, - sqrt 2 < c (S k) < c k)%R /\ is_lim_seq c (- sqrt 2)%R /\
  exists G, get_hamiltonian_matrix 2 ae_observables None = Ok G /\ lowest 4 (a_ent G) (- sqrt 2).
Proof.
  intros rate Hr c. destruct root2 as [Q P]. split; [|split; [|split]].
  - unfold c. cbn [angle]. rewrite cos_PI4. field. lra.
  - intros k. destruct (angle_range rate k Hr) as [A B]. unfold c.
    assert (D1 : (cos (angle rate (S k)) < cos (angle rate k))%R) by (apply cos_decreasing_1; lra).
    assert (D2 : (-1 < cos (angle rate (S k)))%R) by (rewrite <- cos_PI; apply cos_decreasing_1; lra). nra.
  - assert (L : is_lim_seq (fun k => cos (angle rate k)) (-1)%R).
    { apply (next_cost_limit rate); [exact Hr| |].
      - cbn [angle]. pose proof PI_RGT_0. split; [apply COS_bound|]. rewrite <- cos_0. apply cos_decreasing_1; lra.
      - intros k. destruct (angle_range rate k Hr) as [A B]. rewrite next_cost_angle by apply COS_bound. rewrite acos_cos by lra. reflexivity. }
    apply (is_lim_seq_scal_l _ (sqrt 2)) in L. cbn [Rbar_mult] in L. eapply is_lim_seq_ext; [|replace (- sqrt 2)%R with (sqrt 2 * -1)%R by ring; exact L]. reflexivity.
  - destruct ae_ham as (G & EG & MG). exists G. split; [exact EG|]. apply ae_lowest. exact MG.
Qed.
Print Assumptions C108_limit.

(** ** The figure *)

(** the direction of every word that is drawn *)
Definition ae_word (t : R) (w : list nat) : R := match w with [2; 2] => sqrt 2 / 2 * sin t | [3; 3] => - (sqrt 2 / 2 * sin t) | _ => 0 end.

Lemma ae_image t : veq 4 (mv 4 ae_table (example_state t)) (fun i => match i with 0 | 3 => Cmult (1, -1)%R (example_state t 1) | _ => Cmult (1, 1)%R (example_state t 0) end).
Proof. intros i Hi. unfold mv. cbn [seq]. rewrite !lsum_cons, !lsum_nil. four i Hi; apply C_ext; cbn; ring. Qed.

Lemma ae_commutator t P : hermitian 4 P -> Im (quad 4 (example_state t) (msub (mmul 4 P ae_table) (mmul 4 ae_table P))) =
  (2 * Im (ip 4 (mv 4 P (example_state t)) (mv 4 ae_table (example_state t))))%R.
Proof.
  intros HP. set (x := example_state t). rewrite quad_ip.
  assert (E : veq 4 (mv 4 (msub (mmul 4 P ae_table) (mmul 4 ae_table P)) x) (fun i => Cminus (mv 4 P (mv 4 ae_table x) i) (mv 4 ae_table (mv 4 P x) i))) by (intros i Hi; rewrite mv_sub, !mv_mul; reflexivity).
  rewrite (ip_ext 4 x x _ _ (veq_refl 4 x) E), ip_sub_r, (ip_hermitian 4 P x _ HP).
  assert (HT : hermitian 4 ae_table) by (intros i j Hi Hj; four i Hi; four j Hj; apply C_ext; cbn; ring).
  rewrite (ip_hermitian 4 ae_table x _ HT), <- (ip_conj 4 (mv 4 P x) (mv 4 ae_table x)). destruct (ip 4 (mv 4 P x) (mv 4 ae_table x)). cbn. ring.
Qed.

Lemma ae_direction H U t w i : meq 4 H ae_table -> veq 4 (qnode_state U) (example_state t) -> word_with 2 i w -> word_direction 2 H U w = ae_word t w.
Proof.
  intros HH HU (Hl & Hw & _). change (word_direction 2 H U w) with (Im (omega 4 (qnode_state U) (pword w) H) / 2 ^ 2)%R.
  destruct w as [|a [|b [|c w]]]; try discriminate. inversion Hw as [|? ? Ha Hw']; subst. inversion Hw' as [|? ? Hb _]; subst.
  destruct (list_eq_dec Nat.eq_dec [a; b] [2; 2]) as [E|N2]; [injection E as -> ->; rewrite (ae_omega _ t (pword [2; 2]) 2 HU (fun _ _ _ _ => eq_refl) (or_introl eq_refl) H HH); cbn; field|].
  destruct (list_eq_dec Nat.eq_dec [a; b] [3; 3]) as [E|N3]; [injection E as -> ->; rewrite (ae_omega _ t (pword [3; 3]) 3 HU (fun _ _ _ _ => eq_refl) (or_intror eq_refl) H HH); cbn; field|].
  assert (Z : Im (omega 4 (qnode_state U) (pword [a; b]) H) = 0%R).
  { unfold omega. rewrite quad_ip, (ip_ext 4 _ (example_state t) _ (mv 4 (msub (mmul 4 (pword [a; b]) ae_table) (mmul 4 ae_table (pword [a; b]))) (example_state t)) HU) by (apply mv_ext; [rewrite HH; reflexivity|exact HU]).
    rewrite <- quad_ip, ae_commutator by (apply (pword_herm [a; b]); exact Hw).
    rewrite (ip_ext 4 _ (mv 4 (pword [a; b]) (example_state t)) _ _ (veq_refl 4 _) (ae_image t)).
    unfold ip, mv. cbn [seq]. rewrite !lsum_cons, !lsum_nil. unfold example_state. set (u := ((t - PI / 4) / 2)%R). set (cu := (cos u / 2)%R). replace (- sin u / 2)%R with (- (sin u / 2))%R by field. set (su := (sin u / 2)%R). clearbody cu su. clear - Ha Hb N2 N3.
    destruct a as [|[|[|[|a]]]]; [| | | |lia]; (destruct b as [|[|[|[|b]]]]; [| | | |lia]); try congruence; cbn; ring. }
  rewrite Z. destruct a as [|[|[|[|a]]]]; [| | | |lia]; (destruct b as [|[|[|[|b]]]]; [| | | |lia]); try congruence; cbn; field.
Qed.

Lemma ae_kwargs_ok ls : ap_accepts (AList (map Some ls)) ae_kwargs.
Proof.
  unfold ap_accepts, allowed, arg. cbn. split; [eauto|]. split; [intros v H; injection H as <-; right; exists 50%Z; split; [reflexivity|lia]|].
  split; [intros v H; injection H as <-; exists (/ 10)%R; split; [reflexivity|lra]|]. split; [intros v H; injection H as <-; right; right; exists (/ 1000000)%R; split; [reflexivity|lra]|]. split; [intros v H; discriminate|].
  intros name Hin v H. simpl in Hin. intuition; subst; cbn in H; try discriminate; injection H as <-; eexists; reflexivity.
Qed.

Lemma ae_layer : exists l, CustomDirectionLieAlgebraLayer 2 ae_observables (Some ["YY"%string; "ZZ"%string]) (/ 10) false false = Ok l /\
  rate_layer 2 ae_observables (/ 10) (OCustom l) yyzz /\ dependable 2 (OCustom l).
Proof.
  assert (Hl : (0 <= / 10 <= 1)%R) by lra. assert (Hi : incl ["YY"; "ZZ"]%string (su2_list ++ su4_list)) by (intros d [<-|[<-|[]]]; vm_compute; tauto).
  assert (Hx : exists d, In d ["YY"; "ZZ"]%string /\ String.length d <= 2) by (exists "YY"%string; simpl; auto).
  destruct (C42_custom_layer_unitary 2 ae_observables ["YY"; "ZZ"]%string (/ 10) false false ae_fits ae_hermitian Hl Hi (or_intror (or_intror Hx))) as (l & El & _).
  exists l. split; [exact El|].
  assert (S : custom_set_eta l (/ 10) = l).
  { unfold CustomDirectionLieAlgebraLayer in El. repeat match type of El with bind ?m _ = Ok _ => destruct m as [?|]; cbn [bind] in El; [|discriminate] end.
    repeat match type of El with context [let '(_, _) := ?p in _] => destruct p; cbn [bind] in El end.
    repeat match type of El with bind ?m _ = Ok _ => destruct m as [?|]; cbn [bind] in El; [|discriminate] end. injection El as <-. reflexivity. }
  rewrite <- S. split; [exact (rate_custom 2 ae_observables (/ 10) ["YY"; "ZZ"]%string (/ 10) false false l Hl Hi (or_intror Hx) El)|].
  exact (dep_custom 2 _ _ (/ 10) false false l (/ 10) ae_fits ae_hermitian Hl Hi (or_intror (or_intror Hx)) El).
Qed.

Lemma ae_length cs : stop_rule 8 5 (the_opt_tol ae_kwargs) (the_steps ae_kwargs) cs -> (forall k c, nth_error cs k = Some c -> c = example_cost k) -> cs = map example_cost (seq 0 28).
Proof.
  intros (n & Hn & Hb & Hno & Hyes) Hc. assert (N : forall k, k <= n -> nth_error cs k = Some (example_cost k)).
  { intros k Hk. destruct (nth_error cs k) as [c|] eqn:E; [f_equal; apply Hc; exact E|apply nth_error_None in E; lia]. }
  assert (L : n <= 27).
  { apply Nat.nlt_ge. intros L. apply (Hno 26 ltac:(lia)). split; [lia|]. exists (Fin (/ 1000000)), (example_cost 27), (example_cost 22). split; [reflexivity|]. split; [apply N; lia|]. split; [apply (N 22); lia|]. exact stall. }
  assert (E27 : n = 27).
  { destruct (Nat.eq_dec n 27) as [E|D]; [exact E|exfalso]. destruct Hyes as (Hw & t & x & y & Et & Ex & Ey & Hcl); [change (n < 50); lia|].
    replace (S (n - 1)) with n in Ex, Ey by lia. rewrite N in Ex by lia. rewrite N in Ey by lia. injection Ex as <-. injection Ey as <-. change (Some (Fin (/ 1000000)) = Some t) in Et. injection Et as <-. cbn [close] in Hcl.
    pose proof (no_stall (n - 5) ltac:(lia)) as Q. replace (n - 5 + 5) with n in Q by lia. lra. }
  subst n. apply (nth_ext _ _ 0%R 0%R); [rewrite map_length, seq_length; exact Hn|]. intros k Hk. rewrite (nth_error_nth cs k 0%R (N k ltac:(lia))).
  rewrite (nth_indep _ 0%R (example_cost 0)) by (rewrite map_length, seq_length; lia). rewrite map_nth, seq_nth by lia. reflexivity.
Qed.

Lemma ae_min eigh H : meq 4 H ae_table -> eigh_correct 4 eigh -> min_eigenvalue eigh 4 H = (- sqrt 2)%R.
Proof.
  intros M He. assert (Hh : hermitian 4 H). { intros i j Hi Hj. unfold madj. rewrite (M i j Hi Hj), (M j i Hj Hi). four i Hi; four j Hj; apply C_ext; cbn; ring. }
  destruct (C100_eigenvalues 4 H eigh Hh He ltac:(lia)) as [A _]. destruct (ae_lowest H M) as [El Hm].
  apply A in El. destruct El as (k & Hk & Ek). unfold min_eigenvalue. set (f := fst (eigh 4 H)) in *. cbn [Nat.sub seq map fold_left].
  assert (G : forall j, j < 4 -> (- sqrt 2 <= f j)%R) by (intros j Hj; apply Hm, A; eauto).
  pose proof (G 0 ltac:(lia)). pose proof (G 1 ltac:(lia)). pose proof (G 2 ltac:(lia)). pose proof (G 3 ltac:(lia)).
  four k Hk; unfold Rmin; repeat destruct Rle_dec; lra.
Qed.

(** The script itself: the 50 steps it allows are stopped after 27, the figure has exactly the
    curves YY and ZZ, which are opposite, and the residuals are the distances to the lowest
    eigenvalue; the last one is below 5.4e-7. *)
Theorem C108_figure : forall x eigh random, svd_correct (or_svd x) -> eigh_correct 4 eigh -> exists fig,
  approximate_example x eigh random = Ok fig /\
  ae_costs fig = map example_cost (seq 0 28) /\
  NoDup (map fst (ae_curves fig)) /\
  (forall name v, In (name, v) (ae_curves fig) <->
     (name = "YY"%string /\ v = map (fun k => sqrt 2 / 2 * sin (angle (sqrt 2 / 5) k))%R (seq 0 28)) \/
     (name = "ZZ"%string /\ v = map (fun k => - (sqrt 2 / 2 * sin (angle (sqrt 2 / 5) k)))%R (seq 0 28))) /\
  ae_residuals fig = map (fun k => example_cost k + sqrt 2)%R (seq 0 28) /\
  (0 < last (ae_residuals fig) 0 < 0.00000054)%R.
Proof.
  intros x eigh random Hs He. destruct ae_ham as (G & EG & MG). destruct ae_layer as (l & El & Hrate & Hdep). destruct root2 as [Q2 P2].
  pose proof (ae_kwargs_ok [0]) as A.
  destruct (C66_approximate_returns x eigh random 2 ae_circuit ae_observables [OCustom l] [0] ae_params ae_kwargs ae_gates ae_fits Hs He) as (r & Er); try exact A.
  { constructor; [exact Hdep|constructor]. } { discriminate. } { repeat constructor. } { repeat constructor. } { left. reflexivity. } { discriminate. }
  pose proof Er as Er'. unfold approx_optimizer in Er'. destruct (C60_approximate_shape _ _ _ _ _ _ _ _ _ _ _ _ _ _ _ _ _ _ A Er') as (cs & ss & os & us & ps & zs & Hr). clear Er'.
  assert (HL : forall i, In i [0] -> exists o, nth_error [OCustom l] i = Some o /\ rate_layer 2 ae_observables (/ 10) o yyzz) by (intros i [<-|[]]; exists (OCustom l); split; [reflexivity|exact Hrate]).
  destruct (C108_run x eigh random (/ 10) [OCustom l] [0] ae_params ae_kwargs r cs ss os us ps zs Hs A eq_refl HL Er Hr) as (Hc & Hu & Hst).
  replace (2 * sqrt 2 * / 10)%R with (sqrt 2 / 5)%R in Hc, Hu by field. specialize (Hu eq_refl). destruct Hu as [Lu Hu].
  assert (Ecs : cs = map example_cost (seq 0 28)) by (apply ae_length; [exact Hst|exact Hc]).
  assert (L28 : List.length us = 28) by (rewrite Lu, Ecs, map_length, seq_length; reflexivity).
  assert (Nu : us <> []) by (intros ->; discriminate).
  destruct (C88_direction_plots_partial 2 us ae_observables ae_fits) as (Fs & EF & _ & Hn & _). destruct (Hn Nu 2) as (_ & _ & _ & H2). destruct (H2 eq_refl) as (one & none & ss' & W1 & W0 & _ & EP & _). clear H2 Hn.
  assert (HE : Forall2 (embedded 2) ae_observables Fs).
  { pose proof ae_fits as Hf. clear - EF Hf. revert Fs EF. induction Hf as [|o obs Ho _ IH]; intros Fs EF; cbn [mapM] in EF; [injection EF as <-; constructor|]. destruct (obs_one 2 o Ho) as (F & E1 & E2 & _). unfold full in E1. rewrite E1 in EF. cbn [bind] in EF.
    destruct (mapM (fun o0 => get_full_operator (q_matrix o0) (q_wires o0) 2) obs) as [Fs'|]; cbn [bind] in EF; [|discriminate]. injection EF as <-. constructor; [exact E2|apply IH; reflexivity]. }
  pose proof (ae_sum Fs HE) as MH. set (H := msum a_ent Fs) in *.
  assert (V : forall w i, word_with 2 i w -> map (fun U => word_direction 2 H U w) us = map (fun k => ae_word (angle (sqrt 2 / 5) k) w) (seq 0 28)).
  { intros w i Hw. rewrite <- L28. clear - Hu Hw MH. revert Hu. generalize (angle (sqrt 2 / 5)). intros g Hu.
    assert (Q : forall us a, (forall k u, nth_error us k = Some u -> veq 4 (fun i => u i 0) (example_state (g (a + k)))) -> map (fun U => word_direction 2 H U w) us = map (fun k => ae_word (g k) w) (seq a (List.length us))).
    { clear us Hu. induction us as [|u us IH]; intros a Hu; [reflexivity|]. cbn [map List.length seq]. f_equal.
      - rewrite <- (Nat.add_0_r a). apply (ae_direction H u _ w i MH); [exact (Hu 0 u eq_refl)|exact Hw].
      - apply IH. intros k v Ev. rewrite Nat.add_succ_comm. exact (Hu (S k) v Ev). }
    apply (Q us 0). exact Hu. }
  assert (Z0 : forall w, w <> [2; 2] -> w <> [3; 3] -> forall t, ae_word t w = 0%R).
  { intros w N2 N3 t. destruct w as [|[|[|[|[|a]]]] [|[|[|[|[|b]]]] [|c w]]]; try reflexivity; congruence. }
  assert (First : (sqrt 2 / 2 * sin (angle (sqrt 2 / 5) 0) = / 2)%R) by (cbn [angle]; rewrite sin_PI4; field_simplify; lra).
  eexists. split.
  { unfold approximate_example. rewrite EG. cbn [bind]. rewrite El. cbn [bind]. change (AList [Some 0]) with (AList (map Some [0])). rewrite Er. cbn [bind]. rewrite Hr. cbn [the_flag]. change (the_flag ae_kwargs "return_state") with false. change (the_flag ae_kwargs "return_omegas") with false. change (the_flag ae_kwargs "return_unitary") with true. change (the_flag ae_kwargs "return_gates") with false. change (the_flag ae_kwargs "return_perturbations") with false. change (the_flag ae_kwargs "return_zassenhaus") with false.
    cbn [orb wanted app]. rewrite EP. cbn [bind]. reflexivity. }
  cbn [ae_costs ae_curves ae_residuals]. destruct W1 as [D1 W1]. destruct W0 as [D0 W0].
  assert (NoOne : one = []).
  { destruct one as [|[name v] one]; [reflexivity|exfalso]. destruct (proj1 (W1 name v) (or_introl eq_refl)) as (w & Hw & _ & -> & y & Hy & By). rewrite (V w 1 Hw) in Hy.
    apply in_map_iff in Hy. destruct Hy as (k & <- & _). rewrite Z0 in By; [rewrite Rabs_R0 in By; lra| |]; intros ->; destruct Hw as (_ & _ & Hw); discriminate. }
  subst one. cbn [app]. split; [exact Ecs|]. split; [exact D0|]. split.
  - intros name v. rewrite W0. split.
    + intros (w & Hw & -> & -> & y & Hy & By). rewrite (V w 0 Hw) in Hy |- *. apply in_map_iff in Hy. destruct Hy as (k & <- & _).
      destruct (list_eq_dec Nat.eq_dec w [2; 2]) as [-> |N2]; [left; split; reflexivity|]. destruct (list_eq_dec Nat.eq_dec w [3; 3]) as [-> |N3]; [right; split; reflexivity|].
      rewrite Z0 in By by assumption. rewrite Rabs_R0 in By. lra.
    + assert (B : forall s, (s = 2 \/ s = 3) -> word_with 2 0 [s; s]) by (intros s [-> | ->]; repeat split; repeat constructor).
      intros [[-> ->]|[-> ->]]; [exists [2; 2]|exists [3; 3]]; (split; [apply B; auto|]); (split; [reflexivity|]); rewrite (V _ 0) by (apply B; auto); (split; [reflexivity|]).
      * exists (/ 2)%R. split; [rewrite <- First; apply (in_map (fun k => sqrt 2 / 2 * sin (angle (sqrt 2 / 5) k))%R (seq 0 28) 0); left; reflexivity|]. rewrite Rabs_pos_eq; lra.
      * exists (- / 2)%R. split; [rewrite <- First; apply (in_map (fun k => - (sqrt 2 / 2 * sin (angle (sqrt 2 / 5) k)))%R (seq 0 28) 0); left; reflexivity|]. rewrite Rabs_left; lra.
  - assert (R : map (fun c => Rabs (c - min_eigenvalue eigh 4 (a_ent G))) cs = map (fun k => example_cost k + sqrt 2)%R (seq 0 28)).
    { rewrite Ecs, map_map. apply map_ext. intros k. rewrite (ae_min eigh (a_ent G) MG He). unfold Rminus. rewrite Ropp_involutive. apply Rabs_pos_eq. unfold example_cost. pose proof (COS_bound (angle (sqrt 2 / 5) k)). nra. }
    split; [exact R|]. rewrite R. change (0 < example_cost 27 + sqrt 2 < 0.00000054)%R. exact last_residual.
Qed.
Print Assumptions C108_figure.

(** Decompositions as the theorem asks for exist; with them the script draws 28 costs, the first
    of which is 1, and a curve YY. *)
Example C108_case : exists x eigh fig, svd_correct (or_svd x) /\ eigh_correct 4 eigh /\ approximate_example x eigh (fun _ _ _ => 0%R) = Ok fig /\
  List.length (ae_costs fig) = 28 /\ nth_error (ae_costs fig) 0 = Some 1%R /\ In "YY"%string (map fst (ae_curves fig)) /\ (0 < sqrt 2 / 5 <= 1)%R.
Proof.
  destruct eigh_exists as (eigh & He). set (x := mkoracles svd_trivial (fun l => l) (fun _ => 0) (0, 0, 0) (fun f => (f (0, 0, 0)%R, 0, 0)%R)).
  destruct (C108_figure x eigh (fun _ _ _ => 0%R) svd_trivial_correct (He 4)) as (fig & E & Ec & _ & Hc & _). exists x, eigh, fig.
  split; [apply svd_trivial_correct|]. split; [apply He|]. split; [exact E|]. rewrite Ec. split; [reflexivity|]. split.
  - cbn [seq map nth_error]. f_equal. destruct root2. unfold example_cost. cbn [angle]. rewrite cos_PI4. field. lra.
  - split; [|destruct root2; nra]. apply in_map_iff. eexists (_, _). split; [reflexivity|]. apply Hc. left. split; reflexivity.
Qed.
