(** Properties C56 to C60: histories, early stopping, perturbation, layer cycle and
    return shape of the optimizers. *)
From Coq Require Import ZArith Arith Lia Bool String Reals Lra Sorted.
From Coquelicot Require Import Coquelicot.
From Verif Require Import Py UtilsModel CircuitModel LayerModel LayerProofs OptimizerModel OptProofs PropOptArgs.
From Coq Require Import List.
Import ListNotations.
Local Open Scope string_scope.
Local Open Scope nat_scope.
Local Open Scope list_scope.

(** ** Specification *)

(** costs equal up to the tolerance (absolute, plus 1e-5 relative) *)
Definition close (tol : flt) (x y : R) : Prop :=
  match tol with Fin t => (Rabs (x - y) <= t + / 100000 * Rabs y)%R | PInf => True | _ => False end.
(** step [s] (counted from 0) is past the warm-up and its cost is close to the
    cost [lag] entries earlier; the cost of step s is entry s+1 *)
Definition stalls (warm lag : nat) (tol : option flt) (cs : list R) (s : nat) : Prop :=
  warm < s /\ exists t x y, tol = Some t /\ nth_error cs (S s) = Some x /\ nth_error cs (S s - lag) = Some y /\ close t x y.
(** all steps but the last one executed do not stall, the last one does unless it
    is the last allowed *)
Definition stop_rule (warm lag : nat) (tol : option flt) (nsteps : nat) (cs : list R) : Prop :=
  exists n, List.length cs = S n /\ 1 <= n <= nsteps /\ (forall s, S s < n -> ~ stalls warm lag tol cs s) /\ (n < nsteps -> stalls warm lag tol cs (n - 1)).
(** all steps are executed and [ps] lists those that stall *)
Definition perturbation_rule (warm lag : nat) (tol : option flt) (nsteps : nat) (cs : list R) (ps : list nat) : Prop :=
  List.length cs = S nsteps /\ StronglySorted lt ps /\ forall s, In s ps <-> s < nsteps /\ stalls warm lag tol cs s.

(** one entry if requested *)
Definition wanted {I} (b : bool) (x : I) : list I := if b then [x] else [].

(** the documented results *)
Definition ps_result {St P Om U Z} (kw : kwargs) (r : retval (item St P Om U Z)) (cs : list R) (ss : list St) (ps : list P) : Prop :=
  r = if the_flag kw "return_state" || the_flag kw "return_params"
      then RTuple (ItCosts cs :: wanted (the_flag kw "return_state") (ItStates ss) ++ wanted (the_flag kw "return_params") (ItParams ps))
      else RList cs.
Definition ex_result {St P Om U Z} (kw : kwargs) (r : retval (item St P Om U Z)) (cs : list R) (ss : list St) (ps : list nat) (u : U) : Prop :=
  r = if the_flag kw "return_state" || the_flag kw "return_perturbations" || the_flag kw "return_unitary"
      then RTuple (ItCosts cs :: wanted (the_flag kw "return_state") (ItStates ss) ++ wanted (the_flag kw "return_perturbations") (ItPerturbations ps) ++
                   wanted (the_flag kw "return_unitary") (ItUnitary u))
      else RList cs.
Definition ap_result {St P Om U Z} (kw : kwargs) (r : retval (item St P Om U Z)) (cs : list R) (ss : list St) (oms : list Om) (us : list U) (ps : list nat) (zs : list Z) : Prop :=
  r = if the_flag kw "return_state" || the_flag kw "return_omegas" || the_flag kw "return_unitary" || the_flag kw "return_gates" || the_flag kw "return_perturbations" || the_flag kw "return_zassenhaus"
      then RTuple (ItCosts cs :: wanted (the_flag kw "return_state") (ItStates ss) ++ wanted (the_flag kw "return_omegas") (ItOmegas oms) ++
                   wanted (the_flag kw "return_unitary") (ItUnitaries us) ++ wanted (the_flag kw "return_gates") ItGates ++
                   wanted (the_flag kw "return_perturbations") (ItPerturbations ps) ++ wanted (the_flag kw "return_zassenhaus") (ItZassenhaus zs))
      else RList cs.

(** consecutive elements *)
Definition chain {A} (step : nat -> A -> A -> Prop) (l : list A) : Prop := forall k x y, nth_error l k = Some x -> nth_error l (S k) = Some y -> step k x y.

(** [x'] is what step [k] starts from when entry k is [x]: perturbed if requested
    and if the step before stalled *)
Definition restart {U} (on : bool) (warm lag : nat) (tol : option flt) (cs : list R) (perturb : nat -> U -> U) (k : nat) (x x' : U) : Prop :=
  match k with
  | O => x' = x
  | S j => (on = true /\ stalls warm lag tol cs j /\ x' = perturb j x) \/ (~ (on = true /\ stalls warm lag tol cs j) /\ x' = x)
  end.

(** ** Proofs *)
Lemma close_isclose tol x y : isclose tol x y = true <-> close tol x y.
Proof. destruct tol; cbn; [apply Rleb_true|tauto|split; [discriminate|tauto]|split; [discriminate|tauto]]. Qed.

Lemma crit_stalls warm lag tol cs s : S s < List.length cs -> (crit warm lag tol cs s = true <-> stalls warm lag (Some tol) cs s).
Proof.
  intros H. unfold crit, stalls. rewrite andb_true_iff, Nat.ltb_lt, close_isclose.
  assert (H' : S s - lag < List.length cs) by lia. split.
  - intros [H1 H2]. split; [exact H1|]. exists tol, (nth (S s) cs 0%R), (nth (S s - lag) cs 0%R). split; [reflexivity|]. split; [apply nth_error_nth'; exact H|]. split; [apply nth_error_nth'; exact H'|exact H2].
  - intros (H1 & t & x & y & Et & Ex & Ey & Hc). split; [exact H1|]. injection Et as <-. apply (nth_error_nth _ _ 0%R) in Ex. apply (nth_error_nth _ _ 0%R) in Ey. rewrite Ex, Ey. exact Hc.
Qed.
Lemma crit_false_stalls warm lag tol cs s : S s < List.length cs -> crit warm lag tol cs s = false -> ~ stalls warm lag (Some tol) cs s.
Proof. intros H E Hs. apply crit_stalls in Hs; [congruence|exact H]. Qed.

Lemma sorted_filter (f : nat -> bool) n a : StronglySorted lt (filter f (seq a n)).
Proof.
  revert a. induction n as [|n IH]; intros a; simpl; [constructor|]. destruct (f a); [|apply IH]. constructor; [apply IH|].
  apply Forall_forall. intros x Hx. apply filter_In in Hx. destruct Hx as [Hx _]. apply in_seq in Hx. lia.
Qed.

(** parameter_shift_optimizer *)
Lemma ps_invert {St P Om U Z} descend cost state (p0 : P) kw (r : retval (item St P Om U Z)) : ps_accepts kw ->
  parameter_shift_optimizer descend cost state RetPlain p0 kw = Ok r ->
  exists n v a, a = mkps (the_steps kw) (the_eta kw) (the_tol kw) (the_flag kw "return_state") (kw_get kw "return_params" (PyBool false)) /\
    truthy (ps_params a) = the_flag kw "return_params" /\
    ps_core descend cost state a p0 n v /\ ps_result kw r (pv_costs v) (pv_states v) (pv_pps v) /\
    stop_rule 2 1 (Some (the_tol kw)) (the_steps kw) (pv_costs v) /\ List.length (pv_costs v) = S n.
Proof.
  intros (A1 & A2 & A3 & A4) E. unfold parameter_shift_optimizer in E.
  assert (Hb : boolean (kw_get kw "return_params" (PyBool false))) by (apply (proj1 (allowed_default kw "return_params" boolean _ default_flag)), A4; simpl; tauto).
  destruct (ps_cases kw) as [[(B1 & _) Ev]|[Hn _]].
  2: { exfalso. apply Hn. unfold ps_checked. repeat (split; [assumption|]). apply A4. simpl; tauto. }
  rewrite Ev in E. cbn [bind] in E. set (a := mkps _ _ _ _ _) in *. unfold ps_run in E.
  destruct (if ps_state a then _ else _) as [ss|] eqn:Es in E; cbn [bind] in E; [|discriminate].
  destruct (cost p0) as [c|] eqn:Ec; cbn [bind] in E; [|discriminate].
  destruct (for_range _ _ _ _) as [v|] eqn:Ef; cbn [bind] in E; [|discriminate].
  assert (H1 : 1 <= the_steps kw).
  { unfold the_steps. destruct (arg kw "nsteps") as [x|] eqn:Ex; [|lia]. destruct (B1 x Ex) as [->|(z & -> & Hz)]; lia. }
  pose proof (ps_loop_spec descend cost state a p0 _ _ (ps_core_init descend cost state a p0 c ss Ec Es) Ef) as L.
  assert (Hn : exists n, ps_core descend cost state a p0 n v /\ 1 <= n <= the_steps kw /\ (forall s, S s < n -> crit 2 1 (the_tol kw) (pv_costs v) s = false) /\ (n < the_steps kw -> crit 2 1 (the_tol kw) (pv_costs v) (n - 1) = true)).
  { destruct L as [[C N]|(j & Hj & C & i & -> & Hi & N)].
    - exists (the_steps kw). split; [exact C|]. split; [lia|]. split; [intros s Hs; apply N; cbn; lia|]. lia.
    - exists (S i). split; [exact C|]. split; [exact Hj|]. split; [intros s Hs; apply N; lia|]. intros _. replace (S i - 1) with i by lia. exact Hi. }
  destruct Hn as (n & C & Hn & N1 & N2). pose proof (core_len descend cost state a p0 n v C) as Hl.
  exists n, v, a. split; [reflexivity|]. split; [apply (flag_value kw "return_params" Hb)|]. split; [exact C|]. split; [|split; [|exact Hl]].
  - unfold ps_result. destruct Hb as (b & Hb).
    assert (Hf : the_flag kw "return_params" = b) by (rewrite <- (flag_value kw "return_params") by (exists b; exact Hb); rewrite Hb; reflexivity).
    rewrite Hf. unfold a in E. cbn [ps_params ps_state] in E. rewrite Hb in E. cbn [number truthy sum_below_one bind] in E. destruct (the_flag kw "return_state"), b; cbn [bind] in E;
      destruct (Rlt_dec _ _) in E; try lra; injection E as <-; reflexivity.
  - exists n. split; [exact Hl|]. split; [exact Hn|]. split.
    + intros s Hs. apply crit_false_stalls; [lia|]. apply N1. exact Hs.
    + intros Hs. apply crit_stalls; [lia|]. apply N2. exact Hs.
Qed.

Lemma ps_shape_inj {St P Om U Z} kw (r : retval (item St P Om U Z)) cs ss ps cs' ss' ps' : ps_result kw r cs ss ps -> ps_result kw r cs' ss' ps' ->
  cs = cs' /\ (the_flag kw "return_state" = true -> ss = ss') /\ (the_flag kw "return_params" = true -> ps = ps').
Proof.
  unfold ps_result. intros -> E. destruct (the_flag kw "return_state"), (the_flag kw "return_params"); cbn in E; injection E; intros; subst; repeat split; intros; congruence.
Qed.

Theorem C56_shift_histories : forall St P Om U Z descend cost state (p0 : P) kw (r : retval (item St P Om U Z)) cs ss ps,
  ps_accepts kw -> parameter_shift_optimizer descend cost state RetPlain p0 kw = Ok r -> ps_result kw r cs ss ps ->
  exists points, nth_error points 0 = Some p0 /\ chain (fun _ p p' => descend (the_eta kw) p = Ok p') points /\
    2 <= List.length points <= S (the_steps kw) /\ Forall2 (fun p c => cost p = Ok c) points cs /\
    (the_flag kw "return_state" = true -> Forall2 (fun p s => state p = Ok s) points ss) /\
    (the_flag kw "return_params" = true -> ps = points).
Proof.
  intros St P Om U Z descend cost state p0 kw r cs ss ps Ha E Hr.
  destruct (ps_invert descend cost state p0 kw r Ha E) as (n & v & a & Ea & Ht & (points & Hl & H0 & _ & Hd & Hc & Hs & Hq) & Hr' & (m & Hm & Hm' & _) & Hn).
  destruct (ps_shape_inj kw r _ _ _ _ _ _ Hr Hr') as (-> & I2 & I3). exists points. split; [exact H0|]. split.
  { intros k x y E1 E2. specialize (Hd k x y E1 E2). rewrite Ea in Hd. exact Hd. }
  split; [lia|]. split; [exact Hc|]. split.
  - intros Hf. rewrite (I2 Hf). rewrite Ea in Hs. cbn [ps_state] in Hs. rewrite Hf in Hs. exact Hs.
  - intros Hf. rewrite (I3 Hf), Hq, Ht, Hf. reflexivity.
Qed.
Print Assumptions C56_shift_histories.

Theorem C57_shift_stop : forall St P Om U Z descend cost state (p0 : P) kw (r : retval (item St P Om U Z)) cs ss ps,
  ps_accepts kw -> parameter_shift_optimizer descend cost state RetPlain p0 kw = Ok r -> ps_result kw r cs ss ps ->
  stop_rule 2 1 (Some (the_tol kw)) (the_steps kw) cs.
Proof.
  intros St P Om U Z descend cost state p0 kw r cs ss ps Ha E Hr.
  destruct (ps_invert descend cost state p0 kw r Ha E) as (n & v & a & _ & _ & _ & Hr' & Hst & _).
  destruct (ps_shape_inj kw r _ _ _ _ _ _ Hr Hr') as (-> & _). exact Hst.
Qed.
Print Assumptions C57_shift_stop.

Theorem C60_shift_shape : forall St P Om U Z descend cost state (p0 : P) kw (r : retval (item St P Om U Z)),
  ps_accepts kw -> parameter_shift_optimizer descend cost state RetPlain p0 kw = Ok r -> exists cs ss ps, ps_result kw r cs ss ps.
Proof.
  intros St P Om U Z descend cost state p0 kw r Ha E. destruct (ps_invert descend cost state p0 kw r Ha E) as (n & v & a & _ & _ & _ & Hr' & _). eauto.
Qed.
Print Assumptions C60_shift_shape.

(** exact_lie_optimizer *)
Lemma steps_pos kw : allowed kw "nsteps" int_from_1 -> 1 <= the_steps kw.
Proof. intros B1. unfold the_steps. destruct (arg kw "nsteps") as [x|] eqn:Ex; [|lia]. destruct (B1 x Ex) as [->|(z & -> & Hz)]; lia. Qed.

Lemma ex_invert {St P Om U Z} flow cost state perturb start kw (r : retval (item St P Om U Z)) : ex_accepts kw ->
  exact_lie_optimizer flow cost state perturb RetState start kw = Ok r ->
  exists n v u0 a, a = mkex (the_steps kw) (the_eta kw) (the_tol kw) (the_flag kw "return_state") (the_flag kw "perturbation") (the_flag kw "return_perturbations") (the_flag kw "return_unitary") /\
    start = Ok u0 /\ ex_core flow cost state perturb a u0 n v /\ ex_result kw r (ev_costs v) (ev_states v) (ev_perturbations v) (ev_u v) /\
    (the_flag kw "perturbation" = false -> stop_rule 3 1 (Some (the_tol kw)) (the_steps kw) (ev_costs v)) /\
    (the_flag kw "perturbation" = true -> n = the_steps kw) /\ List.length (ev_costs v) = S n /\ 1 <= n <= the_steps kw.
Proof.
  intros Ha E. unfold exact_lie_optimizer in E. destruct (ex_cases kw) as [[_ Ev]|[Hn _]]; [|contradiction].
  rewrite Ev in E. cbn [bind] in E. set (a := mkex _ _ _ _ _ _ _) in *. destruct start as [u0|]; cbn [bind] in E; [|discriminate]. unfold ex_run in E.
  destruct (if ex_state a then _ else _) as [ss|] eqn:Es in E; cbn [bind] in E; [|discriminate].
  destruct (cost u0) as [c|] eqn:Ec; cbn [bind] in E; [|discriminate].
  destruct (for_range _ _ _ _) as [v|] eqn:Ef; cbn [bind] in E; [|discriminate].
  pose proof (steps_pos kw (proj1 Ha)) as H1.
  pose proof (ex_loop_spec flow cost state perturb a u0 _ _ (ex_core_init flow cost state perturb a u0 c ss Ec Es) Ef) as L.
  assert (Hn : exists n, ex_core flow cost state perturb a u0 n v /\ 1 <= n <= the_steps kw /\ (the_flag kw "perturbation" = true -> n = the_steps kw) /\
    (the_flag kw "perturbation" = false -> (forall s, S s < n -> crit 3 1 (the_tol kw) (ev_costs v) s = false) /\ (n < the_steps kw -> crit 3 1 (the_tol kw) (ev_costs v) (n - 1) = true))).
  { destruct L as [[C N]|(j & Hj & C & Hp & i & -> & Hi & N)].
    - exists (the_steps kw). split; [exact C|]. split; [lia|]. split; [reflexivity|]. intros Hf. split; [intros s Hs; apply N; [exact Hf|cbn; lia]|lia].
    - exists (S i). split; [exact C|]. split; [exact Hj|]. split; [unfold a in Hp; cbn in Hp; congruence|]. intros _. split; [intros s Hs; apply N; lia|].
      intros _. replace (S i - 1) with i by lia. exact Hi. }
  destruct Hn as (n & C & Hn & N0 & N1). pose proof (ex_len flow cost state perturb a u0 n v C) as Hl.
  exists n, v, u0, a. split; [reflexivity|]. split; [reflexivity|]. split; [exact C|]. split; [|split; [|split; [exact N0|split; [exact Hl|exact Hn]]]].
  - unfold ex_result. unfold a in E. cbn [ex_state ex_perturbations ex_unitary] in E.
    destruct (the_flag kw "return_state"), (the_flag kw "return_perturbations"), (the_flag kw "return_unitary"); cbn in E; injection E as <-; reflexivity.
  - intros Hf. destruct (N1 Hf) as (N2 & N3). exists n. split; [exact Hl|]. split; [exact Hn|]. split.
    + intros s Hs. apply crit_false_stalls; [lia|]. apply N2. exact Hs.
    + intros Hs. apply crit_stalls; [lia|]. apply N3. exact Hs.
Qed.

Lemma ex_shape_inj {St P Om U Z} kw (r : retval (item St P Om U Z)) cs ss ps u cs' ss' ps' u' : ex_result kw r cs ss ps u -> ex_result kw r cs' ss' ps' u' ->
  cs = cs' /\ (the_flag kw "return_state" = true -> ss = ss') /\ (the_flag kw "return_perturbations" = true -> ps = ps') /\ (the_flag kw "return_unitary" = true -> u = u').
Proof.
  unfold ex_result. intros -> E. destruct (the_flag kw "return_state"), (the_flag kw "return_perturbations"), (the_flag kw "return_unitary"); cbn in E; injection E; intros; subst; repeat split; intros; congruence.
Qed.

Lemma restart_resume {U} (on : bool) warm lag tol cs (perturb : nat -> U -> U) k x : k < List.length cs ->
  restart on warm lag (Some tol) cs perturb k x (match k with O => x | S j => if on && crit warm lag tol cs j then perturb j x else x end).
Proof.
  intros H. destruct k as [|j]; [reflexivity|]. cbn [restart]. pose proof (crit_stalls warm lag tol cs j H) as C.
  destruct on; cbn [andb]; [|right; split; [intros [? _]; discriminate|reflexivity]].
  destruct (crit warm lag tol cs j); [left|right]; split; try reflexivity; [|intros [_ Hs]; apply C in Hs; discriminate].
  split; [apply C; reflexivity|reflexivity].
Qed.

(** entry k of the lists belongs to the k-th circuit, which the flow produced from
    the circuit before (perturbed where the rule says so); the returned unitary is
    what a further step would start from *)
Theorem C56_exact_histories : forall St P Om U Z flow cost state perturb start kw (r : retval (item St P Om U Z)) cs ss ps u,
  ex_accepts kw -> exact_lie_optimizer flow cost state perturb RetState start kw = Ok r -> ex_result kw r cs ss ps u ->
  exists circuits u0 n, start = Ok u0 /\ nth_error circuits 0 = Some u0 /\ List.length circuits = S n /\ 1 <= n <= the_steps kw /\
    chain (fun k x y => exists x', restart (the_flag kw "perturbation") 3 1 (Some (the_tol kw)) cs (perturb (the_eta kw)) k x x' /\ flow (the_eta kw) x' = Ok y) circuits /\
    Forall2 (fun u c => cost u = Ok c) circuits cs /\
    (the_flag kw "return_state" = true -> Forall2 (fun u s => state u = Ok s) circuits ss) /\
    (the_flag kw "return_unitary" = true -> exists last, nth_error circuits n = Some last /\
       restart (the_flag kw "perturbation") 3 1 (Some (the_tol kw)) cs (perturb (the_eta kw)) n last u).
Proof.
  intros St P Om U Z flow cost state perturb start kw r cs ss ps u Ha E Hr.
  destruct (ex_invert flow cost state perturb start kw r Ha E) as (n & v & u0 & a & Ea & Est & (us & x & Hl & H0 & Hx & Hu & Hd & Hc & Hs & _) & Hr' & _ & _ & Hn & Hn').
  destruct (ex_shape_inj kw r _ _ _ _ _ _ _ _ Hr Hr') as (-> & I2 & _ & I4). exists us, u0, n. split; [exact Est|]. split; [exact H0|]. split; [exact Hl|]. split; [exact Hn'|]. split.
  { intros k y z E1 E2. eexists. split; [|specialize (Hd k y z E1 E2); rewrite Ea in Hd; unfold ex_resume in Hd; cbn in Hd; exact Hd].
    apply (restart_resume (the_flag kw "perturbation") 3 1 (the_tol kw) (ev_costs v) (perturb (the_eta kw)) k y).
    assert (k < List.length us) by (apply nth_error_Some; congruence). lia. }
  split; [exact Hc|]. split.
  - intros Hf. rewrite (I2 Hf). rewrite Ea in Hs. cbn [ex_state] in Hs. rewrite Hf in Hs. exact Hs.
  - intros Hf. exists x. split; [exact Hx|]. rewrite (I4 Hf), Hu, Ea. unfold ex_resume. cbn [ex_perturbation ex_tol ex_eta].
    apply (restart_resume (the_flag kw "perturbation") 3 1 (the_tol kw) (ev_costs v) (perturb (the_eta kw)) n x). lia.
Qed.
Print Assumptions C56_exact_histories.

Theorem C57_exact_stop : forall St P Om U Z flow cost state perturb start kw (r : retval (item St P Om U Z)) cs ss ps u,
  ex_accepts kw -> exact_lie_optimizer flow cost state perturb RetState start kw = Ok r -> ex_result kw r cs ss ps u ->
  the_flag kw "perturbation" = false -> stop_rule 3 1 (Some (the_tol kw)) (the_steps kw) cs.
Proof.
  intros St P Om U Z flow cost state perturb start kw r cs ss ps u Ha E Hr Hf.
  destruct (ex_invert flow cost state perturb start kw r Ha E) as (n & v & u0 & a & _ & _ & _ & Hr' & Hst & _).
  destruct (ex_shape_inj kw r _ _ _ _ _ _ _ _ Hr Hr') as (-> & _). auto.
Qed.
Print Assumptions C57_exact_stop.

Theorem C58_exact_perturbations : forall St P Om U Z flow cost state perturb start kw (r : retval (item St P Om U Z)) cs ss ps u,
  ex_accepts kw -> exact_lie_optimizer flow cost state perturb RetState start kw = Ok r -> ex_result kw r cs ss ps u ->
  the_flag kw "perturbation" = true ->
  List.length cs = S (the_steps kw) /\ (the_flag kw "return_perturbations" = true -> perturbation_rule 3 1 (Some (the_tol kw)) (the_steps kw) cs ps).
Proof.
  intros St P Om U Z flow cost state perturb start kw r cs ss ps u Ha E Hr Hf.
  destruct (ex_invert flow cost state perturb start kw r Ha E) as (n & v & u0 & a & Ea & _ & (us & x & _ & _ & _ & _ & _ & _ & _ & Hp) & Hr' & _ & Hn & Hl & _).
  destruct (ex_shape_inj kw r _ _ _ _ _ _ _ _ Hr Hr') as (-> & _ & I3 & _). specialize (Hn Hf). subst n. split; [exact Hl|]. intros Hg. split; [exact Hl|].
  rewrite (I3 Hg), Hp, Ea. cbn [ex_perturbation ex_tol]. rewrite Hf. split; [apply sorted_filter|].
  intros s. rewrite filter_In, in_seq. split.
  - intros [[_ Hs] Hc]. split; [lia|]. apply crit_stalls; [lia|exact Hc].
  - intros [Hs Hc]. split; [lia|]. apply crit_stalls; [lia|exact Hc].
Qed.
Print Assumptions C58_exact_perturbations.

Theorem C60_exact_shape : forall St P Om U Z flow cost state perturb start kw (r : retval (item St P Om U Z)),
  ex_accepts kw -> exact_lie_optimizer flow cost state perturb RetState start kw = Ok r -> exists cs ss ps u, ex_result kw r cs ss ps u.
Proof.
  intros St P Om U Z flow cost state perturb start kw r Ha E. destruct (ex_invert flow cost state perturb start kw r Ha E) as (n & v & u0 & a & _ & _ & _ & Hr' & _). eauto 10.
Qed.
Print Assumptions C60_exact_shape.

(** approximate_lie_optimizer *)
Lemma ap_crit_stalls a cs s : S s < List.length cs -> (ap_crit a cs s = true <-> stalls 8 5 (ap_tol a) cs s).
Proof.
  intros H. unfold ap_crit. destruct (ap_tol a) as [t|]; [apply crit_stalls; exact H|]. split; [discriminate|]. intros (_ & t & x & y & Et & _). discriminate.
Qed.

Lemma ap_invert {St P Om U Z W} call su_state directions cost state perturb layers (w0 : W) start p0 kw (r : retval (item St P Om U Z)) : ap_accepts layers kw ->
  approximate_lie_optimizer call su_state directions cost state perturb RetState layers w0 start p0 kw = Ok r ->
  exists n v u0 a ls, the_layers layers ls /\ ls <> [] /\ a = mkap ls (the_steps kw) (the_eta kw) (the_opt_tol kw) (the_flag kw "return_state") (the_flag kw "return_omegas") (the_flag kw "return_unitary") (the_flag kw "return_gates")
             (the_flag kw "perturb") (the_flag kw "return_perturbations") (the_flag kw "return_zassenhaus") /\
    start = Ok u0 /\ ap_core call su_state directions cost state perturb a w0 u0 p0 n v /\
    ap_result kw r (av_costs v) (av_states v) (av_omegas v) (av_unitaries v) (av_perturbations v) (av_zas v) /\
    (the_flag kw "perturb" = false -> stop_rule 8 5 (the_opt_tol kw) (the_steps kw) (av_costs v)) /\
    (the_flag kw "perturb" = true -> n = the_steps kw) /\ List.length (av_costs v) = S n /\ 1 <= n <= the_steps kw.
Proof.
  intros Ha E. unfold approximate_lie_optimizer in E. destruct (ap_cases layers kw) as [[_ (ls & Hls & Ev)]|[Hn _]]; [|contradiction].
  rewrite Ev in E. cbn [bind] in E. set (a := mkap _ _ _ _ _ _ _ _ _ _ _) in *. destruct start as [u0|]; cbn [bind] in E; [|discriminate]. unfold ap_run in E.
  destruct (if ap_state a then _ else _) as [ss|] eqn:Es in E; cbn [bind] in E; [|discriminate].
  destruct (cost u0) as [c|] eqn:Ec; cbn [bind] in E; [|discriminate].
  destruct (for_range _ _ _ _) as [v|] eqn:Ef; cbn [bind] in E; [|discriminate].
  pose proof (steps_pos kw (proj1 (proj2 Ha))) as H1.
  assert (Hne : ap_layers a <> []).
  { intros H0. unfold a in Ef. cbn [ap_nsteps] in Ef. destruct (the_steps kw) as [|k] eqn:Ek; [lia|]. cbn [for_range] in Ef. unfold ap_body in Ef. unfold a in H0. cbn [ap_layers] in H0.
    cbn [ap_layers] in Ef. rewrite H0 in Ef. cbn in Ef. discriminate. }
  pose proof (ap_loop_spec call su_state directions cost state perturb a w0 u0 p0 Hne _ _ (ap_core_init call su_state directions cost state perturb a w0 u0 p0 c ss Ec Es) Ef) as L.
  assert (Hn : exists n, ap_core call su_state directions cost state perturb a w0 u0 p0 n v /\ 1 <= n <= the_steps kw /\ (the_flag kw "perturb" = true -> n = the_steps kw) /\
    (the_flag kw "perturb" = false -> (forall s, S s < n -> ap_crit a (av_costs v) s = false) /\ (n < the_steps kw -> ap_crit a (av_costs v) (n - 1) = true))).
  { destruct L as [[C N]|(j & Hj & C & Hp & i & -> & Hi & N)].
    - exists (the_steps kw). split; [exact C|]. split; [lia|]. split; [reflexivity|]. intros Hf. split; [intros s Hs; apply N; [exact Hf|cbn; lia]|lia].
    - exists (S i). split; [exact C|]. split; [exact Hj|]. split; [unfold a in Hp; cbn in Hp; congruence|]. intros _. split; [intros s Hs; apply N; lia|].
      intros _. replace (S i - 1) with i by lia. exact Hi. }
  destruct Hn as (n & C & Hn & N0 & N1). pose proof (ap_len call su_state directions cost state perturb a w0 u0 p0 n v C) as Hl.
  exists n, v, u0, a, ls. split; [exact Hls|]. split; [exact Hne|]. split; [reflexivity|]. split; [reflexivity|]. split; [exact C|]. split; [|split; [|split; [exact N0|split; [exact Hl|exact Hn]]]].
  - unfold ap_result. unfold a in E. cbn [ap_state ap_omegas ap_unitary ap_gates ap_perturbations ap_zassenhaus] in E.
    destruct (the_flag kw "return_state"), (the_flag kw "return_omegas"), (the_flag kw "return_unitary"), (the_flag kw "return_gates"), (the_flag kw "return_perturbations"), (the_flag kw "return_zassenhaus");
      cbn in E; injection E as <-; reflexivity.
  - intros Hf. destruct (N1 Hf) as (N2 & N3). exists n. split; [exact Hl|]. split; [exact Hn|]. split.
    + intros s Hs Hst. apply (ap_crit_stalls a) in Hst; [|lia]. rewrite N2 in Hst by exact Hs. discriminate.
    + intros Hs. apply (ap_crit_stalls a); [lia|]. apply N3. exact Hs.
Qed.

Lemma ap_shape_inj {St P Om U Z} kw (r : retval (item St P Om U Z)) cs ss os us ps zs cs' ss' os' us' ps' zs' : ap_result kw r cs ss os us ps zs -> ap_result kw r cs' ss' os' us' ps' zs' ->
  cs = cs' /\ (the_flag kw "return_state" = true -> ss = ss') /\ (the_flag kw "return_omegas" = true -> os = os') /\ (the_flag kw "return_unitary" = true -> us = us') /\
  (the_flag kw "return_perturbations" = true -> ps = ps') /\ (the_flag kw "return_zassenhaus" = true -> zs = zs').
Proof.
  unfold ap_result. intros -> E.
  destruct (the_flag kw "return_state"), (the_flag kw "return_omegas"), (the_flag kw "return_unitary"), (the_flag kw "return_gates"), (the_flag kw "return_perturbations"), (the_flag kw "return_zassenhaus");
    cbn in E; injection E; intros; subst; repeat split; intros; congruence.
Qed.

(** a configuration: the layer objects, the circuit unitary, the parameters *)
Definition objects {W U P : Type} (x : W * U * P) : W := fst (fst x).
Definition unitary_of {W U P : Type} (x : W * U * P) : U := snd (fst x).
Definition params_of {W U P : Type} (x : W * U * P) : P := snd x.

(** entry k of the lists belongs to the k-th configuration, which layer k-1 mod
    len(layers) produced from the configuration before; omegas are the directions
    of that layer at the circuit it produced, labels are those before its call *)
Theorem C56_C59_approximate_histories : forall St P Om U Z W call su_state directions cost state perturb layers (w0 : W) start p0 kw (r : retval (item St P Om U Z)) cs ss os us ps zs,
  ap_accepts layers kw -> approximate_lie_optimizer call su_state directions cost state perturb RetState layers w0 start p0 kw = Ok r -> ap_result kw r cs ss os us ps zs ->
  exists confs u0 n ls, layers = AList (map Some ls) /\ start = Ok u0 /\ nth_error confs 0 = Some (w0, u0, p0) /\ List.length confs = S n /\ 1 <= n <= the_steps kw /\
    chain (fun k x y => exists u' layer, restart (the_flag kw "perturb") 8 5 (the_opt_tol kw) cs (perturb (the_eta kw)) k (unitary_of x) u' /\
             nth_error ls (k mod List.length ls) = Some layer /\ call layer (objects x) u' (params_of x) = Ok (unitary_of y, params_of y, objects y) /\
             (the_flag kw "return_omegas" = true -> exists o, nth_error os k = Some o /\ directions layer (objects y) (unitary_of y) = Ok o) /\
             (the_flag kw "return_zassenhaus" = true -> exists z, nth_error zs k = Some z /\ su_state layer (objects x) = Ok z)) confs /\
    Forall2 (fun x c => cost (unitary_of x) = Ok c) confs cs /\
    (the_flag kw "return_state" = true -> Forall2 (fun x s => state (unitary_of x) = Ok s) confs ss) /\
    (the_flag kw "return_unitary" = true -> us = map unitary_of confs) /\
    (the_flag kw "return_omegas" = true -> List.length os = n) /\ (the_flag kw "return_zassenhaus" = true -> List.length zs = n).
Proof.
  intros St P Om U Z W call su_state directions cost state perturb layers w0 start p0 kw r cs ss os us ps zs Ha E Hr.
  destruct (ap_invert call su_state directions cost state perturb layers w0 start p0 kw r Ha E) as (n & v & u0 & a & ls & Hls & Hne & Ea & Est & C & Hr' & _ & _ & Hn & Hn').
  destruct (ap_shape_inj kw r _ _ _ _ _ _ _ _ _ _ _ _ Hr Hr') as (-> & I2 & I3 & I4 & _ & I6).
  destruct C as (xs & x & Hl & H0 & Hx & Hw & Hu & Hpar & Hrest & Hd & Hc & Hs & Hun & Hom & Hz & Hp). exists xs, u0, n, ls.
  assert (Hos : the_flag kw "return_omegas" = true -> List.length os = n /\ forall k o y, nth_error os k = Some o -> nth_error xs (S k) = Some y -> directions (ap_layer a k) (c_w y) (c_u y) = Ok o).
  { intros Hf. rewrite Ea in Hom. cbn [ap_omegas] in Hom. rewrite Hf in Hom. rewrite (I3 Hf), Ea. exact Hom. }
  assert (Hzs : the_flag kw "return_zassenhaus" = true -> List.length zs = n /\ forall k z y, nth_error zs k = Some z -> nth_error xs k = Some y -> su_state (ap_layer a k) (c_w y) = Ok z).
  { intros Hf. rewrite Ea in Hz. cbn [ap_zassenhaus] in Hz. rewrite Hf in Hz. rewrite (I6 Hf), Ea. exact Hz. }
  split; [exact Hls|]. split; [exact Est|]. split; [exact H0|]. split; [exact Hl|]. split; [exact Hn'|]. split; [|split; [exact Hc|split; [|split; [|split; [intros Hf; apply Hos, Hf|intros Hf; apply Hzs, Hf]]]]].
  - intros k y z E1 E2. assert (Hk : S k < List.length xs) by (apply nth_error_Some; congruence). exists (ap_resume perturb a (av_costs v) k (c_u y)), (ap_layer a k). split; [|split; [|split; [|split]]].
    + unfold ap_resume. rewrite Ea. cbn [ap_perturb ap_eta]. destruct k as [|j]; [reflexivity|]. cbn [restart].
      pose proof (ap_crit_stalls a (av_costs v) j ltac:(lia)) as Cs. rewrite Ea in Cs. cbn [ap_tol] in Cs.
      destruct (the_flag kw "perturb"); cbn [andb]; [|right; split; [intros [? _]; discriminate|reflexivity]].
      destruct (ap_crit _ (av_costs v) j); [left|right].
      * split; [reflexivity|]. split; [apply Cs; reflexivity|reflexivity].
      * split; [|reflexivity]. intros [_ Hst]. apply Cs in Hst. discriminate.
    + unfold ap_layer. rewrite Ea. cbn [ap_layers]. apply nth_error_nth'. apply Nat.mod_upper_bound. destruct ls; [congruence|discriminate].
    + exact (Hd k y z E1 E2).
    + intros Hf. destruct (Hos Hf) as (L & D). destruct (nth_error os k) as [o|] eqn:Eo; [|apply nth_error_None in Eo; lia]. exists o. split; [reflexivity|]. exact (D k o z Eo E2).
    + intros Hf. destruct (Hzs Hf) as (L & D). destruct (nth_error zs k) as [o|] eqn:Eo; [|apply nth_error_None in Eo; lia]. exists o. split; [reflexivity|]. exact (D k o y Eo E1).
  - intros Hf. rewrite (I2 Hf). rewrite Ea in Hs. cbn [ap_state] in Hs. rewrite Hf in Hs. exact Hs.
  - intros Hf. rewrite (I4 Hf), Hun, Ea. cbn [ap_unitary]. rewrite Hf. reflexivity.
Qed.
Print Assumptions C56_C59_approximate_histories.

Theorem C57_approximate_stop : forall St P Om U Z W call su_state directions cost state perturb layers (w0 : W) start p0 kw (r : retval (item St P Om U Z)) cs ss os us ps zs,
  ap_accepts layers kw -> approximate_lie_optimizer call su_state directions cost state perturb RetState layers w0 start p0 kw = Ok r -> ap_result kw r cs ss os us ps zs ->
  the_flag kw "perturb" = false ->
  stop_rule 8 5 (the_opt_tol kw) (the_steps kw) cs /\ (arg kw "tol" = Some PyNone -> List.length cs = S (the_steps kw)) /\
  (the_flag kw "return_perturbations" = true -> ps = []).
Proof.
  intros St P Om U Z W call su_state directions cost state perturb layers w0 start p0 kw r cs ss os us ps zs Ha E Hr Hf.
  destruct (ap_invert call su_state directions cost state perturb layers w0 start p0 kw r Ha E) as (n & v & u0 & a & ls & _ & _ & Ea & _ & C & Hr' & Hst & _ & Hn & Hn').
  destruct (ap_shape_inj kw r _ _ _ _ _ _ _ _ _ _ _ _ Hr Hr') as (-> & _ & _ & _ & I5 & _). specialize (Hst Hf). split; [exact Hst|]. split.
  - intros Ht. destruct Hst as (m & Hm & Hm' & _ & S2). destruct (Nat.eq_dec m (the_steps kw)) as [->|Hne]; [exact Hm|].
    destruct S2 as (_ & t & x & y & Et & _); [lia|]. unfold the_opt_tol in Et. rewrite Ht in Et. discriminate.
  - intros Hg. destruct C as (xs & x & _ & _ & _ & _ & _ & _ & _ & _ & _ & _ & _ & _ & _ & Hp). rewrite (I5 Hg), Hp, Ea. cbn [ap_perturb]. rewrite Hf. reflexivity.
Qed.
Print Assumptions C57_approximate_stop.

Theorem C58_approximate_perturbations : forall St P Om U Z W call su_state directions cost state perturb layers (w0 : W) start p0 kw (r : retval (item St P Om U Z)) cs ss os us ps zs,
  ap_accepts layers kw -> approximate_lie_optimizer call su_state directions cost state perturb RetState layers w0 start p0 kw = Ok r -> ap_result kw r cs ss os us ps zs ->
  the_flag kw "perturb" = true ->
  List.length cs = S (the_steps kw) /\ (the_flag kw "return_perturbations" = true -> perturbation_rule 8 5 (the_opt_tol kw) (the_steps kw) cs ps).
Proof.
  intros St P Om U Z W call su_state directions cost state perturb layers w0 start p0 kw r cs ss os us ps zs Ha E Hr Hf.
  destruct (ap_invert call su_state directions cost state perturb layers w0 start p0 kw r Ha E) as (n & v & u0 & a & ls & _ & _ & Ea & _ & C & Hr' & _ & Hn & Hl & _).
  destruct (ap_shape_inj kw r _ _ _ _ _ _ _ _ _ _ _ _ Hr Hr') as (-> & _ & _ & _ & I5 & _). specialize (Hn Hf). subst n. split; [exact Hl|]. intros Hg. split; [exact Hl|].
  destruct C as (xs & x & _ & _ & _ & _ & _ & _ & _ & _ & _ & _ & _ & _ & _ & Hp). assert (Hpa : ap_perturb a = true) by (rewrite Ea; exact Hf). rewrite (I5 Hg), Hp, Hpa. split; [apply sorted_filter|].
  intros s. rewrite filter_In, in_seq. split.
  - intros [[_ Hs] Hc]. split; [lia|]. apply ap_crit_stalls in Hc; [|lia]. rewrite Ea in Hc. exact Hc.
  - intros [Hs Hc]. split; [lia|]. apply ap_crit_stalls; [lia|]. rewrite Ea. exact Hc.
Qed.
Print Assumptions C58_approximate_perturbations.

(** an empty list of layers ends the first step with StopIteration *)
Theorem C59_no_layers : forall St P Om U Z W call su_state directions cost state perturb (w0 : W) u0 p0 kw,
  ap_accepts (AList []) kw -> ap_total call su_state directions cost state ->
  approximate_lie_optimizer (St := St) (P := P) (Om := Om) (U := U) (Z := Z) call su_state directions cost state perturb RetState (AList []) w0 (Ok u0) p0 kw = Err StopIteration.
Proof.
  intros St P Om U Z W call su_state directions cost state perturb w0 u0 p0 kw Ha (_ & _ & _ & T4 & T5). unfold approximate_lie_optimizer.
  destruct (ap_cases (AList []) kw) as [[_ (ls & Hls & Ev)]|[Hn _]]; [|contradiction]. rewrite Ev. cbn [bind]. unfold ap_run. cbn [ap_state ap_unitary ap_nsteps].
  assert (ls = []) as ->. { unfold the_layers in Hls. injection Hls as H. destruct ls; [reflexivity|discriminate]. }
  destruct (T4 u0) as (c & Ec). destruct (T5 u0) as (s & Es). rewrite Es, Ec. pose proof (steps_pos kw (proj1 (proj2 Ha))) as H1. destruct (the_steps kw) as [|k]; [lia|].
  destruct (the_flag kw "return_state"); reflexivity.
Qed.
Print Assumptions C59_no_layers.

Theorem C60_approximate_shape : forall St P Om U Z W call su_state directions cost state perturb layers (w0 : W) start p0 kw (r : retval (item St P Om U Z)),
  ap_accepts layers kw -> approximate_lie_optimizer call su_state directions cost state perturb RetState layers w0 start p0 kw = Ok r -> exists cs ss os us ps zs, ap_result kw r cs ss os us ps zs.
Proof.
  intros St P Om U Z W call su_state directions cost state perturb layers w0 start p0 kw r Ha E.
  destruct (ap_invert call su_state directions cost state perturb layers w0 start p0 kw r Ha E) as (n & v & u0 & a & ls & _ & _ & _ & _ & _ & Hr' & _). eauto 12.
Qed.
Print Assumptions C60_approximate_shape.

(** A flow on a constant cost: without perturbation it stops in step 4 with six
    costs; with perturbation it runs all seven steps and perturbs in 4, 5 and 6. *)
Definition idle_flow (_ : R) (u : nat) : res nat := Ok u.
Definition flat_cost (_ : nat) : res R := Ok 0%R.
Definition flat_state (u : nat) : res nat := Ok u.
Definition bump (_ : R) (s u : nat) : nat := S u.

Lemma flat_costs (us : list nat) cs : Forall2 (fun u c => flat_cost u = Ok c) us cs -> Forall (eq 0%R) cs.
Proof. induction 1 as [|u c us cs H _ IH]; constructor; [unfold flat_cost in H; congruence|exact IH]. Qed.
Lemma flat_stalls (cs : list R) warm lag t s : Forall (eq 0%R) cs -> (0 <= t)%R -> S s < List.length cs -> warm < s -> stalls warm lag (Some (Fin t)) cs s.
Proof.
  intros H Ht Hs Hw. split; [exact Hw|]. assert (Z0 : forall k x, nth_error cs k = Some x -> 0%R = x).
  { intros k x E. apply nth_error_In in E. rewrite Forall_forall in H. auto. }
  destruct (nth_error cs (S s)) as [x|] eqn:Ex; [|apply nth_error_None in Ex; lia]. destruct (nth_error cs (S s - lag)) as [y|] eqn:Ey; [|apply nth_error_None in Ey; lia].
  exists (Fin t), x, y. split; [reflexivity|]. split; [reflexivity|]. split; [reflexivity|]. rewrite <- (Z0 _ _ Ex), <- (Z0 _ _ Ey). cbn. replace (0 - 0)%R with 0%R by ring. rewrite Rabs_R0. lra.
Qed.

Example C57_case : exists r : retval (item nat nat nat nat nat), exact_lie_optimizer idle_flow flat_cost flat_state bump RetState (Ok 9) [] = Ok r /\
  exists cs, r = RList cs /\ List.length cs = 6.
Proof.
  assert (Ha : ex_accepts []) by (unfold ex_accepts, allowed, arg; cbn; repeat split; intros; discriminate).
  destruct (proj1 (C53_exact_arguments nat nat nat nat nat RetState []) (conj eq_refl Ha) idle_flow flat_cost flat_state bump 9) as (r & Er).
  { intros e u. exists u. reflexivity. } { intros u. eexists. reflexivity. } { intros u. eexists. reflexivity. }
  exists r. split; [exact Er|]. destruct (C60_exact_shape _ _ _ _ _ _ _ _ _ _ _ r Ha Er) as (cs & ss & ps & u & Hr). exists cs. split; [exact Hr|].
  destruct (C57_exact_stop _ _ _ _ _ _ _ _ _ _ _ r cs ss ps u Ha Er Hr eq_refl) as (n & Hl & Hn & H1 & H2).
  destruct (C56_exact_histories _ _ _ _ _ _ _ _ _ _ _ r cs ss ps u Ha Er Hr) as (us & u0 & m & _ & _ & _ & _ & _ & Hc & _). apply flat_costs in Hc.
  change (the_steps []) with 40 in *. change (the_tol []) with (Fin (/ 1000)) in *.
  assert (n < 6). { destruct (Nat.lt_ge_cases n 6) as [H|H]; [exact H|]. exfalso. apply (H1 4); [lia|]. apply flat_stalls; [exact Hc|lra|lia|lia]. }
  destruct (H2 ltac:(lia)) as (H3 & _). lia.
Qed.

Example C58_case : let kw := [("nsteps", PyInt 7); ("perturbation", PyBool true); ("return_perturbations", PyBool true)] in
  exists cs, exact_lie_optimizer (P := nat) (Om := nat) (Z := nat) idle_flow flat_cost flat_state bump RetState (Ok 9) kw = Ok (RTuple [ItCosts cs; ItPerturbations [4; 5; 6]]) /\ List.length cs = 8.
Proof.
  intros kw. assert (Ha : ex_accepts kw) by (apply C53_case).
  destruct (proj1 (C53_exact_arguments nat nat nat nat nat RetState kw) (conj eq_refl Ha) idle_flow flat_cost flat_state bump 9) as (r & Er).
  { intros e u. exists u. reflexivity. } { intros u. eexists. reflexivity. } { intros u. eexists. reflexivity. }
  destruct (C60_exact_shape _ _ _ _ _ _ _ _ _ _ _ r Ha Er) as (cs & ss & ps & u & Hr). exists cs.
  destruct (C58_exact_perturbations _ _ _ _ _ _ _ _ _ _ _ r cs ss ps u Ha Er Hr eq_refl) as (Hl & Hp). destruct (Hp eq_refl) as (_ & Hsort & Hin).
  destruct (C56_exact_histories _ _ _ _ _ _ _ _ _ _ _ r cs ss ps u Ha Er Hr) as (us & u0 & m & _ & _ & _ & _ & _ & Hc & _). apply flat_costs in Hc.
  change (the_steps kw) with 7 in *. change (the_tol kw) with (Fin (/ 1000)) in *. split; [|exact Hl].
  assert (Hin' : forall s, In s ps <-> 4 <= s < 7).
  { intros s. rewrite Hin. split; [intros [H1 (H2 & _)]; lia|]. intros Hs. split; [lia|]. apply flat_stalls; [exact Hc|lra|lia|lia]. }
  assert (ps = [4; 5; 6]) as ->. 2: { rewrite Er, Hr. reflexivity. }
  assert (U : forall l l' : list nat, StronglySorted lt l -> StronglySorted lt l' -> (forall s, In s l <-> In s l') -> l = l').
  { intros l. induction l as [|x l IH]; intros [|y l'] S1 S2 H; [reflexivity|exfalso; apply (proj2 (H y)); left; reflexivity|exfalso; apply (proj1 (H x)); left; reflexivity|].
    inversion S1 as [|? ? S1' F1]; subst. inversion S2 as [|? ? S2' F2]; subst. rewrite Forall_forall in F1, F2.
    assert (x = y). { destruct (proj1 (H x) (or_introl eq_refl)) as [->|Hx]; [reflexivity|]. destruct (proj2 (H y) (or_introl eq_refl)) as [->|Hy]; [reflexivity|]. specialize (F1 _ Hy). specialize (F2 _ Hx). lia. }
    subst y. f_equal. apply IH; auto. intros s. specialize (H s). simpl in H. split; intros Hs.
    - destruct (proj1 H (or_intror Hs)) as [<-|?]; [specialize (F1 _ Hs); lia|assumption].
    - destruct (proj2 H (or_intror Hs)) as [<-|?]; [specialize (F2 _ Hs); lia|assumption]. }
  apply U; [exact Hsort|repeat constructor|]. intros s. rewrite Hin'. simpl. lia.
Qed.

(** two layers that append their number: the layers alternate *)
Example C59_case : let kw := [("nsteps", PyInt 3); ("tol", PyNone); ("return_unitary", PyBool true)] in
  let call l (w : unit) (u : list nat) (p : unit) := Ok (u ++ [l], p, w) in
  approximate_lie_optimizer call (fun _ _ => Ok tt) (fun _ _ _ => Ok tt) (fun u => Ok (INR (List.length u))) (fun u => Ok u) (fun _ _ u => u) RetState (AList [Some 5; Some 6]) tt (Ok []) tt kw =
    Ok (RTuple [ItCosts [INR 0; INR 1; INR 2; INR 3]; ItUnitaries [[]; [5]; [5; 6]; [5; 6; 5]]]).
Proof.
  intros kw call. assert (Ha : ap_accepts (AList [Some 5; Some 6]) kw).
  { unfold ap_accepts, allowed, arg. cbn. split; [exists [5; 6]; reflexivity|]. split; [intros v H; injection H as <-; right; exists 3%Z; split; [reflexivity|lia]|]. split; [intros v H; discriminate|].
    split; [intros v H; injection H as <-; left; reflexivity|]. split; [intros v H; discriminate|].
    intros name Hin v H. simpl in Hin. intuition; subst; cbn in H; try discriminate. injection H as <-. eexists. reflexivity. }
  unfold approximate_lie_optimizer. destruct (ap_cases (AList [Some 5; Some 6]) kw) as [[_ (ls & Hls & Ev)]|[Hn _]]; [|contradiction]. rewrite Ev.
  assert (ls = [5; 6]) as ->. { unfold the_layers in Hls. injection Hls as H. destruct ls as [|x [|y [|z l]]]; try discriminate. simpl in H. congruence. }
  reflexivity.
Qed.
