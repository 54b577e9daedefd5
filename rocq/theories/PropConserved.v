(** Property C102: exact_lie_optimizer conserves what commutes with the observables. *)
From Coq Require Import ZArith Arith Lia Bool String Reals Lra Ring Setoid Morphisms Classical.
From Coquelicot Require Import Coquelicot.
From Verif Require Import Py StarRing Matrix Cplx Bits Expm MDeriv UtilsModel CircuitModel CircuitProofs CircuitProofs2 LayerModel LayerProofs OptimizerModel OptProofs RotoProofs
  FlowModel FlowProofs FlowProofs2 FlowMany PropLayers PropGreedy PropOptArgs PropOptRun PropFlow PropMany PropSpectrum.
From Coq Require Import List.
Import ListNotations.
Local Open Scope nat_scope.
Local Open Scope list_scope.

(** ** Specification *)

(** A commutes with the matrices of the observables on n qubits *)
Definition commutes (n : nat) (obs : list (qop C)) (A : mat C) : Prop :=
  forall o F, In o obs -> embedded n o F -> meq (2 ^ n) (mmul (2 ^ n) A (a_ent F)) (mmul (2 ^ n) (a_ent F) A).

(** ** C102 *)

Lemma step_conserves eigh n eta u o A a : fits n o -> pauli_type o -> eigh_correct (2 ^ n) eigh -> unitary2 (2 ^ n) u -> commutes n [o] A ->
  has_value (2 ^ n) A a (qnode_state u) -> exists u', flow_step eigh n eta u o = Ok u' /\ unitary2 (2 ^ n) u' /\ has_value (2 ^ n) A a (qnode_state u').
Proof.
  intros Hf Hp He Hu Hc Ha. destruct (flow_is eigh n eta u o Hf Hp He Hu) as (F & u' & EF & HE & _ & Es & Hu' & St). cbv zeta in St.
  exists u'. split; [exact Es|]. split; [exact Hu'|]. pose proof (Hc o F (or_introl eq_refl) HE) as HcF. set (d := 2 ^ n) in *. set (phi := qnode_state u) in *.
  set (x := (cos _ + _)%R) in St. set (g := (- _)%R) in St. assert (Hv : veq d (mv d A phi) (fun i => Cmult (RtoC a) (phi i))) by exact Ha.
  assert (HF : veq d (mv d A (mv d (a_ent F) phi)) (fun i => Cmult (RtoC a) (mv d (a_ent F) phi i))).
  { intros i Hi. rewrite <- mv_mul. rewrite (mv_ext d _ _ phi phi HcF (veq_refl d phi) i Hi), mv_mul, (mv_veq d _ _ _ Hv i Hi), mv_scale. reflexivity. }
  intros i Hi. change (mv d A (qnode_state u') i = Cmult (RtoC a) (qnode_state u' i)). rewrite (mv_veq d A _ _ St i Hi), (St i Hi), mv_add, !mv_scale, (Hv i Hi), (HF i Hi). ring.
Qed.

(** One call of the flow, for observables whose squares are the identity: if the state
    is an eigenvector of an A that commutes with all the observables, it still is one
    after the step, for the same eigenvalue. *)
Theorem C102_step : forall n obs eigh eta A a u, Forall (fits n) obs -> Forall pauli_type obs -> eigh_correct (2 ^ n) eigh -> unitary2 (2 ^ n) u -> commutes n obs A ->
  has_value (2 ^ n) A a (fun i => u i 0) -> exists u', exact_flow eigh n obs eta u = Ok u' /\ unitary2 (2 ^ n) u' /\ has_value (2 ^ n) A a (fun i => u' i 0).
Proof.
  intros n obs eigh eta A a u Hf Hp He. revert u Hp. induction Hf as [|o obs Ho Hf IH]; intros u Hp Hu Hc Ha; [exists u; auto|].
  destruct (step_conserves eigh n eta u o A a Ho (Forall_inv Hp) He Hu) as (v & Ev & Hv & Hva); [intros o' F [<-|[]]; apply Hc; left; reflexivity|exact Ha|].
  destruct (IH v (Forall_inv_tail Hp) Hv) as (u' & E & Hu' & Hua); [intros o' F Hin; apply Hc; right; exact Hin|exact Hva|].
  exists u'. unfold exact_flow in *. cbn [foldM]. rewrite Ev. cbn [bind]. auto.
Qed.
Print Assumptions C102_step.

(** A whole run without perturbations: the states stay eigenvectors, so every cost is the
    energy of a state of that eigenspace; what the eigenspace does not allow is not
    reached. *)
Theorem C102_run : forall P Om Z n gates obs eigh random kw (r : retval (item (nat -> C) P Om (mat C) Z)) cs ss ps u A a U,
  Forall (unitary_gate n) gates -> Forall (fits n) obs -> Forall pauli_type obs -> eigh_correct (2 ^ n) eigh -> ex_accepts kw -> the_flag kw "perturbation" = false ->
  exact_optimizer eigh random n gates obs RetState kw = Ok r -> ex_result kw r cs ss ps u ->
  circuit_unitary n gates = Ok U -> commutes n obs A -> has_value (2 ^ n) A a (fun i => a_ent U i 0) ->
  (the_flag kw "return_state" = true -> Forall (has_value (2 ^ n) A a) ss) /\
  (the_flag kw "return_unitary" = true -> has_value (2 ^ n) A a (fun i => u i 0)) /\
  exists circuits, Forall2 (fun w c => unitary2 (2 ^ n) w /\ has_value (2 ^ n) A a (fun i => w i 0) /\ exact_cost n obs w = Ok c) circuits cs.
Proof.
  intros P Om Z n gates obs eigh random kw r cs ss ps u A a U Hg Hf Hp He Ha Hpert E Hr EU Hc HU. unfold exact_optimizer in E.
  destruct (C56_exact_histories _ _ _ _ _ _ _ _ _ _ _ _ _ _ _ _ Ha E Hr) as (circuits & u0 & m & E0 & H0 & Hl & Hm & Hch & Hcost & Hst & Hun).
  rewrite EU in E0. cbn [bind] in E0. assert (u0 = a_ent U) as -> by congruence.
  destruct (start_unitary n gates Hg) as (U' & EU' & HU'). rewrite EU in EU'. injection EU' as <-. rewrite Hpert in Hch, Hun.
  assert (Hk : forall k w, nth_error circuits k = Some w -> unitary2 (2 ^ n) w /\ has_value (2 ^ n) A a (fun i => w i 0)).
  { induction k as [|k IH]; intros w Ew; [rewrite H0 in Ew; assert (w = a_ent U) as -> by congruence; auto|].
    destruct (nth_error circuits k) as [v|] eqn:Ev; [|apply nth_error_None in Ev; assert (S k < List.length circuits) by (apply nth_error_Some; congruence); lia].
    destruct (IH v eq_refl) as [Hv Hva]. specialize (Hch k v w Ev Ew). cbn beta in Hch. destruct Hch as (x & Hx & Hw).
    assert (x = v) as -> by (destruct k; cbn [restart] in Hx; [exact Hx|destruct Hx as [(B & _)|(_ & Q)]; [discriminate|exact Q]]).
    destruct (C102_step n obs eigh (the_eta kw) A a v Hf Hp He Hv Hc Hva) as (w' & Ew' & Hw' & Hwa). rewrite Hw in Ew'. assert (w' = w) as -> by congruence. auto. }
  split; [|split].
  - intros Hs. specialize (Hst Hs). apply Forall_forall. intros s Hin. apply In_nth_error in Hin. destruct Hin as (k & Ek).
    assert (Q : exists w, nth_error circuits k = Some w /\ s = qnode_state w).
    { clear - Hst Ek. revert k Ek. induction Hst as [|w s' cw ss E _ IH]; intros [|k] Ek; try discriminate; cbn in Ek |- *; [exists w; split; [reflexivity|congruence]|apply IH; exact Ek]. }
    destruct Q as (w & Ew & ->). apply (Hk k w Ew).
  - intros Hs. destruct (Hun Hs) as (x & Hx & Hre). assert (u = x) as -> by (destruct m; cbn [restart] in Hre; [exact Hre|destruct Hre as [(B & _)|(_ & Q)]; [discriminate|exact Q]]). apply (Hk m x Hx).
  - exists circuits. clear - Hcost Hk. induction Hcost as [|w c cw cc E _ IH]; constructor; [|apply IH; intros k v Ev; exact (Hk (S k) v Ev)]. destruct (Hk 0 w eq_refl). auto.
Qed.
Print Assumptions C102_run.
