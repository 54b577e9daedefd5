(** Proofs about the loops of OptimizerModel.v *)
From Coq Require Import ZArith Arith Lia Bool String Reals Lra.
From Coquelicot Require Import Coquelicot.
From Verif Require Import Py UtilsModel CircuitModel LayerModel OptimizerModel.
From Coq Require Import List.
Import ListNotations.
Local Open Scope nat_scope.

Lemma Forall2_snoc {A B} (P : A -> B -> Prop) l m x y : Forall2 P l m -> P x y -> Forall2 P (l ++ [x]) (m ++ [y]).
Proof. intros H1 H2. apply Forall2_app; auto. Qed.
Lemma Forall2_length' {A B} (P : A -> B -> Prop) l m : Forall2 P l m -> List.length l = List.length m.
Proof. induction 1; simpl; auto. Qed.

Lemma nth_error_snoc {A} (l : list A) x k y : nth_error (l ++ [x]) k = Some y -> (k < List.length l /\ nth_error l k = Some y) \/ (k = List.length l /\ y = x).
Proof.
  intros H. destruct (Nat.lt_ge_cases k (List.length l)) as [Hk|Hk].
  - rewrite nth_error_app1 in H by auto. auto.
  - rewrite nth_error_app2 in H by auto. destruct (k - List.length l) as [|j] eqn:E; simpl in H.
    + injection H as <-. right. split; [lia|reflexivity].
    + destruct j; discriminate.
Qed.

(** l[-k] *)
Lemma from_end_nth {A} (l : list A) k d : 1 <= k <= List.length l -> from_end l k = Ok (nth (List.length l - k) l d).
Proof.
  intros H. unfold from_end, list_get.
  assert (E : nth_error (rev l) (k - 1) = Some (nth (k - 1) (rev l) d)) by (apply nth_error_nth'; rewrite rev_length; lia).
  rewrite E. f_equal. rewrite rev_nth by lia. f_equal. lia.
Qed.

(** the criterion for stopping at a step *)
Definition crit (warm lag : nat) (tol : flt) (cs : list R) (s : nat) : bool :=
  (warm <? s) && isclose tol (nth (S s) cs 0%R) (nth (S s - lag) cs 0%R).

Lemma crit_app warm lag tol cs c s : S s < List.length cs -> crit warm lag tol (cs ++ [c]) s = crit warm lag tol cs s.
Proof. intros H. unfold crit. rewrite !app_nth1 by lia. reflexivity. Qed.


(** ** Loops *)
Lemma for_range_spec {V} (body : nat -> V -> res (V * bool)) (Inv Stop : nat -> V -> Prop) :
  (forall i v v', Inv i v -> body i v = Ok (v', false) -> Inv (S i) v') ->
  (forall i v v', Inv i v -> body i v = Ok (v', true) -> Stop (S i) v') ->
  forall k i v v', Inv i v -> for_range body i k v = Ok v' -> Inv (i + k) v' \/ exists j, i < j <= i + k /\ Stop j v'.
Proof.
  intros H1 H2. induction k as [|k IH]; intros i v v' Hi E; cbn [for_range] in E.
  - injection E as <-. left. rewrite Nat.add_0_r. exact Hi.
  - destruct (body i v) as [[w b]|] eqn:Eb; cbn [bind fst snd] in E; [|discriminate]. destruct b.
    + injection E as <-. right. exists (S i). split; [lia|]. eapply H2; eauto.
    + destruct (IH (S i) w v' (H1 _ _ _ Hi Eb) E) as [H|(j & Hj & H)].
      * left. replace (i + S k) with (S i + k) by lia. exact H.
      * right. exists j. split; [lia|exact H].
Qed.

(** a loop whose body never raises on states satisfying the invariant *)
Lemma for_range_total {V} (body : nat -> V -> res (V * bool)) (Inv : nat -> V -> Prop) :
  (forall i v, Inv i v -> exists r, body i v = Ok r) ->
  (forall i v v', Inv i v -> body i v = Ok (v', false) -> Inv (S i) v') ->
  forall k i v, Inv i v -> exists v', for_range body i k v = Ok v'.
Proof.
  intros H1 H2. induction k as [|k IH]; intros i v Hi; cbn [for_range]; [eauto|].
  destruct (H1 i v Hi) as ([w b] & E). rewrite E. cbn [bind fst snd]. destruct b; [eauto|]. apply IH. eapply H2; eauto.
Qed.

(** ** parameter_shift_optimizer *)
Section PS.
Context {St P : Type}.
Variables (descend : R -> P -> res P) (cost : P -> res R) (state : P -> res St) (a : ps_args) (p0 : P).
Notation K := (crit 2 1 (ps_tol a)).

Definition ps_core (i : nat) (v : ps_vars) : Prop := exists ps,
  List.length ps = S i /\ nth_error ps 0 = Some p0 /\ nth_error ps i = Some (pv_params v) /\
  (forall k p p', nth_error ps k = Some p -> nth_error ps (S k) = Some p' -> descend (ps_eta a) p = Ok p') /\
  Forall2 (fun p c => cost p = Ok c) ps (pv_costs v) /\
  (if ps_state a then Forall2 (fun p s => state p = Ok s) ps (pv_states v) else pv_states v = []) /\
  pv_pps v = (if truthy (ps_params a) then ps else []).

Lemma ps_core_init c (ss : list St) : cost p0 = Ok c -> (if ps_state a then do s <- state p0; Ok [s] else Ok []) = Ok ss ->
  ps_core 0 (mkpsv p0 [c] ss (if truthy (ps_params a) then [p0] else [])).
Proof.
  intros Ec Es. exists [p0]. cbn [pv_params pv_costs pv_states pv_pps]. split; [reflexivity|]. split; [reflexivity|]. split; [reflexivity|]. split.
  { intros [|[|k]] p p' H1 H2; discriminate. }
  split; [constructor; auto|]. split; [|destruct (truthy _); reflexivity].
  destruct (ps_state a); [|congruence]. destruct (state p0) as [s|] eqn:E; cbn [bind] in Es; [|discriminate]. injection Es as <-. constructor; auto.
Qed.

Lemma ps_body_core i v v' b : ps_core i v -> ps_body descend cost state a i v = Ok (v', b) ->
  ps_core (S i) v' /\ b = K (pv_costs v') i /\ exists c, pv_costs v' = pv_costs v ++ [c].
Proof.
  intros (ps & Hl & H0 & Hp & Hd & Hc & Hs & Hq) E. unfold ps_body in E.
  destruct (descend (ps_eta a) (pv_params v)) as [p|] eqn:Ed; cbn [bind] in E; [|discriminate].
  destruct (cost p) as [c|] eqn:Ec; cbn [bind] in E; [|discriminate].
  destruct (if ps_state a then _ else _) as [ss|] eqn:Es in E; cbn [bind] in E; [|discriminate].
  assert (C : forall v', v' = mkpsv p (pv_costs v ++ [c]) ss (if truthy (ps_params a) then pv_pps v ++ [p] else pv_pps v) -> ps_core (S i) v').
  { intros w ->. exists (ps ++ [p]). cbn [pv_params pv_costs pv_states pv_pps]. rewrite app_length. cbn [List.length]. split; [lia|].
    split; [rewrite nth_error_app1 by lia; exact H0|]. split; [rewrite nth_error_app2, <- Hl, Nat.sub_diag by lia; reflexivity|].
    split; [|split; [apply Forall2_snoc; auto|split]].
    - intros k q q' E1 E2. apply nth_error_snoc in E2. destruct E2 as [[Hk E2]|[Hk ->]].
      + rewrite nth_error_app1 in E1 by lia. eapply Hd; eauto.
      + rewrite nth_error_app1 in E1 by lia. assert (k = i) by lia. subst k. congruence.
    - destruct (ps_state a); [|congruence]. destruct (state p) as [s|] eqn:E'; cbn [bind] in Es; [|discriminate]. injection Es as <-. apply Forall2_snoc; auto.
    - rewrite Hq. destruct (truthy (ps_params a)); reflexivity. }
  assert (Hlen : List.length (pv_costs v) = S i) by (apply Forall2_length' in Hc; congruence).
  destruct (2 <? i) eqn:Ei.
  - rewrite (from_end_nth _ 1 0%R), (from_end_nth _ 2 0%R) in E by (rewrite app_length; simpl; apply Nat.ltb_lt in Ei; lia). cbn [bind] in E.
    injection E as <- <-. split; [apply C; reflexivity|]. cbn [pv_costs]. split; [|eauto]. unfold crit. rewrite Ei. cbn [andb].
    rewrite app_length, Hlen. cbn [List.length]. f_equal; f_equal; lia.
  - injection E as <- <-. split; [apply C; reflexivity|]. cbn [pv_costs]. split; [|eauto]. unfold crit. rewrite Ei. reflexivity.
Qed.

Definition ps_inv (i : nat) (v : ps_vars) : Prop := ps_core i v /\ forall s, s < i -> K (pv_costs v) s = false.
Definition ps_stop (j : nat) (v : ps_vars) : Prop := ps_core j v /\ exists i, j = S i /\ K (pv_costs v) i = true /\ forall s, s < i -> K (pv_costs v) s = false.

Lemma core_len i v : ps_core i v -> List.length (pv_costs v) = S i.
Proof. intros (ps & Hl & _ & _ & _ & Hc & _). apply Forall2_length' in Hc. congruence. Qed.

Lemma ps_loop_spec v0 v' : ps_core 0 v0 -> for_range (ps_body descend cost state a) 0 (ps_nsteps a) v0 = Ok v' ->
  ps_inv (ps_nsteps a) v' \/ exists j, 0 < j <= ps_nsteps a /\ ps_stop j v'.
Proof.
  intros H0. apply (for_range_spec (ps_body descend cost state a) ps_inv ps_stop).
  - intros i v w [Hc Hn] E. destruct (ps_body_core i v w false Hc E) as (C & Eb & c & Ec). split; [exact C|].
    intros s Hs. destruct (Nat.eq_dec s i) as [->|Hne]; [auto|]. rewrite Ec, crit_app by (rewrite (core_len i v Hc); lia). apply Hn. lia.
  - intros i v w [Hc Hn] E. destruct (ps_body_core i v w true Hc E) as (C & Eb & c & Ec). split; [exact C|]. exists i. split; [reflexivity|]. split; [auto|].
    intros s Hs. rewrite Ec, crit_app by (rewrite (core_len i v Hc); lia). auto.
  - split; [exact H0|]. intros s Hs. lia.
Qed.

Lemma ps_body_total i v : (forall e p, exists p', descend e p = Ok p') -> (forall p, exists c, cost p = Ok c) -> (forall p, exists s, state p = Ok s) ->
  ps_core i v -> exists r, ps_body descend cost state a i v = Ok r.
Proof.
  intros T1 T2 T3 Hc. unfold ps_body. destruct (T1 (ps_eta a) (pv_params v)) as (p & Ed). rewrite Ed. cbn [bind].
  destruct (T2 p) as (c & Ec). rewrite Ec. cbn [bind]. destruct (T3 p) as (s & Es). rewrite Es. cbn [bind].
  assert (Hl := core_len i v Hc).
  destruct (2 <? i) eqn:Ei.
  - rewrite (from_end_nth _ 1 0%R), (from_end_nth _ 2 0%R) by (rewrite app_length; simpl; apply Nat.ltb_lt in Ei; lia). cbn [bind].
    destruct (ps_state a); cbn [bind]; eauto.
  - destruct (ps_state a); cbn [bind]; eauto.
Qed.
End PS.

(** ** exact_lie_optimizer *)
Lemma seq_crit_snoc warm lag tol cs c i : List.length cs = S i ->
  filter (crit warm lag tol (cs ++ [c])) (seq 0 i) = filter (crit warm lag tol cs) (seq 0 i).
Proof.
  intros H. apply filter_ext_in. intros s Hs. apply in_seq in Hs. apply crit_app. lia.
Qed.
Lemma filter_seq_S (f : nat -> bool) i : filter f (seq 0 (S i)) = filter f (seq 0 i) ++ (if f i then [i] else []).
Proof. rewrite seq_S, filter_app. simpl. destruct (f i); reflexivity. Qed.

Section EX.
Context {St U : Type}.
Variables (flow : R -> U -> res U) (cost : U -> res R) (state : U -> res St) (perturb : R -> nat -> U -> U) (a : ex_args) (u0 : U).
Notation K := (crit 3 1 (ex_tol a)).

(** the circuit with which step k starts, when [u] had the k-th cost *)
Definition ex_resume (cs : list R) (k : nat) (u : U) : U :=
  match k with O => u | S j => if ex_perturbation a && K cs j then perturb (ex_eta a) j u else u end.

Lemma ex_resume_app cs c k u : k < List.length cs -> ex_resume (cs ++ [c]) k u = ex_resume cs k u.
Proof. intros H. destruct k as [|j]; [reflexivity|]. cbn [ex_resume]. rewrite crit_app by auto. reflexivity. Qed.

Definition ex_core (i : nat) (v : ex_vars) : Prop := exists us u,
  List.length us = S i /\ nth_error us 0 = Some u0 /\ nth_error us i = Some u /\ ev_u v = ex_resume (ev_costs v) i u /\
  (forall k x y, nth_error us k = Some x -> nth_error us (S k) = Some y -> flow (ex_eta a) (ex_resume (ev_costs v) k x) = Ok y) /\
  Forall2 (fun u c => cost u = Ok c) us (ev_costs v) /\
  (if ex_state a then Forall2 (fun u s => state u = Ok s) us (ev_states v) else ev_states v = []) /\
  ev_perturbations v = (if ex_perturbation a then filter (K (ev_costs v)) (seq 0 i) else []).

Lemma ex_core_init c (ss : list St) : cost u0 = Ok c -> (if ex_state a then do s <- state u0; Ok [s] else Ok []) = Ok ss -> ex_core 0 (mkexv u0 [c] ss []).
Proof.
  intros Ec Es. exists [u0], u0. cbn [ev_u ev_costs ev_states ev_perturbations]. split; [reflexivity|]. split; [reflexivity|]. split; [reflexivity|]. split; [reflexivity|].
  split. { intros [|[|k]] p p' H1 H2; discriminate. }
  split; [constructor; auto|]. split; [|destruct (ex_perturbation a); reflexivity].
  destruct (ex_state a); [|congruence]. destruct (state u0) as [s|] eqn:E; cbn [bind] in Es; [|discriminate]. injection Es as <-. constructor; auto.
Qed.

Lemma ex_len i v : ex_core i v -> List.length (ev_costs v) = S i.
Proof. intros (us & u & Hl & _ & _ & _ & _ & Hc & _). apply Forall2_length' in Hc. congruence. Qed.

Lemma ex_body_core i v v' b : ex_core i v -> ex_body flow cost state perturb a i v = Ok (v', b) ->
  ex_core (S i) v' /\ b = (negb (ex_perturbation a) && K (ev_costs v') i) /\ exists c, ev_costs v' = ev_costs v ++ [c].
Proof.
  intros Hcore E. assert (Hlen := ex_len i v Hcore). destruct Hcore as (us & u & Hl & H0 & Hu & Hr & Hd & Hc & Hs & Hp). unfold ex_body in E.
  destruct (flow (ex_eta a) (ev_u v)) as [w|] eqn:Ed; cbn [bind] in E; [|discriminate].
  destruct (if ex_state a then _ else _) as [ss|] eqn:Es in E; cbn [bind] in E; [|discriminate].
  destruct (cost w) as [c|] eqn:Ec; cbn [bind] in E; [|discriminate].
  assert (C : forall v', ev_costs v' = ev_costs v ++ [c] -> ev_states v' = ss -> ev_u v' = ex_resume (ev_costs v ++ [c]) (S i) w ->
     ev_perturbations v' = ev_perturbations v ++ (if ex_perturbation a && K (ev_costs v ++ [c]) i then [i] else []) -> ex_core (S i) v').
  { intros x E1 E2 E3 E4. exists (us ++ [w]), w. rewrite E1, E2, E3, E4. rewrite app_length. cbn [List.length]. split; [lia|].
    split; [rewrite nth_error_app1 by lia; exact H0|]. split; [rewrite nth_error_app2, <- Hl, Nat.sub_diag by lia; reflexivity|]. split; [reflexivity|].
    split; [|split; [apply Forall2_snoc; auto|split]].
    - intros k y z F1 F2. apply nth_error_snoc in F2. destruct F2 as [[Hk F2]|[Hk ->]].
      + rewrite nth_error_app1 in F1 by lia. rewrite ex_resume_app by lia. eapply Hd; eauto.
      + rewrite nth_error_app1 in F1 by lia. assert (k = i) by lia. subst k. rewrite ex_resume_app by lia. congruence.
    - destruct (ex_state a); [|congruence]. destruct (state w) as [s|] eqn:E'; cbn [bind] in Es; [|discriminate]. injection Es as <-. apply Forall2_snoc; auto.
    - rewrite Hp. destruct (ex_perturbation a); [|reflexivity]. rewrite filter_seq_S, seq_crit_snoc by exact Hlen. reflexivity. }
  assert (HK : 3 <? i = true -> K (ev_costs v ++ [c]) i = isclose (ex_tol a) (nth (S (S i) - 1) (ev_costs v ++ [c]) 0%R) (nth (S (S i) - 2) (ev_costs v ++ [c]) 0%R)).
  { intros Ei. unfold crit. rewrite Ei. cbn [andb]. f_equal; f_equal; lia. }
  assert (Hlen2 : List.length (ev_costs v ++ [c]) = S (S i)) by (rewrite app_length; simpl; lia).
  destruct (3 <? i) eqn:Ei.
  - rewrite (from_end_nth _ 1 0%R), (from_end_nth _ 2 0%R) in E by (apply Nat.ltb_lt in Ei; lia). cbn [bind] in E. rewrite Hlen2, <- (HK eq_refl) in E.
    destruct (K (ev_costs v ++ [c]) i) eqn:EK.
    + destruct (ex_perturbation a) eqn:Ep; injection E as <- <-; (split; [apply C; cbn; rewrite ?EK, ?Ep, ?app_nil_r; cbn; auto|]); cbn [ev_costs]; rewrite EK; cbn; eauto.
    + injection E as <- <-. split; [apply C; cbn [ev_costs ev_states ev_u ev_perturbations ex_resume]; rewrite ?EK, ?andb_false_r, ?app_nil_r; auto|]. cbn [ev_costs]. rewrite EK, andb_false_r. eauto.
  - assert (EK : K (ev_costs v ++ [c]) i = false) by (unfold crit; rewrite Ei; reflexivity).
    injection E as <- <-. split; [apply C; cbn [ev_costs ev_states ev_u ev_perturbations ex_resume]; rewrite ?EK, ?andb_false_r, ?app_nil_r; auto|]. cbn [ev_costs]. rewrite EK, andb_false_r. eauto.
Qed.

Definition ex_inv (i : nat) (v : ex_vars) : Prop := ex_core i v /\ (ex_perturbation a = false -> forall s, s < i -> K (ev_costs v) s = false).
Definition ex_stop (j : nat) (v : ex_vars) : Prop := ex_core j v /\ ex_perturbation a = false /\
  exists i, j = S i /\ K (ev_costs v) i = true /\ forall s, s < i -> K (ev_costs v) s = false.

Lemma ex_loop_spec v0 v' : ex_core 0 v0 -> for_range (ex_body flow cost state perturb a) 0 (ex_nsteps a) v0 = Ok v' ->
  ex_inv (ex_nsteps a) v' \/ exists j, 0 < j <= ex_nsteps a /\ ex_stop j v'.
Proof.
  intros H0. apply (for_range_spec (ex_body flow cost state perturb a) ex_inv ex_stop).
  - intros i v w [Hc Hn] E. destruct (ex_body_core i v w false Hc E) as (C & Eb & c & Ec). split; [exact C|].
    intros Hp s Hs. rewrite Hp in Eb. cbn in Eb. destruct (Nat.eq_dec s i) as [->|Hne]; [auto|]. rewrite Ec, crit_app by (rewrite (ex_len i v Hc); lia). apply Hn; [auto|lia].
  - intros i v w [Hc Hn] E. destruct (ex_body_core i v w true Hc E) as (C & Eb & c & Ec). symmetry in Eb. apply andb_true_iff in Eb. destruct Eb as [E1 E2].
    apply negb_true_iff in E1. split; [exact C|]. split; [exact E1|]. exists i. split; [reflexivity|]. split; [auto|].
    intros s Hs. rewrite Ec, crit_app by (rewrite (ex_len i v Hc); lia). auto.
  - split; [exact H0|]. intros _ s Hs. lia.
Qed.

Lemma ex_body_total i v : (forall e p, exists p', flow e p = Ok p') -> (forall p, exists c, cost p = Ok c) -> (forall p, exists s, state p = Ok s) ->
  ex_core i v -> exists r, ex_body flow cost state perturb a i v = Ok r.
Proof.
  intros T1 T2 T3 Hc. unfold ex_body. destruct (T1 (ex_eta a) (ev_u v)) as (p & Ed). rewrite Ed. cbn [bind].
  destruct (T2 p) as (c & Ec). rewrite Ec. destruct (T3 p) as (s & Es). rewrite Es.
  assert (Hl := ex_len i v Hc).
  destruct (3 <? i) eqn:Ei.
  - destruct (ex_state a); cbn [bind]; rewrite (from_end_nth _ 1 0%R), (from_end_nth _ 2 0%R) by (rewrite app_length; simpl; apply Nat.ltb_lt in Ei; lia); cbn [bind];
      destruct (isclose _ _ _); destruct (ex_perturbation a); eauto.
  - destruct (ex_state a); cbn [bind]; eauto.
Qed.
End EX.

(** ** approximate_lie_optimizer *)
(** the state of the cycle after t calls of next *)
Definition cycle_rest (all : list nat) (t : nat) : list nat :=
  match t with O => [] | S t' => skipn (S (t' mod List.length all)) all end.

Lemma skipn_nth (l : list nat) : forall i, i < List.length l -> skipn i l = nth i l 0 :: skipn (S i) l.
Proof. induction l as [|x l IH]; intros [|i] H; simpl in *; try lia; [reflexivity|]. apply IH. lia. Qed.

Lemma cycle_next_spec all t : all <> [] -> cycle_next all (cycle_rest all t) = Ok (nth (t mod List.length all) all 0, cycle_rest all (S t)).
Proof.
  intros Hne. assert (Hl : 0 < List.length all) by (destruct all; [congruence|simpl; lia]).
  assert (H0 : forall t, t mod List.length all = 0 -> match all with [] => Err StopIteration | x :: r => Ok (x, r) end = Ok (nth (t mod List.length all) all 0, skipn (S (t mod List.length all)) all)).
  { intros s ->. destruct all; [congruence|reflexivity]. }
  destruct t as [|t].
  - cbn [cycle_rest cycle_next]. apply (H0 0). apply Nat.mod_0_l. lia.
  - cbn [cycle_rest]. assert (Hm := Nat.mod_upper_bound t (List.length all) ltac:(lia)).
    destruct (Nat.eq_dec (S (t mod List.length all)) (List.length all)) as [E|E].
    + rewrite skipn_all2 by lia. cbn [cycle_next]. apply H0. 
      rewrite <- (Nat.add_1_r t), Nat.add_mod by lia. destruct (Nat.eq_dec (List.length all) 1) as [E1|E1]; [rewrite E1; reflexivity|].
      rewrite (Nat.mod_small 1) by lia. rewrite Nat.add_1_r, E. apply Nat.mod_same. lia.
    + assert (Es : S t mod List.length all = S (t mod List.length all)).
      { rewrite <- (Nat.add_1_r t), Nat.add_mod by lia. rewrite (Nat.mod_small 1) by lia. rewrite Nat.add_1_r. apply Nat.mod_small. lia. }
      rewrite Es. rewrite (skipn_nth all (S (t mod List.length all))) by lia. reflexivity.
Qed.

Section AP.
Context {St P Om U Z W : Type}.
Variables (call : nat -> W -> U -> P -> res (U * P * W)) (su_state : nat -> W -> res Z) (directions : nat -> W -> U -> res Om).
Variables (cost : U -> res R) (state : U -> res St) (perturb : R -> nat -> U -> U) (a : ap_args) (w0 : W) (u0 : U) (p0 : P).

Definition ap_crit (cs : list R) (s : nat) : bool := match ap_tol a with Some tol => crit 8 5 tol cs s | None => false end.
Definition ap_resume (cs : list R) (k : nat) (u : U) : U :=
  match k with O => u | S j => if ap_perturb a && ap_crit cs j then perturb (ap_eta a) j u else u end.
Definition ap_layer (t : nat) : nat := nth (t mod List.length (ap_layers a)) (ap_layers a) 0.

Lemma ap_crit_app cs c s : S s < List.length cs -> ap_crit (cs ++ [c]) s = ap_crit cs s.
Proof. intros H. unfold ap_crit. destruct (ap_tol a); [apply crit_app; auto|reflexivity]. Qed.
Lemma ap_resume_app cs c k u : k < List.length cs -> ap_resume (cs ++ [c]) k u = ap_resume cs k u.
Proof. intros H. destruct k as [|j]; [reflexivity|]. cbn [ap_resume]. rewrite ap_crit_app by auto. reflexivity. Qed.

(** a configuration: the layer objects, the circuit, the parameters *)
Definition config : Type := W * U * P.
Definition c_w (x : config) : W := fst (fst x).
Definition c_u (x : config) : U := snd (fst x).
Definition c_p (x : config) : P := snd x.

Definition ap_core (i : nat) (v : ap_vars) : Prop := exists xs x,
  List.length xs = S i /\ nth_error xs 0 = Some (w0, u0, p0) /\ nth_error xs i = Some x /\
  av_w v = c_w x /\ av_u v = ap_resume (av_costs v) i (c_u x) /\ av_params v = c_p x /\ av_rest v = cycle_rest (ap_layers a) i /\
  (forall k y z, nth_error xs k = Some y -> nth_error xs (S k) = Some z ->
     call (ap_layer k) (c_w y) (ap_resume (av_costs v) k (c_u y)) (c_p y) = Ok (c_u z, c_p z, c_w z)) /\
  Forall2 (fun x c => cost (c_u x) = Ok c) xs (av_costs v) /\
  (if ap_state a then Forall2 (fun x s => state (c_u x) = Ok s) xs (av_states v) else av_states v = []) /\
  av_unitaries v = (if ap_unitary a then map c_u xs else []) /\
  (if ap_omegas a then List.length (av_omegas v) = i /\
     forall k o y, nth_error (av_omegas v) k = Some o -> nth_error xs (S k) = Some y -> directions (ap_layer k) (c_w y) (c_u y) = Ok o
   else av_omegas v = []) /\
  (if ap_zassenhaus a then List.length (av_zas v) = i /\
     forall k z y, nth_error (av_zas v) k = Some z -> nth_error xs k = Some y -> su_state (ap_layer k) (c_w y) = Ok z
   else av_zas v = []) /\
  av_perturbations v = (if ap_perturb a then filter (ap_crit (av_costs v)) (seq 0 i) else []).

Lemma ap_len i v : ap_core i v -> List.length (av_costs v) = S i.
Proof. intros (xs & x & Hl & _ & _ & _ & _ & _ & _ & _ & Hc & _). apply Forall2_length' in Hc. rewrite <- Hc. exact Hl. Qed.

Lemma ap_core_init c (ss : list St) : cost u0 = Ok c -> (if ap_state a then do s <- state u0; Ok [s] else Ok []) = Ok ss ->
  ap_core 0 (mkapv [] w0 u0 p0 [c] ss [] (if ap_unitary a then [u0] else []) [] []).
Proof.
  intros Ec Es. exists [(w0, u0, p0)], (w0, u0, p0). cbn [av_w av_u av_params av_rest av_costs av_states av_omegas av_unitaries av_perturbations av_zas].
  do 7 (split; [reflexivity|]). split. { intros [|[|k]] p p' H1 H2; discriminate. }
  split; [constructor; auto|]. split; [|split; [destruct (ap_unitary a); reflexivity|]].
  - destruct (ap_state a); [|congruence]. destruct (state u0) as [s|] eqn:E; cbn [bind] in Es; [|discriminate]. injection Es as <-. constructor; auto.
  - split; [destruct (ap_omegas a); [split; [reflexivity|intros [|k] o y H; discriminate]|reflexivity]|].
    split; [destruct (ap_zassenhaus a); [split; [reflexivity|intros [|k] o y H; discriminate]|reflexivity]|]. destruct (ap_perturb a); reflexivity.
Qed.

Hypothesis (Hne : ap_layers a <> []).

Lemma ap_body_core i v v' b : ap_core i v -> ap_body call su_state directions cost state perturb a i v = Ok (v', b) ->
  ap_core (S i) v' /\ b = (negb (ap_perturb a) && ap_crit (av_costs v') i) /\ exists c, av_costs v' = av_costs v ++ [c].
Proof.
  intros Hcore E. assert (Hlen := ap_len i v Hcore).
  destruct Hcore as (xs & x & Hl & H0 & Hx & Hw & Hu & Hpar & Hr & Hd & Hc & Hs & Hun & Hom & Hz & Hp). unfold ap_body in E.
  rewrite Hr, (cycle_next_spec _ i Hne) in E. cbn [bind fst snd] in E. fold (ap_layer i) in E.
  destruct (if ap_zassenhaus a then _ else _) as [zas|] eqn:Ez in E; cbn [bind] in E; [|discriminate].
  destruct (call (ap_layer i) (av_w v) (av_u v) (av_params v)) as [[[u p] w]|] eqn:Ed; cbn [bind] in E; [|discriminate].
  destruct (cost u) as [c|] eqn:Ec; cbn [bind] in E; [|discriminate].
  destruct (if ap_state a then _ else _) as [ss|] eqn:Es in E; cbn [bind] in E; [|discriminate].
  destruct (if ap_omegas a then _ else _) as [oms|] eqn:Eo in E; cbn [bind] in E; [|discriminate].
  assert (C : forall v', av_rest v' = cycle_rest (ap_layers a) (S i) -> av_w v' = w -> av_params v' = p -> av_costs v' = av_costs v ++ [c] -> av_states v' = ss -> av_omegas v' = oms ->
     av_unitaries v' = (if ap_unitary a then av_unitaries v ++ [u] else av_unitaries v) -> av_zas v' = zas -> av_u v' = ap_resume (av_costs v ++ [c]) (S i) u ->
     av_perturbations v' = av_perturbations v ++ (if ap_perturb a && ap_crit (av_costs v ++ [c]) i then [i] else []) -> ap_core (S i) v').
  { intros y E0 E1 E2 E3 E4 E5 E6 E7 E8 E9. exists (xs ++ [(w, u, p)]), (w, u, p). rewrite E0, E1, E2, E3, E4, E5, E6, E7, E8, E9. rewrite app_length. cbn [List.length]. split; [lia|].
    split; [rewrite nth_error_app1 by lia; exact H0|]. split; [rewrite nth_error_app2, <- Hl, Nat.sub_diag by lia; reflexivity|].
    split; [reflexivity|]. split; [reflexivity|]. split; [reflexivity|]. split; [reflexivity|].
    split; [|split; [apply Forall2_snoc; auto|split; [|split; [|split; [|split]]]]].
    - intros k z1 z2 F1 F2. apply nth_error_snoc in F2. destruct F2 as [[Hk F2]|[Hk ->]].
      + rewrite nth_error_app1 in F1 by lia. rewrite ap_resume_app by lia. eapply Hd; eauto.
      + rewrite nth_error_app1 in F1 by lia. assert (k = i) by lia. subst k. rewrite ap_resume_app by lia. rewrite Hx in F1. injection F1 as <-.
        cbn [c_w c_u c_p fst snd]. congruence.
    - destruct (ap_state a); [|congruence]. destruct (state u) as [s|] eqn:E'; cbn [bind] in Es; [|discriminate]. injection Es as <-. apply Forall2_snoc; auto.
    - rewrite Hun. destruct (ap_unitary a); [rewrite map_app|]; reflexivity.
    - destruct (ap_omegas a); [|congruence]. destruct (directions (ap_layer i) w u) as [o|] eqn:E'; cbn [bind] in Eo; [|discriminate]. injection Eo as <-.
      destruct Hom as [Ho1 Ho2]. rewrite app_length. cbn [List.length]. split; [lia|]. intros k o' y' F1 F2. apply nth_error_snoc in F1. destruct F1 as [[Hk F1]|[Hk ->]].
      + rewrite nth_error_app1 in F2 by lia. eapply Ho2; eauto.
      + assert (k = i) by lia. subst k. rewrite Ho1, nth_error_app2, <- Hl, Nat.sub_diag in F2 by lia. injection F2 as <-. rewrite Ho1. exact E'.
    - destruct (ap_zassenhaus a); [|congruence]. destruct (su_state (ap_layer i) (av_w v)) as [z|] eqn:E'; cbn [bind] in Ez; [|discriminate]. injection Ez as <-.
      destruct Hz as [Hz1 Hz2]. rewrite app_length. cbn [List.length]. split; [lia|]. intros k z' y' F1 F2. apply nth_error_snoc in F1. destruct F1 as [[Hk F1]|[Hk ->]].
      + rewrite nth_error_app1 in F2 by lia. eapply Hz2; eauto.
      + rewrite nth_error_app1 in F2 by lia. subst k. rewrite Hz1, Hx in *. injection F2 as <-. congruence.
    - rewrite Hp. destruct (ap_perturb a); [|reflexivity]. rewrite filter_seq_S. cbn [andb]. f_equal. apply filter_ext_in. intros s Hs'. apply in_seq in Hs'. symmetry. apply ap_crit_app. lia. }
  assert (Hlen2 : List.length (av_costs v ++ [c]) = S (S i)) by (rewrite app_length; simpl; lia).
  assert (HK : forall tol, ap_tol a = Some tol -> 8 <? i = true ->
     ap_crit (av_costs v ++ [c]) i = isclose tol (nth (S (S i) - 1) (av_costs v ++ [c]) 0%R) (nth (S (S i) - 6) (av_costs v ++ [c]) 0%R)).
  { intros tol Et Ei. unfold ap_crit, crit. rewrite Et, Ei. cbn [andb]. f_equal; f_equal; lia. }
  destruct (ap_tol a) as [tol|] eqn:Et.
  - destruct (8 <? i) eqn:Ei.
    + rewrite (from_end_nth _ 1 0%R), (from_end_nth _ 6 0%R) in E by (apply Nat.ltb_lt in Ei; lia). cbn [bind] in E. rewrite Hlen2, <- (HK tol eq_refl eq_refl) in E.
      destruct (ap_crit (av_costs v ++ [c]) i) eqn:EK.
      * destruct (ap_perturb a) eqn:Ep; injection E as <- <-; (split; [apply C; cbn; rewrite ?EK, ?Ep, ?app_nil_r; cbn; auto|]); cbn [av_costs]; rewrite EK; cbn; eauto.
      * injection E as <- <-. split; [apply C; cbn [av_rest av_w av_params av_zas av_omegas av_unitaries av_costs av_states av_u av_perturbations ap_resume]; rewrite ?EK, ?andb_false_r, ?app_nil_r; auto|].
        cbn [av_costs]. rewrite EK, andb_false_r. eauto.
    + assert (EK : ap_crit (av_costs v ++ [c]) i = false) by (unfold ap_crit, crit; rewrite Et, Ei; reflexivity).
      injection E as <- <-. split; [apply C; cbn [av_rest av_w av_params av_zas av_omegas av_unitaries av_costs av_states av_u av_perturbations ap_resume]; rewrite ?EK, ?andb_false_r, ?app_nil_r; auto|].
      cbn [av_costs]. rewrite EK, andb_false_r. eauto.
  - assert (EK : ap_crit (av_costs v ++ [c]) i = false) by (unfold ap_crit, crit; rewrite Et; reflexivity).
    injection E as <- <-. split; [apply C; cbn [av_rest av_w av_params av_zas av_omegas av_unitaries av_costs av_states av_u av_perturbations ap_resume]; rewrite ?EK, ?andb_false_r, ?app_nil_r; auto|].
    cbn [av_costs]. rewrite EK, andb_false_r. eauto.
Qed.

Definition ap_inv (i : nat) (v : ap_vars) : Prop := ap_core i v /\ (ap_perturb a = false -> forall s, s < i -> ap_crit (av_costs v) s = false).
Definition ap_stop (j : nat) (v : ap_vars) : Prop := ap_core j v /\ ap_perturb a = false /\
  exists i, j = S i /\ ap_crit (av_costs v) i = true /\ forall s, s < i -> ap_crit (av_costs v) s = false.

Lemma ap_loop_spec v0 v' : ap_core 0 v0 -> for_range (ap_body call su_state directions cost state perturb a) 0 (ap_nsteps a) v0 = Ok v' ->
  ap_inv (ap_nsteps a) v' \/ exists j, 0 < j <= ap_nsteps a /\ ap_stop j v'.
Proof.
  intros H0. apply (for_range_spec (ap_body call su_state directions cost state perturb a) ap_inv ap_stop).
  - intros i v w [Hc Hn] E. destruct (ap_body_core i v w false Hc E) as (C & Eb & c & Ec). split; [exact C|].
    intros Hp s Hs. rewrite Hp in Eb. cbn in Eb. destruct (Nat.eq_dec s i) as [->|Hn']; [auto|]. rewrite Ec, ap_crit_app by (rewrite (ap_len i v Hc); lia). apply Hn; [auto|lia].
  - intros i v w [Hc Hn] E. destruct (ap_body_core i v w true Hc E) as (C & Eb & c & Ec). symmetry in Eb. apply andb_true_iff in Eb. destruct Eb as [E1 E2].
    apply negb_true_iff in E1. split; [exact C|]. split; [exact E1|]. exists i. split; [reflexivity|]. split; [auto|].
    intros s Hs. rewrite Ec, ap_crit_app by (rewrite (ap_len i v Hc); lia). auto.
  - split; [exact H0|]. intros _ s Hs. lia.
Qed.

Lemma ap_body_total i v : (forall l w u p, exists r, call l w u p = Ok r) -> (forall l w, exists r, su_state l w = Ok r) -> (forall l w u, exists r, directions l w u = Ok r) ->
  (forall p, exists c, cost p = Ok c) -> (forall p, exists s, state p = Ok s) ->
  ap_core i v -> exists r, ap_body call su_state directions cost state perturb a i v = Ok r.
Proof.
  intros T1 T2 T3 T4 T5 Hc. unfold ap_body. assert (Hl := ap_len i v Hc). destruct Hc as (xs & x & _ & _ & _ & _ & _ & _ & Hr & _).
  rewrite Hr, (cycle_next_spec _ i Hne). cbn [bind fst snd]. fold (ap_layer i).
  destruct (T2 (ap_layer i) (av_w v)) as (z & Ez). rewrite Ez. destruct (T1 (ap_layer i) (av_w v) (av_u v) (av_params v)) as ([[u p] w] & Ec). rewrite Ec. cbn [bind].
  destruct (T4 u) as (c & E4). rewrite E4. destruct (T5 u) as (s & E5). rewrite E5. destruct (T3 (ap_layer i) w u) as (o & E3). rewrite E3. cbn [bind].
  assert (G : forall l : list R, List.length l = S (S i) -> 8 <? i = true -> exists c1 c6, from_end l 1 = Ok c1 /\ from_end l 6 = Ok c6).
  { intros l Hll Ei. apply Nat.ltb_lt in Ei. rewrite (from_end_nth l 1 0%R), (from_end_nth l 6 0%R) by lia. eauto. }
  assert (Hl2 : List.length (av_costs v ++ [c]) = S (S i)) by (rewrite app_length; simpl; lia).
  destruct (ap_zassenhaus a); cbn [bind]; rewrite ?Ec; cbn [bind]; rewrite ?E4; cbn [bind]; destruct (ap_state a); cbn [bind]; rewrite ?E3; destruct (ap_omegas a); cbn [bind];
    (destruct (ap_tol a); [|eauto]); (destruct (8 <? i) eqn:Ei; [|eauto]); destruct (G _ Hl2 eq_refl) as (c1 & c6 & G1 & G6); rewrite G1, G6; cbn [bind];
    destruct (isclose _ _ _); destruct (ap_perturb a); eauto.
Qed.
End AP.
