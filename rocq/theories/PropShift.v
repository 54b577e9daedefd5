(** Properties C80 and C81: the steps of parameter_shift_optimizer. *)
From Coq Require Import ZArith Arith Lia Bool String Reals Lra Ring Setoid Morphisms Classical.
From Coquelicot Require Import Coquelicot.
From Verif Require Import Py StarRing Matrix Cplx PauliSpec Bits PauliBasis Expm MDeriv UtilsModel UtilsProofs CircuitModel CircuitProofs CircuitProofs2 LayerModel LayerProofs OptimizerModel OptProofs RotoProofs
  FlowModel FlowProofs FlowProofs2 FlowMany AdaptModel AdaptProofs ShiftModel ShiftProofs ApproxModel ApproxProofs CommuteModel CommuteProofs PropLayers PropGreedy PropAdapt PropOptArgs PropOptRun PropFlow PropMany.
From Coq Require Import List.
Import ListNotations.
Local Open Scope nat_scope.
Local Open Scope list_scope.

(** ** Specification *)

(** On parameters of the shape of p0 the circuit is a fixed list of gates, some of
    which ([Param j k word wires]) are Pauli rotations by the parameter in row j,
    column k. *)
Definition rotation_circuit (n : nat) (circ : rows -> res (list agate)) (p0 : rows) (l : list slot) : Prop :=
  Forall (slot_valid n) l /\ (forall j k, In (j, k) (keys l) -> in_shape p0 j k) /\
  forall q, same_shape p0 q -> circ q = Ok (map (fill (angles q)) l).

(** q is p with the entry in row j, column k replaced by x *)
Definition with_entry (p : rows) (j k : nat) (x : R) (q : rows) : Prop :=
  same_shape p q /\ angles q j k = x /\ forall j' k', (j', k') <> (j, k) -> angles q j' k' = angles p j' k'.

(** d is the derivative of the cost at p in that entry *)
Definition cost_slope (n : nat) (obs : list (qop C)) (circ : rows -> res (list agate)) (p : rows) (j k : nat) (d : R) : Prop :=
  exists f, (forall x q, with_entry p j k x q -> vqe_cost n obs circ q = Ok (f x)) /\ is_derive f (angles p j k) d.

(** ** Runs *)
Lemma vqe_ok n obs circ p0 l : Forall (fits n) obs -> rotation_circuit n circ p0 l -> exists Fs, Forall2 (fun o F => full n o = Ok F) obs Fs /\
  forall q, same_shape p0 q -> vqe_cost n obs circ q = Ok (energy n Fs (slots_mat n (angles q) l)).
Proof.
  intros Hf (Hl & _ & Hc). assert (E : exists Fs, Forall2 (fun o F => full n o = Ok F) obs Fs).
  { clear -Hf. induction Hf as [|o r Ho Hr (Fs & IH)]; [exists []; constructor|]. destruct (full_ok n o Ho) as (F & E & _). exists (F :: Fs). constructor; assumption. }
  destruct E as (Fs & HF). exists Fs. split; [exact HF|]. intros q Hq. apply slots_cost; auto.
Qed.

Lemma vqe_state_ok n circ p0 l q : rotation_circuit n circ p0 l -> same_shape p0 q -> exists s, vqe_state n circ q = Ok s.
Proof.
  intros (Hl & _ & Hc) Hq. unfold vqe_state. rewrite (Hc q Hq). cbn [bind]. destruct (slots_unitary n (angles q) l Hl) as (U & E & _). rewrite E. cbn [bind]. eauto.
Qed.

Lemma shift_runs {Om U Z} n obs circ p0 l kw : Forall (fits n) obs -> rotation_circuit n circ p0 l -> ps_accepts kw ->
  exists r : retval (item (nat -> C) rows Om U Z), shift_optimizer n obs circ RetPlain p0 kw = Ok r.
Proof.
  intros Hf Hr (A1 & A2 & A3 & A4). destruct (vqe_ok n obs circ p0 l Hf Hr) as (Fs & HF & Hc).
  assert (T1 : forall e q, same_shape p0 q -> exists q', gd_step (vqe_cost n obs circ) e q = Ok q').
  { intros e q Hq. unfold gd_step. rewrite (Hc q Hq). cbn [bind]. eauto. }
  unfold shift_optimizer, parameter_shift_optimizer.
  assert (Hb : boolean (kw_get kw "return_params" (PyBool false))) by (apply (proj1 (allowed_default kw "return_params"%string boolean _ default_flag)), A4; simpl; tauto).
  destruct (ps_cases kw) as [[_ E]|[Hn _]].
  2: { exfalso. apply Hn. unfold ps_checked. repeat (split; [assumption|]). apply A4. simpl; tauto. }
  rewrite E. cbn [bind]. set (a := mkps _ _ _ _ _). unfold ps_run.
  set (descend := gd_step (vqe_cost n obs circ)) in *. set (cost := vqe_cost n obs circ) in *. set (state := vqe_state n circ).
  assert (T3 : forall q, same_shape p0 q -> exists s, state q = Ok s) by (intros q Hq; apply (vqe_state_ok n circ p0 l); auto).
  destruct (T3 p0 eq_refl) as (s0 & Es).
  assert (Ess : exists ss, (if ps_state a then do s <- state p0; Ok [s] else Ok []) = Ok ss) by (rewrite Es; destruct (ps_state a); eexists; reflexivity).
  destruct Ess as (ss & Ess).
  destruct (for_range_total (ps_body descend cost state a) (fun i v => ps_core descend cost state a p0 i v /\ same_shape p0 (pv_params v)))
    with (k := ps_nsteps a) (i := 0) (v := mkpsv p0 [energy n Fs (slots_mat n (angles p0) l)] ss (if truthy (ps_params a) then [p0] else [])) as (v & Ev).
  - intros i v [Hv Hs]. unfold ps_body. destruct (T1 (ps_eta a) _ Hs) as (p & Ed). rewrite Ed. cbn [bind].
    assert (Hp : same_shape p0 p) by (eapply same_shape_trans; [exact Hs|]; eapply gd_shape; exact Ed).
    rewrite (Hc p Hp). cbn [bind]. destruct (T3 p Hp) as (s & Es'). rewrite Es'. cbn [bind]. assert (Hlen := core_len descend cost state a p0 i v Hv).
    destruct (Nat.ltb 2 i) eqn:Ei.
    + rewrite (from_end_nth _ 1 0%R), (from_end_nth _ 2 0%R) by (rewrite app_length; simpl; apply Nat.ltb_lt in Ei; lia). cbn [bind]. destruct (ps_state a); cbn [bind]; eauto.
    + destruct (ps_state a); cbn [bind]; eauto.
  - intros i v v' [Hv Hs] Eb. split; [exact (proj1 (ps_body_core descend cost state a p0 i v v' false Hv Eb))|].
    unfold ps_body in Eb. destruct (descend (ps_eta a) (pv_params v)) as [p|] eqn:Ed; cbn [bind] in Eb; [|discriminate].
    assert (Hp : same_shape p0 p) by (eapply same_shape_trans; [exact Hs|]; eapply gd_shape; exact Ed).
    destruct (cost p) as [c|]; cbn [bind] in Eb; [|discriminate]. destruct (if ps_state a then _ else _) as [ss'|] in Eb; cbn [bind] in Eb; [|discriminate].
    destruct (Nat.ltb 2 i).
    + destruct (from_end _ 1) as [x1|]; [|discriminate]. destruct (from_end _ 2) as [x2|]; [|discriminate]. cbn [bind] in Eb. injection Eb as <- _. exact Hp.
    + injection Eb as <-. exact Hp.
  - split; [|reflexivity]. apply ps_core_init; [apply Hc; reflexivity|exact Ess].
  - rewrite Ess. cbn [bind]. rewrite (Hc p0 eq_refl). cbn [bind]. rewrite Ev. cbn [bind]. destruct Hb as (b & Hb). unfold a. cbn [ps_params ps_state]. rewrite Hb. cbn [sum_below_one number].
    destruct b; cbn [bind]; destruct (Rlt_dec _ _); eauto.
Qed.

(** ** Slopes *)
Lemma slots_angles n a b l : (forall j k, In (j, k) (keys l) -> a j k = b j k) -> slots_mat n a l = slots_mat n b l.
Proof.
  intros H. unfold slots_mat. f_equal. apply map_ext_in. intros s Hs. do 2 f_equal. destruct s as [g|j k w q]; [reflexivity|]. cbn [fill]. f_equal. apply H.
  unfold keys. apply in_flat_map. exists (Param j k w q). split; [apply in_rev; exact Hs|left; reflexivity].
Qed.

Lemma shape_in p q j k : same_shape p q -> in_shape p j k -> in_shape q j k.
Proof. intros H. unfold in_shape. rewrite (len_nth_map p q H j). auto. Qed.

Lemma entry_set p j k x : in_shape p j k -> with_entry p j k x (set_entry p j k x).
Proof.
  intros H. split; [apply set_shape|]. split; [rewrite angles_set by exact H; apply upd_same|]. intros j' k' Hne. rewrite angles_set by exact H. apply upd_other. exact Hne.
Qed.
Lemma entry_upd p j k x q : with_entry p j k x q -> forall j' k', angles q j' k' = upd (angles p) j k x j' k'.
Proof. intros (_ & H1 & H2) j' k'. unfold upd. destruct (Nat.eqb_spec j' j), (Nat.eqb_spec k' k); subst; cbn [andb]; auto; apply H2; congruence. Qed.

Section Slopes.
Variables (n : nat) (obs : list (qop C)) (circ : rows -> res (list agate)) (p0 : rows) (l : list slot) (Fs : list (arr C)).
Hypothesis Hr : rotation_circuit n circ p0 l.
Hypothesis Hcost : forall q, same_shape p0 q -> vqe_cost n obs circ q = Ok (energy n Fs (slots_mat n (angles q) l)).

Definition curve (p : rows) (j k : nat) (x : R) : R := energy n Fs (slots_mat n (upd (angles p) j k x) l).

Lemma curve_cost p j k x q : same_shape p0 p -> with_entry p j k x q -> vqe_cost n obs circ q = Ok (curve p j k x).
Proof.
  intros Hp Hq. rewrite Hcost by (eapply same_shape_trans; [exact Hp|apply Hq]). unfold curve. do 2 f_equal. apply slots_angles. intros. apply entry_upd. exact Hq.
Qed.

Lemma curve_partial p j k : same_shape p0 p -> in_shape p j k -> partial (vqe_cost n obs circ) p j k = Derive (curve p j k) (angles p j k).
Proof.
  intros Hp Hi. unfold partial. change (nth k (nth j p []) 0%R) with (angles p j k). apply Derive_ext. intros x. rewrite (curve_cost p j k x _ Hp (entry_set p j k x Hi)). reflexivity.
Qed.

Lemma shift_derive (f : R -> R) (x d : R) : is_derive (fun t => f (x + t * 1))%R 0%R d -> is_derive f x d.
Proof.
  intros H. eapply (is_derive_extR (fun y => (fun t => f (x + t * 1)) (y - x))%R f x (1 * d)%R); [intros y; f_equal; ring|match goal with |- ?a = ?b => change (@eq R a b) end; ring|].
  apply (is_derive_comp (fun t => f (x + t * 1))%R (fun y => y - x)%R x d 1%R); [rewrite Rminus_diag_eq by reflexivity; exact H|auto_derive; [exact I|match goal with |- ?a = ?b => change (@eq R a b) end; ring]].
Qed.

Lemma slopes p : same_shape p0 p -> exists cs, List.length cs = List.length l /\
  (forall j k, is_derive (curve p j k) (angles p j k) (rsum (fun sc => is_key j k (fst sc) * snd sc)%R (combine l cs))) /\
  forall h, is_derive (fun t => energy n Fs (slots_mat n (moved (angles p) h t) l)) 0%R (rsum (fun sc => along h (fst sc) * snd sc)%R (combine l cs)).
Proof.
  intros Hp. destruct Hr as (Hl & _ & _). destruct (slots_slope n Fs (angles p) l Hl) as (cs & L & HD). exists cs. split; [exact L|]. split; [|exact HD].
  intros j k. apply shift_derive. set (h := fun j' k' => if Nat.eqb j' j && Nat.eqb k' k then 1%R else 0%R).
  eapply is_derive_extR; [| |exact (HD h)].
  - intros t. unfold curve. f_equal. apply slots_angles. intros j' k' _. unfold moved, upd, h. destruct (Nat.eqb_spec j' j), (Nat.eqb_spec k' k); subst; cbn [andb]; ring.
  - apply rsum_ext. intros [s c] _. cbn [fst snd]. f_equal.
Qed.
End Slopes.

(** ** C80: the update rule *)

(** A run returns, and every step replaces each parameter by itself minus eta times
    half the difference of the costs with that parameter shifted by a quarter turn
    forwards and backwards; all costs are taken at the parameters before the step. *)
Theorem C80_shift_rule : forall Om U Z n obs circ p0 l kw, Forall (fits n) obs -> rotation_circuit n circ p0 l -> NoDup (keys l) -> ps_accepts kw ->
  exists r : retval (item (nat -> C) rows Om U Z), shift_optimizer n obs circ RetPlain p0 kw = Ok r /\
  forall cs ss ps, ps_result kw r cs ss ps -> exists points,
    nth_error points 0 = Some p0 /\ 2 <= List.length points <= S (the_steps kw) /\
    Forall (same_shape p0) points /\ Forall2 (fun p c => vqe_cost n obs circ p = Ok c) points cs /\
    (the_flag kw "return_params" = true -> ps = points) /\
    chain (fun _ p p' => forall j k forth back, in_shape p0 j k ->
      with_entry p j k (angles p j k + PI / 2) forth -> with_entry p j k (angles p j k - PI / 2) back ->
      exists c1 c2, vqe_cost n obs circ forth = Ok c1 /\ vqe_cost n obs circ back = Ok c2 /\
        angles p' j k = (angles p j k - the_eta kw * ((c1 - c2) / 2))%R) points.
Proof.
  intros Om U Z n obs circ p0 l kw Hf Hr Hn Ha. destruct (shift_runs (Om := Om) (U := U) (Z := Z) n obs circ p0 l kw Hf Hr Ha) as (r & Er). exists r. split; [exact Er|].
  intros cs ss ps Hres. unfold shift_optimizer in Er.
  destruct (C56_shift_histories _ _ _ _ _ _ _ _ _ _ _ _ _ _ Ha Er Hres) as (points & H0 & Hch & Hlen & Hc & _ & Hp).
  destruct (vqe_ok n obs circ p0 l Hf Hr) as (Fs & HF & Hcost).
  assert (Hs : forall i p, nth_error points i = Some p -> same_shape p0 p).
  { induction i as [|i IH]; intros p E; [rewrite H0 in E; injection E as <-; reflexivity|].
    destruct (nth_error points i) as [q|] eqn:Eq; [|apply nth_error_None in Eq; assert (i < List.length points) by (assert (S i < List.length points) by (apply nth_error_Some; congruence); lia); lia].
    eapply same_shape_trans; [exact (IH q eq_refl)|]. eapply gd_shape. exact (Hch i q p Eq E). }
  exists points. split; [exact H0|]. split; [exact Hlen|]. split.
  { apply Forall_forall. intros q Hq. apply In_nth_error in Hq. destruct Hq as (i & Hi). exact (Hs i q Hi). }
  split; [exact Hc|]. split; [exact Hp|].
  intros i p p' E E' j k forth back Hi Hfo Hba. pose proof (Hs i p E) as Sp. pose proof (shape_in p0 p j k Sp Hi) as Hi'.
  exists (curve n l Fs p j k (angles p j k + PI / 2)), (curve n l Fs p j k (angles p j k - PI / 2)).
  split; [eapply curve_cost; eauto|]. split; [eapply curve_cost; eauto|].
  rewrite (angles_step _ _ _ _ _ _ (Hch i p p' E E') Hi'). do 2 f_equal. rewrite (curve_partial n obs circ p0 l Fs Hcost p j k Sp Hi').
  destruct (one_param n Fs (angles p) l j k (proj1 Hr) Hn) as (al & be & ga & Q). set (x := angles p j k).
  assert (D : Derive (curve n l Fs p j k) x = (- be * sin x + ga * cos x)%R).
  { apply is_derive_unique. apply (is_derive_extR (fun x => al + be * cos x + ga * sin x)%R _ x (- be * sin x + ga * cos x)%R); [intros y; symmetry; apply Q|reflexivity|].
    auto_derive; [exact I|]. match goal with |- ?a = ?b => change (@eq R a b) end. ring. }
  rewrite D. unfold curve. rewrite !Q, cos_plus, sin_plus, cos_minus, sin_minus, cos_PI2, sin_PI2. match goal with |- ?a = ?b => change (@eq R a b) end. field.
Qed.
Print Assumptions C80_shift_rule.

(** the circuits of AdaptVQELayer are of this form *)
Definition adapt_slots (n : nat) (layers : list (string * brick)) : list slot :=
  map (fun w => Fixed (AH w)) (seq 0 n) ++
  flat_map (fun jl => map (fun iw => Param (fst jl) (fst iw) (fst (snd jl)) (snd iw)) (combine (brick_idx n (snd (snd jl))) (brick_keys n (snd (snd jl)))))
    (combine (seq 0 (List.length layers)) layers).

Lemma combine_fst {A B} (l : list A) (m : list B) : List.length l = List.length m -> map fst (combine l m) = l.
Proof. revert m. induction l as [|a l IH]; intros [|b m] H; try discriminate; [reflexivity|]. cbn. f_equal. apply IH. simpl in H. lia. Qed.

Lemma keys_app l m : keys (l ++ m) = keys l ++ keys m.
Proof. unfold keys. apply flat_map_app. Qed.
Lemma keys_fixed gs : keys (map (fun w : nat => Fixed (AH w)) gs) = [].
Proof. induction gs; [reflexivity|exact IHgs]. Qed.
Lemma keys_params j (d : string) idx qs : List.length idx = List.length qs -> keys (map (fun iw : nat * list nat => Param j (fst iw) d (snd iw)) (combine idx qs)) = map (fun i => (j, i)) idx.
Proof. revert qs. induction idx as [|i idx IH]; intros [|q qs] H; try discriminate; [reflexivity|]. cbn [combine map keys flat_map app fst snd]. f_equal. apply IH. simpl in H. lia. Qed.

Theorem C80_adapt_circuits : forall n layers p, 2 <= n -> incl layers moves -> List.length layers <= List.length p -> Forall (fun r => List.length r = n) p ->
  rotation_circuit n (circuit_vqe n layers) p (adapt_slots n layers) /\ NoDup (keys (adapt_slots n layers)).
Proof.
  intros n layers p Hn Hi Hl Hp.
  assert (Hw : forall j (d : string) b, In (j, (d, b)) (combine (seq 0 (List.length layers)) layers) -> j < List.length layers /\ exists w, d = word_name w /\ Forall (fun g => 1 <= g <= 3) w /\ List.length w = arity b /\ String.length d = arity b).
  { intros j d b H. apply numbered_In in H. destruct H as [_ H]. rewrite Nat.sub_0_r in H. split; [apply nth_error_Some; congruence|].
    destruct (moves_word (d, b)) as (w & E & Hw & L & S); [apply Hi; eapply nth_error_In; exact H|]. exists w. auto. }
  assert (Hidx : forall b, List.length (brick_idx n b) = List.length (brick_keys n b) /\ NoDup (brick_idx n b) /\ Forall (fun i => i < n) (brick_idx n b)).
  { intros b. destruct (layer_gates_eq n (match b with Single => "X" | _ => "XX" end) b (repeat 0%R n) Hn (repeat_length _ _)) as (_ & H); [destruct b; reflexivity|]. exact H. }
  split; [split; [|split]|].
  - unfold adapt_slots. apply Forall_app. split.
    + apply Forall_map, Forall_forall. intros w Hw'. apply in_seq in Hw'. unfold slot_valid. cbn [fill gate_qop]. repeat constructor; simpl; auto; try discriminate; lia.
    + apply Forall_forall. intros s Hs. apply in_flat_map in Hs. destruct Hs as ([j [d b]] & Hj & Hs). cbn [fst snd] in Hs. apply in_map_iff in Hs. destruct Hs as ([i q] & <- & Hq).
      apply in_combine_r in Hq. destruct (Hw j d b Hj) as (_ & w & -> & Hw' & L & _). destruct (brick_keys_tuple n b q Hn Hq) as (L' & N & B & _). cbn [fst snd].
      unfold slot_valid. cbn [fill]. apply rot_valid; auto; [congruence|]. intros ->. destruct b; discriminate.
  - intros j k H. unfold adapt_slots in H. rewrite keys_app, keys_fixed in H. cbn [app] in H. unfold keys in H. rewrite flat_map_concat_map in H. apply in_concat in H. destruct H as (ks & H1 & H2).
    apply in_map_iff in H1. destruct H1 as (s & <- & Hs). apply in_flat_map in Hs. destruct Hs as ([j' [d b]] & Hj & Hs). cbn [fst snd] in Hs. apply in_map_iff in Hs. destruct Hs as ([i q] & <- & Hq).
    cbn [fst snd] in H2. destruct H2 as [E|[]]. injection E as -> ->. destruct (Hw j d b Hj) as (Hj' & _). apply in_combine_l in Hq. destruct (Hidx b) as (_ & _ & B). rewrite Forall_forall in B. specialize (B k Hq).
    unfold in_shape. rewrite Forall_forall in Hp. rewrite (Hp (nth j p [])); [exact B|]. apply nth_In. lia.
  - intros q Hq. destruct (shape_rows n p q Hp Hq) as (Lq & Hrows). unfold circuit_vqe, adapt_slots. rewrite map_app, map_map. cbn [fill].
    assert (E : mapM (fun jl => do row <- list_get q (fst jl); layer_gates n (snd jl) row) (combine (seq 0 (List.length layers)) layers) =
      Ok (map (fun jl => map (fill (angles q)) (map (fun iw => Param (fst jl) (fst iw) (fst (snd jl)) (snd iw)) (combine (brick_idx n (snd (snd jl))) (brick_keys n (snd (snd jl)))))) (combine (seq 0 (List.length layers)) layers))).
    { assert (G : forall L, incl L (combine (seq 0 (List.length layers)) layers) -> mapM (fun jl => do row <- list_get q (fst jl); layer_gates n (snd jl) row) L =
        Ok (map (fun jl => map (fill (angles q)) (map (fun iw => Param (fst jl) (fst iw) (fst (snd jl)) (snd iw)) (combine (brick_idx n (snd (snd jl))) (brick_keys n (snd (snd jl)))))) L)); [|apply G, incl_refl].
      induction L as [|[j [d b]] L IH]; intros HL; [reflexivity|]. cbn [mapM map fst snd]. destruct (Hw j d b (HL _ (or_introl eq_refl))) as (Hj & w & _ & _ & _ & S).
      assert (Hjq : j < List.length q) by (unfold rows in *; lia). unfold list_get at 1. rewrite (nth_error_nth' q [] Hjq). cbn [bind]. destruct (layer_gates_eq n d b (nth j q []) Hn) as (Eg & _).
      - rewrite Forall_forall in Hrows. apply Hrows. apply nth_In. exact Hjq.
      - exact S.
      - rewrite Eg. cbn [bind]. rewrite (IH (fun x Hx => HL x (or_intror Hx))). cbn [bind]. do 3 f_equal. rewrite map_map. reflexivity. }
    rewrite E. cbn [bind]. do 2 f_equal. rewrite flat_map_concat_map, concat_map, map_map. reflexivity.
  - unfold adapt_slots. rewrite keys_app, keys_fixed. cbn [app].
    assert (G : forall (ls : list (string * brick)) s, NoDup (keys (flat_map (fun jl => map (fun iw => Param (fst jl) (fst iw) (fst (snd jl)) (snd iw)) (combine (brick_idx n (snd (snd jl))) (brick_keys n (snd (snd jl))))) (combine (seq s (List.length ls)) ls))) /\
      forall j k, In (j, k) (keys (flat_map (fun jl => map (fun iw => Param (fst jl) (fst iw) (fst (snd jl)) (snd iw)) (combine (brick_idx n (snd (snd jl))) (brick_keys n (snd (snd jl))))) (combine (seq s (List.length ls)) ls))) -> s <= j); [|apply G].
    induction ls as [|[d b] ls IH]; intros s; cbn [List.length seq combine flat_map]; [split; [constructor|intros j k []]|]. cbn [fst snd]. rewrite keys_app.
    destruct (Hidx b) as (L & N & _). rewrite (keys_params s d _ _ L). destruct (IH (S s)) as [I1 I2]. split.
    + apply NoDup_app_intro; [apply FinFun.Injective_map_NoDup; [intros x y E; congruence|exact N]|exact I1|].
      intros [j k] H1 H2. apply in_map_iff in H1. destruct H1 as (i & E & _). injection E as <- <-. apply I2 in H2. lia.
    + intros j k H. apply in_app_or in H. destruct H as [H|H]; [apply in_map_iff in H; destruct H as (i & E & _); injection E as <- <-; lia|apply I2 in H; lia].
Qed.
Print Assumptions C80_adapt_circuits.

(** ** C81: descent *)

(** partial: to first order in eta the cost falls by eta times the squared length of
    the gradient, and away from critical points every small enough eta makes the
    first step of a run a strict improvement *)
Theorem C81_shift_descent_partial : forall n obs circ p l, Forall (fits n) obs -> rotation_circuit n circ p l ->
  exists s G c, (forall j k, in_shape p j k -> cost_slope n obs circ p j k (s j k)) /\
    (forall eta, gd_step (vqe_cost n obs circ) eta p = Ok (G eta) /\ vqe_cost n obs circ (G eta) = Ok (c eta)) /\
    (forall eta j k, in_shape p j k -> angles (G eta) j k = (angles p j k - eta * s j k)%R) /\
    vqe_cost n obs circ p = Ok (c 0%R) /\ is_derive c 0%R (- all_entries p (fun j k => s j k ^ 2))%R /\
    ((exists j k, in_shape p j k /\ s j k <> 0%R) -> exists bound, (0 < bound)%R /\
       forall Om U Z kw (r : retval (item (nat -> C) rows Om U Z)) cs ss ps, ps_accepts kw -> (0 < the_eta kw < bound)%R ->
         shift_optimizer n obs circ RetPlain p kw = Ok r -> ps_result kw r cs ss ps ->
         exists c0 c1, nth_error cs 0 = Some c0 /\ nth_error cs 1 = Some c1 /\ (c1 < c0)%R).
Proof.
  intros n obs circ p l Hf Hr. destruct (vqe_ok n obs circ p l Hf Hr) as (Fs & HF & Hcost).
  destruct (slopes n circ p l Fs Hr p eq_refl) as (ds & L & HD & HA).
  set (s := fun j k => rsum (fun sc => is_key j k (fst sc) * snd sc)%R (combine l ds)).
  set (G := fun eta => match gd_step (vqe_cost n obs circ) eta p with Ok q => q | Err _ => p end).
  assert (EG : forall eta, gd_step (vqe_cost n obs circ) eta p = Ok (G eta)).
  { intros eta. unfold G, gd_step. rewrite (Hcost p eq_refl). reflexivity. }
  set (c := fun eta => energy n Fs (slots_mat n (angles (G eta)) l)). exists s, G, c.
  assert (SG : forall eta, same_shape p (G eta)) by (intros eta; eapply gd_shape; apply EG).
  assert (Slope : forall j k, in_shape p j k -> cost_slope n obs circ p j k (s j k)).
  { intros j k Hi. exists (curve n l Fs p j k). split; [|apply HD]. intros x q Hq. eapply curve_cost; eauto. reflexivity. }
  assert (Ang : forall eta j k, in_shape p j k -> angles (G eta) j k = (angles p j k - eta * s j k)%R).
  { intros eta j k Hi. rewrite (angles_step _ _ _ _ _ _ (EG eta) Hi). do 2 f_equal. rewrite (curve_partial n obs circ p l Fs Hcost p j k eq_refl Hi).
    apply is_derive_unique. apply HD. }
  assert (Ecost : forall eta, vqe_cost n obs circ (G eta) = Ok (c eta)) by (intros eta; apply Hcost, SG).
  assert (E0 : vqe_cost n obs circ p = Ok (c 0%R)).
  { rewrite (Hcost p eq_refl). unfold c. do 2 f_equal. apply slots_angles. intros j k Hk. rewrite Ang; [ring|]. apply (proj1 (proj2 Hr)). exact Hk. }
  assert (D : is_derive c 0%R (- all_entries p (fun j k => s j k ^ 2))%R).
  { eapply is_derive_extR; [| |exact (HA (fun j k => - s j k)%R)].
    - intros t. unfold c. f_equal. apply slots_angles. intros j k Hk. rewrite Ang; [unfold moved; ring|]. apply (proj1 (proj2 Hr)). exact Hk.
    - rewrite (regroup p _ l (proj1 (proj2 Hr)) ds). change (fun j k => (- s j k * rsum _ (combine l ds))%R) with (fun j k => (- s j k * s j k)%R).
      pose proof (all_entries_add p (fun j k => - s j k * s j k)%R (fun j k => s j k ^ 2)%R) as A. rewrite (all_entries_zero p (fun j k => _ + _)%R) in A by (intros; ring).
      match goal with |- ?a = ?b => change (@eq R a b) end. lra. }
  split; [exact Slope|]. split; [intros eta; split; [apply EG|apply Ecost]|]. split; [exact Ang|]. split; [exact E0|]. split; [exact D|].
  intros (j0 & k0 & Hi0 & Hne).
  assert (Pos : (0 < all_entries p (fun j k => s j k ^ 2))%R).
  { assert (P : (s j0 k0 ^ 2 <= all_entries p (fun j k => s j k ^ 2))%R).
    { rewrite <- (all_entries_delta p (fun j k => s j k ^ 2)%R j0 k0 Hi0). unfold all_entries.
      assert (M : forall (X : Type) (u v : X -> R) m, (forall x, In x m -> (u x <= v x)%R) -> (rsum u m <= rsum v m)%R).
      { intros X u v m. induction m as [|x m IH]; intros H; cbn; [lra|]. fold (rsum u m) (rsum v m). specialize (IH (fun y Hy => H y (or_intror Hy))). specialize (H x (or_introl eq_refl)). lra. }
      apply M. intros j _. apply M. intros k _. destruct (Nat.eqb j0 j && Nat.eqb k0 k); [lra|]. apply pow2_ge_0. }
    assert (0 < s j0 k0 ^ 2)%R by (pose proof (pow2_gt_0 _ Hne); lra). lra. }
  apply is_derive_Reals in D. destruct (D _ Pos) as (del & Hd). exists del. split; [apply cond_pos|]. intros Om U Z kw r cs ss ps Ha [H0 H1] Er Hres.
  unfold shift_optimizer in Er. destruct (C56_shift_histories _ _ _ _ _ _ _ _ _ _ _ _ _ _ Ha Er Hres) as (points & P0 & Hch & Hlen & Hc & _ & _).
  destruct points as [|q0 [|q1 points]]; cbn [List.length] in Hlen; try lia. injection P0 as ->. specialize (Hch 0 p q1 eq_refl eq_refl). cbv beta in Hch. rewrite EG in Hch. injection Hch as <-.
  inversion Hc as [|? x0 ? cs' C0 Hc']; subst. inversion Hc' as [|? x1 ? cs'' C1 _]; subst. exists x0, x1. split; [reflexivity|]. split; [reflexivity|].
  rewrite E0 in C0. injection C0 as <-. rewrite Ecost in C1. injection C1 as <-. set (eta := the_eta kw) in *.
  specialize (Hd eta ltac:(lra) ltac:(rewrite Rabs_pos_eq; lra)). rewrite Rplus_0_l in Hd. apply Rabs_def2 in Hd. destruct Hd as [Hd _].
  assert (Q : ((c eta - c 0%R) / eta < 0)%R) by lra. apply (Rmult_lt_compat_r eta) in Q; [|exact H0]. unfold Rdiv in Q. rewrite Rmult_assoc, Rinv_l, Rmult_1_r, Rmult_0_l in Q by lra. lra.
Qed.
Print Assumptions C81_shift_descent_partial.

(** ** One rotation and several copies of Z *)
Definition rx_circ (p : rows) : res (list agate) := do row <- list_get p 0; do t <- list_get row 0; Ok [ARot t "X" [0]].
Definition rx_slots : list slot := [Param 0 0 "X" [0]].

Lemma rx_rotation x : rotation_circuit 1 rx_circ [[x]] rx_slots /\ NoDup (keys rx_slots).
Proof.
  split; [split; [|split]|].
  - constructor; [|constructor]. unfold slot_valid. repeat constructor; simpl; auto; discriminate.
  - intros j k [E|[]]. injection E as <- <-. unfold in_shape. simpl. lia.
  - intros q Hq. unfold same_shape in Hq. destruct q as [|[|y [|z q1]] [|q2 q]]; try discriminate. reflexivity.
  - repeat constructor. intros [].
Qed.

Lemma rx_cost m x : vqe_cost 1 (repeat z_obs m) rx_circ [[x]] = Ok (INR m * cos x)%R.
Proof.
  destruct (obs_one 1 z_obs z_obs_fit) as (F & EF & HF & _). destruct (rx_rotation x) as [(Hl & _ & Hc) _].
  assert (HFs : Forall2 (fun o F => full 1 o = Ok F) (repeat z_obs m) (repeat F m)) by (induction m; constructor; assumption).
  rewrite (slots_cost 1 _ _ rx_circ [[x]] rx_slots HFs Hl (Hc _ eq_refl)). f_equal.
  set (u := slots_mat 1 (angles [[x]]) rx_slots).
  assert (U : u 0 0 = RtoC (cos (x / 2)) /\ u 1 0 = mit (sin (x / 2))).
  { assert (E : meq (2 ^ 1) u (madd (mscale (RtoC (cos (x / 2))) mid) (mscale (mit (sin (x / 2))) (pword [1])))).
    { unfold u, rx_slots. rewrite slots_mat_one. unfold qmat. cbn [fill angles nth gate_qop q_wires q_matrix a_ent]. change [0] with (seq 0 1). rewrite emb_all.
      change (word_of "X") with [1]. change (2 ^ List.length [1]) with (2 ^ 1). apply expm_involution. apply (pword_sq (K := C) [1]). repeat constructor. }
    rewrite (E 0 0), (E 1 0) by (simpl; lia). unfold madd, mscale, mid, pword, mit. cbn. split; apply C_ext; simpl; ring. }
  destruct U as [U0 U1].
  assert (Q : Re (quad (2 ^ 1) (fun i => u i 0) (a_ent F)) = cos x).
  { pose proof (one_wire z_obs F eq_refl HF) as E. unfold quad. cbn [Nat.pow Nat.mul Nat.add seq]. rewrite !lsum_cons, !lsum_nil, !E by lia. cbn [kadd kmul kconj k0 CStar]. rewrite U0, U1. simpl.
    assert (D2 : cos x = (cos (x / 2) * cos (x / 2) - sin (x / 2) * sin (x / 2))%R) by (replace x with (2 * (x / 2))%R at 1 by field; apply cos_2a). rewrite D2. ring. }
  unfold energy. clear -Q. induction m as [|m IH]; [cbn; ring|]. cbn [repeat]. unfold rsum. cbn [map fold_right]. fold (rsum (fun O => Re (quad (2 ^ 1) (fun i => u i 0) (a_ent O))) (repeat F m)).
  rewrite IH, Q, S_INR. ring.
Qed.

(** refuted: for every accepted learning rate there is an instance whose first step
    raises the cost *)
Theorem C81_shift_descent_refuted : forall Om U Z kw, ps_accepts kw -> (0 < the_eta kw)%R ->
  exists n obs circ p l, Forall (fits n) obs /\ Forall pauli_type obs /\ rotation_circuit n circ p l /\ NoDup (keys l) /\
  exists r : retval (item (nat -> C) rows Om U Z), shift_optimizer n obs circ RetPlain p kw = Ok r /\
  forall cs ss ps, ps_result kw r cs ss ps -> exists c0 c1, nth_error cs 0 = Some c0 /\ nth_error cs 1 = Some c1 /\ (c0 < c1)%R.
Proof.
  intros Om U Z kw Ha Ht. assert (Hle : (the_eta kw <= 1)%R).
  { destruct Ha as (_ & A2 & _). unfold the_eta. unfold allowed in A2. destruct (arg kw "eta") as [v|]; [|lra]. destruct (A2 v eq_refl) as (x & -> & Hx). lra. }
  set (eta := the_eta kw) in *.
  (* a number of copies that takes the step beyond half a turn *)
  assert (Hm : exists m, (PI < eta * INR m < 2 * PI)%R).
  { pose proof PI_4. pose proof PI_RGT_0. pose proof PI2_3_2.
    destruct (archimed (PI / eta)) as [U1 U2]. set (z := up (PI / eta)) in *.
    assert (Hz : (0 <= z)%Z). { apply le_IZR. apply Rlt_le, Rlt_trans with (PI / eta)%R; [|exact U1]. apply Rdiv_lt_0_compat; lra. }
    exists (Z.to_nat z). rewrite INR_IZR_INZ, Z2Nat.id by exact Hz.
    assert (E : (eta * (PI / eta) = PI)%R) by (field; lra).
    split.
    - rewrite <- E at 1. apply Rmult_lt_compat_l; [exact Ht|exact U1].
    - apply Rle_lt_trans with (eta * (PI / eta + 1))%R; [apply Rmult_le_compat_l; lra|]. rewrite Rmult_plus_distr_l, E. lra. }
  destruct Hm as (m & Hm). exists 1, (repeat z_obs m), rx_circ, [[PI / 2]]%R, rx_slots. destruct (rx_rotation (PI / 2)) as [Hr Hk].
  assert (Hf : Forall (fits 1) (repeat z_obs m)) by (apply Forall_forall; intros o Ho; apply repeat_spec in Ho; subst; apply z_obs_fit).
  split; [exact Hf|]. split; [apply Forall_forall; intros o Ho; apply repeat_spec in Ho; subst; apply z_obs_pauli|]. split; [exact Hr|]. split; [exact Hk|].
  destruct (shift_runs (Om := Om) (U := U) (Z := Z) 1 _ _ _ _ kw Hf Hr Ha) as (r & Er). exists r. split; [exact Er|]. intros cs ss ps Hres.
  unfold shift_optimizer in Er. destruct (C56_shift_histories _ _ _ _ _ _ _ _ _ _ _ _ _ _ Ha Er Hres) as (points & P0 & Hch & Hlen & Hc & _ & _).
  destruct points as [|q0 [|q1 points]]; cbn [List.length] in Hlen; try lia. injection P0 as ->. specialize (Hch 0 _ q1 eq_refl eq_refl). cbv beta in Hch.
  inversion Hc as [|? x0 ? cs' C0 Hc']; subst. inversion Hc' as [|? x1 ? cs'' C1 _]; subst. exists x0, x1. split; [reflexivity|]. split; [reflexivity|].
  pose proof (angles_step _ _ _ _ 0 0 Hch ltac:(unfold in_shape; simpl; lia)) as A. pose proof (gd_shape _ _ _ _ Hch) as S. unfold same_shape in S.
  destruct q1 as [|[|y [|z q1]] [|q2 q]]; try discriminate. cbn [angles nth] in A.
  assert (Ep : partial (vqe_cost 1 (repeat z_obs m) rx_circ) [[(PI / 2)%R]] 0 0 = (- INR m)%R).
  { unfold partial, set_entry. cbn [nth replace_at]. rewrite (Derive_ext _ (fun x => INR m * cos x)%R) by (intros t; rewrite rx_cost; reflexivity).
    apply is_derive_unique. auto_derive; [exact I|]. rewrite sin_PI2. ring. }
  rewrite Ep in A. fold eta in A. rewrite rx_cost in C0, C1. injection C0 as <-. injection C1 as <-. rewrite A, cos_PI2.
  replace (PI / 2 - eta * - INR m)%R with (PI / 2 + eta * INR m)%R by ring. rewrite cos_plus, cos_PI2, sin_PI2. fold eta.
  assert (Sn : (sin (eta * INR m) < 0)%R) by (apply sin_lt_0; lra).
  assert (Pm : (0 < INR m)%R). { destruct (Rle_lt_dec (INR m) 0) as [H|H]; [|exact H]. exfalso. pose proof PI_RGT_0. assert (eta * INR m <= 0)%R by (apply Rmult_le_0_l; lra). lra. }
  nra.
Qed.
Print Assumptions C81_shift_descent_refuted.

(** a run on one qubit from 1/3 with the observable Z, and a circuit of
    AdaptVQELayer with two layers on three qubits *)
Example C80_case : Forall (fits 1) [z_obs] /\ rotation_circuit 1 rx_circ [[/ 3]]%R rx_slots /\ NoDup (keys rx_slots) /\ ps_accepts [("nsteps"%string, PyInt 3)] /\
  cost_slope 1 [z_obs] rx_circ [[/ 3]]%R 0 0 (- sin (/ 3)) /\ (- sin (/ 3) <> 0)%R /\
  2 <= 3 /\ incl [("X"%string, Single); ("ZZ"%string, Odd)] moves /\ Forall (fun r : list R => List.length r = 3) [[1; 2; 3]; [4; 5; 6]]%R.
Proof.
  split; [constructor; [apply z_obs_fit|constructor]|]. split; [apply rx_rotation|]. split; [apply (rx_rotation 0)|]. split.
  { unfold ps_accepts, allowed, arg. cbn. split; [intros v H; injection H as <-; right; exists 3%Z; split; [reflexivity|lia]|]. split; [intros v H; discriminate|]. split; [intros v H; discriminate|].
    intros name [<-|[<-|[]]] v H; discriminate. }
  split.
  { exists cos. split; [|apply is_derive_Reals, derivable_pt_lim_cos]. intros x q (S & E & _). unfold same_shape in S. destruct q as [|[|y [|z q1]] [|q2 q]]; try discriminate.
    cbn in E. subst y. change [z_obs] with (repeat z_obs 1). rewrite rx_cost. f_equal. simpl. ring. }
  split; [assert (0 < sin (/ 3))%R by (pose proof PI2_3_2; apply sin_gt_0; lra); lra|]. split; [lia|]. split; [|repeat constructor].
  intros k [<-|[<-|[]]]; unfold moves; cbn; tauto.
Qed.
