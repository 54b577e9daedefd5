(** Properties C86 and C87: how an AdaptVQELayer trains its parameters, and that the
    layer objects keep their state during a run of approximate_lie_optimizer. *)
From Coq Require Import ZArith Arith Lia Bool String Reals Lra Classical.
From Coquelicot Require Import Coquelicot.
From Verif Require Import Py StarRing Matrix Cplx PauliSpec Expm UtilsModel CircuitModel CircuitProofs CircuitProofs2 AlgebraModel LayerModel LayerProofs GreedyModel AdaptModel AdaptProofs ZasV2Model CommuteModel
  OptimizerModel OptProofs CommuteProofs FlowModel FlowProofs ShiftModel ShiftProofs ApproxModel ApproxProofs PropAlgebra PropLayers PropGreedy PropAdapt PropOptArgs PropOptRun PropFlow PropApprox PropShift RotoWitness.
From Coq Require Import List.
Import ListNotations.
Local Open Scope nat_scope.
Local Open Scope list_scope.

(** ** C86: the training inside a call of AdaptVQELayer *)

(** the keywords of the call in line 577 of opt_tools.py *)
Definition train_kw : kwargs := [("return_params"%string, PyBool true); ("eta"%string, PyFloat (Fin (/ 100))); ("tol"%string, PyFloat (Fin (/ 100000)))].

Lemma train_accepts : ps_accepts train_kw.
Proof.
  split; [intros v E; discriminate|]. split; [intros v E; injection E as <-; exists (/ 100)%R; split; [reflexivity|lra]|].
  split; [intros v E; injection E as <-; right; exists (/ 100000)%R; split; [reflexivity|lra]|].
  intros name [<-|[<-|[]]] v E; [discriminate|injection E as <-; exists true; reflexivity].
Qed.

(** one step of gradient descent by the parameter-shift rule with learning rate eta
    on the cost of the circuits [layers] *)
Definition trained_step (n : nat) (obs : list (qop C)) (layers : list (string * brick)) (eta : R) (p p' : rows) : Prop :=
  same_shape p p' /\
  forall j k forth back, in_shape p j k ->
    with_entry p j k (angles p j k + PI / 2) forth -> with_entry p j k (angles p j k - PI / 2) back ->
    exists c1 c2, vqe_cost n obs (circuit_vqe n layers) forth = Ok c1 /\ vqe_cost n obs (circuit_vqe n layers) back = Ok c2 /\
      angles p' j k = (angles p j k - eta * ((c1 - c2) / 2))%R.

Lemma train n obs layers p h : 2 <= n -> Forall (fits n) obs -> incl layers moves -> List.length layers <= List.length p -> Forall (fun r => List.length r = n) p ->
  layer_optimizer n obs (circuit_vqe n layers) p = Ok h ->
  exists cs, nth_error h 0 = Some p /\ 2 <= List.length h <= 41 /\ chain (fun _ => trained_step n obs layers (/ 100)) h /\
    Forall2 (fun q c => vqe_cost n obs (circuit_vqe n layers) q = Ok c) h cs /\ stop_rule 2 1 (Some (Fin (/ 100000))) 40 cs.
Proof.
  intros Hn Hf Hi Hl Hp E. destruct (C80_adapt_circuits n layers p Hn Hi Hl Hp) as [Hr Hd]. unfold layer_optimizer in E. fold train_kw in E.
  destruct (C80_shift_rule unit unit unit n obs _ p _ train_kw Hf Hr Hd train_accepts) as (r & Er & HR). rewrite Er in E. cbn [bind] in E.
  unfold shift_optimizer in Er. destruct (C60_shift_shape _ _ _ _ _ _ _ _ _ _ _ train_accepts Er) as (cs & ss & ps & Hres).
  destruct (HR cs ss ps Hres) as (points & P0 & PL & PS & PC & Pe & Pch). pose proof (C57_shift_stop _ _ _ _ _ _ _ _ _ _ _ _ _ _ train_accepts Er Hres) as Hst.
  unfold ps_result in Hres. cbn in Hres. rewrite Hres in E. injection E as <-. rewrite (Pe eq_refl). exists cs. split; [exact P0|]. split; [exact PL|]. split; [|split; [exact PC|exact Hst]].
  intros k q q' E1 E2. assert (S1 : same_shape p q) by (rewrite Forall_forall in PS; apply PS; eapply nth_error_In; exact E1).
  assert (S2 : same_shape p q') by (rewrite Forall_forall in PS; apply PS; eapply nth_error_In; exact E2).
  split; [unfold same_shape in *; congruence|]. intros j k' forth back Hi' F B. apply (Pch k q q' E1 E2 j k' forth back); auto.
  eapply shape_in; [|exact Hi']. unfold same_shape in *; congruence.
Qed.

(** a row beyond the layers of the circuit is not changed by the training *)
Lemma shape_len p q j : same_shape p q -> List.length (nth j p []) = List.length (nth j q []).
Proof.
  intros E. pose proof (map_nth (@List.length R) p [] j) as A. pose proof (map_nth (@List.length R) q [] j) as B. unfold same_shape in E. rewrite E in A. congruence.
Qed.

Lemma row_eq p q j : same_shape p q -> (forall k, angles p j k = angles q j k) -> nth j p [] = nth j q [].
Proof. intros E H. apply (nth_ext _ _ 0%R 0%R); [apply shape_len; exact E|]. intros k _. apply H. Qed.

Lemma circuit_rows n layers p q : List.length p = List.length q -> (forall j, j < List.length layers -> nth j p [] = nth j q []) -> circuit_vqe n layers p = circuit_vqe n layers q.
Proof.
  intros Hl H. unfold circuit_vqe. f_equal. apply mapM_ext. intros [j x] Hj. apply in_combine_l in Hj. apply in_seq in Hj. cbn [fst snd]. f_equal. unfold list_get.
  destruct (Nat.lt_ge_cases j (List.length p)) as [Hp|Hp].
  - rewrite (nth_error_nth' p [] Hp), (nth_error_nth' q []) by lia. rewrite H by lia. reflexivity.
  - rewrite (proj2 (nth_error_None p j)), (proj2 (nth_error_None q j)) by lia. reflexivity.
Qed.

Lemma idle_row n obs layers eta p p' j : trained_step n obs layers eta p p' -> List.length layers <= j -> nth j p' [] = nth j p [].
Proof.
  intros (Hs & H) Hj. symmetry. apply row_eq; [exact Hs|]. intros k. destruct (Nat.lt_ge_cases k (List.length (nth j p []))) as [Hk|Hk].
  - assert (Hi : in_shape p j k) by exact Hk. pose proof (entry_set p j k (angles p j k + PI / 2)%R Hi) as F. pose proof (entry_set p j k (angles p j k - PI / 2)%R Hi) as B.
    destruct (H j k _ _ Hi F B) as (c1 & c2 & E1 & E2 & ->).
    assert (G : circuit_vqe n layers (set_entry p j k (angles p j k + PI / 2)) = circuit_vqe n layers (set_entry p j k (angles p j k - PI / 2))).
    { destruct F as (F1 & _ & F2), B as (B1 & _ & B2). apply circuit_rows.
      - apply (f_equal (@List.length nat)) in F1, B1. rewrite !map_length in F1, B1. congruence.
      - intros j' Hj'. assert (Hne : forall k', (j', k') <> (j, k)) by (intros k' E; injection E; lia). apply row_eq; [unfold same_shape in *; congruence|]. intros k'. rewrite F2, B2 by auto. reflexivity. }
    unfold vqe_cost in E1, E2. rewrite G, E2 in E1. injection E1 as ->. field.
  - rewrite !angles_out; [reflexivity| |]; unfold in_shape; rewrite <- ?(shape_len p p' j Hs); lia.
Qed.

Lemma chain_all {A} (step : A -> A -> Prop) (P : A -> Prop) (l : list A) x : nth_error l 0 = Some x -> P x -> (forall a b, step a b -> P a -> P b) -> chain (fun _ => step) l -> forall y, In y l -> P y.
Proof.
  intros H0 Hx Hs Hc y Hy. apply In_nth_error in Hy. destruct Hy as (k & Hk). revert y Hk. induction k as [|k IH]; intros y Hk; [rewrite H0 in Hk; injection Hk as <-; exact Hx|].
  destruct (nth_error l k) as [z|] eqn:Ez.
  - apply (Hs z y (Hc k z y Ez Hk)). apply IH. reflexivity.
  - apply nth_error_None in Ez. assert (S k < List.length l) by (apply nth_error_Some; congruence). lia.
Qed.

Lemma rev_last {A} (l : list A) x r : rev l = x :: r -> nth_error l (List.length l - 1) = Some x.
Proof. intros E. apply (f_equal (@rev A)) in E. rewrite rev_involutive in E. subst l. cbn [rev]. rewrite app_length. cbn [List.length]. rewrite Nat.add_sub, nth_error_app2, Nat.sub_diag by lia. reflexivity. Qed.

Lemma last_params_nth h q : last_params h = Ok q -> nth_error h (List.length h - 1) = Some q.
Proof. unfold last_params. destruct (rev h) as [|y r] eqn:E; [discriminate|]. intros H. injection H as <-. eapply rev_last. exact E. Qed.

Lemma Forall2_nth {A B} (P : A -> B -> Prop) l m : Forall2 P l m -> List.length l = List.length m /\ forall k x, nth_error l k = Some x -> exists y, nth_error m k = Some y /\ P x y.
Proof.
  induction 1 as [|a b l m Hab Hlm (IH1 & IH2)]; [split; [reflexivity|intros [|k] x E; discriminate]|]. split; [cbn; congruence|].
  intros [|k] x E; [injection E as <-; exists b; auto|apply IH2; exact E].
Qed.

(** The call returns; the points visited start at the caller's rows with a row of
    tenths behind them, every step is a parameter-shift step with rate 0.01 on the
    circuit of all layers including the new one, the training takes at most 40
    steps and stops by the rule of parameter_shift_optimizer with tolerance 1e-5,
    the returned rows are the last point, the returned unitary has the last cost,
    and rows beyond those of the layers stay as they are. *)
Theorem C86_adapt_training : forall n obs eta, Forall (fits n) obs -> (0 <= eta <= 1)%R -> 2 <= n ->
  exists l0, AdaptVQELayer n obs eta = Ok l0 /\ forall p0 l p U, Forall (fun r => List.length r = n) p0 -> adapt_after (layer_optimizer n obs) l0 p0 l p ->
  exists V p' l' points cs c, adapt_call (layer_optimizer n obs) l U p = Ok (V, p', l') /\ List.length (ad_layers l') = S (List.length (ad_layers l)) /\
    nth_error points 0 = Some (p ++ [repeat (/ 10)%R n]) /\ 2 <= List.length points <= 41 /\ chain (fun _ => trained_step n obs (ad_layers l') (/ 100)) points /\
    Forall2 (fun q c => vqe_cost n obs (circuit_vqe n (ad_layers l')) q = Ok c) points cs /\ stop_rule 2 1 (Some (Fin (/ 100000))) 40 cs /\
    nth_error points (List.length points - 1) = Some p' /\ nth_error cs (List.length cs - 1) = Some c /\ exact_cost n obs V = Ok c /\
    (forall j, List.length (ad_layers l') <= j <= List.length p -> nth j p' [] = nth j (p ++ [repeat (/ 10)%R n]) []).
Proof.
  intros n obs eta Hf He Hn. destruct (obs_embedded n obs Hf) as (Os & EO & HO). destruct (adapt_init n obs Os eta EO He) as (table & El & Ht).
  eexists. split; [exact El|]. intros p0 l p U Hp0 Ha. set (l0 := mkadapt _ _ _ _ _ _) in *.
  assert (Inv : adapt_sound n l /\ List.length (ad_layers l) <= List.length p /\ Forall (fun r => List.length r = n) p).
  { induction Ha as [|l1 p U' V p' l2 Ha (I1 & I2 & I3) E].
    - split; [eapply adapt_built; eauto|]. split; [cbn; lia|exact Hp0].
    - pose proof (adapt_unitary_call _ n _ _ _ _ _ _ I1 E) as (_ & J & _). split; [exact J|].
      assert (En : ad_n l1 = n) by (destruct I1 as (_ & t & _ & _ & ->); reflexivity).
      destruct (adapt_total n obs l1 U' p Hf I1 I2 I3) as (V' & q & l3 & E' & L & F & G). rewrite En, E in E'. injection E' as <- <- <-. split; [lia|exact F]. }
  destruct Inv as (I1 & I2 & I3). assert (En : ad_n l = n) by (destruct I1 as (_ & t & _ & _ & ->); reflexivity).
  destruct (adapt_total n obs l U p Hf I1 I2 I3) as (V & p' & l' & E & L & F & G). rewrite En in E. exists V, p', l'.
  pose proof (adapt_unitary_call _ n _ _ _ _ _ _ I1 E) as (_ & (_ & t' & _ & Hi' & _) & _).
  assert (Spec : exists h gs W, layer_optimizer n obs (circuit_vqe n (ad_layers l')) (p ++ [repeat (/ 10)%R n]) = Ok h /\ nth_error h (List.length h - 1) = Some p' /\
    circuit_vqe n (ad_layers l') p' = Ok gs /\ circuit_unitary n (map gate_qop gs) = Ok W /\ V = a_ent W).
  { unfold adapt_call in E. rewrite En in E. destruct (mapM (direction_omegas n _) _) as [los|]; cbn [bind] in E; [|discriminate]. destruct (py_max_key (List.concat los)) as [k|]; cbn [bind] in E; [|discriminate].
    destruct (layer_optimizer n obs _ _) as [h|] eqn:Eo; cbn [bind] in E; [|discriminate]. destruct (last_params h) as [q|] eqn:Er; cbn [bind] in E; [|discriminate].
    destruct (circuit_vqe n _ q) as [gs|] eqn:Eg; cbn [bind] in E; [|discriminate]. destruct (circuit_unitary n _) as [W|] eqn:EW; cbn [bind] in E; [|discriminate].
    injection E as <- <- <-. cbn [ad_layers]. exists h, gs, W. split; [exact Eo|]. split; [apply last_params_nth; exact Er|]. auto. }
  destruct Spec as (h & gs & W & Eo & Hlast & Eg & EW & ->).
  assert (P1 : Forall (fun r => List.length r = n) (p ++ [repeat (/ 10)%R n])) by (apply Forall_app; split; [exact I3|constructor; [apply repeat_length|constructor]]).
  destruct (train n obs (ad_layers l') (p ++ [repeat (/ 10)%R n]) h Hn Hf Hi') as (cs & H0 & HL & Hch & Hc & Hst); [rewrite app_length, G; cbn; lia|exact P1|exact Eo|].
  exists h, cs. destruct (Forall2_nth _ _ _ Hc) as (Lc & Hc'). destruct (Hc' _ _ Hlast) as (c & Ec & Evc). exists c.
  split; [exact E|]. split; [exact G|]. split; [exact H0|]. split; [exact HL|]. split; [exact Hch|]. split; [exact Hc|]. split; [exact Hst|]. split; [exact Hlast|].
  split; [rewrite <- Lc; exact Ec|]. split; [unfold vqe_cost in Evc; rewrite Eg in Evc; cbn [bind] in Evc; rewrite EW in Evc; exact Evc|].
  intros j Hj. apply (chain_all (trained_step n obs (ad_layers l') (/ 100)) (fun q => nth j q [] = nth j (p ++ [repeat (/ 10)%R n]) []) h _ H0 eq_refl); [|exact Hch|eapply nth_error_In; exact Hlast].
  intros a b Hab Ea. rewrite <- Ea. eapply idle_row; [exact Hab|lia].
Qed.
Print Assumptions C86_adapt_training.

(** ** C87: the states of the layer objects *)

(** What a call of a layer object does: the circuit U and the rows p become V and
    p', the object becomes o'. The classes are those of opt_tools.py; all but
    AdaptVQELayer leave the rows alone. AdaptVQELayer trains on its own observables
    and its own number of qubits. *)
Inductive layer_step (x : oracles) : layer_obj -> mat C -> rows -> mat C -> rows -> layer_obj -> Prop :=
| step_local l U p V : local_call (or_svd x) l U = Ok V -> layer_step x (OLocal l) U p V p (OLocal l)
| step_custom l U p V : custom_call (or_svd x) l U = Ok V -> layer_step x (OCustom l) U p V p (OCustom l)
| step_squared obs l l' U p V : squared_call l U = Ok (V, l') -> layer_step x (OSquared obs l) U p V p (OSquared obs l')
| step_su8 obs l l' U p V : su8_call l U = Ok (V, l') -> layer_step x (OSU8 obs l) U p V p (OSU8 obs l')
| step_zassenhaus obs l l' U p V : zas_call (or_ord x) l U = Ok (V, l') -> layer_step x (OZassenhaus obs l) U p V p (OZassenhaus obs l')
| step_adapt obs l l' U p V p' : adapt_call (layer_optimizer (ad_n l) obs) l U p = Ok (V, p', l') -> layer_step x (OAdapt obs l) U p V p' (OAdapt obs l')
| step_v2 obs l l' U p V : v2_call (or_minimize x) l U = Ok (V, l') -> layer_step x (OZasV2 obs l) U p V p (OZasV2 obs l').

(** a call: the circuit and rows it is given and those it returns *)
Record made_call := mkcall { in_circuit : mat C; in_rows : rows; out_circuit : mat C; out_rows : rows }.

(** [object_run x o cs o']: the calls cs, in this order, take the object from o to o' *)
Inductive object_run (x : oracles) (o : layer_obj) : list made_call -> layer_obj -> Prop :=
| run_start : object_run x o [] o
| run_call cs o1 c o2 : object_run x o cs o1 -> layer_step x o1 (in_circuit c) (in_rows c) (out_circuit c) (out_rows c) o2 -> object_run x o (cs ++ [c]) o2.

(** the calls of the object number i among numbered calls *)
Definition calls_of (i : nat) (cs : list (nat * made_call)) : list made_call := map snd (filter (fun c => Nat.eqb (fst c) i) cs).

Lemma obj_call_step x commute o U p V p' o' : obj_call x commute o U p = Ok (V, p', o') -> layer_step x o U p V p' o'.
Proof.
  destruct o; cbn [obj_call]; intros E.
  - discriminate.
  - destruct (local_call _ _ _) eqn:Ec; [|discriminate]. injection E as <- <- <-. constructor; exact Ec.
  - destruct (custom_call _ _ _) eqn:Ec; [|discriminate]. injection E as <- <- <-. constructor; exact Ec.
  - destruct (stochastic_call _ _ _) eqn:Ec; [|discriminate]. unfold stochastic_call in Ec. discriminate.
  - destruct commute.
    + destruct (or_bounds x) as [[fa fh] fk]. destruct (commute_call _ _ _ _ _ _ _ _); discriminate.
    + destruct (squared_call l U) as [[W l']|] eqn:Ec; [|discriminate]. cbn in E. injection E as <- <- <-. constructor; exact Ec.
  - destruct (su8_call l U) as [[W l']|] eqn:Ec; [|discriminate]. cbn in E. injection E as <- <- <-. constructor; exact Ec.
  - destruct (zas_call _ l U) as [[W l']|] eqn:Ec; [|discriminate]. cbn in E. injection E as <- <- <-. constructor; exact Ec.
  - destruct (adapt_call _ l U p) as [[[W q] l']|] eqn:Ec; [|discriminate]. cbn in E. injection E as <- <- <-. constructor; exact Ec.
  - destruct (v2_call _ l U) as [[W l']|] eqn:Ec; [|discriminate]. cbn in E. injection E as <- <- <-. constructor; exact Ec.
Qed.

Lemma store_call_step x commute i w U p V p' w' : store_call x commute i w U p = Ok (V, p', w') ->
  exists o o', nth_error w i = Some o /\ layer_step x o U p V p' o' /\ nth_error w' i = Some o' /\ forall j, j <> i -> nth_error w' j = nth_error w j.
Proof.
  unfold store_call, list_get. destruct (nth_error w i) as [o|] eqn:Eo; [|discriminate]. cbn [bind].
  destruct (obj_call x commute o U p) as [[[W q] o']|] eqn:Ec; [|discriminate]. cbn [bind]. intros E. injection E as <- <- <-.
  exists o, o'. split; [reflexivity|]. split; [eapply obj_call_step; exact Ec|]. clear -Eo. revert i Eo. induction w as [|a w IH]; intros [|i] Eo; try discriminate; cbn [replace_at].
  - split; [reflexivity|]. intros [|j] Hj; [congruence|reflexivity].
  - destruct (IH i Eo) as [H1 H2]. split; [exact H1|]. intros [|j] Hj; [reflexivity|]. cbn. apply H2. congruence.
Qed.

(** the name that announces the call of a layer: a ZassenhausLayer announces "su4"
    when the call makes the greedy step over the SU(4) words, and "su8" when it
    rotates by a word B of SU(4) to follow the word AB of SU(8), by the angle that
    the gradient of AB and the angle of the step before determine; the other layers
    have no name *)
Inductive announced : layer_obj -> mat C -> mat C -> option string -> Prop :=
| announced_su4 obs l U V k eta : greedy_step (za_n l) (za_su4 l) (za_su4 l) (za_obs l) U = Ok (k, (V, eta)) ->
    announced (OZassenhaus obs l) U V (Some "su4"%string)
| announced_su8 obs l U angle AB P8 B PB sign : za_prev_eta l = Some angle -> angle <> 0%R -> In (AB, P8) (za_su8 l) -> In (B, PB) (za_su4 l) ->
    announced (OZassenhaus obs l) U
      (mmul (2 ^ za_n l) (expm (2 ^ za_n l) (mscale (mit (za_eta l * (- (gradient (za_n l) (fun i => U i 0) (za_obs l) (a_ent P8) * 2 / angle) / sign) / 2 ^ za_n l)) (a_ent PB))) U)
      (Some "su8"%string)
| announced_none o U V : (forall obs l, o <> OZassenhaus obs l) -> announced o U V None.

(** the directions of the observables a layer was made with; the layers that keep
    arrays have them only without observables *)
Definition own_directions (o : layer_obj) (U : mat C) (om : list (string * R)) : Prop :=
  match o with
  | OLie n obs => obs = [] /\ get_all_su_n_directions n U [] = Ok om
  | OLocal l => lc_observables l = [] /\ get_all_su_n_directions (lc_n l) U [] = Ok om
  | OCustom l => cu_observables l = [] /\ get_all_su_n_directions (cu_n l) U [] = Ok om
  | OStochastic l => st_observables l = [] /\ get_all_su_n_directions (st_n l) U [] = Ok om
  | OSquared obs l => get_all_su_n_directions (gr_n l) U obs = Ok om
  | OSU8 obs l => get_all_su_n_directions (gr_n l) U obs = Ok om
  | OZassenhaus obs l => get_all_su_n_directions (za_n l) U obs = Ok om
  | OAdapt obs l => get_all_su_n_directions (ad_n l) U obs = Ok om
  | OZasV2 obs l => get_all_su_n_directions (v2_n l) U obs = Ok om
  end.

Lemma array_directions n (obs : list (arr C)) U om : get_lie_algebra_directions n (map ObsArr obs) U = Ok om ->
  obs = [] /\ get_all_su_n_directions n U [] = Ok om.
Proof. destruct obs as [|a obs]; intros E; [split; [reflexivity|exact E]|discriminate]. Qed.

Lemma qop_directions n (obs : list (qop C)) U om : get_lie_algebra_directions n (map ObsQ obs) U = Ok om ->
  get_all_su_n_directions n U obs = Ok om.
Proof.
  unfold get_lie_algebra_directions. destruct (mapM (fun o => do q <- as_qop o; full n q) (map ObsQ obs)); [|discriminate]. cbn [bind].
  assert (Eb : mapM as_qop (map ObsQ obs) = Ok obs).
  { clear. induction obs as [|o obs IH]; [reflexivity|]. cbn [map mapM as_qop bind]. rewrite IH. reflexivity. }
  rewrite Eb. auto.
Qed.

Lemma own_spec o U om : obj_directions o U = Ok om -> own_directions o U om.
Proof. destruct o; cbn [obj_directions own_directions]; intros E; try (apply array_directions; exact E); apply qop_directions; exact E. Qed.

Lemma announced_spec x o U p V p' o' : layer_step x o U p V p' o' -> announced o U V (obj_state o).
Proof.
  intros S. destruct S; try (apply announced_none; intros; discriminate).
  rename H into E. cbn [obj_state]. unfold zas_call in E. destruct (za_state l).
  - destruct (greedy_step _ _ _ _ _) as [[k [W eta]]|] eqn:Eg; [|discriminate]. cbn [bind] in E. injection E as <- _.
    eapply announced_su4. exact Eg.
  - destruct (za_current l) as [current|]; [|discriminate]. destruct (za_prev_eta l) as [angle|] eqn:Ea; [|discriminate].
    destruct (dget key_eqb (za_su4 l) current); [|discriminate]. cbn [bind] in E.
    destruct (foldM _ _ _) as [cs|]; [|discriminate]. cbn [bind] in E. destruct (pick_cand _ _) as [[[AB B]|]|]; [|discriminate|discriminate]. cbn [bind] in E.
    destruct (dget key_eqb (za_su8 l) AB) as [P8|] eqn:E8; [|discriminate]. cbn [bind] in E.
    destruct (dget key_eqb (cd_su8 cs) AB) as [vBs|]; [|discriminate]. cbn [bind] in E. destruct (Req_EM_T angle 0) as [|Hne]; [discriminate|].
    destruct (dget key_eqb (za_su4 l) B) as [PB|] eqn:EB; [|discriminate]. cbn [bind] in E. injection E as <- _.
    apply dget_key in E8. apply dget_key in EB. eapply announced_su8; eauto.
Qed.

(** one entry for every pair of neighbours *)
Lemma collect {A B} (P : nat -> A -> A -> B -> Prop) (l : list A) : forall n, List.length l = S n ->
  (forall k a b, nth_error l k = Some a -> nth_error l (S k) = Some b -> exists c, P k a b c) ->
  exists cs, List.length cs = n /\ forall k a b c, nth_error l k = Some a -> nth_error l (S k) = Some b -> nth_error cs k = Some c -> P k a b c.
Proof.
  intros n Hn H. assert (G : forall m, m <= n -> exists cs, List.length cs = m /\ forall k a b c, nth_error l k = Some a -> nth_error l (S k) = Some b -> nth_error cs k = Some c -> P k a b c).
  { induction m as [|m IH]; intros Hm; [exists []; split; [reflexivity|intros [|k] a b c _ _ E; discriminate]|].
    destruct (IH ltac:(lia)) as (cs & Lc & Hcs). destruct (nth_error l m) as [a|] eqn:Ea; [|apply nth_error_None in Ea; lia]. destruct (nth_error l (S m)) as [b|] eqn:Eb; [|apply nth_error_None in Eb; lia].
    destruct (H m a b Ea Eb) as (c & Hc). exists (cs ++ [c]). split; [rewrite app_length, Lc; cbn; lia|]. intros k a' b' c' Ea' Eb' Ec'.
    destruct (Nat.lt_ge_cases k m) as [Hk|Hk]; [rewrite nth_error_app1 in Ec' by lia; eapply Hcs; eauto|]. rewrite nth_error_app2 in Ec' by lia.
    assert (k < m + 1) by (assert (k - List.length cs < List.length [c]) by (apply nth_error_Some; congruence); cbn in *; lia). assert (k = m) by lia. subst k. rewrite Lc, Nat.sub_diag in Ec'. injection Ec' as <-. congruence. }
  destruct (G n (Nat.le_refl n)) as (cs & Hcs). exists cs. exact Hcs.
Qed.

(** A run makes one call per step, of the layers in turn. The calls hand on circuit
    and rows; before step k an object is in the state it has after its own calls
    among the first k, whatever other objects are called in between; the reported
    directions are those of the observables of the object, the reported su_state names
    the kind of step the call makes. *)
Theorem C87_layer_objects : forall x eigh random n gates obs w ls params kw r cs ss os us ps zs, ap_accepts (AList (map Some ls)) kw ->
  approx_optimizer x eigh random n gates obs w RetState (AList (map Some ls)) params kw = Ok r -> ap_result kw r cs ss os us ps zs ->
  exists calls circuits, List.length circuits = S (List.length calls) /\ List.length cs = S (List.length calls) /\
    Forall2 (fun u c => exact_cost n obs u = Ok c) circuits cs /\ (the_flag kw "return_unitary" = true -> us = circuits) /\
    (forall k i c, nth_error calls k = Some (i, c) ->
       nth_error ls (k mod List.length ls) = Some i /\ nth_error circuits (S k) = Some (out_circuit c) /\
       (exists u, nth_error circuits k = Some u /\
          restart (the_flag kw "perturb") 8 5 (the_opt_tol kw) cs (random_perturb eigh n random (the_eta kw)) k u (in_circuit c)) /\
       match k with O => in_rows c = params | S k' => exists i' c', nth_error calls k' = Some (i', c') /\ in_rows c = out_rows c' end /\
       exists o0 o o', nth_error w i = Some o0 /\ object_run x o0 (calls_of i (firstn k calls)) o /\
         layer_step x o (in_circuit c) (in_rows c) (out_circuit c) (out_rows c) o' /\
         (the_flag kw "return_omegas" = true -> exists om, nth_error os k = Some om /\ own_directions o' (out_circuit c) om) /\
         (the_flag kw "return_zassenhaus" = true -> exists s, nth_error zs k = Some s /\ announced o (in_circuit c) (out_circuit c) s)).
Proof.
  intros x eigh random n gates obs w ls params kw r cs ss os us ps zs Ha E Hr. unfold approx_optimizer in E.
  destruct (C56_C59_approximate_histories _ _ _ _ _ _ _ _ _ _ _ _ _ _ _ _ _ _ _ _ _ _ _ _ Ha E Hr) as (confs & u0 & m & ls' & Els & _ & H0 & HL & _ & Hch & Hc & _ & Hu & _ & _).
  assert (ls' = ls). { injection Els as Els. clear -Els. revert ls' Els. induction ls as [|a ls IH]; intros [|b ls'] Els; try discriminate; [reflexivity|]. injection Els as -> Els. f_equal. apply IH. exact Els. }
  subst ls'. clear Els.
  destruct (collect (fun k a b (ic : nat * made_call) => let (i, c) := ic in
     restart (the_flag kw "perturb") 8 5 (the_opt_tol kw) cs (random_perturb eigh n random (the_eta kw)) k (unitary_of a) (in_circuit c) /\
     nth_error ls (k mod List.length ls) = Some i /\ in_rows c = params_of a /\ out_circuit c = unitary_of b /\ out_rows c = params_of b /\
     store_call x (truthy (kw_get kw "commute" (PyBool false))) i (objects a) (in_circuit c) (params_of a) = Ok (unitary_of b, params_of b, objects b) /\
     (the_flag kw "return_omegas" = true -> exists o, nth_error os k = Some o /\ store_directions i (objects b) (unitary_of b) = Ok o) /\
     (the_flag kw "return_zassenhaus" = true -> exists z, nth_error zs k = Some z /\ store_state i (objects a) = Ok z)) confs m HL) as (calls & Lc & Hcs).
  { intros k a b Ea Eb. destruct (Hch k a b Ea Eb) as (u' & i & R & Ni & Ec & Ho & Hz). exists (i, mkcall u' (params_of a) (unitary_of b) (params_of b)). cbn. tauto. }
  exists calls, (map unitary_of confs). rewrite map_length, HL, Lc. split; [reflexivity|].
  destruct (Forall2_nth _ _ _ Hc) as (Lcs & _). split; [congruence|]. split; [clear -Hc; induction Hc; constructor; auto|]. split; [exact Hu|].
  (* the states *)
  assert (St : forall k conf i, nth_error confs k = Some conf -> nth_error (objects conf) i = None /\ nth_error w i = None \/
     exists o0 o, nth_error w i = Some o0 /\ nth_error (objects conf) i = Some o /\ object_run x o0 (calls_of i (firstn k calls)) o).
  { induction k as [|k IH]; intros conf i Ek.
    - rewrite H0 in Ek. injection Ek as <-. unfold objects. cbn [fst]. destruct (nth_error w i) as [o|]; [right; exists o, o; repeat split; constructor|left; auto].
    - destruct (nth_error confs k) as [a|] eqn:Ea; [|apply nth_error_None in Ea; assert (S k < List.length confs) by (apply nth_error_Some; congruence); lia].
      assert (Hk : k < List.length calls) by (assert (S k < List.length confs) by (apply nth_error_Some; congruence); lia).
      destruct (nth_error calls k) as [[i' c]|] eqn:Eck; [|apply nth_error_None in Eck; lia].
      pose proof (Hcs k a conf (i', c) Ea Ek Eck) as (_ & _ & R1 & R2 & R3 & Ec & _ & _). destruct (store_call_step _ _ _ _ _ _ _ _ _ Ec) as (o & o' & S1 & S2 & S3 & S4).
      assert (Fs : firstn (S k) calls = firstn k calls ++ [(i', c)]).
      { clear -Eck. revert calls Eck. induction k as [|k IH]; intros [|d calls] E; try discriminate; [injection E as ->; reflexivity|]. cbn [firstn app]. f_equal. apply IH. exact E. }
      unfold calls_of. rewrite Fs, filter_app, map_app. cbn [filter fst]. fold (calls_of i (firstn k calls)). destruct (Nat.eqb_spec i' i) as [->|Hne].
      + right. destruct (IH a i eq_refl) as [[Hn _]|(o0 & o1 & W1 & W2 & W3)]; [congruence|]. exists o0, o'. split; [exact W1|]. split; [exact S3|]. cbn [map snd]. apply run_call with (o1 := o1); [exact W3|].
        rewrite W2 in S1. injection S1 as ->. rewrite R1, R2, R3. exact S2.
      + cbn [map]. rewrite app_nil_r. rewrite S4 by congruence. exact (IH a i eq_refl). }
  intros k i c Eck. assert (Hk : k < List.length calls) by (apply nth_error_Some; congruence).
  destruct (nth_error confs k) as [a|] eqn:Ea; [|apply nth_error_None in Ea; lia]. destruct (nth_error confs (S k)) as [b|] eqn:Eb; [|apply nth_error_None in Eb; lia].
  pose proof (Hcs k a b (i, c) Ea Eb Eck) as (R & Ni & R1 & R2 & R3 & Ec & Ho & Hz). split; [exact Ni|].
  split; [rewrite nth_error_map, Eb, R2; reflexivity|]. split; [exists (unitary_of a); rewrite nth_error_map, Ea; split; [reflexivity|exact R]|]. split.
  { destruct k as [|k']; [rewrite H0 in Ea; injection Ea as <-; exact R1|]. destruct (nth_error calls k') as [[i' c']|] eqn:Ec'; [|apply nth_error_None in Ec'; lia]. exists i', c'. split; [reflexivity|].
    destruct (nth_error confs k') as [a'|] eqn:Ea'; [|apply nth_error_None in Ea'; lia]. pose proof (Hcs k' a' a (i', c') Ea' Ea Ec') as (_ & _ & _ & _ & R3' & _). congruence. }
  destruct (store_call_step _ _ _ _ _ _ _ _ _ Ec) as (o & o' & S1 & S2 & S3 & S4). destruct (St k a i Ea) as [[Hn _]|(o0 & o1 & W1 & W2 & W3)]; [congruence|].
  rewrite W2 in S1. injection S1 as ->. exists o0, o, o'. split; [exact W1|]. split; [exact W3|]. rewrite R1, R2, R3. split; [exact S2|]. split.
  - intros Hf. destruct (Ho Hf) as (om & E1 & E2). exists om. split; [exact E1|]. unfold store_directions, list_get in E2. rewrite S3 in E2. apply own_spec. exact E2.
  - intros Hf. destruct (Hz Hf) as (z & E1 & E2). unfold store_state, list_get in E2. rewrite W2 in E2. cbn in E2. injection E2 as <-. exists (obj_state o). split; [exact E1|]. rewrite <- R2. eapply announced_spec. rewrite R2. exact S2.
Qed.
Print Assumptions C87_layer_objects.

(** ** The hypotheses are met *)

(** a layer that has been called twice *)
Example C86_case : Forall (fits 3) obs4 /\ (0 <= 1 <= 1)%R /\ 2 <= 3 /\ forall l0, AdaptVQELayer 3 obs4 1 = Ok l0 ->
  exists l p, adapt_after (layer_optimizer 3 obs4) l0 [] l p /\ List.length (ad_layers l) = 2.
Proof.
  destruct C48_case as (Hf & He & _). split; [exact Hf|]. split; [exact He|]. split; [lia|]. intros l0 E0.
  destruct (C86_adapt_training 3 obs4 1 Hf He ltac:(lia)) as (l0' & E0' & H). rewrite E0 in E0'. injection E0' as <-.
  assert (L0 : ad_layers l0 = []).
  { destruct (mapM_full 3 obs4 Hf) as (Fs & EF & _). destruct (adapt_init 3 obs4 Fs 1 EF He) as (t & E & _). rewrite E0 in E. injection E as ->. reflexivity. }
  destruct (H [] l0 [] mid (Forall_nil _) (adapt_start _ _ _)) as (V1 & p1 & l1 & _ & _ & _ & E1 & L1 & _).
  assert (A1 : adapt_after (layer_optimizer 3 obs4) l0 [] l1 p1) by (eapply adapt_step; [apply adapt_start|exact E1]).
  destruct (H [] l1 p1 V1 (Forall_nil _) A1) as (V2 & p2 & l2 & _ & _ & _ & E2 & L2 & _).
  exists l2, p2. split; [eapply adapt_step; [exact A1|exact E2]|]. rewrite L2, L1, L0. reflexivity.
Qed.

(** ten steps of three layers in the order 0, 1, 2, 1 *)
Example C87_case : exists x eigh w r cs ss os us ps zs, List.length w = 3 /\ ap_accepts (AList (map Some [0; 1; 2; 1])) (run_kw (1 / 10)) /\
  approx_optimizer x eigh (fun _ _ _ => 0%R) 2 [mkqop lit_X [0]] two_obs w RetState (AList (map Some [0; 1; 2; 1])) [] (run_kw (1 / 10)) = Ok r /\
  ap_result (run_kw (1 / 10)) r cs ss os us ps zs.
Proof.
  destruct C66_C62_case as (x & eigh & w & r & _ & _ & _ & _ & Lw & E & _). assert (A : ap_accepts (AList (map Some [0; 1; 2; 1])) (run_kw (1 / 10))) by (apply run_kw_ok; lra).
  pose proof E as E'. unfold approx_optimizer in E'. destruct (C60_approximate_shape _ _ _ _ _ _ _ _ _ _ _ _ _ _ _ _ _ _ A E') as (cs & ss & os & us & ps & zs & Hr).
  exists x, eigh, w, r, cs, ss, os, us, ps, zs. auto.
Qed.
