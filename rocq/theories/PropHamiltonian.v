(** Property C115: which parts of the library depend on the observables through their
    sum only. *)
From Coq Require Import ZArith Arith Lia Bool String Reals Lra FunctionalExtensionality Permutation.
From Coquelicot Require Import Coquelicot.
From Verif Require Import Py StarRing Matrix Cplx Expm UtilsModel CircuitModel CircuitProofs2 AlgebraModel LayerModel LayerProofs GreedyModel GreedyProofs RotoProofs AdaptModel ZasV2Model CommuteModel OptimizerModel
  FlowModel ShiftModel ApproxModel PauliSpec AlgebraProofs LayerProofs2 PauliBasis Bits PropLayers PropGreedy PropOptArgs PropOptRun PropFlow PropMany PropApprox PropRedBlue PropPhase.
From Coq Require Import List.
Import ListNotations.
Local Open Scope nat_scope.
Local Open Scope list_scope.

(** ** Specification *)

(** two lists of observables with the same Hamiltonian *)
Definition same_hamiltonian (n : nat) (obs obs' : list (qop C)) : Prop :=
  Forall (fits n) obs /\ Forall (fits n) obs' /\ exists H H', get_hamiltonian_matrix n obs None = Ok H /\ get_hamiltonian_matrix n obs' None = Ok H' /\
  forall i j, i < 2 ^ n -> j < 2 ^ n -> a_ent H i j = a_ent H' i j.

(** two layers of the same class built with the same arguments, but on the first and on
    the second list *)
Inductive built_alike (n : nat) (obs obs' : list (qop C)) : layer_obj -> layer_obj -> Prop :=
| alike_squared eta l l' : SquaredLieAlgebraLayer n obs eta = Ok l -> SquaredLieAlgebraLayer n obs' eta = Ok l' ->
    built_alike n obs obs' (OSquared obs l) (OSquared obs' l')
| alike_su8 eta s2 s4 l l' : SU8_AlgebraLayer n obs eta s2 s4 = Ok l -> SU8_AlgebraLayer n obs' eta s2 s4 = Ok l' ->
    built_alike n obs obs' (OSU8 obs l) (OSU8 obs' l')
| alike_zas eta s2 s4 ratio l l' : ZassenhausLayer n obs eta s2 s4 ratio = Ok l -> ZassenhausLayer n obs' eta s2 s4 ratio = Ok l' ->
    built_alike n obs obs' (OZassenhaus obs l) (OZassenhaus obs' l')
| alike_adapt eta l l' : AdaptVQELayer n obs eta = Ok l -> AdaptVQELayer n obs' eta = Ok l' ->
    built_alike n obs obs' (OAdapt obs l) (OAdapt obs' l')
| alike_v2 ord ordS eta s2 s4 l l' : ZassenhausLayerV2 ord ordS n obs eta s2 s4 = Ok l -> ZassenhausLayerV2 ord ordS n obs' eta s2 s4 = Ok l' ->
    built_alike n obs obs' (OZasV2 obs l) (OZasV2 obs' l').

(** ** Sums *)
Definition same_sum (n : nat) (Fs Gs : list (arr C)) : Prop := meq (2 ^ n) (msum a_ent Fs) (msum a_ent Gs).

Lemma ham_entries n obs H : Forall (fits n) obs -> get_hamiltonian_matrix n obs None = Ok H -> exists Fs, mapM (full n) obs = Ok Fs /\ meq (2 ^ n) (a_ent H) (msum a_ent Fs).
Proof.
  intros Hf EH. destruct (PropCircuit.C36_weighted_sum C CStar n obs None Hf) as [A _]. destruct A as (H' & Gs & E & _ & _ & EG & Ent & _); [rewrite repeat_length; lia|].
  rewrite EH in E. injection E as <-. exists Gs. split; [exact EG|]. intros r s Hr Hs. rewrite (Ent r s Hr Hs). unfold msum.
  assert (L : List.length Gs = List.length obs).
  { clear - EG. revert Gs EG. induction obs as [|o obs IH]; intros Gs E; cbn in E; [injection E as <-; reflexivity|]. destruct (get_full_operator _ _ _); cbn in E; [|discriminate].
    destruct (mapM _ obs) eqn:E2; cbn in E; [|discriminate]. injection E as <-. cbn. f_equal. apply IH. reflexivity. }
  rewrite <- L. clear. induction Gs as [|G Gs IH]; [reflexivity|]. cbn [List.length repeat combine]. rewrite !lsum_cons, IH. cbn [fst snd kmul k1 kadd CStar]. rewrite Cmult_1_l. reflexivity.
Qed.

Lemma same_fulls n obs obs' : same_hamiltonian n obs obs' -> exists Fs Gs, mapM (full n) obs = Ok Fs /\ mapM (full n) obs' = Ok Gs /\ same_sum n Fs Gs.
Proof.
  intros (Hf & Hf' & H & H' & E & E' & M). destruct (ham_entries n obs H Hf E) as (Fs & EF & MF). destruct (ham_entries n obs' H' Hf' E') as (Gs & EG & MG).
  exists Fs, Gs. split; [exact EF|]. split; [exact EG|]. intros i j Hi Hj. rewrite <- (MF i j Hi Hj), <- (MG i j Hi Hj). apply M; assumption.
Qed.

Lemma gradient_same n phi Fs Gs : same_sum n Fs Gs -> gradient n phi Fs = gradient n phi Gs.
Proof. intros H. apply functional_extensionality. intros P. rewrite !gradient_eq. unfold omega. f_equal. apply quad_comm_ext; [reflexivity|exact H]. Qed.
Lemma abs_gradients_same n phi Fs Gs t : same_sum n Fs Gs -> abs_gradients n phi Fs t = abs_gradients n phi Gs t.
Proof. intros H. unfold abs_gradients. rewrite (gradient_same n phi Fs Gs H). reflexivity. Qed.
Lemma expvals n Fs U : rsum (fun F => qnode_expval n U (a_ent F)) Fs = Re (quad (2 ^ n) (qnode_state U) (msum a_ent Fs)).
Proof. rewrite quad_msum, lsum_Re. reflexivity. Qed.
Lemma total_cost_same n Fs Gs U : same_sum n Fs Gs -> total_cost n Fs U = total_cost n Gs U.
Proof. intros H. unfold total_cost. rewrite !fold_left_rsum, !expvals. rewrite (quad_ext (2 ^ n) (qnode_state U) _ _ H). reflexivity. Qed.
Lemma rotosolve_same n P Fs Gs U k : same_sum n Fs Gs -> rotosolve n P Fs U k = rotosolve n P Gs U k.
Proof. intros H. unfold rotosolve. rewrite !(total_cost_same n Fs Gs) by exact H. reflexivity. Qed.
Lemma greedy_same n t ad Fs Gs U : same_sum n Fs Gs -> greedy_step n t ad Fs U = greedy_step n t ad Gs U.
Proof.
  intros H. unfold greedy_step. rewrite (abs_gradients_same n _ Fs Gs) by exact H. destruct (py_max_key _); cbn [bind]; [|reflexivity]. destruct (dget _ _ _); cbn [bind]; [|reflexivity].
  rewrite (rotosolve_same n _ Fs Gs) by exact H. reflexivity.
Qed.
Lemma cost_sum n obs Fs U : mapM (full n) obs = Ok Fs -> forall c, foldM (fun c o => do e <- expval n U o; Ok (c + e)%R) obs c = Ok (c + rsum (fun F => qnode_expval n U (a_ent F)) Fs)%R.
Proof.
  revert Fs. induction obs as [|o obs IH]; intros Fs E c; cbn in E; [injection E as <-; cbn; f_equal; ring|]. destruct (full n o) as [F|] eqn:EF; cbn in E; [|discriminate].
  destruct (mapM (full n) obs) as [Gs|] eqn:E2; cbn in E; [|discriminate]. injection E as <-. cbn. unfold expval at 1. rewrite EF. cbn. rewrite (IH Gs eq_refl). f_equal. ring.
Qed.
Lemma cost_same n obs obs' : same_hamiltonian n obs obs' -> exact_cost n obs = exact_cost n obs'.
Proof.
  intros H. destruct (same_fulls n obs obs' H) as (Fs & Gs & EF & EG & S). apply functional_extensionality. intros U. unfold exact_cost. rewrite (cost_sum n obs Fs U EF), (cost_sum n obs' Gs U EG), !expvals.
  rewrite (quad_ext (2 ^ n) (qnode_state U) _ _ S). reflexivity.
Qed.
Lemma vqe_cost_same n obs obs' : same_hamiltonian n obs obs' -> vqe_cost n obs = vqe_cost n obs'.
Proof. intros H. unfold vqe_cost. rewrite (cost_same n obs obs' H). reflexivity. Qed.
Lemma directions_same n obs obs' : same_hamiltonian n obs obs' -> get_lie_algebra_directions n (map ObsQ obs) = get_lie_algebra_directions n (map ObsQ obs').
Proof.
  intros H. destruct (same_fulls n obs obs' H) as (Fs & Gs & EF & EG & S). apply functional_extensionality. intros U. unfold get_lie_algebra_directions.
  assert (A : forall l, mapM as_qop (map ObsQ l) = Ok l). { induction l as [|o l IH]; cbn; [reflexivity|]. rewrite IH. reflexivity. }
  assert (B : forall l, mapM (fun o => do q <- as_qop o; full n q) (map ObsQ l) = mapM (full n) l). { induction l as [|o l IH]; cbn; [reflexivity|]. rewrite IH. reflexivity. }
  rewrite !A, !B, EF, EG. cbn [bind]. unfold get_all_su_n_directions. rewrite EF, EG. cbn [bind]. destruct (get_su_n_operators _ _ _) as [(ps & [names|])|]; cbn [bind]; try reflexivity.
  f_equal. apply map_ext. intros pn. f_equal.
  assert (D : forall l, fold_left (fun om obs => (om + Im (quad (2 ^ n) (qnode_state U) (msub (mmul (2 ^ n) (a_ent (fst pn)) (a_ent obs)) (mmul (2 ^ n) (a_ent obs) (a_ent (fst pn))))) / 2 ^ n)%R) l 0%R =
    (Im (quad (2 ^ n) (qnode_state U) (msub (mmul (2 ^ n) (a_ent (fst pn)) (msum a_ent l)) (mmul (2 ^ n) (msum a_ent l) (a_ent (fst pn))))) / 2 ^ n)%R).
  { intros l. rewrite (fold_left_rsum (fun obs : arr C => (Im (quad (2 ^ n) (qnode_state U) (msub (mmul (2 ^ n) (a_ent (fst pn)) (a_ent obs)) (mmul (2 ^ n) (a_ent obs) (a_ent (fst pn))))) / 2 ^ n)%R)).
    rewrite <- quad_comm_sum. rewrite Rplus_0_l. induction l as [|a l IH]; cbn [rsum]; [unfold Rdiv; ring|]. rewrite IH. unfold Rdiv. ring. }
  rewrite !D. rewrite (quad_comm_ext (2 ^ n) (qnode_state U) (a_ent (fst pn)) (a_ent (fst pn)) _ _ ltac:(reflexivity) S). reflexivity.
Qed.

(** ** Layers that differ in their observables only *)
Inductive alike : layer_obj -> layer_obj -> Prop :=
| al_squared n obs obs' t Fs Gs prev : same_hamiltonian n obs obs' -> same_sum n Fs Gs -> alike (OSquared obs (mkgreedy n t Fs prev)) (OSquared obs' (mkgreedy n t Gs prev))
| al_su8 n obs obs' t Fs Gs prev : same_hamiltonian n obs obs' -> same_sum n Fs Gs -> alike (OSU8 obs (mkgreedy n t Fs prev)) (OSU8 obs' (mkgreedy n t Gs prev))
| al_zas n obs obs' eta t4 t8 Fs Gs ratio c s cur pe : same_hamiltonian n obs obs' -> same_sum n Fs Gs ->
    alike (OZassenhaus obs (mkzas n eta t4 t8 Fs ratio c s cur pe)) (OZassenhaus obs' (mkzas n eta t4 t8 Gs ratio c s cur pe))
| al_adapt n obs obs' ds t Fs Gs prev ls : same_hamiltonian n obs obs' -> same_sum n Fs Gs -> alike (OAdapt obs (mkadapt n ds t Fs prev ls)) (OAdapt obs' (mkadapt n ds t Gs prev ls))
| al_v2 n obs obs' eta t2 t4 t8 Fs Gs terms ps : same_hamiltonian n obs obs' -> same_sum n Fs Gs ->
    alike (OZasV2 obs (mkv2 n eta t2 t4 t8 Fs terms ps)) (OZasV2 obs' (mkv2 n eta t2 t4 t8 Gs terms ps)).

Lemma built_alike_alike n obs obs' o o' : same_hamiltonian n obs obs' -> built_alike n obs obs' o o' -> alike o o'.
Proof.
  intros H B. destruct (same_fulls n obs obs' H) as (Fs & Gs & EF & EG & S).
  destruct B as [eta l l' E E'|eta s2 s4 l l' E E'|eta s2 s4 ratio l l' E E'|eta l l' E E'|ord ordS eta s2 s4 l l' E E'].
  - unfold SquaredLieAlgebraLayer in E, E'. rewrite EF in E. rewrite EG in E'. cbn [bind] in E, E'.
    destruct (py_assert _); cbn [bind] in E, E'; [|discriminate]. destruct (AlgebraSU4 n true); cbn [bind] in E, E'; [|discriminate]. destruct (get_all_directions_and_qubits _); cbn [bind] in E, E'; [|discriminate].
    injection E as <-. injection E' as <-. constructor; assumption.
  - unfold SU8_AlgebraLayer in E, E'. rewrite EF in E. rewrite EG in E'. cbn [bind] in E, E'.
    do 2 (destruct (py_assert _); cbn [bind] in E, E'; [|discriminate]). destruct (AlgebraSU8 _ _ _); cbn [bind] in E, E'; [|discriminate]. destruct (get_all_directions_and_qubits8 _); cbn [bind] in E, E'; [|discriminate].
    injection E as <-. injection E' as <-. constructor; assumption.
  - unfold ZassenhausLayer in E, E'. rewrite EF in E. rewrite EG in E'. cbn [bind] in E, E'.
    do 2 (destruct (py_assert _); cbn [bind] in E, E'; [|discriminate]). destruct (AlgebraSU2 _) as [a2|]; cbn [bind] in E, E'; [|discriminate]. destruct (AlgebraSU4 _ _) as [a4|]; cbn [bind] in E, E'; [|discriminate]. destruct (AlgebraSU8 _ _ _) as [a8|]; cbn [bind] in E, E'; [|discriminate].
    destruct (get_all_directions_and_qubits a2); cbn [bind] in E, E'; [|discriminate]. destruct (get_all_directions_and_qubits a4); cbn [bind] in E, E'; [|discriminate]. destruct (get_all_directions_and_qubits8 a8); cbn [bind] in E, E'; [|discriminate].
    injection E as <-. injection E' as <-. constructor; assumption.
  - unfold AdaptVQELayer in E, E'. rewrite EF in E. rewrite EG in E'. cbn [bind] in E, E'.
    destruct (py_assert _); cbn [bind] in E, E'; [|discriminate]. destruct (AlgebraSU4 n true); cbn [bind] in E, E'; [|discriminate]. destruct (get_all_directions_and_qubits _); cbn [bind] in E, E'; [|discriminate].
    injection E as <-. injection E' as <-. constructor; assumption.
  - unfold ZassenhausLayerV2 in E, E'. rewrite EF in E. rewrite EG in E'. cbn [bind] in E, E'.
    destruct (py_assert _); cbn [bind] in E, E'; [|discriminate]. destruct (AlgebraSU2 _) as [a2|]; cbn [bind] in E, E'; [|discriminate]. destruct (AlgebraSU4 _ _) as [a4|]; cbn [bind] in E, E'; [|discriminate]. destruct (AlgebraSU8 _ _ _) as [a8|]; cbn [bind] in E, E'; [|discriminate].
    destruct (get_all_directions_and_qubits a2); cbn [bind] in E, E'; [|discriminate]. destruct (get_all_directions_and_qubits a4); cbn [bind] in E, E'; [|discriminate]. destruct (get_all_directions_and_qubits8 a8); cbn [bind] in E, E'; [|discriminate].
    destruct v2_circuit as [ci|]; cbn [bind] in E, E'; [|discriminate]. destruct (foldM _ _ _) as [bch|]; cbn [bind] in E, E'; [|discriminate]. destruct (list_get bch 2) as [la|]; cbn [bind] in E, E'; [|discriminate].
    destruct (mapM _ _) as [te|]; cbn [bind] in E, E'; [|discriminate]. injection E as <-. injection E' as <-. constructor; assumption.
Qed.

Definition step_rel {L} (RL : L -> L -> Prop) (x y : mat C * rows * L) : Prop := fst x = fst y /\ RL (snd x) (snd y).

Lemma zas_ways ord n eta t4 t8 Fs Gs ratio c s cur pe U : same_sum n Fs Gs ->
  both_ways (fun x y => fst x = fst y /\ exists c s cur pe, snd x = mkzas n eta t4 t8 Fs ratio c s cur pe /\ snd y = mkzas n eta t4 t8 Gs ratio c s cur pe)
    (zas_call ord (mkzas n eta t4 t8 Fs ratio c s cur pe) U) (zas_call ord (mkzas n eta t4 t8 Gs ratio c s cur pe) U).
Proof.
  intros H. unfold zas_call. cbn [za_n za_eta za_su4 za_su8 za_obs za_ratio za_counter za_state za_current za_prev_eta]. destruct s.
  - rewrite (greedy_same n t4 t4 Fs Gs U H). destruct (greedy_step _ _ _ _ _) as [(k & V & e)|]; cbn [bind]; [|reflexivity]. cbn. split; [reflexivity|]. do 4 eexists. split; reflexivity.
  - destruct cur as [cu|]; [|reflexivity]. destruct pe as [wa|]; [|reflexivity]. eapply ways_bind; [apply ways_refl|]. intros ? ? _.
    assert (E : cand_step ord n (qnode_state U) Fs t4 t8 cu = cand_step ord n (qnode_state U) Gs t4 t8 cu). { unfold cand_step. rewrite (gradient_same n (qnode_state U) Fs Gs H). reflexivity. }
    rewrite E, (gradient_same n (qnode_state U) Fs Gs H). eapply ways_bind; [apply ways_refl|]. intros cs ? <-. eapply ways_bind; [apply ways_refl|]. intros kB ? <-. destruct kB as [(km & B)|]; [|reflexivity].
    eapply ways_bind; [apply ways_refl|]. intros P8 ? <-. eapply ways_bind; [apply ways_refl|]. intros vB ? <-. destruct (Req_EM_T wa 0); [reflexivity|].
    eapply ways_bind; [apply ways_refl|]. intros PB ? <-. cbn. split; [reflexivity|]. do 4 eexists. split; reflexivity.
Qed.

Lemma layer_optimizer_same n obs obs' : same_hamiltonian n obs obs' -> layer_optimizer n obs = layer_optimizer n obs'.
Proof. intros H. unfold layer_optimizer, shift_optimizer. rewrite (vqe_cost_same n obs obs' H). reflexivity. Qed.

Lemma call_alike x c o o' U p : alike o o' -> both_ways (step_rel alike) (obj_call x c o U p) (obj_call x c o' U p).
Proof.
  intros H. destruct H as [n obs obs' t Fs Gs prev Hh Hs|n obs obs' t Fs Gs prev Hh Hs|n obs obs' eta t4 t8 Fs Gs ratio cn s cur pe Hh Hs|n obs obs' ds t Fs Gs prev ls Hh Hs|n obs obs' eta t2 t4 t8 Fs Gs terms ps Hh Hs]; cbn [obj_call].
  - destruct c.
    + destruct (or_bounds x) as ((fa & fh) & fk). unfold commute_call. cbn [gr_n gr_obs gr_table gr_prev]. rewrite (abs_gradients_same n _ Fs Gs) by exact Hs.
      destruct (tied_edges _) as [(d & es)|]; cbn [bind]; [|reflexivity]. destruct (commuting _ _ _ _ _ _); cbn [bind]; reflexivity.
    + unfold squared_call. cbn [gr_n gr_obs gr_table gr_prev]. rewrite (greedy_same n _ _ Fs Gs U Hs). destruct (greedy_step _ _ _ _ _) as [r|]; cbn; [|reflexivity]. split; [reflexivity|]. cbn. constructor; assumption.
  - unfold su8_call. cbn [gr_n gr_obs gr_table gr_prev]. rewrite (greedy_same n _ _ Fs Gs U Hs). destruct (greedy_step _ _ _ _ _) as [r|]; cbn; [|reflexivity]. split; [reflexivity|]. cbn. constructor; assumption.
  - eapply ways_bind; [apply zas_ways; exact Hs|]. intros (V & l) (V' & l') (E & c' & s' & cur' & pe' & E1 & E2). cbn in E, E1, E2 |- *. subst. split; [reflexivity|]. cbn. constructor; assumption.
  - cbn [ad_n]. rewrite (layer_optimizer_same n obs obs' Hh). unfold adapt_call. cbn [ad_n ad_dirs ad_table ad_obs ad_prev ad_layers]. rewrite (abs_gradients_same n _ Fs Gs) by exact Hs.
    destruct (mapM _ _) as [los|]; cbn [bind]; [|reflexivity]. destruct (py_max_key _) as [k|]; cbn [bind]; [|reflexivity]. destruct (layer_optimizer _ _ _ _) as [h|]; cbn [bind]; [|reflexivity].
    destruct (last_params h) as [q|]; cbn [bind]; [|reflexivity]. destruct (circuit_vqe _ _ _) as [gs|]; cbn [bind]; [|reflexivity]. destruct (circuit_unitary _ _) as [V|]; cbn; [|reflexivity]. split; [reflexivity|]. cbn. constructor; assumption.
  - unfold v2_call. cbn [v2_n v2_eta v2_su2 v2_su4 v2_su8 v2_obs v2_terms v2_params]. rewrite (gradient_same n _ Fs Gs Hs). destruct (mapM _ _) as [om|]; cbn [bind]; [|reflexivity].
    destruct (circuit_unitary _ _) as [V|]; cbn [bind]; [|reflexivity]. destruct ps as ((p0 & p1) & p2). destruct (or_minimize x _) as ((x0 & x1) & x2). cbn. split; [reflexivity|]. cbn. constructor; assumption.
Qed.
Lemma alike_state o o' : alike o o' -> obj_state o = obj_state o'.
Proof. intros []; reflexivity. Qed.
Lemma alike_print o o' : alike o o' -> obj_print o = obj_print o'.
Proof. intros []; reflexivity. Qed.
Lemma alike_directions o o' U : alike o o' -> obj_directions o U = obj_directions o' U.
Proof. intros []; cbn [obj_directions gr_n za_n ad_n v2_n]; rewrite (directions_same n obs obs') by assumption; reflexivity. Qed.

(** ** The stores *)
Lemma store_get w w' i : Forall2 alike w w' -> both_ways alike (list_get w i) (list_get w' i).
Proof.
  intros H. revert i. unfold list_get. induction H as [|o o' w w' Ho _ IH]; intros [|i]; cbn; auto.
Qed.
Lemma replace_alike w w' i o o' : Forall2 alike w w' -> alike o o' -> Forall2 alike (replace_at w i o) (replace_at w' i o').
Proof. intros H Ho. revert i. induction H as [|a a' w w' Ha Hw IH]; intros [|i]; cbn; constructor; auto. Qed.
Lemma store_call_alike x c i w w' U p : Forall2 alike w w' -> both_ways (step_rel (Forall2 alike)) (store_call x c i w U p) (store_call x c i w' U p).
Proof.
  intros H. unfold store_call. eapply ways_bind; [apply store_get; exact H|]. intros o o' Ho. eapply ways_bind; [apply call_alike; exact Ho|].
  intros ((V & q) & a) ((V' & q') & a') (E & Ha). cbn in E, Ha |- *. injection E as <- <-. split; [reflexivity|]. cbn. apply replace_alike; assumption.
Qed.

(** ** Runs with related stores *)
Section Stores.
Context {St P Om U Z W : Type} (RW : W -> W -> Prop).
Variables (call : nat -> W -> U -> P -> res (U * P * W)) (su_state : nat -> W -> res Z) (directions : nat -> W -> U -> res Om) (cost : U -> res R) (state : U -> res St) (perturb : R -> nat -> U -> U).
Hypothesis Hcall : forall l w w' u p, RW w w' -> both_ways (fun x x' => fst x = fst x' /\ RW (snd x) (snd x')) (call l w u p) (call l w' u p).
Hypothesis Hstate : forall l w w', RW w w' -> su_state l w = su_state l w'.
Hypothesis Hdir : forall l w w' u, RW w w' -> directions l w u = directions l w' u.

Let vrel (v v' : ap_vars (St := St) (P := P) (Om := Om) (U := U) (Z := Z) (W := W)) : Prop :=
  RW (av_w v) (av_w v') /\ v' = mkapv (av_rest v) (av_w v') (av_u v) (av_params v) (av_costs v) (av_states v) (av_omegas v) (av_unitaries v) (av_perturbations v) (av_zas v).

Lemma stores_body a i v v' : vrel v v' -> both_ways (fun x x' => vrel (fst x) (fst x') /\ snd x = snd x') (ap_body call su_state directions cost state perturb a i v) (ap_body call su_state directions cost state perturb a i v').
Proof.
  intros (Hw & E). destruct v as [rest w u p cs ss os us pe zs]. destruct v' as [rest' w' u' p' cs' ss' os' us' pe' zs']. cbn in Hw, E. injection E as -> -> -> -> -> -> -> -> ->. unfold ap_body.
  cbn [av_rest av_w av_u av_params av_costs av_states av_omegas av_unitaries av_perturbations av_zas].
  destruct (cycle_next (ap_layers a) rest) as [lr|e]; cbn [bind]; [|reflexivity]. rewrite <- (Hstate (fst lr) w w' Hw). destruct (if ap_zassenhaus a then _ else _) as [zs'|e]; cbn [bind]; [|reflexivity].
  eapply ways_bind; [apply Hcall; exact Hw|]. intros ((w1 & p1) & o1) ((w2 & p2) & o2) (E & Ho). cbn [fst snd] in *. injection E as <- <-.
  destruct (cost w1) as [c|e]; cbn [bind]; [|reflexivity]. destruct (if ap_state a then _ else _) as [ss'|e]; cbn [bind]; [|reflexivity]. rewrite <- (Hdir (fst lr) o1 o2 w1 Ho).
  destruct (if ap_omegas a then _ else _) as [oms|e]; cbn [bind]; [|reflexivity].
  destruct (ap_tol a) as [tol|]; [|cbn; unfold vrel; cbn; auto]. destruct (8 <? i); [|cbn; unfold vrel; cbn; auto].
  destruct (from_end _ 1) as [c1|e]; cbn [bind]; [|reflexivity]. destruct (from_end _ 6) as [c2|e]; cbn [bind]; [|reflexivity].
  destruct (isclose tol c1 c2); [|cbn; unfold vrel; cbn; auto]. destruct (ap_perturb a); cbn; unfold vrel; cbn; auto.
Qed.

Lemma stores_ways ret layers w w' start p kw : RW w w' ->
  approximate_lie_optimizer call su_state directions cost state perturb ret layers w start p kw = approximate_lie_optimizer call su_state directions cost state perturb ret layers w' start p kw.
Proof.
  intros Hw. apply ways_eq. unfold approximate_lie_optimizer. eapply ways_bind; [apply ways_refl|]. intros a ? <-. eapply ways_bind; [apply ways_refl|]. intros u ? <-. unfold ap_run.
  eapply ways_bind; [apply ways_refl|]. intros ss ? <-. eapply ways_bind; [apply ways_refl|]. intros c ? <-.
  eapply ways_bind; [apply (ways_for_range vrel _ _ (stores_body a)); unfold vrel; cbn; auto|]. intros v v' (_ & ->). cbn [av_rest av_w av_u av_params av_costs av_states av_omegas av_unitaries av_perturbations av_zas]. apply ways_refl.
Qed.
End Stores.

(** ** C115 *)
Theorem C115_shift {Om U Z} n obs obs' circ ret p kw : same_hamiltonian n obs obs' ->
  shift_optimizer (Om := Om) (U := U) (Z := Z) n obs circ ret p kw = shift_optimizer n obs' circ ret p kw.
Proof. intros H. unfold shift_optimizer. rewrite (vqe_cost_same n obs obs' H). reflexivity. Qed.
Print Assumptions C115_shift.

Theorem C115_approximate x eigh random n gates obs obs' w w' ret layers params kw : same_hamiltonian n obs obs' ->
  Forall2 (fun o o' => exists m lobs lobs', same_hamiltonian m lobs lobs' /\ built_alike m lobs lobs' o o') w w' ->
  approx_optimizer x eigh random n gates obs w ret layers params kw = approx_optimizer x eigh random n gates obs' w' ret layers params kw.
Proof.
  intros H Hw. assert (A : Forall2 alike w w').
  { clear - Hw. induction Hw as [|o o' w w' (m & lobs & lobs' & Hh & Hb) _ IH]; constructor; [|exact IH]. apply (built_alike_alike m lobs lobs'); assumption. }
  unfold approx_optimizer. rewrite (cost_same n obs obs' H).
  assert (Ep : print_layers w layers = print_layers w' layers).
  { unfold print_layers. destruct layers as [|l]; [reflexivity|]. apply foldM_same. intros b [i|]; [|reflexivity]. apply ways_eq. eapply ways_bind; [apply (store_get w w' i A)|]. intros o o' Ho. rewrite (alike_print o o' Ho). apply ways_refl. }
  rewrite Ep. apply (stores_ways (Forall2 alike)); [| | |exact A].
  - intros l v v' u p Hv. apply (store_call_alike x _ l v v' u p Hv).
  - intros l v v' Hv. unfold store_state. apply ways_eq. eapply ways_bind; [apply store_get; exact Hv|]. intros o o' Ho. rewrite (alike_state o o' Ho). apply ways_refl.
  - intros l v v' u Hv. unfold store_directions. apply ways_eq. eapply ways_bind; [apply store_get; exact Hv|]. intros o o' Ho. rewrite (alike_directions o o' u Ho). apply ways_refl.
Qed.
Print Assumptions C115_approximate.

(** in particular the order of the observables does not matter *)
Theorem C115_order n obs obs' : Forall (fits n) obs -> Permutation obs obs' -> same_hamiltonian n obs obs'.
Proof.
  intros Hf Hp. assert (Hf' : Forall (fits n) obs') by (eapply Permutation_Forall; eassumption). split; [exact Hf|]. split; [exact Hf'|].
  assert (G : forall l, Forall (fits n) l -> exists H, get_hamiltonian_matrix n l None = Ok H).
  { intros l Hl. destruct (PropCircuit.C36_weighted_sum C CStar n l None Hl) as [A _]. destruct A as (H' & _ & E & _); [rewrite repeat_length; lia|]. eauto. }
  destruct (G obs Hf) as (H & E). destruct (G obs' Hf') as (H' & E'). exists H, H'. split; [exact E|]. split; [exact E'|].
  destruct (ham_entries n obs H Hf E) as (Fs & EF & MF). destruct (ham_entries n obs' H' Hf' E') as (Gs & EG & MG). intros i j Hi Hj. rewrite (MF i j Hi Hj), (MG i j Hi Hj). unfold msum.
  apply lsum_perm. clear - Hp EF EG. revert Fs Gs EF EG. induction Hp as [|o l l' Hp IH|a b l|l1 l2 l3 H1 IH1 H2 IH2]; intros Fs Gs EF EG; cbn in EF, EG.
  - injection EF as <-. injection EG as <-. constructor.
  - destruct (full n o); cbn in EF, EG; [|discriminate]. destruct (mapM (full n) l); cbn in EF; [|discriminate]. destruct (mapM (full n) l'); cbn in EG; [|discriminate]. injection EF as <-. injection EG as <-. constructor. apply IH; reflexivity.
  - destruct (full n b); cbn in EF, EG; [|discriminate]. destruct (full n a); cbn in EF, EG; [|discriminate]. destruct (mapM (full n) l); cbn in EF, EG; [|discriminate]. injection EF as <-. injection EG as <-. constructor.
  - assert (M : forall l l', Permutation l l' -> forall Fs, mapM (full n) l = Ok Fs -> exists Gs, mapM (full n) l' = Ok Gs).
    { clear. intros l l' Hp. induction Hp as [|o l l' Hp IH|a b l|l1 l2 l3 H1 IH1 H2 IH2]; intros Fs EF; cbn in EF |- *; eauto.
      - destruct (full n o); cbn in EF |- *; [|discriminate]. destruct (mapM (full n) l) as [x|]; cbn in EF; [|discriminate]. destruct (IH x eq_refl) as (y & ->). cbn. eauto.
      - destruct (full n b); cbn in EF |- *; [|discriminate]. destruct (full n a); cbn in EF |- *; [|discriminate]. destruct (mapM (full n) l); cbn in EF |- *; [|discriminate]. eauto.
      - destruct (IH1 Fs EF) as (y & Ey). apply (IH2 y Ey). }
    destruct (M l1 l2 H1 Fs EF) as (Ms & EM). eapply Permutation_trans; [apply IH1|apply IH2]; eassumption.
Qed.
Print Assumptions C115_order.

(** ** exact_lie_optimizer takes the observables one after the other *)
Lemma second_cost P Om Z n gates obs eigh random kw U u1 c : Forall (unitary_gate n) gates -> Forall (fits n) obs -> eigh_correct (2 ^ n) eigh -> ex_accepts kw ->
  circuit_unitary n gates = Ok U -> exact_flow eigh n obs (the_eta kw) (a_ent U) = Ok u1 -> exact_cost n obs u1 = Ok c ->
  exists r : retval (item (nat -> C) P Om (mat C) Z), exact_optimizer eigh random n gates obs RetState kw = Ok r /\ forall cs ss ps u, ex_result kw r cs ss ps u -> nth_error cs 1 = Some c.
Proof.
  intros Hg Hf He Ha EU Ef Ec. destruct (C66_exact_unitary P Om Z n _ _ eigh random kw Hg Hf He Ha) as (r & Er & _). exists r. split; [exact Er|]. intros cs ss ps u Hr.
  unfold exact_optimizer in Er. rewrite EU in Er. cbn [bind] in Er.
  destruct (C56_exact_histories _ _ _ _ _ _ _ _ _ _ _ _ _ _ _ _ Ha Er Hr) as (circuits & u0 & m & E0 & H0 & Hl & Hm & Hc & Hcost & _). injection E0 as E0.
  destruct circuits as [|w [|w' ws]]; cbn in Hl; [lia|lia|]. cbn in H0. injection H0 as H0. inversion Hcost as [|? k0 ? cs1 K0 Hcost1]; subst. inversion Hcost1 as [|? k1 ? cs2 K1 _]; subst.
  cbn. destruct (Hc 0 _ _ eq_refl eq_refl) as (x' & Hx' & Ex'). cbn [restart] in Hx'. subst x'. rewrite Ef in Ex'. injection Ex' as <-. rewrite Ec in K1. congruence.
Qed.

(** the two angles reached in one step from the state |-> *)
Lemma angles_differ eta : (0 < eta <= 1)%R ->
  (cos (PI / 2 + eta) - sin (PI / 2 + eta) < cos (PI / 2 + eta + eta * cos (PI / 2 + eta)) - sin (PI / 2 + eta + eta * cos (PI / 2 + eta)))%R.
Proof.
  intros Ht. assert (P3 : (3 < PI)%R) by (pose proof PI2_3_2; lra). pose proof PI_4 as P4.
  assert (S0 : (0 < sin eta)%R) by (apply sin_gt_0; lra). pose proof (SIN_bound eta) as SB.
  assert (Eq : forall t, (cos (PI / 2 + t) - sin (PI / 2 + t) = - (sin t + cos t))%R). { intros t. rewrite cos_plus, sin_plus, cos_PI2, sin_PI2. ring. }
  assert (E1 : cos (PI / 2 + eta) = (- sin eta)%R) by (rewrite cos_plus, cos_PI2, sin_PI2; ring).
  replace (PI / 2 + eta + eta * cos (PI / 2 + eta))%R with (PI / 2 + (eta - eta * sin eta))%R by (rewrite E1; ring). rewrite !Eq.
  set (m := (eta - eta * sin eta / 2)%R). set (dl := (eta * sin eta / 2)%R).
  assert (D : (0 < dl <= 1 / 2)%R) by (unfold dl; split; nra).
  assert (M : (0 <= m < PI / 4)%R).
  { unfold m. split; [nra|]. destruct (Rle_lt_dec eta (3 / 4)) as [L|L]; [nra|]. assert (H2 : (/ 2 <= sin eta)%R). { replace (/ 2)%R with (sin (PI / 6)) by (rewrite sin_PI6; field). apply sin_incr_1; lra. } nra. }
  replace eta with (m + dl)%R at 1 2 by (unfold m, dl; field). replace (eta - eta * sin eta)%R with (m - dl)%R by (unfold m, dl; field).
  rewrite sin_plus, cos_plus, sin_minus, cos_minus. assert (S1 : (0 < sin dl)%R) by (apply sin_gt_0; lra).
  assert (C1 : (sin m < cos m)%R). { apply Rlt_trans with (sin (PI / 4)); [apply sin_increasing_1; lra|]. rewrite sin_cos_PI4. apply cos_decreasing_1; lra. }
  nra.
Qed.

Definition minus_gate : qop C := rotation (- (PI / 2)).
Lemma minus_angle : exists U, circuit_unitary 1 [minus_gate] = Ok U /\ at_angle (PI / 2) (a_ent U).
Proof.
  destruct (rotation_unitary (- (PI / 2))) as (U & E & E0 & E1 & _). exists U. split; [exact E|]. split; [rewrite E0|rewrite E1].
  - f_equal. replace (- (PI / 2) / 2)%R with (- (PI / 2 / 2))%R by field. apply cos_neg.
  - f_equal. replace (- (PI / 2) / 2)%R with (- (PI / 2 / 2))%R by field. apply sin_neg.
Qed.
Lemma rotation_gate t : unitary_gate 1 (rotation t).
Proof.
  split; [repeat constructor; cbn; try discriminate; auto; lia|]. change (unitary2 2 (expm 2 (mscale (mit (t / 2)) (pword (K := C) [2])))). apply expm_unitary.
  intros i j Hi Hj. (destruct i as [|[|i]]; [| |lia]); (destruct j as [|[|j]]; [| |lia]); unfold madj, mscale, mit; apply C_ext; cbn; ring.
Qed.

(** with Z before X and with X before Z the costs differ after the first step, for every
    step size *)
Theorem C115_exact_refuted : forall P Om Z, exists n gates obs obs', Forall (unitary_gate n) gates /\ Forall (fits n) obs /\ Forall pauli_type obs /\ Permutation obs obs' /\
  forall eigh random kw, eigh_correct (2 ^ n) eigh -> ex_accepts kw -> (0 < the_eta kw)%R ->
    exists r r' : retval (item (nat -> C) P Om (mat C) Z), exact_optimizer eigh random n gates obs RetState kw = Ok r /\ exact_optimizer eigh random n gates obs' RetState kw = Ok r' /\
    forall cs ss ps u cs' ss' ps' u', ex_result kw r cs ss ps u -> ex_result kw r' cs' ss' ps' u' -> exists c c', nth_error cs 1 = Some c /\ nth_error cs' 1 = Some c' /\ (c' < c)%R.
Proof.
  intros P Om Z. exists 1, [minus_gate], [z_obs; x_obs], [x_obs; z_obs].
  assert (Hg : Forall (unitary_gate 1) [minus_gate]) by (constructor; [apply rotation_gate|constructor]).
  assert (Hf : Forall (fits 1) [z_obs; x_obs]) by (constructor; [apply z_obs_fit|constructor; [apply x_obs_fit|constructor]]).
  assert (Hp : Permutation [z_obs; x_obs] [x_obs; z_obs]) by apply perm_swap.
  split; [exact Hg|]. split; [exact Hf|]. split; [constructor; [apply z_obs_pauli|constructor; [apply x_obs_pauli|constructor]]|]. split; [exact Hp|].
  intros eigh random kw He Ha Ht.
  assert (Heta : (0 < the_eta kw <= 1)%R).
  { split; [exact Ht|]. destruct Ha as (_ & A & _). unfold the_eta. unfold allowed in A. destruct (arg kw "eta") as [v|]; [|lra]. destruct (A v eq_refl) as (x & -> & Hx). apply Hx. }
  destruct minus_angle as (U & EU & AU). assert (HU : unitary2 (2 ^ 1) (a_ent U)). { destruct (start_unitary 1 _ Hg) as (U' & EU' & H). rewrite EU in EU'. injection EU' as <-. exact H. }
  pose proof (angles_differ (the_eta kw) Heta) as Hd. set (eta := the_eta kw) in *. assert (P3 : (3 < PI)%R) by (pose proof PI2_3_2; lra).
  assert (E1 : cos (PI / 2 + eta) = (- sin eta)%R) by (rewrite cos_plus, cos_PI2, sin_PI2; ring). assert (S0 : (0 < sin eta)%R) by (apply sin_gt_0; lra).
  (* Z first *)
  destruct (angle_z eigh eta (a_ent U) _ He HU AU ltac:(rewrite sin_PI2; lra)) as (u1 & F1 & H1 & A1). rewrite sin_PI2, Rmult_1_r in A1.
  destruct (angle_x eigh eta u1 _ He H1 A1 ltac:(lra)) as (u2 & F2 & H2 & A2).
  (* X first *)
  destruct (angle_x eigh eta (a_ent U) _ He HU AU ltac:(rewrite cos_PI2; lra)) as (v1 & G1 & K1 & B1). rewrite cos_PI2, Rmult_0_r, Rplus_0_r in B1.
  destruct (angle_z eigh eta v1 _ He K1 B1 ltac:(rewrite sin_PI2; lra)) as (v2 & G2 & K2 & B2). rewrite sin_PI2, Rmult_1_r in B2.
  destruct (second_cost P Om Z 1 [minus_gate] [z_obs; x_obs] eigh random kw U u2 (cos (PI / 2 + eta + eta * cos (PI / 2 + eta)) - sin (PI / 2 + eta + eta * cos (PI / 2 + eta))) Hg Hf He Ha EU) as (r & Er & Hr); [unfold exact_flow; cbn [foldM]; fold eta; rewrite F1; cbn [bind]; rewrite F2; reflexivity|apply angle_cost; exact A2|].
  destruct (second_cost P Om Z 1 [minus_gate] [x_obs; z_obs] eigh random kw U v2 (cos (PI / 2 + eta) - sin (PI / 2 + eta)) Hg (Permutation_Forall Hp Hf) He Ha EU) as (r' & Er' & Hr');
    [unfold exact_flow; cbn [foldM]; fold eta; rewrite G1; cbn [bind]; rewrite G2; reflexivity|rewrite <- (cost_same 1 [z_obs; x_obs] [x_obs; z_obs] (C115_order 1 _ _ Hf Hp)); apply angle_cost; exact B2|].
  exists r, r'. split; [exact Er|]. split; [exact Er'|]. intros cs ss ps u cs' ss' ps' u' R1 R2. eexists. eexists. split; [apply (Hr _ _ _ _ R1)|]. split; [apply (Hr' _ _ _ _ R2)|]. exact Hd.
Qed.
Print Assumptions C115_exact_refuted.

(** ** LocalLieAlgebraLayer exponentiates the observables one after the other *)
Definition y_obs : qop C := mkqop lit_Y [0].
Lemma y_obs_fit : fits 1 y_obs. Proof. repeat constructor; cbn; try discriminate; auto; lia. Qed.

Lemma three_cost u : exact_cost 1 [x_obs; x_obs; y_obs] u = Ok (let x := u 0 0 in let y := u 1 0 in
  (4 * (Re x * Re y + Im x * Im y) + 2 * (Re x * Im y - Im x * Re y))%R).
Proof.
  destruct (obs_one 1 x_obs x_obs_fit) as (F & EF & HF & _). destruct (obs_one 1 y_obs y_obs_fit) as (G & EG & HG & _).
  rewrite (cost_energy 1 [x_obs; x_obs; y_obs] [F; F; G] u) by (repeat constructor; assumption). f_equal. unfold energy. cbn [rsum].
  pose proof (one_wire x_obs F eq_refl HF) as E. pose proof (one_wire y_obs G eq_refl HG) as E'.
  unfold quad. cbn [Nat.pow Nat.mul Nat.add seq]. rewrite !lsum_cons, !lsum_nil, !E, !E' by lia. cbn [kadd kmul kconj k0 CStar]. simpl.
  destruct (u 0 0) as [a b], (u 1 0) as [c e]. simpl. ring.
Qed.

(** the step an observable makes at |0>: exp(i eta Y) for X, exp(- i eta X) for Y *)
Lemma emb_one (M : mat C) : meq 2 (emb 1 [0] M) M.
Proof. intros i j Hi Hj. (destruct i as [|[|i]]; [| |lia]); (destruct j as [|[|j]]; [| |lia]); unfold emb; cbn; reflexivity. Qed.
Lemma word_entries i (P : arr C) : key_ok 1 ((wname [i], [0]), P) -> i < 3 -> meq 2 (a_ent P) (pword (K := C) [S i]).
Proof.
  intros (w & E & L & Q & _ & _ & _ & M) Hi. cbn [fst snd] in *. assert (w = [i]) as ->.
  { assert (Q1 : List.length w = 1) by (destruct Q as [Q _]; cbn in Q; congruence). destruct w as [|a [|b w]]; try discriminate Q1. inversion L; subst.
    destruct a as [|[|[|a]]]; try lia; destruct i as [|[|[|i]]]; try lia; cbn in E; congruence. }
  change (2 ^ 1) with 2 in M. rewrite M, emb_one. unfold up. cbn [map]. rewrite Nat.add_1_r. reflexivity.
Qed.
Lemma local_gen (g : list (arr C)) F (o : qop C) eta k t : group_ok 1 (chosen 1 None) [0] g -> embedded 1 o F -> (o = x_obs /\ k = 2 /\ t = (- eta)%R \/ o = y_obs /\ k = 1 /\ t = eta) ->
  meq 2 (expm 2 (mscale (RtoC (- eta / 2 ^ 1)) (msum (gen 2 (qnode_state (mid (K := C))) (a_ent F)) g)))
        (madd (SR := CStar) (mscale (SR := CStar) (RtoC (cos t)) mid) (mscale (SR := CStar) (mit (sin t)) (pword [k]))).
Proof.
  intros Hg HF Hk. rewrite <- expm_pauli by (destruct Hk as [(_ & -> & _)|(_ & -> & _)]; lia). apply expm_proper.
  unfold group_ok in Hg. change (chosen 1 None) with [[0]; [1]; [2]] in Hg.
  inversion Hg as [|? A ? ? KA Hg1]; subst. inversion Hg1 as [|? B ? ? KB Hg2]; subst. inversion Hg2 as [|? D ? ? KD Hg3]; subst. inversion Hg3; subst.
  pose proof (word_entries 0 A KA ltac:(lia)) as MA. pose proof (word_entries 1 B KB ltac:(lia)) as MB. pose proof (word_entries 2 D KD ltac:(lia)) as MD.
  assert (OM : forall P Q v, meq 2 (a_ent P) Q -> quad 2 (qnode_state mid) (msub (K := C) (mmul 2 Q (a_ent (q_matrix o))) (mmul 2 (a_ent (q_matrix o)) Q)) = v -> omega 2 (qnode_state mid) (a_ent P) (a_ent F) = v).
  { intros P Q v MP <-. assert (MF : meq 2 (a_ent F) (a_ent (q_matrix o))) by (intros i j Hi Hj; apply (one_wire o F); [destruct Hk as [(-> & _)|(-> & _)]; reflexivity|exact HF|exact Hi|exact Hj]).
    unfold omega. apply quad_ext. rewrite MP, MF. reflexivity. }
  assert (Hd : forall M : mat C, quad 2 (qnode_state mid) M = M 0 0).
  { intros M. unfold quad, qnode_state. cbn [seq]. rewrite !lsum_cons, !lsum_nil. destruct (M 0 0), (M 0 1), (M 1 0), (M 1 1). apply C_ext; cbn; ring. }
  assert (G : forall a b d, omega 2 (qnode_state mid) (a_ent A) (a_ent F) = a -> omega 2 (qnode_state mid) (a_ent B) (a_ent F) = b -> omega 2 (qnode_state mid) (a_ent D) (a_ent F) = d ->
    meq 2 (msum (gen 2 (qnode_state mid) (a_ent F)) [A; B; D]) (fun i j => Cplus (Cmult a (pword (K := C) [1] i j)) (Cplus (Cmult b (pword (K := C) [2] i j)) (Cmult d (pword (K := C) [3] i j))))).
  { intros a b d <- <- <- i j Hi Hj. unfold msum. rewrite !lsum_cons, lsum_nil. unfold gen, mscale. rewrite (MA i j Hi Hj), (MB i j Hi Hj), (MD i j Hi Hj). cbn [kadd kmul k0 CStar]. ring. }
  destruct Hk as [(-> & -> & ->)|(-> & -> & ->)].
  - rewrite (G (RtoC 0) (0, - 2)%R (RtoC 0)); [| | |].
    + intros i j Hi Hj. unfold mscale, mit. cbn [kmul CStar]. generalize (pword (K := C) [1] i j), (pword (K := C) [2] i j), (pword (K := C) [3] i j). intros x y z. apply C_ext; cbn; field.
    + apply (OM A _ _ MA). rewrite Hd. unfold msub, mmul. cbn [seq]. rewrite !lsum_cons, !lsum_nil. apply C_ext; cbn; ring.
    + apply (OM B _ _ MB). rewrite Hd. unfold msub, mmul. cbn [seq]. rewrite !lsum_cons, !lsum_nil. apply C_ext; cbn; ring.
    + apply (OM D _ _ MD). rewrite Hd. unfold msub, mmul. cbn [seq]. rewrite !lsum_cons, !lsum_nil. apply C_ext; cbn; ring.
  - rewrite (G (0, 2)%R (RtoC 0) (RtoC 0)); [| | |].
    + intros i j Hi Hj. unfold mscale, mit. cbn [kmul CStar]. generalize (pword (K := C) [1] i j), (pword (K := C) [2] i j), (pword (K := C) [3] i j). intros x y z. apply C_ext; cbn; field.
    + apply (OM A _ _ MA). rewrite Hd. unfold msub, mmul. cbn [seq]. rewrite !lsum_cons, !lsum_nil. apply C_ext; cbn; ring.
    + apply (OM B _ _ MB). rewrite Hd. unfold msub, mmul. cbn [seq]. rewrite !lsum_cons, !lsum_nil. apply C_ext; cbn; ring.
    + apply (OM D _ _ MD). rewrite Hd. unfold msub, mmul. cbn [seq]. rewrite !lsum_cons, !lsum_nil. apply C_ext; cbn; ring.
Qed.

(** the two steps as literal matrices, and their action on a column *)
Definition two_by_two (a b c d : C) : mat C := fun i j => match i, j with 0, 0 => a | 0, _ => b | _, 0 => c | _, _ => d end.
Lemma step_x c s : meq 2 (madd (SR := CStar) (mscale (SR := CStar) (RtoC c) mid) (mscale (SR := CStar) (mit (- s)) (pword [2]))) (two_by_two (RtoC c) (RtoC s) (RtoC (- s)) (RtoC c)).
Proof. intros i j Hi Hj. (destruct i as [|[|i]]; [| |lia]); (destruct j as [|[|j]]; [| |lia]); unfold mit, madd, mscale; apply C_ext; cbn; ring. Qed.
Lemma step_y c s : meq 2 (madd (SR := CStar) (mscale (SR := CStar) (RtoC c) mid) (mscale (SR := CStar) (mit s) (pword [1]))) (two_by_two (RtoC c) (0, - s)%R (0, - s)%R (RtoC c)).
Proof. intros i j Hi Hj. (destruct i as [|[|i]]; [| |lia]); (destruct j as [|[|j]]; [| |lia]); unfold mit, madd, mscale; apply C_ext; cbn; ring. Qed.
Lemma step_column a b c d (V : mat C) x y : V 0 0 = x -> V 1 0 = y -> mmul (SR := CStar) 2 (two_by_two a b c d) V 0 0 = Cplus (Cmult a x) (Cmult b y) /\ mmul (SR := CStar) 2 (two_by_two a b c d) V 1 0 = Cplus (Cmult c x) (Cmult d y).
Proof. intros <- <-. unfold mmul. cbn [seq]. rewrite !lsum_cons, !lsum_nil. cbn [kadd kmul k0 CStar two_by_two]. split; ring. Qed.

Theorem C115_local_refuted : exists n obs obs', Forall (fits n) obs /\ Permutation obs obs' /\
  forall svd eta check, svd_ok svd -> (0 < eta <= 1)%R -> exists l l', LocalLieAlgebraLayer n obs 1 eta 0 None check false = Ok l /\ LocalLieAlgebraLayer n obs' 1 eta 0 None check false = Ok l' /\
    exists V V' c c', local_call svd l mid = Ok V /\ local_call svd l' mid = Ok V' /\ exact_cost n obs V = Ok c /\ exact_cost n obs' V' = Ok c' /\ (c' < c)%R.
Proof.
  exists 1, [x_obs; x_obs; y_obs], [y_obs; x_obs; x_obs].
  assert (Hf : Forall (fits 1) [x_obs; x_obs; y_obs]) by (repeat (constructor; [first [apply x_obs_fit|apply y_obs_fit]|]); constructor).
  assert (Hp : Permutation [x_obs; x_obs; y_obs] [y_obs; x_obs; x_obs]) by (apply Permutation_sym, (Permutation_cons_append [x_obs; x_obs] y_obs)).
  split; [exact Hf|]. split; [exact Hp|]. intros svd eta check Hs He.
  destruct (obs_one 1 x_obs x_obs_fit) as (F & EF & HF & HH). destruct (obs_one 1 y_obs y_obs_fit) as (G & EG & HG & HK).
  assert (Ha : local_args_ok 1 1 eta 0 None) by (repeat split; try lra; try lia; auto; try discriminate).
  assert (M1 : mapM (full 1) [x_obs; x_obs; y_obs] = Ok [F; F; G]) by (cbn [mapM]; rewrite EF, EG; reflexivity).
  assert (M2 : mapM (full 1) [y_obs; x_obs; x_obs] = Ok [G; F; F]) by (cbn [mapM]; rewrite EF, EG; reflexivity).
  destruct (local_init 1 _ _ 1 eta 0 None check false M1 Ha) as (gs & E1 & G1). destruct (local_init 1 _ _ 1 eta 0 None check false M2 Ha) as (gs' & E2 & G2).
  change (combinations (seq 0 1) 1) with [[0]] in G1, G2.
  inversion G1 as [|? g ? ? K1 N1]; subst. inversion N1; subst. inversion G2 as [|? g' ? ? K2 N2]; subst. inversion N2; subst.
  assert (S1 : forall obs U, Forall (fun O => hermitian (2 ^ 1) (a_ent O)) obs -> exists V, local_call svd (mklocal 1 1 0 eta check false (map wname (chosen 1 None)) obs [g]) U = Ok V /\
    meq 2 V (apply_gens 2 (RtoC (- eta / 2 ^ 1)) (all_gens 2 false (qnode_state U) obs [g]) U)).
  { intros obs U Ho. apply (call_spec svd check false 1 eta (qnode_state U) obs [g] Hs Ho). - exact (groups_hermitian _ _ _ _ G1). - right. constructor; [|constructor]. intros ->. inversion K1. - reflexivity. }
  assert (S2 : forall obs U, Forall (fun O => hermitian (2 ^ 1) (a_ent O)) obs -> exists V, local_call svd (mklocal 1 1 0 eta check false (map wname (chosen 1 None)) obs [g']) U = Ok V /\
    meq 2 V (apply_gens 2 (RtoC (- eta / 2 ^ 1)) (all_gens 2 false (qnode_state U) obs [g']) U)).
  { intros obs U Ho. apply (call_spec svd check false 1 eta (qnode_state U) obs [g'] Hs Ho). - exact (groups_hermitian _ _ _ _ G2). - right. constructor; [|constructor]. intros ->. inversion K2. - reflexivity. }
  assert (HermF : hermitian (2 ^ 1) (a_ent F)) by (apply HH; apply x_obs_pauli). assert (HermG : hermitian (2 ^ 1) (a_ent G)).
  { intros i j Hi Hj. unfold madj. rewrite !(one_wire y_obs G eq_refl HG) by assumption. cbn in Hi, Hj. (destruct i as [|[|i]]; [| |lia]); (destruct j as [|[|j]]; [| |lia]); apply C_ext; cbn; ring. }
  destruct (S1 [F; F; G] mid) as (V & EV & MV); [repeat constructor; assumption|]. destruct (S2 [G; F; F] mid) as (V' & EV' & MV'); [repeat constructor; assumption|].
  unfold all_gens, gens in MV, MV'. cbn [flat_map app] in MV, MV'. unfold apply_gens in MV, MV'. cbn [fold_left] in MV, MV'.
  rewrite !(local_gen g F x_obs eta 2 (- eta) K1 HF ltac:(auto)), (local_gen g G y_obs eta 1 eta K1 HG ltac:(auto)) in MV.
  rewrite !(local_gen g' F x_obs eta 2 (- eta) K2 HF ltac:(auto)), (local_gen g' G y_obs eta 1 eta K2 HG ltac:(auto)) in MV'.
  eexists. eexists. split; [exact E1|]. split; [exact E2|]. exists V, V'. eexists. eexists. split; [exact EV|]. split; [exact EV'|].
  split; [apply three_cost|]. split; [rewrite <- (cost_same 1 _ _ (C115_order 1 _ _ Hf Hp)); apply three_cost|]. cbv zeta.
  rewrite !cos_neg, !sin_neg, !step_x, !step_y in MV, MV'. pose proof (MV 0 0 ltac:(lia) ltac:(lia)) as P0. pose proof (MV 1 0 ltac:(lia) ltac:(lia)) as P1. pose proof (MV' 0 0 ltac:(lia) ltac:(lia)) as P0'. pose proof (MV' 1 0 ltac:(lia) ltac:(lia)) as P1'. clear MV MV'.
  rewrite P0, P1, P0', P1'. clear - He.
  assert (S0 : (0 < sin eta)%R) by (apply sin_gt_0; pose proof PI2_3_2; lra). assert (C0 : (0 < cos eta)%R) by (apply cos_gt_0; pose proof PI2_3_2; lra).
  revert S0 C0. generalize (sin eta), (cos eta). intros s c S0 C0.
  assert (M0 : mid (K := C) 0 0 = RtoC 1) by reflexivity. assert (M1 : mid (K := C) 1 0 = RtoC 0) by reflexivity.
  destruct (step_column (RtoC c) (RtoC s) (RtoC (- s)) (RtoC c) mid _ _ M0 M1) as [A0 A1].
  assert (A0' : mmul (SR := CStar) 2 (two_by_two (RtoC c) (RtoC s) (RtoC (- s)) (RtoC c)) mid 0 0 = RtoC c) by (rewrite A0; apply C_ext; cbn; ring).
  assert (A1' : mmul (SR := CStar) 2 (two_by_two (RtoC c) (RtoC s) (RtoC (- s)) (RtoC c)) mid 1 0 = RtoC (- s)) by (rewrite A1; apply C_ext; cbn; ring).
  destruct (step_column (RtoC c) (RtoC s) (RtoC (- s)) (RtoC c) _ _ _ A0' A1') as [B0 B1].
  destruct (step_column (RtoC c) (0, - s)%R (0, - s)%R (RtoC c) _ _ _ B0 B1) as [D0 D1]. rewrite D0, D1. clear A0 A1 A0' A1' B0 B1 D0 D1.
  destruct (step_column (RtoC c) (0, - s)%R (0, - s)%R (RtoC c) mid _ _ M0 M1) as [A0 A1].
  destruct (step_column (RtoC c) (RtoC s) (RtoC (- s)) (RtoC c) _ _ _ A0 A1) as [B0 B1].
  destruct (step_column (RtoC c) (RtoC s) (RtoC (- s)) (RtoC c) _ _ _ B0 B1) as [D0 D1]. rewrite D0, D1. clear A0 A1 B0 B1 D0 D1. cbn.
  apply Rminus_gt_0_lt. match goal with |- (0 < ?x)%R => replace x with (16 * s * s * s * s * s * c)%R by ring end.
  assert (0 < s * s)%R by nra. assert (0 < s * s * (s * s))%R by nra. assert (0 < s * c)%R by nra. nra.
Qed.
Print Assumptions C115_local_refuted.

(** two lists with one Hamiltonian: Z0 X1 and Z0, and Z0 and X1 Z0 given with the wires in
    the other order; and the layers built on them *)
Definition zx01 : qop C := mkqop (mkarr 4 4 (pword [3; 1])) [0; 1].
Definition xz10 : qop C := mkqop (mkarr 4 4 (pword [1; 3])) [1; 0].
Example C115_case eta : (0 <= eta <= 1)%R -> same_hamiltonian 2 [zx01; z_obs] [z_obs; xz10] /\ [zx01; z_obs] <> [z_obs; xz10] /\
  exists l l', SquaredLieAlgebraLayer 2 [zx01; z_obs] eta = Ok l /\ SquaredLieAlgebraLayer 2 [z_obs; xz10] eta = Ok l' /\
    Forall2 (fun o o' => exists m lobs lobs', same_hamiltonian m lobs lobs' /\ built_alike m lobs lobs' o o') [OSquared [zx01; z_obs] l] [OSquared [z_obs; xz10] l'].
Proof.
  intros He. assert (F1 : fits 2 zx01) by (split; [discriminate|]; split; [cbn; repeat constructor; cbn; intuition lia|]; split; [cbn; repeat constructor; lia|split; reflexivity]). assert (F2 : fits 2 xz10) by (split; [discriminate|]; split; [cbn; repeat constructor; cbn; intuition lia|]; split; [cbn; repeat constructor; lia|split; reflexivity]).
  assert (F3 : fits 2 z_obs) by (split; [discriminate|]; split; [cbn; repeat constructor; cbn; intuition lia|]; split; [cbn; repeat constructor; lia|split; reflexivity]).
  assert (G1 : Forall (fits 2) [zx01; z_obs]) by auto. assert (G2 : Forall (fits 2) [z_obs; xz10]) by auto.
  assert (H : same_hamiltonian 2 [zx01; z_obs] [z_obs; xz10]).
  { destruct (C115_order 2 [zx01; z_obs] _ G1 (Permutation_refl _)) as (_ & _ & A & _ & EA & _). destruct (C115_order 2 [z_obs; xz10] _ G2 (Permutation_refl _)) as (_ & _ & B & _ & EB & _).
    split; [exact G1|]. split; [exact G2|]. exists A, B. split; [exact EA|]. split; [exact EB|].
    destruct (ham_entries 2 _ A G1 EA) as (Fs & EF & MF). destruct (ham_entries 2 _ B G2 EB) as (Gs & EG & MG). intros i j Hi Hj. rewrite (MF i j Hi Hj), (MG i j Hi Hj).
    destruct (full_ok 2 _ F1) as (X1 & E1 & _ & _ & M1). destruct (full_ok 2 _ F2) as (X2 & E2 & _ & _ & M2). destruct (full_ok 2 _ F3) as (X3 & E3 & _ & _ & M3).
    cbn [mapM] in EF, EG. rewrite E1, E3 in EF. rewrite E2, E3 in EG. cbn [bind] in EF, EG. injection EF as <-. injection EG as <-.
    unfold msum. rewrite !lsum_cons, !lsum_nil, (M1 i j Hi Hj), (M2 i j Hi Hj). unfold qmat. cbn [q_wires q_matrix a_ent zx01 xz10].
    assert (W1 : wires_ok 2 [0; 1]) by (split; [cbn; repeat constructor; cbn; intuition lia|cbn; repeat constructor; lia]). assert (W2 : wires_ok 2 [1; 0]) by (split; [cbn; repeat constructor; cbn; intuition lia|cbn; repeat constructor; lia]).
    rewrite (emb_pword 2 [0; 1] [3; 1] W1 eq_refl i j Hi Hj), (emb_pword 2 [1; 0] [1; 3] W2 eq_refl i j Hi Hj). change (PauliBasis.place 2 [1; 0] [1; 3]) with (PauliBasis.place 2 [0; 1] [3; 1]). cbn [kadd k0 CStar]. ring. }
  split; [exact H|]. split; [discriminate|].
  destruct (C48_squared_greedy 2 _ eta G1 He ltac:(lia)) as (l & _ & _ & El & _). destruct (C48_squared_greedy 2 _ eta G2 He ltac:(lia)) as (l' & _ & _ & El' & _).
  exists l, l'. split; [exact El|]. split; [exact El'|]. constructor; [|constructor]. exists 2, [zx01; z_obs], [z_obs; xz10]. split; [exact H|]. econstructor; eassumption.
Qed.
