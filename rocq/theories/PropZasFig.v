(** Property C119: what approximate_lie_optimizer returns with return_zassenhaus for a
    ZassenhausLayer, and the figure of experiments_paper/zassenhaus.py. *)
From Coq Require Import ZArith Arith Lia Bool String Reals Lra.
From Coquelicot Require Import Coquelicot.
From Verif Require Import Py StarRing Matrix Cplx Bits Expm UtilsModel CircuitModel CircuitProofs CircuitProofs2 AlgebraModel AlgebraProofs LayerModel LayerProofs GreedyModel GreedyProofs AdaptModel AdaptProofs OptimizerModel OptProofs RotoProofs FlowModel FlowProofs FlowProofs2 Spectral FlowMany FlowRate
  ShiftModel ApproxModel ApproxProofs ApproxExampleModel PropCircuit PropLayers PropGreedy PropAdapt PropOptArgs PropOptRun PropFlow PropFlowRate PropSpectrum PropSymmetry PropEigenstate PropApprox PropTfim ZasFigModel ZasFigProofs.
From Coq Require Import List.
Import ListNotations.
Local Open Scope nat_scope.
Local Open Scope list_scope.

(** ** Lemmas *)
Lemma labels_chain ord (rest : list zas_layer) : forall l, chain (fun _ a b => exists U V, zas_call ord a U = Ok (V, b)) (l :: rest) -> exists Us, labels ord l Us = map za_state (l :: rest).
Proof.
  induction rest as [|b rest IH]; intros l Hc.
  - exists [@mid C CStar]. cbn [labels map]. destruct (zas_call ord l mid) as [[V l']|]; reflexivity.
  - destruct (Hc 0 l b eq_refl eq_refl) as (U & V & E). destruct (IH b) as (Us & EU); [intros k y z Ey Ez; exact (Hc (S k) y z Ey Ez)|].
    exists (U :: Us). cbn [labels]. rewrite E, EU. reflexivity.
Qed.

(** ** C119 *)

(** In every run that returns, label k says 'su4' exactly when k lies in the first part of its
    period; there is one label for each step, and one cost more. *)
Theorem C119_labels : forall x eigh random n gates obs obs' eta add_su2 add_su4 a b l p0 kw r cs ss os us ps zs,
  Forall (fits n) obs' -> (0 <= eta <= 1)%R -> 3 <= n -> ZassenhausLayer n obs' eta add_su2 add_su4 (a, b) = Ok l ->
  ap_accepts (AList [Some 0]) kw -> the_flag kw "return_zassenhaus" = true ->
  approx_optimizer x eigh random n gates obs [OZassenhaus obs' l] RetState (AList [Some 0]) p0 kw = Ok r -> ap_result kw r cs ss os us ps zs ->
  let A := Z.to_nat (Z.max a 1) in let B := Z.to_nat (Z.max b 1) in
  List.length cs = S (List.length zs) /\ forall k, k < List.length zs -> nth_error zs k = Some (Some (if k mod (A + B) <? A then "su4"%string else "su8"%string)).
Proof.
  intros x eigh random n gates obs obs' eta b2 b4 a b l p0 kw r cs ss os us ps zs Hf He Hn El Ha Hz E Hr A B. unfold approx_optimizer in E.
  destruct (C56_C59_approximate_histories _ _ _ _ _ _ _ _ _ _ _ _ _ _ _ _ _ _ _ _ _ _ _ _ Ha E Hr) as (confs & u0 & m & ls & Els & _ & H0 & Hl & _ & Hch & Hc & _ & _ & _ & Hzs). specialize (Hzs Hz).
  assert (ls = [0]) as -> by (destruct ls as [|i [|j ls]]; try discriminate; injection Els as <-; reflexivity).
  assert (Lc : List.length cs = S m) by (rewrite <- Hl; clear - Hc; induction Hc; cbn; congruence). split; [lia|].
  assert (L0 : forall k layer, nth_error [0] (k mod List.length [0]) = Some layer -> layer = 0).
  { intros k layer Q. change (List.length [0]) with 1 in Q. rewrite Nat.mod_1_r in Q. injection Q as <-. reflexivity. }
  (* the layers of the configurations *)
  assert (HL : exists rest, Forall2 (fun y lk => objects y = [OZassenhaus obs' lk]) confs (l :: rest) /\ chain (fun _ a b => exists U V, zas_call (or_ord x) a U = Ok (V, b)) (l :: rest)).
  { assert (G : forall confs y l, (forall k y z, nth_error confs k = Some y -> nth_error confs (S k) = Some z -> exists u' layer, layer = 0 /\ store_call x (truthy (kw_get kw "commute" (PyBool false))) layer (objects y) u' (params_of y) = Ok (unitary_of z, params_of z, objects z)) ->
      nth_error confs 0 = Some y -> objects y = [OZassenhaus obs' l] -> exists rest, Forall2 (fun y lk => objects y = [OZassenhaus obs' lk]) confs (l :: rest) /\ chain (fun _ a b => exists U V, zas_call (or_ord x) a U = Ok (V, b)) (l :: rest)).
    { clear. induction confs as [|c0 confs IH]; intros y l Hs E0 Ey; [discriminate|]. cbn in E0. injection E0 as ->. destruct confs as [|z confs].
      - exists []. split; [constructor; [exact Ey|constructor]|]. intros [|k] p q E1 E2; discriminate.
      - destruct (Hs 0 y z eq_refl eq_refl) as (u' & layer & -> & Ec). unfold store_call in Ec. rewrite Ey in Ec. cbn [list_get nth_error bind obj_call] in Ec.
        destruct (zas_call (or_ord x) l u') as [[V l']|] eqn:Ez; cbn [bind fst snd] in Ec; [|discriminate]. injection Ec as _ _ Eo.
        destruct (IH z l') as (rest & F & Hch); [intros k p q E1 E2; exact (Hs (S k) p q E1 E2)|reflexivity|rewrite <- Eo; reflexivity|].
        exists (l' :: rest). split; [constructor; [exact Ey|exact F]|]. intros [|k] p q E1 E2; [injection E1 as <-; injection E2 as <-; eauto|exact (Hch k p q E1 E2)]. }
    apply (G confs ([OZassenhaus obs' l], u0, p0)); [|exact H0|reflexivity]. intros k y z E1 E2. destruct (Hch k y z E1 E2) as (u' & layer & _ & EL & Ec & _). exists u', layer. split; [exact (L0 k layer EL)|exact Ec]. }
  destruct HL as (rest & F & Hcl). destruct (labels_chain _ _ _ Hcl) as (Us & EU).
  destruct (C49_zassenhaus_schedule n obs' eta b2 b4 a b Hf He Hn) as (l' & El' & S). rewrite El in El'. injection El' as <-. destruct (S (or_ord x) Us) as (S1 & _). fold A B in S1. rewrite EU in S1.
  intros k Hk. destruct (nth_error confs k) as [y|] eqn:Ey; [|apply nth_error_None in Ey; lia]. destruct (nth_error confs (k + 1)) as [z|] eqn:Ez; [|apply nth_error_None in Ez; lia]. rewrite Nat.add_1_r in Ez.
  destruct (Hch k y z Ey Ez) as (u' & layer & _ & EL & _ & _ & Hst). destruct (Hst Hz) as (w & Ew & Es). rewrite Ew. rewrite (L0 k layer EL) in Es.
  assert (Q : exists lk, nth_error (l :: rest) k = Some lk /\ objects y = [OZassenhaus obs' lk]).
  { clear - F Ey. revert k Ey. induction F as [|c lk confs' ls' Hh F IH]; intros [|k] Ey; try discriminate; [injection Ey as ->; exists lk; split; [reflexivity|exact Hh]|exact (IH k Ey)]. }
  destruct Q as (lk & Elk & Eo). unfold store_state in Es. rewrite Eo in Es. cbn [list_get nth_error bind obj_state] in Es. injection Es as <-.
  rewrite (S1 k (za_state lk)); [reflexivity|]. rewrite nth_error_map, Elk. reflexivity.
Qed.
Print Assumptions C119_labels.

Lemma for_range_upto {V} (body : nat -> V -> res (V * bool)) (Inv : nat -> V -> Prop) N :
  (forall i v, i < N -> Inv i v -> exists v' s, body i v = Ok (v', s) /\ Inv (S i) v') ->
  forall k i v, i + k <= N -> Inv i v -> exists v', for_range body i k v = Ok v'.
Proof.
  intros H. induction k as [|k IH]; intros i v Hk Hi; cbn [for_range]; [eauto|].
  destruct (H i v ltac:(lia) Hi) as (w & s & E & Hw). rewrite E. cbn [bind fst snd]. destruct s; [eauto|]. apply IH; [lia|exact Hw].
Qed.

(** A run that is over before the first su8 call returns. *)
Theorem C119_first_part_returns : forall x eigh random n gates obs obs' eta add_su2 add_su4 a b l p0 kw,
  Forall (unitary_gate n) gates -> Forall (fits n) obs -> Forall (fits n) obs' -> (0 <= eta <= 1)%R -> 3 <= n -> ZassenhausLayer n obs' eta add_su2 add_su4 (a, b) = Ok l ->
  ap_accepts (AList [Some 0]) kw -> the_flag kw "return_omegas" = false -> the_steps kw <= Z.to_nat (Z.max a 1) ->
  exists r, approx_optimizer x eigh random n gates obs [OZassenhaus obs' l] RetState (AList [Some 0]) p0 kw = Ok r.
Proof.
  intros x eigh random n gates obs obs' eta b2 b4 a b l p0 kw Hg Hf Hf' He Hn El Ha Ho HA. destruct (start_unitary n gates Hg) as (U & EU & _). set (A := Z.to_nat (Z.max a 1)) in *.
  destruct (obs_embedded n obs' Hf') as (Os & EO & _). destruct (zas_init n obs' Os eta b2 b4 (a, b) EO He Hn) as (t4 & t8 & El' & K4 & _). rewrite El in El'. injection El' as ->.
  assert (Hne : t4 <> []) by (intros E; rewrite E in K4; destruct n as [|[|[|n]]]; try lia; destruct b2; discriminate).
  assert (Hd : NoDup (map fst t4)) by (change (NoDup (map (B := key) fst t4)); rewrite K4; apply all_keys_NoDup, ks4_NoDup).
  unfold approx_optimizer, approximate_lie_optimizer. rewrite EU. cbn [bind print_layers foldM list_get nth_error obj_print].
  destruct (ap_cases (AList [Some 0]) kw) as [[_ (ls & Hl & E)]|[Nn _]]; [|contradiction].
  assert (ls = [0]) as -> by (unfold the_layers in Hl; destruct ls as [|i [|j ls]]; try discriminate; injection Hl as <-; reflexivity).
  rewrite E. cbn [bind]. unfold ap_run. cbn [ap_state ap_unitary ap_nsteps].
  destruct (cost_total n obs (a_ent U) Hf 0%R) as (c & Ec). change (exact_cost n obs (a_ent U) = Ok c) in Ec. rewrite Ec.
  set (call := store_call x _). set (args := mkap _ _ _ _ _ _ _ _ _ _ _).
  set (Inv := fun i (v : ap_vars (St := nat -> C) (P := rows) (Om := list (string * R)) (U := mat C) (Z := option string) (W := list layer_obj)) => List.length (av_costs v) = S i /\ av_rest v = [] /\
    (i < A -> exists cur pe, av_w v = [OZassenhaus obs' (mkzas n eta t4 t8 Os (a, b) (Z.of_nat i) true cur pe)])).
  assert (L : forall ss us, exists v, for_range (ap_body call store_state store_directions (exact_cost n obs) (fun u => Ok (qnode_state u)) (random_perturb eigh n random) args) 0 (the_steps kw)
    (mkapv [] [OZassenhaus obs' (mkzas n eta t4 t8 Os (a, b) 0%Z true None None)] (a_ent U) p0 [c] ss [] us [] []) = Ok v).
  { intros ss us. apply (for_range_upto _ Inv A); [|lia|split; [reflexivity|]; split; [reflexivity|]; intros _; exists None, None; reflexivity].
    intros i v Hi (I1 & I2 & I3). destruct (I3 Hi) as (cur & pe & Ew). unfold ap_body. rewrite I2, Ew. cbn [args ap_layers cycle_next bind fst snd ap_zassenhaus].
    assert (Ez : exists zs, (if the_flag kw "return_zassenhaus" then do z <- store_state 0 [OZassenhaus obs' (mkzas n eta t4 t8 Os (a, b) (Z.of_nat i) true cur pe)]; Ok (av_zas v ++ [z]) else Ok (av_zas v)) = Ok zs) by (destruct (the_flag kw "return_zassenhaus"); eexists; reflexivity).
    destruct Ez as (zs & Ez). rewrite Ez. cbn [bind]. unfold call, store_call. cbn [list_get nth_error bind obj_call]. unfold zas_call. cbn [za_state za_n za_su4 za_obs za_counter za_ratio za_eta za_su8 fst].
    destruct (greedy_step_spec n t4 t4 Os (av_u v) Hd (incl_refl _) Hne) as (l1 & k & P & l2 & _ & _ & Es & _). rewrite Es. cbn [bind]. destruct (rotosolve _ _ _ _ _) as [V e]. cbn [bind fst snd replace_at].
    destruct (cost_total n obs V Hf 0%R) as (c' & Ec'). change (exact_cost n obs V = Ok c') in Ec'. rewrite Ec'. cbn [args bind ap_state ap_omegas]. rewrite Ho.
    assert (Q : exists ss, (if the_flag kw "return_state" then Ok (av_states v ++ [qnode_state V]) else Ok (av_states v)) = Ok ss) by (destruct (the_flag kw "return_state"); eexists; reflexivity).
    destruct Q as (ss' & Ess). rewrite Ess. cbn [args bind ap_unitary ap_tol ap_perturb ap_eta].
    assert (Hl2 : List.length (av_costs v ++ [c']) = S (S i)) by (rewrite app_length; simpl; lia).
    assert (Hw : S i < A -> exists cur pe, replace_at [OZassenhaus obs' (mkzas n eta t4 t8 Os (a, b) (Z.of_nat i) true cur pe)] 0
       (OZassenhaus obs' (mkzas n eta t4 t8 Os (a, b) (if Z.leb a (Z.of_nat i + 1) then 0%Z else (Z.of_nat i + 1)%Z) (negb (Z.leb a (Z.of_nat i + 1))) (Some k) (Some e))) = [OZassenhaus obs' (mkzas n eta t4 t8 Os (a, b) (Z.of_nat (S i)) true cur pe)]).
    { intros Hs. exists (Some k), (Some e). destruct (Z.leb_spec a (Z.of_nat i + 1)) as [J|J]; [unfold A in Hs; lia|]. cbn [replace_at]. replace (Z.of_nat i + 1)%Z with (Z.of_nat (S i)) by lia. reflexivity. }
    assert (R : forall u us ps, Inv (S i) (mkapv [] (replace_at [OZassenhaus obs' (mkzas n eta t4 t8 Os (a, b) (Z.of_nat i) true cur pe)] 0
       (OZassenhaus obs' (mkzas n eta t4 t8 Os (a, b) (if Z.leb a (Z.of_nat i + 1) then 0%Z else (Z.of_nat i + 1)%Z) (negb (Z.leb a (Z.of_nat i + 1))) (Some k) (Some e)))) u (av_params v) (av_costs v ++ [c']) ss' (av_omegas v) us ps zs)).
    { intros. split; [exact Hl2|]. split; [reflexivity|]. exact Hw. }
    destruct (the_opt_tol kw) as [tol|]; [|eexists _, _; split; [reflexivity|apply R]]. destruct (8 <? i) eqn:Ei; [|eexists _, _; split; [reflexivity|apply R]]. apply Nat.ltb_lt in Ei.
    rewrite (from_end_nth _ 1 0%R), (from_end_nth _ 6 0%R) by lia. cbn [bind]. destruct (isclose _ _ _); [|eexists _, _; split; [reflexivity|apply R]]. destruct (the_flag kw "perturb"); eexists _, _; (split; [reflexivity|apply R]). }
  destruct (the_flag kw "return_state"); cbn [bind];
  match goal with |- context [mkapv [] _ _ _ _ ?ss _ ?us _ _] => destruct (L ss us) as (v & Ev); rewrite Ev end; cbn [bind]; destruct (_ <? 1); eauto.
Qed.
Print Assumptions C119_first_part_returns.

(** ** The figure *)
Definition shown_point (lo : R) (i : nat) (c : R) : point :=
  mkpoint i (c - lo) (if i mod 6 <? 4 then "crimson"%string else "navy"%string)
    (match i with 0 => Some "SU(4) layer"%string | 4 => Some "Zass. SU(8) layer"%string | _ => None end).

Lemma points_shown costs lo zs : (forall c, In c costs -> lo <= c)%R -> List.length costs = S (List.length zs) ->
  (forall k, k < List.length zs -> nth_error zs k = Some (Some (if k mod 6 <? 4 then "su4"%string else "su8"%string))) ->
  forall m, m <= List.length zs -> foldM (zf_round costs lo zs) (seq 0 m) (true, true, []) = Ok (m =? 0, m <=? 4, map (fun i => shown_point lo i (nth i costs 0%R)) (seq 0 m)).
Proof.
  intros Hc Hl Hz. induction m as [|m IH]; intros Hm; [reflexivity|]. rewrite seq_S, foldM_app, IH by lia. cbn [bind Nat.add foldM]. unfold zf_round. unfold list_get. rewrite (Hz m) by lia. cbn [bind].
  rewrite (nth_error_nth' costs 0%R) by lia. assert (P : (lo <= nth m costs 0)%R) by (apply Hc, nth_In; lia). rewrite map_app. cbn [map].
  assert (E : shown_point lo m (nth m costs 0%R) = mkpoint m (nth m costs 0 - lo)%R (if m mod 6 <? 4 then "crimson"%string else "navy"%string) (if m =? 0 then Some "SU(4) layer"%string else if m =? 4 then Some "Zass. SU(8) layer"%string else None)).
  { unfold shown_point. destruct m as [|[|[|[|[|m]]]]]; reflexivity. }
  rewrite E. clear E. destruct (m mod 6 <? 4) eqn:Em; cbn [String.eqb Ascii.eqb Bool.eqb bind].
  - apply Nat.ltb_lt in Em. assert (m <> 4) by (intros ->; cbn in Em; lia). replace (S m =? 0) with false by reflexivity. replace (S m <=? 4) with (m <=? 4) by (destruct (Nat.leb_spec m 4), (Nat.leb_spec (S m) 4); lia || reflexivity).
    destruct (Nat.eqb_spec m 0) as [e0|]; [rewrite Rabs_Rabsolu|replace (m =? 4) with false by (symmetry; apply Nat.eqb_neq; assumption)]; rewrite Rabs_pos_eq by lra; reflexivity.
  - apply Nat.ltb_ge in Em. assert (4 <= m) by (destruct (Nat.le_gt_cases 4 m); [assumption|]; rewrite Nat.mod_small in Em by lia; lia). replace (m =? 0) with false by (symmetry; apply Nat.eqb_neq; lia). replace (S m <=? 4) with false by (symmetry; apply Nat.leb_gt; lia).
    rewrite Rabs_pos_eq by lra. replace (m <=? 4) with (m =? 4) by (destruct (Nat.leb_spec m 4), (Nat.eqb_spec m 4); lia || reflexivity). destruct (m =? 4); reflexivity.
Qed.

(** The figure, if the run returns: the first cost is that of the circuit, the curve is the
    distance of the costs to the lowest eigenvalue - (1 + sqrt 5), the line Minimum is at that
    negative number on an axis of the distances, point i is on the curve and crimson exactly when
    i mod 6 < 4; there is one point for each cost but the last, and the points 0 and 4 carry the
    two entries of the legend. *)
Theorem C119_figure : forall x eigh random more fig, svd_correct (or_svd x) -> eigh_correct 8 eigh ->
  two_observables_3_qubits_zassenhaus x eigh random more = Ok fig -> exists costs H,
  get_hamiltonian_matrix 3 zf_observables None = Ok H /\ lowest 8 (a_ent H) (- (1 + sqrt 5)) /\
  2 <= List.length costs <= S (the_steps more) /\
  nth_error costs 0 = Some (2 * (cos (2 / 10) * cos (14 / 10)) + sin (2 / 10) - sin (2 / 10) * (cos (2 / 10) * sin (14 / 10)))%R /\ Forall (fun c => - (1 + sqrt 5) <= c <= 1 + sqrt 5)%R costs /\
  zf_curve fig = map (fun c => c + (1 + sqrt 5))%R costs /\ zf_line fig = repeat (- (1 + sqrt 5))%R (List.length costs) /\
  S (List.length (zf_points fig)) = List.length costs /\
  forall i, i < List.length (zf_points fig) -> nth_error (zf_points fig) i =
    Some (mkpoint i (nth i (zf_curve fig) 0%R) (if i mod 6 <? 4 then "crimson"%string else "navy"%string)
      (match i with 0 => Some "SU(4) layer"%string | 4 => Some "Zass. SU(8) layer"%string | _ => None end)).
Proof.
  intros x eigh random more fig Hs He E. destruct zf_ham as (G & EG & MG). destruct (zf_lowest _ MG) as [Lo Hi]. pose proof (zf_herm _ MG) as Hh.
  pose proof (min_lowest 8 (a_ent G) eigh _ Hh He ltac:(lia) Lo) as Em. unfold two_observables_3_qubits_zassenhaus in E. rewrite EG in E. cbn [bind] in E. change (2 ^ 3) with 8 in E. rewrite Em in E.
  destruct (C49_zassenhaus_schedule 3 zf_observables (/ 10) false false 4%Z 2%Z zf_fits ltac:(lra) ltac:(lia)) as (l & El & _). change (4, 2)%Z with zf_ratio in El. rewrite El in E. cbn [bind] in E.
  destruct (approx_optimizer _ _ _ _ _ _ _ _ _ _ _) as [r|] eqn:Er; cbn [bind] in E; [|discriminate].
  assert (Ha : ap_accepts (AList [Some 0]) (zf_kwargs ++ more)).
  { destruct (ap_cases (AList [Some 0]) (zf_kwargs ++ more)) as [[Ha _]|[_ (e & _ & Ee)]]; [exact Ha|]. exfalso. unfold approx_optimizer, approximate_lie_optimizer in Er. rewrite Ee in Er. discriminate. }
  assert (Hzf : the_flag (zf_kwargs ++ more) "return_zassenhaus" = true) by reflexivity.
  pose proof Er as Er'. unfold approx_optimizer in Er'. destruct (C60_approximate_shape _ _ _ _ _ _ _ _ _ _ _ _ _ _ _ _ _ _ Ha Er') as (cs & ss & os & us & ps & zs & Hr).
  destruct (C119_labels x eigh random 3 (zf_circuit zf_params) zf_observables zf_observables (/ 10) false false 4 2 l _ _ _ cs ss os us ps zs zf_fits ltac:(lra) ltac:(lia) El Ha Hzf Er Hr) as [Lz Hz]. cbn [Nat.add] in Hz. change (Z.to_nat (Z.max 4 1) + Z.to_nat (Z.max 2 1)) with 6 in Hz. change (Z.to_nat (Z.max 4 1)) with 4 in Hz.
  assert (Hb : Forall (built x 3) [OZassenhaus zf_observables l]) by (constructor; [exact (built_zassenhaus x 3 _ (/ 10) false false zf_ratio l zf_fits El)|constructor]).
  destruct (C100_approximate x eigh random 3 _ _ _ _ _ _ _ _ _ _ _ _ _ G (zf_gates_unitary zf_params) zf_fits zf_hermitian Hs He Hb Ha Er Hr EG _ _ Lo Hi) as [B _].
  destruct (C56_C59_approximate_histories _ _ _ _ _ _ _ _ _ _ _ _ _ _ _ _ _ _ _ _ _ _ _ _ Ha Er' Hr) as (confs & u0 & m & ls & _ & Est & Hc0 & Lc & Hm & _ & Hcs & _).
  assert (Lcs : List.length cs = S m) by (rewrite <- Lc; clear - Hcs; induction Hcs; cbn; congruence).
  assert (Hsteps : the_steps (zf_kwargs ++ more) = the_steps more) by reflexivity.
  assert (Er2 : r = RTuple [ItCosts cs; ItZassenhaus zs]).
  { unfold ap_result in Hr. rewrite Hzf in Hr. rewrite !orb_true_r in Hr. rewrite Hr. rewrite Hr in E.
    destruct (the_flag (zf_kwargs ++ more) "return_state"), (the_flag (zf_kwargs ++ more) "return_omegas"), (the_flag (zf_kwargs ++ more) "return_unitary"), (the_flag (zf_kwargs ++ more) "return_gates"), (the_flag (zf_kwargs ++ more) "return_perturbations"); cbn in E; try discriminate. reflexivity. }
  rewrite Er2 in E. rewrite Forall_forall in B.
  rewrite (points_shown cs (- (1 + sqrt 5)) zs (fun c Hc => proj1 (B c Hc)) Lz Hz) in E by lia. cbn [bind snd] in E. injection E as <-.
  assert (Ec : map (fun c => Rabs (c - - (1 + sqrt 5))) cs = map (fun c => c + (1 + sqrt 5))%R cs).
  { apply map_ext_in. intros c Hc. destruct (B c Hc). rewrite Rabs_pos_eq; lra. }
  exists cs, G. split; [exact EG|]. split; [exact Lo|]. split; [lia|].
  split. { destruct (zf_start_cost (2 / 10) (14 / 10)) as (U & EU & EC). change (2 / 10, 14 / 10)%R with zf_params in EU. rewrite EU in Est. cbn [bind] in Est. injection Est as <-.
    destruct Hcs as [|x0 c0 confs' cs' H0 _]; [discriminate|]. cbn [nth_error] in Hc0 |- *. injection Hc0 as ->. cbn [unitary_of] in H0. change (exact_cost 3 zf_observables (a_ent U) = Ok c0) in H0. rewrite EC in H0. injection H0 as <-. reflexivity. }
  split; [apply Forall_forall; exact B|]. cbn [zf_curve zf_line zf_points]. split; [exact Ec|].
  split. { generalize (- (1 + sqrt 5))%R. intros y. clear. induction cs as [|c cs IH]; [reflexivity|]. cbn [map List.length repeat]. rewrite IH. reflexivity. }
  rewrite map_length, seq_length. split; [lia|]. intros i Hlt. rewrite Ec. rewrite nth_error_map. rewrite (nth_error_nth' _ 0) by (rewrite seq_length; exact Hlt). rewrite seq_nth by exact Hlt. cbn [Nat.add option_map]. unfold shown_point.
  f_equal. f_equal. rewrite (nth_indep (map _ cs) 0%R (0 + (1 + sqrt 5))%R) by (rewrite map_length; lia). rewrite (map_nth (fun c => c + (1 + sqrt 5))%R). ring.
Qed.
Print Assumptions C119_figure.

(** With at most four steps, all of them on SU(4), the figure appears; whether it does with the
    default of forty is left open: a su8 call can raise. *)
Theorem C119_short : forall x eigh random steps, (1 <= steps <= 4)%Z -> exists fig, two_observables_3_qubits_zassenhaus x eigh random [("nsteps"%string, PyInt steps)] = Ok fig.
Proof.
  intros x eigh random steps Hst. destruct zf_ham as (G & EG & _). unfold two_observables_3_qubits_zassenhaus. rewrite EG. cbn [bind].
  destruct (C49_zassenhaus_schedule 3 zf_observables (/ 10) false false 4%Z 2%Z zf_fits ltac:(lra) ltac:(lia)) as (l & El & _). change (4, 2)%Z with zf_ratio in El. rewrite El. cbn [bind].
  set (kw := zf_kwargs ++ [("nsteps"%string, PyInt steps)]).
  assert (Ha : ap_accepts (AList [Some 0]) kw).
  { unfold ap_accepts, allowed, arg. cbn. split; [exists [0]; reflexivity|]. split; [intros v H; injection H as <-; right; exists steps; split; [reflexivity|lia]|].
    split; [intros v H; injection H as <-; exists (/ 10)%R; split; [reflexivity|lra]|]. split; [intros v H; discriminate|]. split; [intros v H; discriminate|].
    intros name Hin v H. simpl in Hin. intuition; subst; cbn in H; try discriminate; injection H as <-; eexists; reflexivity. }
  assert (Hzf : the_flag kw "return_zassenhaus" = true) by reflexivity.
  destruct (C119_first_part_returns x eigh random 3 (zf_circuit zf_params) zf_observables zf_observables (/ 10) false false 4 2 l [[fst zf_params; snd zf_params]] kw (zf_gates_unitary zf_params) zf_fits zf_fits ltac:(lra) ltac:(lia) El Ha eq_refl) as (r & Er).
  { unfold the_steps. cbn. lia. }
  rewrite Er. cbn [bind]. pose proof Er as Er'. unfold approx_optimizer in Er'. destruct (C60_approximate_shape _ _ _ _ _ _ _ _ _ _ _ _ _ _ _ _ _ _ Ha Er') as (cs & ss & os & us & ps & zs & Hr).
  destruct (C119_labels x eigh random 3 (zf_circuit zf_params) zf_observables zf_observables (/ 10) false false 4 2 l _ _ _ cs ss os us ps zs zf_fits ltac:(lra) ltac:(lia) El Ha Hzf Er Hr) as [Lz Hz].
  unfold ap_result in Hr. cbn in Hr. subst r.
  set (lo := min_eigenvalue _ _ _).
  assert (T : forall m v, m <= List.length zs -> exists w, foldM (zf_round cs lo zs) (seq 0 m) v = Ok w).
  { induction m as [|m IH]; intros v Hm; [eexists; reflexivity|]. destruct (IH v ltac:(lia)) as ([[f4 f8] pts] & Ew). rewrite seq_S, foldM_app, Ew. cbn [bind foldM Nat.add]. unfold zf_round. unfold list_get. rewrite (Hz m) by lia. cbn [bind]. rewrite (nth_error_nth' cs 0%R) by lia.
    destruct (_ <? _); cbn; eexists; reflexivity. }
  destruct (T (List.length zs) (true, true, []) ltac:(lia)) as (w & Ew). rewrite Ew. cbn [bind]. eexists. reflexivity.
Qed.
Print Assumptions C119_short.

(** Decompositions as the theorems ask for exist. With them and four steps the figure has between
    one and four points, all of them crimson, the first one with a label, none of them below 0, and the line
    is below -3.2. *)
Example C119_case : exists x eigh fig, svd_correct (or_svd x) /\ eigh_correct 8 eigh /\
  two_observables_3_qubits_zassenhaus x eigh (fun _ _ _ => 0%R) [("nsteps"%string, PyInt 4)] = Ok fig /\
  1 <= List.length (zf_points fig) <= 4 /\ Forall (fun p => pt_color p = "crimson"%string) (zf_points fig) /\ (exists p, nth_error (zf_points fig) 0 = Some p /\ pt_label p = Some "SU(4) layer"%string) /\
  (nth 0 (zf_line fig) 0 < - (32 / 10))%R.
Proof.
  destruct eigh_exists as (eigh & He). set (x := mkoracles svd_trivial (fun l => l) (fun _ => 0) (0, 0, 0) (fun f => (f (0, 0, 0)%R, 0, 0)%R)).
  destruct (C119_short x eigh (fun _ _ _ => 0%R) 4 ltac:(lia)) as (fig & E).
  destruct (C119_figure x eigh _ _ fig svd_trivial_correct (He 8) E) as (cs & H & _ & _ & Lc & _ & _ & _ & El & Lp & Hp). change (the_steps [("nsteps"%string, PyInt 4)]) with 4 in Lc.
  exists x, eigh, fig. split; [apply svd_trivial_correct|]. split; [exact (He 8)|]. split; [exact E|]. split; [lia|]. split; [|split].
  - apply Forall_forall. intros p Hin. apply In_nth_error in Hin. destruct Hin as (i & Hin). assert (Hi : i < List.length (zf_points fig)) by (apply nth_error_Some; congruence). rewrite (Hp i Hi) in Hin.
    destruct i as [|[|[|[|i]]]]; [| | | |lia]; injection Hin as <-; reflexivity.
  - eexists. split; [apply (Hp 0); lia|reflexivity].
  - rewrite El. destruct cs as [|c cs]; [cbn in Lc; lia|]. cbn [List.length repeat nth]. destruct root_5 as [Q P]. assert (22 / 10 < sqrt 5)%R by nra. lra.
Qed.
