(** Properties C62 and C66 for approximate_lie_optimizer with the layer classes. *)
From Coq Require Import ZArith Arith Lia Bool String Reals Lra Ring Setoid Morphisms Classical Permutation.
From Coquelicot Require Import Coquelicot.
From Verif Require Import Py StarRing Matrix Cplx PauliSpec Bits PauliBasis Expm UtilsModel CircuitModel CircuitProofs CircuitProofs2 AlgebraModel AlgebraProofs PropAlgebra
  LayerModel LayerProofs LayerProofs2 GreedyModel GreedyProofs AdaptModel ZasV2Model ZasV2Terms ZasV2Proofs CommuteModel OptimizerModel OptProofs FlowModel FlowProofs FlowProofs2 ShiftModel ApproxModel ApproxProofs
  PropLayers PropGreedy PropAdapt PropOptArgs PropOptRun PropFlow.
From Coq Require Import List.
Import ListNotations.
Local Open Scope nat_scope.
Local Open Scope list_scope.

(** ** Specification *)

(** iteration orders of sets *)
Definition reordering {A} (ord : list A -> list A) : Prop := forall l, Permutation (ord l) l.

(** the layer objects a program can have made on a device of n qubits: by the
    constructors with Hermitian observables (with at least two qubits for the
    adaptive layer and ZassenhausLayerV2, whose calls raise otherwise), by set_eta and by calls *)
Inductive built (x : oracles) (n : nat) : layer_obj -> Prop :=
| built_lie obs Fs : mapM (full n) obs = Ok Fs -> built x n (OLie n Fs)
| built_local obs locality eta stride ds check trot l : Forall (fits n) obs -> Forall hermitian_obs obs ->
    LocalLieAlgebraLayer n obs locality eta stride ds check trot = Ok l -> built x n (OLocal l)
| built_custom obs ds eta check trot l : Forall (fits n) obs -> Forall hermitian_obs obs ->
    CustomDirectionLieAlgebraLayer n obs ds eta check trot = Ok l -> built x n (OCustom l)
| built_stochastic obs eta check l : Forall (fits n) obs -> StochasticLieAlgebraLayer n obs eta check = Ok l -> built x n (OStochastic l)
| built_squared obs eta l : Forall (fits n) obs -> SquaredLieAlgebraLayer n obs eta = Ok l -> built x n (OSquared obs l)
| built_su8 obs eta b c l : Forall (fits n) obs -> SU8_AlgebraLayer n obs eta b c = Ok l -> built x n (OSU8 obs l)
| built_zassenhaus obs eta b c ratio l : Forall (fits n) obs -> ZassenhausLayer n obs eta b c ratio = Ok l -> built x n (OZassenhaus obs l)
| built_adapt obs eta l : Forall (fits n) obs -> 2 <= n -> AdaptVQELayer n obs eta = Ok l -> built x n (OAdapt obs l)
| built_v2 ord ordS obs eta b c l : reordering ord -> reordering ordS -> Forall (fits n) obs -> 2 <= n -> ZassenhausLayerV2 ord ordS n obs eta b c = Ok l -> built x n (OZasV2 obs l)
| built_eta eta o : built x n o -> built x n (obj_set_eta eta o)
| built_call commute o U p V p' o' : built x n o -> unitary2 (2 ^ n) U -> obj_call x commute o U p = Ok (V, p', o') -> built x n o'.

(** new layer objects whose calls do not raise: documented arguments, at least one
    operator to move along *)
Inductive dependable (n : nat) : layer_obj -> Prop :=
| dep_local obs locality eta stride ds check trot l eta' : Forall (fits n) obs -> Forall hermitian_obs obs -> good_args n locality eta stride ds -> trot = true \/ ds <> Some [] ->
    LocalLieAlgebraLayer n obs locality eta stride ds check trot = Ok l -> dependable n (OLocal (local_set_eta l eta'))
| dep_custom obs ds eta check trot l eta' : Forall (fits n) obs -> Forall hermitian_obs obs -> (0 <= eta <= 1)%R -> incl ds (su2_list ++ su4_list) ->
    trot = true \/ obs = [] \/ (exists d, In d ds /\ String.length d <= n) ->
    CustomDirectionLieAlgebraLayer n obs (Some ds) eta check trot = Ok l -> dependable n (OCustom (custom_set_eta l eta'))
| dep_squared obs eta l : Forall (fits n) obs -> Forall hermitian_obs obs -> (0 <= eta <= 1)%R -> 1 <= n -> SquaredLieAlgebraLayer n obs eta = Ok l -> dependable n (OSquared obs l)
| dep_su8 obs eta b c l : Forall (fits n) obs -> Forall hermitian_obs obs -> (0 <= eta <= 1)%R -> 3 <= n -> SU8_AlgebraLayer n obs eta b c = Ok l -> dependable n (OSU8 obs l)
| dep_adapt obs eta l : Forall (fits n) obs -> Forall hermitian_obs obs -> (0 <= eta <= 1)%R -> 2 <= n -> AdaptVQELayer n obs eta = Ok l -> dependable n (OAdapt obs l)
| dep_v2 ord ordS obs eta b c l : reordering ord -> reordering ordS -> Forall (fits n) obs -> Forall hermitian_obs obs -> 2 <= n ->
    ZassenhausLayerV2 ord ordS n obs eta b c = Ok l -> dependable n (OZasV2 obs l).

(** the layers for which get_lie_algebra_directions does not raise (C52) *)
Definition gives_directions (o : layer_obj) : Prop :=
  match o with OSquared _ _ | OSU8 _ _ | OZassenhaus _ _ | OAdapt _ _ | OZasV2 _ _ => True | _ => False end.

(** a normalised state on n qubits *)
Definition normalised (n : nat) (s : nat -> C) : Prop := lsum (SR := CStar) (fun i => Cmult (Cconj (s i)) (s i)) (seq 0 (2 ^ n)) = RtoC 1.

(** ** C66 *)
Lemma svd_correct_at svd : svd_correct svd -> svd_ok svd.
Proof. intros H. exact H. Qed.

Lemma built_sound x n o : svd_correct (or_svd x) -> built x n o -> sound n o.
Proof.
  intros Hs. apply svd_correct_at in Hs. induction 1; cbn [sound].
  - exact I.
  - eapply local_built; eassumption.
  - eapply custom_built; eassumption.
  - exact I.
  - eapply squared_built; eassumption.
  - eapply su8_built; eassumption.
  - eapply zas_built; eassumption.
  - eapply adapt_built; eassumption.
  - eapply v2_made; eassumption.
  - apply sound_set_eta. assumption.
  - eapply sound_call; eassumption.
Qed.

Lemma store_built x n c i w U p V p' w' : svd_correct (or_svd x) -> Forall (built x n) w -> unitary2 (2 ^ n) U -> store_call x c i w U p = Ok (V, p', w') ->
  unitary2 (2 ^ n) V /\ Forall (built x n) w' /\ exists o o', built x n o /\ obj_call x c o U p = Ok (V, p', o').
Proof.
  intros Hs Hw HU E. unfold store_call in E. destruct (list_get w i) as [o|] eqn:Eo; [|discriminate]. cbn [bind] in E.
  destruct (obj_call x c o U p) as [[[W q] o']|] eqn:Ec; [|discriminate]. cbn [bind] in E. injection E as <- <- <-.
  assert (Ho : built x n o). { apply list_get_In in Eo. rewrite Forall_forall in Hw. auto. }
  destruct (sound_call x n c o U p W q o' (svd_correct_at _ Hs) (built_sound _ _ _ Hs Ho) HU Ec) as [H1 _]. split; [exact H1|].
  split; [apply replace_at_Forall; [exact Hw|exact (built_call x n c o U p W q o' Ho HU Ec)]|]. exists o, o'. auto.
Qed.

Lemma full_list n obs Fs : mapM (full n) obs = Ok Fs -> Forall2 (fun o F => full n o = Ok F) obs Fs.
Proof.
  revert Fs. induction obs as [|o r IH]; intros Fs E; cbn [mapM] in E; [injection E as <-; constructor|].
  destruct (full n o) as [F|] eqn:EF; cbn [bind] in E; [|discriminate]. destruct (mapM (full n) r) as [Fr|]; cbn [bind] in E; [|discriminate]. injection E as <-. constructor; auto.
Qed.

Lemma pow2_pos n : 0 < 2 ^ n.
Proof. apply Nat.neq_0_lt_0, Nat.pow_nonzero. discriminate. Qed.

(** every run that returns: all circuits are unitary, including those the layers
    were called with, the costs are the energies of the circuits, the states are
    normalised *)
Theorem C66_approximate_unitary : forall x eigh random n gates obs w layers p0 kw r cs ss os us ps zs,
  Forall (unitary_gate n) gates -> Forall (fits n) obs -> svd_correct (or_svd x) -> eigh_correct (2 ^ n) eigh -> Forall (built x n) w -> ap_accepts layers kw ->
  approx_optimizer x eigh random n gates obs w RetState layers p0 kw = Ok r -> ap_result kw r cs ss os us ps zs ->
  exists circuits Fs, Forall2 (embedded n) obs Fs /\ Forall (unitary2 (2 ^ n)) circuits /\ cs = map (energy n Fs) circuits /\
    (the_flag kw "return_unitary" = true -> us = circuits) /\
    (the_flag kw "return_state" = true -> ss = map (fun u i => u i 0) circuits /\ Forall (normalised n) ss) /\
    chain (fun _ u v => exists input commute o p p' o', unitary2 (2 ^ n) input /\ built x n o /\ obj_call x commute o input p = Ok (v, p', o')) circuits.
Proof.
  intros x eigh random n gates obs w layers p0 kw r cs ss os us ps zs Hg Hf Hs He Hw Ha E Hr. destruct (start_unitary n gates Hg) as (U & EU & HU).
  unfold approx_optimizer in E. rewrite EU in E. cbn [bind] in E. set (cm := truthy (kw_get kw "commute" (PyBool false))) in E.
  destruct (C56_C59_approximate_histories _ _ _ _ _ _ _ _ _ _ _ _ _ _ _ _ _ _ _ _ _ _ _ _ Ha E Hr) as (confs & u0 & m & ls & _ & E0 & H0 & Hl & Hm & Hc & Hcost & Hst & Hun & _).
  destruct (print_layers w layers) as [[]|]; cbn [bind] in E0; [|discriminate]. injection E0 as E0. subst u0.
  assert (HR : forall cs k y u', unitary2 (2 ^ n) y -> restart (the_flag kw "perturb") 8 5 (the_opt_tol kw) cs (random_perturb eigh n random (the_eta kw)) k y u' -> unitary2 (2 ^ n) u').
  { intros cs0 k y u' Hy Hre. destruct k as [|j]; cbn [restart] in Hre; [subst; exact Hy|]. destruct Hre as [(_ & _ & ->)|(_ & ->)]; [apply perturb_unitary; assumption|exact Hy]. }
  assert (HQ : forall k y, nth_error confs k = Some y -> Forall (built x n) (objects y) /\ unitary2 (2 ^ n) (unitary_of y)).
  { induction k as [|k IH]; intros y Hy; [rewrite H0 in Hy; injection Hy as <-; split; assumption|].
    destruct (nth_error confs k) as [z|] eqn:Ez; [|apply nth_error_None in Ez; assert (S k < List.length confs) by (apply nth_error_Some; congruence); lia].
    destruct (IH z eq_refl) as [I1 I2]. destruct (Hc k z y Ez Hy) as (u' & layer & Hre & _ & Ec & _).
    destruct (store_built x n cm layer _ _ _ _ _ _ Hs I1 (HR _ _ _ _ I2 Hre) Ec) as (J1 & J2 & _). auto. }
  destruct (obs_embedded n obs Hf) as (Fs & EFs & HFs). exists (map unitary_of confs), Fs. split; [exact HFs|]. apply full_list in EFs.
  assert (HU' : Forall (unitary2 (2 ^ n)) (map unitary_of confs)).
  { apply Forall_map. apply Forall_forall. intros y Hy. apply In_nth_error in Hy. destruct Hy as (k & Hk). apply (HQ k y Hk). }
  split; [exact HU'|]. split; [|split; [exact Hun|split]].
  - clear - Hcost EFs. induction Hcost as [|y c cw cc E H IH]; [reflexivity|]. cbn [map]. rewrite <- IH. f_equal. rewrite (cost_energy n obs Fs (unitary_of y) EFs) in E. injection E. auto.
  - intros Hf1. specialize (Hst Hf1). assert (Ess : ss = map (fun u i => u i 0) (map unitary_of confs)).
    { clear - Hst. induction Hst as [|y s cw cc E H IH]; [reflexivity|]. cbn [map]. rewrite <- IH. f_equal. injection E. auto. }
    split; [exact Ess|]. rewrite Ess. apply Forall_map. eapply Forall_impl; [|exact HU']. intros u [Hu _]. exact (state_norm (2 ^ n) u (pow2_pos n) Hu).
  - intros k u v Hu Hv. rewrite nth_error_map in Hu, Hv. destruct (nth_error confs k) as [y|] eqn:Ey; [|discriminate]. destruct (nth_error confs (S k)) as [z|] eqn:Ez; [|discriminate].
    cbn in Hu, Hv. injection Hu as <-. injection Hv as <-. destruct (Hc k y z Ey Ez) as (u' & layer & Hre & _ & Ec & _). destruct (HQ k y Ey) as [I1 I2].
    pose proof (HR _ _ _ _ I2 Hre) as I3. destruct (store_built x n cm layer _ _ _ _ _ _ Hs I1 I3 Ec) as (_ & _ & o & o' & Ho & Eo). exists u', cm, o, (params_of y), (params_of z), o'. auto.
Qed.
Print Assumptions C66_approximate_unitary.

(** ** Runs with dependable layers return *)
Definition ready (x : oracles) (n : nat) (p : rows) (o : layer_obj) : Prop :=
  match o with
  | OLocal l => local_sound n l /\ forall U, unitary2 (2 ^ n) U -> exists V, local_call (or_svd x) l U = Ok V
  | OCustom l => custom_sound n l /\ forall U, unitary2 (2 ^ n) U -> exists V, custom_call (or_svd x) l U = Ok V
  | OSquared obs l | OSU8 obs l => Forall (fits n) obs /\ Forall hermitian_obs obs /\ greedy_sound n l /\ NoDup (map fst (gr_table l)) /\
      exists k1 k2 : key, k1 <> k2 /\ In k1 (map fst (gr_table l)) /\ In k2 (map fst (gr_table l))
  | OAdapt obs l => Forall (fits n) obs /\ Forall hermitian_obs obs /\ adapt_sound n l /\ List.length (ad_layers l) <= List.length p /\ Forall (fun r => List.length r = n) p
  | OZasV2 obs l => Forall (fits n) obs /\ Forall hermitian_obs obs /\ v2_sound n l
  | _ => False
  end.

Lemma dependable_ready x n p o : svd_correct (or_svd x) -> Forall (fun r => List.length r = n) p -> dependable n o -> ready x n p o.
Proof.
  intros Hs Hp Ho. destruct Ho as [obs locality eta stride ds check trot l eta' Hf Hh Ha Ht El|obs ds eta check trot l eta' Hf Hh He Hd Ht El|obs eta l Hf Hh He Hn El|obs eta b c l Hf Hh He Hn El|obs eta l Hf Hh He Hn El|ord ordS obs eta b c l HO HS Hf Hh Hn El]; cbn [ready].
  - split; [apply (sound_set_eta n eta' (OLocal l)); eapply local_built; eassumption|]. intros U HU.
    destruct (C42_local_layer_unitary n obs locality eta stride ds check trot Hf Hh Ha Ht) as (l' & El' & Hc). rewrite El in El'. injection El' as <-.
    destruct (Hc _ Hs eta' U HU) as (V & EV & _). eauto.
  - split; [apply (sound_set_eta n eta' (OCustom l)); eapply custom_built; eassumption|]. intros U HU.
    destruct (C42_custom_layer_unitary n obs ds eta check trot Hf Hh He Hd Ht) as (l' & El' & Hc). rewrite El in El'. injection El' as <-.
    destruct (Hc _ Hs eta' U HU) as (V & EV & _). eauto.
  - split; [exact Hf|]. split; [exact Hh|]. split; [eapply squared_built; eassumption|].
    destruct (C48_squared_greedy n obs eta Hf He Hn) as (l' & Os & t & El' & _ & Et & (Hd & Hin & _) & _). rewrite El in El'. injection El' as <-. rewrite Et. split; [exact Hd|].
    exists ("X"%string, [0]), ("Y"%string, [0]). split; [congruence|]. split; apply Hin; [exists [1]|exists [2]]; repeat split; simpl; auto; repeat constructor; lia.
  - split; [exact Hf|]. split; [exact Hh|]. split; [eapply su8_built; eassumption|].
    destruct (C48_su8_greedy n obs eta b c Hf He Hn) as (l' & Os & t & El' & _ & Et & (Hd & Hin & _) & _). rewrite El in El'. injection El' as <-. rewrite Et. split; [exact Hd|].
    exists ("XXX"%string, [0; 1; 2]), ("XXY"%string, [0; 1; 2]). split; [congruence|].
    split; apply Hin; [exists [1; 1; 1]|exists [1; 1; 2]]; (split; [reflexivity|]; split; [destruct b, c; simpl; tauto|]); repeat split; simpl; auto; repeat constructor; lia.
  - split; [exact Hf|]. split; [exact Hh|]. split; [eapply adapt_built; eassumption|]. split; [|exact Hp].
    destruct (mapM_full n obs Hf) as (Fs & EF & _). destruct (adapt_init n obs Fs eta EF He) as (t & E' & _). rewrite El in E'. injection E' as ->. cbn. lia.
  - split; [exact Hf|]. split; [exact Hh|]. eapply v2_made; [exact HO|exact HS|exact Hf|exact Hn|exact El].
Qed.

Lemma adapt_total n obs l U p : Forall (fits n) obs -> adapt_sound n l -> List.length (ad_layers l) <= List.length p -> Forall (fun r => List.length r = n) p ->
  exists V p' l', adapt_call (layer_optimizer (ad_n l) obs) l U p = Ok (V, p', l') /\ List.length p' = S (List.length p) /\ Forall (fun r => List.length r = n) p' /\
    List.length (ad_layers l') = S (List.length (ad_layers l)).
Proof.
  intros Hf (Hn & table & Ht & Hi & El) I1 I2. assert (En : ad_n l = n) by (rewrite El; reflexivity). rewrite En. rewrite El. unfold adapt_call. cbn [ad_n ad_obs ad_table ad_dirs ad_prev ad_layers].
  destruct (choice n (ad_obs l) U table Hn Ht (last_dir (ad_layers l))) as (k & Ek & _ & m1 & m2 & Em & _).
  destruct (mapM _ (filter _ _)) as [los|]; cbn [bind] in *; [|discriminate]. rewrite Ek. cbn [bind].
  assert (Hi' : incl (ad_layers l ++ [k]) moves).
  { apply incl_app; [exact Hi|]. intros y [<-|[]]. rewrite Em. apply in_or_app. right. left. reflexivity. }
  set (p1 := p ++ [repeat (/ 10)%R n]).
  assert (J : List.length (ad_layers l ++ [k]) <= List.length p1 /\ Forall (fun r => List.length r = n) p1 /\ List.length p1 = S (List.length p)).
  { unfold p1. rewrite !app_length. simpl. split; [lia|]. split; [|lia]. apply Forall_app. split; [exact I2|]. constructor; [apply repeat_length|constructor]. }
  destruct J as (J1 & J2 & J3).
  destruct (layer_optimizer_works n obs Hf (circuit_vqe n (ad_layers l ++ [k])) p1) as (h & Eo).
  { intros q Hq. destruct (shape_rows n _ q J2 Hq) as [L1 L2]. destruct (circuit_scheduled n _ q Hn Hi') as (gs & E & _ & S); [lia|auto|].
    exists gs. split; [exact E|]. apply Forall_map. eapply Forall_impl; [|exact S]. simpl. tauto. }
  rewrite Eo. cbn [bind]. destruct (layer_optimizer_shape n obs _ _ _ Eo) as [Hne Hh]. unfold last_params. destruct (rev h) as [|q r] eqn:Er.
  { apply (f_equal (@rev _)) in Er. rewrite rev_involutive in Er. contradiction. }
  assert (Iq : In q h) by (apply in_rev; rewrite Er; left; reflexivity). rewrite Forall_forall in Hh.
  destruct (shape_rows n _ q J2 (Hh q Iq)) as [L1 L2]. cbn [bind].
  destruct (circuit_scheduled n _ q Hn Hi') as (gs & E & _ & S); [lia|auto|]. rewrite E. cbn [bind].
  destruct (circuit_unitary_spec n (map gate_qop gs)) as (W & EW & _); [apply Forall_map; eapply Forall_impl; [|exact S]; simpl; tauto|].
  rewrite EW. cbn [bind]. eexists _, _, _. split; [reflexivity|]. split; [lia|]. split; [exact L2|]. cbn [ad_layers]. rewrite app_length. simpl. lia.
Qed.

Lemma more_rows x n p p' o : ready x n p o -> List.length p <= List.length p' -> Forall (fun r => List.length r = n) p' -> ready x n p' o.
Proof. destruct o; cbn [ready]; try tauto. intros (H1 & H2 & H3 & H4 & _) Hl Hp. repeat (split; [assumption|]). split; [lia|exact Hp]. Qed.

Lemma greedy_left n table adm Os U : NoDup (map fst table) -> incl adm table -> adm <> [] -> exists k v, greedy_step n table adm Os U = Ok (k, v).
Proof. intros H1 H2 H3. destruct (greedy_step_spec n table adm Os U H1 H2 H3) as (l1 & k & P & l2 & _ & _ & E & _). eauto. Qed.

(** a call succeeds, extends the parameters by at most a row and leaves the layer ready *)
Lemma ready_call x n p o U : svd_correct (or_svd x) -> Forall (fun r => List.length r = n) p -> ready x n p o -> unitary2 (2 ^ n) U ->
  exists V p' o', obj_call x false o U p = Ok (V, p', o') /\ unitary2 (2 ^ n) V /\ List.length p <= List.length p' /\ Forall (fun r => List.length r = n) p' /\ ready x n p' o' /\
    (gives_directions o -> gives_directions o').
Proof.
  intros Hs Hp Ho HU.
  assert (Hu : forall V p' o', obj_call x false o U p = Ok (V, p', o') -> unitary2 (2 ^ n) V).
  { intros V p' o' E. eapply sound_call; [exact (svd_correct_at _ Hs)| |exact HU|exact E]. destruct o; cbn [ready sound] in *; tauto. }
  destruct o as [m obs|l|l|l|obs l|obs l|obs l|obs l|obs l]; cbn [ready] in Ho; try contradiction; cbn [obj_call] in *.
  - destruct Ho as [Ho1 Ho2]. destruct (Ho2 U HU) as (V & EV). cbv zeta in *. rewrite EV in *. cbn [bind] in *. exists V, p, (OLocal l). split; [reflexivity|]. split; [eapply Hu; reflexivity|].
    split; [lia|]. split; [exact Hp|]. split; [split; assumption|auto].
  - destruct Ho as [Ho1 Ho2]. destruct (Ho2 U HU) as (V & EV). cbv zeta in *. rewrite EV in *. cbn [bind] in *. exists V, p, (OCustom l). split; [reflexivity|]. split; [eapply Hu; reflexivity|].
    split; [lia|]. split; [exact Hp|]. split; [split; assumption|auto].
  - destruct Ho as (O1 & O2 & O3 & O4 & k1 & k2 & Hk & K1 & K2). cbv zeta in *.
    destruct (greedy_left (gr_n l) (gr_table l) (filter (fun kv => negb (is_prev (gr_prev l) (fst kv))) (gr_table l)) (gr_obs l) U O4 (incl_filter _ _) (keys_left _ (gr_prev l) k1 k2 K1 K2 Hk)) as (k & v & Eg).
    unfold squared_call in *. rewrite Eg in *. cbn [bind fst snd] in *. eexists _, _, _. split; [reflexivity|]. split; [eapply Hu; reflexivity|]. split; [lia|]. split; [exact Hp|]. split; [|auto].
    cbn [ready gr_table]. split; [exact O1|]. split; [exact O2|]. split; [exact O3|]. split; [exact O4|]. exists k1, k2. auto.
  - destruct Ho as (O1 & O2 & O3 & O4 & k1 & k2 & Hk & K1 & K2). cbv zeta in *.
    destruct (greedy_left (gr_n l) (gr_table l) (gr_table l) (gr_obs l) U O4 (incl_refl _)) as (k & v & Eg); [intros Et; rewrite Et in K1; destruct K1|].
    unfold su8_call in *. rewrite Eg in *. cbn [bind fst snd] in *. eexists _, _, _. split; [reflexivity|]. split; [eapply Hu; reflexivity|]. split; [lia|]. split; [exact Hp|]. split; [|auto].
    cbn [ready gr_table]. split; [exact O1|]. split; [exact O2|]. split; [exact O3|]. split; [exact O4|]. exists k1, k2. auto.
  - destruct Ho as (O1 & O2 & O3 & O4 & _). destruct (adapt_total n obs l U p O1 O3 O4 Hp) as (V & p' & l' & E & L1 & L2 & L3). cbv zeta in *. pose proof (adapt_unitary_call _ n l U p V p' l' O3 E) as (_ & A2 & _).
    rewrite E in *. cbn [bind] in *. exists V, p', (OAdapt obs l'). split; [reflexivity|]. split; [eapply Hu; reflexivity|]. split; [lia|]. split; [exact L2|]. split; [|auto].
    cbn [ready]. split; [exact O1|]. split; [exact O2|]. split; [exact A2|]. split; [lia|exact L2].
  - destruct Ho as (O1 & O2 & O3). destruct (v2_total (or_minimize x) n l U O3) as (V & l' & E & HV & A2 & _). cbv zeta in *. rewrite E in *. cbn [bind fst snd] in *.
    exists V, p, (OZasV2 obs l'). split; [reflexivity|]. split; [exact HV|]. split; [lia|]. split; [exact Hp|]. split; [|auto]. cbn [ready]. auto.
Qed.

Lemma ready_directions x n p o U : ready x n p o -> gives_directions o -> unitary2 (2 ^ n) U -> exists d, obj_directions o U = Ok d.
Proof.
  assert (G : forall obs, Forall (fits n) obs -> Forall hermitian_obs obs -> unitary2 (2 ^ n) U -> exists d, get_lie_algebra_directions n (map ObsQ obs) U = Ok d).
  { intros obs H1 H2 HU. destruct (C52_directions_partial n U obs HU H1 H2) as (_ & _ & _ & d & _ & _ & E & _). eauto. }
  destruct o as [m obs|l|l|l|obs l|obs l|obs l|obs l|obs l]; cbn [ready gives_directions obj_directions]; try contradiction; intros H _ HU.
  - destruct H as (H1 & H2 & (-> & _) & _). apply G; assumption.
  - destruct H as (H1 & H2 & (-> & _) & _). apply G; assumption.
  - destruct H as (H1 & H2 & (_ & t & _ & _ & El) & _). assert (En : ad_n l = n) by (rewrite El; reflexivity). rewrite En. apply G; assumption.
  - destruct H as (H1 & H2 & (_ & e & b & t2 & t4 & t8 & Fs & os & p' & ps & -> & _)). cbn [v2_n]. apply G; assumption.
Qed.

(** such runs return *)
Theorem C66_approximate_returns : forall x eigh random n gates obs w ls p0 kw,
  Forall (unitary_gate n) gates -> Forall (fits n) obs -> svd_correct (or_svd x) -> eigh_correct (2 ^ n) eigh ->
  Forall (dependable n) w -> ls <> [] -> Forall (fun i => i < List.length w) ls -> Forall (fun r => List.length r = n) p0 ->
  ap_accepts (AList (map Some ls)) kw -> arg kw "commute" = None \/ arg kw "commute" = Some (PyBool false) ->
  (the_flag kw "return_omegas" = true -> Forall gives_directions w) ->
  exists r, approx_optimizer x eigh random n gates obs w RetState (AList (map Some ls)) p0 kw = Ok r.
Proof.
  intros x eigh random n gates obs w ls p0 kw Hg Hf Hs He Hw Hne Hls Hp0 Ha Hcm Hom. destruct (start_unitary n gates Hg) as (U & EU & HU).
  unfold approx_optimizer. rewrite EU. cbn [bind].
  assert (Ecm : truthy (kw_get kw "commute" (PyBool false)) = false).
  { rewrite kw_get_arg. destruct Hcm as [-> | ->]; reflexivity. }
  assert (Epr : print_layers w (AList (map Some ls)) = Ok tt).
  { cbn [print_layers]. clear - Hw Hls. induction Hls as [|i r Hi _ IH]; [reflexivity|]. cbn [map foldM]. unfold list_get. destruct (nth_error w i) as [o|] eqn:Eo; [|apply nth_error_None in Eo; lia].
    apply nth_error_In in Eo. rewrite Forall_forall in Hw. specialize (Hw o Eo). cbn [bind]. destruct Hw; cbn [obj_print bind]; exact IH. }
  rewrite Epr. cbn [bind]. rewrite Ecm. unfold approximate_lie_optimizer. destruct (ap_cases (AList (map Some ls)) kw) as [[_ (ls' & Hl & E)]|[Hn _]]; [|contradiction].
  assert (ls' = ls) as ->. { unfold the_layers in Hl. injection Hl as Hl. clear - Hl. revert ls' Hl. induction ls as [|i r IH]; intros [|j s] E; try discriminate; [reflexivity|]. injection E as E1 E2. subst. f_equal. apply IH. exact E2. }
  rewrite E. cbn [bind]. rewrite Forall_forall in Hls.
  set (Q := fun (w' : list layer_obj) u p => List.length w' = List.length w /\ Forall (ready x n p) w' /\ Forall (fun r => List.length r = n) p /\ unitary2 (2 ^ n) u /\
              (the_flag kw "return_omegas" = true -> Forall gives_directions w')).
  assert (Get : forall l w' u p, In l ls -> Q w' u p -> exists o, list_get w' l = Ok o /\ In o w').
  { intros l w' u p Hin (L & _). specialize (Hls l Hin). unfold list_get. destruct (nth_error w' l) as [o|] eqn:Eo; [|apply nth_error_None in Eo; lia]. exists o. split; [reflexivity|]. eapply nth_error_In. exact Eo. }
  apply (run_ok _ _ _ _ _ _ _ Q); cbn [ap_layers ap_omegas].
  - exact Hne.
  - intros l w' u p Hin HQ. destruct (Get l w' u p Hin HQ) as (o & Eo & Io). destruct HQ as (L & R & Rp & Hu & Ho). rewrite Forall_forall in R.
    destruct (ready_call x n p o u Hs Rp (R o Io) Hu) as (V & p' & o' & Ec & HV & Lp & Rp' & Ro' & Go). exists V, p', (replace_at w' l o'). unfold store_call. rewrite Eo. cbn [bind]. rewrite Ec. cbn [bind].
    split; [reflexivity|]. split; [rewrite replace_at_length; exact L|]. split; [apply replace_at_Forall; [|exact Ro']; apply Forall_forall; intros y Hy; eapply more_rows; [apply (R y Hy)|exact Lp|exact Rp']|].
    split; [exact Rp'|]. split; [exact HV|]. intros Hfl. specialize (Ho Hfl). apply replace_at_Forall; [exact Ho|]. apply Go. rewrite Forall_forall in Ho. auto.
  - intros l w' u p Hin HQ. destruct (Get l w' u p Hin HQ) as (o & Eo & Io). unfold store_state. rewrite Eo. cbn [bind]. eauto.
  - intros Hfl l w' u p Hin HQ. destruct (Get l w' u p Hin HQ) as (o & Eo & Io). destruct HQ as (L & R & Rp & Hu & Ho). rewrite Forall_forall in R. specialize (Ho Hfl). rewrite Forall_forall in Ho.
    unfold store_directions. rewrite Eo. cbn [bind]. eapply ready_directions; eauto.
  - intros w' u p _. apply cost_total. exact Hf.
  - intros w' u p _. eauto.
  - intros e s w' u p (L & R & Rp & Hu & Ho). repeat (split; [assumption|]). split; [apply perturb_unitary; assumption|exact Ho].
  - split; [reflexivity|]. split; [|split; [exact Hp0|split; [exact HU|exact Hom]]]. eapply Forall_impl; [|exact Hw]. intros o Ho. apply dependable_ready; assumption.
Qed.
Print Assumptions C66_approximate_returns.

(** ** C62 *)

(** two calls that differ at most in eta *)
Definition same_but_eta (kw kw' : kwargs) : Prop := forall name, name <> "eta"%string -> arg kw name = arg kw' name.

Lemma for_range_same {A} (f g : nat -> A -> res (A * bool)) : (forall i v, f i v = g i v) -> forall k i v, for_range f i k v = for_range g i k v.
Proof. intros H. induction k as [|k IH]; intros i v; [reflexivity|]. cbn [for_range]. rewrite H. destruct (g i v) as [[v' b]|]; cbn [bind fst snd]; [|reflexivity]. destruct b; auto. Qed.

(** refuted: without perturbations the result does not depend on eta, whatever the
    layers are; a call never sets the eta of a layer *)
Theorem C62_eta_refuted : forall x eigh random n gates obs w layers p0 kw kw',
  same_but_eta kw kw' -> ap_accepts layers kw -> ap_accepts layers kw' -> the_flag kw "perturb" = false ->
  approx_optimizer x eigh random n gates obs w RetState layers p0 kw = approx_optimizer x eigh random n gates obs w RetState layers p0 kw'.
Proof.
  intros x eigh random n gates obs w layers p0 kw kw' Hs Ha Ha' Hp. unfold approx_optimizer, approximate_lie_optimizer.
  destruct (ap_cases layers kw) as [[_ (ls & Hl & E)]|[Hn _]]; [|contradiction]. destruct (ap_cases layers kw') as [[_ (ls' & Hl' & E')]|[Hn _]]; [|contradiction].
  assert (ls' = ls) as ->.
  { unfold the_layers in *. subst layers. injection Hl' as Hl. clear - Hl. revert ls' Hl. induction ls as [|i r IH]; intros [|j s] E; try discriminate; [reflexivity|]. injection E as E1 E2. subst. f_equal. apply IH. exact E2. }
  rewrite E, E'. cbn [bind]. rewrite !kw_get_arg, (Hs "commute"%string) by discriminate.
  assert (F : forall name, name <> "eta"%string -> the_flag kw name = the_flag kw' name) by (intros name Hne; unfold the_flag; rewrite Hs by exact Hne; reflexivity).
  assert (E1 : the_steps kw = the_steps kw') by (unfold the_steps; rewrite Hs by discriminate; reflexivity).
  assert (E2 : the_opt_tol kw = the_opt_tol kw') by (unfold the_opt_tol, the_tol; rewrite Hs by discriminate; reflexivity).
  rewrite E1, E2, !F by discriminate. rewrite F in Hp by discriminate. rewrite Hp.
  destruct (circuit_unitary n gates) as [u|]; cbn [bind]; [|reflexivity]. destruct (print_layers w layers) as [[]|]; cbn [bind]; [|reflexivity]. unfold ap_run. cbn [ap_state ap_unitary ap_nsteps ap_omegas ap_gates ap_perturbations ap_zassenhaus].
  destruct (if the_flag kw' "return_state" then _ else _) as [ss|]; cbn [bind]; [|reflexivity]. destruct (exact_cost n obs (a_ent u)) as [c|]; cbn [bind]; [|reflexivity].
  match goal with |- (do v <- for_range ?f _ _ _; _) = (do v <- for_range ?g _ _ _; _) => rewrite (for_range_same f g) end; [reflexivity|].
  intros i v. unfold ap_body. cbn [ap_layers ap_zassenhaus ap_state ap_omegas ap_unitary ap_tol ap_perturb ap_eta]. reflexivity.
Qed.
Print Assumptions C62_eta_refuted.

(** the Hermitian matrix of a perturbation *)
Definition noise (random : nat -> nat -> nat -> R) (step : nat) : mat C := fun i j => (0, - (random step i j - random step j i) / 20)%R.

(** eta is the step size of the perturbations: the circuit a layer is called with
    is the last one or, if perturb is set and the costs have stalled,
    exp(-i eta/2 H) times the last one *)
Theorem C62_eta_partial : forall x eigh random n gates obs w layers p0 kw r cs ss os us ps zs,
  eigh_correct (2 ^ n) eigh -> ap_accepts layers kw -> the_flag kw "return_unitary" = true ->
  approx_optimizer x eigh random n gates obs w RetState layers p0 kw = Ok r -> ap_result kw r cs ss os us ps zs ->
  chain (fun k u v => exists u' w1 w2 p1 p2 layer, store_call x (truthy (kw_get kw "commute" (PyBool false))) layer w1 u' p1 = Ok (v, p2, w2) /\
    (u' = u \/ exists s, k = S s /\ the_flag kw "perturb" = true /\ stalls 8 5 (the_opt_tol kw) cs s /\
       meq (2 ^ n) u' (mmul (SR := CStar) (2 ^ n) (expm (2 ^ n) (mscale (SR := CStar) (mit (the_eta kw / 2)) (noise random s))) u))) us.
Proof.
  intros x eigh random n gates obs w layers p0 kw r cs ss os us ps zs He Ha Hu E Hr. unfold approx_optimizer in E.
  destruct (C56_C59_approximate_histories _ _ _ _ _ _ _ _ _ _ _ _ _ _ _ _ _ _ _ _ _ _ _ _ Ha E Hr) as (confs & u0 & m & ls & _ & _ & _ & _ & _ & Hc & _ & _ & Hun & _).
  rewrite (Hun Hu). intros k u v Eu Ev. rewrite nth_error_map in Eu, Ev. destruct (nth_error confs k) as [y|] eqn:Ey; [|discriminate]. destruct (nth_error confs (S k)) as [z|] eqn:Ez; [|discriminate].
  cbn in Eu, Ev. injection Eu as <-. injection Ev as <-. destruct (Hc k y z Ey Ez) as (u' & layer & Hre & _ & Ec & _).
  exists u', (objects y), (objects z), (params_of y), (params_of z), layer. split; [exact Ec|]. destruct k as [|s]; cbn [restart] in Hre; [left; exact Hre|].
  destruct Hre as [(H1 & H2 & ->)|(_ & ->)]; [right|left; reflexivity]. exists s. split; [reflexivity|]. split; [exact H1|]. split; [exact H2|].
  unfold random_perturb. rewrite eigh_step_spin. set (H := fun i j => Cmult (Copp Ci) _).
  assert (EH : H = noise random s \/ meq (2 ^ n) H (noise random s)) by (right; intros i j _ _; unfold H, noise; apply C_ext; simpl; field).
  assert (Hh : hermitian (2 ^ n) H) by (intros i j _ _; unfold madj, H; cbn [kconj CStar]; apply C_ext; simpl; field).
  apply mmul_proper; [|reflexivity]. rewrite (spin_expm _ _ H _ (eigh_correct_at _ _ _ He Hh)). apply expm_proper. apply mscale_proper; [reflexivity|]. destruct EH as [->|EH]; [reflexivity|exact EH].
Qed.
Print Assumptions C62_eta_partial.

(** three layers on two qubits, an X gate first, ten steps with all lists returned *)
Definition run_kw (eta : R) : kwargs :=
  [("nsteps", PyInt 10); ("eta", PyFloat (Fin eta)); ("return_state", PyBool true); ("return_unitary", PyBool true)]%string.
Lemma run_kw_ok eta ls : (0 <= eta <= 1)%R -> ap_accepts (AList (map Some ls)) (run_kw eta).
Proof.
  intros He. unfold ap_accepts, allowed, arg. cbn. split; [eauto|]. split; [intros v H; injection H as <-; right; exists 10%Z; split; [reflexivity|lia]|].
  split; [intros v H; injection H as <-; exists eta; split; [reflexivity|exact He]|]. split; [intros v H; discriminate|]. split; [intros v H; discriminate|].
  intros name Hin v H. simpl in Hin. intuition; subst; cbn in H; try discriminate; injection H as <-; eexists; reflexivity.
Qed.
Lemma x_gate_ok : Forall (unitary_gate 2) [mkqop lit_X [0]].
Proof.
  constructor; [|constructor]. split; [repeat constructor; simpl; try discriminate; auto; lia|].
  split; intros i j Hi Hj; simpl in Hi, Hj; (destruct i as [|[|i]]; [| |lia]); (destruct j as [|[|j]]; [| |lia]); unfold madj, mmul, mid; simpl; apply C_ext; simpl; ring.
Qed.
Lemma three_made n obs : 1 < n -> Forall (fits n) obs -> Forall hermitian_obs obs ->
  exists a b c, dependable n (OLocal a) /\ dependable n (OSquared obs b) /\ dependable n (OAdapt obs c) /\
  forall x, Forall (built x n) [OLocal a; OSquared obs b; OAdapt obs c].
Proof.
  intros Hn Hf Hh. assert (Hl : (0 <= 1 / 10 <= 1)%R) by lra. assert (Hg : good_args n 1 (1 / 10) 0 None) by (split; [lra|]; split; [auto|]; split; [discriminate|exact I]).
  assert (Ht : false = true \/ (None : option (list string)) <> Some []) by (right; discriminate).
  destruct (C42_local_layer_unitary n obs 1 (1 / 10) 0 None true false Hf Hh Hg Ht) as (a & Ea & _).
  destruct (C48_squared_greedy n obs (1 / 10) Hf Hl ltac:(lia)) as (b & _ & _ & Eb & _).
  destruct (mapM_full n obs Hf) as (Fs & EF & _). destruct (adapt_init n obs Fs (1 / 10) EF Hl) as (t & Ec & _). match type of Ec with _ = Ok ?q => set (c := q) in Ec end.
  exists (local_set_eta a (1 / 20)), b, c. split; [|split; [|split]].
  - exact (dep_local n obs 1 (1 / 10) 0 None true false a (1 / 20) Hf Hh Hg Ht Ea).
  - exact (dep_squared n obs (1 / 10) b Hf Hh Hl ltac:(lia) Eb).
  - exact (dep_adapt n obs (1 / 10) c Hf Hh Hl ltac:(lia) Ec).
  - intros x. constructor; [exact (built_eta x n (1 / 20) (OLocal a) (built_local x n obs 1 (1 / 10) 0 None true false a Hf Hh Ea))|].
    constructor; [exact (built_squared x n obs (1 / 10) b Hf Eb)|]. constructor; [exact (built_adapt x n obs (1 / 10) c Hf ltac:(lia) Ec)|constructor].
Qed.

Example C66_C62_case : exists x eigh w r, svd_correct (or_svd x) /\ eigh_correct (2 ^ 2) eigh /\ Forall (dependable 2) w /\ Forall (built x 2) w /\ List.length w = 3 /\
  approx_optimizer x eigh (fun _ _ _ => 0%R) 2 [mkqop lit_X [0]] two_obs w RetState (AList (map Some [0; 1; 2; 1])) [] (run_kw (1 / 10)) = Ok r /\
  approx_optimizer x eigh (fun _ _ _ => 0%R) 2 [mkqop lit_X [0]] two_obs w RetState (AList (map Some [0; 1; 2; 1])) [] (run_kw (9 / 10)) = Ok r /\
  same_but_eta (run_kw (1 / 10)) (run_kw (9 / 10)) /\ the_eta (run_kw (1 / 10)) <> the_eta (run_kw (9 / 10)).
Proof.
  destruct eigh_exists as (eigh & He). set (x := mkoracles svd_trivial (fun l => l) (fun _ => 0) (0, 0, 0) (fun f => (f (0, 0, 0)%R, 0, 0)%R)). destruct (three_made 2 two_obs ltac:(lia) two_obs_fit two_obs_herm) as (a & b & c & D1 & D2 & D3 & B).
  set (w := [OLocal a; OSquared two_obs b; OAdapt two_obs c]).
  assert (A1 : ap_accepts (AList (map Some [0; 1; 2; 1])) (run_kw (1 / 10))) by (apply run_kw_ok; lra). assert (A2 : ap_accepts (AList (map Some [0; 1; 2; 1])) (run_kw (9 / 10))) by (apply run_kw_ok; lra).
  assert (HW : Forall (dependable 2) w) by (repeat constructor; assumption).
  assert (S : same_but_eta (run_kw (1 / 10)) (run_kw (9 / 10))).
  { intros name Hne. unfold run_kw, arg. cbn [find fst snd]. destruct (String.eqb "nsteps" name); [reflexivity|]. destruct (String.eqb "eta" name) eqn:E; [apply String.eqb_eq in E; congruence|]. reflexivity. }
  destruct (C66_approximate_returns x eigh (fun _ _ _ => 0%R) 2 [mkqop lit_X [0]] two_obs w [0; 1; 2; 1] [] (run_kw (1 / 10))) as (r & Er); try assumption.
  - apply x_gate_ok.
  - apply two_obs_fit.
  - apply svd_trivial_correct.
  - apply He.
  - discriminate.
  - repeat constructor.
  - constructor.
  - left. reflexivity.
  - discriminate.
  - exists x, eigh, w, r. split; [apply svd_trivial_correct|]. split; [apply He|]. split; [exact HW|]. split; [apply B|]. split; [reflexivity|]. split; [exact Er|].
    split; [rewrite <- (C62_eta_refuted x eigh (fun _ _ _ => 0%R) 2 [mkqop lit_X [0]] two_obs w _ [] (run_kw (1 / 10)) (run_kw (9 / 10)) S A1 A2 eq_refl); exact Er|].
    split; [exact S|]. cbn. lra.
Qed.

(** a ZassenhausLayerV2 object with the sets iterated backwards *)
Example C66_v2_case : exists l, ZassenhausLayerV2 (@rev _) (@rev _) 2 two_obs (1 / 10) false false = Ok l /\ dependable 2 (OZasV2 two_obs l) /\ forall x, built x 2 (OZasV2 two_obs l).
Proof.
  assert (HR : forall A, reordering (@rev A)) by (intros A l; apply Permutation_sym, Permutation_rev).
  destruct (mapM_full 2 two_obs two_obs_fit) as (Fs & EF & _). assert (Hl : (0 <= 1 / 10 <= 1)%R) by lra.
  destruct (v2_init (@rev _) (@rev _) 2 two_obs Fs (1 / 10) false false (HR _) (HR _) EF Hl) as (t2 & t4 & t8 & p & E & _).
  eexists. split; [exact E|]. split.
  - exact (dep_v2 2 _ _ two_obs _ _ _ _ (HR _) (HR _) two_obs_fit two_obs_herm ltac:(lia) E).
  - intros x. exact (built_v2 x 2 _ _ two_obs _ _ _ _ (HR _) (HR _) two_obs_fit ltac:(lia) E).
Qed.
