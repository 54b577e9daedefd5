(** Properties C75 and C76: SquaredLieAlgebraLayer with commute=True. *)
From Coq Require Import ZArith Arith Lia Bool String Sorted Reals Lra Ring Setoid Morphisms Permutation.
From Coquelicot Require Import Coquelicot.
From Verif Require Import Py StarRing Matrix Cplx PauliSpec Bits PauliBasis Expm UtilsModel UtilsProofs CircuitModel CircuitProofs CircuitProofs2
  AlgebraModel AlgebraProofs LayerModel LayerProofs LayerProofs2 CommProofs GreedyModel RotoProofs RotoProofs2 GreedyProofs RotoWitness AdaptModel AdaptProofs
  EdgeModel EdgeSpec EdgeProofs EdgeProofs2 EdgeProofs3 OptimizerModel ShiftModel FlowModel ApproxModel ApproxProofs CommuteModel CommuteProofs CommuteWitness.
From Verif Require Import PropAlgebra PropLayers PropGreedy PropEdge PropOptArgs PropOptRun PropFlow PropApprox.
From Coq Require Import List.
Import ListNotations.
Local Open Scope nat_scope.

(** ** C75: commute=True as a keyword argument of the optimizer *)

Lemma map_Some_inj (a b : list nat) : map Some a = map Some b -> a = b.
Proof. revert b. induction a as [|x a IH]; intros [|y b] E; try discriminate; [reflexivity|]. injection E as -> E. f_equal. apply IH, E. Qed.

(** whatever object is passed as commute, only its truth value counts: None, False, 0, 0.0 and
    the empty string are False, all other numbers and strings are True *)
Definition counts_as_false (v : pyv) : Prop :=
  v = PyNone \/ v = PyBool false \/ v = PyInt 0 \/ v = PyFloat (Fin 0) \/ v = PyStr "" \/ v = PyOther false.
Theorem C75_commute_values : forall x eigh random n gates obs w ret layers p0 kw v,
  (counts_as_false v -> approx_optimizer x eigh random n gates obs w ret layers p0 (("commute"%string, v) :: kw) = approx_optimizer x eigh random n gates obs w ret layers p0 (("commute"%string, PyBool false) :: kw)) /\
  (~ counts_as_false v -> approx_optimizer x eigh random n gates obs w ret layers p0 (("commute"%string, v) :: kw) = approx_optimizer x eigh random n gates obs w ret layers p0 (("commute"%string, PyBool true) :: kw)).
Proof.
  assert (T : forall v, (counts_as_false v -> truthy v = false) /\ (~ counts_as_false v -> truthy v = true)).
  { intros v. unfold counts_as_false. split.
    - intros [-> |[-> |[-> |[-> |[-> | ->]]]]]; cbn; try reflexivity. destruct Req_EM_T; congruence.
    - intros N. destruct v as [z|b|[r| | |]| |s|b]; cbn; try reflexivity; try (destruct b; [reflexivity|exfalso; apply N; tauto]); try (exfalso; apply N; tauto).
      + destruct (Z.eqb_spec z 0) as [-> |]; [exfalso; apply N; tauto|reflexivity].
      + destruct Req_EM_T as [-> |]; [exfalso; apply N; tauto|reflexivity].
      + destruct (String.eqb_spec s "") as [-> |]; [exfalso; apply N; tauto|reflexivity]. }
  intros x eigh random n gates obs w ret layers p0 kw v. unfold approx_optimizer, approximate_lie_optimizer. destruct (T v) as [F G].
  assert (K : forall b, ap_validate ret layers (("commute"%string, v) :: kw) = ap_validate ret layers (("commute"%string, PyBool b) :: kw)) by (intros b; reflexivity).
  change (kw_get (("commute"%string, v) :: kw) "commute" (PyBool false)) with v.
  split; intros Q; [rewrite (F Q), (K false)|rewrite (G Q), (K true)]; reflexivity.
Qed.
Print Assumptions C75_commute_values.
Example C75_values_case : counts_as_false (PyStr "") /\ ~ counts_as_false (PyStr "False") /\ ~ counts_as_false (PyFloat (Fin (/ 2))).
Proof.
  split; [unfold counts_as_false; tauto|]. split; intros [H|[H|[H|[H|[H|H]]]]]; try discriminate. injection H as H. lra.
Qed.

(** refuted: every run whose first layer is a SquaredLieAlgebraLayer raises *)
Theorem C75_commute_optimizer_refuted : forall x eigh random n gates obs w i layers o l p0 kw,
  nth_error w i = Some (OSquared o l) -> arg kw "commute" = Some (PyBool true) ->
  exists e, approx_optimizer x eigh random n gates obs w RetState (AList (map Some (i :: layers))) p0 kw = Err e.
Proof.
  intros x eigh random n gates obs w i layers o l p0 kw Ho Hc. unfold approx_optimizer, approximate_lie_optimizer. rewrite kw_get_arg, Hc. cbn [truthy].
  destruct (ap_cases (AList (map Some (i :: layers))) kw) as [[Ha (ls' & Hl & E)]|[Hn (e & _ & E)]]; [|rewrite E; cbn [bind]; eauto].
  rewrite E. cbn [bind]. clear E.
  assert (ls' = i :: layers) as ->.
  { unfold the_layers in Hl. symmetry. apply (map_Some_inj (i :: layers) ls'). congruence. }
  destruct (circuit_unitary n gates) as [u|e]; cbn [bind]; [|eauto]. destruct (print_layers w _) as [[]|e]; cbn [bind]; [|eauto].
  unfold ap_run. cbn [ap_state ap_unitary ap_nsteps].
  destruct (if the_flag kw "return_state" then _ else _) as [ss|e]; cbn [bind]; [|eauto]. destruct (exact_cost n obs (a_ent u)) as [c|e]; cbn [bind]; [|eauto].
  assert (Hs : exists k, the_steps kw = S k).
  { destruct Ha as (_ & H & _). unfold allowed in H. unfold the_steps. destruct (arg kw "nsteps") as [v|]; [|eauto].
    destruct (H v eq_refl) as [->|(z & -> & Hz)]; [eauto|]. exists (Z.to_nat z - 1). lia. }
  destruct Hs as (k & ->). cbn [for_range]. unfold ap_body at 1. cbn [av_rest cycle_next ap_layers bind fst snd ap_zassenhaus av_w av_u av_params].
  unfold store_state, store_call, list_get. rewrite Ho. cbn [bind obj_state obj_call].
  destruct (or_bounds x) as [[fa fh] fk].
  assert (Ec : exists e, commute_call fa fh fk (or_rnd x) 0 None l (a_ent u) = Err e).
  { unfold commute_call. destruct (tied_edges _) as [[d es]|e]; cbn [bind]; [|eauto]. destruct (commuting _ _ _ _ _ _) as [edges|e]; cbn [bind]; eauto. }
  destruct Ec as (e & Ec). rewrite Ec. cbn [bind]. destruct (the_flag kw "return_zassenhaus"); cbn [bind]; eauto.
Qed.
Print Assumptions C75_commute_optimizer_refuted.

Definition same_but_commute (kw kw' : kwargs) : Prop := forall name, name <> "commute"%string -> arg kw name = arg kw' name.
Definition not_squared (o : layer_obj) : Prop := match o with OSquared _ _ => False | _ => True end.

Lemma for_range_inv {A} (f g : nat -> A -> res (A * bool)) (Q : A -> Prop) : (forall i v, Q v -> f i v = g i v) -> (forall i v v' b, Q v -> g i v = Ok (v', b) -> Q v') ->
  forall k i v, Q v -> for_range f i k v = for_range g i k v.
Proof.
  intros H HQ. induction k as [|k IH]; intros i v Hv; [reflexivity|]. cbn [for_range]. rewrite H by exact Hv. destruct (g i v) as [[v' b]|] eqn:E; cbn [bind fst snd]; [|reflexivity].
  destruct b; [reflexivity|]. apply IH. eapply HQ; eauto.
Qed.

Lemma not_squared_call x c c' o U p : not_squared o -> obj_call x c o U p = obj_call x c' o U p.
Proof. destruct o; intros H; try reflexivity. contradiction. Qed.

Lemma not_squared_stays x c o U p V p' o' : not_squared o -> obj_call x c o U p = Ok (V, p', o') -> not_squared o'.
Proof.
  destruct o; cbn [obj_call not_squared]; intros H E; try contradiction; try discriminate; apply bind_ok in E; destruct E as (r & _ & E); try (injection E as <- <- <-; exact I).
  destruct r as [[V' q] l']. injection E as <- <- <-. exact I.
Qed.

(** without such a layer the argument has no effect *)
Theorem C75_commute_ignored_partial : forall x eigh random n gates obs w ret layers p0 kw kw',
  Forall not_squared w -> same_but_commute kw kw' ->
  approx_optimizer x eigh random n gates obs w ret layers p0 kw = approx_optimizer x eigh random n gates obs w ret layers p0 kw'.
Proof.
  intros x eigh random n gates obs w ret layers p0 kw kw' Hw Hs. unfold approx_optimizer, approximate_lie_optimizer.
  assert (G : forall name d, name <> "commute"%string -> kw_get kw name d = kw_get kw' name d) by (intros name d Hn; rewrite !kw_get_arg, (Hs name Hn); reflexivity).
  assert (Ev : ap_validate ret layers kw = ap_validate ret layers kw').
  { unfold ap_validate, flag. rewrite !G by discriminate. reflexivity. }
  rewrite Ev. destruct (ap_validate ret layers kw') as [a|]; cbn [bind]; [|reflexivity].
  destruct (circuit_unitary n gates) as [u|]; cbn [bind]; [|reflexivity]. destruct (print_layers w layers) as [[]|]; cbn [bind]; [|reflexivity].
  set (c := truthy (kw_get kw "commute" (PyBool false))). set (c' := truthy (kw_get kw' "commute" (PyBool false))). clearbody c c'. unfold ap_run.
  destruct (if ap_state a then _ else _) as [ss|]; cbn [bind]; [|reflexivity]. destruct (exact_cost n obs (a_ent u)) as [co|]; cbn [bind]; [|reflexivity].
  match goal with |- (do v <- for_range ?f _ _ _; _) = (do v <- for_range ?g _ _ _; _) => rewrite (for_range_inv f g (fun v => Forall not_squared (av_w v))) end;
    [reflexivity| | |exact Hw].
  - intros i v Hv. unfold ap_body. destruct (cycle_next _ _) as [[layer rest]|]; cbn [bind fst snd]; [|reflexivity].
    destruct (if ap_zassenhaus a then _ else _) as [z|]; cbn [bind]; [|reflexivity].
    assert (Ec : store_call x c layer (av_w v) (av_u v) (av_params v) = store_call x c' layer (av_w v) (av_u v) (av_params v)).
    { unfold store_call, list_get. destruct (nth_error (av_w v) layer) as [o|] eqn:Eo; cbn [bind]; [|reflexivity]. rewrite (not_squared_call x c c'); [reflexivity|].
      apply nth_error_In in Eo. rewrite Forall_forall in Hv. auto. }
    rewrite Ec. reflexivity.
  - intros i v v' b Hv E. unfold ap_body in E. apply bind_ok in E. destruct E as ([layer rest] & _ & E). cbn [fst snd] in E. apply bind_ok in E. destruct E as (z & _ & E).
    apply bind_ok in E. destruct E as ([[V p] w'] & Ec & E). apply bind_ok in E. destruct E as (co' & _ & E). apply bind_ok in E. destruct E as (st & _ & E). apply bind_ok in E. destruct E as (om & _ & E).
    assert (Hw' : Forall not_squared w').
    { unfold store_call in Ec. apply bind_ok in Ec. destruct Ec as (o & Eo & Ec). apply bind_ok in Ec. destruct Ec as ([[V1 p1] o1] & Ec & E1). injection E1 as <- <- <-.
      apply replace_at_Forall; [exact Hv|]. eapply not_squared_stays; [|exact Ec]. unfold list_get in Eo. destruct (nth_error (av_w v) layer) as [o2|] eqn:En; [|discriminate]. injection Eo as <-.
      apply nth_error_In in En. rewrite Forall_forall in Hv. auto. }
    assert (Hav : av_w v' = w').
    { destruct (ap_tol a); [|injection E as <- <-; reflexivity]. destruct (8 <? i); [|injection E as <- <-; reflexivity].
      apply bind_ok in E. destruct E as (c1 & _ & E). apply bind_ok in E. destruct E as (c6 & _ & E). destruct (isclose _ _ _); [destruct (ap_perturb a)|]; injection E as <- <-; reflexivity. }
    rewrite Hav. exact Hw'.
Qed.
Print Assumptions C75_commute_ignored_partial.

(** two SquaredLieAlgebraLayer objects on two qubits, and a run of a local layer *)
Example C75_case : exists l a, let w := [OSquared two_obs l; OLocal a] in
  nth_error w 0 = Some (OSquared two_obs l) /\ Forall not_squared [OLocal a] /\
  same_but_commute (("commute"%string, PyBool true) :: run_kw (1 / 10)) (run_kw (1 / 10)) /\ ap_accepts (AList (map Some [0; 1])) (("commute"%string, PyBool true) :: run_kw (1 / 10)).
Proof.
  destruct (three_made 2 two_obs ltac:(lia) two_obs_fit two_obs_herm) as (a & b & _). exists b, a. split; [reflexivity|]. split; [repeat constructor|]. split.
  - intros name Hn. unfold arg. cbn [find fst]. destruct (String.eqb "commute" name) eqn:E; [apply String.eqb_eq in E; congruence|reflexivity].
  - assert (He : (0 <= 1 / 10 <= 1)%R) by lra. destruct (run_kw_ok (1 / 10) [0; 1] He) as (H1 & H2 & H3 & H4 & H5 & H6). split; [exact H1|]. split; [exact H2|]. split; [exact H3|].
    split; [exact H4|]. split; [exact H5|]. intros name Hin. specialize (H6 name Hin). intros v Hv. apply H6. unfold arg in *. cbn [find fst] in Hv.
    destruct (String.eqb "commute" name) eqn:E; [|exact Hv]. apply String.eqb_eq in E. subst name. simpl in Hin. intuition discriminate.
Qed.

(** ** C76: direct calls with commute=True and an optimizer *)

(** a SquaredLieAlgebraLayer after any number of calls *)
Definition squared_layer (n : nat) (obs : list (qop C)) (l : greedy_layer) : Prop :=
  exists eta l0, SquaredLieAlgebraLayer n obs eta = Ok l0 /\ gr_n l = gr_n l0 /\ gr_table l = gr_table l0 /\ gr_obs l = gr_obs l0.

Lemma squared_layer_spec n obs l : Forall (fits n) obs -> squared_layer n obs l ->
  gr_n l = n /\ Forall2 (embedded n) obs (gr_obs l) /\ map fst (gr_table l) = all_keys n [1; 2] /\ Forall (key_ok (K := C) n) (gr_table l).
Proof.
  intros Hf (eta & l0 & E & -> & -> & ->). destruct (obs_embedded n obs Hf) as (Os & EO & HO).
  assert (He : (0 <= eta <= 1)%R).
  { unfold SquaredLieAlgebraLayer in E. rewrite EO in E. cbn [bind] in E. apply eta_ok. destruct (Rleb 0 eta && Rleb eta 1); [reflexivity|discriminate]. }
  destruct (squared_init n obs Os eta EO He) as (table & El & Ek & Hk). rewrite El in E. injection E as <-. auto.
Qed.

Definition free (qs : list (list nat)) : Prop := NoDup qs /\ forall q q', In q qs -> In q' qs -> q <> q' -> apart q q'.

(** the parts of the table needed: its keys *)
Lemma table_key n (table : list (key * arr C)) d q P : map fst table = all_keys n [1; 2] -> Forall (key_ok (K := C) n) table -> In ((d, q), P) table ->
  grows q /\ List.length q = String.length d /\ d <> EmptyString /\ 1 <= n.
Proof.
  intros Ek Hk Hin. assert (Hi : In (d, q) (all_keys n [1; 2])) by (rewrite <- Ek; apply (in_map fst) in Hin; exact Hin).
  apply all_keys_In in Hi. destruct Hi as (w & Hw & -> & (Hl & Hs & Hq)). apply wwords_In in Hw. destruct Hw as [Hw _].
  assert (Hlen : String.length (wname w) = List.length w) by (unfold wname; rewrite word_name_length, up_length; reflexivity).
  split; [exact Hs|]. split; [congruence|]. assert (Hpos : 1 <= List.length w) by (simpl in Hw; intuition lia). split.
  - intros E. rewrite E in Hlen. simpl in Hlen. lia.
  - destruct q as [|a q]; [simpl in Hl; lia|]. inversion Hq; lia.
Qed.

Lemma abs_slopes n U Os (t : list (key * arr C)) : abs_gradients n (qnode_state U) Os t = map (fun kv => (fst kv, slope n Os U (snd kv))) t.
Proof. unfold abs_gradients. apply map_ext. intros kv. rewrite slope_eq. reflexivity. Qed.

Lemma slope_pos n Os U P : (0 <= slope n Os U P)%R.
Proof. unfold slope. apply Rabs_pos. Qed.

(** A call that returns: all keys used have the direction d of the first key tied
    for the largest slope and are tied themselves; the circuit is turned about
    them, by the last parameters of the optimizer, which was given the circuit
    with those rotations and the start 0.1, ..., 0.1. The tuples used do not
    overlap if the tied ones do not, or if the colouring of the tied pairs
    succeeds; in this case the order of the rotations does not matter.
    Missing: that a call returns (refuted below), that the tuples never overlap
    (C24) and that the optimizer lowers the cost. *)
Theorem C76_commute_call_partial : forall fa fh fk rnd k opt n obs l U V used,
  Forall (fits n) obs -> squared_layer n obs l -> unitary2 (2 ^ n) U ->
  commute_call fa fh fk rnd k (Some opt) l U = Ok (V, used) ->
  exists d qs ties Os, let T := tied (slope n Os U) (gr_prev l) (gr_table l) in
    Forall2 (embedded n) obs Os /\ complete_algebra (K := C) n [1; 2] (gr_table l) /\
    (exists l1 q0 P0 l2, gr_table l = l1 ++ ((d, q0), P0) :: l2 /\ T (d, q0) /\ Forall (fun x => ~ T (fst x)) l1) /\
    map fst used = map (pair d) qs /\ Forall (fun q => T (d, q)) qs /\
    unitary2 (2 ^ n) V /\ turned n (gr_table l) used U V /\
    (exists circuit h p, opt circuit (repeat (/ 10)%R (List.length qs)) = Ok (h ++ [p]) /\
       (forall i, i < List.length qs -> nth_error p i = nth_error (map snd used) i) /\
       (forall p', List.length qs <= List.length p' ->
          exists gates W, circuit p' = Ok gates /\ circuit_unitary n gates = Ok W /\ turned n (gr_table l) (combine (map (pair d) qs) p') U (a_ent W))) /\
    NoDup ties /\ (forall q, In q ties <-> T (d, q)) /\
    (free ties -> qs = ties) /\
    (Forall (fun q => List.length q = 2) ties -> coloring_succeeds fa fh fk rnd k (map (fun q => (nth 0 q 0, nth 1 q 0)) ties) -> free qs) /\
    (free qs -> forall used', Permutation used used' -> turned n (gr_table l) used' U V).
Proof.
  intros fa fh fk rnd k opt n obs l U V used Hf Hl HU E. destruct (squared_layer_spec n obs l Hf Hl) as (En & HO & Ek & Hk).
  assert (Hc : complete_algebra (K := C) n [1; 2] (gr_table l)) by (apply complete_intro; auto; repeat constructor; simpl; lia).
  assert (Hnd : NoDup (map fst (gr_table l))) by apply Hc.
  unfold commute_call in E. rewrite En in E. cbv zeta in E. rewrite abs_slopes in E. apply bind_ok in E. destruct E as ([d es] & Et & E).
  pose proof (tied_edges_spec _ (slope_pos n (gr_obs l) U) (gr_prev l) (gr_table l) Hnd d es Et) as (Hes & Hin & Hfirst).
  apply bind_ok in E. destruct E as (edges & Ee & E). cbn [bind] in E. apply bind_ok in E. destruct E as (h & Eh & E). apply bind_ok in E. destruct E as (p & Ep & E).
  apply bind_ok in E. destruct E as (V' & EV & E). apply bind_ok in E. destruct E as (used' & Eu & E). injection E as <- <-.
  destruct (loop_spec n (gr_table l) d p edges 0 U V' used' EV Eu) as (Ht & Emap & Hnth).
  assert (Hkeys : forall e, In e edges -> exists P, In ((d, e), P) (gr_table l)).
  { intros e He. assert (Hx : In (d, e) (map fst used')) by (rewrite Emap; apply in_map; exact He). clear - Ht Hx. induction Ht as [|k t r P U V Hin H IH]; [contradiction|].
    cbn [map fst] in Hx. destruct Hx as [Ex|Hx]; [subst k; eauto|auto]. }
  assert (Htk : forall q, In q es -> exists P, In ((d, q), P) (gr_table l)) by (intros q Hq; apply Hin in Hq; destruct Hq as (P & _ & H & _); eauto).
  assert (Hged : forall q, In q es -> In q edges -> True) by auto. clear Hged.
  assert (Hsub : forall q, In q edges -> In q es).
  { intros q Hq. destruct (commuting_In _ _ _ _ _ _ _ Ee q Hq) as [H|(a & b & -> & H)]; [exact H|]. exfalso.
    destruct (Hkeys _ Hq) as (P & HP). destruct (Htk _ H) as (P' & HP').
    apply (table_key n _ _ _ _ Ek Hk) in HP. apply (table_key n _ _ _ _ Ek Hk) in HP'. destruct HP as (G1 & _), HP' as (G2 & _). apply grows_pair in G1. apply grows_pair in G2. lia. }
  assert (Hgr : Forall grows es) by (apply Forall_forall; intros q Hq; destruct (Htk q Hq) as (P & HP); apply (table_key n _ _ _ _ Ek Hk) in HP; tauto).
  assert (Hlen : Forall (fun q : list nat => List.length q = String.length d) es) by (apply Forall_forall; intros q Hq; destruct (Htk q Hq) as (P & HP); apply (table_key n _ _ _ _ Ek Hk) in HP; tauto).
  assert (Hne : es <> []). { destruct Hfirst as (l1 & q0 & P0 & l2 & _ & H & _). intros ->. apply Hin in H. exact H. }
  assert (Hdn : d <> EmptyString /\ 1 <= n). { destruct es as [|q es']; [congruence|]. destruct (Htk q (or_introl eq_refl)) as (P & HP). apply (table_key n _ _ _ _ Ek Hk) in HP. tauto. }
  exists d, edges, es, (gr_obs l). cbv zeta. split; [exact HO|]. split; [exact Hc|]. split; [exact Hfirst|]. split; [exact Emap|].
  split; [apply Forall_forall; intros q Hq; apply Hin, Hsub, Hq|]. split; [eapply turned_unitary; eauto|]. split; [exact Ht|]. split; [|split; [exact Hes|split; [exact Hin|split; [|split]]]].
  - exists (circuit_lie n U d edges), (rev (tl (rev h))), p. split; [|split].
    + rewrite Eh. f_equal. destruct (rev h) as [|p' r] eqn:Er; [discriminate|]. injection Ep as <-. cbn [tl]. rewrite <- (rev_involutive h), Er. reflexivity.
    + exact Hnth.
    + intros p' Hp'. destruct (circuit_lie_spec n (gr_table l) d edges U p' Hk (proj1 Hdn) (proj2 Hdn) Hp' Hkeys) as (gates & W & H). exists gates, W. exact H.
  - intros [_ Hfree]. pose proof (commuting_all fa fh fk rnd k es _ Hne Hlen Hgr Hes Hfree) as Ea. rewrite Ea in Ee. injection Ee as <-. reflexivity.
  - intros Hl2 Hcol. exact (commuting_apart _ _ _ _ _ _ _ Hgr Ee Hl2 Hcol).
  - intros [Hn1 Hn2] used'' Hperm. apply (turned_perm n (gr_table l) used' used'' Hk Hperm); [| |exact Ht].
    + rewrite Emap. apply FinFun.Injective_map_NoDup; [intros a b E; injection E; auto|exact Hn1].
    + rewrite Emap. intros k1 k2 H1 H2 Hd. apply in_map_iff in H1. apply in_map_iff in H2. destruct H1 as (q1 & <- & H1), H2 as (q2 & <- & H2). cbn [snd]. apply Hn2; auto. congruence.
Qed.
Print Assumptions C76_commute_call_partial.

(** an optimizer that returns a history for every circuit that runs *)
Definition works (opt : (list R -> res (list (qop C))) -> list R -> res (list (list R))) : Prop :=
  forall circuit p0, (exists gates, circuit p0 = Ok gates) -> exists h p, opt circuit p0 = Ok (h ++ [p]) /\ List.length p = List.length p0.

(** Calls return when the tied tuples do not overlap and the optimizer does: *)
Theorem C76_commute_returns_partial : forall fa fh fk rnd k opt n obs l U,
  Forall (fits n) obs -> squared_layer n obs l -> 1 <= n ->
  (forall d q q' Os, Forall2 (embedded n) obs Os -> tied (slope n Os U) (gr_prev l) (gr_table l) (d, q) -> tied (slope n Os U) (gr_prev l) (gr_table l) (d, q') -> q <> q' -> apart q q') ->
  works opt ->
  exists V used, commute_call fa fh fk rnd k (Some opt) l U = Ok (V, used).
Proof.
  intros fa fh fk rnd k opt n obs l U Hf Hl Hn Hap Hopt. destruct (squared_layer_spec n obs l Hf Hl) as (En & HO & Ek & Hk).
  assert (Hc : complete_algebra (K := C) n [1; 2] (gr_table l)) by (apply complete_intro; auto; repeat constructor; simpl; lia).
  assert (Hnd : NoDup (map fst (gr_table l))) by apply Hc.
  assert (Hne : filter (fun kv => negb (is_prev (gr_prev l) (fst kv))) (gr_table l) <> []).
  { apply (keys_left (gr_table l) (gr_prev l) ("X"%string, [0]) ("Y"%string, [0])); [| |congruence]; apply Hc; [exists [1]|exists [2]]; repeat split; simpl; auto; repeat constructor; lia. }
  unfold commute_call. rewrite En. cbv zeta. rewrite abs_slopes. destruct (tied_edges_ok (slope n (gr_obs l) U) (gr_prev l) (gr_table l) Hne) as (d & es & Et). rewrite Et. cbn [bind].
  pose proof (tied_edges_spec _ (slope_pos n (gr_obs l) U) (gr_prev l) (gr_table l) Hnd d es Et) as (Hes & Hin & Hfirst).
  assert (Htk : forall q, In q es -> exists P, In ((d, q), P) (gr_table l)) by (intros q Hq; apply Hin in Hq; destruct Hq as (P & _ & H & _); eauto).
  assert (Hgr : Forall grows es) by (apply Forall_forall; intros q Hq; destruct (Htk q Hq) as (P & HP); apply (table_key n _ _ _ _ Ek Hk) in HP; tauto).
  assert (Hlen : Forall (fun q : list nat => List.length q = String.length d) es) by (apply Forall_forall; intros q Hq; destruct (Htk q Hq) as (P & HP); apply (table_key n _ _ _ _ Ek Hk) in HP; tauto).
  assert (Hne' : es <> []). { destruct Hfirst as (l1 & q0 & P0 & l2 & _ & H & _). intros ->. apply Hin in H. exact H. }
  assert (Hdn : d <> EmptyString). { destruct es as [|q es']; [congruence|]. destruct (Htk q (or_introl eq_refl)) as (P & HP). apply (table_key n _ _ _ _ Ek Hk) in HP. tauto. }
  rewrite (commuting_all fa fh fk rnd k es _ Hne' Hlen Hgr Hes).
  2: { intros q q' H1 H2. apply (Hap d q q' (gr_obs l) HO); apply Hin; assumption. }
  cbn [bind]. destruct (circuit_lie_spec n (gr_table l) d es U (repeat (/ 10)%R (List.length es)) Hk Hdn Hn ltac:(rewrite repeat_length; lia) Htk) as (gates & W & Eg & _).
  destruct (Hopt (circuit_lie n U d es) (repeat (/ 10)%R (List.length es)) (ex_intro _ gates Eg)) as (h & p & Eh & Lp). rewrite Eh. cbn [bind]. rewrite rev_app_distr. cbn [rev app bind].
  rewrite repeat_length in Lp. destruct (loop_ok n (gr_table l) d p es 0 U ltac:(lia) Htk) as (V & used & E1 & E2). rewrite E1. cbn [bind]. rewrite E2. cbn [bind]. eauto.
Qed.
Print Assumptions C76_commute_returns_partial.

Lemma yx_herm bs : Forall hermitian_obs (map yx bs).
Proof.
  apply Forall_forall. intros o Ho. apply in_map_iff in Ho. destruct Ho as (ab & <- & _). unfold hermitian_obs, yx. cbn [q_wires q_matrix a_ent].
  apply (pword_herm (K := C) [2; 1]). repeat constructor; lia.
Qed.

(** refuted: with observables Y0X1, Y0X2, Y0X3 every call on the identity circuit
    raises, whatever the optimizer and the random numbers *)
Theorem C76_star_refuted : exists n obs, Forall (fits n) obs /\ Forall hermitian_obs obs /\
  forall eta, (0 <= eta <= 1)%R -> exists l, SquaredLieAlgebraLayer n obs eta = Ok l /\
    forall fa fh fk rnd k opt, commute_call (S fa) (S fh) fk rnd k opt l mid = Err IndexError.
Proof.
  exists 4, (map yx [(0, 1); (0, 2); (0, 3)]). assert (Hi : incl [(0, 1); (0, 2); (0, 3)] pairs4) by (intros x Hx; simpl in *; tauto).
  split; [apply Forall_forall; intros o Ho; apply in_map_iff in Ho; destruct Ho as (ab & <- & Hab); apply yx_valid, Hi, Hab|].
  split; [apply yx_herm|]. intros eta He.
  destruct (ties_yx [(0, 1); (0, 2); (0, 3)] ("XX"%string, [0; 1]) Hi) with (eta := eta) as (table & Os & El & Ek & Hk & Et); [vm_compute; tauto|vm_compute; reflexivity|vm_compute; reflexivity|exact He|].
  match type of Et with _ = ?r => let v := eval vm_compute in r in change r with v in Et end.
  exists (mkgreedy 4 table Os None). split; [exact El|]. intros fa fh fk rnd k opt. unfold commute_call. cbn [gr_n gr_obs gr_prev gr_table]. rewrite Et. cbn [bind].
  change (commuting (S fa) (S fh) fk rnd k [[0; 1]; [0; 2]; [0; 3]]) with
    (do r <- get_commuting_set (S fa) (S fh) fk rnd k [(0, 1); (0, 2); (0, 3)]; Ok (map (fun e : nat * nat => [fst e; snd e]) (fst r))).
  rewrite star_crashes. reflexivity.
Qed.
Print Assumptions C76_star_refuted.

(** refuted again, without such a star: with Y0X3, Y1X2, Y2X3 the colouring may
    turn the pair (2, 3) around, and the call raises after the optimization *)
Theorem C76_reversed_refuted : exists n obs rnd, Forall (fits n) obs /\ Forall hermitian_obs obs /\
  forall eta, (0 <= eta <= 1)%R -> exists l, SquaredLieAlgebraLayer n obs eta = Ok l /\
    forall opt, works opt -> commute_call 60 700 10 rnd 0 (Some opt) l mid = Err KeyError.
Proof.
  exists 4, (map yx [(0, 3); (1, 2); (2, 3)]), (fun _ => 1). assert (Hi : incl [(0, 3); (1, 2); (2, 3)] pairs4) by (intros x Hx; simpl in *; tauto).
  split; [apply Forall_forall; intros o Ho; apply in_map_iff in Ho; destruct Ho as (ab & <- & Hab); apply yx_valid, Hi, Hab|].
  split; [apply yx_herm|]. intros eta He.
  destruct (ties_yx [(0, 3); (1, 2); (2, 3)] ("XX"%string, [0; 3]) Hi) with (eta := eta) as (table & Os & El & Ek & Hk & Et); [vm_compute; tauto|vm_compute; reflexivity|vm_compute; reflexivity|exact He|].
  match type of Et with _ = ?r => let v := eval vm_compute in r in change r with v in Et end.
  exists (mkgreedy 4 table Os None). split; [exact El|]. intros opt Hopt. unfold commute_call. cbn [gr_n gr_obs gr_prev gr_table]. rewrite Et. cbn [bind].
  match goal with |- context [commuting ?a ?b ?c ?d ?e ?f] => replace (commuting a b c d e f) with (Ok [[3; 2]]) by (vm_compute; reflexivity) end.
  cbn [bind List.length repeat]. destruct (Hopt (circuit_lie 4 mid "XX" [[3; 2]]) [(/ 10)%R]) as (h & p & Eh & Lp); [eexists; reflexivity|]. rewrite Eh. cbn [bind]. rewrite rev_app_distr. cbn [rev app bind].
  destruct p as [|t p]; [discriminate|]. cbn [seq combine foldM fst snd]. unfold list_get. cbn [nth_error bind].
  assert (Ed : dget key_eqb table ("XX"%string, [3; 2]) = Err KeyError).
  { destruct (dget key_eqb table ("XX"%string, [3; 2])) as [P|e] eqn:E.
    - exfalso. apply dget_key in E. apply (in_map fst) in E. cbn [fst] in E. rewrite Ek in E. apply all_keys_In in E. destruct E as (w & _ & _ & (_ & Hs & _)). apply (grows_pair 3 2) in Hs. lia.
    - f_equal. clear - E. induction table as [|[k P] t IH]; cbn [dget] in E; [congruence|]. destruct (key_eqb k _); [discriminate|auto]. }
  rewrite Ed. reflexivity.
Qed.
Print Assumptions C76_reversed_refuted.

(** the layer with Y0X1 and Y2X3: the pairs (0, 1) and (2, 3) are tied and both
    are used *)
Example C76_case : exists obs l, Forall (fits 4) obs /\ squared_layer 4 obs l /\ unitary2 (2 ^ 4) (mid (K := C)) /\
  (forall opt fa fh fk rnd k, works opt -> exists V used, commute_call fa fh fk rnd k (Some opt) l mid = Ok (V, used) /\
     map fst used = [("XX"%string, [0; 1]); ("XX"%string, [2; 3])]) /\
  works (fun _ p0 => Ok [p0; map (fun x => x + 1)%R p0]) /\ free [[0; 1]; [2; 3]] /\
  coloring_succeeds 60 700 10 (fun k => k) 0 [(0, 1); (2, 3)].
Proof.
  assert (Hi : incl [(0, 1); (2, 3)] pairs4) by (intros x Hx; simpl in *; tauto). assert (He : (0 <= 1 / 10 <= 1)%R) by lra.
  destruct (ties_yx [(0, 1); (2, 3)] ("XX"%string, [0; 1]) Hi) with (eta := (1 / 10)%R) as (table & Os & El & Ek & Hk & Et); [vm_compute; tauto|vm_compute; reflexivity|vm_compute; reflexivity|exact He|].
  match type of Et with _ = ?r => let v := eval vm_compute in r in change r with v in Et end.
  assert (Hf : Forall (fits 4) (map yx [(0, 1); (2, 3)])) by (apply Forall_forall; intros o Ho; apply in_map_iff in Ho; destruct Ho as (ab & <- & Hab); apply yx_valid, Hi, Hab).
  exists (map yx [(0, 1); (2, 3)]), (mkgreedy 4 table Os None). split; [exact Hf|]. split; [exists (1 / 10)%R; eexists; split; [exact El|auto]|]. split; [apply unitary2_id|]. split; [|split; [|split]].
  - intros opt fa fh fk rnd k Hopt. unfold commute_call. cbn [gr_n gr_obs gr_prev gr_table]. rewrite Et. cbn [bind].
    change (commuting fa fh fk rnd k [[0; 1]; [2; 3]]) with (Ok [[0; 1]; [2; 3]]). cbn [bind List.length repeat].
    destruct (Hopt (circuit_lie 4 mid "XX" [[0; 1]; [2; 3]]) [(/ 10)%R; (/ 10)%R]) as (h & p & Eh & Lp); [eexists; reflexivity|]. rewrite Eh. cbn [bind]. rewrite rev_app_distr. cbn [rev app bind].
    destruct (loop_ok 4 table "XX" p [[0; 1]; [2; 3]] 0 mid) as (V & used & E1 & E2); [clear - Lp; cbn [List.length] in *; lia| |].
    + intros e Hine. assert (Hx : In ("XX"%string, e) (map fst table)).
      { rewrite Ek. apply all_keys_In. exists [0; 0]. split; [apply wwords_In; split; [simpl; auto|repeat constructor; lia]|]. split; [reflexivity|].
        destruct Hine as [<-|[<-|[]]]; split; try reflexivity; split; repeat constructor; lia. }
      apply in_map_iff in Hx. destruct Hx as ([k0 P] & Ek0 & HP). cbn [fst] in Ek0. subst k0. eauto.
    + exists V, used. destruct (loop_spec 4 table "XX" p [[0; 1]; [2; 3]] 0 mid V used E1 E2) as (_ & Em & _). cbn [List.length] in E1, E2. rewrite E1. cbn [bind]. rewrite E2. split; [reflexivity|exact Em].
  - intros circuit p0 _. exists [p0], (map (fun x => x + 1)%R p0). split; [reflexivity|apply map_length].
  - split; [repeat constructor; simpl; intuition congruence|]. intros q q' [<-|[<-|[]]] [<-|[<-|[]]] Hne; try congruence; intros x Hx Hy; simpl in *; lia.
  - eexists. split; [vm_compute; reflexivity|reflexivity].
Qed.
