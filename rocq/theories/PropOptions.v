(** Properties C77, C78 and C82, and C52 for the layer objects: options of the layers
    and of approximate_lie_optimizer that do not do what they announce. *)
From Coq Require Import ZArith Arith Lia Bool String Reals Lra.
From Coquelicot Require Import Coquelicot.
From Verif Require Import Py StarRing Matrix Cplx PauliSpec Bits PauliBasis Expm UtilsModel CircuitModel CircuitProofs CircuitProofs2 AlgebraModel AlgebraProofs PropAlgebra
  LayerModel LayerProofs LayerProofs2 GreedyModel GreedyProofs AdaptModel ZasV2Model CommuteModel OptimizerModel OptProofs FlowModel FlowProofs FlowProofs2 ShiftModel ApproxModel ApproxProofs
  PropLayers PropGreedy PropAdapt PropOptArgs PropOptRun PropFlow PropApprox.
From Coq Require Import List.
Import ListNotations.
Local Open Scope nat_scope.
Local Open Scope list_scope.

(** ** C77: stride *)

(** two layer objects that cannot be told apart by calling them, now or after
    set_eta *)
Definition same_calls (l l' : local_layer) : Prop :=
  forall svd eta U, local_call svd (local_set_eta l eta) U = local_call svd (local_set_eta l' eta) U /\ local_call svd l U = local_call svd l' U.

Definition with_stride (l : local_layer) (s : nat) : local_layer :=
  mklocal (lc_n l) (lc_locality l) s (lc_eta l) (lc_check l) (lc_trotterize l) (lc_directions l) (lc_observables l) (lc_full_paulis l).

Lemma stride_only n obs eta ds check trot l : LocalLieAlgebraLayer n obs 2 eta 0 ds check trot = Ok l ->
  LocalLieAlgebraLayer n obs 2 eta 1 ds check trot = Ok (with_stride l 1).
Proof.
  unfold LocalLieAlgebraLayer. destruct (mapM (full n) obs) as [Fs|]; cbn [bind]; [|discriminate].
  destruct (py_assert (Rleb 0 eta && Rleb eta 1)); cbn [bind]; [|discriminate]. cbn [Nat.eqb orb py_assert bind].
  destruct (py_assert (Nat.even n)); cbn [bind]; [|discriminate]. destruct (get_su_4_operators false true) as [r|]; cbn [bind]; [|discriminate].
  destruct (su_names r) as [ns|]; cbn [bind]; [|discriminate].
  destruct (match ds with None => _ | Some _ => _ end) as [[ps names]|]; cbn [bind]; [|discriminate].
  destruct (mapM _ (combinations (seq 0 n) 2)) as [gs|]; cbn [bind]; [|discriminate]. intros E. injection E as <-. reflexivity.
Qed.

(** whenever the layer can be made, both strides give layers that do the same *)
Theorem C77_stride_refuted : forall n obs eta ds check trot, Forall (fits n) obs -> good_args n 2 eta 0 ds ->
  exists l0 l1, LocalLieAlgebraLayer n obs 2 eta 0 ds check trot = Ok l0 /\ LocalLieAlgebraLayer n obs 2 eta 1 ds check trot = Ok l1 /\ same_calls l0 l1.
Proof.
  intros n obs eta ds check trot Hf Hg. destruct (proj1 (C44_local_directions n obs 2 eta 0 ds check trot Hf) Hg) as (l0 & _ & E0 & _).
  exists l0, (with_stride l0 1). split; [exact E0|]. split; [apply stride_only; exact E0|]. intros svd e U. split; reflexivity.
Qed.
Print Assumptions C77_stride_refuted.

(** What holds: with locality 2 other strides are rejected, with locality 1 every
    stride is accepted and gives the same layer. Missing: the effect. *)
Theorem C77_stride_partial : forall n obs eta ds check trot stride, Forall (fits n) obs ->
  (LocalLieAlgebraLayer n obs 1 eta stride ds check trot = LocalLieAlgebraLayer n obs 1 eta 0 ds check trot) /\
  (stride <> 0 -> stride <> 1 -> LocalLieAlgebraLayer n obs 2 eta stride ds check trot = Err AssertionError).
Proof.
  intros n obs eta ds check trot stride Hf. split; [reflexivity|]. intros H0 H1.
  apply (proj2 (C44_local_directions n obs 2 eta stride ds check trot Hf)). intros (_ & _ & H & _). destruct (H eq_refl) as (_ & [->| ->]); congruence.
Qed.
Print Assumptions C77_stride_partial.

(** four qubits; the layer has all six pairs *)
Example C77_case : Forall (fits 4) [mkqop (K := C) lit_Z [0]; mkqop lit_X [3]] /\ good_args 4 2 (1 / 10) 0 None /\
  forall q, In q (combinations (seq 0 4) 2) <-> qubit_tuple 4 2 q.
Proof.
  split; [repeat constructor; simpl; try discriminate; auto; lia|]. split; [|intros q; apply comb_seq].
  split; [lra|]. split; [auto|]. split; [|exact I]. intros _. split; [exists 2; reflexivity|auto].
Qed.

(** ** C52 for the layer objects *)

(** the observables were replaced by arrays, and there is at least one *)
Definition blind (o : layer_obj) : Prop :=
  match o with
  | OLie _ obs => obs <> []
  | OLocal l => lc_observables l <> []
  | OCustom l => cu_observables l <> []
  | OStochastic l => st_observables l <> []
  | _ => False
  end.

Lemma blind_directions o U : blind o -> obj_directions o U = Err AttributeError.
Proof. destruct o; cbn [blind obj_directions]; try contradiction; apply C52_directions_refuted. Qed.

Lemma observables_kept n obs (Fs : list (arr C)) : obs <> [] -> mapM (full n) obs = Ok Fs -> Fs <> [].
Proof. destruct obs as [|o r]; [congruence|]. intros _ E ->. cbn [mapM] in E. destruct (full n o); cbn [bind] in E; [|discriminate]. destruct (mapM (full n) r); discriminate. Qed.

Lemma local_blind n obs locality eta stride ds check trot l : obs <> [] -> LocalLieAlgebraLayer n obs locality eta stride ds check trot = Ok l -> lc_observables l <> [].
Proof.
  intros Hne. unfold LocalLieAlgebraLayer. destruct (mapM (full n) obs) as [Fs|] eqn:EF; cbn [bind]; [|discriminate].
  destruct (py_assert (Rleb 0 eta && Rleb eta 1)); cbn [bind]; [|discriminate]. destruct (py_assert _); cbn [bind]; [|discriminate].
  destruct (if locality =? 2 then _ else _) as [[[ps ns] st]|]; cbn [bind]; [|discriminate].
  destruct (match ds with None => _ | Some _ => _ end) as [[ps' ns']|]; cbn [bind]; [|discriminate].
  match goal with |- (do g <- ?m; _) = _ -> _ => destruct m as [gs|] end; cbn [bind]; [|discriminate]. intros E. injection E as <-. cbn [lc_observables]. eapply observables_kept; eassumption.
Qed.
Lemma custom_blind n obs ds eta check trot l : obs <> [] -> CustomDirectionLieAlgebraLayer n obs ds eta check trot = Ok l -> cu_observables l <> [].
Proof.
  intros Hne. unfold CustomDirectionLieAlgebraLayer. destruct (mapM (full n) obs) as [Fs|] eqn:EF; cbn [bind]; [|discriminate].
  destruct (py_assert (Rleb 0 eta && Rleb eta 1)); cbn [bind]; [|discriminate]. destruct (AlgebraSU4 n true) as [al0|]; cbn [bind]; [|discriminate].
  destruct (get_all_directions_and_qubits al0) as [a1|]; cbn [bind]; [|discriminate].
  destruct (match ds with None => _ | Some _ => _ end) as [[ps' ns']|]; cbn [bind]; [|discriminate]. intros E. injection E as <-. cbn [cu_observables]. eapply observables_kept; eassumption.
Qed.
Lemma stochastic_blind n obs eta check l : obs <> [] -> StochasticLieAlgebraLayer n obs eta check = Ok l -> st_observables l <> [].
Proof.
  intros Hne. unfold StochasticLieAlgebraLayer. destruct (mapM (full n) obs) as [Fs|] eqn:EF; cbn [bind]; [|discriminate].
  destruct (py_assert (Rleb 0 eta && Rleb eta 1)); cbn [bind]; [|discriminate]. destruct (AlgebraSU4 n true) as [al0|]; cbn [bind]; [|discriminate].
  intros E. injection E as <-. cbn [st_observables]. eapply observables_kept; eassumption.
Qed.

(** a new layer of one of the three classes, with at least one observable *)
Inductive array_layer (n : nat) : layer_obj -> Prop :=
| al_local obs locality eta stride ds check trot l : obs <> [] -> LocalLieAlgebraLayer n obs locality eta stride ds check trot = Ok l -> array_layer n (OLocal l)
| al_custom obs ds eta check trot l : obs <> [] -> CustomDirectionLieAlgebraLayer n obs ds eta check trot = Ok l -> array_layer n (OCustom l)
| al_stochastic obs eta check l : obs <> [] -> StochasticLieAlgebraLayer n obs eta check = Ok l -> array_layer n (OStochastic l).

Lemma array_blind n o : array_layer n o -> blind o.
Proof. intros []; cbn [blind]; [eapply local_blind|eapply custom_blind|eapply stochastic_blind]; eassumption. Qed.

Theorem C52_layers_refuted : forall n o eta U, array_layer n o -> obj_directions o U = Err AttributeError /\ obj_directions (obj_set_eta eta o) U = Err AttributeError.
Proof. intros n o eta U H. apply array_blind in H. split; apply blind_directions; [exact H|]. destruct o; exact H. Qed.
Print Assumptions C52_layers_refuted.

(** ** C78: return_omegas *)

Lemma replace_at_same {A} (w : list A) i x y j : nth_error w j = Some x -> (j = i -> y = x) -> nth_error (replace_at w i y) j = Some x.
Proof.
  revert i j. induction w as [|a w IH]; intros i j E H; [destruct j; discriminate|]. destruct i as [|i], j as [|j]; cbn [replace_at nth_error] in *; try exact E.
  - rewrite (H eq_refl). reflexivity.
  - apply IH; [exact E|]. intros ->. auto.
Qed.

(** a call leaves such objects as they are *)
Lemma blind_stays x c i w U p V p' w' j o : store_call x c i w U p = Ok (V, p', w') -> nth_error w j = Some o -> blind o -> nth_error w' j = Some o.
Proof.
  intros E Ej Hb. unfold store_call, list_get in E. destruct (nth_error w i) as [a|] eqn:Ei; cbn [bind] in E; [|discriminate].
  destruct (obj_call x c a U p) as [[[V' q] a']|] eqn:Ec; cbn [bind] in E; [|discriminate]. injection E as <- <- <-.
  apply replace_at_same; [exact Ej|]. intros ->. rewrite Ei in Ej. injection Ej as ->.
  destruct o as [m obs|l|l|l|obs l|obs l|obs l|obs l|obs l]; cbn [blind obj_call] in *; try contradiction; try discriminate.
  - destruct (local_call _ _ _); cbn [bind] in Ec; [|discriminate]. injection Ec as <- <- <-. reflexivity.
  - destruct (custom_call _ _ _); cbn [bind] in Ec; [|discriminate]. injection Ec as <- <- <-. reflexivity.
Qed.

(** at least ten steps are made unless fewer are asked for *)
Lemma ten_steps x eigh random n gates obs w layers p0 kw r cs ss os us ps zs : ap_accepts layers kw ->
  approx_optimizer x eigh random n gates obs w RetState layers p0 kw = Ok r -> ap_result kw r cs ss os us ps zs -> the_steps kw < List.length cs \/ 10 < List.length cs.
Proof.
  intros Ha E Hr. unfold approx_optimizer in E. destruct (the_flag kw "perturb"%string) eqn:Ep.
  - destruct (C58_approximate_perturbations _ _ _ _ _ _ _ _ _ _ _ _ _ _ _ _ _ _ _ _ _ _ _ _ Ha E Hr Ep) as [H _]. lia.
  - destruct (C57_approximate_stop _ _ _ _ _ _ _ _ _ _ _ _ _ _ _ _ _ _ _ _ _ _ _ _ Ha E Hr Ep) as [(m & Hm & H1 & _ & H2) _].
    destruct (Nat.eq_dec m (the_steps kw)); [lia|]. destruct H2 as [H2 _]; lia.
Qed.

(** refuted: with return_omegas no run returns that reaches such a layer *)
Theorem C78_omegas_refuted : forall x eigh random n gates obs w layers p0 kw ls j i o,
  ap_accepts layers kw -> the_flag kw "return_omegas" = true -> layers = AList (map Some ls) ->
  nth_error ls j = Some i -> nth_error w i = Some o -> array_layer n o -> j < the_steps kw -> j < 10 ->
  forall r, approx_optimizer x eigh random n gates obs w RetState layers p0 kw <> Ok r.
Proof.
  intros x eigh random n gates obs w layers p0 kw ls j i o Ha Hf Hls Hj Hi Ho Hs H10 r E. apply array_blind in Ho.
  assert (E' := E). unfold approx_optimizer in E'. destruct (C60_approximate_shape _ _ _ _ _ _ _ _ _ _ _ _ _ _ _ _ _ _ Ha E') as (cs & ss & os & us & ps & zs & Hr).
  pose proof (ten_steps x eigh random n gates obs w layers p0 kw r cs ss os us ps zs Ha E Hr) as Hlen.
  destruct (C56_C59_approximate_histories _ _ _ _ _ _ _ _ _ _ _ _ _ _ _ _ _ _ _ _ _ _ _ _ Ha E' Hr) as (confs & u0 & m & ls' & El & _ & H0 & Hl & Hm & Hc & Hcost & _).
  assert (ls' = ls) as ->.
  { rewrite Hls in El. injection El as El. clear - El. revert ls' El. induction ls as [|a q IH]; intros [|b s] El; try discriminate; [reflexivity|]. injection El as E1 E2. subst. f_equal. apply IH. exact E2. }
  assert (Lc : List.length confs = List.length cs) by (clear - Hcost; induction Hcost; simpl; congruence).
  assert (K : forall k y, nth_error confs k = Some y -> nth_error (objects y) i = Some o).
  { induction k as [|k IH]; intros y Hy; [rewrite H0 in Hy; injection Hy as <-; exact Hi|].
    destruct (nth_error confs k) as [z|] eqn:Ez; [|apply nth_error_None in Ez; assert (S k < List.length confs) by (apply nth_error_Some; congruence); lia].
    destruct (Hc k z y Ez Hy) as (u' & layer & _ & _ & Ec & _). eapply blind_stays; [exact Ec|apply IH; reflexivity|exact Ho]. }
  assert (Hjm : S j < List.length confs) by lia.
  destruct (nth_error confs j) as [y|] eqn:Ey; [|apply nth_error_None in Ey; lia]. destruct (nth_error confs (S j)) as [z|] eqn:Ez; [|apply nth_error_None in Ez; lia].
  destruct (Hc j y z Ey Ez) as (u' & layer & _ & Hlay & _ & Hom & _). assert (j < List.length ls) by (apply nth_error_Some; congruence).
  rewrite Nat.mod_small in Hlay by assumption. rewrite Hj in Hlay. injection Hlay as <-.
  destruct (Hom Hf) as (d & _ & Ed). unfold store_directions, list_get in Ed. rewrite (K (S j) z Ez) in Ed. cbn [bind] in Ed. rewrite blind_directions in Ed by exact Ho. discriminate.
Qed.
Print Assumptions C78_omegas_refuted.

(** the device size and the observables a layer computes its directions with *)
Definition watched (o : layer_obj) : option (nat * list (qop C)) :=
  match o with
  | OSquared obs l | OSU8 obs l => Some (gr_n l, obs)
  | OZassenhaus obs l => Some (za_n l, obs)
  | OAdapt obs l => Some (ad_n l, obs)
  | OZasV2 obs l => Some (v2_n l, obs)
  | _ => None
  end.
Lemma watched_directions o m obs U : watched o = Some (m, obs) -> obj_directions o U = get_lie_algebra_directions m (map ObsQ obs) U.
Proof. destruct o; cbn [watched obj_directions]; intros E; try discriminate; injection E as <- <-; reflexivity. Qed.

Lemma watched_call x c o U p V p' o' q : obj_call x c o U p = Ok (V, p', o') -> watched o = Some q -> watched o' = Some q.
Proof.
  intros E. destruct o as [m obs|l|l|l|obs l|obs l|obs l|obs l|obs l]; cbn [watched obj_call] in *; try discriminate.
  - destruct c; [destruct (or_bounds x) as [[fa fh] fk]; destruct (commute_call _ _ _ _ _ _ _ _); cbn [bind] in E; discriminate|]. unfold squared_call in E.
    destruct (greedy_step _ _ _ _ _); cbn [bind] in E; [|discriminate]. injection E as <- <- <-. auto.
  - unfold su8_call in E. destruct (greedy_step _ _ _ _ _); cbn [bind] in E; [|discriminate]. injection E as <- <- <-. auto.
  - destruct (zas_call (or_ord x) l U) as [[W l']|] eqn:Ez; cbn [bind] in E; [|discriminate]. injection E as <- <- <-. cbn [watched fst snd].
    assert (za_n l' = za_n l) as ->; [|auto]. unfold zas_call in Ez. destruct (za_state l).
    + destruct (greedy_step _ _ _ _ _) as [[k [V1 e]]|]; cbn [bind] in Ez; [|discriminate]. injection Ez as <- <-. reflexivity.
    + destruct (za_current l), (za_prev_eta l); try discriminate.
      repeat match goal with H : (do a <- ?m; _) = Ok _ |- _ => destruct m; cbn [bind] in H; [|discriminate] end.
      match goal with H : match ?m with Some _ => _ | None => _ end = Ok _ |- _ => destruct m as [[k1 k2]|]; [|discriminate] end.
      repeat match goal with H : (do a <- ?m; _) = Ok _ |- _ => destruct m; cbn [bind] in H; [|discriminate] end.
      destruct (Req_EM_T _ _) in Ez; [discriminate|].
      repeat match goal with H : (do a <- ?m; _) = Ok _ |- _ => destruct m; cbn [bind] in H; [|discriminate] end.
      injection Ez as <- <-. reflexivity.
  - destruct (adapt_call _ l U p) as [[[W q'] l']|] eqn:Ea; cbn [bind] in E; [|discriminate]. injection E as <- <- <-. cbn [watched].
    assert (ad_n l' = ad_n l) as ->; [|auto]. unfold adapt_call in Ea.
    repeat match goal with H : (do a <- ?m; _) = Ok _ |- _ => destruct m; cbn [bind] in H; [|discriminate] end. injection Ea as _ _ <-. reflexivity.
  - unfold v2_call in E. repeat match goal with H : (do a <- (do b <- ?m; _); _) = Ok _ |- _ => destruct m; cbn [bind] in H; [|discriminate] end.
    destruct (v2_params l) as [[p0 p1] p2], (or_minimize x _) as [[x0 x1] x2]. cbn [bind fst snd] in E. injection E as <- <- <-. auto.
Qed.

Lemma replace_at_other {A} (w : list A) i y j : j <> i -> nth_error (replace_at w i y) j = nth_error w j.
Proof. revert i j. induction w as [|a w IH]; intros [|i] [|j] H; cbn [replace_at nth_error]; auto; congruence. Qed.
Lemma replace_at_here {A} (w : list A) i y x : nth_error w i = Some x -> nth_error (replace_at w i y) i = Some y.
Proof. revert i. induction w as [|a w IH]; intros [|i] H; cbn [replace_at nth_error] in *; auto; discriminate. Qed.

Lemma watched_stays x c i w U p V p' w' j o q : store_call x c i w U p = Ok (V, p', w') -> nth_error w j = Some o -> watched o = Some q ->
  exists o', nth_error w' j = Some o' /\ watched o' = Some q.
Proof.
  intros E Ej Hb. unfold store_call, list_get in E. destruct (nth_error w i) as [a|] eqn:Ei; cbn [bind] in E; [|discriminate].
  destruct (obj_call x c a U p) as [[[V' q'] a']|] eqn:Ec; cbn [bind] in E; [|discriminate]. injection E as <- <- <-.
  destruct (Nat.eq_dec j i) as [->|Hne].
  - rewrite Ei in Ej. injection Ej as ->. exists a'. split; [eapply replace_at_here; exact Ei|]. eapply watched_call; eassumption.
  - exists o. split; [rewrite replace_at_other by exact Hne; exact Ej|exact Hb].
Qed.

(** What holds: for the four other classes entry k of the returned directions are
    the Riemannian gradient components, in the order of get_su_n_operators, of the
    observables of the layer of step k at the circuit that step produced.
    Missing: the classes above. *)
Theorem C78_omegas_partial : forall x eigh random n gates obs w layers p0 kw r cs ss os us ps zs,
  Forall (unitary_gate n) gates -> Forall (fits n) obs -> svd_correct (or_svd x) -> eigh_correct (2 ^ n) eigh -> Forall (built x n) w -> ap_accepts layers kw ->
  approx_optimizer x eigh random n gates obs w RetState layers p0 kw = Ok r -> ap_result kw r cs ss os us ps zs ->
  the_flag kw "return_omegas" = true -> the_flag kw "return_unitary" = true ->
  forall ls k om u i o lobs, layers = AList (map Some ls) -> nth_error os k = Some om -> nth_error us (S k) = Some u ->
    nth_error ls (k mod List.length ls) = Some i -> nth_error w i = Some o -> watched o = Some (n, lobs) -> Forall (fits n) lobs -> Forall hermitian_obs lobs ->
    exists Fs ops names, mapM (fun q => get_full_operator (q_matrix q) (q_wires q) n) lobs = Ok Fs /\ get_su_n_operators (2 ^ n) true true = Ok (ops, Some names) /\
      map fst om = names /\
      map snd om = map (fun P => (Im (quad (2 ^ n) (fun a => u a 0%nat) (msub (mmul (2 ^ n) (a_ent P) (msum a_ent Fs)) (mmul (2 ^ n) (msum a_ent Fs) (a_ent P)))) / 2 ^ n)%R) ops.
Proof.
  intros x eigh random n gates obs w layers p0 kw r cs ss os us ps zs Hg Hf Hs He Hw Ha E Hr Ho Hu ls k om u i o lobs Hls Hom Hus Hi Hwi Hwa Hlf Hlh.
  destruct (C66_approximate_unitary x eigh random n gates obs w layers p0 kw r cs ss os us ps zs Hg Hf Hs He Hw Ha E Hr) as (circuits & _ & _ & HU & _ & Hc1 & _).
  rewrite <- (Hc1 Hu) in HU. clear circuits Hc1. assert (HUu : unitary2 (2 ^ n) u) by (rewrite Forall_forall in HU; apply HU; eapply nth_error_In; exact Hus).
  unfold approx_optimizer in E. destruct (C56_C59_approximate_histories _ _ _ _ _ _ _ _ _ _ _ _ _ _ _ _ _ _ _ _ _ _ _ _ Ha E Hr) as (confs & u0 & m & ls' & El & _ & H0 & Hl & _ & Hc & _ & _ & Hun & _).
  assert (ls' = ls) as ->.
  { rewrite Hls in El. injection El as El. clear - El. revert ls' El. induction ls as [|a q IH]; intros [|b s] El; try discriminate; [reflexivity|]. injection El as E1 E2. subst. f_equal. apply IH. exact E2. }
  assert (K : forall k y, nth_error confs k = Some y -> exists o', nth_error (objects y) i = Some o' /\ watched o' = Some (n, lobs)).
  { induction k0 as [|k0 IH]; intros y Hy; [rewrite H0 in Hy; injection Hy as <-; eauto|].
    destruct (nth_error confs k0) as [z|] eqn:Ez; [|apply nth_error_None in Ez; assert (S k0 < List.length confs) by (apply nth_error_Some; congruence); lia].
    destruct (Hc k0 z y Ez Hy) as (u' & layer & _ & _ & Ec & _). destruct (IH z eq_refl) as (o' & Eo' & Wo'). eapply watched_stays; eassumption. }
  rewrite (Hun Hu), nth_error_map in Hus. destruct (nth_error confs (S k)) as [z|] eqn:Ez; [|discriminate]. cbn in Hus. injection Hus as Euz.
  destruct (nth_error confs k) as [y|] eqn:Ey; [|apply nth_error_None in Ey; assert (S k < List.length confs) by (apply nth_error_Some; congruence); lia].
  destruct (Hc k y z Ey Ez) as (u' & layer & _ & Hlay & _ & Hd & _). rewrite Hi in Hlay. injection Hlay as <-. destruct (Hd Ho) as (d & Ed & Edir). rewrite Hom in Ed. injection Ed as <-.
  destruct (K (S k) z Ez) as (o' & Eo' & Wo'). unfold store_directions, list_get in Edir. rewrite Eo' in Edir. cbn [bind] in Edir. rewrite (watched_directions o' n lobs _ Wo'), Euz in Edir.
  destruct (C52_directions_partial n u lobs HUu Hlf Hlh) as (Fs & ops & names & dirs & E1 & E2 & E3 & E4 & E5). rewrite E3 in Edir. injection Edir as <-. exists Fs, ops, names. auto.
Qed.
Print Assumptions C78_omegas_partial.

Lemma squared_size n obs eta l : SquaredLieAlgebraLayer n obs eta = Ok l -> gr_n l = n.
Proof. unfold SquaredLieAlgebraLayer. intros E. repeat match goal with H : (do a <- ?m; _) = Ok _ |- _ => destruct m; cbn [bind] in H; [|discriminate] end. injection E as <-. reflexivity. Qed.
Lemma adapt_size n obs eta l : AdaptVQELayer n obs eta = Ok l -> ad_n l = n.
Proof. unfold AdaptVQELayer. intros E. repeat match goal with H : (do a <- ?m; _) = Ok _ |- _ => destruct m; cbn [bind] in H; [|discriminate] end. injection E as <-. reflexivity. Qed.

(** the three layers of C66_C62_case with return_omegas: the run over the last two
    returns, the run over all three does not *)
Definition omega_kw : kwargs := [("nsteps", PyInt 10); ("return_omegas", PyBool true); ("return_unitary", PyBool true)]%string.
Lemma omega_kw_ok ls : ap_accepts (AList (map Some ls)) omega_kw.
Proof.
  unfold ap_accepts, allowed, arg. cbn. split; [eauto|]. split; [intros v H; injection H as <-; right; exists 10%Z; split; [reflexivity|lia]|].
  split; [intros v H; discriminate|]. split; [intros v H; discriminate|]. split; [intros v H; discriminate|].
  intros name Hin v H. simpl in Hin. intuition; subst; cbn in H; try discriminate; injection H as <-; eexists; reflexivity.
Qed.
Example C78_case : exists x eigh a b c, svd_correct (or_svd x) /\ eigh_correct (2 ^ 2) eigh /\ array_layer 2 (OLocal a) /\
  Forall (built x 2) [OLocal a; OSquared two_obs b; OAdapt two_obs c] /\ watched (OSquared two_obs b) = Some (2, two_obs) /\ watched (OAdapt two_obs c) = Some (2, two_obs) /\
  (exists r, approx_optimizer x eigh (fun _ _ _ => 0%R) 2 [mkqop lit_X [0]] two_obs [OSquared two_obs b; OAdapt two_obs c] RetState (AList (map Some [0; 1])) [] omega_kw = Ok r) /\
  (forall r, approx_optimizer x eigh (fun _ _ _ => 0%R) 2 [mkqop lit_X [0]] two_obs [OLocal a; OSquared two_obs b; OAdapt two_obs c] RetState (AList (map Some [1; 2; 0])) [] omega_kw <> Ok r).
Proof.
  destruct eigh_exists as (eigh & He). set (x := mkoracles svd_trivial (fun l => l) (fun _ => 0) (0, 0, 0) (fun f => (f (0, 0, 0)%R, 0, 0)%R)).
  destruct (three_made 2 two_obs ltac:(lia) two_obs_fit two_obs_herm) as (a' & b & c & D0 & D2 & D3 & B).
  assert (Hg : good_args 2 1 (1 / 10) 0 None) by (split; [lra|]; split; [auto|]; split; [discriminate|exact I]).
  destruct (C42_local_layer_unitary 2 two_obs 1 (1 / 10) 0 None true false two_obs_fit two_obs_herm Hg ltac:(right; discriminate)) as (a & Ea & _).
  assert (D1 : dependable 2 (OLocal a)).
  { replace a with (local_set_eta a (lc_eta a)) by (destruct a; reflexivity). eapply dep_local; try eassumption; [apply two_obs_fit|apply two_obs_herm|right; discriminate]. }
  exists x, eigh, a, b, c. specialize (B x). split; [apply svd_trivial_correct|]. split; [apply He|].
  assert (Aa : array_layer 2 (OLocal a)) by (eapply al_local; [|exact Ea]; discriminate). split; [exact Aa|]. split; [|split; [|split; [|split]]].
  - inversion B; subst. constructor; [|assumption]. eapply built_local; try eassumption; [apply two_obs_fit|apply two_obs_herm].
  - inversion D2; subst. cbn [watched]. f_equal. f_equal. eapply squared_size; eassumption.
  - inversion D3; subst. cbn [watched]. f_equal. f_equal. eapply adapt_size; eassumption.
  - apply C66_approximate_returns; try assumption.
    + apply x_gate_ok.
    + apply two_obs_fit.
    + apply svd_trivial_correct.
    + apply He.
    + repeat constructor; assumption.
    + discriminate.
    + repeat constructor.
    + constructor.
    + apply omega_kw_ok.
    + left. reflexivity.
    + intros _. repeat constructor.
  - apply (C78_omegas_refuted _ _ _ _ _ _ _ _ _ _ [1; 2; 0] 2 0 (OLocal a)).
    + apply omega_kw_ok.
    + reflexivity.
    + reflexivity.
    + reflexivity.
    + reflexivity.
    + exact Aa.
    + unfold the_steps, arg. cbn. lia.
    + lia.
Qed.
Print Assumptions C78_case.

(** ** C82: a plain LieLayer in the list *)

(** the call raises NotImplementedError, wherever the object is in the list and
    however few steps are asked for, even if no step would reach it *)
Theorem C82_base_layer : forall x eigh random n gates obs w ls p0 kw, Forall (fits n) gates -> Forall (fun i => i < List.length w) ls ->
  ap_accepts (AList (map Some ls)) kw -> (exists i m os, In i ls /\ nth_error w i = Some (OLie m os)) ->
  approx_optimizer x eigh random n gates obs w RetState (AList (map Some ls)) p0 kw = Err NotImplementedError.
Proof.
  intros x eigh random n gates obs w ls p0 kw Hg Hls Ha (i & m & os & Hi & Ei). unfold approx_optimizer, approximate_lie_optimizer.
  destruct (ap_cases (AList (map Some ls)) kw) as [[_ (ls' & _ & E)]|[Hn _]]; [|contradiction]. rewrite E. cbn [bind].
  destruct (circuit_unitary_spec n gates Hg) as (U & EU & _). rewrite EU. cbn [bind].
  assert (Epr : print_layers w (AList (map Some ls)) = Err NotImplementedError).
  { cbn [print_layers]. clear -Hls Hi Ei. induction Hls as [|k r Hk _ IH]; [destruct Hi|]. cbn [map foldM]. unfold list_get.
    destruct (nth_error w k) as [o|] eqn:Eo; [|apply nth_error_None in Eo; lia]. cbn [bind].
    destruct Hi as [->|Hi]; [rewrite Ei in Eo; injection Eo as <-; reflexivity|]. destruct o; cbn [obj_print bind]; try reflexivity; apply IH; exact Hi. }
  rewrite Epr. reflexivity.
Qed.
Print Assumptions C82_base_layer.

Example C82_case : exists w, Forall (fits 2) [mkqop lit_X [0]] /\ Forall (fun i => i < List.length w) [0; 0; 1] /\
  ap_accepts (AList (map Some [0; 0; 1])) [("nsteps"%string, PyInt 1)] /\ (exists i m os, In i [0; 0; 1] /\ nth_error w i = Some (OLie m os)) /\
  exists o, nth_error w 0 = Some o /\ obj_print o = Ok tt.
Proof.
  destruct (three_made 2 two_obs ltac:(lia) two_obs_fit two_obs_herm) as (a & b & c & _ & D & _). exists [OSquared two_obs b; OLie 2 []].
  split; [repeat constructor; simpl; try discriminate; auto; lia|]. split; [repeat constructor|]. split.
  { split; [exists [0; 0; 1]; reflexivity|]. unfold allowed, arg. cbn. split; [intros v H; injection H as <-; right; exists 1%Z; split; [reflexivity|lia]|].
    repeat (split; [intros v H; discriminate|]). intros name Hn v H. repeat (destruct Hn as [<-|Hn]; [discriminate|]). destruct Hn. }
  split; [exists 1, 2, []; split; [simpl; tauto|reflexivity]|]. eexists. split; reflexivity.
Qed.
