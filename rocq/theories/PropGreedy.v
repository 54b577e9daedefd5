(** Properties C46-C49: rotosolve and the greedy layers of oranssi/opt_tools.py. *)
From Coq Require Import ZArith Arith Lia Bool String Sorted Reals Lra Ring Setoid Morphisms.
From Coquelicot Require Import Coquelicot.
From Verif Require Import Py StarRing Matrix Cplx PauliSpec Bits PauliBasis Expm UtilsModel UtilsProofs CircuitModel CircuitProofs CircuitProofs2
  AlgebraModel AlgebraProofs LayerModel LayerProofs LayerProofs2 GreedyModel RotoProofs RotoProofs2 GreedyProofs RotoWitness.
From Verif Require Import PropAlgebra PropLayers.
From Coq Require Import List.
Import ListNotations.
Local Open Scope nat_scope.

(** ** Specification *)

(** the cost of a circuit unitary: the sum of the expectation values in the
    state U|0...0> *)
Definition energy (n : nat) (Os : list (arr C)) (U : mat C) : R :=
  rsum (fun O => Re (quad (2 ^ n) (fun i => U i 0) (a_ent O))) Os.

(** the circuit unitary followed by exp(-i t P) *)
Definition rotated (n : nat) (P : mat C) (t : R) (U : mat C) : mat C :=
  mmul (2 ^ n) (expm (2 ^ n) (mscale (Cmult (Copp Ci) (RtoC t)) P)) U.

Definition su8_list : list string := flat_map (fun d => map (fun e => (d ++ e)%string) su4_list) su2_list.

Lemma energy_eq n Os U : energy n Os U = total_cost n Os U.
Proof. rewrite rsum_total. reflexivity. Qed.

Lemma rotated_eq n k P t U : meq (2 ^ n) (rotated n (a_ent P) t U) (mmul (2 ^ n) (roto_gate n k (a_ent P) (t * 2 ^ k)) U).
Proof.
  unfold rotated, roto_gate. apply mmul_proper; [|reflexivity]. apply expm_proper. intros i j Hi Hj. unfold mscale.
  cbn [kmul CStar]. f_equal. unfold mit. assert (2 ^ k <> 0)%R by (apply pow_nonzero; lra).
  replace (t * 2 ^ k / 2 ^ k)%R with t by (field; auto). apply C_ext; simpl; ring.
Qed.

Lemma energy_ext n Os U V : meq (2 ^ n) U V -> energy n Os U = energy n Os V.
Proof.
  intros H. unfold energy. induction Os as [|o Os IH]; [reflexivity|]. cbn [rsum]. rewrite IH. f_equal. f_equal.
  unfold quad. apply lsum_ext. intros i Hi. apply in_seq in Hi. apply lsum_ext. intros j Hj. apply in_seq in Hj.
  assert (0 < 2 ^ n) by apply pow2_pos. rewrite (H i 0), (H j 0) by lia. reflexivity.
Qed.

(** the words of one to three letters *)
Lemma word_exists n d q P : In d (su2_list ++ su4_list ++ su8_list) -> qubit_tuple n (String.length d) q -> word_operator n d q P ->
  exists v, List.length v = n /\ Forall (fun g => g <= 3) v /\ meq (2 ^ n) (a_ent P) (pword v).
Proof.
  intros Hd Hq HP. change (su2_list ++ su4_list ++ su8_list) with (wnames [1; 2; 3]) in Hd. unfold wnames in Hd.
  apply in_map_iff in Hd. destruct Hd as (u & <- & Hu). unfold wname in *. rewrite word_name_length, up_length in Hq.
  apply wwords_In in Hu. destruct Hu as [_ Hu]. assert (Hok : wires_ok n q) by (eapply qtuple_wires; exact Hq).
  destruct Hq as (Hl & Hs & Hlt). exists (place n q (up u)). split; [apply place_length|].
  assert (Hup : Forall (fun g => 1 <= g <= 3) (up u)).
  { apply Forall_forall. intros g Hg. apply in_map_iff in Hg. destruct Hg as (x & <- & Hx). rewrite Forall_forall in Hu. specialize (Hu x Hx). lia. }
  split.
  - eapply Forall_impl; [|apply (place_letters n q (up u) 4); [|lia]]; simpl; [intros; lia|].
    eapply Forall_impl; [|exact Hup]. simpl. intros; lia.
  - apply (HP (up u) (place n q (up u))); [reflexivity|exact Hup|apply place_length| |].
    + intros i Hi. rewrite up_length, <- Hl in Hi. rewrite nth_place by (rewrite Forall_forall in Hlt; apply Hlt, nth_In; auto).
      destruct Hok as [Hnd _]. assert (E : nth_error q i = Some (nth i q 0)) by (apply nth_error_nth'; auto).
      destruct (index_of (nth i q 0) q) as [j|] eqn:Ej.
      * apply index_of_Some in Ej. f_equal. rewrite NoDup_nth_error in Hnd. symmetry. apply Hnd; [auto|congruence].
      * apply index_of_None in Ej. exfalso. apply Ej, nth_In; auto.
    + intros p Hp Hn. rewrite nth_place by auto. destruct (index_of p q) as [j|] eqn:Ej; [|reflexivity].
      apply index_of_Some in Ej. exfalso. apply Hn. eapply nth_error_In; eauto.
Qed.

Lemma word_square n d q P : In d (su2_list ++ su4_list ++ su8_list) -> qubit_tuple n (String.length d) q -> word_operator n d q P ->
  meq (2 ^ n) (mmul (2 ^ n) (a_ent P) (a_ent P)) mid /\ hermitian (2 ^ n) (a_ent P).
Proof.
  intros Hd Hq HP. destruct (word_exists n d q P Hd Hq HP) as (v & <- & Hv & E). split.
  - rewrite E. apply pword_sq; auto.
  - unfold hermitian. rewrite E. apply pword_herm; auto.
Qed.

(** ** C46 *)
Theorem C46_rotosolve_one_qubit : forall n d q P Os U, In d su2_list -> qubit_tuple n 1 q -> word_operator n d q P ->
  unitary2 (2 ^ n) U ->
  let V := fst (rotosolve n (a_ent P) Os U 1) in
  unitary2 (2 ^ n) V /\ (forall t, (energy n Os V <= energy n Os (rotated n (a_ent P) t U))%R) /\ (energy n Os V <= energy n Os U)%R.
Proof.
  intros n d q P Os U Hd Hq HP HU V.
  destruct (word_square n d q P) as [Hsq Hh]; [apply in_or_app; auto| |auto|].
  { destruct Hd as [<-|[<-|[<-|[]]]]; exact Hq. }
  assert (H : forall t, (energy n Os V <= energy n Os (rotated n (a_ent P) t U))%R).
  { intros t. rewrite (energy_ext n Os _ _ (rotated_eq n 1 P t U)), !energy_eq. apply roto_optimal; auto. }
  split; [apply roto_unitary; auto|]. split; [exact H|].
  eapply Rle_trans; [apply (H 0%R)|]. apply Req_le. apply energy_ext. unfold rotated.
  rewrite (expm_proper (2 ^ n) _ mzero).
  - rewrite expm_zero. apply mmul_1_l.
  - intros i j _ _. unfold mscale, mzero. cbn [kmul k0 CStar]. ring.
Qed.
Print Assumptions C46_rotosolve_one_qubit.

(** three qubits, X on qubit 1, the observables Y0, Y0, Y0, Z0 and the identity circuit *)
Example C46_case : exists P Os, In "X"%string su2_list /\ qubit_tuple 3 1 [1] /\ word_operator 3 "X" [1] P /\ unitary2 (2 ^ 3) (mid (K := C)) /\
  mapM (CircuitModel.full 3) obs4 = Ok Os.
Proof.
  destruct obs4_ok as (Os & EO & _). destruct (su4_table 3 true) as (t & _ & Ek & Hk).
  assert (Hin : In (("X"%string, [1]) : key) (map fst t)) by (rewrite Ek; simpl; tauto).
  apply in_map_iff in Hin. destruct Hin as ([k P] & Ekk & Hin). cbn [fst] in Ekk. subst k. exists P, Os.
  split; [simpl; tauto|]. split; [repeat split; repeat constructor|]. split; [|split; [|exact EO]].
  - apply key_ok_word. rewrite Forall_forall in Hk. apply Hk. exact Hin.
  - apply unitary2_id.
Qed.

(** ** C47. The minimality claimed for one letter fails for two letters: the
    first call of a ZassenhausLayer can raise the cost. *)
Theorem C47_rotosolve_multi_qubit_refuted : exists (n : nat) (obs : list (qop C)) (Os : list (arr C)) (l : zas_layer) d q P U,
  Forall (fits n) obs /\ Forall hermitian_obs obs /\ Forall2 (embedded n) obs Os /\ unitary2 (2 ^ n) U /\
  In d su4_list /\ qubit_tuple n 2 q /\ word_operator n d q P /\
  (energy n Os U < energy n Os (fst (rotosolve n (a_ent P) Os U 2)))%R /\
  ZassenhausLayer n obs 1 false false (1, 1)%Z = Ok l /\
  forall ord, exists V l', zas_call ord l U = Ok (V, l') /\ (energy n Os U < energy n Os V)%R.
Proof.
  destruct obs4_ok as (Os & EO & HO).
  assert (Hf : Forall (fits 3) obs4) by (repeat constructor; simpl; try discriminate; auto; lia).
  destruct (zas_init 3 obs4 Os 1 false false (1, 1)%Z EO) as (t4 & t8 & El & K4 & H4 & K8 & H8); [lra|lia|].
  destruct (first_choice Os t4 mid HO K4 H4 eq_refl) as (P & HP & Es).
  pose proof (cost_rises Os (a_ent P) HO HP) as Hc. rewrite <- !energy_eq in Hc.
  assert (HP' : word_operator 3 "XZ" [0; 1] (mkarr 8 8 (a_ent P))).
  { intros w v Ew Hw Hv H1 H2. assert (w = [1; 3]).
    { apply word_name_inj; [eapply Forall_impl; [|exact Hw]; simpl; intros; lia|repeat constructor|exact (eq_sym Ew)]. }
    subst w. assert (v = [1; 3; 0]).
    { destruct v as [|a [|b [|c [|? ?]]]]; try discriminate. specialize (H1 0) as A. specialize (H1 1) as B. specialize (H2 2) as D.
      simpl in A, B, D. rewrite A, B, D by lia. reflexivity. }
    subst v. auto. }
  exists 3, obs4, Os. eexists _, "XZ"%string, [0; 1], (mkarr 8 8 (a_ent P)), mid.
  split; [exact Hf|]. split.
  { repeat constructor; unfold hermitian_obs; simpl; intros i j Hi Hj;
      (destruct i as [|[|i]]; [| |lia]); (destruct j as [|[|j]]; [| |lia]); unfold madj; simpl; apply C_ext; simpl; ring. }
  split; [apply full_embedded; auto|]. split; [apply unitary2_id|]. split; [simpl; tauto|]. split; [repeat split; repeat constructor|].
  split; [exact HP'|]. split; [exact Hc|]. split; [exact El|]. intros ord. unfold zas_call. cbn [za_state za_n za_su4 za_obs].
  rewrite Es. cbn [bind]. unfold rotosolve in Hc at 1. cbn [fst] in Hc. unfold rotosolve. eexists _, _. split; [reflexivity|exact Hc].
Qed.
Print Assumptions C47_rotosolve_multi_qubit_refuted.

Lemma half_turn n Os P U : energy n Os (mmul (2 ^ n) P U) = (ro_p n Os P U - ro_q n Os P U)%R.
Proof.
  unfold energy, ro_p, ro_q. induction Os as [|o Os IH]; cbn [rsum]; [ring|]. rewrite IH, quad_ip.
  change (fun i => mmul (2 ^ n) P U i 0) with (mv (2 ^ n) P (qnode_state U)). unfold roto_A, roto_B. lra.
Qed.

(** What holds for words of any number of letters: the result is a unitary; when
    the half turn U -> P U would raise the cost, the step never raises it and
    lowers it whenever some angle does; and a circuit that is already minimal
    along P keeps its cost. Missing: minimality, and any bound when the half
    turn does not raise the cost (refuted above). *)
Theorem C47_rotosolve_multi_qubit_partial : forall n d q P Os U, In d (su2_list ++ su4_list ++ su8_list) ->
  qubit_tuple n (String.length d) q -> word_operator n d q P -> unitary2 (2 ^ n) U ->
  let V := fst (rotosolve n (a_ent P) Os U (String.length d)) in
  unitary2 (2 ^ n) V /\
  ((energy n Os U < energy n Os (mmul (2 ^ n) (a_ent P) U))%R ->
     (energy n Os V <= energy n Os U)%R /\
     ((exists t, (energy n Os (rotated n (a_ent P) t U) < energy n Os U)%R) -> (energy n Os V < energy n Os U)%R)) /\
  ((forall t, (energy n Os U <= energy n Os (rotated n (a_ent P) t U))%R) -> energy n Os V = energy n Os U).
Proof.
  intros n d q P Os U Hd Hq HP HU V. destruct (word_square n d q P Hd Hq HP) as [Hsq Hh].
  assert (Hk : 0 < String.length d).
  { revert Hd. clear. intros H. repeat (destruct H as [<-|H]; [simpl; lia|]). destruct H. }
  set (k := String.length d) in *. split; [apply roto_unitary; auto|].
  assert (Er : forall t, energy n Os (rotated n (a_ent P) t U) =
    (ro_p n Os (a_ent P) U + ro_q n Os (a_ent P) U * cos (2 * t) + ro_r n Os (a_ent P) U * sin (2 * t))%R).
  { intros t. rewrite (energy_ext n Os _ _ (rotated_eq n k P t U)), energy_eq, cost_along by auto.
    assert (2 ^ k <> 0)%R by (apply pow_nonzero; lra). replace (t * 2 ^ k / 2 ^ k)%R with t by (field; auto). reflexivity. }
  split.
  - intros Hlt. rewrite !energy_eq, (cost_start n Os (a_ent P) U Hsq) in *. unfold V. rewrite roto_cost, roto_eta by auto.
    assert (Hqn : (ro_q n Os (a_ent P) U < 0)%R).
    { rewrite <- (energy_eq n Os (mmul _ _ _)), half_turn in Hlt. lra. }
    pose proof (roto_curve (ro_q n Os (a_ent P) U) (ro_r n Os (a_ent P) U) k Hk Hqn) as [H1 H2]. cbv zeta in H1, H2. split; [lra|].
    intros (t & Ht). rewrite Er in Ht. destruct (Req_dec (ro_r n Os (a_ent P) U) 0) as [E|E]; [|specialize (H2 E); lra].
    rewrite E in Ht. pose proof (COS_bound (2 * t)). nra.
  - intros H. rewrite !energy_eq. apply roto_fixed; auto. intros t. rewrite <- !energy_eq.
    specialize (H (t / 2 ^ k)%R). rewrite (energy_ext n Os _ _ (rotated_eq n k P _ U)) in H.
    assert (2 ^ k <> 0)%R by (apply pow_nonzero; lra). replace (t / 2 ^ k * 2 ^ k)%R with t in H by (field; auto). exact H.
Qed.
Print Assumptions C47_rotosolve_multi_qubit_partial.

(** the observables Y0, Y0, Y0, Z0, the direction XZ on qubits 0 and 1: from the
    circuit XZ the half turn raises the cost *)
Example C47_case : exists P Os, In "XZ"%string (su2_list ++ su4_list ++ su8_list) /\ qubit_tuple 3 2 [0; 1] /\ word_operator 3 "XZ" [0; 1] P /\
  mapM (CircuitModel.full 3) obs4 = Ok Os /\ unitary2 (2 ^ 3) (a_ent P) /\
  (energy 3 Os (a_ent P) < energy 3 Os (mmul (2 ^ 3) (a_ent P) (a_ent P)))%R.
Proof.
  destruct obs4_ok as (Os & EO & HO). destruct (su4_table 3 false) as (t & _ & Ek & Hk).
  assert (Hin : In (("XZ"%string, [0; 1]) : key) (map fst t)) by (rewrite Ek; simpl; tauto).
  apply in_map_iff in Hin. destruct Hin as ([k P] & Ekk & Hin). cbn [fst] in Ekk. subst k. exists P, Os.
  split; [simpl; tauto|]. assert (Hq : qubit_tuple 3 2 [0; 1]) by (repeat split; repeat constructor). split; [exact Hq|].
  rewrite Forall_forall in Hk. specialize (Hk _ Hin).
  assert (HP : word_operator 3 "XZ" [0; 1] P) by (apply key_ok_word; exact Hk). split; [exact HP|]. split; [exact EO|].
  destruct (word_square 3 "XZ" [0; 1] P) as [Hsq Hh]; [simpl; tauto|exact Hq|exact HP|]. split.
  - split; unfold unitary; unfold hermitian in Hh; rewrite Hh; exact Hsq.
  - assert (HP' : meq 8 (a_ent P) (pword [1; 3; 0])).
    { apply (key_word 3 "XZ" [0; 1] P [1; 3]); [exact Hk|reflexivity|repeat constructor|reflexivity]. }
    destruct (curve_coefficients Os (a_ent P) HO HP') as [Eq _].
    rewrite (energy_ext 3 Os _ _ Hsq), !energy_eq, (cost_start 3 Os (a_ent P) mid Hsq), Eq.
    assert (E : total_cost 3 Os (a_ent P) = (ro_p 3 Os (a_ent P) mid - ro_q 3 Os (a_ent P) mid)%R).
    { rewrite <- energy_eq, <- half_turn. apply energy_ext. symmetry. apply mmul_1_r. }
    rewrite E, Eq. lra.
Qed.

(** ** C48 *)

(** the absolute gradient of the cost along P *)
Definition slope (n : nat) (Os : list (arr C)) (U : mat C) (P : arr C) : R :=
  let H := msum a_ent Os in
  Rabs (Im (quad (2 ^ n) (fun i => U i 0) (msub (mmul (2 ^ n) (a_ent P) H) (mmul (2 ^ n) H (a_ent P))))).

(** (k, P) is the first entry of the table with the largest slope, the excluded
    key left out *)
Definition first_largest (g : arr C -> R) (excluded : option key) (table : list (key * arr C)) (k : key) (P : arr C) : Prop :=
  Some k <> excluded /\
  exists l1 l2, table = l1 ++ (k, P) :: l2 /\
    Forall (fun x => Some (fst x) <> excluded -> (g (snd x) < g P)%R) l1 /\
    Forall (fun x => Some (fst x) <> excluded -> (g (snd x) <= g P)%R) l2.

(** the calls of a layer on the circuits Us, with the returned circuit and the
    layer after each call *)
Fixpoint history (call : greedy_layer -> mat C -> res (mat C * greedy_layer)) (l : greedy_layer) (Us : list (mat C))
    : res (list (mat C * greedy_layer)) :=
  match Us with
  | [] => Ok []
  | U :: Us => do r <- call l U; do t <- history call (snd r) Us; Ok (r :: t)
  end.

(** every call turns its circuit along the first direction of largest slope;
    with [avoid] the previous direction is left out *)
Fixpoint greedy (avoid : bool) (n : nat) (Os : list (arr C)) (table : list (key * arr C)) (prev : option key)
    (Us : list (mat C)) (h : list (mat C * greedy_layer)) : Prop :=
  match Us, h with
  | [], [] => True
  | U :: Us, (V, l) :: h => exists k P,
      gr_prev l = Some k /\ first_largest (slope n Os U) (if avoid then prev else None) table k P /\
      V = fst (rotosolve n (a_ent P) Os U (String.length (fst k))) /\ greedy avoid n Os table (Some k) Us h
  | _, _ => False
  end.

Lemma slope_eq n Os U P : slope n Os U P = Rabs (gradient n (qnode_state U) Os (a_ent P)).
Proof. rewrite gradient_eq. reflexivity. Qed.

Lemma filter_split {A} (f : A -> bool) x : forall l a b, filter f l = a ++ x :: b ->
  exists l1 l2, l = l1 ++ x :: l2 /\ filter f l1 = a /\ filter f l2 = b.
Proof.
  induction l as [|y l IH]; intros a b E; simpl in E; [destruct a; discriminate|]. destruct (f y) eqn:Ey.
  - destruct a as [|z a]; injection E as -> E.
    + exists [], l. auto.
    + destruct (IH a b E) as (l1 & l2 & -> & E1 & E2). exists (z :: l1), l2. simpl. rewrite Ey, E1. auto.
  - destruct (IH a b E) as (l1 & l2 & -> & E1 & E2). exists (y :: l1), l2. simpl. rewrite Ey. auto.
Qed.

Lemma is_prev_spec prev k : negb (is_prev prev k) = true <-> Some k <> prev.
Proof.
  unfold is_prev. destruct prev as [p|]; [|split; [discriminate|auto]]. rewrite negb_true_iff. split.
  - intros H E. injection E as ->. assert (key_eqb p p = true) by (apply key_eqb_spec; auto). congruence.
  - intros H. destruct (key_eqb k p) eqn:E; auto. apply key_eqb_spec in E. subst. congruence.
Qed.

Lemma pick_spec n (table : list (key * arr C)) prev Os U : NoDup (map fst table) ->
  filter (fun kv => negb (is_prev prev (fst kv))) table <> [] ->
  exists k P, greedy_step n table (filter (fun kv => negb (is_prev prev (fst kv))) table) Os U =
      Ok (k, rotosolve n (a_ent P) Os U (String.length (fst k))) /\ first_largest (slope n Os U) prev table k P.
Proof.
  intros Hn Hne. destruct (greedy_step_spec n table _ Os U Hn (incl_filter _ _) Hne) as (l1 & k & P & l2 & E & _ & Es & F1 & F2).
  exists k, P. split; [exact Es|]. split.
  - assert (Hin : In (k, P) (filter (fun kv => negb (is_prev prev (fst kv))) table)) by (rewrite E; apply in_or_app; right; left; auto).
    apply filter_In in Hin. destruct Hin as [_ Hin]. apply is_prev_spec in Hin. exact Hin.
  - destruct (filter_split _ _ _ _ _ E) as (m1 & m2 & Em & E1 & E2). exists m1, m2. split; [exact Em|]. subst l1 l2.
    rewrite Forall_forall in F1, F2. split; apply Forall_forall; intros x Hx Hp; rewrite !slope_eq.
    + apply F1. apply filter_In. split; [auto|]. apply is_prev_spec. exact Hp.
    + apply F2. apply filter_In. split; [auto|]. apply is_prev_spec. exact Hp.
Qed.

(** a table with two different keys keeps an entry after the exclusion *)
Lemma keys_left (table : list (key * arr C)) prev k1 k2 : In k1 (map fst table) -> In k2 (map fst table) -> k1 <> k2 ->
  filter (fun kv => negb (is_prev prev (fst kv))) table <> [].
Proof.
  intros H1 H2 Hn E. assert (H : forall k, In k (map fst table) -> Some k = prev).
  { intros k Hk. apply in_map_iff in Hk. destruct Hk as (x & <- & Hx).
    destruct (negb (is_prev prev (fst x))) eqn:Ex.
    - exfalso. assert (In x []) by (rewrite <- E; apply filter_In; auto). contradiction.
    - destruct prev as [p|]; [|discriminate]. cbn [is_prev] in Ex. apply negb_false_iff in Ex. apply key_eqb_spec in Ex. subst. auto. }
  apply Hn. pose proof (H _ H1). pose proof (H _ H2). congruence.
Qed.

Lemma squared_history n Os table k1 k2 : NoDup (map fst table) -> In k1 (map fst table) -> In k2 (map fst table) -> k1 <> k2 ->
  forall Us prev, exists h, history squared_call (mkgreedy n table Os prev) Us = Ok h /\ greedy true n Os table prev Us h.
Proof.
  intros Hn H1 H2 Hd. induction Us as [|U Us IH]; intros prev; [exists []; simpl; auto|].
  destruct (pick_spec n table prev Os U Hn (keys_left table prev k1 k2 H1 H2 Hd)) as (k & P & E & Hf).
  destruct (IH (Some k)) as (h & Eh & Hh). cbn [history].
  assert (Ec : squared_call (mkgreedy n table Os prev) U = Ok (fst (rotosolve n (a_ent P) Os U (String.length (fst k))), mkgreedy n table Os (Some k))).
  { unfold squared_call. cbn [gr_n gr_table gr_obs gr_prev]. rewrite E. reflexivity. }
  rewrite Ec. cbn [bind fst snd]. rewrite Eh. cbn [bind]. eexists. split; [reflexivity|]. cbn [greedy]. exists k, P. auto.
Qed.

Lemma su8_history n Os table k1 k2 : NoDup (map fst table) -> In k1 (map fst table) -> In k2 (map fst table) -> k1 <> k2 ->
  forall Us prev, exists h, history su8_call (mkgreedy n table Os prev) Us = Ok h /\ greedy false n Os table prev Us h.
Proof.
  intros Hn H1 H2 Hd. induction Us as [|U Us IH]; intros prev; [exists []; simpl; auto|].
  destruct (pick_spec n table None Os U Hn (keys_left table None k1 k2 H1 H2 Hd)) as (k & P & E & Hf).
  assert (Ef : filter (fun kv : key * arr C => negb (is_prev None (fst kv))) table = table).
  { clear. induction table as [|x t IH]; [reflexivity|]. simpl. f_equal. exact IH. }
  rewrite Ef in E.
  destruct (IH (Some k)) as (h & Eh & Hh). cbn [history].
  assert (Ec : su8_call (mkgreedy n table Os prev) U = Ok (fst (rotosolve n (a_ent P) Os U (String.length (fst k))), mkgreedy n table Os (Some k))).
  { unfold su8_call. cbn [gr_n gr_table gr_obs gr_prev]. rewrite E. reflexivity. }
  rewrite Ec. cbn [bind fst snd]. rewrite Eh. cbn [bind]. eexists. split; [reflexivity|]. cbn [greedy]. exists k, P. auto.
Qed.

Lemma obs_embedded n obs : Forall (fits n) obs -> exists Os, mapM (CircuitModel.full n) obs = Ok Os /\ Forall2 (embedded n) obs Os.
Proof.
  intros Hf. destruct (mapM_full n obs) as (Os & E & _); [exact Hf|]. exists Os. split; [exact E|]. apply full_embedded; auto.
Qed.

Theorem C48_squared_greedy : forall n obs eta, Forall (fits n) obs -> (0 <= eta <= 1)%R -> 1 <= n ->
  exists l Os table, SquaredLieAlgebraLayer n obs eta = Ok l /\ Forall2 (embedded n) obs Os /\
    gr_table l = table /\ complete_algebra (K := C) n [1; 2] table /\
    forall Us, exists h, history squared_call l Us = Ok h /\ greedy true n Os table None Us h.
Proof.
  intros n obs eta Hf He Hn. destruct (obs_embedded n obs Hf) as (Os & EO & HO).
  destruct (squared_init n obs Os eta EO He) as (table & El & Ek & Hk).
  assert (Hc : complete_algebra (K := C) n [1; 2] table). { apply complete_intro; auto. repeat constructor; simpl; lia. }
  eexists _, Os, table. split; [exact El|]. split; [exact HO|]. split; [reflexivity|]. split; [exact Hc|]. intros Us.
  destruct Hc as (Hd & Hin & _). apply (squared_history n Os table ("X"%string, [0]) ("Y"%string, [0])); [exact Hd| | |congruence];
    apply Hin; [exists [1]|exists [2]]; repeat split; simpl; auto; repeat constructor; lia.
Qed.
Print Assumptions C48_squared_greedy.

Theorem C48_su8_greedy : forall n obs eta add_su2 add_su4, Forall (fits n) obs -> (0 <= eta <= 1)%R -> 3 <= n ->
  exists l Os table, SU8_AlgebraLayer n obs eta add_su2 add_su4 = Ok l /\ Forall2 (embedded n) obs Os /\
    gr_table l = table /\
    complete_algebra (K := C) n ((if add_su2 then [1] else []) ++ (if add_su4 then [2] else []) ++ [3]) table /\
    forall Us, exists h, history su8_call l Us = Ok h /\ greedy false n Os table None Us h.
Proof.
  intros n obs eta b c Hf He Hn. destruct (obs_embedded n obs Hf) as (Os & EO & HO).
  destruct (su8_init n obs Os eta b c EO He Hn) as (table & El & Ek & Hk).
  assert (Hc : complete_algebra (K := C) n (ks8 b c) table). { apply complete_intro; auto. apply ks8_NoDup. }
  eexists _, Os, table. split; [exact El|]. split; [exact HO|]. split; [reflexivity|]. split; [exact Hc|]. intros Us.
  destruct Hc as (Hd & Hin & _). apply (su8_history n Os table ("XXX"%string, [0; 1; 2]) ("XXY"%string, [0; 1; 2])); [exact Hd| | |congruence];
    apply Hin; [exists [1; 1; 1]|exists [1; 1; 2]]; (split; [reflexivity|]; split; [destruct b, c; simpl; tauto|]); repeat split; simpl; auto; repeat constructor; lia.
Qed.
Print Assumptions C48_su8_greedy.

(** the two layers on three qubits with the observables Y0, Y0, Y0, Z0 *)
Example C48_case : Forall (fits 3) obs4 /\ (0 <= 1 <= 1)%R /\ 3 <= 3.
Proof. split; [repeat constructor; simpl; try discriminate; auto; lia|]. split; [lra|lia]. Qed.

(** ** C49 *)

(** the labels approximate_lie_optimizer records, one before each call, up to
    the first call that raises (true for 'su4') *)
Fixpoint labels (ord : list nat -> list nat) (l : zas_layer) (Us : list (mat C)) : list bool :=
  match Us with
  | [] => []
  | U :: Us => za_state l :: match zas_call ord l U with Ok (_, l') => labels ord l' Us | Err _ => [] end
  end.

(** The label of call t says whether t lies in the first part of its period; and
    the calls of the su4 parts never raise. *)
Theorem C49_zassenhaus_schedule : forall n obs eta add_su2 add_su4 a b,
  Forall (fits n) obs -> (0 <= eta <= 1)%R -> 3 <= n ->
  exists l, ZassenhausLayer n obs eta add_su2 add_su4 (a, b) = Ok l /\
    forall ord Us,
      let A := Z.to_nat (Z.max a 1) in let B := Z.to_nat (Z.max b 1) in
      (forall t s, nth_error (labels ord l Us) t = Some s -> s = (t mod (A + B) <? A)) /\
      (forall t, nth_error (labels ord l Us) t = Some true -> t + 1 < List.length Us -> nth_error (labels ord l Us) (t + 1) <> None) /\
      (Us <> [] -> labels ord l Us <> []).
Proof.
  intros n obs eta b2 b4 a b Hf He Hn. destruct (obs_embedded n obs Hf) as (Os & EO & HO).
  destruct (zas_init n obs Os eta b2 b4 (a, b) EO He Hn) as (t4 & t8 & El & K4 & H4 & K8 & H8). eexists. split; [exact El|].
  intros ord Us A B. assert (HA : 1 <= A) by (unfold A; lia). assert (HB : 1 <= B) by (unfold B; lia).
  assert (Hne : t4 <> []).
  { intros E. rewrite E in K4. destruct n as [|[|[|n]]]; try lia. destruct b2; discriminate. }
  assert (Hd : NoDup (map fst t4)) by (change (NoDup (map (B := key) fst t4)); rewrite K4; apply all_keys_NoDup, ks4_NoDup).
  assert (S4 : forall c cur pe U, exists V cur' pe', zas_call ord (mkzas n eta t4 t8 Os (a, b) (Z.of_nat c) true cur pe) U =
    Ok (V, mkzas n eta t4 t8 Os (a, b) (if A <=? c + 1 then 0%Z else Z.of_nat (c + 1)) (negb (A <=? c + 1)) cur' pe')).
  { intros c cur pe U. unfold zas_call. cbn [za_state za_n za_su4 za_obs za_counter za_ratio za_eta za_su8 fst].
    destruct (greedy_step_spec n t4 t4 Os U Hd (incl_refl _) Hne) as (l1 & k & P & l2 & _ & _ & Es & _). rewrite Es. cbn [bind].
    destruct (rotosolve _ _ _ _ _) as [V e]. eexists _, _, _.
    replace (Z.leb a (Z.of_nat c + 1)) with (A <=? c + 1).
    - replace (Z.of_nat (c + 1)) with (Z.of_nat c + 1)%Z by lia. reflexivity.
    - unfold A. destruct (Nat.leb_spec (Z.to_nat (Z.max a 1)) (c + 1)); destruct (Z.leb_spec a (Z.of_nat c + 1)); auto; lia. }
  assert (S8 : forall c cur pe U V l', zas_call ord (mkzas n eta t4 t8 Os (a, b) (Z.of_nat c) false cur pe) U = Ok (V, l') ->
    exists cur' pe', l' = mkzas n eta t4 t8 Os (a, b) (if B <=? c + 1 then 0%Z else Z.of_nat (c + 1)) (B <=? c + 1) cur' pe').
  { intros c cur pe U V l' E. unfold zas_call in E. cbn [za_state za_n za_su4 za_obs za_counter za_ratio za_eta za_su8 za_current za_prev_eta snd] in E.
    destruct cur as [cur|]; [|discriminate]. destruct pe as [pe|]; [|discriminate].
    destruct (dget key_eqb t4 cur); [|discriminate]. cbn [bind] in E. destruct (foldM _ _ _) as [cs|]; [|discriminate]. cbn [bind] in E.
    destruct (pick_cand _ _) as [[[km Bk]|]|]; [|discriminate|discriminate]. cbn [bind] in E.
    destruct (dget key_eqb t8 km); [|discriminate]. cbn [bind] in E. destruct (dget key_eqb (cd_su8 cs) km); [|discriminate]. cbn [bind] in E.
    destruct (Req_EM_T pe 0); [discriminate|]. destruct (dget key_eqb t4 Bk); [|discriminate]. cbn [bind] in E. injection E as _ <-.
    exists (Some Bk), (Some pe). replace (Z.leb b (Z.of_nat c + 1)) with (B <=? c + 1).
    - replace (Z.of_nat (c + 1)) with (Z.of_nat c + 1)%Z by lia. reflexivity.
    - unfold B. destruct (Nat.leb_spec (Z.to_nat (Z.max b 1)) (c + 1)); destruct (Z.leb_spec b (Z.of_nat c + 1)); auto; lia. }
  assert (M : forall m, m mod (A + B) < A + B) by (intros; apply Nat.mod_upper_bound; lia).
  assert (MS : forall m, (m + 1) mod (A + B) = if m mod (A + B) + 1 =? A + B then 0 else m mod (A + B) + 1).
  { intros m. specialize (M m). rewrite <- Nat.add_mod_idemp_l by lia. destruct (Nat.eqb_spec (m mod (A + B) + 1) (A + B)) as [E|E].
    - rewrite E. apply Nat.mod_same. lia.
    - apply Nat.mod_small. lia. }
  assert (G : forall (Us : list (mat C)) (m : nat) (s : bool) (c : nat) cur pe, (if s then c = m mod (A + B) /\ c < A else A + c = m mod (A + B)) ->
    let L := labels ord (mkzas n eta t4 t8 Os (a, b) (Z.of_nat c) s cur pe) Us in
    (forall t s', nth_error L t = Some s' -> s' = ((m + t) mod (A + B) <? A)) /\
    (forall t, nth_error L t = Some true -> t + 1 < List.length Us -> nth_error L (t + 1) <> None)).
  { clear Us. induction Us as [|U Us IH]; intros m s c cur pe Hc L.
    { subst L. simpl. split; intros [|t]; discriminate. }
    pose proof (M m) as Mm. pose proof (MS m) as Sm.
    assert (Hs : s = (m mod (A + B) <? A)).
    { destruct s; symmetry; [apply Nat.ltb_lt|apply Nat.ltb_ge]; lia. }
    assert (Hnext : forall V l', zas_call ord (mkzas n eta t4 t8 Os (a, b) (Z.of_nat c) s cur pe) U = Ok (V, l') ->
      exists s2 c2 cur2 pe2, l' = mkzas n eta t4 t8 Os (a, b) (Z.of_nat c2) s2 cur2 pe2 /\
        (if s2 then c2 = (m + 1) mod (A + B) /\ c2 < A else A + c2 = (m + 1) mod (A + B))).
    { intros V l' E. rewrite Sm. destruct s.
      - destruct (S4 c cur pe U) as (V' & cur' & pe' & E'). rewrite E' in E. injection E as _ <-.
        destruct (Nat.leb_spec A (c + 1)).
        + exists false, 0, cur', pe'. split; [reflexivity|]. destruct (Nat.eqb_spec (m mod (A + B) + 1) (A + B)); lia.
        + exists true, (c + 1), cur', pe'. split; [reflexivity|]. destruct (Nat.eqb_spec (m mod (A + B) + 1) (A + B)); lia.
      - destruct (S8 c cur pe U V l' E) as (cur' & pe' & ->). destruct (Nat.leb_spec B (c + 1)).
        + exists true, 0, cur', pe'. split; [reflexivity|]. destruct (Nat.eqb_spec (m mod (A + B) + 1) (A + B)); lia.
        + exists false, (c + 1), cur', pe'. split; [reflexivity|]. destruct (Nat.eqb_spec (m mod (A + B) + 1) (A + B)); lia. }
    unfold L. cbn [labels za_state]. destruct (zas_call ord (mkzas n eta t4 t8 Os (a, b) (Z.of_nat c) s cur pe) U) as [[V l']|e] eqn:E.
    - destruct (Hnext V l' eq_refl) as (s2 & c2 & cur2 & pe2 & -> & H2). destruct (IH (m + 1) s2 c2 cur2 pe2 H2) as [I1 I2]. split.
      + intros [|t] s' Ht; cbn [nth_error] in Ht.
        * injection Ht as <-. rewrite Nat.add_0_r. exact Hs.
        * replace (m + S t) with (m + 1 + t) by lia. apply I1. exact Ht.
      + intros [|t] Ht Hl; cbn [nth_error] in *.
        * destruct Us as [|U' Us]; [simpl in Hl; lia|]. simpl. discriminate.
        * apply I2; [exact Ht|simpl in Hl; lia].
    - split.
      + intros [|[|t]] s' Ht; cbn [nth_error] in Ht; try discriminate. injection Ht as <-. rewrite Nat.add_0_r. exact Hs.
      + intros [|[|t]] Ht Hl; cbn [nth_error] in *; try discriminate. injection Ht as Ht. rewrite Ht in E.
        destruct (S4 c cur pe U) as (V' & cur' & pe' & E'). congruence. }
  destruct (G Us 0 true 0 None None) as [G1 G2].
  { rewrite Nat.mod_0_l by lia. lia. }
  split; [exact G1|]. split; [exact G2|]. destruct Us; [congruence|]. intros _. simpl. discriminate.
Qed.
Print Assumptions C49_zassenhaus_schedule.


Lemma labels_length ord Us : forall l, List.length (labels ord l Us) <= List.length Us.
Proof.
  induction Us as [|U Us IH]; intros l; [simpl; lia|]. simpl. destruct (zas_call ord l U) as [[V l']|]; [specialize (IH l')|simpl]; lia.
Qed.

(** ratio (2, 3) on three qubits: the third call is the first su8 call *)
Example C49_case : exists l, ZassenhausLayer 3 obs4 1 false false (2%Z, 3%Z) = Ok l /\
  forall ord, labels ord l [@mid C CStar; @mid C CStar; @mid C CStar] = [true; true; false].
Proof.
  destruct C48_case as (Hf & He & Hn).
  destruct (C49_zassenhaus_schedule 3 obs4 1 false false 2%Z 3%Z Hf He Hn) as (l & El & H). exists l. split; [exact El|]. intros ord.
  destruct (H ord [@mid C CStar; @mid C CStar; @mid C CStar]) as (H1 & H2 & H3).
  assert (Hne := H3 ltac:(discriminate)). assert (Hlen := labels_length ord [@mid C CStar; @mid C CStar; @mid C CStar] l). clear H3 H El.
  destruct (labels ord l _) as [|s0 r0]; [congruence|]. assert (E0 := H1 0 s0 eq_refl). cbn in E0. subst s0.
  assert (N1 := H2 0 eq_refl ltac:(simpl; lia)). destruct r0 as [|s1 r1]; [exfalso; apply N1; reflexivity|].
  assert (E1 := H1 1 s1 eq_refl). cbn in E1. subst s1.
  assert (N2 := H2 1 eq_refl ltac:(simpl; lia)). destruct r1 as [|s2 r2]; [exfalso; apply N2; reflexivity|].
  assert (E2 := H1 2 s2 eq_refl). cbn in E2. subst s2. destruct r2 as [|s3 r3]; [reflexivity|]. simpl in Hlen. lia.
Qed.
