(** A call of ZassenhausLayer that raises the cost: three qubits, the observables
    Y0, Y0, Y0, Z0 and the identity circuit. *)
From Coq Require Import ZArith Arith Lia Bool String Sorted Reals Lra Ring Setoid Morphisms.
From Coquelicot Require Import Coquelicot.
From Verif Require Import Py StarRing Matrix Cplx PauliSpec Bits PauliBasis Expm UtilsModel UtilsProofs CircuitModel CircuitProofs CircuitProofs2
  AlgebraModel AlgebraProofs LayerModel LayerProofs LayerProofs2 GreedyModel RotoProofs RotoProofs2 GreedyProofs.
From Coq Require Import List.
Import ListNotations.
Local Open Scope nat_scope.

Add Ring CrWit : C_ring_theory.

Definition basis (k : nat) : nat -> C := fun i => if Nat.eqb i k then RtoC 1 else RtoC 0.

Lemma lsum_at (f : nat -> C) d k : k < d -> (forall i, i < d -> i <> k -> f i = RtoC 0) -> lsum (SR := CStar) f (seq 0 d) = f k.
Proof.
  intros Hk H. apply (lsum_single (SR := CStar)); [apply seq_NoDup|apply in_seq; lia|]. intros i Hi. apply in_seq in Hi. apply H; lia.
Qed.

Lemma mv_basis d M k i : k < d -> mv d M (basis k) i = M i k.
Proof.
  intros Hk. unfold mv. rewrite (lsum_at _ d k Hk).
  - unfold basis. rewrite Nat.eqb_refl. cbn. ring.
  - intros j Hj Hn. unfold basis. destruct (Nat.eqb_spec j k); [congruence|]. ring.
Qed.

Lemma ip_basis d k y : k < d -> ip d (basis k) y = y k.
Proof.
  intros Hk. unfold ip. rewrite (lsum_at _ d k Hk).
  - unfold basis. rewrite Nat.eqb_refl. destruct (y k) as [p q]; apply C_ext; simpl; ring.
  - intros j Hj Hn. unfold basis. destruct (Nat.eqb_spec j k); [congruence|]. destruct (y j) as [p q]; apply C_ext; simpl; ring.
Qed.

Lemma state_mid : veq 8 (qnode_state (mid (K := C))) (basis 0).
Proof. intros i _. reflexivity. Qed.

Definition obs4 : list (qop C) := [mkqop lit_Y [0]; mkqop lit_Y [0]; mkqop lit_Y [0]; mkqop lit_Z [0]].

Definition y0 : mat C := qmat 3 (mkqop lit_Y [0]).
Definition z0 : mat C := qmat 3 (mkqop lit_Z [0]).

Lemma y0_col i : i < 8 -> y0 i 0 = if Nat.eqb i 4 then Ci else RtoC 0.
Proof. intros Hi. do 8 (destruct i as [|i]; [reflexivity|]). lia. Qed.
Lemma y0_row i : i < 8 -> y0 0 i = if Nat.eqb i 4 then Copp Ci else RtoC 0.
Proof. intros Hi. do 8 (destruct i as [|i]; [reflexivity|]). lia. Qed.
Lemma z0_col i : i < 8 -> z0 i 0 = if Nat.eqb i 0 then RtoC 1 else RtoC 0.
Proof. intros Hi. do 8 (destruct i as [|i]; [reflexivity|]). lia. Qed.
Lemma z0_row i : i < 8 -> z0 0 i = if Nat.eqb i 0 then RtoC 1 else RtoC 0.
Proof. intros Hi. do 8 (destruct i as [|i]; [reflexivity|]). lia. Qed.

Lemma omega_basis P O : omega 8 (qnode_state mid) P O =
  Cminus (lsum (SR := CStar) (fun j => Cmult (P 0 j) (O j 0)) (seq 0 8)) (lsum (SR := CStar) (fun j => Cmult (O 0 j) (P j 0)) (seq 0 8)).
Proof.
  unfold omega. rewrite quad_ip. rewrite (ip_ext 8 _ (basis 0) _ (fun i => msub (mmul 8 P O) (mmul 8 O P) i 0) state_mid).
  - rewrite ip_basis by lia. reflexivity.
  - intros i Hi. rewrite (mv_ext 8 _ _ _ (basis 0) (fun _ _ _ _ => eq_refl) state_mid i Hi). apply mv_basis. lia.
Qed.

Lemma omega_y0 P : Im (omega 8 (qnode_state mid) P y0) = (Re (P 0%nat 4%nat) + Re (P 4%nat 0%nat))%R.
Proof.
  rewrite omega_basis. rewrite (lsum_at _ 8 4), (lsum_at _ 8 4) by first [lia | intros i Hi Hn; rewrite ?y0_col, ?y0_row by auto; destruct (Nat.eqb_spec i 4); [congruence|ring]].
  rewrite y0_col, y0_row by lia. cbn [Nat.eqb]. destruct (P 0 4) as [a b], (P 4 0) as [c e]. simpl. ring.
Qed.

Lemma omega_z0 P : Im (omega 8 (qnode_state mid) P z0) = 0%R.
Proof.
  rewrite omega_basis. rewrite (lsum_at _ 8 0), (lsum_at _ 8 0) by first [lia | intros i Hi Hn; rewrite ?z0_col, ?z0_row by auto; destruct (Nat.eqb_spec i 0); [congruence|ring]].
  rewrite !z0_col by lia. cbn [Nat.eqb]. destruct (P 0 0) as [a b]. simpl. ring.
Qed.

Definition obs4_full (Os : list (arr C)) : Prop := exists a b c e, Os = [a; b; c; e] /\
  meq 8 (a_ent a) y0 /\ meq 8 (a_ent b) y0 /\ meq 8 (a_ent c) y0 /\ meq 8 (a_ent e) z0.

Lemma obs4_ok : exists Os, mapM (full 3) obs4 = Ok Os /\ obs4_full Os.
Proof.
  destruct (mapM_full 3 obs4) as (Os & E & H).
  { repeat constructor; simpl; try discriminate; auto; lia. }
  exists Os. split; [exact E|]. inversion H as [|a oa l1 l1' Ha H1]; subst. inversion H1 as [|b ob l2 l2' Hb H2]; subst.
  inversion H2 as [|c oc l3 l3' Hc H3]; subst. inversion H3 as [|e oe l4 l4' He H4]; subst. inversion H4; subst.
  exists a, b, c, e. auto.
Qed.

Lemma gradient_obs4 Os P Q : obs4_full Os -> meq 8 P Q -> gradient 3 (qnode_state mid) Os P = (3 * (Re (Q 0%nat 4%nat) + Re (Q 4%nat 0%nat)))%R.
Proof.
  intros (a & b & c & e & -> & Ha & Hb & Hc & He) HP. unfold gradient. cbn [fold_left]. change (2 ^ 3) with 8.
  rewrite (omega_ext 8 _ _ _ _ _ HP Ha), (omega_ext 8 _ _ _ _ _ HP Hb), (omega_ext 8 _ _ _ _ _ HP Hc), (omega_ext 8 _ _ _ _ _ HP He).
  rewrite omega_y0, omega_z0. ring.
Qed.

(** the gradient of a word of three letters *)
Definition diag (g : nat) : bool := Nat.eqb g 0 || Nat.eqb g 3.
Definition gval (v : list nat) : R :=
  match v with [a; b; c] => if Nat.eqb a 1 && diag b && diag c then 6%R else 0%R | _ => 0%R end.

Lemma gradient_word Os P v : obs4_full Os -> List.length v = 3 -> Forall (fun g => g <= 3) v -> meq 8 P (pword v) ->
  gradient 3 (qnode_state mid) Os P = gval v.
Proof.
  intros HO Hl Hv HP. rewrite (gradient_obs4 Os P (pword v) HO HP).
  destruct v as [|a [|b [|c [|? ?]]]]; try discriminate. inversion Hv as [|? ? Ha H1]; subst. inversion H1 as [|? ? Hb H2]; subst.
  inversion H2 as [|? ? Hc H3]; subst. unfold gval.
  rewrite !(pword_entry (K := C) (SR := CStar) 3) by (simpl; lia).
  change (bits 3 0) with [0; 0; 0]. change (bits 3 4) with [1; 0; 0].
  unfold kprod. cbn [seq fold_right nth].
  destruct a as [|[|[|[|a]]]]; [| | | |lia]; (destruct b as [|[|[|[|b]]]]; [| | | |lia]); (destruct c as [|[|[|[|c]]]]; [| | | |lia]);
    cbn; ring.
Qed.

Lemma gval_bound v : (0 <= gval v <= 6)%R.
Proof. unfold gval. destruct v as [|a [|b [|c [|? ?]]]]; try lra. destruct (_ && _ && _); lra. Qed.

(** ** The choice of the first call *)
Lemma key_word n d q F w v : key_ok (K := C) n ((d, q), F) -> d = word_name w -> Forall (fun g => 1 <= g <= 3) w ->
  place n q w = v -> meq (2 ^ n) (a_ent F) (pword v).
Proof.
  intros (u & Eu & Hu & Hq & _ & _ & _ & M) Ew Hw <-. cbn [fst snd] in *. rewrite M.
  assert (E : w = up u).
  { apply word_name_inj; [eapply Forall_impl; [|exact Hw]; simpl; intros; lia| |rewrite <- Ew; exact Eu].
    apply Forall_forall. intros g Hg. apply in_map_iff in Hg. destruct Hg as (x & <- & Hx).
    rewrite Forall_forall in Hu. specialize (Hu x Hx). lia. }
  rewrite E. apply emb_pword; [eapply qtuple_wires; eauto|]. rewrite up_length. symmetry. apply Hq.
Qed.

Lemma key_gradient Os d q F : obs4_full Os -> key_ok (K := C) 3 ((d, q), F) ->
  exists v, gradient 3 (qnode_state mid) Os (a_ent F) = gval v.
Proof.
  intros HO HK. pose proof HK as (u & Eu & Hu & Hq & _). cbn [fst snd] in *. exists (place 3 q (up u)).
  assert (Hup : Forall (fun g => 1 <= g <= 3) (up u)).
  { apply Forall_forall. intros g Hg. apply in_map_iff in Hg. destruct Hg as (x & <- & Hx). rewrite Forall_forall in Hu. specialize (Hu x Hx). lia. }
  apply gradient_word; [auto|apply place_length| |].
  - eapply Forall_impl; [|apply (place_letters 3 q (up u) 4); [|lia]]; simpl; [intros; lia|].
    eapply Forall_impl; [|exact Hup]. simpl. intros; lia.
  - apply (key_word 3 d q F (up u)); auto.
Qed.

Lemma first_choice Os (t4 : list (key * arr C)) U : obs4_full Os -> map fst t4 = all_keys 3 [2] -> Forall (key_ok (K := C) 3) t4 -> U = mid ->
  exists P, meq 8 (a_ent P) (pword [1; 3; 0]) /\
    greedy_step 3 t4 t4 Os U = Ok (("XZ"%string, [0; 1]), rotosolve 3 (a_ent P) Os U 2).
Proof.
  intros HO Hk Hok ->.
  change (all_keys 3 [2]) with ([("XX"%string, [0; 1]); ("XX"%string, [0; 2]); ("XX"%string, [1; 2]);
    ("XY"%string, [0; 1]); ("XY"%string, [0; 2]); ("XY"%string, [1; 2])] ++ ("XZ"%string, [0; 1]) :: skipn 7 (all_keys 3 [2])) in Hk.
  apply map_eq_app in Hk. destruct Hk as (l1 & l2 & -> & E1 & E2). apply map_eq_cons in E2.
  destruct E2 as ([k P] & l3 & -> & E2 & E3). cbn [fst] in E2. subst k. clear E3.
  apply Forall_app in Hok. destruct Hok as [K1 K2]. inversion K2 as [|? ? KP K3]; subst. clear K2.
  rewrite Forall_forall in K1, K3.
  assert (HP : meq 8 (a_ent P) (pword [1; 3; 0])).
  { apply (key_word 3 "XZ" [0; 1] P [1; 3]); [exact KP|reflexivity|repeat constructor|reflexivity]. }
  assert (GP : gradient 3 (qnode_state mid) Os (a_ent P) = 6%R).
  { rewrite (gradient_word Os _ [1; 3; 0] HO); [reflexivity|reflexivity|repeat constructor|exact HP]. }
  assert (G1 : forall x : key * arr C, In x l1 -> gradient 3 (qnode_state mid) Os (a_ent (snd x)) = 0%R).
  { intros [[d q] F] Hin. specialize (K1 _ Hin). 
    pose proof (eq_ind _ (fun l => In (d, q) l) (in_map fst _ _ Hin) _ E1) as Hi. clear Hin. rename Hi into Hin. cbn [fst snd] in *. simpl in Hin.
    repeat match type of Hin with _ \/ _ => destruct Hin as [Hin|Hin] end; try contradiction; injection Hin as <- <-;
    match type of K1 with key_ok _ ((?d, ?q), _) =>
      let w := match d with "XX"%string => constr:([1; 1]) | "XY"%string => constr:([1; 2]) end in
      let v := eval vm_compute in (place 3 q w) in
      rewrite (gradient_word Os _ v HO);
        [reflexivity|reflexivity|repeat constructor|apply (key_word 3 d q F w); [exact K1|reflexivity|repeat constructor|reflexivity]]
    end. }
  assert (G3 : forall x : key * arr C, In x l3 -> (Rabs (gradient 3 (qnode_state mid) Os (a_ent (snd x))) <= 6)%R).
  { intros [[d q] F] Hin. specialize (K3 _ Hin). destruct (key_gradient Os d q F HO K3) as (v & E). cbn [snd]. rewrite E.
    pose proof (gval_bound v). rewrite Rabs_right; lra. }
  exists P. split; [exact HP|]. unfold greedy_step.
  match goal with |- context [py_max_key ?g] => assert (Em : py_max_key g = Ok (("XZ"%string, [0; 1]) : key)) end.
  { set (f := fun kv : key * arr C => (fst kv, Rabs (gradient 3 (qnode_state mid) Os (a_ent (snd kv))))).
    unfold abs_gradients. fold f. rewrite map_app. cbn [map].
    apply (py_max_key_unique (A := key) (map f l1) (map f l3)).
    - rewrite Forall_map. apply Forall_forall. intros x Hx. unfold f. cbn [snd]. rewrite (G1 x Hx), GP, Rabs_R0, Rabs_right; lra.
    - rewrite Forall_map. apply Forall_forall. intros x Hx. unfold f. cbn [snd]. specialize (G3 x Hx). rewrite GP, (Rabs_right 6); lra. }
  rewrite Em. cbn [bind].
  match goal with |- context [dget key_eqb ?g ?k] => assert (Ed : dget key_eqb g k = Ok P) end.
  { clear - E1. assert (Hn : ~ In ("XZ"%string, [0; 1]) (map fst l1)).
    { intros H. apply (fun h => eq_ind _ (fun l => In ("XZ"%string, [0; 1]) l) h _ E1) in H. simpl in H. repeat (destruct H as [H|H]; [discriminate|]). exact H. }
    clear E1. induction l1 as [|[k F] l1 IH]; [reflexivity|]. cbn [app dget]. destruct (key_eqb k ("XZ"%string, [0; 1])) eqn:Ek.
    - apply key_eqb_spec in Ek. subst k. exfalso. apply Hn. left. reflexivity.
    - apply IH. intros H. apply Hn. right. exact H. }
  rewrite Ed. reflexivity.
Qed.

(** ** The cost of the step *)
Lemma curve_coefficients Os P : obs4_full Os -> meq 8 P (pword [1; 3; 0]) -> ro_q 3 Os P mid = 1%R /\ ro_r 3 Os P mid = (-3)%R.
Proof.
  intros (a & b & c & e & -> & Ha & Hb & Hc & He) HP.
  assert (Ex : veq 8 (qnode_state (mid (K := C))) (basis 0)) by exact state_mid.
  assert (Ey : veq 8 (mv 8 P (qnode_state mid)) (basis 4)).
  { intros i Hi. rewrite (mv_ext 8 _ _ _ (basis 0) (fun _ _ _ _ => eq_refl) Ex i Hi), mv_basis by lia. rewrite (HP i 0 Hi) by lia.
    rewrite (pword_entry (K := C) (SR := CStar) 3) by (simpl; lia).
    do 8 (destruct i as [|i]; [cbn; apply C_ext; simpl; ring|]). lia. }
  assert (EA : forall M, roto_A 8 (qnode_state mid) M = Re (M 0 0)).
  { intros M. unfold roto_A. rewrite (ip_ext 8 _ (basis 0) _ (fun i => M i 0) Ex); [rewrite ip_basis by lia; reflexivity|].
    intros i Hi. rewrite (mv_ext 8 _ _ _ (basis 0) (fun _ _ _ _ => eq_refl) Ex i Hi). apply mv_basis. lia. }
  assert (EB : forall M, roto_B 8 (qnode_state mid) P M = Re (M 4 4)).
  { intros M. unfold roto_B. rewrite (ip_ext 8 _ (basis 4) _ (fun i => M i 4) Ey); [rewrite ip_basis by lia; reflexivity|].
    intros i Hi. rewrite (mv_ext 8 _ _ _ (basis 4) (fun _ _ _ _ => eq_refl) Ey i Hi). apply mv_basis. lia. }
  assert (ED : forall M, roto_D 8 (qnode_state mid) P M = Re (Cminus (Cmult Ci (M 4 0)) (Cmult Ci (M 0 4)))).
  { intros M. unfold roto_D. rewrite (ip_ext 8 _ (basis 4) _ (fun i => M i 0) Ey).
    2: { intros i Hi. rewrite (mv_ext 8 _ _ _ (basis 0) (fun _ _ _ _ => eq_refl) Ex i Hi). apply mv_basis. lia. }
    rewrite (ip_ext 8 (qnode_state mid) (basis 0) _ (fun i => M i 4) Ex).
    2: { intros i Hi. rewrite (mv_ext 8 _ _ _ (basis 4) (fun _ _ _ _ => eq_refl) Ey i Hi). apply mv_basis. lia. }
    rewrite !ip_basis by lia. reflexivity. }
  unfold ro_q, ro_r. change (2 ^ 3) with 8. cbn [rsum]. rewrite !EA, !EB, !ED.
  rewrite (Ha 0 0), (Hb 0 0), (Hc 0 0), (He 0 0), (Ha 4 4), (Hb 4 4), (Hc 4 4), (He 4 4), (Ha 4 0), (Hb 4 0), (Hc 4 0), (He 4 0),
    (Ha 0 4), (Hb 0 4), (Hc 0 4), (He 0 4) by lia.
  rewrite !y0_col, !y0_row, !z0_col, !z0_row by lia.
  change (y0 4 4) with (RtoC 0). change (z0 4 4) with (Copp (RtoC 1)). cbn [Nat.eqb]. split; simpl; field.
Qed.

Lemma cost_rises Os P : obs4_full Os -> meq 8 P (pword [1; 3; 0]) ->
  (total_cost 3 Os mid < total_cost 3 Os (fst (rotosolve 3 P Os mid 2)))%R.
Proof.
  intros HO HP. destruct (curve_coefficients Os P HO HP) as [Eq Er].
  assert (Hsq : meq (2 ^ 3) (mmul (2 ^ 3) P P) mid).
  { change (2 ^ 3) with 8. rewrite HP. apply (pword_sq (K := C) [1; 3; 0]). repeat constructor. }
  rewrite roto_cost, (cost_start 3 Os P mid Hsq), roto_eta by auto. rewrite Eq, Er. clear.
  assert (Hp := PI_RGT_0). replace (2 ^ 2)%R with 4%R by ring.
  assert (E4 : cos (PI / 4) = (1 / sqrt 2)%R) by apply cos_PI4. assert (S4 : sin (PI / 4) = (1 / sqrt 2)%R) by apply sin_PI4.
  assert (H2 : (1 < sqrt 2)%R). { rewrite <- sqrt_1 at 1. apply sqrt_lt_1; lra. }
  assert (H22 : (sqrt 2 * sqrt 2 = 2)%R) by (apply sqrt_sqrt; lra).
  assert (Hi : (1 / sqrt 2 = sqrt 2 / 2)%R). { apply (Rmult_eq_reg_l (sqrt 2)); [|lra]. field_simplify; [|lra]. replace (sqrt 2 ^ 2)%R with (sqrt 2 * sqrt 2)%R by ring. lra. }
  set (s := (sqrt 2 / 2)%R) in *. assert (Hs1 : (/ 2 < s < 1)%R). { unfold s. split; [lra|]. assert (sqrt 2 < 2)%R by nra. lra. }
  rewrite E4, S4, Hi. set (y := (2 * 1 * (1 - s))%R). set (x := (2 * -3 * s)%R).
  assert (Hy : (0 < y)%R) by (unfold y; lra). assert (Hx : (x < 0)%R) by (unfold x; lra).
  assert (Hyx : (-1 < y / x < 0)%R).
  { split.
    - replace (y / x)%R with (- (y / - x))%R by (field; lra). assert (y / - x < 1)%R; [|lra]. apply Rlt_div_l; unfold x, y; lra.
    - replace (y / x)%R with (- (y / - x))%R by (field; lra). apply Ropp_lt_cancel. rewrite Ropp_involutive, Ropp_0. apply Rdiv_lt_0_compat; lra. }
  assert (Ha : (- (PI / 4) < atan (y / x) < 0)%R).
  { split; [rewrite <- atan_1, <- atan_opp; apply atan_increasing; lra|rewrite <- atan_0; apply atan_increasing; lra]. }
  unfold np_arctan2. destruct (Rlt_dec 0 x); [lra|]. destruct (Rlt_dec x 0); [|lra]. destruct (Rlt_dec y 0); [lra|].
  set (u := atan (y / x)) in *.
  replace (2 * ((- PI / 2 - (u + PI)) / 4))%R with (- (PI / 4 + (u + PI) / 2))%R by field.
  rewrite cos_neg, sin_neg. set (f := (PI / 4 + (u + PI) / 2)%R).
  assert (Hf : (PI / 2 < f < 3 * (PI / 4))%R) by (unfold f; lra).
  assert (Hc : (- s < cos f)%R).
  { replace (- s)%R with (cos (3 * (PI / 4))). - apply cos_decreasing_1; lra.
    - replace (3 * (PI / 4))%R with (PI - PI / 4)%R by field. rewrite Rtrigo_facts.cos_pi_minus, E4, Hi. reflexivity. }
  assert (Hsn : (s < sin f)%R).
  { replace s with (sin (3 * (PI / 4))). - apply sin_decreasing_1; lra.
    - replace (3 * (PI / 4))%R with (PI - PI / 4)%R by field. rewrite Rtrigo_facts.sin_pi_minus, S4, Hi. reflexivity. }
  assert (Hs2 : (2 * s = sqrt 2)%R) by (unfold s; lra). lra.
Qed.
