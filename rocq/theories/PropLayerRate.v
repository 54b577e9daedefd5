(** Property C92: how fast the Lie algebra layers lower the cost. *)
From Coq Require Import ZArith Arith Lia Bool String Sorted Reals Lra Ring Setoid Morphisms Classical.
From Coquelicot Require Import Coquelicot.
From Verif Require Import Py StarRing Matrix Cplx PauliSpec Bits PauliBasis Expm MDeriv UtilsModel CircuitModel CircuitProofs CircuitProofs2 AlgebraModel AlgebraProofs
  LayerModel LayerProofs LayerProofs2 OptimizerModel OptProofs FlowModel FlowProofs FlowProofs2 FlowMany FlowRate LayerRate ApproxModel ApproxProofs
  PropLayers PropGreedy PropOptArgs PropOptRun PropFlow PropApprox PropFlowRate PropLayerState PropOptions PropShiftRun.
From Coq Require Import List.
Import ListNotations.
Local Open Scope nat_scope.
Local Open Scope list_scope.

(** ** Specification *)

(** the layers made for the observables obs, with learning rate eta; [asked] are
    their directions: the names and the qubits *)
Inductive rate_layer (n : nat) (obs : list (qop C)) (eta : R) : layer_obj -> (string -> list nat -> Prop) -> Prop :=
| rate_local locality eta0 stride ds check trot l : good_args n locality eta0 stride ds -> trot = true \/ ds <> Some [] ->
    LocalLieAlgebraLayer n obs locality eta0 stride ds check trot = Ok l ->
    rate_layer n obs eta (OLocal (local_set_eta l eta))
      (fun d q => match ds with Some names => In d names | None => In d (if locality =? 1 then su2_list else su4_list) end /\ qubit_tuple n locality q)
| rate_custom ds eta0 check trot l : (0 <= eta0 <= 1)%R -> incl ds (su2_list ++ su4_list) -> trot = true \/ (exists d, In d ds /\ String.length d <= n) ->
    CustomDirectionLieAlgebraLayer n obs (Some ds) eta0 check trot = Ok l ->
    rate_layer n obs eta (OCustom (custom_set_eta l eta)) (fun d q => In d ds /\ qubit_tuple n (String.length d) q).

(** Ps are the operators of the directions, each once *)
Definition direction_set (n : nat) (asked : string -> list nat -> Prop) (Ps : list (arr C)) : Prop :=
  exists ks : list (string * list nat), NoDup ks /\ (forall d q, In (d, q) ks <-> asked d q) /\ Forall2 (fun k P => word_operator n (fst k) (snd k) P) ks Ps.

(** the component of the gradient of the expectation value of H along P *)
Definition direction (n : nat) (U P H : mat C) : R := Im (quad (2 ^ n) (fun i => U i 0) (msub (mmul (2 ^ n) P H) (mmul (2 ^ n) H P))).

(** ** Proofs *)
Lemma flow_veq d K x y t : veq d x y -> veq d (flow d K x t) (flow d K y t).
Proof. intros H. apply mv_veq. exact H. Qed.
Lemma flows_veq d t l : forall x y, veq d x y -> veq d (flows d t l x) (flows d t l y).
Proof. induction l as [|K l IH]; intros x y H; [exact H|]. apply (IH (flow d K x t) (flow d K y t)). apply flow_veq. exact H. Qed.

Lemma gens_flows d t l : (0 < d) -> forall U, veq d (qnode_state (apply_gens d (RtoC (- t)) l U)) (flows d t (map (mscale (SR := CStar) (RtoC (-1))) l) (qnode_state U)).
Proof.
  intros Hd. induction l as [|A l IH]; intros U; [apply veq_refl|]. rewrite apply_gens_cons. cbn [map]. eapply veq_trans; [apply IH|]. apply (flows_veq d t (map _ l)).
  intros i Hi. rewrite state_mmul. unfold flow. apply mv_ext; [|apply veq_refl|exact Hi]. apply expm_proper. intros a b _ _. unfold mscale. cbn [kmul CStar]. apply C_ext; simpl; ring.
Qed.

Lemma bounded_scale d c P : bounded d 1 P -> bounded d (Cmod c) (mscale (SR := CStar) c P).
Proof.
  intros HP x. pose proof (HP x) as H. rewrite Rmult_1_l in H.
  assert (E : nrm d (mv d (mscale (SR := CStar) c P) x) = (Cmod c * nrm d (mv d P x))%R).
  { assert (Q : rip d (mv d (mscale (SR := CStar) c P) x) (mv d (mscale (SR := CStar) c P) x) = (Cmod c * Cmod c * rip d (mv d P x) (mv d P x))%R).
    { unfold rip. rewrite (ip_ext d _ (fun i => Cmult c (mv d P x i)) _ (fun i => Cmult c (mv d P x i))) by (intros i _; apply mv_scale_mat).
      rewrite ip_scale_l, ip_scale_r. assert (K : Im (ip d (mv d P x) (mv d P x)) = 0%R).
      { pose proof (ip_conj d (mv d P x) (mv d P x)) as Q. apply (f_equal Im) in Q. destruct (ip d _ _). simpl in *. lra. }
      assert (Cm : (Cmod c * Cmod c = Re c * Re c + Im c * Im c)%R). { unfold Cmod. rewrite sqrt_sqrt by (destruct c; simpl; nra). destruct c; simpl; ring. }
      rewrite Cm. destruct (ip d (mv d P x) (mv d P x)), c. simpl in *. subst. ring. }
    unfold nrm. rewrite Q, sqrt_mult by (try apply rip_pos; apply Rmult_le_pos; apply Cmod_ge_0). rewrite sqrt_square by apply Cmod_ge_0. reflexivity. }
  rewrite E. apply Rmult_le_compat_l; [apply Cmod_ge_0|exact H].
Qed.
Lemma bounded_neg d k K : bounded d k K -> bounded d k (mscale (SR := CStar) (RtoC (-1)) K).
Proof.
  intros H x. rewrite (nrm_ext d _ (vlin (-1) (mv d K x) 0 (mv d K x))).
  - eapply Rle_trans; [apply nrm_lin|]. rewrite Rabs_R0, Rabs_left by lra. specialize (H x). pose proof (nrm_pos d (mv d K x)). lra.
  - intros i _. rewrite mv_scale_mat. unfold vlin. destruct (mv d K x i). apply C_ext; simpl; ring.
Qed.
Lemma bounded_msum d {X} (f : X -> mat C) (k : X -> R) l : (forall a, In a l -> bounded d (k a) (f a)) -> bounded d (rsum k l) (msum f l).
Proof.
  induction l as [|a l IH]; intros H x.
  - cbn [rsum]. rewrite Rmult_0_l. apply nrm_le; [lra|]. rewrite Rmult_0_l. right. unfold rip.
    assert (Z : veq d (mv d (msum f []) x) (fun _ => Cmult (RtoC 0) (RtoC 0))). { intros i _. unfold mv, msum. rewrite (lsum_zero (SR := CStar)); [cbn [k0 CStar]; ring|]. intros; rewrite lsum_nil; cbn [kmul k0 CStar]; ring. }
    rewrite (ip_ext d _ _ _ _ Z Z), ip_scale_r. destruct (ip _ _ _). simpl. ring.
  - rewrite (nrm_ext d _ (vlin 1 (mv d (f a) x) 1 (mv d (msum f l) x))).
    + eapply Rle_trans; [apply nrm_lin|]. rewrite Rabs_R1. cbn [rsum]. pose proof (H a (or_introl eq_refl) x). pose proof (IH (fun b Hb => H b (or_intror Hb)) x). lra.
    + intros i Hi. assert (E : meq d (msum f (a :: l)) (madd (f a) (msum f l))) by (intros p q _ _; unfold msum, madd; rewrite lsum_cons; reflexivity).
      rewrite (mv_ext d _ _ x x E (veq_refl d x) i Hi). unfold vlin, mv, madd. cbn [kadd CStar]. rewrite (lsum_ext (SR := CStar) _ (fun j => kadd (Cmult (f a i j) (x j)) (Cmult (msum f l i j) (x j)))) by (intros; cbn [kadd CStar]; ring).
      rewrite lsum_add. cbn [kadd CStar]. match goal with |- ?p = _ => destruct p as [] eqn:? end. match goal with |- context [Cplus (Cmult (RtoC 1) ?u) (Cmult (RtoC 1) ?v)] => replace (Cplus (Cmult (RtoC 1) u) (Cmult (RtoC 1) v)) with (Cplus u v) by ring end. symmetry. assumption.
Qed.

Lemma Cmod_imag z : Re z = 0%R -> Cmod z = Rabs (Im z).
Proof. destruct z as [a b]. simpl. intros ->. unfold Cmod. simpl. replace (0 * (0 * 1) + b * (b * 1))%R with (Rsqr b) by (unfold Rsqr; ring). apply sqrt_Rsqr_abs. Qed.

(** the sizes of the generators *)
Definition kbound (d : nat) (phi : nat -> C) (O : arr C) (P : arr C) : R := Cmod (omega d phi (a_ent P) (a_ent O)).
Lemma kbound_pos d phi O P : (0 <= kbound d phi O P)%R. Proof. apply Cmod_ge_0. Qed.

Lemma gens_bounds d trot phi O g : hermitian d (a_ent O) -> Forall (fun P => hermitian d (a_ent P) /\ bounded d 1 (a_ent P)) g ->
  exists ks, Forall2 (fun A k => anti d A /\ bounded d k A /\ (0 <= k)%R) (gens d trot phi (a_ent O) g) ks /\ rsum (fun k => k) ks = rsum (kbound d phi O) g.
Proof.
  intros HO Hg. rewrite Forall_forall in Hg. unfold gens. destruct trot.
  - exists (map (kbound d phi O) g). split; [|rewrite rsum_map; reflexivity]. induction g as [|P g IH]; cbn [map]; constructor.
    + destruct (Hg P (or_introl eq_refl)) as [H1 H2]. split; [apply gen_anti; assumption|]. split; [apply bounded_scale; exact H2|apply kbound_pos].
    + apply IH. intros Q HQ. apply Hg. right. exact HQ.
  - exists [rsum (kbound d phi O) g]. split; [|cbn [rsum]; ring]. constructor; [|constructor]. split; [apply msum_anti; intros P HP; apply gen_anti; [exact HO|apply Hg; exact HP]|]. split.
    + apply bounded_msum. intros P HP. apply bounded_scale. apply Hg. exact HP.
    + apply rsum_nonneg. intros. apply kbound_pos.
Qed.
Lemma F2_app {A B} (R : A -> B -> Prop) a b a' b' : Forall2 R a b -> Forall2 R a' b' -> Forall2 R (a ++ a') (b ++ b').
Proof. induction 1; cbn; [auto|]. constructor; auto. Qed.
Lemma all_gens_bounds d trot phi obs groups : Forall (fun O => hermitian d (a_ent O)) obs -> Forall (Forall (fun P => hermitian d (a_ent P) /\ bounded d 1 (a_ent P))) groups ->
  exists ks, Forall2 (fun A k => anti d A /\ bounded d k A /\ (0 <= k)%R) (all_gens d trot phi obs groups) ks /\
    rsum (fun k => k) ks = rsum (fun O => rsum (kbound d phi O) (List.concat groups)) obs.
Proof.
  intros HO Hg. induction HO as [|O obs HO Hobs IH]; [exists []; split; [constructor|reflexivity]|]. destruct IH as (ks & H1 & H2).
  assert (Q : exists ks, Forall2 (fun A k => anti d A /\ bounded d k A /\ (0 <= k)%R) (flat_map (gens d trot phi (a_ent O)) groups) ks /\ rsum (fun k => k) ks = rsum (kbound d phi O) (List.concat groups)).
  { clear - HO Hg. induction Hg as [|g groups Hg Hgs IH]; [exists []; split; [constructor|reflexivity]|]. destruct IH as (ks & H1 & H2). destruct (gens_bounds d trot phi O g HO Hg) as (ks' & H1' & H2').
    exists (ks' ++ ks). cbn [flat_map List.concat]. split; [apply F2_app; assumption|]. rewrite !rsum_app. congruence. }
  destruct Q as (ks' & H1' & H2'). exists (ks' ++ ks). unfold all_gens. cbn [flat_map rsum]. split; [apply F2_app; assumption|]. rewrite rsum_app. congruence.
Qed.

Lemma F2_map_l {A B D} (R : B -> D -> Prop) (f : A -> B) l ks : Forall2 (fun a k => R (f a) k) l ks -> Forall2 R (map f l) ks.
Proof. induction 1; cbn; constructor; auto. Qed.
Lemma F2_impl {A B} (R R' : A -> B -> Prop) l ks : (forall a b, R a b -> R' a b) -> Forall2 R l ks -> Forall2 R' l ks.
Proof. intros H. induction 1; constructor; auto. Qed.

(** twice the speed is minus the commutator *)
Lemma speed_omega d A H x : anti d A -> hermitian d H -> (2 * rip d (mv d A x) (mv d H x) = - Re (omega d x A H))%R.
Proof.
  intros HA Hh. unfold omega. rewrite quad_ip.
  rewrite (ip_ext d x x (mv d (msub (mmul d A H) (mmul d H A)) x) (fun i => Cminus (mv d A (mv d H x) i) (mv d H (mv d A x) i)) (veq_refl _ _)) by (intros i _; rewrite mv_sub, !mv_mul; reflexivity).
  rewrite ip_sub_r. assert (E1 : rip d x (mv d A (mv d H x)) = (- rip d (mv d A x) (mv d H x))%R) by (rewrite (rip_anti d A x (mv d H x) HA); ring).
  assert (E2 : rip d x (mv d H (mv d A x)) = rip d (mv d A x) (mv d H x)) by (rewrite <- (rip_mv d H x (mv d A x) Hh); apply rip_sym).
  unfold rip in *. destruct (ip d x (mv d A (mv d H x))), (ip d x (mv d H (mv d A x))). simpl in *. rewrite E1, E2. ring.
Qed.

(** the first-order change made by all generators *)
Lemma total_speed d trot x obs groups : Forall (fun O => hermitian d (a_ent O)) obs -> Forall (Forall (fun P => hermitian d (a_ent P))) groups ->
  let H := msum a_ent obs in
  (2 * rsum (fun A => rip d (mv d A x) (mv d H x)) (all_gens d trot x obs groups) = rsum (fun P => Im (omega d x (a_ent P) H) ^ 2) (List.concat groups))%R.
Proof.
  intros HO Hg H. assert (HH : hermitian d H). { apply msum_hermitian. rewrite Forall_forall in HO. auto. }
  pose proof (all_gens_anti d trot x obs groups HO Hg) as Ha. rewrite Forall_forall in Ha.
  rewrite <- rsum_scale. rewrite (rsum_ext _ (fun A => - Re (omega d x A H))%R) by (intros A HA; apply speed_omega; [apply Ha; exact HA|exact HH]).
  rewrite (rsum_ext _ (fun A => (-1) * Re (omega d x A H))%R) by (intros; ring). rewrite rsum_scale, <- lsum_Re.
  pose proof (omega_msum_l d x (fun A : mat C => A) (all_gens d trot x obs groups) H) as E. rewrite <- E.
  rewrite (omega_ext d x _ (msum (fun O => msum (gen d x (a_ent O)) (List.concat groups)) obs) _ H); [|apply msum_all_gens|reflexivity].
  unfold H. rewrite total_omega. rewrite lsum_Re, <- rsum_scale. apply rsum_ext. intros P HP. rewrite Re_mult. apply in_concat in HP. destruct HP as (g & Hgi & HPi).
  rewrite Forall_forall in Hg. specialize (Hg g Hgi). rewrite Forall_forall in Hg.
  assert (Hre : Re (omega d x (a_ent P) (msum (fun O => a_ent O) obs)) = 0%R) by exact (comm_imaginary d x (a_ent P) (msum a_ent obs) (Hg P HPi) HH). rewrite Hre. change (msum a_ent obs) with (msum (fun O => a_ent O) obs). ring.
Qed.

Lemma call_change n trot obs groups t U V : (0 <= t)%R -> unitary2 (2 ^ n) U -> Forall (fun O => hermitian (2 ^ n) (a_ent O)) obs -> bounded (2 ^ n) (INR (List.length obs)) (msum a_ent obs) ->
  Forall (Forall (fun P => hermitian (2 ^ n) (a_ent P) /\ bounded (2 ^ n) 1 (a_ent P))) groups ->
  meq (2 ^ n) V (apply_gens (2 ^ n) (RtoC (- t)) (all_gens (2 ^ n) trot (qnode_state U) obs groups) U) ->
  let S := rsum (fun P => direction n U (a_ent P) (msum a_ent obs) ^ 2)%R (List.concat groups) in
  let A := rsum (fun O => rsum (fun P => Rabs (direction n U (a_ent P) (a_ent O))) (List.concat groups)) obs in
  (Rabs (energy n obs V - (energy n obs U - t * S)) <= 2 * INR (List.length obs) * (t * A) ^ 2)%R.
Proof.
  intros Ht HU HO HB Hg HV S A. set (d := 2 ^ n) in *. set (x := qnode_state U) in *. set (H := msum a_ent obs) in *.
  assert (Hg' : Forall (Forall (fun P => hermitian d (a_ent P))) groups) by (eapply Forall_impl; [|exact Hg]; intros g Hgg; eapply Forall_impl; [|exact Hgg]; simpl; tauto).
  assert (HH : hermitian d H). { apply msum_hermitian. rewrite Forall_forall in HO. auto. }
  destruct (all_gens_bounds d trot x obs groups HO Hg) as (ks & Hk & Ek).
  assert (Hk' : Forall2 (fun K k => anti d K /\ bounded d k K /\ (0 <= k)%R) (map (mscale (SR := CStar) (RtoC (-1))) (all_gens d trot x obs groups)) ks).
  { apply F2_map_l. eapply F2_impl; [|exact Hk]. intros K k (H1 & H2 & H3). split; [apply anti_scale; exact H1|]. split; [apply bounded_neg; exact H2|exact H3]. }
  pose proof (flows_change d H _ t HH HB (pos_INR _) Ht _ _ Hk' x (state_unit n U HU) x 0 (state_unit n U HU)) as B.
  assert (Z : (nrm d (vlin 1 x (-1) x) <= t * 0)%R). { rewrite Rmult_0_r. apply nrm_le; [lra|]. right. rewrite rip_lin, !rip_lin_l. ring. }
  specialize (B Z). clear Z. rewrite rsum_map in B.
  assert (Es : (2 * rsum (fun K => rip d (mv d (mscale (SR := CStar) (RtoC (-1)) K) x) (mv d H x)) (all_gens d trot x obs groups) = - S)%R).
  { rewrite (rsum_ext _ (fun K => (-1) * rip d (mv d K x) (mv d H x))%R).
    - rewrite rsum_scale. pose proof (total_speed d trot x obs groups HO Hg') as Q. cbv zeta in Q. fold H in Q. unfold S, direction. change (fun i => U i 0) with x. fold d.
      unfold omega in Q. rewrite <- Q. ring.
    - intros K _. unfold rip. rewrite (ip_ext d _ (fun i => Cmult (RtoC (-1)) (mv d K x i)) (mv d H x) (mv d H x)) by (try apply veq_refl; intros i _; apply mv_scale_mat). rewrite ip_scale_l. destruct (ip _ _ _). simpl. ring. }
  assert (EA : rsum (fun k => k) ks = A).
  { rewrite Ek. unfold A. apply rsum_ext. intros O HIO. apply rsum_ext. intros P HP. unfold kbound, direction. change (fun i => U i 0) with x. fold d. fold (omega d x (a_ent P) (a_ent O)). apply Cmod_imag.
    apply in_concat in HP. destruct HP as (g & Hgi & HPi). rewrite Forall_forall in HO, Hg'. specialize (Hg' g Hgi). rewrite Forall_forall in Hg'. apply comm_imaginary; auto. }
  assert (EV : energy n obs V = ev d H (flows d t (map (mscale (SR := CStar) (RtoC (-1))) (all_gens d trot x obs groups)) x)).
  { rewrite energy_ev. fold d H. unfold ev. assert (Pd : 0 < d) by apply pow2_pos'.
    assert (Q : veq d (qnode_state V) (flows d t (map (mscale (SR := CStar) (RtoC (-1))) (all_gens d trot x obs groups)) x)).
    { eapply veq_trans; [|apply (gens_flows d t _ Pd U)]. intros i Hi. apply HV; [exact Hi|exact Pd]. }
    apply rip_ext; [exact Q|apply mv_veq; exact Q]. }
  rewrite EV, energy_ev. fold d H x. rewrite EA in B.
  replace (ev d H _ - (ev d H x - t * S))%R with (ev d H (flows d t (map (mscale (SR := CStar) (RtoC (-1))) (all_gens d trot x obs groups)) x) - ev d H x - t * (- S))%R by ring.
  rewrite <- Es. eapply Rle_trans; [|eapply Rle_trans; [exact B|right; ring]]. right. f_equal. ring.
Qed.

(** the operators of the words *)
Lemma key_ok_bounded n kF : key_ok (K := C) n kF -> bounded (2 ^ n) 1 (a_ent (snd kF)).
Proof.
  intros Hk. apply involution_bounded; [apply key_ok_hermitian; exact Hk|]. destruct Hk as (w & _ & Hw & Hq & _ & _ & _ & M).
  assert (Hu : Forall (fun g => 1 <= g <= 3) (up w)). { apply Forall_forall. intros g Hg. apply in_map_iff in Hg. destruct Hg as (x & <- & Hx). rewrite Forall_forall in Hw. specialize (Hw x Hx). lia. }
  assert (Hok : wires_ok n (snd (fst kF))) by (eapply qtuple_wires; eauto). assert (Hlq : List.length (snd (fst kF)) = List.length (up w)) by (rewrite up_length; apply Hq).
  rewrite M, emb_mul by exact Hok. rewrite <- (emb_id n (snd (fst kF))) by exact Hok. apply emb_proper. rewrite Hlq. apply pword_sq. eapply Forall_impl; [|exact Hu]. simpl. intros; lia.
Qed.

(** a call of such a layer is a sequence of exponentials *)
Lemma rate_call n obs eta o asked : Forall (fits n) obs -> Forall hermitian_obs obs -> rate_layer n obs eta o asked ->
  exists Os groups trot, Forall2 (fun o F => full n o = Ok F) obs Os /\ Forall2 (embedded n) obs Os /\ Forall (fun O => hermitian (2 ^ n) (a_ent O)) Os /\
    Forall (Forall (fun P => hermitian (2 ^ n) (a_ent P) /\ bounded (2 ^ n) 1 (a_ent P))) groups /\ direction_set n asked (List.concat groups) /\
    forall x commute U p, svd_correct (or_svd x) -> exists V, obj_call x commute o U p = Ok (V, p, o) /\
      meq (2 ^ n) V (apply_gens (2 ^ n) (RtoC (- eta / 2 ^ n)) (all_gens (2 ^ n) trot (qnode_state U) Os groups) U).
Proof.
  intros Hf Hh Hr. destruct (obs_full n obs Hf Hh) as (Fs & EF & _ & HF). destruct Hr as [locality eta0 stride ds check trot l Ha Ht El|ds eta0 check trot l He Hd Ht El].
  - pose proof Ha as Hga. apply good_args_ok in Ha.
    destruct (local_init n obs Fs locality eta0 stride ds check trot EF Ha) as (gs & El' & Hg). rewrite El in El'. injection El' as ->.
    exists Fs, gs, trot. split; [apply full_list; exact EF|]. split; [apply full_embedded; auto|]. split; [exact HF|]. split.
    { clear - Hg. induction Hg as [|q g qs gs Hqg _ IH]; constructor; [|exact IH]. clear - Hqg. unfold group_ok in Hqg. induction Hqg as [|w P ws Ps Hk _ IH]; constructor; [|exact IH].
      split; [apply (key_ok_hermitian n _ Hk)|apply (key_ok_bounded n _ Hk)]. }
    split.
    { set (names := map wname (chosen locality ds)).
      assert (Enames : names = requested ds (if locality =? 1 then su2_list else su4_list)) by (apply chosen_names; apply Hga).
      assert (Nd : NoDup names). { rewrite Enames. assert (NoDup su2_list /\ NoDup su4_list) as [N1 N2].
        { split; repeat constructor; simpl; intuition discriminate. }
        unfold requested. destruct ds; [apply NoDup_filter|]; destruct (locality =? 1); assumption. }
      assert (In_names : forall d, In d names <-> match ds with Some l => In d l | None => In d (if locality =? 1 then su2_list else su4_list) end).
      { intros d. rewrite Enames. unfold requested. destruct ds as [l|]; [|tauto]. rewrite filter_In. destruct Hga as (_ & _ & _ & Hi). split.
        - intros [_ Q]. destruct (in_dec string_dec d l); [assumption|discriminate].
        - intros Q. split; [apply Hi; exact Q|]. destruct (in_dec string_dec d l); [reflexivity|contradiction]. }
      exists (flat_map (fun q => map (fun d => (d, q)) names) (combinations (seq 0 n) locality)). split; [|split].
      - assert (Nq : NoDup (combinations (seq 0 n) locality)) by (apply combinations_NoDup, seq_NoDup). revert Nq. generalize (combinations (seq 0 n) locality). intros qs. induction qs as [|q qs IH]; intros Nq; [constructor|].
        apply NoDup_cons_iff in Nq. destruct Nq as [Nq1 Nq2]. cbn [flat_map]. apply NoDup_app_intro.
        + apply FinFun.Injective_map_NoDup; [intros a b E; congruence|exact Nd].
        + apply IH. exact Nq2.
        + intros [d q'] H1 H2. apply in_map_iff in H1. destruct H1 as (d1 & E1 & _). injection E1 as -> ->. apply in_flat_map in H2. destruct H2 as (q2 & Hq2 & H2). apply in_map_iff in H2. destruct H2 as (d2 & E2 & _). injection E2 as -> ->. contradiction.
      - intros d q. rewrite in_flat_map. split.
        + intros (q1 & Hq1 & H1). apply in_map_iff in H1. destruct H1 as (d1 & E1 & H1). injection E1 as -> ->. split; [apply In_names; exact H1|]. apply comb_seq in Hq1. exact Hq1.
        + intros [H1 H2]. exists q. split; [apply comb_seq; exact H2|]. apply in_map_iff. exists d. split; [reflexivity|]. apply In_names. exact H1.
      - clear - Hg. induction Hg as [|q g qs gs Hqg _ IH]; cbn [flat_map List.concat]; [constructor|]. apply F2_app; [|exact IH]. unfold names. clear - Hqg. unfold group_ok in Hqg. induction Hqg; cbn [map]; constructor; auto. cbn [fst snd]. apply key_ok_word; auto. }
    intros x commute U p Hs. cbn [obj_call]. unfold local_set_eta. cbn [lc_n lc_locality lc_stride lc_check lc_trotterize lc_directions lc_observables lc_full_paulis].
    destruct (call_spec (or_svd x) check trot n eta (qnode_state U) Fs gs Hs HF (groups_hermitian _ _ _ _ Hg)) with (U := U) (W := U) as (V & EV & M).
    + destruct Ht as [Ht|Ht]; [left; auto|]. right. eapply groups_nonempty; [|exact Hg]. destruct Ha as (_ & H2 & _ & H4). apply chosen_nonempty; auto.
    + reflexivity.
    + exists V. split; [|exact M]. unfold local_call. cbn [lc_n lc_locality lc_stride lc_check lc_trotterize lc_directions lc_observables lc_full_paulis lc_eta]. rewrite EV. reflexivity.
  - destruct (custom_items n) as (items & Ei & Ek & Hk). rewrite (custom_init n obs Fs eta0 (Some ds) check trot items Ei Ek EF He) in El.
    assert (E1 : forallb (fun d => str_in d (wnames [1; 2])) ds = true). { apply forallb_forall. intros d Hin. apply str_in_spec. apply Hd; auto. }
    rewrite E1 in El. injection El as <-. destruct (kept_keys n ds items Hd Ek) as [K1 K2].
    assert (HK : Forall (key_ok (K := C) n) (kept ds items)). { apply Forall_forall. intros x Hx. apply filter_In in Hx. rewrite Forall_forall in Hk. apply Hk. tauto. }
    exists Fs, [map snd (kept ds items)], trot. split; [apply full_list; exact EF|]. split; [apply full_embedded; auto|]. split; [exact HF|]. split.
    { constructor; [|constructor]. apply Forall_map. eapply Forall_impl; [|exact HK]. intros kF Hkk. split; [apply key_ok_hermitian|apply key_ok_bounded]; exact Hkk. }
    split.
    { exists (map fst (kept ds items)). split; [exact K1|]. split; [exact K2|]. cbn [List.concat]. rewrite app_nil_r. clear - HK. induction HK as [|[[d q] F] l Hx _ IH]; cbn [map]; constructor; auto. apply key_ok_word; auto. }
    intros x commute U p Hs. cbn [obj_call]. unfold custom_set_eta. cbn [cu_n cu_check cu_trotterize cu_directions cu_full_paulis cu_observables].
    assert (HG : Forall (Forall (fun P => hermitian (2 ^ n) (a_ent P))) [map snd (kept ds items)]). { constructor; auto. apply kept_hermitian; auto. }
    destruct (call_spec (or_svd x) check trot n eta (qnode_state U) Fs [map snd (kept ds items)] Hs HF HG) with (U := U) (W := U) as (V & EV & M).
    + destruct Ht as [Ht|(d & Hin & Hl)]; [left; auto|]. right. constructor; [|constructor]. eapply kept_nonempty; eauto.
    + reflexivity.
    + exists V. split; [|exact M]. rewrite custom_call_eq, EV. reflexivity.
Qed.

Lemma direction_bound n U P O : unitary2 (2 ^ n) U -> hermitian (2 ^ n) P -> bounded (2 ^ n) 1 P -> hermitian (2 ^ n) O -> bounded (2 ^ n) 1 O -> (Rabs (direction n U P O) <= 2)%R.
Proof.
  intros HU Hp Bp Ho Bo. set (x := qnode_state U). set (K := mscale (SR := CStar) Ci P).
  assert (HK : anti (2 ^ n) K).
  { unfold anti, K, hermitian in *. rewrite madj_scale, Hp. intros i j _ _. unfold mscale. cbn [kmul kconj CStar]. apply C_ext; simpl; ring. }
  pose proof (speed_omega (2 ^ n) K O x HK Ho) as E. unfold K in E at 2. rewrite omega_scale in E.
  assert (D : direction n U P O = (2 * rip (2 ^ n) (mv (2 ^ n) K x) (mv (2 ^ n) O x))%R).
  { rewrite E. unfold direction. change (fun i => U i 0) with x. fold (omega (2 ^ n) x P O). destruct (omega (2 ^ n) x P O). simpl. ring. }
  rewrite D, Rabs_mult, (Rabs_pos_eq 2) by lra. pose proof (rip_cs (2 ^ n) (mv (2 ^ n) K x) (mv (2 ^ n) O x)) as Q.
  assert (N : nrm (2 ^ n) x = 1%R) by (unfold nrm, x; rewrite (state_unit n U HU); apply sqrt_1).
  pose proof (bounded_scale (2 ^ n) Ci P Bp x) as B1. pose proof (Bo x) as B2. fold K in B1. rewrite N in B1, B2.
  assert (Cmod Ci = 1%R) as Ec. { unfold Cmod, Ci. simpl. replace (0 * (0 * 1) + 1 * (1 * 1))%R with 1%R by ring. apply sqrt_1. } rewrite Ec in B1.
  pose proof (nrm_pos (2 ^ n) (mv (2 ^ n) K x)). pose proof (nrm_pos (2 ^ n) (mv (2 ^ n) O x)). nra.
Qed.

Lemma rsum_const {A} c (l : list A) : rsum (fun _ => c) l = (INR (List.length l) * c)%R.
Proof. induction l as [|a l IH]; [cbn; ring|]. cbn [rsum]. change (List.length (a :: l)) with (S (List.length l)). rewrite S_INR, IH. ring. Qed.
Lemma rsum_cs {A} (f : A -> R) l : (rsum f l * rsum f l <= INR (List.length l) * rsum (fun a => f a ^ 2) l)%R.
Proof.
  induction l as [|a l IH]; [cbn; lra|]. cbn [rsum]. change (List.length (a :: l)) with (S (List.length l)). rewrite S_INR. set (N := INR (List.length l)) in *. set (s := rsum f l) in *. set (q := rsum (fun a => f a ^ 2)%R l) in *. set (v := f a).
  assert (N0 : (0 <= N)%R) by apply pos_INR. assert (q0 : (0 <= q)%R) by (apply rsum_nonneg; intros; nra).
  assert (Q : (2 * v * s <= q + N * v ^ 2)%R).
  { destruct (Req_dec N 0) as [Z|Z].
    - assert (s = 0%R) by nra. rewrite H, Z. nra.
    - assert (P : (0 < N)%R) by lra. apply (Rmult_le_reg_l N); [exact P|]. assert (G : (0 <= (N * v - s) ^ 2)%R) by apply pow2_ge_0. replace ((N * v - s) ^ 2)%R with (N * (N * v ^ 2) - N * (2 * v * s) + s * s)%R in G by ring. lra. }
  nra.
Qed.

Lemma pauli_obs n obs Os : Forall (fits n) obs -> Forall pauli_type obs -> Forall2 (fun o F => full n o = Ok F) obs Os ->
  Forall (fun O => hermitian (2 ^ n) (a_ent O) /\ bounded (2 ^ n) 1 (a_ent O)) Os /\ List.length Os = List.length obs.
Proof.
  intros Hf Hp H. induction H as [|o F obs Os EF H IH]; [split; [constructor|reflexivity]|]. destruct (IH (Forall_inv_tail Hf) (Forall_inv_tail Hp)) as [I1 I2].
  destruct (obs_one n o (Forall_inv Hf)) as (F' & EF' & _ & Fh & F2). rewrite EF in EF'. injection EF' as <-. pose proof (Forall_inv Hp) as Po. specialize (Fh (proj1 Po)). specialize (F2 Po).
  split; [constructor; [split; [exact Fh|apply involution_bounded; assumption]|exact I1]|cbn; congruence].
Qed.

(** ** C92 *)

(** A call of a layer for m Pauli-type observables with N directions changes the cost
    by minus eta/2^n times the sum of the squared components of the gradient, up to
    2 m (eta/2^n A)^2, where A is the sum of the absolute components of the gradients
    of the single observables; A is at most 2 m N. *)
Theorem C92_layer_rate : forall n obs eta o asked, Forall (fits n) obs -> Forall pauli_type obs -> (0 <= eta)%R -> rate_layer n obs eta o asked ->
  exists Os Ps, Forall2 (embedded n) obs Os /\ direction_set n asked Ps /\
    forall x commute U p, svd_correct (or_svd x) -> unitary2 (2 ^ n) U ->
      exists V c c', obj_call x commute o U p = Ok (V, p, o) /\ unitary2 (2 ^ n) V /\ exact_cost n obs U = Ok c /\ exact_cost n obs V = Ok c' /\
        let m := INR (List.length obs) in let t := (eta / 2 ^ n)%R in
        let S := rsum (fun P => direction n U (a_ent P) (msum a_ent Os) ^ 2)%R Ps in
        let A := rsum (fun O => rsum (fun P => Rabs (direction n U (a_ent P) (a_ent O))) Ps) Os in
        (Rabs (c' - (c - t * S)) <= 2 * m * (t * A) ^ 2 /\ A <= 2 * m * INR (List.length Ps))%R.
Proof.
  intros n obs eta o asked Hf Hp He Hr. assert (Hh : Forall hermitian_obs obs) by (eapply Forall_impl; [|exact Hp]; intros a Q; apply Q).
  destruct (rate_call n obs eta o asked Hf Hh Hr) as (Os & groups & trot & H1 & H2 & H3 & H4 & H5 & Hc). destruct (pauli_obs n obs Os Hf Hp H1) as [HO HL].
  exists Os, (List.concat groups). split; [exact H2|]. split; [exact H5|]. intros x commute U p Hs HU. destruct (Hc x commute U p Hs) as (V & EV & M).
  assert (HP : forall P, In P (List.concat groups) -> hermitian (2 ^ n) (a_ent P) /\ bounded (2 ^ n) 1 (a_ent P)).
  { intros P HP. apply in_concat in HP. destruct HP as (g & Hgi & HPi). rewrite Forall_forall in H4. specialize (H4 g Hgi). rewrite Forall_forall in H4. auto. }
  exists V, (energy n Os U), (energy n Os V). split; [exact EV|]. split.
  { eapply unitary2_proper; [symmetry; exact M|]. apply apply_gens_unitary; [|exact HU]. apply all_gens_anti; [exact H3|]. eapply Forall_impl; [|exact H4]. intros g Hg. eapply Forall_impl; [|exact Hg]. simpl. tauto. }
  split; [apply cost_energy; exact H1|]. split; [apply cost_energy; exact H1|]. cbv zeta. split.
  - rewrite <- HL. assert (HB : bounded (2 ^ n) (INR (List.length Os)) (msum a_ent Os)) by (apply sum_bounded; eapply Forall_impl; [|exact HO]; simpl; tauto).
    assert (T0 : (0 <= eta / 2 ^ n)%R) by (apply Rmult_le_pos; [exact He|left; apply Rinv_0_lt_compat, pow_lt; lra]).
    apply (call_change n trot Os groups (eta / 2 ^ n) U V T0 HU H3 HB H4). replace (- (eta / 2 ^ n))%R with (- eta / 2 ^ n)%R by (unfold Rdiv; ring). exact M.
  - rewrite <- HL. apply (Rle_trans _ (rsum (fun _ => 2 * INR (List.length (List.concat groups)))%R Os)); [|rewrite rsum_const; right; ring]. apply rsum_le. intros O HIO.
    apply (Rle_trans _ (rsum (fun _ => 2)%R (List.concat groups))); [|rewrite rsum_const; right; ring]. apply rsum_le. intros P HIP. rewrite Forall_forall in HO. destruct (HO O HIO) as [Q1 Q2]. destruct (HP P HIP). apply direction_bound; assumption.
Qed.
Print Assumptions C92_layer_rate.

(** For a single observable, with t = eta/2^n, the cost falls by at least
    t (1 - 2 t N) times the sum of the squared components; so it never rises if
    2 eta N is at most 2^n. *)
Theorem C92_single_descent : forall n ob eta o asked, fits n ob -> pauli_type ob -> (0 <= eta)%R -> rate_layer n [ob] eta o asked ->
  exists F Ps, embedded n ob F /\ direction_set n asked Ps /\
    forall x commute U p, svd_correct (or_svd x) -> unitary2 (2 ^ n) U ->
      exists V c c', obj_call x commute o U p = Ok (V, p, o) /\ unitary2 (2 ^ n) V /\ exact_cost n [ob] U = Ok c /\ exact_cost n [ob] V = Ok c' /\
        let t := (eta / 2 ^ n)%R in (c' <= c - t * (1 - 2 * t * INR (List.length Ps)) * rsum (fun P => direction n U (a_ent P) (a_ent F) ^ 2) Ps)%R.
Proof.
  intros n ob eta o asked Hf Hp He Hr. destruct (C92_layer_rate n [ob] eta o asked) as (Os & Ps & HO & HD & Hc); try assumption; [constructor; [assumption|constructor]|constructor; [assumption|constructor]|].
  inversion HO as [|? F ? r HF HO']; subst. inversion HO'; subst. exists F, Ps. split; [exact HF|]. split; [exact HD|]. intros x commute U p Hs HU.
  destruct (Hc x commute U p Hs HU) as (V & c & c' & E1 & E2 & E3 & E4 & B & _). exists V, c, c'. repeat (split; [assumption|]). cbv zeta in *. cbn [List.length INR rsum] in B.
  assert (EH : forall P, direction n U (a_ent P) (msum a_ent [F]) = direction n U (a_ent P) (a_ent F)).
  { intros P. unfold direction. f_equal. apply quad_comm_ext; [reflexivity|]. intros i j _ _. unfold msum. rewrite lsum_cons, lsum_nil. cbn [kadd k0 CStar]. ring. }
  rewrite (rsum_ext (fun P => direction n U (a_ent P) (msum a_ent [F]) ^ 2)%R (fun P => direction n U (a_ent P) (a_ent F) ^ 2)%R) in B by (intros P _; rewrite EH; reflexivity).
  pose proof (rsum_cs (fun P => Rabs (direction n U (a_ent P) (a_ent F))) Ps) as Q. rewrite (rsum_ext (fun P => Rabs (direction n U (a_ent P) (a_ent F)) ^ 2)%R (fun P => direction n U (a_ent P) (a_ent F) ^ 2)%R) in Q by (intros P _; apply pow2_abs).
  set (S := rsum (fun P => direction n U (a_ent P) (a_ent F) ^ 2)%R Ps) in *. set (A := rsum (fun P => Rabs (direction n U (a_ent P) (a_ent F))) Ps) in *. set (t := (eta / 2 ^ n)%R) in *. set (N := INR (List.length Ps)) in *.
  apply Rabs_le_between in B. assert (t * t * (A * A) <= t * t * (N * S))%R by (apply Rmult_le_compat_l; [nra|exact Q]). nra.
Qed.
Print Assumptions C92_single_descent.

(** a layer whose learning rate is small for its number of directions *)
Definition slow_layer (n : nat) (ob : qop C) (w : list layer_obj) (eta : R) (asked : string -> list nat -> Prop) (i : nat) : Prop :=
  (0 <= eta)%R /\ (forall Ps, direction_set n asked Ps -> 4 * eta * INR (List.length Ps) <= 2 ^ n)%R /\
  exists o, nth_error w i = Some o /\ rate_layer n [ob] eta o asked.

Lemma slow_call n ob F w eta asked i : fits n ob -> pauli_type ob -> embedded n ob F -> slow_layer n ob w eta asked i ->
  exists Ps, direction_set n asked Ps /\ forall x commute w' U p V p' w'', svd_correct (or_svd x) -> nth_error w' i = nth_error w i -> unitary2 (2 ^ n) U ->
    store_call x commute i w' U p = Ok (V, p', w'') ->
    (forall j, nth_error w'' j = nth_error w' j) /\ unitary2 (2 ^ n) V /\
    exists c c', exact_cost n [ob] U = Ok c /\ exact_cost n [ob] V = Ok c' /\ (eta * rsum (fun P => direction n U (a_ent P) (a_ent F) ^ 2) Ps <= 2 ^ (n + 1) * (c - c'))%R.
Proof.
  intros Hf Hp HF (He & Hn & o & Eo & Hr). destruct (C92_single_descent n ob eta o asked Hf Hp He Hr) as (G & Ps & HG & HD & Hc). exists Ps. split; [exact HD|].
  intros x commute w' U p V p' w'' Hs Ew HU E. destruct (Hc x commute U p Hs HU) as (V1 & c & c' & E1 & E2 & E3 & E4 & B). unfold store_call, list_get in E. rewrite Ew, Eo in E. cbn [bind] in E. rewrite E1 in E. cbn [bind] in E. injection E as <- <- <-.
  split; [|split; [exact E2|]].
  - intros j. destruct (Nat.eq_dec j i) as [->|N]; [|apply replace_at_other; exact N]. rewrite Ew, Eo. apply (replace_at_here w' i o o). congruence.
  - exists c, c'. split; [exact E3|]. split; [exact E4|]. cbv zeta in B.
    assert (EQ : rsum (fun P => direction n U (a_ent P) (a_ent G) ^ 2)%R Ps = rsum (fun P => direction n U (a_ent P) (a_ent F) ^ 2)%R Ps).
    { apply rsum_ext. intros P _. f_equal. unfold direction. f_equal. apply quad_comm_ext; [reflexivity|]. apply (embedded_unique n ob); [apply Hf|exact HG|exact HF]. }
    rewrite EQ in B. set (S := rsum _ Ps) in *. assert (S0 : (0 <= S)%R) by (apply rsum_nonneg; intros; apply pow2_ge_0).
    assert (D : (0 < 2 ^ n)%R) by (apply pow_lt; lra). set (D2 := (2 ^ n)%R) in *. replace (2 ^ (n + 1))%R with (2 * D2)%R by (rewrite pow_add; unfold D2; ring).
    pose proof (Hn Ps HD) as Hn'. fold D2 in Hn'. set (N := INR (List.length Ps)) in *. set (t := (eta / D2)%R) in *. assert (T : (t * D2 = eta)%R) by (unfold t; field; lra).
    assert (T0 : (0 <= t)%R) by (apply Rmult_le_pos; [exact He|left; apply Rinv_0_lt_compat; exact D]).
    assert (Q : (1 <= 2 * (1 - 2 * t * N))%R).
    { assert (4 * t * N <= 1)%R; [|lra]. apply (Rmult_le_reg_r D2); [exact D|]. replace (4 * t * N * D2)%R with (4 * (t * D2) * N)%R by ring. rewrite T. lra. }
    assert (P1 : (t * S <= 2 * (c - c'))%R). { assert (t * S * 1 <= t * S * (2 * (1 - 2 * t * N)))%R by (apply Rmult_le_compat_l; [apply Rmult_le_pos; assumption|exact Q]). lra. }
    assert (D2 * (t * S) <= D2 * (2 * (c - c')))%R by (apply Rmult_le_compat_l; lra). replace (eta * S)%R with (D2 * (t * S))%R by (rewrite <- T; ring). lra.
Qed.

Lemma slow_choice n ob F w (etas : nat -> R) (asked : nat -> string -> list nat -> Prop) ls : fits n ob -> pauli_type ob -> embedded n ob F -> (forall i, In i ls -> slow_layer n ob w (etas i) (asked i) i) ->
  exists Pss, Forall2 (fun i Ps => direction_set n (asked i) Ps /\ forall x commute w' U p V p' w'', svd_correct (or_svd x) -> nth_error w' i = nth_error w i -> unitary2 (2 ^ n) U ->
    store_call x commute i w' U p = Ok (V, p', w'') ->
    (forall j, nth_error w'' j = nth_error w' j) /\ unitary2 (2 ^ n) V /\
    exists c c', exact_cost n [ob] U = Ok c /\ exact_cost n [ob] V = Ok c' /\ (etas i * rsum (fun P => direction n U (a_ent P) (a_ent F) ^ 2) Ps <= 2 ^ (n + 1) * (c - c'))%R) ls Pss.
Proof.
  intros Hf Hp HF H. induction ls as [|i ls IH]; [exists []; constructor|]. destruct (IH (fun j Hj => H j (or_intror Hj))) as (Pss & Q).
  destruct (slow_call n ob F w (etas i) (asked i) i Hf Hp HF (H i (or_introl eq_refl))) as (Ps & Q1). exists (Ps :: Pss). constructor; assumption.
Qed.
Lemma F2_nth {A B} (R : A -> B -> Prop) l m : Forall2 R l m -> forall k a da db, nth_error l k = Some a -> R (nth k l da) (nth k m db) /\ nth k l da = a.
Proof. induction 1; intros [|k] a da db E; try discriminate; cbn in *; [injection E as <-; auto|]. eapply IHForall2. exact E. Qed.

(** A run of approximate_lie_optimizer without perturbations whose layers have a
    learning rate of at most 2^n/(4 N): with g_k the sum of the squared gradient
    components of the layer of step k at the circuit before it, the sum of eta_k g_k over
    the steps a to b-1 is at most 2^(n+1) times the fall of the cost between them.
    In particular the costs never rise; if all learning rates are at least e, then
    e T g_k is at most 2^(n+2) for one of the T steps; and if the run stops before its
    last allowed step, the sum over its last five steps is at most 2^(n+1) (tol + 10^-5). *)
Theorem C92_run : forall x eigh random n gates ob w ls etas asked p0 kw r cs ss os us ps zs,
  Forall (unitary_gate n) gates -> fits n ob -> pauli_type ob -> svd_correct (or_svd x) -> ap_accepts (AList (map Some ls)) kw -> the_flag kw "perturb" = false ->
  (forall i, In i ls -> slow_layer n ob w (etas i) (asked i) i) ->
  approx_optimizer x eigh random n gates [ob] w RetState (AList (map Some ls)) p0 kw = Ok r -> ap_result kw r cs ss os us ps zs ->
  exists F Pss circuits, embedded n ob F /\ Forall2 (fun i Ps => direction_set n (asked i) Ps) ls Pss /\ Forall2 (fun u c => unitary2 (2 ^ n) u /\ exact_cost n [ob] u = Ok c) circuits cs /\
    let T := List.length cs - 1 in let c k := nth k cs 0%R in let eta k := etas (nth (k mod List.length ls) ls 0) in
    let g k := rsum (fun P => direction n (nth k circuits mid) (a_ent P) (a_ent F) ^ 2)%R (nth (k mod List.length ls) Pss []) in
    1 <= T <= the_steps kw /\
    (forall a b, a <= b <= T -> (rsum (fun k => eta k * g k) (seq a (b - a)) <= 2 ^ (n + 1) * (c a - c b))%R) /\
    (forall a b, a <= b <= T -> (c b <= c a)%R) /\
    (forall e, (forall i, In i ls -> e <= etas i)%R -> exists k, k < T /\ (e * INR T * g k <= 2 ^ (n + 2))%R) /\
    (T < the_steps kw -> forall t, the_opt_tol kw = Some (Fin t) -> (rsum (fun k => eta k * g k) (seq (T - 5) 5) <= 2 ^ (n + 1) * (t + / 100000))%R).
Proof.
  intros x eigh random n gates ob w ls etas asked p0 kw r cs ss os us ps zs Hg Hf Hp Hs Ha Hpert Hsl E Hr.
  destruct (start_unitary n gates Hg) as (U & EU & HU). unfold approx_optimizer in E. rewrite EU in E. cbn [bind] in E. set (cm := truthy (kw_get kw "commute" (PyBool false))) in E.
  destruct (obs_one n ob Hf) as (F & _ & HF & _ & F2). specialize (F2 Hp). destruct (slow_choice n ob F w etas asked ls Hf Hp HF Hsl) as (Pss & HPss).
  pose proof (C57_approximate_stop _ _ _ _ _ _ _ _ _ _ _ _ _ _ _ _ _ _ _ _ _ _ _ _ Ha E Hr Hpert) as ((n1 & Ln1 & Hn1 & _ & Hstall) & _).
  destruct (C56_C59_approximate_histories _ _ _ _ _ _ _ _ _ _ _ _ _ _ _ _ _ _ _ _ _ _ _ _ Ha E Hr) as (confs & u0 & T & ls' & Els & E0 & H0 & Hl & HT & Hc & Hcost & _).
  assert (ls' = ls). { injection Els as Els. clear -Els. revert ls' Els. induction ls as [|a ls IH]; intros [|b ls'] Els; try discriminate; [reflexivity|]. injection Els as -> Els. f_equal. apply IH. exact Els. }
  subst ls'. clear Els. destruct (print_layers w (AList (map Some ls))) as [[]|]; cbn [bind] in E0; [|discriminate]. injection E0 as E0. subst u0.
  assert (Lc : List.length cs = S T) by (rewrite <- Hl; symmetry; apply (Forall2_length' _ _ _ Hcost)).
  assert (Step : forall k y, nth_error confs k = Some y -> (forall j, nth_error (objects y) j = nth_error w j) /\ unitary2 (2 ^ n) (unitary_of y) /\
    forall z, nth_error confs (S k) = Some z -> (forall j, nth_error (objects z) j = nth_error w j) /\ unitary2 (2 ^ n) (unitary_of z) /\
      exists c c', exact_cost n [ob] (unitary_of y) = Ok c /\ exact_cost n [ob] (unitary_of z) = Ok c' /\
        (etas (nth (k mod List.length ls) ls 0%nat) * rsum (fun P => direction n (unitary_of y) (a_ent P) (a_ent F) ^ 2) (nth (k mod List.length ls) Pss []) <= 2 ^ (n + 1) * (c - c'))%R).
  { assert (One : forall k y z, nth_error confs k = Some y -> nth_error confs (S k) = Some z -> (forall j, nth_error (objects y) j = nth_error w j) -> unitary2 (2 ^ n) (unitary_of y) ->
      (forall j, nth_error (objects z) j = nth_error w j) /\ unitary2 (2 ^ n) (unitary_of z) /\
      exists c c', exact_cost n [ob] (unitary_of y) = Ok c /\ exact_cost n [ob] (unitary_of z) = Ok c' /\
        (etas (nth (k mod List.length ls) ls 0%nat) * rsum (fun P => direction n (unitary_of y) (a_ent P) (a_ent F) ^ 2) (nth (k mod List.length ls) Pss []) <= 2 ^ (n + 1) * (c - c'))%R).
    { intros k y z Ey Ez Iw Iu. destruct (Hc k y z Ey Ez) as (u' & i & Hre & Ei & Ec & _). assert (u' = unitary_of y) as ->.
      { rewrite Hpert in Hre. destruct k; cbn [restart] in Hre; [exact Hre|]. destruct Hre as [(Q & _)|(_ & Q)]; [discriminate|exact Q]. }
      destruct (F2_nth _ _ _ HPss _ _ 0 [] Ei) as [[_ Q] Eni]. rewrite Eni in *. destruct (Q x cm (objects y) (unitary_of y) (params_of y) (unitary_of z) (params_of z) (objects z) Hs (Iw i) Iu Ec) as (Q1 & Q2 & Q3).
      split; [intros j; rewrite Q1; apply Iw|]. split; [exact Q2|exact Q3]. }
    induction k as [|k IH]; intros y Ey.
    - rewrite H0 in Ey. injection Ey as <-. split; [reflexivity|]. split; [exact HU|]. intros z Ez. eapply One; eauto.
    - destruct (nth_error confs k) as [y0|] eqn:Ey0; [|apply nth_error_None in Ey0; assert (S k < List.length confs) by (apply nth_error_Some; congruence); lia].
      destruct (IH y0 eq_refl) as (_ & _ & Q). destruct (Q y Ey) as (Q1 & Q2 & _). split; [exact Q1|]. split; [exact Q2|]. intros z Ez. eapply One; eauto. }
  assert (HC : Forall2 (fun u c => unitary2 (2 ^ n) u /\ exact_cost n [ob] u = Ok c) (map unitary_of confs) cs).
  { assert (HQ : Forall (fun y => unitary2 (2 ^ n) (unitary_of y)) confs). { apply Forall_forall. intros y Hy. apply In_nth_error in Hy. destruct Hy as (k & Hk). destruct (Step k y Hk) as (_ & Q & _). exact Q. }
    clear - Hcost HQ. induction Hcost as [|w y cw cc Ew H IH]; cbn [map]; constructor; [split; [apply (Forall_inv HQ)|exact Ew]|apply IH, (Forall_inv_tail HQ)]. }
  exists F, Pss, (map unitary_of confs). split; [exact HF|]. split; [eapply F2_impl; [|exact HPss]; simpl; tauto|]. split; [exact HC|]. cbv zeta. replace (List.length cs - 1) with T by lia.
  set (c := fun k => nth k cs 0%R). set (eta := fun k => etas (nth (k mod List.length ls) ls 0%nat)).
  set (g := fun k => rsum (fun P => direction n (nth k (map unitary_of confs) mid) (a_ent P) (a_ent F) ^ 2)%R (nth (k mod List.length ls) Pss [])).
  assert (St : forall k, k < T -> (eta k * g k <= 2 ^ (n + 1) * (c k - c (S k)))%R).
  { intros k Hk. destruct (nth_error confs k) as [y|] eqn:Ey; [|apply nth_error_None in Ey; lia]. destruct (nth_error confs (S k)) as [z|] eqn:Ez; [|apply nth_error_None in Ez; lia].
    destruct (Step k y Ey) as (_ & _ & Q). destruct (Q z Ez) as (_ & _ & c1 & c2 & Q1 & Q2 & Q3).
    assert (Cn : forall j v, nth_error confs j = Some v -> exact_cost n [ob] (unitary_of v) = Ok (c j)).
    { unfold c. clear - Hcost. induction Hcost; intros [|j] v Ev; try discriminate; cbn in *; [injection Ev as <-; assumption|apply IHHcost; exact Ev]. }
    rewrite (Cn k y Ey) in Q1. rewrite (Cn (S k) z Ez) in Q2. injection Q1 as <-. injection Q2 as <-. unfold eta, g. rewrite (nth_error_nth (map unitary_of confs) k mid (x := unitary_of y)) by (rewrite nth_error_map, Ey; reflexivity). exact Q3. }
  assert (Sum : forall b a, a <= b <= T -> (rsum (fun k => eta k * g k) (seq a (b - a)) <= 2 ^ (n + 1) * (c a - c b))%R).
  { intros b a Hab. remember (b - a) as m eqn:Em. revert a Hab Em. induction m as [|m IH]; intros a Hab Em.
    - assert (a = b) as -> by lia. cbn [seq rsum]. right. ring.
    - cbn [seq rsum]. pose proof (IH (S a) ltac:(lia) ltac:(lia)) as Q. pose proof (St a ltac:(lia)) as Q2. lra. }
  assert (P2 : (0 < 2 ^ (n + 1))%R) by (apply pow_lt; lra).
  assert (g0 : forall k, (0 <= g k)%R) by (intros k; apply rsum_nonneg; intros; apply pow2_ge_0).
  assert (Kls : forall k, k < T -> In (nth (k mod List.length ls) ls 0) ls).
  { intros k Hk. apply nth_In. apply Nat.mod_upper_bound. intros Z. destruct ls; [|discriminate]. destruct (nth_error confs 0) as [y|] eqn:Ey; [|apply nth_error_None in Ey; lia]. destruct (nth_error confs 1) as [z|] eqn:Ez; [|apply nth_error_None in Ez; lia].
    destruct (Hc 0 y z Ey Ez) as (u' & i & _ & Ei & _). discriminate. }
  assert (e0 : forall k, k < T -> (0 <= eta k)%R). { intros k Hk. destruct (Hsl _ (Kls k Hk)) as [Q _]. exact Q. }
  assert (Mono : forall a b, a <= b <= T -> (c b <= c a)%R).
  { intros a b Hab. pose proof (Sum b a Hab) as Q. assert (0 <= rsum (fun k => eta k * g k) (seq a (b - a)))%R.
    { apply rsum_nonneg. intros k Hk. apply in_seq in Hk. apply Rmult_le_pos; [apply e0; lia|apply g0]. }
    assert (0 <= 2 ^ (n + 1) * (c a - c b))%R by lra. apply Rnot_lt_le. intros L. assert (2 ^ (n + 1) * (c a - c b) < 2 ^ (n + 1) * 0)%R by (apply Rmult_lt_compat_l; lra). lra. }
  assert (Bd : forall k, k <= T -> (-1 <= c k <= 1)%R).
  { intros k Hk. destruct (sum_setup n [ob]) as (Fs & A1 & _ & _ & A4 & _); [constructor; [assumption|constructor]|constructor; [assumption|constructor]|].
    assert (Q : exists u, unitary2 (2 ^ n) u /\ exact_cost n [ob] u = Ok (c k)).
    { unfold c. assert (Hk' : k < List.length cs) by lia. clear - HC Hk'. revert k Hk'. induction HC as [|u c cu cc Q H IH]; intros [|k] Hk; cbn in *; try lia; [eauto|apply IH; lia]. }
    destruct Q as (u & Hu & Eu). rewrite (cost_energy n [ob] Fs u A1) in Eu. injection Eu as <-. rewrite energy_ev. unfold ev. pose proof (bounded_le (2 ^ n) _ (msum a_ent Fs) (qnode_state u) (qnode_state u) A4) as Q.
    assert (N1 : nrm (2 ^ n) (qnode_state u) = 1%R) by (unfold nrm; rewrite (state_unit n u Hu); apply sqrt_1). rewrite N1 in Q. cbn [List.length INR] in Q. apply Rabs_le_between in Q. lra. }
  split; [exact HT|]. split; [intros a b; apply Sum|]. split; [exact Mono|]. split.
  - intros e He. apply NNPP. intros N. assert (HT' : (0 < INR T)%R) by (apply lt_0_INR; lia).
    assert (Lt : forall k, k < T -> (2 ^ (n + 2) < INR T * (eta k * g k))%R).
    { intros k Hk. apply (Rlt_le_trans _ (e * INR T * g k)).
      - apply Rnot_le_lt. intros Q. apply N. exists k. split; assumption.
      - replace (e * INR T * g k)%R with (INR T * (e * g k))%R by ring. apply Rmult_le_compat_l; [lra|]. apply Rmult_le_compat_r; [apply g0|]. apply He, Kls. exact Hk. }
    assert (Q : (INR T * 2 ^ (n + 2) < INR T * rsum (fun k => eta k * g k) (seq 0 T))%R).
    { rewrite <- rsum_scale. destruct T as [|T']; [lia|]. cbn [seq rsum]. pose proof (Lt 0 ltac:(lia)) as L0.
      assert (L1 : (INR T' * 2 ^ (n + 2) <= rsum (fun k => INR (S T') * (eta k * g k)) (seq 1 T'))%R).
      { apply (Rle_trans _ (rsum (fun _ => 2 ^ (n + 2))%R (seq 1 T'))); [rewrite rsum_const, seq_length; lra|]. apply rsum_le. intros k Hk. apply in_seq in Hk. left. apply Lt. lia. }
      rewrite S_INR at 1. lra. }
    pose proof (Sum T 0 ltac:(lia)) as Q2. rewrite Nat.sub_0_r in Q2. pose proof (Bd 0 ltac:(lia)) as B0. pose proof (Bd T ltac:(lia)) as BT.
    assert (Q3 : (rsum (fun k => eta k * g k) (seq 0 T) <= 2 ^ (n + 2))%R).
    { eapply Rle_trans; [exact Q2|]. replace (2 ^ (n + 2))%R with (2 ^ (n + 1) * 2)%R by (rewrite !pow_add; ring). apply Rmult_le_compat_l; lra. }
    assert (INR T * rsum (fun k => eta k * g k) (seq 0 T) <= INR T * 2 ^ (n + 2))%R by (apply Rmult_le_compat_l; lra). lra.
  - intros HTs t Et. assert (n1 = T) as -> by lia. destruct (Hstall HTs) as (W8 & t' & xx & yy & Q & Ex & Ey & Hcl). rewrite Et in Q. injection Q as <-. cbn [close] in Hcl.
    replace (S (T - 1)) with T in Ex, Ey by lia. assert (Exx : xx = c T) by (unfold c; symmetry; apply nth_error_nth; exact Ex). assert (Eyy : yy = c (T - 5)) by (unfold c; symmetry; apply nth_error_nth; exact Ey). subst xx yy.
    pose proof (Sum T (T - 5) ltac:(lia)) as Q. replace (T - (T - 5)) with 5 in Q by lia. eapply Rle_trans; [exact Q|]. apply Rmult_le_compat_l; [lra|].
    pose proof (Bd (T - 5) ltac:(lia)) as B. apply Rabs_le_between in Hcl. assert (Rabs (c (T - 5)%nat) <= 1)%R by (apply Rabs_le; lra). lra.
Qed.
Print Assumptions C92_run.

From Verif Require Import PropMany.

(** One qubit, the observable X, a LocalLieAlgebraLayer along Y with learning rate 1/2 and
    a CustomDirectionLieAlgebraLayer along Y and Z with learning rate 1/4, in turns; the
    component of the first gradient along Y is -2. *)
Lemma one_qubit_keys (names : list string) n : forall ks, NoDup ks -> (forall d (q : list nat), In (d, q) ks -> In d names /\ qubit_tuple 1 1 q) -> List.length names = n -> List.length ks <= n.
Proof.
  intros ks Hn Hk <-. rewrite <- (map_length (fun d => (d, [0])) names). apply NoDup_incl_length; [exact Hn|]. intros [d q] Hq. destruct (Hk d q Hq) as (Hd & Hl & _ & Hw).
  destruct q as [|a [|b q]]; try discriminate. apply Forall_inv in Hw. assert (a = 0) as -> by lia. apply in_map_iff. exists d. auto.
Qed.
Definition two_asked (i : nat) (d : string) (q : list nat) : Prop :=
  match i with 0 => match Some ["Y"%string] with Some names => In d names | None => In d (if 1 =? 1 then su2_list else su4_list) end /\ qubit_tuple 1 1 q | _ => In d ["Y"; "Z"]%string /\ qubit_tuple 1 (String.length d) q end.
Example C92_case : exists x eigh w r cs ss os us ps zs, svd_correct (or_svd x) /\ List.length w = 2 /\ ap_accepts (AList (map Some [0; 1])) (run_kw (1 / 10)) /\ the_flag (run_kw (1 / 10)) "perturb" = false /\
  fits 1 x_obs /\ pauli_type x_obs /\ (forall i, In i [0; 1] -> slow_layer 1 x_obs w (if i =? 0 then / 2 else / 4) (two_asked i) i) /\
  approx_optimizer x eigh (fun _ _ _ => 0%R) 1 [] [x_obs] w RetState (AList (map Some [0; 1])) [] (run_kw (1 / 10)) = Ok r /\ ap_result (run_kw (1 / 10)) r cs ss os us ps zs /\
  direction 1 mid (a_ent lit_Y) (a_ent lit_X) = (-2)%R.
Proof.
  destruct eigh_exists as (eigh & He). set (x := mkoracles svd_trivial (fun l => l) (fun _ => 0) (0, 0, 0) (fun f => (f (0, 0, 0)%R, 0, 0)%R)).
  assert (Hf : Forall (fits 1) [x_obs]) by (constructor; [apply x_obs_fit|constructor]). assert (Hh : Forall hermitian_obs [x_obs]) by (constructor; [apply x_obs_pauli|constructor]).
  assert (Hg : good_args 1 1 (1 / 10) 0 (Some ["Y"%string])) by (split; [lra|]; split; [auto|]; split; [discriminate|]; intros d [<-|[]]; simpl; auto).
  assert (Ht : false = true \/ Some ["Y"%string] <> Some []) by (right; discriminate).
  assert (Hl : (0 <= 1 / 10 <= 1)%R) by lra.
  assert (Hi : incl ["Y"; "Z"]%string (su2_list ++ su4_list)) by (intros d [<-|[<-|[]]]; simpl; auto).
  assert (Hx : exists d, In d ["Y"; "Z"]%string /\ String.length d <= 1) by (exists "Y"%string; simpl; auto).
  destruct (C42_local_layer_unitary 1 [x_obs] 1 (1 / 10) 0 (Some ["Y"%string]) true false Hf Hh Hg Ht) as (a & Ea & _).
  destruct (C42_custom_layer_unitary 1 [x_obs] ["Y"; "Z"]%string (1 / 10) false false Hf Hh Hl Hi (or_intror (or_intror Hx))) as (b & Eb & _).
  set (w := [OLocal (local_set_eta a (/ 2)); OCustom (custom_set_eta b (/ 4))]).
  assert (A : ap_accepts (AList (map Some [0; 1])) (run_kw (1 / 10))) by (apply run_kw_ok; lra).
  destruct (C66_approximate_returns x eigh (fun _ _ _ => 0%R) 1 [] [x_obs] w [0; 1] [] (run_kw (1 / 10))) as (r & Er); try assumption.
  - constructor.
  - apply svd_trivial_correct.
  - apply He.
  - constructor; [exact (dep_local 1 _ 1 (1 / 10) 0 _ true false a (/ 2) Hf Hh Hg Ht Ea)|]. constructor; [|constructor]. exact (dep_custom 1 _ _ (1 / 10) false false b (/ 4) Hf Hh Hl Hi (or_intror (or_intror Hx)) Eb).
  - discriminate.
  - repeat constructor.
  - constructor.
  - left. reflexivity.
  - discriminate.
  - pose proof Er as Er'. unfold approx_optimizer in Er'. destruct (C60_approximate_shape _ _ _ _ _ _ _ _ _ _ _ _ _ _ _ _ _ _ A Er') as (cs & ss & os & us & ps & zs & Hr).
    exists x, eigh, w, r, cs, ss, os, us, ps, zs. split; [apply svd_trivial_correct|]. split; [reflexivity|]. split; [exact A|]. split; [reflexivity|]. split; [apply x_obs_fit|]. split; [apply x_obs_pauli|].
    split; [|split; [exact Er|split; [exact Hr|]]].
    + intros i [<-|[<-|[]]]; cbn [Nat.eqb]; (split; [lra|split]).
      * intros Ps (ks & Hn & Hk & HP). apply Forall2_length' in HP. rewrite <- HP. assert (List.length ks <= 1) by (apply (one_qubit_keys ["Y"%string] 1 ks Hn); [intros d q Hq; apply Hk in Hq; exact Hq|reflexivity]). apply le_INR in H. simpl in *. lra.
      * eexists. split; [reflexivity|]. exact (rate_local 1 [x_obs] (/ 2) 1 (1 / 10) 0 (Some ["Y"%string]) true false a Hg Ht Ea).
      * intros Ps (ks & Hn & Hk & HP). apply Forall2_length' in HP. rewrite <- HP. assert (List.length ks <= 2).
        { apply (one_qubit_keys ["Y"; "Z"]%string 2 ks Hn); [|reflexivity]. intros d q Hq. apply Hk in Hq. destruct Hq as [Hd Hq]. split; [exact Hd|]. destruct Hd as [<-|[<-|[]]]; exact Hq. }
        apply le_INR in H. simpl in *. lra.
      * eexists. split; [reflexivity|]. exact (rate_custom 1 [x_obs] (/ 4) ["Y"; "Z"]%string (1 / 10) false false b Hl Hi (or_intror Hx) Eb).
    + exact C45_case.
Qed.
