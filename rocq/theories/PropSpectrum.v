(** Property C100: the costs of the optimizers lie between the smallest and the largest
    eigenvalue of the Hamiltonian matrix. *)
From Coq Require Import ZArith Arith Lia Bool String Reals Lra Ring Setoid Morphisms Classical.
From Coquelicot Require Import Coquelicot.
From Verif Require S3Model PropS3.
From Verif Require Import Py StarRing Matrix Cplx Bits Expm MDeriv UtilsModel CircuitModel CircuitProofs CircuitProofs2 LayerModel LayerProofs OptimizerModel OptProofs RotoProofs
  FlowModel FlowProofs FlowProofs2 Spectral FlowMany FlowRate AdaptModel AdaptProofs ShiftModel ShiftProofs ShiftDescent ApproxModel ApproxProofs PropLayers PropGreedy PropAdapt PropOptArgs PropOptRun PropFlow PropMany PropFlowRate PropShift PropApprox PropShiftRun
  SphereModel RedBlueModel PropSphere PropRedBlue.
From Coq Require Import List.
Import ListNotations.
Local Open Scope nat_scope.
Local Open Scope list_scope.

(** ** Specification *)

(** min(eigvals) and max(eigvals) *)
Definition lowest (d : nat) (H : mat C) (l : R) : Prop := eigenvalue d H l /\ forall m, eigenvalue d H m -> (l <= m)%R.
Definition highest (d : nat) (H : mat C) (l : R) : Prop := eigenvalue d H l /\ forall m, eigenvalue d H m -> (m <= l)%R.
(** s is an eigenvector for the eigenvalue l *)
Definition has_value (d : nat) (H : mat C) (l : R) (s : nat -> C) : Prop :=
  forall i, i < d -> lsum (SR := CStar) (fun j => Cmult (H i j) (s j)) (seq 0 d) = Cmult (RtoC l) (s i).
(** every cost is in the range of the eigenvalues, and reaches the ends of the range only
    in an eigenvector; ss are the states of the costs or nothing *)
Definition between (d : nat) (H : mat C) (cs : list R) (ss : list (nat -> C)) : Prop :=
  forall lo hi, lowest d H lo -> highest d H hi ->
    Forall (fun c => lo <= c <= hi)%R cs /\
    (forall k c s, nth_error cs k = Some c -> nth_error ss k = Some s -> (c = lo <-> has_value d H lo s) /\ (c = hi <-> has_value d H hi s)).

(** ** Proofs *)
Lemma Re_lsum {A} (g : A -> C) l : Re (lsum (SR := CStar) g l) = rsum (fun k => Re (g k)) l.
Proof. induction l as [|a l IH]; [reflexivity|]. rewrite lsum_cons. cbn [kadd CStar rsum]. rewrite Re_plus, IH. reflexivity. Qed.

Lemma eigen_column d H Sv V : eigh_at d H (Sv, V) -> forall k, k < d -> eigenvalue d H (Sv k).
Proof.
  intros [[V1 V2] HH] k Hk. cbn [fst snd] in *. exists (fun i => V i k). split.
  - apply NNPP. intros Hz. pose proof (V1 k k Hk Hk) as Q. rewrite mid_eq in Q. unfold mmul in Q. rewrite (lsum_zero (SR := CStar)) in Q.
    + apply (f_equal Re) in Q. simpl in Q. lra.
    + intros i Hi. apply in_seq in Hi. unfold madj. assert (Vz : V i k = RtoC 0) by (apply NNPP; intros Nz; apply Hz; exists i; split; [lia|exact Nz]). rewrite Vz. cbn [kmul kconj k0 CStar]. apply C_ext; simpl; ring.
  - intros i Hi. change (mv d H (fun j => V j k) i = Cmult (RtoC (Sv k)) (V i k)). rewrite (mv_ext d _ _ _ _ HH (veq_refl d _) i Hi), (mv_spin d _ V _ i Hi).
    assert (K : veq d (mv d (madj V) (fun j => V j k)) (fun j => mid (SR := CStar) j k)). { intros j Hj. specialize (V1 j k Hj Hk). exact V1. }
    unfold mv at 1. rewrite (lsum_single (SR := CStar) _ _ k).
    + rewrite (K k Hk), mid_eq. cbn [k1 CStar]. ring.
    + apply seq_NoDup.
    + apply in_seq. lia.
    + intros j Hj Nj. apply in_seq in Hj. rewrite (K j ltac:(lia)), mid_neq by exact Nj. cbn [k0 CStar]. ring.
Qed.

Lemma iso d V a b : meq d (mmul d (madj V) V) mid -> ip d (mv d V a) (mv d V b) = ip d a b.
Proof. intros V1. rewrite ip_adj. apply ip_ext; [|apply veq_refl]. apply mv_inv_l. exact V1. Qed.

Lemma back d V x : meq d (mmul d V (madj V)) mid -> veq d (mv d V (mv d (madj V) x)) x.
Proof. intros V2 i Hi. rewrite <- mv_mul, (mv_ext d _ _ x x V2 (veq_refl d x) i Hi). apply mv_id. exact Hi. Qed.

Lemma eigen_only d H Sv V l : eigh_at d H (Sv, V) -> eigenvalue d H l -> exists k, k < d /\ l = Sv k.
Proof.
  intros [[V1 V2] HH] (v & (i & Hi & Nv) & Hv). cbn [fst snd] in *. apply NNPP. intros N.
  set (y := mv d (madj V) v). apply Nv. rewrite <- (back d V v V2 i Hi). fold y. unfold mv. apply (lsum_zero (SR := CStar)). intros k Hk. apply in_seq in Hk.
  assert (Y : y k = RtoC 0); [|rewrite Y; cbn [kmul k0 CStar]; apply C_ext; simpl; ring].
  assert (E : Cmult (RtoC (Sv k)) (y k) = Cmult (RtoC l) (y k)).
  { assert (Q : veq d (mv d V (fun k => Cmult (RtoC (Sv k)) (y k))) (fun i => Cmult (RtoC l) (v i))).
    { intros j Hj. rewrite <- (mv_spin d _ V v j Hj). rewrite <- (mv_ext d _ _ v v HH (veq_refl d v) j Hj). apply Hv. exact Hj. }
    pose proof (mv_inv_l d V (fun k => Cmult (RtoC (Sv k)) (y k)) V1 k ltac:(lia)) as A. cbv beta in A. rewrite <- A.
    rewrite (mv_veq d (madj V) _ _ Q k ltac:(lia)). unfold y. rewrite <- mv_scale. reflexivity. }
  assert (Nl : (Sv k - l)%R <> 0%R). { intros Z. apply N. exists k. split; [lia|lra]. }
  destruct (y k) as [a b]. apply (f_equal (fun z => (Re z, Im z))) in E. simpl in E. injection E as E1 E2. apply C_ext; simpl.
  - apply (Rmult_eq_reg_l (Sv k - l)); [lra|exact Nl].
  - apply (Rmult_eq_reg_l (Sv k - l)); [lra|exact Nl].
Qed.

Lemma spread d H Sv V x : eigh_at d H (Sv, V) -> ip d x x = RtoC 1 -> exists y w, veq d (mv d V y) x /\ (forall k, w k = Re (y k) ^ 2 + Im (y k) ^ 2)%R /\
  rsum w (seq 0 d) = 1%R /\ Re (quad d x H) = rsum (fun k => w k * Sv k)%R (seq 0 d) /\ veq d (mv d H x) (mv d V (fun k => Cmult (RtoC (Sv k)) (y k))).
Proof.
  intros [[V1 V2] HH] N. cbn [fst snd] in *. set (y := mv d (madj V) x). exists y, (fun k => Re (y k) ^ 2 + Im (y k) ^ 2)%R.
  pose proof (back d V x V2) as Xy. fold y in Xy. split; [exact Xy|]. split; [reflexivity|].
  assert (Ny : ip d y y = RtoC 1) by (rewrite <- (iso d V y y V1), (ip_ext d _ _ _ _ Xy Xy); exact N).
  assert (Hx : veq d (mv d H x) (mv d V (fun k => Cmult (RtoC (Sv k)) (y k)))).
  { intros i Hi. rewrite (mv_ext d _ _ x x HH (veq_refl d x) i Hi). apply mv_spin. exact Hi. }
  split; [|split; [|exact Hx]].
  - apply (f_equal Re) in Ny. unfold ip in Ny. rewrite Re_lsum in Ny. change (Re (RtoC 1)) with 1%R in Ny. rewrite <- Ny. apply rsum_ext. intros k _. destruct (y k). simpl. ring.
  - rewrite quad_ip. rewrite (ip_ext d _ _ _ _ (fun i Hi => eq_sym (Xy i Hi)) Hx), (iso d V _ _ V1). unfold ip. rewrite Re_lsum. apply rsum_ext. intros k _. destruct (y k). simpl. ring.
Qed.

Lemma rsum_le {A} (f g : A -> R) l : (forall a, In a l -> f a <= g a)%R -> (rsum f l <= rsum g l)%R.
Proof. induction l as [|a l IH]; intros H; cbn [rsum]; [lra|]. pose proof (H a (or_introl eq_refl)). pose proof (IH (fun b Hb => H b (or_intror Hb))). lra. Qed.

Lemma rsum_zero {A} (f : A -> R) l : (forall a, In a l -> 0 <= f a)%R -> rsum f l = 0%R -> forall a, In a l -> f a = 0%R.
Proof.
  induction l as [|b l IH]; intros H Z a Ha; [destruct Ha|]. cbn [rsum] in Z. pose proof (H b (or_introl eq_refl)) as B.
  assert (N : (0 <= rsum f l)%R) by (apply rsum_nonneg; intros c Hc; apply H; right; exact Hc).
  destruct Ha as [<-|Ha]; [lra|]. apply IH; [intros c Hc; apply H; right; exact Hc|lra|exact Ha].
Qed.

(** the sign s is 1 for the smallest and -1 for the largest eigenvalue *)
Lemma extreme d H x (s l : R) : hermitian d H -> ip d x x = RtoC 1 -> (forall m, eigenvalue d H m -> s * l <= s * m)%R -> s <> 0%R ->
  (s * l <= s * Re (quad d x H))%R /\ (Re (quad d x H) = l <-> has_value d H l x).
Proof.
  intros Hh N Hl Hs. destruct (spectral d H Hh) as ([Sv V] & HA). destruct (spread d H Sv V x HA N) as (y & w & Xy & W & W1 & WS & Hx).
  assert (P : forall k, In k (seq 0 d) -> (0 <= w k * (s * Sv k - s * l))%R).
  { intros k Hk. apply in_seq in Hk. apply Rmult_le_pos; [rewrite W; apply Rplus_le_le_0_compat; apply pow2_ge_0|]. pose proof (Hl _ (eigen_column d H Sv V HA k ltac:(lia))). lra. }
  assert (D : (s * Re (quad d x H) - s * l = rsum (fun k => w k * (s * Sv k - s * l)) (seq 0 d))%R).
  { rewrite (rsum_ext _ (fun k => s * (w k * Sv k) + (- (s * l)) * w k)%R) by (intros; ring). rewrite rsum_plus, !rsum_scale, W1, <- WS. ring. }
  pose proof (rsum_nonneg _ _ P) as Q. rewrite <- D in Q. split; [lra|]. split; intros E.
  - assert (Z0 : rsum (fun k => w k * (s * Sv k - s * l))%R (seq 0 d) = 0%R) by (rewrite <- D, E; ring).
    pose proof (rsum_zero _ _ P Z0) as Z. intros i Hi. change (mv d H x i = Cmult (RtoC l) (x i)). rewrite (Hx i Hi), <- (Xy i Hi), <- mv_scale. apply mv_veq; [|exact Hi].
    intros k Hk. assert (Ik : In k (seq 0 d)) by (apply in_seq; lia). specialize (Z k Ik). cbv beta in Z. rewrite W in Z.
    apply Rmult_integral in Z. destruct Z as [Z|Z].
    + assert (Y0 : y k = RtoC 0) by (destruct (y k) as [a b]; simpl in Z; assert (Q2 : (Rsqr a + Rsqr b = 0)%R) by (unfold Rsqr; lra); destruct (Rplus_sqr_eq_0 a b Q2); subst; reflexivity). rewrite Y0. apply C_ext; simpl; ring.
    + assert (Sk : Sv k = l) by (apply (Rmult_eq_reg_l s); [lra|exact Hs]). rewrite Sk. reflexivity.
  - rewrite quad_ip. assert (E' : veq d (mv d H x) (fun i => Cmult (RtoC l) (x i))) by exact E. rewrite (ip_ext d x x _ _ (veq_refl d x) E').
    transitivity (l * Re (ip d x x))%R; [|rewrite N; simpl; ring]. unfold ip. rewrite !Re_lsum, <- rsum_scale. apply rsum_ext. intros k _. destruct (x k). simpl. ring.
Qed.

Lemma argmin (f : nat -> R) d : 0 < d -> exists k, k < d /\ forall j, j < d -> (f k <= f j)%R.
Proof.
  induction d as [|d IH]; [lia|]. intros _. destruct d as [|d]; [exists 0; split; [lia|]; intros j Hj; assert (j = 0) by lia; subst; lra|].
  destruct (IH ltac:(lia)) as (k & Hk & H). destruct (Rle_dec (f k) (f (S d))) as [L|L].
  - exists k. split; [lia|]. intros j Hj. destruct (Nat.eq_dec j (S d)); [subst; exact L|apply H; lia].
  - exists (S d). split; [lia|]. intros j Hj. destruct (Nat.eq_dec j (S d)); [subst; lra|]. specialize (H j ltac:(lia)). lra.
Qed.

(** ** C100 *)

(** The eigenvalues are the numbers that numpy.linalg.eigh returns; there are a smallest
    and a largest one. *)
Theorem C100_eigenvalues : forall d H eigh, hermitian d H -> eigh_correct d eigh -> 0 < d ->
  (forall l, eigenvalue d H l <-> exists k, k < d /\ l = fst (eigh d H) k) /\ (exists lo, lowest d H lo) /\ (exists hi, highest d H hi).
Proof.
  intros d H eigh Hh He Hd. pose proof (eigh_correct_at d eigh H He Hh) as HA. destruct (eigh d H) as [Sv V]. cbn [fst].
  assert (A : forall l, eigenvalue d H l <-> exists k, k < d /\ l = Sv k).
  { intros l. split; [apply (eigen_only d H Sv V l HA)|]. intros (k & Hk & ->). apply (eigen_column d H Sv V HA k Hk). }
  split; [exact A|]. split.
  - destruct (argmin Sv d Hd) as (k & Hk & Hm). exists (Sv k). split; [apply A; eauto|]. intros m Em. apply A in Em. destruct Em as (j & Hj & ->). apply Hm. exact Hj.
  - destruct (argmin (fun k => - Sv k)%R d Hd) as (k & Hk & Hm). exists (Sv k). split; [apply A; eauto|]. intros m Em. apply A in Em. destruct Em as (j & Hj & ->). specialize (Hm j Hj). lra.
Qed.
Print Assumptions C100_eigenvalues.

Lemma hamiltonian_sum n obs Fs H : Forall (fits n) obs -> Forall hermitian_obs obs -> Forall2 (embedded n) obs Fs -> get_hamiltonian_matrix n obs None = Ok H ->
  meq (2 ^ n) (a_ent H) (msum a_ent Fs) /\ hermitian (2 ^ n) (a_ent H).
Proof.
  intros Hf Hh HE EH. destruct (PropCircuit.C36_weighted_sum C CStar n obs None Hf) as [A _]. destruct A as (H' & Gs & E & _ & _ & EG & Ent & Her); [rewrite repeat_length; lia|].
  rewrite EH in E. injection E as <-. split; [|apply Her; [apply Forall_forall; intros x Hx; apply repeat_spec in Hx; subst; apply C_ext; simpl; ring|exact Hh]].
  intros r s Hr Hs. rewrite (Ent r s Hr Hs). clear Ent Her EH.
  assert (Q : forall obs Fs Gs, Forall (fits n) obs -> Forall2 (embedded n) obs Fs -> Forall2 (embedded n) obs Gs ->
    lsum (SR := CStar) (fun p => kmul (fst p) (a_ent (snd p) r s)) (combine (repeat k1 (List.length obs)) Gs) = msum a_ent Fs r s).
  { clear - Hr Hs. intros obs Fs Gs Hf HF. revert Gs. induction HF as [|o F obs Fs HF HFs IH]; intros Gs HG; inversion HG as [|? G ? Gs' HG1 HGs]; subst; [reflexivity|].
    cbn [List.length repeat combine]. rewrite lsum_cons. rewrite (IH (Forall_inv_tail Hf) Gs' HGs). cbn [fst snd]. unfold msum. cbn [map]. rewrite lsum_cons. cbn [kadd kmul k1 CStar].
    rewrite (embedded_unique n o G F (proj1 (proj2 (proj2 (Forall_inv Hf)))) HG1 HF r s Hr Hs). ring. }
  apply Q; [exact Hf|exact HE|]. apply full_embedded; [exact Hf|exact EG].
Qed.

Lemma cost_range n obs Fs H u lo hi : Forall (fits n) obs -> Forall hermitian_obs obs -> Forall2 (embedded n) obs Fs -> get_hamiltonian_matrix n obs None = Ok H -> unitary2 (2 ^ n) u ->
  lowest (2 ^ n) (a_ent H) lo -> highest (2 ^ n) (a_ent H) hi ->
  (lo <= energy n Fs u <= hi)%R /\ (energy n Fs u = lo <-> has_value (2 ^ n) (a_ent H) lo (qnode_state u)) /\ (energy n Fs u = hi <-> has_value (2 ^ n) (a_ent H) hi (qnode_state u)).
Proof.
  intros Hf Hh HE EH Hu [_ Hlo] [_ Hhi]. destruct (hamiltonian_sum n obs Fs H Hf Hh HE EH) as [M Her].
  assert (E : energy n Fs u = Re (quad (2 ^ n) (qnode_state u) (a_ent H))).
  { rewrite energy_quad, !quad_ip. f_equal. apply ip_ext; [apply veq_refl|]. apply mv_ext; [|apply veq_refl]. symmetry. exact M. }
  rewrite E. assert (N : ip (2 ^ n) (qnode_state u) (qnode_state u) = RtoC 1) by (apply state_norm; [apply pow2_pos'|apply Hu]).
  destruct (extreme (2 ^ n) (a_ent H) (qnode_state u) 1 lo Her N) as [L1 L2]; [intros m Hm; specialize (Hlo m Hm); lra|lra|].
  destruct (extreme (2 ^ n) (a_ent H) (qnode_state u) (-1) hi Her N) as [U1 U2]; [intros m Hm; specialize (Hhi m Hm); lra|lra|].
  split; [lra|]. split; assumption.
Qed.

Lemma range_list n obs Fs H circuits ss : Forall (fits n) obs -> Forall hermitian_obs obs -> Forall2 (embedded n) obs Fs -> get_hamiltonian_matrix n obs None = Ok H ->
  Forall (unitary2 (2 ^ n)) circuits -> ss = [] \/ ss = map (fun u i => u i 0) circuits -> between (2 ^ n) (a_ent H) (map (energy n Fs) circuits) ss.
Proof.
  intros Hf Hh HE EH Hu Hss lo hi Hlo Hhi. rewrite Forall_forall in Hu. split.
  - apply Forall_forall. intros c Hc. apply in_map_iff in Hc. destruct Hc as (u & <- & Hin). apply (cost_range n obs Fs H u lo hi); auto.
  - intros k c s Ec Es. destruct Hss as [->| ->]; [destruct k; discriminate|].
    destruct (nth_error circuits k) as [u|] eqn:Eu.
    + rewrite (map_nth_error (energy n Fs) k circuits Eu) in Ec. rewrite (map_nth_error (fun u i => u i 0) k circuits Eu) in Es. injection Ec as <-. injection Es as <-.
      apply (cost_range n obs Fs H u lo hi); auto. apply Hu. eapply nth_error_In. exact Eu.
    + apply nth_error_None in Eu. assert (k < List.length (map (energy n Fs) circuits)) by (apply nth_error_Some; rewrite Ec; discriminate). rewrite map_length in *. lia.
Qed.

(** The three optimizers, for any Hermitian observables and any options. *)
Theorem C100_exact : forall P Om Z n gates obs eigh random kw (r : retval (item (nat -> C) P Om (mat C) Z)) cs ss ps u H,
  Forall (unitary_gate n) gates -> Forall (fits n) obs -> Forall hermitian_obs obs -> eigh_correct (2 ^ n) eigh -> ex_accepts kw ->
  exact_optimizer eigh random n gates obs RetState kw = Ok r -> ex_result kw r cs ss ps u -> get_hamiltonian_matrix n obs None = Ok H ->
  between (2 ^ n) (a_ent H) cs (if the_flag kw "return_state" then ss else []).
Proof.
  intros P Om Z n gates obs eigh random kw r cs ss ps u H Hg Hf Hh He Ha E Hr EH.
  destruct (C66_exact_unitary P Om Z n gates obs eigh random kw Hg Hf He Ha) as (r' & E' & K). rewrite E in E'. injection E' as <-.
  destruct (K _ _ _ _ Hr) as [(circuits & Fs & HE & Hu & -> & Hs) _]. apply (range_list n obs Fs H circuits); auto.
  destruct (the_flag kw "return_state"); [right; apply Hs; reflexivity|left; reflexivity].
Qed.
Print Assumptions C100_exact.

Theorem C100_approximate : forall x eigh random n gates obs w layers p0 kw r cs ss os us ps zs H,
  Forall (unitary_gate n) gates -> Forall (fits n) obs -> Forall hermitian_obs obs -> svd_correct (or_svd x) -> eigh_correct (2 ^ n) eigh -> Forall (built x n) w -> ap_accepts layers kw ->
  approx_optimizer x eigh random n gates obs w RetState layers p0 kw = Ok r -> ap_result kw r cs ss os us ps zs -> get_hamiltonian_matrix n obs None = Ok H ->
  between (2 ^ n) (a_ent H) cs (if the_flag kw "return_state" then ss else []).
Proof.
  intros x eigh random n gates obs w layers p0 kw r cs ss os us ps zs H Hg Hf Hh Hs He Hw Ha E Hr EH.
  destruct (C66_approximate_unitary _ _ _ _ _ _ _ _ _ _ _ _ _ _ _ _ _ Hg Hf Hs He Hw Ha E Hr) as (circuits & Fs & HE & Hu & -> & _ & Hst & _). apply (range_list n obs Fs H circuits); auto.
  destruct (the_flag kw "return_state"); [right; apply Hst; reflexivity|left; reflexivity].
Qed.
Print Assumptions C100_approximate.

Lemma mapM_each {A B} (f : A -> res B) l ys : mapM f l = Ok ys -> Forall2 (fun a b => f a = Ok b) l ys.
Proof.
  revert ys. induction l as [|a l IH]; intros ys E; cbn [mapM] in E; [injection E as <-; constructor|].
  destruct (f a) as [b|] eqn:Ea; cbn [bind] in E; [|discriminate]. destruct (mapM f l) as [bs|]; cbn [bind] in E; [|discriminate]. injection E as <-. constructor; [exact Ea|apply IH; reflexivity].
Qed.

Theorem C100_shift : forall Om U Z n obs circ p0 l kw (r : retval (item (nat -> C) rows Om U Z)) cs ss ps H,
  Forall (fits n) obs -> Forall hermitian_obs obs -> rotation_circuit n circ p0 l -> ps_accepts kw ->
  shift_optimizer n obs circ RetPlain p0 kw = Ok r -> ps_result kw r cs ss ps -> get_hamiltonian_matrix n obs None = Ok H ->
  between (2 ^ n) (a_ent H) cs (if the_flag kw "return_state" then ss else []).
Proof.
  intros Om U Z n obs circ p0 l kw r cs ss ps H Hf Hh Hr Ha E Hres EH. unfold shift_optimizer in E.
  destruct (C56_shift_histories _ _ _ _ _ _ _ _ _ _ _ _ _ _ Ha E Hres) as (points & H0 & Hch & Hlen & Hc & Hst & Hp).
  assert (Hs : forall i p, nth_error points i = Some p -> same_shape p0 p).
  { induction i as [|i IH]; intros p Ep; [rewrite H0 in Ep; injection Ep as <-; reflexivity|].
    destruct (nth_error points i) as [q|] eqn:Eq; [|apply nth_error_None in Eq; assert (S i < List.length points) by (apply nth_error_Some; congruence); lia].
    eapply same_shape_trans; [exact (IH q eq_refl)|]. eapply gd_shape. exact (Hch i q p Eq Ep). }
  destruct (mapM_full n obs) as (Fs & EF & _); [exact Hf|]. pose proof (full_embedded n obs Fs Hf EF) as HE.
  destruct Hr as (Hv & _ & Hcirc).
  set (mat_of := fun p : rows => match circuit_unitary (K := C) n (map gate_qop (map (fill (angles p)) l)) with Ok u => a_ent u | Err _ => mid end).
  assert (Hm : forall p, same_shape p0 p -> unitary2 (2 ^ n) (mat_of p) /\ vqe_cost n obs circ p = Ok (energy n Fs (mat_of p)) /\ vqe_state n circ p = Ok (fun i => mat_of p i 0)).
  { intros p Sp. unfold mat_of, vqe_cost, vqe_state. rewrite (Hcirc p Sp). cbn [bind]. destruct (slots_unitary n (angles p) l Hv) as (u & Eu & Mu). rewrite Eu. cbn [bind].
    split; [|split; [apply cost_energy; apply mapM_each; exact EF|reflexivity]].
    pose proof (slots_mat_unitary n (angles p) l Hv) as Hu. destruct Hu as [U1 U2]. split; [rewrite Mu; exact U1|rewrite Mu; exact U2]. }
  assert (Hin : forall p, In p points -> same_shape p0 p) by (intros p Hp'; apply In_nth_error in Hp'; destruct Hp' as (i & Hi); exact (Hs i p Hi)).
  assert (Ecs : cs = map (energy n Fs) (map mat_of points)).
  { clear - Hc Hin Hm. induction Hc as [|p c points cs Hpc _ IH]; [reflexivity|]. cbn [map]. rewrite IH by (intros q Hq; apply Hin; right; exact Hq). f_equal.
    destruct (Hm p (Hin p (or_introl eq_refl))) as (_ & Q & _). rewrite Hpc in Q. congruence. }
  rewrite Ecs. apply (range_list n obs Fs H (map mat_of points)); auto.
  - apply Forall_forall. intros u Hu. apply in_map_iff in Hu. destruct Hu as (p & <- & Hp'). apply Hm. apply Hin. exact Hp'.
  - destruct (the_flag kw "return_state"); [right|left; reflexivity]. specialize (Hst eq_refl).
    clear - Hst Hin Hm. induction Hst as [|p s points ss Hps _ IH]; [reflexivity|]. cbn [map]. rewrite IH by (intros q Hq; apply Hin; right; exact Hq). f_equal.
    destruct (Hm p (Hin p (or_introl eq_refl))) as (_ & _ & Q). rewrite Hps in Q. congruence.
Qed.
Print Assumptions C100_shift.

(** The residual |cost - min(eigvals)| of the figures is cost - min(eigvals): nothing is
    folded over. *)
Theorem C100_residual : forall d H cs ss lo hi, lowest d H lo -> highest d H hi -> between d H cs ss -> Forall (fun c => Rabs (c - lo) = c - lo)%R cs.
Proof. intros d H cs ss lo hi Hl Hh Hb. destruct (Hb lo hi Hl Hh) as [Hc _]. eapply Forall_impl; [|exact Hc]. intros c Hc'. cbv beta in *. apply Rabs_right. lra. Qed.
Print Assumptions C100_residual.

(** A non-trivial case: X + Y on a qubit. Its eigenvalues are the two roots of 2, and the
    circuit of red_blue_comparison.py reaches both; a run started at (pi/2, 5 pi/4) is one
    from the smallest. *)
Lemma rb_herm : Forall hermitian_obs rb_observables.
Proof.
  repeat constructor; unfold hermitian_obs, hermitian; cbn [q_wires List.length q_matrix a_ent]; change (2 ^ 1) with 2; intros i j Hi Hj; destruct i as [|[|i]]; [| |lia| | |lia]; (destruct j as [|[|j]]; [| |lia]); apply C_ext; simpl; ring.
Qed.
Lemma neg_cos' x : cos (PI + x) = (- cos x)%R.
Proof. rewrite Rplus_comm. apply neg_cos. Qed.
Lemma neg_sin' x : sin (PI + x) = (- sin x)%R.
Proof. rewrite Rplus_comm. apply neg_sin. Qed.
Example C100_case : exists H, get_hamiltonian_matrix 1 rb_observables None = Ok H /\ lowest (2 ^ 1) (a_ent H) (- sqrt 2) /\ highest (2 ^ 1) (a_ent H) (sqrt 2) /\
  vqe_cost 1 rb_observables rb_circuit [[(PI / 2)%R; (PI / 4)%R]] = Ok (sqrt 2) /\
  forall kw, ps_accepts kw -> exists r : retval (item (nat -> C) rows unit unit unit), shift_optimizer 1 rb_observables rb_circuit RetPlain [[(PI / 2)%R; (PI + PI / 4)%R]] kw = Ok r /\
    exists cs ss ps, ps_result kw r cs ss ps /\ nth_error cs 0 = Some (- sqrt 2)%R /\ Forall (fun c => Rabs (c + sqrt 2) = c + sqrt 2)%R cs.
Proof.
  destruct PropS3.fp_hamiltonian as (H & EH & M). change S3Model.fp_observables with rb_observables in EH. exists H. split; [exact EH|].
  assert (Q2 : (sqrt 2 * sqrt 2 = 2)%R) by (apply sqrt_sqrt; lra). assert (P2 : (0 < sqrt 2)%R) by (apply sqrt_lt_R0; lra).
  assert (V : forall s, (s * s = 2)%R -> eigenvalue 2 (a_ent H) s).
  { intros s Hs. exists (fun i => match i with 0 => RtoC s | _ => (1, 1)%R end). split; [exists 1; split; [lia|]; intros E; apply (f_equal Re) in E; simpl in E; lra|].
    intros i Hi. cbn [seq]. rewrite !lsum_cons, lsum_nil, !M by lia. cbn [kadd k0 CStar]. destruct i as [|[|i]]; [| |lia]; apply C_ext; simpl; lra. }
  assert (O : forall m, eigenvalue 2 (a_ent H) m -> (m * m = 2)%R).
  { intros m (v & (i & Hi & Nv) & Hv). pose proof (Hv 0 ltac:(lia)) as E0. pose proof (Hv 1 ltac:(lia)) as E1. cbn [seq] in E0, E1. rewrite !lsum_cons, lsum_nil, !M in E0, E1 by lia. cbn [kadd k0 CStar] in E0, E1.
    destruct (v 0) as [a b] eqn:V0, (v 1) as [c d] eqn:V1. apply (f_equal (fun z => (Re z, Im z))) in E0, E1. simpl in E0, E1. injection E0 as A1 A2. injection E1 as B1 B2.
    apply NNPP. intros Nm. assert (Z : (m * m - 2)%R <> 0%R) by (intros Z; apply Nm; lra). apply Nv. destruct i as [|[|i]]; [| |lia]; [rewrite V0|rewrite V1]; apply C_ext; simpl; apply (Rmult_eq_reg_l (m * m - 2)); try exact Z; nra. }
  change (2 ^ 1) with 2.
  assert (Lo : lowest 2 (a_ent H) (- sqrt 2)) by (split; [apply V; lra|]; intros m Hm; apply O in Hm; nra).
  assert (Hi : highest 2 (a_ent H) (sqrt 2)) by (split; [apply V; lra|]; intros m Hm; apply O in Hm; nra).
  split; [exact Lo|]. split; [exact Hi|]. split.
  - rewrite rb_vqe, sin_PI2, cos_PI4, sin_PI4. f_equal. field_simplify_eq; [lra|lra].
  - intros kw Ha. destruct (shift_runs (Om := unit) (U := unit) (Z := unit) 1 rb_observables rb_circuit [[(PI / 2)%R; (PI + PI / 4)%R]] slots_rb kw rb_fits (rb_rotation _ _) Ha) as (r & Er). exists r. split; [exact Er|].
    assert (Er' := Er). unfold shift_optimizer in Er'. destruct (C60_shift_shape _ _ _ _ _ _ _ _ _ _ _ Ha Er') as (cs & ss & ps & Hr). exists cs, ss, ps. split; [exact Hr|].
    assert (B := C100_shift unit unit unit 1 rb_observables rb_circuit _ slots_rb kw r cs ss ps H rb_fits rb_herm (rb_rotation _ _) Ha Er Hr EH).
    destruct (C56_shift_histories _ _ _ _ _ _ _ _ _ _ _ _ _ _ Ha Er' Hr) as (points & H0 & _ & _ & Hc & _). split.
    + destruct (Forall2_nth _ _ _ Hc 0 _ H0) as (c & Ec & Cw). rewrite rb_vqe, sin_PI2, neg_cos', neg_sin', cos_PI4, sin_PI4 in Cw. rewrite Ec. f_equal. assert (c = 1 * (- (1 / sqrt 2) + - (1 / sqrt 2)))%R as -> by congruence. field_simplify_eq; [lra|lra].
    + change (2 ^ 1) with 2 in B. eapply Forall_impl; [|exact (C100_residual _ _ _ _ _ _ Lo Hi B)]. intros c. cbv beta. replace (c - - sqrt 2)%R with (c + sqrt 2)%R by ring. auto.
Qed.
Print Assumptions C100_case.
