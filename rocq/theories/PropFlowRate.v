(** Property C91: how fast exact_lie_optimizer lowers the cost for a sum of observables. *)
From Coq Require Import ZArith Arith Lia Bool String Reals Lra Ring Setoid Morphisms Classical.
From Coquelicot Require Import Coquelicot.
From Verif Require Import Py StarRing Matrix Cplx Bits Expm MDeriv UtilsModel CircuitModel CircuitProofs CircuitProofs2 LayerModel LayerProofs OptimizerModel OptProofs RotoProofs
  FlowModel FlowProofs FlowProofs2 FlowMany FlowRate PropLayers PropGreedy PropOptArgs PropOptRun PropFlow PropMany.
From Coq Require Import List.
Import ListNotations.
Local Open Scope nat_scope.
Local Open Scope list_scope.

(** ** Specification *)

(** l is an eigenvalue of H *)
Definition eigenvalue (d : nat) (H : mat C) (l : R) : Prop := exists v : nat -> C, (exists i, i < d /\ v i <> RtoC 0) /\
  forall i, i < d -> lsum (SR := CStar) (fun j => Cmult (H i j) (v j)) (seq 0 d) = Cmult (RtoC l) (v i).

(** ** Proofs *)
Lemma involution_bounded d F : hermitian d F -> meq d (mmul d F F) mid -> bounded d 1 F.
Proof.
  intros Fh F2 x. rewrite Rmult_1_l. apply nrm_le; [apply nrm_pos|]. rewrite nrm_sq, rip_mv by exact Fh. right.
  apply rip_ext; [apply veq_refl|]. intros i Hi. rewrite <- mv_mul, (mv_ext d _ _ x x F2 (veq_refl d x) i Hi). apply mv_id. exact Hi.
Qed.
Lemma mv_zero d x i : mv d (msum a_ent ([] : list (arr C))) x i = RtoC 0.
Proof. unfold mv, msum. apply (lsum_zero (SR := CStar)). intros; rewrite lsum_nil; cbn [kmul k0 CStar]; ring. Qed.
Lemma mv_cons d F Fs x : veq d (mv d (msum a_ent (F :: Fs)) x) (vlin 1 (mv d (a_ent F) x) 1 (mv d (msum a_ent Fs) x)).
Proof. intros i _. rewrite msum_cons_mv. unfold vlin. destruct (mv d (a_ent F) x i), (mv d (msum a_ent Fs) x i). apply C_ext; simpl; ring. Qed.
Lemma sum_bounded d (Fs : list (arr C)) : Forall (fun F => bounded d 1 (a_ent F)) Fs -> bounded d (INR (List.length Fs)) (msum a_ent Fs).
Proof.
  induction 1 as [|F Fs HF H IH]; intros x.
  - cbn [List.length INR]. rewrite Rmult_0_l. apply nrm_le; [lra|]. rewrite Rmult_0_l. right. unfold rip. rewrite (ip_ext d _ (fun _ => Cmult (RtoC 0) (RtoC 0)) _ (fun _ => Cmult (RtoC 0) (RtoC 0))) by (intros i _; rewrite mv_zero; ring).
    rewrite ip_scale_r. destruct (ip _ _ _). simpl. ring.
  - rewrite (nrm_ext d _ _ (mv_cons d F Fs x)). change (List.length (F :: Fs)) with (S (List.length Fs)). rewrite S_INR. eapply Rle_trans; [apply nrm_lin|]. rewrite Rabs_R1. specialize (HF x). specialize (IH x). lra.
Qed.
Lemma cov_sum d H x Fs : rsum (fun F => cov d (a_ent F) H x) Fs = cov d (msum a_ent Fs) H x.
Proof.
  induction Fs as [|F Fs IH]; cbn [rsum].
  - unfold cov, ev. assert (Z : forall y, rip d (mv d (msum a_ent ([] : list (arr C))) x) y = 0%R).
    { intros y. unfold rip. rewrite (ip_ext d _ (fun _ => Cmult (RtoC 0) (RtoC 0)) y y) by (try apply veq_refl; intros i _; rewrite mv_zero; ring). rewrite ip_scale_l. destruct (ip _ _ _). simpl. ring. }
    rewrite (rip_sym d x), !Z. ring.
  - rewrite IH. unfold cov, ev. rewrite (rip_ext d _ _ (mv d H x) (mv d H x) (mv_cons d F Fs x) (veq_refl _ _)), rip_lin_l, (rip_ext d x x _ _ (veq_refl _ _) (mv_cons d F Fs x)), rip_lin. ring.
Qed.
Lemma energy_ev n Fs u : energy n Fs u = ev (2 ^ n) (msum a_ent Fs) (qnode_state u).
Proof. rewrite energy_quad, quad_ip. reflexivity. Qed.
Lemma variance_cov n H u : hermitian (2 ^ n) H -> variance n H u = cov (2 ^ n) H H (qnode_state u).
Proof.
  intros Hh. unfold variance, cov, ev, rip. change (fun i => u i 0) with (qnode_state u). rewrite !quad_ip, <- (ip_hermitian (2 ^ n) H (qnode_state u) (mv (2 ^ n) H (qnode_state u)) Hh).
  rewrite (ip_ext (2 ^ n) (qnode_state u) (qnode_state u) (mv (2 ^ n) (mmul (2 ^ n) H H) (qnode_state u)) (mv (2 ^ n) H (mv (2 ^ n) H (qnode_state u))) (veq_refl _ _)) by (intros i _; apply mv_mul). simpl. ring.
Qed.
Lemma state_unit n u : unitary2 (2 ^ n) u -> rip (2 ^ n) (qnode_state u) (qnode_state u) = 1%R.
Proof. intros Hu. unfold rip. rewrite state_norm; [reflexivity|apply pow2_pos'|apply Hu]. Qed.

(** the loop over the observables *)
Lemma flow_loop eigh n eta H L x0 obs Fs : eigh_correct (2 ^ n) eigh -> (0 <= eta)%R -> hermitian (2 ^ n) H -> bounded (2 ^ n) L H -> (0 <= L)%R -> rip (2 ^ n) x0 x0 = 1%R ->
  Forall (fits n) obs -> Forall pauli_type obs -> Forall2 (fun o F => full n o = Ok F) obs Fs ->
  forall k u, unitary2 (2 ^ n) u -> (nrm (2 ^ n) (vlin 1 (qnode_state u) (-1) x0) <= INR k * (eta / 2))%R ->
  exists u', exact_flow eigh n obs eta u = Ok u' /\ unitary2 (2 ^ n) u' /\
    (ev (2 ^ n) H (qnode_state u') <= ev (2 ^ n) H (qnode_state u) - eta * rsum (fun F => cov (2 ^ n) (a_ent F) H x0) Fs
       + L * (eta * eta) * (INR (List.length obs) + 3 * (INR k * INR (List.length obs) + INR (List.length obs) * (INR (List.length obs) - 1) / 2)))%R.
Proof.
  intros He E0 Hh HL L0 N0 Hf Hp HF. revert Hf Hp. induction HF as [|o F obs Fs EF HF IH]; intros Hf Hp k u Hu Hd.
  - exists u. split; [reflexivity|]. split; [exact Hu|]. cbn [rsum List.length INR]. lra.
  - pose proof (Forall_inv Hp) as Po. destruct (flow_is eigh n eta u o (Forall_inv Hf) Po He Hu) as (F' & u1 & EF' & _ & Fh & Es & Hu1 & Hst). rewrite EF in EF'. injection EF' as <-.
    destruct (obs_one n o (Forall_inv Hf)) as (F' & EF' & _ & _ & F2). rewrite EF in EF'. injection EF' as <-. specialize (F2 Po).
    pose proof (state_unit n u Hu) as N. cbv zeta in Hst.
    destruct (step_change (2 ^ n) L (a_ent F) H (qnode_state u) (qnode_state u1) eta Fh F2 Hh HL L0 N E0) as [S1 S2].
    { unfold ev, rip. rewrite <- quad_ip. exact Hst. }
    assert (Hd1 : (nrm (2 ^ n) (vlin 1 (qnode_state u1) (-1) x0) <= INR (S k) * (eta / 2))%R).
    { rewrite (nrm_ext _ _ (vlin 1 (vlin 1 (qnode_state u1) (-1) (qnode_state u)) 1 (vlin 1 (qnode_state u) (-1) x0))).
      - eapply Rle_trans; [apply nrm_lin|]. rewrite Rabs_R1, S_INR. lra.
      - intros i _. unfold vlin. destruct (qnode_state u1 i), (qnode_state u i), (x0 i). apply C_ext; simpl; ring. }
    destruct (IH (Forall_inv_tail Hf) (Forall_inv_tail Hp) (S k) u1 Hu1 Hd1) as (u' & E' & Hu' & B). exists u'.
    split; [unfold exact_flow; cbn [foldM]; rewrite Es; cbn [bind]; exact E'|]. split; [exact Hu'|].
    pose proof (cov_near (2 ^ n) L (a_ent F) H x0 (qnode_state u) _ (involution_bounded _ _ Fh F2) HL L0 N0 N Hd) as Cn. apply Rabs_le_between in Cn.
    assert (Q : (- (eta * cov (2 ^ n) (a_ent F) H (qnode_state u)) <= - (eta * cov (2 ^ n) (a_ent F) H x0) + 3 * L * (eta * eta) * INR k)%R).
    { assert (eta * (cov (2 ^ n) (a_ent F) H x0 - cov (2 ^ n) (a_ent F) H (qnode_state u)) <= eta * (6 * L * (INR k * (eta / 2))))%R by (apply Rmult_le_compat_l; lra). lra. }
    cbn [rsum]. change (List.length (o :: obs)) with (S (List.length obs)). rewrite !S_INR in *. nra.
Qed.

Lemma sum_setup n obs : Forall (fits n) obs -> Forall pauli_type obs -> exists Fs, Forall2 (fun o F => full n o = Ok F) obs Fs /\ Forall2 (embedded n) obs Fs /\
  Forall (fun F => hermitian (2 ^ n) (a_ent F)) Fs /\ bounded (2 ^ n) (INR (List.length obs)) (msum a_ent Fs) /\ hermitian (2 ^ n) (msum a_ent Fs).
Proof.
  intros Hf Hp. assert (Q : exists Fs, Forall2 (fun o F => full n o = Ok F) obs Fs /\ Forall2 (embedded n) obs Fs /\
    Forall (fun F => hermitian (2 ^ n) (a_ent F)) Fs /\ Forall (fun F => bounded (2 ^ n) 1 (a_ent F)) Fs /\ List.length Fs = List.length obs).
  { revert Hp. induction Hf as [|o obs Ho Hf IH]; intros Hp; [exists []; repeat split; constructor|]. destruct (IH (Forall_inv_tail Hp)) as (Fs & A1 & A2 & A3 & A4 & A5).
    destruct (obs_one n o Ho) as (F & EF & HE & Fh & F2). pose proof (Forall_inv Hp) as Po. specialize (Fh (proj1 Po)). specialize (F2 Po). exists (F :: Fs).
    repeat split; try (constructor; assumption); [constructor; [apply involution_bounded; assumption|assumption]|cbn; congruence]. }
  destruct Q as (Fs & A1 & A2 & A3 & A4 & A5). exists Fs. repeat (split; [assumption|]). split; [rewrite <- A5; apply sum_bounded; exact A4|apply msum_hermitian; exact A3].
Qed.

Lemma one_step eigh n obs eta Fs u : eigh_correct (2 ^ n) eigh -> (0 <= eta)%R -> Forall (fits n) obs -> Forall pauli_type obs -> Forall2 (fun o F => full n o = Ok F) obs Fs ->
  bounded (2 ^ n) (INR (List.length obs)) (msum a_ent Fs) -> hermitian (2 ^ n) (msum a_ent Fs) -> unitary2 (2 ^ n) u ->
  exists u', exact_flow eigh n obs eta u = Ok u' /\ unitary2 (2 ^ n) u' /\
    (energy n Fs u' <= energy n Fs u - eta * variance n (msum a_ent Fs) u + 3 / 2 * INR (List.length obs) ^ 3 * eta ^ 2)%R.
Proof.
  intros He E0 Hf Hp HF HB Hh Hu. pose proof (pos_INR (List.length obs)) as P. pose proof (state_unit n u Hu) as N.
  destruct (flow_loop eigh n eta (msum a_ent Fs) (INR (List.length obs)) (qnode_state u) obs Fs He E0 Hh HB P N Hf Hp HF 0 u Hu) as (u' & E & Hu' & B).
  { rewrite Rmult_0_l. apply nrm_le; [lra|]. right. rewrite rip_lin, !rip_lin_l. ring. }
  exists u'. split; [exact E|]. split; [exact Hu'|]. rewrite !energy_ev, (variance_cov n _ u Hh). rewrite cov_sum in B. eapply Rle_trans; [exact B|]. cbn [INR]. set (m := INR (List.length obs)) in *.
  assert (0 <= m * m * (eta * eta))%R by (apply Rmult_le_pos; nra). nra.
Qed.

(** ** C91 *)

(** A step with m observables lowers the cost by eta times the variance of the total
    observable, up to an error of at most (3/2) m^3 eta^2. *)
Theorem C91_exact_rate : forall n obs eta eigh u, Forall (fits n) obs -> Forall pauli_type obs -> (0 <= eta)%R -> eigh_correct (2 ^ n) eigh -> unitary2 (2 ^ n) u ->
  exists Fs u' c c', Forall2 (embedded n) obs Fs /\ exact_flow eigh n obs eta u = Ok u' /\ unitary2 (2 ^ n) u' /\ exact_cost n obs u = Ok c /\ exact_cost n obs u' = Ok c' /\
    (c' <= c - eta * variance n (msum a_ent Fs) u + 3 / 2 * INR (List.length obs) ^ 3 * eta ^ 2)%R.
Proof.
  intros n obs eta eigh u Hf Hp E0 He Hu. destruct (sum_setup n obs Hf Hp) as (Fs & A1 & A2 & A3 & A4 & A5).
  destruct (one_step eigh n obs eta Fs u He E0 Hf Hp A1 A4 A5 Hu) as (u' & E & Hu' & B). exists Fs, u', (energy n Fs u), (energy n Fs u').
  split; [exact A2|]. split; [exact E|]. split; [exact Hu'|]. split; [apply cost_energy; exact A1|]. split; [apply cost_energy; exact A1|exact B].
Qed.
Print Assumptions C91_exact_rate.

(** the weighted mean of numbers is not below all of them *)
Lemma mean_le (w f : nat -> R) l : (forall k, 0 <= w k)%R -> (rsum w l = 1)%R -> (rsum (fun k => w k * f k) l <= 0)%R -> exists k, In k l /\ (f k <= 0)%R.
Proof.
  intros W S0 S1. apply NNPP. intros N. assert (Pf : forall k, In k l -> (0 < f k)%R) by (intros k Hk; apply Rnot_le_lt; intros L; apply N; exists k; auto).
  assert (Q : forall l', incl l' l -> (rsum w l' = 0)%R \/ (0 < rsum (fun k => w k * f k) l')%R /\ True).
  { induction l' as [|a l' IH]; intros Hi; [left; reflexivity|]. cbn [rsum]. pose proof (Pf a (Hi a (or_introl eq_refl))) as Pa. pose proof (W a) as Wa.
    assert (Nn : (0 <= rsum (fun k => w k * f k) l')%R). { apply rsum_nonneg. intros k Hk. apply Rmult_le_pos; [apply W|]. left. apply Pf, Hi. right. exact Hk. }
    destruct (IH (fun x Hx => Hi x (or_intror Hx))) as [Z|[Z _]].
    - destruct (Req_dec (w a) 0) as [Za|Za]; [left; lra|]. right. split; [|exact I]. assert (0 < w a * f a)%R by (apply Rmult_lt_0_compat; lra). lra.
    - right. split; [|exact I]. assert (0 <= w a * f a)%R by (apply Rmult_le_pos; lra). lra. }
  destruct (Q l (incl_refl l)) as [Z|[Z _]]; lra.
Qed.

(** the squared distance of the expectation value to the nearest eigenvalue is at
    most the variance *)
Theorem C91_eigenvalue : forall n H eigh u, hermitian (2 ^ n) H -> eigh_correct (2 ^ n) eigh -> unitary2 (2 ^ n) u ->
  exists l, eigenvalue (2 ^ n) H l /\ ((l - Re (quad (2 ^ n) (fun i => u i 0%nat) H)) ^ 2 <= variance n H u)%R.
Proof.
  intros n H eigh u Hh He Hu. set (d := 2 ^ n). pose proof (eigh_correct_at d eigh H He Hh) as HA. destruct (eigh d H) as [Sv V]. destruct HA as [[V1 V2] HH]. cbn [fst snd] in *.
  set (x := qnode_state u). change (fun i => u i 0) with x. set (e := Re (quad d x H)). set (y := mv d (madj V) x).
  assert (N : ip d x x = RtoC 1) by (apply state_norm; [apply pow2_pos'|apply Hu]).
  assert (Iso : forall a b, ip d (mv d V a) (mv d V b) = ip d a b).
  { intros a b. rewrite ip_adj. apply ip_ext; [|apply veq_refl]. apply mv_inv_l. exact V1. }
  assert (Xy : veq d (mv d V y) x). { intros i Hi. unfold y. rewrite <- mv_mul, (mv_ext d _ _ x x V2 (veq_refl d x) i Hi). apply mv_id. exact Hi. }
  assert (Ny : ip d y y = RtoC 1) by (rewrite <- Iso, (ip_ext d _ _ _ _ Xy Xy); exact N).
  pose proof (variance_ip n H u Hh Hu) as Var. cbv zeta in Var. fold d x in Var. fold e in Var.
  set (z := fun k => Cmult (RtoC (Sv k - e)) (y k)).
  assert (Z : veq d (fun i => Cminus (mv d H x i) (Cmult (RtoC e) (x i))) (mv d V z)).
  { intros i Hi. rewrite (mv_ext d _ _ x x HH (veq_refl d x) i Hi), (mv_spin d _ V x i Hi), <- (Xy i Hi). fold y. unfold z.
    rewrite <- mv_scale, <- mv_subv. apply mv_veq; [|exact Hi]. intros k _. destruct (y k). apply C_ext; simpl; ring. }
  rewrite (ip_ext d _ _ _ _ Z Z), Iso in Var.
  set (w := fun k => (Re (y k) * Re (y k) + Im (y k) * Im (y k))%R).
  assert (Rs : forall (g : nat -> C) l, Re (lsum (SR := CStar) g l) = rsum (fun k => Re (g k)) l).
  { intros g l. induction l as [|a l IH]; [reflexivity|]. rewrite lsum_cons. cbn [kadd CStar rsum]. rewrite Re_plus, IH. reflexivity. }
  assert (W1 : rsum w (seq 0 d) = 1%R). { apply (f_equal Re) in Ny. unfold ip in Ny. rewrite Rs in Ny. change (Re (RtoC 1)) with 1%R in Ny. rewrite <- Ny. apply rsum_ext. intros k _. unfold w. destruct (y k). simpl. ring. }
  assert (W2 : variance n H u = rsum (fun k => w k * (Sv k - e) ^ 2)%R (seq 0 d)).
  { apply (f_equal Re) in Var. change (Re (RtoC (variance n H u))) with (variance n H u) in Var. rewrite Var. unfold ip. rewrite Rs. apply rsum_ext. intros k _. unfold w, z. destruct (y k). simpl. ring. }
  destruct (mean_le w (fun k => (Sv k - e) ^ 2 - variance n H u)%R (seq 0 d)) as (k & Hk & Hle).
  - intros k. unfold w. nra.
  - exact W1.
  - right. rewrite (rsum_ext _ (fun k => w k * (Sv k - e) ^ 2 + (- variance n H u) * w k)%R) by (intros; ring). rewrite rsum_plus, rsum_scale, W1, <- W2. ring.
  - exists (Sv k). split; [|lra]. apply in_seq in Hk. exists (fun i => V i k). split.
    + apply NNPP. intros Hz. pose proof (V1 k k ltac:(lia) ltac:(lia)) as Q. rewrite mid_eq in Q. unfold mmul in Q. rewrite (lsum_zero (SR := CStar)) in Q.
      * apply (f_equal Re) in Q. simpl in Q. lra.
      * intros i Hi. apply in_seq in Hi. unfold madj. assert (Vz : V i k = RtoC 0) by (apply NNPP; intros Nz; apply Hz; exists i; split; [lia|exact Nz]). rewrite Vz. cbn [kmul kconj k0 CStar]. apply C_ext; simpl; ring.
    + intros i Hi. change (mv d H (fun j => V j k) i = Cmult (RtoC (Sv k)) (V i k)). rewrite (mv_ext d _ _ _ _ HH (veq_refl d _) i Hi), (mv_spin d _ V _ i Hi).
      assert (K : veq d (mv d (madj V) (fun j => V j k)) (fun j => mid (SR := CStar) j k)). { intros j Hj. specialize (V1 j k Hj ltac:(lia)). exact V1. }
      unfold mv at 1. rewrite (lsum_single (SR := CStar) _ _ k).
      * rewrite (K k ltac:(lia)), mid_eq. cbn [k1 CStar]. ring.
      * apply seq_NoDup.
      * apply in_seq. lia.
      * intros j Hj Nj. apply in_seq in Hj. rewrite (K j ltac:(lia)), mid_neq by exact Nj. cbn [k0 CStar]. ring.
Qed.
Print Assumptions C91_eigenvalue.

(** A run without perturbations of T steps: every step obeys the bound, one of the
    steps starts from a circuit where eta T times the variance is at most
    2 m + (3/2) m^3 eta^2 T, and if the run stops before its last allowed step, then the
    variance of the circuit before the last step is small: eta times it is at most
    tol + m/10^5 + (3/2) m^3 eta^2. *)
Theorem C91_exact_run : forall P Om Z n gates obs eigh random kw (r : retval (item (nat -> C) P Om (mat C) Z)) cs ss ps u,
  Forall (unitary_gate n) gates -> Forall (fits n) obs -> Forall pauli_type obs -> eigh_correct (2 ^ n) eigh -> ex_accepts kw -> the_flag kw "perturbation" = false ->
  exact_optimizer eigh random n gates obs RetState kw = Ok r -> ex_result kw r cs ss ps u ->
  exists Fs circuits, let m := INR (List.length obs) in let T := List.length cs - 1 in let eta := the_eta kw in let V := variance n (msum a_ent Fs) in
    Forall2 (embedded n) obs Fs /\ Forall2 (fun u c => unitary2 (2 ^ n) u /\ exact_cost n obs u = Ok c) circuits cs /\ 1 <= T <= the_steps kw /\
    (forall k w c c', nth_error circuits k = Some w -> nth_error cs k = Some c -> nth_error cs (S k) = Some c' -> (c' <= c - eta * V w + 3 / 2 * m ^ 3 * eta ^ 2)%R) /\
    (exists k w, k < T /\ nth_error circuits k = Some w /\ (eta * INR T * V w <= 2 * m + 3 / 2 * m ^ 3 * eta ^ 2 * INR T)%R) /\
    (T < the_steps kw -> forall t, the_tol kw = Fin t -> exists w, nth_error circuits (T - 1) = Some w /\ (eta * V w <= t + m / 100000 + 3 / 2 * m ^ 3 * eta ^ 2)%R).
Proof.
  intros P Om Z n gates obs eigh random kw r cs ss ps u Hg Hf Hp He Ha Hpert E Hr.
  destruct (start_unitary n gates Hg) as (U & EU & HU). unfold exact_optimizer in E. rewrite EU in E. cbn [bind] in E.
  pose proof (C57_exact_stop _ _ _ _ _ _ _ _ _ _ _ _ _ _ _ _ Ha E Hr Hpert) as (n1 & Ln1 & Hn1 & _ & Hstall).
  destruct (C56_exact_histories _ _ _ _ _ _ _ _ _ _ _ _ _ _ _ _ Ha E Hr) as (circuits & u0 & T & E0 & H0 & Hl & Hm & Hc & Hcost & _ & _). injection E0 as E0.
  assert (Heta : (0 <= the_eta kw <= 1)%R).
  { destruct Ha as (_ & A & _). unfold the_eta. unfold allowed in A. destruct (arg kw "eta") as [v|]; [|lra]. destruct (A v eq_refl) as (x & -> & Hx). exact Hx. }
  destruct (sum_setup n obs Hf Hp) as (Fs & A1 & A2 & A3 & A4 & A5).
  assert (HQ : Forall (unitary2 (2 ^ n)) circuits).
  { eapply chain_forall; [| | |exact Hc].
    - intros s w Hw. apply perturb_unitary; assumption.
    - intros w v Hw Ef. destruct (flow_unitary eigh n obs (the_eta kw) Hf He w) as (v' & Ev & Hv). rewrite Ef in Ev. injection Ev as ->. auto.
    - intros w Hw. rewrite H0 in Hw. injection Hw as <-. rewrite <- E0. exact HU. }
  assert (Lc : List.length cs = S T) by (rewrite <- Hl; symmetry; apply (Forall2_length' _ _ _ Hcost)).
  assert (Qc : forall i w, nth_error circuits i = Some w -> unitary2 (2 ^ n) w /\ nth_error cs i = Some (energy n Fs w)).
  { intros i w Hw. split; [rewrite Forall_forall in HQ; apply HQ; eapply nth_error_In; exact Hw|]. revert i w Hw. clear - Hcost A1.
    induction Hcost as [|w y cw cc Ew H IH]; intros [|i] x Hx; try discriminate; cbn in Hx |- *; [injection Hx as <-; rewrite (cost_energy n obs Fs w A1) in Ew; injection Ew as <-; reflexivity|apply IH; exact Hx]. }
  set (m := INR (List.length obs)). set (eta := the_eta kw) in *. set (V := variance n (msum a_ent Fs)). set (K := (3 / 2 * m ^ 3 * eta ^ 2)%R).
  assert (St : forall k w w', nth_error circuits k = Some w -> nth_error circuits (S k) = Some w' -> (energy n Fs w' <= energy n Fs w - eta * V w + K)%R).
  { intros k w w' Ew Ew'. destruct (Hc k w w' Ew Ew') as (x & Hx & Ef). assert (x = w) as ->.
    { rewrite Hpert in Hx. destruct k; cbn [restart] in Hx; [exact Hx|]. destruct Hx as [(Q & _)|(_ & Q)]; [discriminate|exact Q]. }
    destruct (one_step eigh n obs eta Fs w He ltac:(lra) Hf Hp A1 A4 A5 (proj1 (Qc _ _ Ew))) as (v & Ev & _ & B). fold eta in Ef. rewrite Ef in Ev. injection Ev as <-. exact B. }
  assert (Get : forall k, k <= T -> exists w, nth_error circuits k = Some w).
  { intros k Hk. destruct (nth_error circuits k) as [w|] eqn:Ek; [eauto|]. apply nth_error_None in Ek. lia. }
  assert (Bd : forall w, unitary2 (2 ^ n) w -> (- m <= energy n Fs w <= m)%R).
  { intros w Hw. rewrite energy_ev. unfold ev. pose proof (bounded_le (2 ^ n) m (msum a_ent Fs) (qnode_state w) (qnode_state w) A4) as Q.
    assert (N1 : nrm (2 ^ n) (qnode_state w) = 1%R) by (unfold nrm; rewrite (state_unit n w Hw); apply sqrt_1). rewrite N1 in Q. apply Rabs_le_between in Q. lra. }
  exists Fs, circuits. cbv zeta. replace (List.length cs - 1) with T by lia. fold m eta V K. split; [exact A2|]. split.
  { clear - Hcost HQ. induction Hcost as [|w y cw cc Ew H IH]; constructor; [split; [apply (Forall_inv HQ)|exact Ew]|apply IH, (Forall_inv_tail HQ)]. }
  split; [exact Hm|]. split.
  { intros k w c c' Ew Ec Ec'. assert (Hk : S k < List.length cs) by (apply nth_error_Some; congruence). destruct (Get (S k) ltac:(lia)) as (w' & Ew').
    rewrite (proj2 (Qc _ _ Ew)) in Ec. rewrite (proj2 (Qc _ _ Ew')) in Ec'. injection Ec as <-. injection Ec' as <-. eapply St; eassumption. }
  split.
  - apply NNPP. intros N.
    assert (HT : (0 < INR T)%R) by (apply lt_0_INR; lia).
    assert (D : forall k, k <= T -> forall w w0, nth_error circuits 0 = Some w0 -> nth_error circuits k = Some w -> (INR T * (energy n Fs w0 - energy n Fs w) >= INR k * (2 * m) /\ ((0 < k)%nat -> INR T * (energy n Fs w0 - energy n Fs w) > INR k * (2 * m)))%R).
    { induction k as [|k IH]; intros Hk w w0 Ew0 Ew.
      - rewrite Ew0 in Ew. injection Ew as <-. cbn [INR]. split; [lra|intros Q; lia].
      - destruct (Get k ltac:(lia)) as (v & Ev). destruct (IH ltac:(lia) v w0 Ew0 Ev) as [I1 _]. pose proof (St k v w Ev Ew) as B.
        assert (Lt : (2 * m + K * INR T < eta * INR T * V v)%R). { apply Rnot_le_lt. intros Q. apply N. exists k, v. split; [lia|]. split; [exact Ev|exact Q]. }
        assert (INR T * (energy n Fs v - energy n Fs w) > 2 * m)%R.
        { assert (INR T * (eta * V v - K) <= INR T * (energy n Fs v - energy n Fs w))%R by (apply Rmult_le_compat_l; lra). lra. }
        rewrite S_INR. split; [lra|intros _; lra]. }
    destruct (Get T ltac:(lia)) as (wT & EwT). destruct (Get 0 ltac:(lia)) as (w0 & Ew0). destruct (D T ltac:(lia) wT w0 Ew0 EwT) as [_ D2]. specialize (D2 ltac:(lia)).
    pose proof (Bd wT (proj1 (Qc _ _ EwT))). pose proof (Bd w0 (proj1 (Qc _ _ Ew0))). assert (INR T * (energy n Fs w0 - energy n Fs wT) <= INR T * (2 * m))%R by (apply Rmult_le_compat_l; lra). lra.
  - intros HT t Et. assert (n1 = T) as -> by lia. destruct (Hstall HT) as (_ & t' & x & y & Q & Ex & Ey & Hcl). injection Q as <-. rewrite Et in Hcl. cbn [close] in Hcl.
    destruct (Get (T - 1) ltac:(lia)) as (w & Ew). destruct (Get T ltac:(lia)) as (w' & Ew'). exists w. split; [exact Ew|].
    replace (S (T - 1)) with T in Ex, Ey by lia. rewrite (proj2 (Qc _ _ Ew')) in Ex. rewrite (proj2 (Qc _ _ Ew)) in Ey. injection Ex as <-. injection Ey as <-.
    replace T with (S (T - 1)) in Ew' by lia. pose proof (St _ _ _ Ew Ew') as B. pose proof (Bd w (proj1 (Qc _ _ Ew))) as Bw. apply Rabs_le_between in Bw. apply Rabs_le_between in Hcl. lra.
Qed.
Print Assumptions C91_exact_run.

(** Z and X on one qubit from |0>, where the variance is 1, with a small learning rate *)
Example C91_case : Forall (fits 1) [z_obs; x_obs] /\ Forall pauli_type [z_obs; x_obs] /\ ex_accepts [("eta"%string, PyFloat (Fin (/ 100)))] /\
  the_flag [("eta"%string, PyFloat (Fin (/ 100)))] "perturbation" = false /\ Forall (unitary_gate 1) [] /\ unitary2 (2 ^ 1) (mid (SR := CStar)) /\
  forall Fs, Forall2 (embedded 1) [z_obs; x_obs] Fs -> (variance 1 (msum a_ent Fs) mid = 1 /\ 3 / 2 * INR 2 ^ 3 * (/ 100) ^ 2 < / 100 * 1)%R.
Proof.
  split; [constructor; [apply z_obs_fit|constructor; [apply x_obs_fit|constructor]]|]. split; [constructor; [apply z_obs_pauli|constructor; [apply x_obs_pauli|constructor]]|]. split.
  { split; [intros v E; discriminate|]. split; [intros v E; injection E as <-; exists (/ 100)%R; split; [reflexivity|lra]|]. split; [intros v E; discriminate|]. split; [intros name [<-|[<-|[<-|[<-|[]]]]] v E; discriminate|discriminate]. }
  split; [reflexivity|]. split; [constructor|]. split; [apply C79_case|].
  intros Fs HF. inversion HF as [|? F ? r H1 HF1]; subst. inversion HF1 as [|? G ? r' H2 HF2]; subst. inversion HF2; subst. split; [|cbn; lra].
  unfold variance, quad. cbn [Nat.pow Nat.mul Nat.add seq]. rewrite !lsum_cons, !lsum_nil. unfold mmul, msum. cbn [Nat.pow Nat.mul Nat.add seq]. rewrite !lsum_cons, !lsum_nil.
  rewrite !(one_wire z_obs F eq_refl H1), !(one_wire x_obs G eq_refl H2) by lia. unfold mid. cbn. lra.
Qed.
