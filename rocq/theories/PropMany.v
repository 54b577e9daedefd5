(** Property C79: the exact flow for a sum of observables. *)
From Coq Require Import ZArith Arith Lia Bool String Reals Lra Ring Setoid Morphisms Classical.
From Coquelicot Require Import Coquelicot.
From Verif Require Import Py StarRing Matrix Cplx Bits Expm MDeriv UtilsModel CircuitModel CircuitProofs CircuitProofs2 LayerModel LayerProofs OptimizerModel OptProofs RotoProofs
  FlowModel FlowProofs FlowProofs2 FlowMany PropLayers PropGreedy PropOptArgs PropOptRun PropFlow.
From Coq Require Import List.
Import ListNotations.
Local Open Scope nat_scope.
Local Open Scope list_scope.

(** ** Specification *)

(** the variance of the observable H in the state of the circuit: the squared length
    of the Riemannian gradient, zero exactly at the critical points of the cost *)
Definition variance (n : nat) (H : mat C) (u : mat C) : R :=
  (Re (quad (2 ^ n) (fun i => u i 0%nat) (mmul (2 ^ n) H H)) - Re (quad (2 ^ n) (fun i => u i 0%nat) H) ^ 2)%R.

(** ** The derivative *)
Lemma flow_is eigh n eta u o : fits n o -> pauli_type o -> eigh_correct (2 ^ n) eigh -> unitary2 (2 ^ n) u ->
  exists F u', full n o = Ok F /\ embedded n o F /\ hermitian (2 ^ n) (a_ent F) /\ flow_step eigh n eta u o = Ok u' /\ unitary2 (2 ^ n) u' /\
  let phi := qnode_state u in let m := Re (quad (2 ^ n) phi (a_ent F)) in let s := sqrt (1 - m * m) in let g := (eta / 2 * sinc (eta / 2 * s))%R in
  veq (2 ^ n) (qnode_state u') (fun i => Cplus (Cmult (RtoC (cos (eta / 2 * s) + g * m)) (phi i)) (Cmult (RtoC (- g)) (mv (2 ^ n) (a_ent F) phi i))).
Proof.
  intros Hf Hp He Hu. destruct (flow_one eigh n eta u o Hf He) as (F & H & EF & HE & Hh & H2 & Ha & HH & Es).
  exists F. eexists. split; [exact EF|]. split; [exact HE|]. split; [apply Hh, Hp|]. split; [exact Es|].
  split; [apply unitary2_mul; [apply spin_unitary; apply Ha|exact Hu]|]. apply step_state with (H := H); auto; [apply pow2_pos'|apply Hh, Hp].
Qed.

Lemma quad_veq d x y M : veq d x y -> quad d x M = quad d y M.
Proof. intros H. rewrite !quad_ip. apply ip_ext; [exact H|apply mv_veq; exact H]. Qed.
Lemma msum_cons_mv {X} d (f : X -> mat C) a l x i : mv d (msum f (a :: l)) x i = Cplus (mv d (f a) x i) (mv d (msum f l) x i).
Proof. rewrite <- (mv_add_mat d (f a) (msum f l)). reflexivity. Qed.

Lemma flow_vder eigh n obs : eigh_correct (2 ^ n) eigh -> Forall (fits n) obs -> Forall pauli_type obs -> exists Fs,
  Forall2 (fun o F => full n o = Ok F) obs Fs /\ Forall2 (embedded n) obs Fs /\ Forall (fun F => hermitian (2 ^ n) (a_ent F)) Fs /\
  forall (u : R -> mat C) v x, (forall t, unitary2 (2 ^ n) (u t)) -> vder (2 ^ n) (fun t => qnode_state (u t)) v -> veq (2 ^ n) (qnode_state (u 0%R)) x ->
  exists G, (forall t, exact_flow eigh n obs t (u t) = Ok (G t)) /\ (forall t, unitary2 (2 ^ n) (G t)) /\ veq (2 ^ n) (qnode_state (G 0%R)) x /\
    vder (2 ^ n) (fun t => qnode_state (G t))
      (fun i => Cplus (v i) (Cmult (RtoC (/ 2)) (Cminus (Cmult (RtoC (Re (quad (2 ^ n) x (msum a_ent Fs)))) (x i)) (mv (2 ^ n) (msum a_ent Fs) x i)))).
Proof.
  intros He Hf. induction Hf as [|o r Ho Hr IH]; intros Hp.
  - exists []. split; [constructor|]. split; [constructor|]. split; [constructor|]. intros u v x Hu Hv Hx. exists u. split; [reflexivity|]. split; [exact Hu|]. split; [exact Hx|].
    intros i Hi. eapply cder_ext; [reflexivity| |apply (Hv i Hi)].
    assert (Z : forall y i, mv (2 ^ n) (msum a_ent []) y i = RtoC 0). { intros y k. unfold mv, msum. apply (lsum_zero (SR := CStar)). intros; rewrite lsum_nil; cbn [kmul k0 CStar]; ring. }
    rewrite Z, quad_ip, (ip_ext _ x x _ (fun _ => Cmult (RtoC 0) (RtoC 0))); [|apply veq_refl|intros k _; rewrite Z; ring].
    rewrite ip_scale_r. destruct (v i), (x i), (ip _ _ _). apply C_ext; simpl; ring.
  - destruct (IH (Forall_inv_tail Hp)) as (Fs & F1 & F2 & F3 & K). destruct (obs_one n o Ho) as (F & EF & HE & Hh & _).
    exists (F :: Fs). split; [constructor; assumption|]. split; [constructor; assumption|]. split; [constructor; [apply Hh, (Forall_inv Hp)|assumption]|].
    intros u v x Hu Hv Hx.
    set (w t := match flow_step eigh n t (u t) o with Ok y => y | Err _ => u t end).
    assert (W : forall t, flow_step eigh n t (u t) o = Ok (w t) /\ unitary2 (2 ^ n) (w t) /\
      let phi := qnode_state (u t) in let m := Re (quad (2 ^ n) phi (a_ent F)) in let s := sqrt (1 - m * m) in let g := (t / 2 * sinc (t / 2 * s))%R in
      veq (2 ^ n) (qnode_state (w t)) (fun i => Cplus (Cmult (RtoC (cos (t / 2 * s) + g * m)) (phi i)) (Cmult (RtoC (- g)) (mv (2 ^ n) (a_ent F) phi i)))).
    { intros t. destruct (flow_is eigh n t (u t) o Ho (Forall_inv Hp) He (Hu t)) as (F' & u' & EF' & _ & _ & Es & Hu' & Hst). rewrite EF in EF'. injection EF' as <-.
      unfold w. rewrite Es. auto. }
    pose proof (step_vder (2 ^ n) (a_ent F) (fun t => qnode_state (u t)) v _ Hv eq_refl) as D. cbv zeta in D.
    destruct (K w (fun i => Cplus (v i) (Cmult (RtoC (/ 2)) (Cminus (Cmult (RtoC (Re (quad (2 ^ n) x (a_ent F)))) (x i)) (mv (2 ^ n) (a_ent F) x i)))) x) as (G & G1 & G2 & G3 & G4).
    + intros t. apply W.
    + intros i Hi. eapply cder_ext; [| |apply (D i Hi)].
      * intros t. destruct (W t) as (_ & _ & S). symmetry. apply S. exact Hi.
      * rewrite (quad_veq _ _ _ _ Hx), (mv_veq _ _ _ _ Hx i Hi), (Hx i Hi). reflexivity.
    + destruct (W 0%R) as (_ & _ & S). intros i Hi. rewrite (S i Hi), <- (Hx i Hi). replace (0 / 2)%R with 0%R by field. rewrite !Rmult_0_l, cos_0.
      destruct (qnode_state (u 0%R) i), (mv _ _ _ i). apply C_ext; simpl; ring.
    + exists G. split; [|split; [exact G2|split; [exact G3|]]].
      * intros t. unfold exact_flow. cbn [foldM]. rewrite (proj1 (W t)). cbn [bind]. apply G1.
      * intros i Hi. eapply cder_ext; [reflexivity| |apply (G4 i Hi)]. cbn beta. rewrite msum_cons_mv.
        assert (Q : quad (2 ^ n) x (msum a_ent (F :: Fs)) = Cplus (quad (2 ^ n) x (a_ent F)) (quad (2 ^ n) x (msum a_ent Fs))).
        { rewrite !quad_ip, <- ip_add_r. apply ip_ext; [apply veq_refl|]. intros j _. apply msum_cons_mv. }
        rewrite Q, Re_plus. destruct (v i), (x i), (mv _ (a_ent F) _ i), (mv _ (msum _ _) _ i). apply C_ext; simpl; ring.
Qed.

Lemma energy_quad n Fs u : energy n Fs u = Re (quad (2 ^ n) (qnode_state u) (msum a_ent Fs)).
Proof.
  unfold energy. induction Fs as [|F Fs IH]; cbn [rsum].
  - assert (Z : forall i, mv (2 ^ n) (msum a_ent []) (qnode_state u) i = RtoC 0). { intros k. unfold mv, msum. apply (lsum_zero (SR := CStar)). intros; rewrite lsum_nil; cbn [kmul k0 CStar]; ring. }
    rewrite quad_ip, (ip_ext _ _ (qnode_state u) _ (fun _ => Cmult (RtoC 0) (RtoC 0))); [|apply veq_refl|intros k _; rewrite Z; ring]. rewrite ip_scale_r. destruct (ip _ _ _). simpl. ring.
  - rewrite IH. assert (Q : quad (2 ^ n) (qnode_state u) (msum a_ent (F :: Fs)) = Cplus (quad (2 ^ n) (qnode_state u) (a_ent F)) (quad (2 ^ n) (qnode_state u) (msum a_ent Fs))).
    { rewrite !quad_ip, <- ip_add_r. apply ip_ext; [apply veq_refl|]. intros j _. apply msum_cons_mv. }
    rewrite Q, Re_plus. reflexivity.
Qed.

Lemma msum_hermitian d (Fs : list (arr C)) : Forall (fun F => hermitian d (a_ent F)) Fs -> hermitian d (msum a_ent Fs).
Proof.
  intros H i j Hi Hj. unfold madj, msum. cbn [kconj CStar]. induction H as [|F Fs HF H IH]; [rewrite !lsum_nil; cbn [k0 CStar]; apply C_ext; simpl; ring|].
  rewrite !lsum_cons. cbn [kadd CStar]. rewrite <- IH, <- (HF i j Hi Hj). unfold madj. cbn [kconj CStar]. destruct (a_ent F j i), (lsum _ _). apply C_ext; simpl; ring.
Qed.

(** the variance vanishes exactly at the eigenvectors *)
Lemma variance_ip n H u : hermitian (2 ^ n) H -> unitary2 (2 ^ n) u ->
  let x := qnode_state u in let m := Re (quad (2 ^ n) x H) in
  RtoC (variance n H u) = ip (2 ^ n) (fun i => Cminus (mv (2 ^ n) H x i) (Cmult (RtoC m) (x i))) (fun i => Cminus (mv (2 ^ n) H x i) (Cmult (RtoC m) (x i))).
Proof.
  intros Hh Hu x m. assert (N : ip (2 ^ n) x x = RtoC 1) by (apply state_norm; [apply pow2_pos'|apply Hu]).
  assert (E : ip (2 ^ n) x (mv (2 ^ n) H x) = RtoC m). { rewrite <- quad_ip. unfold m. apply C_ext; simpl; [reflexivity|]. apply (quad_real _ H x Hh). }
  assert (E3 : ip (2 ^ n) (mv (2 ^ n) H x) x = RtoC m) by (rewrite <- (ip_hermitian (2 ^ n) H x x Hh); exact E).
  assert (E4 : quad (2 ^ n) x (mmul (2 ^ n) H H) = ip (2 ^ n) (mv (2 ^ n) H x) (mv (2 ^ n) H x)).
  { rewrite quad_ip, <- (ip_hermitian (2 ^ n) H x _ Hh). apply ip_ext; [apply veq_refl|]. intros i _. apply mv_mul. }
  assert (R4 : ip (2 ^ n) (mv (2 ^ n) H x) (mv (2 ^ n) H x) = RtoC (Re (ip (2 ^ n) (mv (2 ^ n) H x) (mv (2 ^ n) H x)))).
  { pose proof (ip_conj (2 ^ n) (mv (2 ^ n) H x) (mv (2 ^ n) H x)) as Q. revert Q. destruct (ip (2 ^ n) (mv (2 ^ n) H x) (mv (2 ^ n) H x)) as [p q]. intros Q. apply (f_equal Im) in Q. simpl in Q. unfold Im in Q. simpl in Q. apply C_ext; simpl; [reflexivity|lra]. }
  rewrite ip_sub_r, ip_scale_r. rewrite <- (ip_conj (2 ^ n) (mv (2 ^ n) H x)), <- (ip_conj (2 ^ n) x). rewrite !ip_sub_r, !ip_scale_r, N, E, E3, R4.
  unfold variance. change (fun i => u i 0) with x. rewrite E4. fold m. apply C_ext; simpl; ring.
Qed.

Lemma variance_pos n H u : hermitian (2 ^ n) H -> unitary2 (2 ^ n) u -> (0 <= variance n H u)%R /\ (variance n H u = 0%R <-> eigenstate n H u).
Proof.
  intros Hh Hu. pose proof (variance_ip n H u Hh Hu) as E. cbv zeta in E. set (x := qnode_state u) in *. set (m := Re (quad (2 ^ n) x H)) in *.
  set (y := fun i => Cminus (mv (2 ^ n) H x i) (Cmult (RtoC m) (x i))) in *.
  assert (P : forall l, (0 <= Re (lsum (SR := CStar) (fun i => Cmult (Cconj (y i)) (y i)) l))%R).
  { induction l as [|a l IH]; [simpl; lra|]. rewrite lsum_cons. cbn [kadd CStar]. rewrite Re_plus. destruct (y a). simpl in *. nra. }
  apply (f_equal Re) in E. change (Re (RtoC (variance n H u))) with (variance n H u) in E. split; [rewrite E; apply P|]. split.
  - intros Z. rewrite Z in E. exists m. intros i Hi. assert (V : forall l, Re (lsum (SR := CStar) (fun i => Cmult (Cconj (y i)) (y i)) l) = 0%R -> forall i, In i l -> y i = RtoC 0).
    { induction l as [|a l IH]; intros Q k Hk; [destruct Hk|]. rewrite lsum_cons in Q. cbn [kadd CStar] in Q. rewrite Re_plus in Q. specialize (P l).
      assert (Na : (0 <= Re (Cmult (Cconj (y a)) (y a)))%R) by (destruct (y a); simpl; nra).
      destruct Hk as [<-|Hk]; [|apply IH; [lra|exact Hk]]. assert (Q' : Re (Cmult (Cconj (y a)) (y a)) = 0%R) by lra.
      destruct (y a) as [p q]. simpl in Q'. assert (p = 0%R) by nra. assert (q = 0%R) by nra. subst. reflexivity. }
    pose proof (V (seq 0 (2 ^ n)) (eq_sym E) i ltac:(apply in_seq; lia)) as W. unfold y in W.
    change (lsum _ _) with (mv (2 ^ n) H x i). change (u i 0) with (x i). transitivity (Cplus (Cminus (mv (2 ^ n) H x i) (Cmult (RtoC m) (x i))) (Cmult (RtoC m) (x i))); [ring|]. rewrite W. ring.
  - intros (c & Hc). assert (N : ip (2 ^ n) x x = RtoC 1) by (apply state_norm; [apply pow2_pos'|apply Hu]).
    assert (Hc' : veq (2 ^ n) (mv (2 ^ n) H x) (fun i => Cmult (RtoC c) (x i))) by exact Hc.
    assert (m = c). { unfold m. rewrite quad_ip, (ip_ext _ x x _ _ (veq_refl _ x) Hc'), ip_scale_r, N. simpl. ring. }
    rewrite E. rewrite (ip_ext _ y (fun _ => Cmult (RtoC 0) (RtoC 0)) y (fun _ => Cmult (RtoC 0) (RtoC 0))).
    + rewrite ip_scale_r. destruct (ip _ _ _). simpl. ring.
    + intros i Hi. unfold y. rewrite (Hc' i Hi), H0. destruct (x i). apply C_ext; simpl; ring.
    + intros i Hi. unfold y. rewrite (Hc' i Hi), H0. destruct (x i). apply C_ext; simpl; ring.
Qed.

(** ** C79 *)

(** What holds: to first order in the step size the sum of the expectation values
    decreases by the variance of the sum of the observables; unless the state is an
    eigenstate of the sum, every small enough step size lowers the cost.
    Missing: the step sizes the function accepts, see the refutation below. *)
Theorem C79_total_descent_partial : forall n obs eigh u, Forall (fits n) obs -> Forall pauli_type obs -> eigh_correct (2 ^ n) eigh -> unitary2 (2 ^ n) u ->
  exists Fs G c, Forall2 (embedded n) obs Fs /\ (forall eta, exact_flow eigh n obs eta u = Ok (G eta)) /\ (forall eta, exact_cost n obs (G eta) = Ok (c eta)) /\
    exact_cost n obs u = Ok (c 0%R) /\
    is_derive c 0%R (- variance n (msum a_ent Fs) u)%R /\ (0 <= variance n (msum a_ent Fs) u)%R /\ (variance n (msum a_ent Fs) u = 0%R <-> eigenstate n (msum a_ent Fs) u) /\
    (~ eigenstate n (msum a_ent Fs) u -> exists bound, (0 < bound)%R /\ forall eta, (0 < eta < bound)%R -> (c eta < c 0)%R).
Proof.
  intros n obs eigh u Hf Hp He Hu. destruct (flow_vder eigh n obs He Hf Hp) as (Fs & F1 & F2 & F3 & K).
  destruct (K (fun _ => u) (fun _ => RtoC 0) (qnode_state u) (fun _ => Hu)) as (G & G1 & G2 & G3 & G4); [intros i _; apply cder_const|apply veq_refl|].
  set (H := msum a_ent Fs) in *. pose proof (msum_hermitian (2 ^ n) Fs F3) as Hh. fold H in Hh. set (x := qnode_state u) in *.
  assert (N : ip (2 ^ n) x x = RtoC 1) by (apply state_norm; [apply pow2_pos'|apply Hu]).
  exists Fs, G, (fun t => energy n Fs (G t)). split; [exact F2|]. split; [exact G1|]. split; [intros t; apply cost_energy; exact F1|].
  split; [rewrite (cost_energy n obs Fs u F1); f_equal; rewrite !energy_quad; f_equal; apply quad_veq; intros i Hi; symmetry; apply G3; exact Hi|].
  assert (D : is_derive (fun t => energy n Fs (G t)) 0%R (- variance n H u)%R).
  { eapply is_derive_extR; [| |apply (proj1 (vder_ip (2 ^ n) _ _ _ _ G4 (vder_mv (2 ^ n) H _ _ G4)))].
    - intros t. cbn beta. rewrite energy_quad, quad_ip. reflexivity.
    - set (v := fun i => Cplus _ _).
      rewrite (ip_ext _ v v _ (mv (2 ^ n) H x) (veq_refl _ v)) by (apply mv_veq; exact G3).
      rewrite (ip_ext _ (qnode_state (G 0%R)) x (mv (2 ^ n) H v) _ G3 (veq_refl _ _)). rewrite (ip_hermitian (2 ^ n) H x v Hh), <- (ip_conj _ v (mv (2 ^ n) H x)).
      set (m := Re (quad (2 ^ n) x H)) in *.
      assert (E : ip (2 ^ n) x (mv (2 ^ n) H x) = RtoC m). { rewrite <- quad_ip. unfold m. apply C_ext; simpl; [reflexivity|]. apply (quad_real _ H x Hh). }
      assert (E4 : quad (2 ^ n) x (mmul (2 ^ n) H H) = ip (2 ^ n) (mv (2 ^ n) H x) (mv (2 ^ n) H x)).
      { rewrite quad_ip, <- (ip_hermitian (2 ^ n) H x _ Hh). apply ip_ext; [apply veq_refl|]. intros i _. apply mv_mul. }
      assert (V : ip (2 ^ n) v (mv (2 ^ n) H x) = Cmult (RtoC (/ 2)) (Cminus (RtoC (m * m)) (ip (2 ^ n) (mv (2 ^ n) H x) (mv (2 ^ n) H x)))).
      { rewrite <- (ip_conj _ (mv (2 ^ n) H x) v). rewrite (ip_ext _ _ _ v (fun i => Cmult (RtoC (/ 2)) (Cminus (Cmult (RtoC m) (x i)) (mv (2 ^ n) H x i))) (veq_refl _ _)).
        - rewrite ip_scale_r, ip_sub_r, ip_scale_r, <- (ip_hermitian (2 ^ n) H x x Hh), E. pose proof (ip_conj (2 ^ n) (mv (2 ^ n) H x) (mv (2 ^ n) H x)) as Q. revert Q.
          destruct (ip _ (mv _ H x) (mv _ H x)) as [p q]. intros Q. apply (f_equal Im) in Q. simpl in Q. apply C_ext; simpl; [ring|lra].
        - intros i Hi. unfold v. destruct (Cmult (RtoC (/ 2)) _). apply C_ext; simpl; ring. }
      rewrite V. unfold variance. change (fun i => u i 0) with x. rewrite E4. fold m. destruct (ip _ (mv _ H x) (mv _ H x)) as [p q]. simpl. field. }
  split; [exact D|]. destruct (variance_pos n H u Hh Hu) as [V1 V2]. split; [exact V1|]. split; [exact V2|].
  intros Hne. assert (Vp : (0 < variance n H u)%R) by (destruct V1 as [V1|V1]; [exact V1|exfalso; apply Hne, V2; auto]).
  apply is_derive_Reals in D. destruct (D _ Vp) as (del & Hd). exists del. split; [apply cond_pos|]. intros eta [H0 H1].
  specialize (Hd eta ltac:(lra) ltac:(rewrite Rabs_pos_eq; lra)). rewrite Rplus_0_l in Hd. apply Rabs_def2 in Hd. destruct Hd as [Hd _].
  assert (Q : ((energy n Fs (G eta) - energy n Fs (G 0%R)) / eta < 0)%R) by lra. apply (Rmult_lt_compat_r eta) in Q; [|exact H0]. unfold Rdiv in Q. rewrite Rmult_assoc, Rinv_l, Rmult_1_r, Rmult_0_l in Q by lra. lra.
Qed.
Print Assumptions C79_total_descent_partial.

(** ** One qubit with the observables Z and X *)
Definition x_obs : qop C := mkqop lit_X [0].
Lemma x_obs_fit : fits 1 x_obs.
Proof. repeat constructor; simpl; try discriminate; auto; lia. Qed.
Lemma x_obs_pauli : pauli_type x_obs.
Proof.
  split; intros i j Hi Hj; simpl in Hi, Hj; (destruct i as [|[|i]]; [| |lia]); (destruct j as [|[|j]]; [| |lia]);
    unfold hermitian_obs, madj, mmul, mid; simpl; apply C_ext; simpl; ring.
Qed.
Lemma one_wire o F : q_wires o = [0] -> embedded 1 o F -> forall r c, r < 2 -> c < 2 -> a_ent F r c = a_ent (q_matrix o) r c.
Proof.
  intros Ew (_ & _ & HE) r c Hr Hc. rewrite Ew in HE. destruct (HE r c Hr Hc) as (_ & H).
  apply H; [|exact Hr|exact Hc|intros i Hi; simpl in Hi; replace i with 0 by lia; reflexivity|intros i Hi; simpl in Hi; replace i with 0 by lia; reflexivity].
  intros v Hv Hn. exfalso. apply Hn. left. lia.
Qed.

Lemma two_cost u : exact_cost 1 [z_obs; x_obs] u = Ok (let x := u 0 0 in let y := u 1 0 in
  (Re x * Re x + Im x * Im x - (Re y * Re y + Im y * Im y) + 2 * (Re x * Re y + Im x * Im y))%R).
Proof.
  destruct (obs_one 1 z_obs z_obs_fit) as (F & EF & HF & _). destruct (obs_one 1 x_obs x_obs_fit) as (G & EG & HG & _).
  rewrite (cost_energy 1 [z_obs; x_obs] [F; G] u) by (repeat constructor; assumption). f_equal. unfold energy. cbn [rsum].
  pose proof (one_wire z_obs F eq_refl HF) as E. pose proof (one_wire x_obs G eq_refl HG) as E'.
  unfold quad. cbn [Nat.pow Nat.mul Nat.add seq]. rewrite !lsum_cons, !lsum_nil, !E, !E' by lia. cbn [kadd kmul kconj k0 CStar]. simpl.
  destruct (u 0 0) as [a b], (u 1 0) as [c e]. simpl. ring.
Qed.

(** the real state at the angle a *)
Definition at_angle (a : R) (u : mat C) : Prop := u 0 0 = RtoC (cos (a / 2)) /\ u 1 0 = RtoC (- sin (a / 2)).
Lemma angle_cost a u : at_angle a u -> exact_cost 1 [z_obs; x_obs] u = Ok (cos a - sin a)%R.
Proof.
  intros [E0 E1]. rewrite two_cost, E0, E1. f_equal. simpl.
  assert (D2 : cos a = (cos (a / 2) * cos (a / 2) - sin (a / 2) * sin (a / 2))%R) by (replace a with (2 * (a / 2))%R at 1 by field; apply cos_2a).
  assert (D3 : sin a = (2 * sin (a / 2) * cos (a / 2))%R) by (replace a with (2 * (a / 2))%R at 1 by field; apply sin_2a).
  rewrite D2, D3. ring.
Qed.

Lemma angle_z eigh eta u a : eigh_correct (2 ^ 1) eigh -> unitary2 (2 ^ 1) u -> at_angle a u -> (0 <= sin a)%R ->
  exists u', flow_step eigh 1 eta u z_obs = Ok u' /\ unitary2 (2 ^ 1) u' /\ at_angle (a + eta * sin a) u'.
Proof.
  intros He Hu [A0 A1] Hs. destruct (flow_is eigh 1 eta u z_obs z_obs_fit z_obs_pauli He Hu) as (F & u' & EF & HF & _ & Es & Hu' & S). exists u'. split; [exact Es|]. split; [exact Hu'|].
  cbv zeta in S. pose proof (one_wire z_obs F eq_refl HF) as E.
  assert (M : Re (quad (2 ^ 1) (qnode_state u) (a_ent F)) = cos a).
  { unfold quad, qnode_state. cbn [Nat.pow Nat.mul Nat.add seq]. rewrite !lsum_cons, !lsum_nil, !E by lia. cbn [kadd kmul kconj k0 CStar]. rewrite A0, A1. simpl.
    assert (D2 : cos a = (cos (a / 2) * cos (a / 2) - sin (a / 2) * sin (a / 2))%R) by (replace a with (2 * (a / 2))%R at 1 by field; apply cos_2a). rewrite D2. ring. }
  rewrite M in S. assert (Q : sqrt (1 - cos a * cos a) = sin a).
  { replace (1 - cos a * cos a)%R with (Rsqr (sin a)); [apply sqrt_Rsqr; exact Hs|]. pose proof (sin2_cos2 a). unfold Rsqr in *. lra. }
  rewrite Q in S. set (g := (eta / 2 * sinc (eta / 2 * sin a))%R) in *.
  assert (Hg : (g * sin a = sin (eta / 2 * sin a))%R) by (unfold g; rewrite <- (sinc_mul (eta / 2 * sin a)); ring).
  pose proof (S 0 ltac:(simpl; lia)) as S0. pose proof (S 1 ltac:(simpl; lia)) as S1. clear S.
  unfold mv in S0, S1. cbn [Nat.pow Nat.mul Nat.add seq] in S0, S1. rewrite !lsum_cons, !lsum_nil, !E in S0, S1 by lia. unfold qnode_state in S0, S1. cbn [kadd kmul k0 CStar] in S0, S1.
  rewrite A0, A1 in S0, S1. unfold at_angle. rewrite S0, S1. replace ((a + eta * sin a) / 2)%R with (a / 2 + eta / 2 * sin a)%R by field. rewrite cos_plus, sin_plus, <- Hg.
  assert (D1 : cos a = (1 - 2 * sin (a / 2) * sin (a / 2))%R) by (replace a with (2 * (a / 2))%R at 1 by field; apply cos_2a_sin).
  assert (D2 : cos a = (2 * cos (a / 2) * cos (a / 2) - 1)%R) by (replace a with (2 * (a / 2))%R at 1 by field; apply cos_2a_cos).
  assert (D3 : sin a = (2 * sin (a / 2) * cos (a / 2))%R) by (replace a with (2 * (a / 2))%R at 1 by field; apply sin_2a).
  generalize (cos (eta / 2 * sin a)). intros z. rewrite D3. split; apply C_ext; simpl; try ring.
  - rewrite D1. ring.
  - rewrite D2. ring.
Qed.

Lemma angle_x eigh eta u a : eigh_correct (2 ^ 1) eigh -> unitary2 (2 ^ 1) u -> at_angle a u -> (cos a <= 0)%R ->
  exists u', flow_step eigh 1 eta u x_obs = Ok u' /\ unitary2 (2 ^ 1) u' /\ at_angle (a + eta * cos a) u'.
Proof.
  intros He Hu [A0 A1] Hs. destruct (flow_is eigh 1 eta u x_obs x_obs_fit x_obs_pauli He Hu) as (F & u' & EF & HF & _ & Es & Hu' & S). exists u'. split; [exact Es|]. split; [exact Hu'|].
  cbv zeta in S. pose proof (one_wire x_obs F eq_refl HF) as E.
  assert (M : Re (quad (2 ^ 1) (qnode_state u) (a_ent F)) = (- sin a)%R).
  { unfold quad, qnode_state. cbn [Nat.pow Nat.mul Nat.add seq]. rewrite !lsum_cons, !lsum_nil, !E by lia. cbn [kadd kmul kconj k0 CStar]. rewrite A0, A1. simpl.
    assert (D3 : sin a = (2 * sin (a / 2) * cos (a / 2))%R) by (replace a with (2 * (a / 2))%R at 1 by field; apply sin_2a). rewrite D3. ring. }
  rewrite M in S. assert (Q : sqrt (1 - - sin a * - sin a) = (- cos a)%R).
  { replace (1 - - sin a * - sin a)%R with (Rsqr (- cos a)); [apply sqrt_Rsqr; lra|]. pose proof (sin2_cos2 a). unfold Rsqr in *. lra. }
  rewrite Q in S. set (g := (eta / 2 * sinc (eta / 2 * - cos a))%R) in *.
  assert (Hg : (g * cos a = - sin (eta / 2 * - cos a))%R) by (unfold g; rewrite <- (sinc_mul (eta / 2 * - cos a)); ring).
  pose proof (S 0 ltac:(simpl; lia)) as S0. pose proof (S 1 ltac:(simpl; lia)) as S1. clear S.
  unfold mv in S0, S1. cbn [Nat.pow Nat.mul Nat.add seq] in S0, S1. rewrite !lsum_cons, !lsum_nil, !E in S0, S1 by lia. unfold qnode_state in S0, S1. cbn [kadd kmul k0 CStar] in S0, S1.
  rewrite A0, A1 in S0, S1. unfold at_angle. rewrite S0, S1. replace ((a + eta * cos a) / 2)%R with (a / 2 - eta / 2 * - cos a)%R by field. rewrite cos_minus, sin_minus.
  replace (sin (eta / 2 * - cos a))%R with (- (g * cos a))%R by (rewrite Hg; ring).
  assert (D1 : cos a = (1 - 2 * sin (a / 2) * sin (a / 2))%R) by (replace a with (2 * (a / 2))%R at 1 by field; apply cos_2a_sin).
  assert (D2 : cos a = (2 * cos (a / 2) * cos (a / 2) - 1)%R) by (replace a with (2 * (a / 2))%R at 1 by field; apply cos_2a_cos).
  assert (D3 : sin a = (2 * sin (a / 2) * cos (a / 2))%R) by (replace a with (2 * (a / 2))%R at 1 by field; apply sin_2a).
  generalize (cos (eta / 2 * - cos a)). intros z. rewrite D3. split; apply C_ext; simpl; try ring.
  - rewrite D2. ring.
  - rewrite D1. ring.
Qed.

(** the ground state of Z + X, prepared by one rotation *)
Definition ground : mat C := fun i j =>
  if i =? 0 then if j =? 0 then RtoC (cos (3 * PI / 8)) else RtoC (sin (3 * PI / 8)) else if j =? 0 then RtoC (- sin (3 * PI / 8)) else RtoC (cos (3 * PI / 8)).
Lemma ground_unitary : unitary2 (2 ^ 1) ground.
Proof.
  pose proof (sin2_cos2 (3 * PI / 8)) as Q. unfold Rsqr in Q.
  split; intros i j Hi Hj; simpl in Hi, Hj; (destruct i as [|[|i]]; [| |lia]); (destruct j as [|[|j]]; [| |lia]);
    unfold madj, mmul, mid; cbn [Nat.pow Nat.mul Nat.add seq]; rewrite !lsum_cons, !lsum_nil; unfold ground; cbn [kadd kmul kconj k0 k1 CStar Nat.eqb]; apply C_ext; simpl; nra.
Qed.
Lemma ground_angle : at_angle (3 * (PI / 4)) ground.
Proof. unfold at_angle, ground. cbn [Nat.eqb]. replace (3 * (PI / 4) / 2)%R with (3 * PI / 8)%R by field. auto. Qed.

(** the cost at that state is the lowest, and a step leads away from it *)
Lemma ground_step eigh eta u : unitary2 (2 ^ 1) u -> at_angle (3 * (PI / 4)) u -> eigh_correct (2 ^ 1) eigh -> (0 < eta <= 1)%R ->
  exists u' c c', exact_flow eigh 1 [z_obs; x_obs] eta u = Ok u' /\ unitary2 (2 ^ 1) u' /\
    exact_cost 1 [z_obs; x_obs] u = Ok c /\ exact_cost 1 [z_obs; x_obs] u' = Ok c' /\ (c < c')%R /\
    (forall v x, unitary2 (2 ^ 1) v -> exact_cost 1 [z_obs; x_obs] v = Ok x -> (c <= x)%R).
Proof.
  intros Hu Ha He Ht. assert (S2 : (0 < sqrt 2)%R) by (apply sqrt_lt_R0; lra). assert (Q2 : (sqrt 2 * sqrt 2 = 2)%R) by (apply sqrt_sqrt; lra).
  assert (C3 : cos (3 * (PI / 4)) = (- / sqrt 2)%R) by (replace (3 * (PI / 4))%R with (PI - PI / 4)%R by field; rewrite cos_minus, cos_PI, sin_PI, cos_PI4; field; lra).
  assert (S3 : sin (3 * (PI / 4)) = (/ sqrt 2)%R) by (replace (3 * (PI / 4))%R with (PI - PI / 4)%R by field; rewrite sin_minus, cos_PI, sin_PI, sin_PI4; field; lra).
  assert (R1 : (0 < / sqrt 2)%R) by (apply Rinv_0_lt_compat; exact S2). assert (R2 : (/ sqrt 2 * / sqrt 2 = / 2)%R) by (rewrite <- Rinv_mult, Q2; reflexivity).
  assert (R3 : (/ sqrt 2 < 3 / 4)%R) by nra. set (r := (/ sqrt 2)%R) in *.
  destruct (angle_z eigh eta u _ He Hu Ha ltac:(rewrite S3; lra)) as (u1 & E1 & H1 & A1). rewrite S3 in A1. set (t := (eta * r)%R) in *.
  pose proof PI_4 as P4. pose proof PI_ineq as _. assert (P3 : (3 < PI)%R) by (pose proof PI2_3_2; lra).
  assert (T : (0 < t < PI / 4)%R) by (unfold t; split; nra).
  assert (C1 : (-1 <= cos (3 * (PI / 4) + t) < - r)%R).
  { split; [apply COS_bound|]. rewrite <- C3. apply cos_decreasing_1; lra. }
  destruct (angle_x eigh eta u1 _ He H1 A1 ltac:(lra)) as (u2 & E2 & H2 & A2). set (w := cos (3 * (PI / 4) + t)) in *.
  exists u2, (- sqrt 2)%R, (cos (3 * (PI / 4) + t + eta * w) - sin (3 * (PI / 4) + t + eta * w))%R.
  split; [unfold exact_flow; cbn [foldM]; rewrite E1; cbn [bind]; rewrite E2; reflexivity|]. split; [exact H2|].
  assert (Cg : exact_cost 1 [z_obs; x_obs] u = Ok (- sqrt 2)%R).
  { rewrite (angle_cost _ _ Ha), C3, S3. f_equal. assert (sqrt 2 = 2 * r)%R by (unfold r; rewrite <- Q2 at 2; field; lra). lra. }
  split; [exact Cg|]. split; [apply angle_cost; exact A2|]. split.
  - set (dl := (t + eta * w)%R). replace (3 * (PI / 4) + t + eta * w)%R with (3 * (PI / 4) + dl)%R by (unfold dl; ring). rewrite cos_plus, sin_plus, C3, S3.
    assert (D : (-1 <= dl < 0)%R) by (unfold dl, t; split; nra). assert (Cd : (cos dl < 1)%R).
    { rewrite <- cos_0, <- (cos_neg dl). apply cos_decreasing_1; lra. }
    assert (sqrt 2 = 2 * r)%R by (unfold r; rewrite <- Q2 at 2; field; lra). nra.
  - intros v x Hv Ex. rewrite two_cost in Ex. injection Ex as <-. assert (N : ip (2 ^ 1) (qnode_state v) (qnode_state v) = RtoC 1) by (apply state_norm; [simpl; lia|apply Hv]).
    unfold ip, qnode_state in N. cbn [Nat.pow Nat.mul Nat.add seq] in N. rewrite !lsum_cons, !lsum_nil in N. cbn [kadd k0 CStar] in N. destruct (v 0 0) as [a b], (v 1 0) as [c d]. apply (f_equal Re) in N. simpl in N |- *.
    set (z := (a * a + b * b - (c * c + d * d))%R) in *. set (y := (2 * (a * c + b * d))%R) in *.
    assert (B : (z * z + y * y <= 1)%R). { assert (a * a + b * b + (c * c + d * d) = 1)%R as N' by lra. pose proof (Rle_0_sqr (a * d - b * c)) as Z. unfold Rsqr in Z. assert (z * z + y * y + 4 * ((a * d - b * c) * (a * d - b * c)) = 1)%R; [|lra].
      replace 1%R with ((a * a + b * b + (c * c + d * d)) * (a * a + b * b + (c * c + d * d)))%R by (rewrite N'; ring). unfold z, y. ring. }
    assert (B2 : ((z + y) * (z + y) <= 2)%R) by (pose proof (Rle_0_sqr (z - y)) as Z; unfold Rsqr in Z; lra). change (- sqrt 2 <= z + y)%R. generalize dependent (z + y)%R. clear - Q2 S2. intros p B2. apply Rnot_lt_le. intros L. nra.
Qed.

(** refuted: every run of exact_lie_optimizer that starts in the ground state, where
    no cost is lower, makes the cost larger in its first step, whatever the step size
    is unless it is 0 *)
Theorem C79_total_descent_refuted : forall P Om Z, exists n gates obs, Forall (unitary_gate n) gates /\ Forall (fits n) obs /\ Forall pauli_type obs /\
  forall eigh random kw, eigh_correct (2 ^ n) eigh -> ex_accepts kw -> (0 < the_eta kw)%R ->
    exists r : retval (item (nat -> C) P Om (mat C) Z), exact_optimizer eigh random n gates obs RetState kw = Ok r /\
    forall cs ss ps u, ex_result kw r cs ss ps u -> exists c0 c1, nth_error cs 0 = Some c0 /\ nth_error cs 1 = Some c1 /\ (c0 < c1)%R /\
      (forall v x, unitary2 (2 ^ n) v -> exact_cost n obs v = Ok x -> (c0 <= x)%R).
Proof.
  intros P Om Z. exists 1, [mkqop (mkarr 2 2 ground) [0]], [z_obs; x_obs].
  assert (Hg : Forall (unitary_gate 1) [mkqop (mkarr 2 2 ground) [0]]).
  { constructor; [|constructor]. split; [repeat constructor; simpl; try discriminate; auto; lia|]. exact ground_unitary. }
  assert (Hf : Forall (fits 1) [z_obs; x_obs]) by (constructor; [apply z_obs_fit|constructor; [apply x_obs_fit|constructor]]).
  split; [exact Hg|]. split; [exact Hf|]. split; [constructor; [apply z_obs_pauli|constructor; [apply x_obs_pauli|constructor]]|].
  intros eigh random kw He Ha Ht. destruct (C66_exact_unitary P Om Z 1 _ _ eigh random kw Hg Hf He Ha) as (r & Er & _). exists r. split; [exact Er|]. intros cs ss ps u Hr.
  assert (Heta : (0 <= the_eta kw <= 1)%R).
  { destruct Ha as (_ & A & _). unfold the_eta. unfold allowed in A. destruct (arg kw "eta") as [v|]; [|lra]. destruct (A v eq_refl) as (x & -> & Hx). exact Hx. }
  destruct (start_unitary 1 _ Hg) as (U & EU & HU).
  assert (HA : at_angle (3 * (PI / 4)) (a_ent U)).
  { unfold circuit_unitary in EU. cbn [unitary_loop] in EU. assert (Fg : fits 1 (mkqop (mkarr 2 2 ground) [0])) by (repeat constructor; simpl; try discriminate; auto; lia).
    destruct (obs_one 1 _ Fg) as (F & EF & HF & _). rewrite EF in EU. cbn [bind] in EU. injection EU as <-. cbn [a_ent]. pose proof (one_wire (mkqop (mkarr 2 2 ground) [0]) F eq_refl HF) as E.
    destruct ground_angle as [G0 G1]. unfold at_angle, mmul. cbn [Nat.pow Nat.mul Nat.add seq]. rewrite !lsum_cons, !lsum_nil, !E by lia. cbn [q_matrix a_ent np_eye kadd kmul k0 k1 CStar Nat.eqb].
    rewrite <- G0, <- G1. unfold mid. cbn [Nat.eqb kadd kmul k0 k1 CStar]. split; ring. }
  unfold exact_optimizer in Er. rewrite EU in Er. cbn [bind] in Er.
  destruct (C56_exact_histories _ _ _ _ _ _ _ _ _ _ _ _ _ _ _ _ Ha Er Hr) as (circuits & u0 & m & E0 & H0 & Hl & Hm & Hc & Hcost & _). injection E0 as E0.
  destruct (ground_step eigh (the_eta kw) (a_ent U) HU HA He ltac:(lra)) as (u' & c & c' & Ef & _ & C0 & C1 & Hlt & Hmin).
  destruct circuits as [|w [|w' ws]]; cbn in Hl; [lia|lia|]. cbn in H0. injection H0 as H0. inversion Hcost as [|? k0 ? cs1 K0 Hcost1]; subst. inversion Hcost1 as [|? k1 ? cs2 K1 _]; subst.
  exists k0, k1. split; [reflexivity|]. split; [reflexivity|]. destruct (Hc 0 _ _ eq_refl eq_refl) as (x' & Hx' & Ex'). cbn [restart] in Hx'. subst x'.
  rewrite C0 in K0. injection K0 as <-. rewrite Ef in Ex'. injection Ex' as <-. rewrite C1 in K1. injection K1 as <-. auto.
Qed.
Print Assumptions C79_total_descent_refuted.

(** the hypotheses of both: |0> is not an eigenstate of Z + X *)
Example C79_case : unitary2 (2 ^ 1) (mid (SR := CStar)) /\ forall Fs, Forall2 (embedded 1) [z_obs; x_obs] Fs -> ~ eigenstate 1 (msum a_ent Fs) mid.
Proof.
  split; [split; unfold unitary; rewrite madj_id, mmul_1_l; reflexivity|]. intros Fs HF. inversion HF as [|? F ? r H1 HF1]; subst. inversion HF1 as [|? G ? r' H2 HF2]; subst. inversion HF2; subst.
  intros (c & Hc). specialize (Hc 1 ltac:(simpl; lia)). cbn [Nat.pow Nat.mul Nat.add seq] in Hc. unfold msum in Hc. rewrite !lsum_cons, !lsum_nil in Hc.
  rewrite !(one_wire z_obs F eq_refl H1), !(one_wire x_obs G eq_refl H2) in Hc by lia. unfold mid in Hc. cbn in Hc. apply (f_equal Re) in Hc. simpl in Hc. lra.
Qed.
