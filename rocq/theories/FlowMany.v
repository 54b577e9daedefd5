(** The state after a step of the exact flow, and its derivative in the step size. *)
From Coq Require Import Arith Lia Bool String Reals Lra Ring Setoid Morphisms Classical.
From Coquelicot Require Import Coquelicot.
From Verif Require Import Py StarRing Matrix Cplx Expm MDeriv UtilsModel CircuitModel CircuitProofs CircuitProofs2 LayerModel LayerProofs OptimizerModel FlowModel FlowProofs FlowProofs2.
From Coq Require Import List.
Import ListNotations.
Local Open Scope R_scope.


(** sin x / x *)
Definition sinc (x : R) : R := if Req_EM_T x 0 then 1%R else (sin x / x)%R.
Lemma sinc_mul x : (sinc x * x = sin x)%R.
Proof. unfold sinc. destruct (Req_EM_T x 0) as [->|H]; [rewrite sin_0; ring|field; exact H]. Qed.
Lemma sinc_0 : sinc 0 = 1%R.
Proof. unfold sinc. destruct (Req_EM_T 0 0); [reflexivity|congruence]. Qed.
Lemma sinc_continuous : continuous sinc 0%R.
Proof.
  intros P HP. rewrite sinc_0 in HP. destruct HP as (e & He).
  assert (D : derivable_pt_lim sin 0 1) by (replace 1%R with (cos 0) by apply cos_0; apply derivable_pt_lim_sin).
  destruct (D e (cond_pos e)) as (del & Hd). exists del. intros y Hy. apply He. change (Rabs (sinc y - 1) < e). change (Rabs (y - 0) < del) in Hy. rewrite Rminus_0_r in Hy.
  unfold sinc. destruct (Req_EM_T y 0) as [->|Hne]; [rewrite Rminus_diag_eq by reflexivity; rewrite Rabs_R0; apply cond_pos|].
  specialize (Hd y Hne Hy). rewrite sin_0, Rplus_0_l, Rminus_0_r in Hd. exact Hd.
Qed.

(** the state after one step, for an observable whose square is the identity *)
Lemma step_state d F H r u eta : (0 < d)%nat -> hermitian d F -> meq d (mmul d F F) mid -> unitary2 d u ->
  meq d H (mscale Ci (msub (mmul d (outer (qnode_state u)) F) (mmul d F (outer (qnode_state u))))) -> eigh_at d H r ->
  let phi := qnode_state u in let m := Re (quad d phi F) in let s := sqrt (1 - m * m) in let g := (eta / 2 * sinc (eta / 2 * s))%R in
  veq d (qnode_state (mmul d (spin d eta r) u)) (fun i => Cplus (Cmult (RtoC (cos (eta / 2 * s) + g * m)) (phi i)) (Cmult (RtoC (- g)) (mv d F phi i))).
Proof.
  intros Hd Fh F2 Hu HH He phi m s g.
  assert (N : ip d phi phi = RtoC 1) by (apply state_norm; [exact Hd|apply Hu]).
  pose proof (exp_bound d F phi Fh F2 N) as B. fold m in B.
  assert (Hs : (s * s = 1 - m * m)%R) by (apply sqrt_sqrt; nra). assert (Hs0 : (0 <= s)%R) by apply sqrt_pos.
  assert (Hg : (g * s = sin (eta / 2 * s))%R) by (unfold g; rewrite <- (sinc_mul (eta / 2 * s)); ring).
  rewrite state_mmul. fold phi.
  assert (HK : veq d (mv d H phi) (fun i => Cmult Ci (Cminus (Cmult (RtoC m) (phi i)) (mv d F phi i)))).
  { eapply veq_trans; [apply mv_ext; [exact HH|apply veq_refl]|]. apply K_phi; auto. }
  assert (HK2 : veq d (mv d H (mv d H phi)) (fun i => Cmult (RtoC (s * s)) (phi i))).
  { eapply veq_trans; [apply mv_ext; [exact HH|apply mv_ext; [exact HH|apply veq_refl]]|]. rewrite Hs. apply K_twice; auto. }
  pose proof (spin_action d eta H r phi s g He Hs0 Hg HK2) as A.
  intros i Hi. rewrite (A i Hi), (HK i Hi). destruct (phi i) as [p q], (mv d F phi i) as [p' q']. apply C_ext; simpl; ring.
Qed.

(** ** Derivatives at 0 *)
Lemma der_lin (c : R -> R) : continuous c 0%R -> is_derive (fun t => t * c t)%R 0%R (c 0%R).
Proof.
  intros Hc. apply is_derive_Reals. intros e He. assert (HP : locally (c 0%R) (fun y => Rabs (y - c 0%R) < e)%R).
  { exists (mkposreal e He). intros y Hy. exact Hy. }
  destruct (Hc _ HP) as (del & Hd). exists del. intros h Hh Hb. rewrite Rplus_0_l, Rmult_0_l, Rminus_0_r. replace (h * c h / h)%R with (c h) by (field; exact Hh).
  apply Hd. change (Rabs (h - 0) < del). rewrite Rminus_0_r. exact Hb.
Qed.

Definition vder (d : nat) (f : R -> nat -> C) (v : nat -> C) : Prop := forall i, (i < d)%nat -> cder (fun t => f t i) 0%R (v i).

Lemma vder_mv d F f v : vder d f v -> vder d (fun t => mv d F (f t)) (mv d F v).
Proof.
  intros H i Hi. unfold mv. eapply cder_ext; [intros; reflexivity| |apply (cder_lsum (fun k t => Cmult (F i k) (f t k)) (fun k => Cmult (F i k) (v k)))]; [reflexivity|].
  intros k Hk. apply in_seq in Hk. eapply cder_ext; [intros; reflexivity| |apply (cder_mult _ _ 0%R _ _ (cder_const (F i k) 0) (H k ltac:(lia)))]. ring.
Qed.
Lemma vder_ip d f g v w : vder d f v -> vder d g w -> cder (fun t => ip d (f t) (g t)) 0%R (Cplus (ip d v (g 0%R)) (ip d (f 0%R) w)).
Proof.
  intros H1 H2. unfold ip. eapply cder_ext; [intros; reflexivity| |apply (cder_lsum (fun k t => Cmult (Cconj (f t k)) (g t k)) (fun k => Cplus (Cmult (Cconj (v k)) (g 0%R k)) (Cmult (Cconj (f 0%R k)) (w k))))].
  - rewrite <- (lsum_add (SR := CStar)). reflexivity.
  - intros k Hk. apply in_seq in Hk. apply (cder_mult (fun t => Cconj (f t k)) (fun t => g t k)); [apply cder_conj, H1; lia|apply H2; lia].
Qed.

(** one more step: the states [f t] are followed by the step with the observable F *)
Lemma step_vder d F f v (x : nat -> C) : vder d f v -> f 0%R = x ->
  let m t := Re (quad d (f t) F) in let s t := sqrt (1 - m t * m t) in let g t := (t / 2 * sinc (t / 2 * s t))%R in
  vder d (fun t i => Cplus (Cmult (RtoC (cos (t / 2 * s t) + g t * m t)) (f t i)) (Cmult (RtoC (- g t)) (mv d F (f t) i)))
    (fun i => Cplus (v i) (Cmult (RtoC (/ 2)) (Cminus (Cmult (RtoC (Re (quad d x F))) (x i)) (mv d F x i)))).
Proof.
  intros Hv Hx m s g.
  assert (Dm : exists l, is_derive m 0%R l).
  { eexists. eapply is_derive_extR; [|reflexivity|apply (proj1 (vder_ip d f (fun t => mv d F (f t)) v (mv d F v) Hv (vder_mv d F f v Hv)))]. intros t. unfold m. rewrite quad_ip. reflexivity. }
  assert (Cm : continuous m 0%R) by (destruct Dm as (l & Dl); apply (ex_derive_continuous (K := R_AbsRing) (V := R_NormedModule) m 0); exists l; exact Dl).
  assert (Cs : continuous s 0%R).
  { unfold s. apply (continuous_comp (fun t => 1 - m t * m t)%R sqrt); [|apply continuous_sqrt].
    apply (continuous_minus (V := R_NormedModule) (fun _ => 1%R) (fun t => m t * m t)%R); [apply continuous_const|apply (continuous_mult m m); assumption]. }
  assert (Ch : forall k, k = 2%R -> continuous (fun t => / k * sinc (t / k * s t))%R 0).
  { intros k ->. apply (continuous_mult (fun _ => / 2)%R (fun t => sinc (t / 2 * s t))%R); [apply continuous_const|].
    apply (continuous_comp (fun t => t / 2 * s t)%R sinc); [|replace (0 / 2 * s 0)%R with 0%R by field; apply sinc_continuous].
    apply (continuous_mult (fun t => t / 2)%R s); [|exact Cs]. apply (continuous_mult (fun t => t) (fun _ => / 2)%R); [apply continuous_id|apply continuous_const]. }
  assert (Dg : is_derive g 0%R (/ 2)%R).
  { eapply is_derive_extR; [| |apply (der_lin (fun t => / 2 * sinc (t / 2 * s t))%R (Ch 2%R eq_refl))].
    - intros t. unfold g. field.
    - cbn beta. replace (0 / 2 * s 0)%R with 0%R by field. rewrite sinc_0. apply Rmult_1_r. }
  assert (Dgm : is_derive (fun t => g t * m t)%R 0%R (/ 2 * m 0)%R).
  { destruct Dm as (l & Dl). eapply is_derive_extR; [| |apply (is_derive_multR g m 0 _ _ Dg Dl)]; [reflexivity|]. assert (G0 : g 0 = 0) by (unfold g; field). rewrite G0, Rmult_0_l, Rplus_0_r. reflexivity. }
  assert (Dc : is_derive (fun t => cos (t / 2 * s t)) 0%R 0%R).
  { eapply is_derive_extR; [| |apply (is_derive_minus (V := R_NormedModule) (fun _ => 1%R) (fun t => t * (/ 2 * s t * sin (t / 4 * s t) * sinc (t / 4 * s t)))%R 0 0%R 0%R)].
    - intros t. unfold minus, plus, opp; simpl. replace (t / 2 * s t)%R with (2 * (t / 4 * s t))%R by field. rewrite cos_2a_sin. pose proof (sinc_mul (t / 4 * s t)) as Q.
      replace (t * (/ 2 * s t * sin (t / 4 * s t) * sinc (t / 4 * s t)))%R with (2 * sin (t / 4 * s t) * (sinc (t / 4 * s t) * (t / 4 * s t)))%R by field. rewrite Q. ring.
    - unfold minus, plus, opp; simpl. ring.
    - apply (is_derive_const (V := R_NormedModule)).
    - eapply is_derive_extR; [| |apply (der_lin (fun t => / 2 * s t * sin (t / 4 * s t) * sinc (t / 4 * s t))%R)]; [reflexivity| |].
      + cbn beta. replace (0 / 4 * s 0)%R with 0%R by field. rewrite sin_0. match goal with |- ?a = ?b => change (@eq R a b) end. ring.
      + assert (C4 : continuous (fun t => t / 4 * s t)%R 0).
        { apply (continuous_mult (fun t => t / 4)%R s); [|exact Cs]. apply (continuous_mult (fun t => t) (fun _ => / 4)%R); [apply continuous_id|apply continuous_const]. }
        apply (continuous_mult (fun t => / 2 * s t * sin (t / 4 * s t))%R (fun t => sinc (t / 4 * s t))%R).
        * apply (continuous_mult (fun t => / 2 * s t)%R (fun t => sin (t / 4 * s t))%R); [apply (continuous_mult (fun _ => / 2)%R s); [apply continuous_const|exact Cs]|].
          apply (continuous_comp (fun t => t / 4 * s t)%R sin); [exact C4|]. apply continuous_sin.
        * apply (continuous_comp (fun t => t / 4 * s t)%R sinc); [exact C4|]. replace (0 / 4 * s 0)%R with 0%R by field. apply sinc_continuous. }
  assert (RC : forall h l, is_derive h 0%R l -> cder (fun t => RtoC (h t)) 0%R (RtoC l)).
  { intros h l Hh. split; [exact Hh|]. exact (is_derive_const (K := R_AbsRing) (V := R_NormedModule) 0 0). }
  assert (Da : cder (fun t => RtoC (cos (t / 2 * s t) + g t * m t)) 0 (RtoC (/ 2 * m 0%R))).
  { apply RC. eapply is_derive_extR; [| |apply (is_derive_plus _ _ _ _ _ Dc Dgm)]; [reflexivity|]. unfold plus; simpl. ring. }
  assert (Db : cder (fun t => RtoC (- g t)) 0%R (RtoC (- / 2))).
  { apply RC. apply (is_derive_opp _ _ _ Dg). }
  intros i Hi. eapply cder_ext; [| |apply (cder_plus _ _ 0%R _ _ (cder_mult _ _ 0%R _ _ Da (Hv i Hi)) (cder_mult _ _ 0%R _ _ Db (vder_mv d F f v Hv i Hi)))]; [reflexivity|].
  cbn beta. assert (G0 : g 0%R = 0%R) by (unfold g; field). rewrite G0. replace (0 / 2 * s 0)%R with 0%R by field. rewrite cos_0. unfold m. rewrite Hx.
  destruct (x i) as [p q], (v i) as [p1 q1], (mv d F x i) as [p2 q2], (mv d F v i) as [p3 q3]. apply C_ext; simpl; ring.
Qed.
