(** Further proofs about FlowModel.v: the angle of the exact flow, its limit, and
    the step as a matrix exponential. *)
From Coq Require Import Arith Lia Bool String Reals Lra Ring Setoid Morphisms Factorial.
From Coquelicot Require Import Coquelicot.
From Verif Require Import Py StarRing Matrix Cplx Expm UtilsModel CircuitModel CircuitProofs CircuitProofs2 LayerModel LayerProofs OptimizerModel FlowModel FlowProofs.
From Coq Require Import List.
Import ListNotations.
Local Open Scope R_scope.

(** ** The angle *)
Definition next_angle (eta a : R) : R := a + eta * sin a.

Lemma sin_le_x x : 0 <= x -> sin x <= x.
Proof. intros [H|<-]; [left; apply sin_lt_x; exact H|rewrite sin_0; lra]. Qed.

Lemma next_angle_bound eta a : 0 <= eta <= 1 -> 0 <= a <= PI -> a <= next_angle eta a <= PI.
Proof.
  intros He Ha. unfold next_angle. assert (H0 : 0 <= sin a) by (apply sin_ge_0; lra).
  assert (H1 : sin a <= PI - a) by (rewrite <- sin_PI_x; apply sin_le_x; lra). split; nra.
Qed.

Lemma cos_le_mono x y : 0 <= x -> x <= y -> y <= PI -> cos y <= cos x.
Proof. intros. destruct (Req_dec x y) as [->|Hn]; [lra|]. left. apply cos_decreasing_1; lra. Qed.

Definition next_cost (eta m : R) : R := m * cos (eta * sqrt (1 - m * m)) - sqrt (1 - m * m) * sin (eta * sqrt (1 - m * m)).

Lemma next_cost_angle eta m : -1 <= m <= 1 -> next_cost eta m = cos (next_angle eta (acos m)).
Proof.
  intros Hm. unfold next_cost, next_angle. rewrite cos_plus, cos_acos by lra. rewrite sin_acos by lra.
  replace (1 - m²) with (1 - m * m) by (unfold Rsqr; ring). reflexivity.
Qed.

Lemma next_cost_le eta m : 0 <= eta <= 1 -> -1 <= m <= 1 -> -1 <= next_cost eta m <= m.
Proof.
  intros He Hm. rewrite next_cost_angle by auto. pose proof (acos_bound m) as Ha. pose proof (next_angle_bound eta (acos m) He Ha) as Hb.
  split; [apply COS_bound|]. rewrite <- (cos_acos m) at 2 by lra. apply cos_le_mono; lra.
Qed.

Lemma next_cost_stall eta m : 0 < eta <= 1 -> -1 <= m <= 1 -> (next_cost eta m = m <-> m * m = 1).
Proof.
  intros He Hm. split.
  - intros E. rewrite next_cost_angle in E by auto. pose proof (acos_bound m) as Ha.
    pose proof (next_angle_bound eta (acos m) ltac:(lra) Ha) as Hb. rewrite <- (cos_acos m) in E at 2 by lra.
    assert (Q : next_angle eta (acos m) = acos m) by (apply cos_inj; lra). unfold next_angle in Q.
    assert (Z : sin (acos m) = 0) by nra. rewrite sin_acos in Z by lra. apply sqrt_eq_0 in Z; [unfold Rsqr in Z; lra|]. unfold Rsqr. nra.
  - intros E. unfold next_cost. replace (1 - m * m) with 0 by lra. rewrite sqrt_0, Rmult_0_r, cos_0, sin_0. ring.
Qed.

Lemma next_cost_acos eta m : 0 <= eta <= 1 -> -1 <= m <= 1 -> acos (next_cost eta m) = next_angle eta (acos m).
Proof.
  intros He Hm. rewrite next_cost_angle by auto. pose proof (acos_bound m) as Ha. pose proof (next_angle_bound eta (acos m) He Ha) as Hb. apply acos_cos. lra.
Qed.

Lemma acos_pos m : -1 <= m < 1 -> 0 < acos m.
Proof.
  intros H. pose proof (acos_bound m) as Ha. destruct (Req_dec (acos m) 0) as [E|E]; [|lra].
  pose proof (cos_acos m ltac:(lra)) as Q. rewrite E, cos_0 in Q. lra.
Qed.

(** the iterated costs converge to -1 *)
Lemma next_cost_limit eta (c : nat -> R) : 0 < eta <= 1 -> -1 <= c 0%nat < 1 -> (forall k, c (S k) = next_cost eta (c k)) -> is_lim_seq c (-1).
Proof.
  intros He H0 Hc. set (a := fun k => acos (c k)).
  assert (Hb : forall k, -1 <= c k < 1).
  { induction k as [|k IH]; [exact H0|]. rewrite Hc. pose proof (next_cost_le eta (c k) ltac:(lra) ltac:(lra)). lra. }
  assert (Ha : forall k, a (S k) = next_angle eta (a k)) by (intros k; unfold a; rewrite Hc; apply next_cost_acos; [lra|specialize (Hb k); lra]).
  assert (Hab : forall k, 0 <= a k <= PI) by (intros k; apply acos_bound).
  assert (Hinc : forall k, a k <= a (S k)) by (intros k; rewrite Ha; apply next_angle_bound; [lra|apply Hab]).
  assert (Hge : forall k, a 0%nat <= a k) by (induction k as [|k IH]; [lra|specialize (Hinc k); lra]).
  destruct (ex_finite_lim_seq_incr a PI Hinc ltac:(intros k; apply Hab)) as (L & HL).
  assert (HLb : a 0%nat <= L <= PI).
  { split.
    - apply (is_lim_seq_le (fun _ => a 0%nat) a (a 0%nat) L); [intros; apply Hge|apply is_lim_seq_const|exact HL].
    - apply (is_lim_seq_le a (fun _ => PI) L PI); [intros; apply Hab|exact HL|apply is_lim_seq_const]. }
  assert (Hsin : is_lim_seq (fun k => sin (a k)) (sin L)).
  { apply (is_lim_seq_continuous sin a L); [apply continuity_pt_filterlim; apply continuous_sin|exact HL]. }
  assert (H1 : is_lim_seq (fun k => a (S k)) L) by (apply (is_lim_seq_incr_1 a L); exact HL).
  assert (H2 : is_lim_seq (fun k => a (S k)) (L + eta * sin L)).
  { apply (is_lim_seq_ext (fun k => a k + eta * sin (a k))); [intros k; rewrite Ha; reflexivity|].
    apply (is_lim_seq_plus' a (fun k => eta * sin (a k)) L (eta * sin L)); [exact HL|]. apply (is_lim_seq_scal_l (fun k => sin (a k)) eta (sin L) Hsin). }
  assert (E : L = L + eta * sin L).
  { apply is_lim_seq_unique in H1. apply is_lim_seq_unique in H2. rewrite H1 in H2. injection H2. auto. }
  assert (Z : sin L = 0) by nra.
  assert (P0 : 0 < L) by (pose proof (acos_pos (c 0%nat) H0); unfold a in HLb; lra).
  assert (L = PI). { destruct (Req_dec L PI) as [->|Hn]; [reflexivity|]. assert (0 < sin L) by (apply sin_gt_0; lra). lra. }
  subst L. apply (is_lim_seq_ext (fun k => cos (a k))); [intros k; unfold a; apply cos_acos; specialize (Hb k); lra|].
  replace (Finite (-1)) with (Finite (cos PI)) by (rewrite cos_PI; reflexivity).
  apply (is_lim_seq_continuous cos a PI); [apply continuity_pt_filterlim; apply continuous_cos|exact HL].
Qed.

(** ** The step is a matrix exponential *)
Lemma mpow_conj d V A k : meq d (mmul d (madj V) V) mid -> meq d (mmul d V (madj V)) mid ->
  meq d (mpow (SR := CStar) d (mmul d (mmul d V A) (madj V)) k) (mmul d (mmul d V (mpow d A k)) (madj V)).
Proof.
  intros H1 H2. induction k as [|k IH]; cbn [mpow].
  - rewrite mmul_1_r. symmetry. exact H2.
  - rewrite IH. rewrite !mmul_assoc. rewrite <- (mmul_assoc d (mmul d V A) (madj V) V), H1, mmul_1_r. reflexivity.
Qed.

Lemma mpow_diag d t f k :
  meq d (mpow (SR := CStar) d (mscale (SR := CStar) (mit t) (np_diag (fun i => RtoC (f i)))) k)
    (np_diag (fun i => (fst (uv (t * f i) k), - snd (uv (t * f i) k)))).
Proof.
  induction k as [|k IH]; cbn [mpow].
  - symmetry. apply np_diag_one. intros i _. cbn [uv fst snd]. apply C_ext; simpl; ring.
  - rewrite IH, mmul_scale_l, np_diag_mul. intros i j _ _. unfold mscale, np_diag. cbn [kmul CStar]. destruct (i =? j).
    + cbn [uv]. destruct (uv (t * f i) k) as [x y]. cbn [fst snd]. unfold mit. apply C_ext; simpl; ring.
    + ring.
Qed.

Lemma expm_diag d t f : meq d (expm d (mscale (SR := CStar) (mit t) (np_diag (fun i => RtoC (f i))))) (np_diag (fun i => (cos (t * f i), - sin (t * f i)))).
Proof.
  apply expm_intro. intros i j Hi Hj. eapply cser_ext.
  - intros k. symmetry. unfold eterm. unfold mscale at 1. rewrite (mpow_diag d t f k i j Hi Hj). reflexivity.
  - unfold np_diag. destruct (i =? j).
    + split; cbn [Re Im fst snd].
      * eapply is_series_extR; [|apply cos_series]. intros k. cbn beta. simpl. unfold Rdiv. ring.
      * eapply is_series_extR; [|replace (- sin (t * f i)) with (-1 * sin (t * f i)) by ring; apply is_series_scal_R; apply sin_series].
        intros k. cbn beta. simpl. unfold Rdiv. ring.
    + eapply cser_ext; [|apply cser_0]. intros k. cbn [kmul CStar]. ring.
Qed.

Lemma expm_conj d V A : meq d (mmul d (madj V) V) mid -> meq d (mmul d V (madj V)) mid ->
  meq d (expm d (mmul (SR := CStar) d (mmul d V A) (madj V))) (mmul d (mmul d V (expm d A)) (madj V)).
Proof.
  intros H1 H2. apply expm_intro. intros i j Hi Hj. eapply cser_ext.
  - intros k. symmetry. unfold eterm. unfold mscale at 1. rewrite (mpow_conj d V A k H1 H2 i j Hi Hj). reflexivity.
  - apply cser_ext with (a := fun k => mmul (SR := CStar) d (mmul d V (eterm d A k)) (madj V) i j).
    + intros k.
      assert (E : meq d (mmul (SR := CStar) d (mmul d V (eterm d A k)) (madj V)) (mscale (RtoC (/ INR (fact k))) (mmul d (mmul d V (mpow d A k)) (madj V)))).
      { unfold eterm. rewrite mmul_scale_r, mmul_scale_l. reflexivity. }
      rewrite (E i j Hi Hj). reflexivity.
    + unfold mmul at 1. unfold mmul at 2. apply (cser_lsum (fun b k => kmul (mmul (SR := CStar) d V (eterm d A k) i b) (madj V b j)) (fun b => kmul (mmul (SR := CStar) d V (expm d A) i b) (madj V b j))).
      intros b Hb. apply in_seq in Hb. cbn [kmul CStar].
      eapply cser_ext with (a := fun k => Cmult (madj V b j) (mmul (SR := CStar) d V (eterm d A k) i b)); [intros; ring|].
      rewrite (Cmult_comm (mmul d V (expm d A) i b)). apply cser_scal. unfold mmul.
      apply (cser_lsum (fun a k => kmul (V i a) (eterm d A k a b)) (fun a => kmul (V i a) (expm d A a b))).
      intros a Ha. apply in_seq in Ha. cbn [kmul CStar]. apply cser_scal. apply expm_cser; lia.
Qed.

(** the step applied by exact_lie_optimizer is exp(-i eta/2 H), whatever
    eigendecomposition eigh returned *)
Lemma spin_expm d eta H r : eigh_at d H r -> meq d (spin d eta r) (expm d (mscale (SR := CStar) (mit (eta / 2)) H)).
Proof.
  intros (Hu & HH). unfold spin. destruct r as [Sv V]. cbn [fst snd] in *. destruct Hu as [U1 U2].
  transitivity (mmul (SR := CStar) d (mmul d V (expm d (mscale (SR := CStar) (mit (eta / 2)) (np_diag (fun i => RtoC (Sv i)))))) (madj V)).
  - rewrite (expm_diag d (eta / 2) Sv). reflexivity.
  - rewrite <- expm_conj by assumption. apply expm_proper. rewrite HH. rewrite mmul_scale_r, mmul_scale_l. reflexivity.
Qed.
