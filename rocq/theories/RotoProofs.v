(** Proofs about rotosolve. *)
From Coq Require Import Arith Lia Bool String Reals Lra Ring Setoid Morphisms.
From Coquelicot Require Import Coquelicot.
From Verif Require Import Py StarRing Matrix Cplx Expm UtilsModel CircuitModel CircuitProofs2 AlgebraModel LayerModel LayerProofs GreedyModel.
From Coq Require Import List.
Import ListNotations.
Local Open Scope R_scope.

Add Ring CrRoto : C_ring_theory.

(** ** arctan2 *)
Lemma sqrt_scale z w : 0 <= w -> sqrt (w ^ 2 * z) = w * sqrt z.
Proof.
  intros Hw. destruct (Rle_dec 0 z) as [Hz|Hz].
  - rewrite sqrt_mult; [|nra|auto]. rewrite sqrt_pow2; auto.
  - rewrite (sqrt_neg_0 z) by lra. rewrite sqrt_neg_0; [ring|]. assert (0 <= w ^ 2) by nra. nra.
Qed.

Lemma norm_pos_x y x : x <> 0 -> sqrt (x ^ 2 + y ^ 2) = Rabs x * sqrt (1 + (y / x)²).
Proof.
  intros Hx. rewrite <- sqrt_scale by apply Rabs_pos. f_equal. rewrite pow2_abs. unfold Rsqr. field. auto.
Qed.

Lemma arctan2_spec y x : let r := sqrt (x ^ 2 + y ^ 2) in
  r * sin (np_arctan2 y x) = y /\ r * cos (np_arctan2 y x) = x.
Proof.
  cbv zeta. unfold np_arctan2.
  assert (Hs : forall z, 0 < sqrt (1 + z²)). { intros z. apply sqrt_lt_R0. pose proof (Rle_0_sqr z). lra. }
  destruct (Rlt_dec 0 x) as [H|H]; [|destruct (Rlt_dec x 0) as [H'|H']].
  - rewrite norm_pos_x by lra. rewrite Rabs_right by lra. rewrite sin_atan, cos_atan.
    pose proof (Hs (y / x)). split; field; repeat split; lra.
  - rewrite norm_pos_x by lra. rewrite Rabs_left by lra. pose proof (Hs (y / x)).
    destruct (Rlt_dec y 0).
    + replace (atan (y / x) - PI) with (atan (y / x) + PI - 2 * PI) by ring.
      assert (E1 : forall a, sin (a + PI - 2 * PI) = - sin a).
      { intros a. replace (a + PI - 2 * PI) with (a - PI) by ring. rewrite sin_minus, sin_PI, cos_PI. ring. }
      assert (E2 : forall a, cos (a + PI - 2 * PI) = - cos a).
      { intros a. replace (a + PI - 2 * PI) with (a - PI) by ring. rewrite cos_minus, sin_PI, cos_PI. ring. }
      rewrite E1, E2, sin_atan, cos_atan. split; field; repeat split; lra.
    + rewrite neg_sin, neg_cos, sin_atan, cos_atan. split; field; repeat split; lra.
  - assert (x = 0) by lra. subst x. replace (0 ^ 2 + y ^ 2) with (y ^ 2) by ring.
    destruct (Rlt_dec 0 y); [|destruct (Rlt_dec y 0)].
    + rewrite sqrt_pow2 by lra. rewrite sin_PI2, cos_PI2. split; ring.
    + replace (y ^ 2) with ((- y) ^ 2) by ring. rewrite sqrt_pow2 by lra. rewrite sin_neg, cos_neg, sin_PI2, cos_PI2. split; ring.
    + assert (y = 0) by lra. subst y. replace (0 ^ 2) with 0 by ring. rewrite sqrt_0. split; ring.
Qed.

(** a sinusoid is smallest at the angle opposite to its phase *)
Lemma sinusoid_min q r t : - sqrt (r ^ 2 + q ^ 2) <= q * cos t + r * sin t.
Proof.
  destruct (Rle_dec 0 (q * cos t + r * sin t)) as [H|H].
  - pose proof (sqrt_pos (r ^ 2 + q ^ 2)). lra.
  - apply Ropp_le_cancel. rewrite Ropp_involutive. apply Rsqr_incr_0_var; [|apply sqrt_pos].
    rewrite Rsqr_sqrt by (pose proof (pow2_ge_0 r); pose proof (pow2_ge_0 q); lra). pose proof (sin2_cos2 t) as E. unfold Rsqr in *.
    assert (H0 : 0 <= (q * sin t - r * cos t) ^ 2) by apply pow2_ge_0.
    replace (r ^ 2 + q ^ 2) with ((r ^ 2 + q ^ 2) * (sin t * sin t + cos t * cos t)) by (rewrite E; ring). lra.
Qed.

(** ** The cost along a Pauli rotation *)
Lemma rsum_total n obs U : total_cost n obs U = rsum (fun o => qnode_expval n U (a_ent o)) obs.
Proof. unfold total_cost. rewrite fold_left_rsum. lra. Qed.

Definition roto_A (d : nat) (x : nat -> C) (M : mat C) : R := Re (ip d x (mv d M x)).
Definition roto_B (d : nat) (x : nat -> C) (P M : mat C) : R := Re (ip d (mv d P x) (mv d M (mv d P x))).
Definition roto_D (d : nat) (x : nat -> C) (P M : mat C) : R :=
  Re (Cminus (Cmult Ci (ip d (mv d P x) (mv d M x))) (Cmult Ci (ip d x (mv d M (mv d P x))))).

Lemma mv_add_vec d M x y i : mv d M (fun j => Cplus (x j) (y j)) i = Cplus (mv d M x i) (mv d M y i).
Proof.
  unfold mv. rewrite <- (lsum_add (SR := CStar)). apply lsum_ext. intros j _. cbn [kadd CStar]. ring.
Qed.

Lemma mv_add_mat d A B x i : mv d (madd A B) x i = Cplus (mv d A x i) (mv d B x i).
Proof.
  unfold mv, madd. rewrite <- (lsum_add (SR := CStar)). apply lsum_ext. intros j _. cbn [kadd CStar]. ring.
Qed.

Lemma ip_add_l d x y z : ip d (fun i => Cplus (x i) (y i)) z = Cplus (ip d x z) (ip d y z).
Proof.
  unfold ip. rewrite <- (lsum_add (SR := CStar)). apply lsum_ext. intros i _. cbn [kadd CStar].
  replace (Cconj (Cplus (x i) (y i))) with (Cplus (Cconj (x i)) (Cconj (y i))) by (apply C_ext; simpl; ring). ring.
Qed.

Lemma roto_quad d (P M U : mat C) (t : R) : (0 < d)%nat -> meq d (mmul d P P) mid ->
  let x := qnode_state U in
  Re (quad d (qnode_state (mmul d (expm d (mscale (mit t) P)) U)) M) =
    (roto_A d x M + roto_B d x P M) / 2 + (roto_A d x M - roto_B d x P M) / 2 * cos (2 * t) + roto_D d x P M / 2 * sin (2 * t).
Proof.
  intros Hd HP x. rewrite state_mmul, quad_ip. fold x.
  set (y := mv d P x).
  assert (E : veq d (mv d (expm d (mscale (mit t) P)) x) (fun i => Cplus (Cmult (RtoC (cos t)) (x i)) (Cmult (mit (sin t)) (y i)))).
  { intros i Hi. rewrite (mv_ext d _ _ x x (expm_involution d P t HP) (fun _ _ => eq_refl) i Hi).
    rewrite mv_add_mat, !mv_scale_mat, mv_id by auto. reflexivity. }
  rewrite (ip_ext d _ (fun i => Cplus (Cmult (RtoC (cos t)) (x i)) (Cmult (mit (sin t)) (y i))) _
    (fun i => Cplus (Cmult (RtoC (cos t)) (mv d M x i)) (Cmult (mit (sin t)) (mv d M y i))) E).
  2: { intros i Hi. rewrite (mv_ext d M M _ _ (fun _ _ _ _ => eq_refl) E i Hi). rewrite mv_add_vec, !mv_scale. reflexivity. }
  rewrite ip_add_l, !ip_add_r, !ip_scale_l, !ip_scale_r.
  unfold roto_A, roto_B, roto_D. fold y.
  destruct (ip d x (mv d M x)) as [a1 a2]. destruct (ip d y (mv d M y)) as [b1 b2].
  destruct (ip d x (mv d M y)) as [c1 c2]. destruct (ip d y (mv d M x)) as [e1 e2].
  rewrite cos_2a, sin_2a. pose proof (sin2_cos2 t) as Hsc. unfold Rsqr in Hsc. unfold mit. simpl.
  replace ((a1 + b1) / 2) with ((a1 + b1) / 2 * (sin t * sin t + cos t * cos t)) by (rewrite Hsc; ring). field.
Qed.

Definition ro_p (n : nat) (obs : list (arr C)) (P U : mat C) : R :=
  rsum (fun o => (roto_A (2 ^ n) (qnode_state U) (a_ent o) + roto_B (2 ^ n) (qnode_state U) P (a_ent o)) / 2) obs.
Definition ro_q (n : nat) (obs : list (arr C)) (P U : mat C) : R :=
  rsum (fun o => (roto_A (2 ^ n) (qnode_state U) (a_ent o) - roto_B (2 ^ n) (qnode_state U) P (a_ent o)) / 2) obs.
Definition ro_r (n : nat) (obs : list (arr C)) (P U : mat C) : R :=
  rsum (fun o => roto_D (2 ^ n) (qnode_state U) P (a_ent o) / 2) obs.

Lemma pow2_pos n : (0 < 2 ^ n)%nat.
Proof. apply Nat.neq_0_lt_0, Nat.pow_nonzero. lia. Qed.

Lemma cost_along n k obs P U t : meq (2 ^ n) (mmul (2 ^ n) P P) mid ->
  total_cost n obs (mmul (2 ^ n) (roto_gate n k P t) U) =
    ro_p n obs P U + ro_q n obs P U * cos (2 * (t / 2 ^ k)) + ro_r n obs P U * sin (2 * (t / 2 ^ k)).
Proof.
  intros HP. rewrite rsum_total. unfold ro_p, ro_q, ro_r, qnode_expval, roto_gate.
  induction obs as [|o obs IH]; [simpl; ring|]. cbn [rsum]. rewrite IH, (roto_quad (2 ^ n) P _ U (t / 2 ^ k) (pow2_pos n) HP). ring.
Qed.

Lemma cost_start n obs P U : meq (2 ^ n) (mmul (2 ^ n) P P) mid -> total_cost n obs U = ro_p n obs P U + ro_q n obs P U.
Proof.
  intros HP. rewrite rsum_total. unfold ro_p, ro_q, qnode_expval. induction obs as [|o obs IH]; [simpl; ring|]. cbn [rsum]. rewrite IH.
  rewrite quad_ip. unfold roto_A. lra.
Qed.

(** the angle of rotosolve in terms of the three coefficients *)
Lemma roto_eta n k obs P U : meq (2 ^ n) (mmul (2 ^ n) P P) mid ->
  snd (rotosolve n P obs U k) =
    - PI / 2 - np_arctan2 (2 * ro_q n obs P U * (1 - cos (PI / 2 ^ k))) (2 * ro_r n obs P U * sin (PI / 2 ^ k)).
Proof.
  intros HP. unfold rotosolve. cbn [snd]. rewrite !cost_along, (cost_start n obs P U) by auto.
  assert (H2 : 0 < 2 ^ k) by (apply pow_lt; lra).
  replace (2 * (- (PI / 2) / 2 ^ k)) with (- (PI / 2 ^ k)) by (field; lra).
  replace (2 * (PI / 2 / 2 ^ k)) with (PI / 2 ^ k) by (field; lra). rewrite cos_neg, sin_neg.
  f_equal. f_equal; ring.
Qed.

Lemma roto_cost n k obs P U : meq (2 ^ n) (mmul (2 ^ n) P P) mid ->
  total_cost n obs (fst (rotosolve n P obs U k)) =
    ro_p n obs P U + ro_q n obs P U * cos (2 * (snd (rotosolve n P obs U k) / 2 ^ k)) +
    ro_r n obs P U * sin (2 * (snd (rotosolve n P obs U k) / 2 ^ k)).
Proof. intros HP. unfold rotosolve at 1. cbn [fst]. apply cost_along; auto. Qed.

Lemma roto_optimal n obs P U : meq (2 ^ n) (mmul (2 ^ n) P P) mid ->
  forall t, total_cost n obs (fst (rotosolve n P obs U 1)) <= total_cost n obs (mmul (2 ^ n) (roto_gate n 1 P t) U).
Proof.
  intros HP t. rewrite roto_cost, cost_along by auto. rewrite roto_eta by auto.
  set (q := ro_q n obs P U). set (r := ro_r n obs P U). replace (2 ^ 1) with 2 by ring. rewrite cos_PI2, sin_PI2.
  replace (2 * q * (1 - 0)) with (2 * q) by ring. replace (2 * r * 1) with (2 * r) by ring.
  destruct (arctan2_spec (2 * q) (2 * r)) as [E1 E2]. set (a := np_arctan2 (2 * q) (2 * r)) in *.
  replace (2 * ((- PI / 2 - a) / 2)) with (- (PI / 2 + a)) by field.
  rewrite cos_neg, sin_neg, cos_plus, sin_plus, cos_PI2, sin_PI2.
  pose proof (sinusoid_min q r (2 * (t / 2))) as Hm.
  assert (E : sqrt ((2 * r) ^ 2 + (2 * q) ^ 2) = 2 * sqrt (r ^ 2 + q ^ 2)).
  { replace ((2 * r) ^ 2 + (2 * q) ^ 2) with (2 ^ 2 * (r ^ 2 + q ^ 2)) by ring. apply sqrt_scale. lra. }
  rewrite E in *. set (s := sqrt (r ^ 2 + q ^ 2)) in *.
  assert (Eq : q = s * sin a) by lra. assert (Er : r = s * cos a) by lra.
  assert (Hs : q * sin a + r * cos a = s).
  { rewrite Eq, Er. pose proof (sin2_cos2 a) as H. unfold Rsqr in H. replace (s * sin a * sin a + s * cos a * cos a) with (s * (sin a * sin a + cos a * cos a)) by ring. rewrite H. ring. }
  lra.
Qed.

Lemma roto_gate_unitary n k P t : hermitian (2 ^ n) P -> unitary2 (2 ^ n) (roto_gate n k P t).
Proof.
  intros HP. unfold roto_gate. apply expm_unitary. intros i j Hi Hj. unfold madj, mscale, mit. cbn [kmul kconj CStar].
  specialize (HP i j Hi Hj). unfold madj in HP. cbn [kconj CStar] in HP. rewrite <- HP.
  destruct (P j i) as [a b]. apply C_ext; simpl; ring.
Qed.

Lemma roto_unitary n k obs P U : hermitian (2 ^ n) P -> unitary2 (2 ^ n) U -> unitary2 (2 ^ n) (fst (rotosolve n P obs U k)).
Proof. intros HP HU. apply unitary2_mul; auto. apply roto_gate_unitary; auto. Qed.

(** already optimal along P: the cost stays, for any number of letters *)
Lemma roto_fixed n k obs P U : (0 < k)%nat -> meq (2 ^ n) (mmul (2 ^ n) P P) mid ->
  (forall t, total_cost n obs U <= total_cost n obs (mmul (2 ^ n) (roto_gate n k P t) U)) ->
  total_cost n obs (fst (rotosolve n P obs U k)) = total_cost n obs U.
Proof.
  intros Hk HP Hopt. rewrite roto_cost by auto. rewrite roto_eta by auto. rewrite (cost_start n obs P U HP).
  assert (H : forall t, ro_q n obs P U <= ro_q n obs P U * cos t + ro_r n obs P U * sin t).
  { intros t. specialize (Hopt (t * 2 ^ k / 2)). rewrite cost_along, (cost_start n obs P U HP) in Hopt by auto.
    assert (H2 : 0 < 2 ^ k) by (apply pow_lt; lra).
    replace (2 * (t * 2 ^ k / 2 / 2 ^ k)) with t in Hopt by (field; lra). lra. }
  set (q := ro_q n obs P U) in *. set (r := ro_r n obs P U) in *.
  assert (Hq : q <= 0). { specialize (H PI). rewrite cos_PI, sin_PI in H. lra. }
  assert (Hr : r = 0).
  { destruct (arctan2_spec q r) as [E1 E2]. set (a := np_arctan2 q r) in *. specialize (H (- (PI / 2 + a))).
    rewrite cos_neg, sin_neg, cos_plus, sin_plus, cos_PI2, sin_PI2 in H.
    set (s := sqrt (r ^ 2 + q ^ 2)) in *. rewrite <- E1 in H at 1. rewrite <- E1 in H at 1. rewrite <- E2 in H at 1.
    pose proof (sin2_cos2 a) as Hsc. unfold Rsqr in Hsc.
    assert (Hs : s * sin a <= - s). { replace (- s) with (- s * (sin a * sin a + cos a * cos a)) by (rewrite Hsc; ring). nra. }
    assert (Hs0 : 0 <= s) by apply sqrt_pos.
    assert (Hn : s * s = r ^ 2 + q ^ 2). { unfold s. apply sqrt_sqrt. nra. }
    rewrite E1 in Hs. nra. }
  rewrite Hr. rewrite !Rmult_0_r, !Rmult_0_l.
  destruct (Req_dec q 0) as [Hq0|Hq0].
  - rewrite Hq0. ring.
  - assert (Hc : cos (PI / 2 ^ k) < 1).
    { assert (Hp := PI_RGT_0). assert (H2 : 0 < 2 ^ k) by (apply pow_lt; lra). assert (H1 : 1 <= 2 ^ k) by (apply pow_R1_Rle; lra).
      assert (Hlo : 0 < PI / 2 ^ k) by (apply Rdiv_lt_0_compat; lra).
      assert (Hhi : PI / 2 ^ k <= PI) by (apply Rle_div_l; [auto|nra]).
      rewrite <- cos_0. apply cos_decreasing_1; lra. }
    unfold np_arctan2. destruct (Rlt_dec 0 0); [lra|]. assert (2 * q * (1 - cos (PI / 2 ^ k)) < 0) by nra.
    destruct (Rlt_dec 0 (2 * q * (1 - cos (PI / 2 ^ k)))); [lra|]. destruct (Rlt_dec _ 0); [|lra].
    replace (2 * ((- PI / 2 - - (PI / 2)) / 2 ^ k)) with 0 by (field; assert (0 < 2 ^ k) by (apply pow_lt; lra); lra).
    rewrite cos_0. ring.
Qed.
