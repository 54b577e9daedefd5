(** Rotosolve with several letters: the step does not increase the cost when the
    state is on the lower half of the curve. *)
From Coq Require Import Arith Lia Bool String Reals Lra Ring Setoid Morphisms.
From Coquelicot Require Import Coquelicot.
From Verif Require Import Py StarRing Matrix Cplx Expm UtilsModel CircuitModel CircuitProofs2 AlgebraModel LayerModel LayerProofs GreedyModel RotoProofs.
From Coq Require Import List.
Import ListNotations.
Local Open Scope R_scope.

Lemma tan_der x : cos x <> 0 -> is_derive tan x (/ (cos x) ^ 2).
Proof.
  intros H. apply (is_derive_ext (fun x => sin x / cos x)); [reflexivity|]. auto_derive; [auto|].
  pose proof (sin2_cos2 x) as E. unfold Rsqr in E. field_simplify; auto. f_equal. lra.
Qed.

Lemma tan_mvt a b : 0 <= a < b -> b < PI / 2 -> exists c, a <= c <= b /\ tan b - tan a = / (cos c) ^ 2 * (b - a).
Proof.
  intros Ha Hb. destruct (MVT_gen tan a b (fun x => / (cos x) ^ 2)) as (c & Hc & E).
  - intros x Hx. rewrite Rmin_left, Rmax_right in Hx by lra. apply tan_der. apply Rgt_not_eq, cos_gt_0; lra.
  - intros x Hx. rewrite Rmin_left, Rmax_right in Hx by lra. apply continuity_pt_filterlim.
    apply (ex_derive_continuous tan). eexists. apply tan_der. apply Rgt_not_eq, cos_gt_0; lra.
  - rewrite Rmin_left, Rmax_right in Hc by lra. exists c. auto.
Qed.

Lemma tan_convex l a : 0 <= l <= 1 -> 0 <= a < PI / 2 -> tan (l * a) <= l * tan a.
Proof.
  intros Hl Ha. destruct (Req_dec (l * a) 0) as [E0|E0].
  { rewrite E0, tan_0. assert (0 <= tan a). { destruct (Req_dec a 0) as [->|]; [rewrite tan_0; lra|]. apply Rlt_le, tan_gt_0; lra. } nra. }
  destruct (Req_dec l 1) as [->|Hl1]; [rewrite !Rmult_1_l; lra|].
  assert (H1 : 0 < l * a) by nra. assert (H2 : l * a < a) by nra.
  destruct (tan_mvt 0 (l * a)) as (c1 & Hc1 & E1); [lra|lra|]. destruct (tan_mvt (l * a) a) as (c2 & Hc2 & E2); [lra|lra|].
  rewrite tan_0, !Rminus_0_r in E1.
  assert (Hcos : 0 < cos c2 <= cos c1).
  { split; [apply cos_gt_0; lra|]. apply cos_decr_1; lra. }
  assert (Hi : / (cos c1) ^ 2 <= / (cos c2) ^ 2). { apply Rinv_le_contravar; [apply pow_lt; lra|]. apply pow_incr. lra. }
  set (s1 := / (cos c1) ^ 2) in *. set (s2 := / (cos c2) ^ 2) in *.
  assert ((1 - l) * tan (l * a) <= l * (tan a - tan (l * a))).
  { rewrite E2, E1. replace ((1 - l) * (s1 * (l * a))) with (s1 * (l * a * (1 - l))) by ring.
    replace (l * (s2 * (a - l * a))) with (s2 * (l * a * (1 - l))) by ring. apply Rmult_le_compat_r; [|auto]. nra. }
  lra.
Qed.

Lemma tan_ge x : 0 <= x < PI / 2 -> x <= tan x.
Proof.
  intros Hx. destruct (Req_dec x 0) as [->|Hx0]; [rewrite tan_0; lra|].
  destruct (tan_mvt 0 x) as (c & Hc & E); [lra|lra|]. rewrite tan_0, !Rminus_0_r in E. rewrite E.
  assert (0 < cos c) by (apply cos_gt_0; lra). assert (Hc1 : cos c <= 1) by apply COS_bound.
  assert (1 <= / (cos c) ^ 2). { rewrite <- Rinv_1 at 1. apply Rinv_le_contravar; [apply pow_lt; auto|]. nra. }
  nra.
Qed.

Lemma half_pow k : 0 < PI / 2 ^ (k + 1) <= PI / 2.
Proof.
  assert (Hp := PI_RGT_0). rewrite pow_add. assert (1 <= 2 ^ k) by (apply pow_R1_Rle; lra).
  split; [apply Rdiv_lt_0_compat; nra|]. replace (2 ^ 1) with 2 by ring. apply Rle_div_l; [nra|].
  replace (PI / 2 * (2 ^ k * 2)) with (PI * 2 ^ k) by field. nra.
Qed.

(** the angle actually turned is less than twice the optimal one *)
Lemma roto_tan k x : (0 < k)%nat -> 0 < x < PI / 2 -> tan (x / 2 ^ k) < tan x * tan (PI / 2 ^ (k + 1)).
Proof.
  intros Hk Hx. assert (Hp := PI_RGT_0). destruct (half_pow k) as [H1 H2].
  assert (H2' : PI / 2 ^ (k + 1) <= PI / 4).
  { destruct k as [|k]; [lia|]. replace (S k + 1)%nat with (k + 1 + 1)%nat by lia. rewrite pow_add.
    destruct (half_pow k) as [G1 G2]. replace (PI / (2 ^ (k + 1) * 2 ^ 1)) with (PI / 2 ^ (k + 1) / 2); [lra|].
    field. apply pow_nonzero. lra. }
  replace (x / 2 ^ k) with (2 * x / PI * (PI / 2 ^ (k + 1))).
  2: { rewrite pow_add. assert (2 ^ k <> 0) by (apply pow_nonzero; lra). field. split; [auto|lra]. }
  assert (Hl : 0 <= 2 * x / PI <= 1). { split; [apply Rdiv_le_0_compat; lra|apply Rle_div_l; lra]. }
  eapply Rle_lt_trans; [apply tan_convex; [auto|lra]|].
  apply Rmult_lt_compat_r; [apply tan_gt_0; lra|].
  eapply Rlt_le_trans; [|apply tan_ge; lra]. apply Rlt_div_l; [auto|].
  assert (2 < PI). { pose proof PI2_1. lra. } nra.
Qed.

Lemma arctan2_neg y x : y < 0 -> - PI < np_arctan2 y x < 0.
Proof.
  intros Hy. assert (Hp := PI_RGT_0). unfold np_arctan2. pose proof (atan_bound (y / x)) as Hb.
  destruct (Rlt_dec 0 x) as [H|H]; [|destruct (Rlt_dec x 0) as [H'|H']].
  - split; [lra|]. rewrite <- atan_0. apply atan_increasing. apply Rlt_div_l; lra.
  - destruct (Rlt_dec y 0); [|lra]. assert (0 < atan (y / x)).
    { rewrite <- atan_0. apply atan_increasing. replace (y / x) with ((- y) / (- x)) by (field; lra). apply Rdiv_lt_0_compat; lra. }
    lra.
  - destruct (Rlt_dec 0 y); [lra|]. destruct (Rlt_dec y 0); lra.
Qed.

Lemma roto_eta_spec q r k : (0 < k)%nat -> q < 0 ->
  let eta := - PI / 2 - np_arctan2 (2 * q * (1 - cos (PI / 2 ^ k))) (2 * r * sin (PI / 2 ^ k)) in
  - (PI / 2) < eta < PI / 2 /\ r = q * (tan eta * tan (PI / 2 ^ (k + 1))).
Proof.
  intros Hk Hq eta. assert (Hp := PI_RGT_0). destruct (half_pow k) as [H1 H2].
  set (a := PI / 2 ^ (k + 1)) in *.
  assert (H2' : a <= PI / 4).
  { unfold a. destruct k as [|k]; [lia|]. replace (S k + 1)%nat with (k + 1 + 1)%nat by lia. rewrite pow_add.
    destruct (half_pow k) as [G1 G2]. replace (PI / (2 ^ (k + 1) * 2 ^ 1)) with (PI / 2 ^ (k + 1) / 2); [lra|].
    field. apply pow_nonzero. lra. }
  assert (Ea : PI / 2 ^ k = 2 * a). { unfold a. rewrite pow_add. field. apply pow_nonzero. lra. }
  revert eta. rewrite Ea. intros eta.
  assert (Hs : 0 < sin a) by (apply sin_gt_0; lra). assert (Hc : 0 < cos a) by (apply cos_gt_0; lra).
  assert (E1 : 1 - cos (2 * a) = 2 * (sin a * sin a)).
  { rewrite cos_2a. pose proof (sin2_cos2 a) as E. unfold Rsqr in E. lra. }
  assert (E2 : sin (2 * a) = 2 * (sin a * cos a)). { rewrite sin_2a. ring. }
  assert (Hy : 2 * q * (1 - cos (2 * a)) < 0). { rewrite E1. assert (0 < sin a * sin a) by nra. nra. }
  pose proof (arctan2_neg _ (2 * r * sin (2 * a)) Hy) as Hb.
  destruct (arctan2_spec (2 * q * (1 - cos (2 * a))) (2 * r * sin (2 * a))) as [S1 S2].
  assert (Eta : eta = - (PI / 2) - np_arctan2 (2 * q * (1 - cos (2 * a))) (2 * r * sin (2 * a))) by (unfold eta; lra).
  rewrite Eta. clear eta Eta. set (y := 2 * q * (1 - cos (2 * a))) in *. set (x := 2 * r * sin (2 * a)) in *.
  set (psi := np_arctan2 y x) in *. set (rho := sqrt (x ^ 2 + y ^ 2)) in *. split; [lra|].
  assert (Et : tan (- (PI / 2) - psi) = cos psi / sin psi).
  { unfold tan. replace (- (PI / 2) - psi) with (- (PI / 2 + psi)) by ring. rewrite sin_neg, cos_neg, sin_plus, cos_plus, sin_PI2, cos_PI2.
    field. assert (sin psi < 0) by (apply sin_lt_0_var; lra). repeat split; lra. }
  assert (Hsp : sin psi < 0) by (apply sin_lt_0_var; lra).
  assert (Hrho : rho <> 0). { intros E. rewrite E in S1. lra. }
  rewrite Et. unfold tan.
  assert (Exy : x * sin psi = y * cos psi). { rewrite <- S1, <- S2. ring. }
  unfold x, y in Exy. rewrite E1, E2 in Exy.
  assert (E3 : r * (cos a * sin psi) = q * (sin a * cos psi)).
  { apply (Rmult_eq_reg_l (4 * sin a)); [|lra]. lra. }
  field_simplify; [|lra]. replace (r) with (r * (cos a * sin psi) / (cos a * sin psi)) by (field; lra). rewrite E3. field. lra.
Qed.

(** the cost curve on the lower half *)
Lemma roto_curve q r k : (0 < k)%nat -> q < 0 ->
  let eta := - PI / 2 - np_arctan2 (2 * q * (1 - cos (PI / 2 ^ k))) (2 * r * sin (PI / 2 ^ k)) in
  q * cos (2 * (eta / 2 ^ k)) + r * sin (2 * (eta / 2 ^ k)) <= q /\
  (r <> 0 -> q * cos (2 * (eta / 2 ^ k)) + r * sin (2 * (eta / 2 ^ k)) < q).
Proof.
  intros Hk Hq eta. assert (Hp := PI_RGT_0). destruct (roto_eta_spec q r k Hk Hq) as [Hb Er]. fold eta in Hb, Er.
  set (T := tan (PI / 2 ^ (k + 1))) in *. set (h := eta / 2 ^ k).
  assert (H2k : 2 <= 2 ^ k). { destruct k as [|k]; [lia|]. simpl. assert (1 <= 2 ^ k) by (apply pow_R1_Rle; lra). lra. }
  assert (Eh : q * cos (2 * h) + r * sin (2 * h) - q = 2 * sin h * (r * cos h - q * sin h)).
  { rewrite cos_2a_sin, sin_2a. ring. }
  assert (Hcase : eta = 0 /\ r = 0 \/ 2 * sin h * (r * cos h - q * sin h) < 0).
  { destruct (Rtotal_order eta 0) as [Hn|[Hz|Hpos]].
    - right. pose proof (roto_tan k (- eta) Hk ltac:(lra)) as Ht. fold T in Ht.
      assert (Hh : 0 < - h < PI / 2).
      { unfold h. replace (- (eta / 2 ^ k)) with (- eta / 2 ^ k) by (field; lra). split; [apply Rdiv_lt_0_compat; lra|].
        apply Rlt_div_l; [lra|]. nra. }
      replace (- eta / 2 ^ k) with (- h) in Ht by (unfold h; field; lra).
      assert (Hs : 0 < sin (- h)) by (apply sin_gt_0; lra). assert (Hc : 0 < cos (- h)) by (apply cos_gt_0; lra).
      rewrite tan_neg in Ht. rewrite sin_neg in Hs. rewrite cos_neg in Hc.
      assert (E : tan eta * T < tan h). { rewrite tan_neg in Ht. lra. }
      assert (E' : r * cos h - q * sin h = q * cos h * (tan eta * T - tan h)). { rewrite Er. change (tan h) with (sin h / cos h). field. lra. }
      rewrite E'. assert (0 < q * cos h * (tan eta * T - tan h)) by (assert (q * cos h < 0) by nra; nra). nra.
    - left. split; auto. rewrite Er, Hz, tan_0. ring.
    - right. pose proof (roto_tan k eta Hk ltac:(lra)) as Ht. fold T in Ht. fold h in Ht.
      assert (Hh : 0 < h < PI / 2).
      { unfold h. split; [apply Rdiv_lt_0_compat; lra|]. apply Rlt_div_l; [lra|]. nra. }
      assert (Hs : 0 < sin h) by (apply sin_gt_0; lra). assert (Hc : 0 < cos h) by (apply cos_gt_0; lra).
      assert (E' : r * cos h - q * sin h = q * cos h * (tan eta * T - tan h)). { rewrite Er. change (tan h) with (sin h / cos h). field. lra. }
      rewrite E'. assert (q * cos h * (tan eta * T - tan h) < 0) by (assert (q * cos h < 0) by nra; nra). nra. }
  destruct Hcase as [[E0 Er0]|Hlt].
  - split; [|intros; congruence]. assert (h = 0). { unfold h. rewrite E0. field. lra. } rewrite H, Er0, Rmult_0_r, cos_0. lra.
  - split; [|intros _]; lra.
Qed.
