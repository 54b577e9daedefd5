(** Bounds on the angles of the run of approximate_example.py. *)
From Coq Require Import ZArith Arith Lia Reals Lra Machin.
From Coquelicot Require Import Coquelicot.
From Verif Require Import FlowProofs2.
From Coq Require Import List.
Import ListNotations.
Local Open Scope R_scope.

(** the angles of the states of the run; [rate] is 2 sqrt 2 times the learning rate *)
Fixpoint angle (rate : R) (k : nat) : R := match k with O => PI / 4 | S k => next_angle rate (angle rate k) end.

(** ** Constants *)
Lemma PI_bounds : 3.1415 <= PI <= 3.1416.
Proof.
  pose proof (PI_2_3_7_ineq 2) as H. unfold tg_alt, PI_2_3_7_tg, Ratan_seq in H. cbn [sum_f_R0 Nat.mul Nat.add] in H. rewrite ?INR_IZR_INZ in H. cbn [Z.of_nat Pos.of_succ_nat Pos.succ pow] in H. lra.
Qed.
Lemma sqrt2_bounds : 1.4142135 <= sqrt 2 <= 1.4142136.
Proof.
  split; [rewrite <- (sqrt_square 1.4142135) by lra|rewrite <- (sqrt_square 1.4142136) by lra]; apply sqrt_le_1; lra.
Qed.

(** ** Sine and cosine *)
Lemma fact_next k n : INR (fact k) = IZR n -> INR (fact (S k)) = IZR (Z.of_nat (S k) * n).
Proof. intros H. rewrite fact_simpl, mult_INR, H, INR_IZR_INZ, mult_IZR. reflexivity. Qed.
Definition sin_lower (a : R) : R := a - a ^ 3 / 6 + a ^ 5 / 120 - a ^ 7 / 5040 + a ^ 9 / 362880 - a ^ 11 / 39916800.
Definition sin_upper (a : R) : R := sin_lower a + a ^ 13 / 6227020800.
Lemma sin_bounds a : 0 <= a <= PI -> sin_lower a <= sin a <= sin_upper a.
Proof.
  intros [H0 H1]. destruct (sin_bound a 2 H0 H1) as [L U]. unfold sin_approx, sin_term in L, U. cbn [sum_f_R0 Nat.mul Nat.add] in L, U. unfold sin_upper, sin_lower.
  assert (F1 : INR (fact 1) = 1) by exact (fact_next 0 1 eq_refl). assert (F2 : INR (fact 2) = 2) by exact (fact_next 1 1 F1). assert (F3 : INR (fact 3) = 6) by exact (fact_next 2 2 F2). assert (F4 : INR (fact 4) = 24) by exact (fact_next 3 6 F3).
  assert (F5 : INR (fact 5) = 120) by exact (fact_next 4 24 F4). assert (F6 : INR (fact 6) = 720) by exact (fact_next 5 120 F5). assert (F7 : INR (fact 7) = 5040) by exact (fact_next 6 720 F6). assert (F8 : INR (fact 8) = 40320) by exact (fact_next 7 5040 F7).
  assert (F9 : INR (fact 9) = 362880) by exact (fact_next 8 40320 F8). assert (F10 : INR (fact 10) = 3628800) by exact (fact_next 9 362880 F9). assert (F11 : INR (fact 11) = 39916800) by exact (fact_next 10 3628800 F10). assert (F12 : INR (fact 12) = 479001600) by exact (fact_next 11 39916800 F11).
  assert (F13 : INR (fact 13) = 6227020800) by exact (fact_next 12 479001600 F12).
  rewrite F1, F3, F5, F7, F9, F11 in L. rewrite F1, F3, F5, F7, F9, F11, F13 in U. clear F1 F2 F3 F4 F5 F6 F7 F8 F9 F10 F11 F12 F13.
  split; lra.
Qed.
Lemma cos_bounds a : 0 <= a <= PI -> 1 - a ^ 2 / 2 <= cos a <= 1 - a ^ 2 / 2 + a ^ 4 / 24.
Proof.
  intros H. assert (S : 0 <= sin (a / 2)) by (apply sin_ge_0; lra). pose proof (sin_le_x (a / 2) ltac:(lra)) as U.
  destruct (sin_bound (a / 2) 0 ltac:(lra) ltac:(lra)) as [L _]. unfold sin_approx, sin_term in L. cbn in L.
  assert (E : cos a = 1 - 2 * (sin (a / 2) * sin (a / 2))) by (replace a with (2 * (a / 2)) at 1 by field; rewrite cos_2a_sin; ring).
  set (s := sin (a / 2)) in *. rewrite E. clearbody s. assert (L' : a / 2 - a ^ 3 / 48 <= s) by lra. clear L E. split; [nra|].
  destruct (Rle_dec 0 (a / 2 - a ^ 3 / 48)) as [P|P].
  - assert (Q : (a / 2 - a ^ 3 / 48) * (a / 2 - a ^ 3 / 48) <= s * s) by (apply Rmult_le_compat; lra). assert (0 <= a ^ 6) by (apply pow_le; lra). replace ((a / 2 - a ^ 3 / 48) * (a / 2 - a ^ 3 / 48)) with (a ^ 2 / 4 - a ^ 4 / 48 + a ^ 6 / 2304) in Q by field. lra.
  - assert (Q : a * (24 - a ^ 2) < 0) by (cbn in *; nra). assert (24 < a ^ 2) by (cbn in *; nra). cbn in *. nra.
Qed.

(** ** One step *)
Lemma sin_diff x y : x <= y -> sin y - sin x <= y - x.
Proof.
  intros H. rewrite form4. destruct (Rle_dec ((y - x) / 2) PI) as [P|P].
  - assert (0 <= sin ((y - x) / 2)) by (apply sin_ge_0; lra). pose proof (sin_le_x ((y - x) / 2) ltac:(lra)). pose proof (COS_bound ((y + x) / 2)). nra.
  - pose proof (COS_bound ((y + x) / 2)). pose proof (SIN_bound ((y - x) / 2)). pose proof PI2_3_2. nra.
Qed.

(** the distance from pi, which the step reduces *)
Lemma distance_step rate a : PI - next_angle rate a = (PI - a) - rate * sin (PI - a).
Proof. unfold next_angle. rewrite sin_PI_x. ring. Qed.

Definition unit : R := 1000000000.
Definition between (p : Z * Z) (e : R) : Prop := IZR (fst p) / unit <= e <= IZR (snd p) / unit.

Lemma bracket_step rate lo hi lo' hi' e : 0.2828427 <= rate <= 0.2828428 -> between (lo, hi) e -> 0 <= IZR lo -> IZR hi <= 3 * unit ->
  IZR lo' / unit <= IZR lo / unit - 0.2828428 * sin_upper (IZR lo / unit) -> IZR hi / unit - 0.2828427 * sin_lower (IZR hi / unit) <= IZR hi' / unit ->
  between (lo', hi') (e - rate * sin e).
Proof.
  intros Hr [H1 H2] L0 H3 Hl Hh. cbn [fst snd] in *. pose proof PI_bounds as P. assert (U : 0 < unit) by (unfold unit; lra).
  assert (A0 : 0 <= IZR lo / unit) by (apply Rle_div_r; lra). assert (B0 : IZR hi / unit <= 3) by (apply Rle_div_l; lra).
  set (a := IZR lo / unit) in *. set (b := IZR hi / unit) in *. clearbody a b. pose proof (sin_bounds a ltac:(lra)) as Sa. pose proof (sin_bounds b ltac:(lra)) as Sb.
  assert (Za : 0 <= sin a) by (apply sin_ge_0; lra). assert (Zb : 0 <= sin b) by (apply sin_ge_0; lra).
  pose proof (sin_diff a e ltac:(lra)) as D1. pose proof (sin_diff e b ltac:(lra)) as D2. unfold between. cbn [fst snd]. split; nra.
Qed.

(** ** The 28 angles of the run *)
Definition brackets : list (Z * Z) :=
  [(2356100000, 2356300000)%Z; (2156080959, 2156324166)%Z; (1920315941, 1920598231)%Z; (1654574568, 1654884526)%Z; (1372723794, 1373041234)%Z; (1095411225, 1095711113)%Z;
   (843931015, 844192183)%Z; (632573574, 632785736)%Z; (465350596, 465514425)%Z; (338428808, 338551274)%Z; (244523461, 244613288)%Z; (176048919, 176114120)%Z;
   (126511565, 126558628)%Z; (90824055, 90857926)%Z; (65170428, 65194768)%Z; (46750486, 46767964)%Z; (33532263, 33544809)%Z; (24049681, 24058684)%Z;
   (17248057, 17254518)%Z; (12369810, 12374446)%Z; (8871187, 8874514)%Z; (6362068, 6364456)%Z; (4562615, 4564329)%Z; (3272116, 3273347)%Z;
   (2346623, 2347507)%Z; (1682898, 1683533)%Z; (1206902, 1207359)%Z; (865538, 865867)%Z].

Ltac num := unfold sin_upper, sin_lower, unit; cbn [fst snd]; lra.
Lemma brackets_ok : forall k p, nth_error brackets k = Some p -> between p (PI - angle (sqrt 2 / 5) k).
Proof.
  assert (Hr : 0.2828427 <= sqrt 2 / 5 <= 0.2828428) by (pose proof sqrt2_bounds; lra).
  assert (S : forall k p q e, between p e -> 0 <= IZR (fst p) -> IZR (snd p) <= 3 * unit ->
    IZR (fst q) / unit <= IZR (fst p) / unit - 0.2828428 * sin_upper (IZR (fst p) / unit) -> IZR (snd p) / unit - 0.2828427 * sin_lower (IZR (snd p) / unit) <= IZR (snd q) / unit ->
    e = PI - angle (sqrt 2 / 5) k -> between q (PI - angle (sqrt 2 / 5) (S k))).
  { intros k [lo hi] [lo' hi'] e B H1 H2 H3 H4 ->. cbn [angle]. rewrite distance_step. apply (bracket_step _ lo hi); assumption. }
  assert (B0 : between (2356100000, 2356300000)%Z (PI - angle (sqrt 2 / 5) 0)) by (unfold between, unit; cbn [fst snd angle]; pose proof PI_bounds; lra).
  unfold brackets.
  pose proof (S 0%nat _ (2156080959, 2156324166)%Z _ B0 ltac:(num) ltac:(num) ltac:(num) ltac:(num) eq_refl) as B1.
  pose proof (S 1%nat _ (1920315941, 1920598231)%Z _ B1 ltac:(num) ltac:(num) ltac:(num) ltac:(num) eq_refl) as B2.
  pose proof (S 2%nat _ (1654574568, 1654884526)%Z _ B2 ltac:(num) ltac:(num) ltac:(num) ltac:(num) eq_refl) as B3.
  pose proof (S 3%nat _ (1372723794, 1373041234)%Z _ B3 ltac:(num) ltac:(num) ltac:(num) ltac:(num) eq_refl) as B4.
  pose proof (S 4%nat _ (1095411225, 1095711113)%Z _ B4 ltac:(num) ltac:(num) ltac:(num) ltac:(num) eq_refl) as B5.
  pose proof (S 5%nat _ (843931015, 844192183)%Z _ B5 ltac:(num) ltac:(num) ltac:(num) ltac:(num) eq_refl) as B6.
  pose proof (S 6%nat _ (632573574, 632785736)%Z _ B6 ltac:(num) ltac:(num) ltac:(num) ltac:(num) eq_refl) as B7.
  pose proof (S 7%nat _ (465350596, 465514425)%Z _ B7 ltac:(num) ltac:(num) ltac:(num) ltac:(num) eq_refl) as B8.
  pose proof (S 8%nat _ (338428808, 338551274)%Z _ B8 ltac:(num) ltac:(num) ltac:(num) ltac:(num) eq_refl) as B9.
  pose proof (S 9%nat _ (244523461, 244613288)%Z _ B9 ltac:(num) ltac:(num) ltac:(num) ltac:(num) eq_refl) as B10.
  pose proof (S 10%nat _ (176048919, 176114120)%Z _ B10 ltac:(num) ltac:(num) ltac:(num) ltac:(num) eq_refl) as B11.
  pose proof (S 11%nat _ (126511565, 126558628)%Z _ B11 ltac:(num) ltac:(num) ltac:(num) ltac:(num) eq_refl) as B12.
  pose proof (S 12%nat _ (90824055, 90857926)%Z _ B12 ltac:(num) ltac:(num) ltac:(num) ltac:(num) eq_refl) as B13.
  pose proof (S 13%nat _ (65170428, 65194768)%Z _ B13 ltac:(num) ltac:(num) ltac:(num) ltac:(num) eq_refl) as B14.
  pose proof (S 14%nat _ (46750486, 46767964)%Z _ B14 ltac:(num) ltac:(num) ltac:(num) ltac:(num) eq_refl) as B15.
  pose proof (S 15%nat _ (33532263, 33544809)%Z _ B15 ltac:(num) ltac:(num) ltac:(num) ltac:(num) eq_refl) as B16.
  pose proof (S 16%nat _ (24049681, 24058684)%Z _ B16 ltac:(num) ltac:(num) ltac:(num) ltac:(num) eq_refl) as B17.
  pose proof (S 17%nat _ (17248057, 17254518)%Z _ B17 ltac:(num) ltac:(num) ltac:(num) ltac:(num) eq_refl) as B18.
  pose proof (S 18%nat _ (12369810, 12374446)%Z _ B18 ltac:(num) ltac:(num) ltac:(num) ltac:(num) eq_refl) as B19.
  pose proof (S 19%nat _ (8871187, 8874514)%Z _ B19 ltac:(num) ltac:(num) ltac:(num) ltac:(num) eq_refl) as B20.
  pose proof (S 20%nat _ (6362068, 6364456)%Z _ B20 ltac:(num) ltac:(num) ltac:(num) ltac:(num) eq_refl) as B21.
  pose proof (S 21%nat _ (4562615, 4564329)%Z _ B21 ltac:(num) ltac:(num) ltac:(num) ltac:(num) eq_refl) as B22.
  pose proof (S 22%nat _ (3272116, 3273347)%Z _ B22 ltac:(num) ltac:(num) ltac:(num) ltac:(num) eq_refl) as B23.
  pose proof (S 23%nat _ (2346623, 2347507)%Z _ B23 ltac:(num) ltac:(num) ltac:(num) ltac:(num) eq_refl) as B24.
  pose proof (S 24%nat _ (1682898, 1683533)%Z _ B24 ltac:(num) ltac:(num) ltac:(num) ltac:(num) eq_refl) as B25.
  pose proof (S 25%nat _ (1206902, 1207359)%Z _ B25 ltac:(num) ltac:(num) ltac:(num) ltac:(num) eq_refl) as B26.
  pose proof (S 26%nat _ (865538, 865867)%Z _ B26 ltac:(num) ltac:(num) ltac:(num) ltac:(num) eq_refl) as B27.
  intros k p E. do 28 (destruct k as [|k]; [injection E as <-; assumption|]). destruct k; discriminate.
Qed.

(** ** The stopping rule *)
Definition example_cost (k : nat) : R := sqrt 2 * cos (angle (sqrt 2 / 5) k).

Lemma cost_bounds k lo hi : nth_error brackets k = Some (lo, hi) -> 0 <= IZR lo -> IZR hi <= 3 * unit ->
  1 - (IZR hi / unit) ^ 2 / 2 <= - cos (angle (sqrt 2 / 5) k) <= 1 - (IZR lo / unit) ^ 2 / 2 + (IZR lo / unit) ^ 4 / 24.
Proof.
  intros E L0 H3. destruct (brackets_ok k _ E) as [H1 H2]. cbn [fst snd] in H1, H2. pose proof PI_bounds as P. assert (U : 0 < unit) by (unfold unit; lra).
  assert (A0 : 0 <= IZR lo / unit) by (apply Rle_div_r; lra). assert (B0 : IZR hi / unit <= 3) by (apply Rle_div_l; lra).
  set (a := IZR lo / unit) in *. set (b := IZR hi / unit) in *. set (e := PI - angle (sqrt 2 / 5) k) in *. clearbody a b.
  replace (- cos (angle (sqrt 2 / 5) k)) with (cos e) by (unfold e; rewrite cos_minus, cos_PI, sin_PI; ring). clearbody e.
  pose proof (cos_bounds a ltac:(lra)). pose proof (cos_bounds b ltac:(lra)). pose proof (cos_le_mono a e ltac:(lra) ltac:(lra) ltac:(lra)). pose proof (cos_le_mono e b ltac:(lra) ltac:(lra) ltac:(lra)). lra.
Qed.

Lemma no_stall j : (5 <= j <= 21)%nat -> / 1000000 + / 100000 * Rabs (example_cost j) < Rabs (example_cost (j + 5) - example_cost j).
Proof.
  intros Hj. assert (Q : 0.0000108 <= cos (angle (sqrt 2 / 5) j) - cos (angle (sqrt 2 / 5) (j + 5))).
  { assert (D : forall lo hi lo' hi', nth_error brackets j = Some (lo, hi) -> nth_error brackets (j + 5) = Some (lo', hi') -> 0 <= IZR lo -> IZR hi <= 3 * unit -> 0 <= IZR lo' -> IZR hi' <= 3 * unit ->
      0.0000108 <= (1 - (IZR hi' / unit) ^ 2 / 2) - (1 - (IZR lo / unit) ^ 2 / 2 + (IZR lo / unit) ^ 4 / 24) -> 0.0000108 <= cos (angle (sqrt 2 / 5) j) - cos (angle (sqrt 2 / 5) (j + 5))).
    { intros lo hi lo' hi' E E' H1 H2 H3 H4 H5. pose proof (cost_bounds j lo hi E H1 H2). pose proof (cost_bounds (j + 5) lo' hi' E' H3 H4). lra. }
    do 5 (destruct j as [|j]; [lia|]). do 17 (destruct j as [|j]; [eapply D; [reflexivity|reflexivity|num|num|num|num|num]|]). lia. }
  unfold example_cost. pose proof sqrt2_bounds as S. set (x := cos (angle (sqrt 2 / 5) j)) in *. set (y := cos (angle (sqrt 2 / 5) (j + 5))) in *. pose proof (COS_bound (angle (sqrt 2 / 5) j)) as B. fold x in B. clearbody x y.
  assert (A : Rabs (sqrt 2 * x) <= sqrt 2) by (rewrite Rabs_mult, (Rabs_pos_eq (sqrt 2)) by lra; assert (Rabs x <= 1) by (apply Rabs_le; lra); nra).
  assert (L : sqrt 2 * (x - y) <= Rabs (sqrt 2 * y - sqrt 2 * x)) by (rewrite Rabs_minus_sym; eapply Rle_trans; [|apply Rle_abs]; lra). nra.
Qed.

Lemma stall : Rabs (example_cost 27 - example_cost 22) <= / 1000000 + / 100000 * Rabs (example_cost 22).
Proof.
  pose proof (cost_bounds 22 _ _ eq_refl ltac:(num) ltac:(num)) as A. pose proof (cost_bounds 27 _ _ eq_refl ltac:(num) ltac:(num)) as B. unfold unit in A, B.
  unfold example_cost. pose proof sqrt2_bounds as S. set (x := cos (angle (sqrt 2 / 5) 22)) in *. set (y := cos (angle (sqrt 2 / 5) 27)) in *. clearbody x y.
  assert (C : 0 <= x - y <= 0.0000101) by lra. assert (D : 0.9999 <= - x) by lra.
  assert (A1 : Rabs (sqrt 2 * x) = sqrt 2 * - x) by (rewrite Rabs_mult, (Rabs_pos_eq (sqrt 2)), Rabs_left by lra; reflexivity). rewrite A1.
  assert (A2 : Rabs (sqrt 2 * y - sqrt 2 * x) = sqrt 2 * (x - y)) by (rewrite Rabs_minus_sym, Rabs_pos_eq by nra; ring). rewrite A2. nra.
Qed.

Lemma last_residual : 0 < example_cost 27 + sqrt 2 < 0.00000054.
Proof.
  pose proof (cost_bounds 27 _ _ eq_refl ltac:(num) ltac:(num)) as B. unfold unit in B. unfold example_cost. pose proof sqrt2_bounds as S. set (y := cos (angle (sqrt 2 / 5) 27)) in *. clearbody y.
  assert (0 < 1 + y < 0.00000037489) by lra. nra.
Qed.
