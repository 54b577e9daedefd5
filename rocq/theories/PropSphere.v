(** Properties C67-C69, C74: angles and states on the Bloch sphere. *)
From Coq Require Import ZArith Arith Lia Bool String Reals Lra.
From Coquelicot Require Import Coquelicot.
From Verif Require Import Py StarRing Matrix Cplx UtilsModel CircuitModel SphereModel.
From Coq Require Import List.
Import ListNotations.
Local Open Scope R_scope.

(** ** Specification *)

(** the density matrix with a given Bloch vector: (1 + x X + y Y + z Z) / 2 *)
Definition bloch (x y z : R) : mat C := fun i j =>
  match i, j with
  | O, O => ((1 + z) / 2, 0)
  | O, _ => (x / 2, - y / 2)
  | _, O => (x / 2, y / 2)
  | _, _ => ((1 - z) / 2, 0)
  end.
(** pure states of a qubit *)
Definition pure (rho : mat C) : Prop := hermitian (K := C) 2 rho /\ mtrace (K := C) 2 rho = RtoC 1 /\ meq (K := C) 2 (mmul 2 rho rho) rho.
(** angles this close to 2 pi are reported as 0 *)
Definition snap : R := / 1000 + 2 * PI / 100000.

(** ** Lemmas *)
Lemma meq2 (A B : mat C) : A 0%nat 0%nat = B 0%nat 0%nat -> A 0%nat 1%nat = B 0%nat 1%nat -> A 1%nat 0%nat = B 1%nat 0%nat -> A 1%nat 1%nat = B 1%nat 1%nat -> meq (K := C) 2 A B.
Proof. intros H1 H2 H3 H4 [|[|i]] [|[|j]] Hi Hj; try assumption; lia. Qed.

Lemma half_angles t : cos (t / 2) * cos (t / 2) = (1 + cos t) / 2 /\ sin (t / 2) * sin (t / 2) = (1 - cos t) / 2 /\ cos (t / 2) * sin (t / 2) = sin t / 2.
Proof.
  assert (E : t = 2 * (t / 2)) by field. assert (E1 := cos_2a_cos (t / 2)). assert (E2 := cos_2a_sin (t / 2)). assert (E3 := sin_2a (t / 2)). rewrite <- E in E1, E2, E3. lra.
Qed.

Lemma sphere_bloch phi theta : meq (K := C) 2 (spherical_to_state phi theta) (bloch (sin theta * cos phi) (sin theta * sin phi) (cos theta)).
Proof.
  destruct (half_angles theta) as (H1 & H2 & H3). assert (P := sin2_cos2 phi). unfold Rsqr in P.
  set (c := cos (theta / 2)) in *. set (s := sin (theta / 2)) in *.
  apply meq2; unfold spherical_to_state, bloch, bloch_psi; fold c s; apply C_ext; simpl.
  - ring_simplify. nra.
  - ring.
  - transitivity (c * s * cos phi); [ring|rewrite H3; field].
  - transitivity (- (c * s) * sin phi); [ring|rewrite H3; field].
  - transitivity (c * s * cos phi); [ring|rewrite H3; field].
  - transitivity ((c * s) * sin phi); [ring|rewrite H3; field].
  - transitivity ((s * s) * (sin phi * sin phi + cos phi * cos phi)); [ring|rewrite P, H2; field].
  - ring.
Qed.

Lemma bloch_pure x y z : x * x + y * y + z * z = 1 -> pure (bloch x y z).
Proof.
  intros H. split; [|split].
  - apply meq2; unfold madj; cbn [kconj CStar bloch]; apply C_ext; simpl; field.
  - unfold mtrace. cbn [seq]. rewrite !lsum_cons, lsum_nil. cbn [kadd k0 CStar bloch]. apply C_ext; simpl; field.
  - apply meq2; unfold mmul; cbn [seq]; rewrite !lsum_cons, lsum_nil;
      cbn [kadd kmul k0 CStar bloch]; apply C_ext; simpl; nra.
Qed.

Lemma pure_proper A B : meq (K := C) 2 A B -> pure A -> pure B.
Proof.
  intros E (H1 & H2 & H3). split; [|split].
  - unfold hermitian in *. rewrite <- E. exact H1.
  - rewrite <- E. exact H2.
  - rewrite <- E. exact H3.
Qed.

(** every pure state has a Bloch vector of length 1 *)
Lemma pure_bloch rho : pure rho -> exists x y z, meq (K := C) 2 rho (bloch x y z) /\ x * x + y * y + z * z = 1.
Proof.
  intros (Hh & Ht & Hp). unfold mtrace in Ht. cbn [seq] in Ht. rewrite !lsum_cons, lsum_nil in Ht. cbn [kadd k0 CStar] in Ht.
  assert (D0 := Hh 0%nat 0%nat ltac:(lia) ltac:(lia)). assert (D1 := Hh 1%nat 1%nat ltac:(lia) ltac:(lia)). assert (O1 := Hh 1%nat 0%nat ltac:(lia) ltac:(lia)).
  assert (P0 := Hp 0%nat 0%nat ltac:(lia) ltac:(lia)). unfold madj in *. unfold mmul in P0. cbn [seq] in P0. rewrite !lsum_cons, lsum_nil in P0. cbn [kconj kadd kmul k0 CStar] in *.
  destruct (rho 0%nat 0%nat) as [a a'] eqn:Ea, (rho 1%nat 1%nat) as [d d'] eqn:Ed, (rho 0%nat 1%nat) as [b b'] eqn:Eb, (rho 1%nat 0%nat) as [c c'] eqn:Ec.
  unfold Cconj in *. simpl in *. injection D0 as D0. injection D1 as D1. injection O1 as O1 O2.
  assert (T1 := f_equal fst Ht). assert (T2 := f_equal fst P0). simpl in T1, T2. subst c c'.
  exists (2 * b), (- 2 * b'), (2 * a - 1). split; [|nra].
  apply meq2; rewrite ?Ea, ?Eb, ?Ec, ?Ed; unfold bloch; apply C_ext; simpl; lra.
Qed.

Lemma coordinates x y z rho : meq (K := C) 2 rho (bloch x y z) ->
  state_to_spherical rho = Ok (if near_2pi (fmod (arctan2 y x) (2 * PI)) then 0 else fmod (arctan2 y x) (2 * PI),
    option_map (fun t => if near_2pi t then 0 else t) (option_map (fun t => fmod t (2 * PI)) (arccos z))).
Proof.
  intros H. unfold state_to_spherical.
  assert (T : mtrace (K := C) 2 rho = RtoC 1).
  { rewrite H. unfold mtrace. cbn [seq]. rewrite !lsum_cons, lsum_nil. cbn [kadd k0 CStar bloch]. apply C_ext; simpl; field. }
  rewrite T. unfold near_1. destruct (Rle_dec _ _) as [_|Hn].
  2: { exfalso. apply Hn. replace (Cminus (RtoC 1) (RtoC 1)) with (RtoC 0) by (apply C_ext; simpl; ring). rewrite Cmod_0. lra. }
  cbn [py_assert bind seq mapM list_get nth_error get_su_2_operators fst paulis_of].
  assert (E : forall P, mtrace (K := C) 2 (mmul 2 rho P) = mtrace (K := C) 2 (mmul 2 (bloch x y z) P)) by (intros P; rewrite H; reflexivity).
  rewrite !E. unfold paulis_of. cbn [list_get nth_error bind].
  match goal with |- context [arctan2 ?v ?u] => assert (Ex : u = x) by (unfold mtrace, mmul; cbn; field); assert (Ey : v = y) by (unfold mtrace, mmul; cbn; field); rewrite Ex, Ey end.
  match goal with |- context [arccos ?v] => assert (Ez : v = z) by (unfold mtrace, mmul; cbn; field); rewrite Ez end. reflexivity.
Qed.

Lemma fmod_unique x y m k : 0 < m -> 0 <= y < m -> x = y + m * IZR k -> fmod x m = y.
Proof.
  intros Hm Hy E. unfold fmod. destruct (base_Int_part (x / m)) as [B1 B2]. set (q := Int_part (x / m)) in *.
  assert (Ex : x / m = y / m + IZR k) by (rewrite E; field; lra).
  assert (Hd : 0 <= y / m < 1).
  { split; [apply Rmult_le_pos; [lra|apply Rlt_le, Rinv_0_lt_compat; lra]|]. apply Rmult_lt_reg_r with m; [lra|]. unfold Rdiv. rewrite Rmult_assoc, Rinv_l by lra. lra. }
  assert (q = k) as ->.
  { assert (A1 : IZR q < IZR (k + 1)) by (rewrite plus_IZR; lra). assert (A2 : IZR k < IZR (q + 1)) by (rewrite plus_IZR; lra). apply lt_IZR in A1, A2. lia. }
  rewrite E. ring.
Qed.

Lemma fmod_id y m : 0 < m -> 0 <= y < m -> fmod y m = y.
Proof. intros Hm Hy. apply (fmod_unique y y m 0 Hm Hy). simpl. ring. Qed.

Lemma atan_quotient a r : 0 < r -> - (PI / 2) < a < PI / 2 -> atan (r * sin a / (r * cos a)) = a.
Proof.
  intros Hr Ha. assert (Hc : 0 < cos a) by (apply cos_gt_0; lra). replace (r * sin a / (r * cos a)) with (tan a) by (unfold tan; field; lra). apply atan_tan. lra.
Qed.

Lemma arctan2_polar r a : 0 < r -> - PI < a <= PI -> arctan2 (r * sin a) (r * cos a) = a.
Proof.
  intros Hr Ha. unfold arctan2. assert (HP := PI_RGT_0). destruct (Rlt_dec (- (PI / 2)) a) as [H1|H1]; [destruct (Rlt_dec a (PI / 2)) as [H2|H2]; [|destruct (Req_dec a (PI / 2)) as [H3|H3]]|destruct (Req_dec a (- (PI / 2))) as [H3|H3]].
  - assert (Hc : 0 < cos a) by (apply cos_gt_0; lra). destruct (Rlt_dec 0 (r * cos a)) as [_|Hn]; [apply atan_quotient; lra|]. exfalso. apply Hn. apply Rmult_lt_0_compat; assumption.
  - rewrite H3, sin_PI2, cos_PI2. rewrite Rmult_0_r, Rmult_1_r. destruct (Rlt_dec 0 0) as [?|_]; [lra|]. destruct (Rlt_dec 0 r); [reflexivity|lra].
  - assert (Hc : 0 < cos (a - PI)) by (apply cos_gt_0; lra). assert (Hs : sin (a - PI) <= 0) by (apply Rge_le, Ropp_0_le_ge_contravar, Rge_le in Hr || idtac; replace (a - PI) with (- (PI - a)) by ring; rewrite sin_neg; assert (0 <= sin (PI - a)) by (apply sin_ge_0; lra); lra).
    assert (Ec : cos a = - cos (a - PI)) by (replace a with (a - PI + PI) at 1 by ring; apply neg_cos). assert (Es : sin a = - sin (a - PI)) by (replace a with (a - PI + PI) at 1 by ring; apply neg_sin).
    destruct (Rlt_dec 0 (r * cos a)) as [Hn|_]; [exfalso; rewrite Ec in Hn; nra|]. destruct (Rlt_dec (r * cos a) 0) as [_|Hn]; [|exfalso; apply Hn; rewrite Ec; nra].
    destruct (Rle_dec 0 (r * sin a)) as [_|Hn]; [|exfalso; apply Hn; rewrite Es; nra].
    replace (r * sin a / (r * cos a)) with (r * sin (a - PI) / (r * cos (a - PI))) by (rewrite Ec, Es; field; lra). rewrite atan_quotient by lra. ring.
  - rewrite H3, sin_neg, cos_neg, sin_PI2, cos_PI2. rewrite Rmult_0_r. destruct (Rlt_dec 0 0) as [?|_]; [lra|]. destruct (Rlt_dec 0 (r * - (1))); [lra|]. destruct (Rlt_dec (r * - (1)) 0); [reflexivity|lra].
  - assert (Hc : 0 < cos (a + PI)) by (apply cos_gt_0; lra). assert (Hs : 0 < sin (a + PI)) by (apply sin_gt_0; lra).
    rewrite neg_cos in Hc. rewrite neg_sin in Hs.
    destruct (Rlt_dec 0 (r * cos a)) as [Hn|_]; [exfalso; nra|]. destruct (Rlt_dec (r * cos a) 0) as [_|Hn]; [|exfalso; apply Hn; nra].
    destruct (Rle_dec 0 (r * sin a)) as [Hn|_]; [exfalso; nra|].
    replace (r * sin a / (r * cos a)) with (r * sin (a + PI) / (r * cos (a + PI))) by (rewrite neg_cos, neg_sin; field; lra). rewrite atan_quotient by lra. ring.
Qed.

Lemma azimuth r p : 0 < r -> 0 <= p < 2 * PI -> fmod (arctan2 (r * sin p) (r * cos p)) (2 * PI) = p.
Proof.
  intros Hr Hp. assert (HP := PI_RGT_0). destruct (Rle_dec p PI) as [H|H].
  - rewrite arctan2_polar by lra. apply fmod_id; lra.
  - replace (sin p) with (sin (p - 2 * PI)). 2: { replace p with (p - 2 * PI + 2 * INR 1 * PI) at 2 by (simpl; ring). symmetry. apply sin_period. }
    replace (cos p) with (cos (p - 2 * PI)). 2: { replace p with (p - 2 * PI + 2 * INR 1 * PI) at 2 by (simpl; ring). symmetry. apply cos_period. }
    rewrite arctan2_polar by lra. apply (fmod_unique _ p (2 * PI) (-1)); simpl; lra.
Qed.

Lemma polar x y : x <> 0 \/ y <> 0 -> exists r p, 0 < r /\ r * r = x * x + y * y /\ 0 <= p < 2 * PI /\ x = r * cos p /\ y = r * sin p.
Proof.
  intros H. assert (HP := PI_RGT_0). assert (H2 : 0 < x * x + y * y) by (destruct H; nra). set (r := sqrt (x * x + y * y)).
  assert (Hr : 0 < r) by (apply sqrt_lt_R0; exact H2). assert (Er : r * r = x * x + y * y) by (apply sqrt_sqrt; lra).
  assert (B : -1 <= x / r <= 1).
  { split; apply Rmult_le_reg_r with r; try lra; unfold Rdiv; rewrite Rmult_assoc, Rinv_l by lra; nra. }
  assert (Ex : r * cos (acos (x / r)) = x) by (rewrite cos_acos by exact B; field; lra).
  assert (Es : r * sin (acos (x / r)) = Rabs y).
  { rewrite sin_acos by exact B. apply Rsqr_inj; [apply Rmult_le_pos; [lra|apply sqrt_pos]|apply Rabs_pos|]. rewrite <- Rsqr_abs. unfold Rsqr.
    replace (r * sqrt (1 - x / r * (x / r)) * (r * sqrt (1 - x / r * (x / r)))) with (r * r * (sqrt (1 - x / r * (x / r)) * sqrt (1 - x / r * (x / r)))) by ring.
    rewrite sqrt_sqrt by nra. replace (r * r * (1 - x / r * (x / r))) with (r * r - x * x) by (field; lra). lra. }
  destruct (acos_bound (x / r)) as [A1 A2]. destruct (Rle_dec 0 y) as [Hy|Hy].
  - exists r, (acos (x / r)). rewrite Rabs_right in Es by lra. repeat split; lra.
  - rewrite Rabs_left in Es by lra. exists r, (2 * PI - acos (x / r)).
    assert (Ha : 0 < acos (x / r)). { destruct A1 as [A1|A1]; [exact A1|]. exfalso. rewrite <- A1, sin_0 in Es. lra. }
    assert (C1 : cos (2 * PI - acos (x / r)) = cos (acos (x / r))). { rewrite <- (cos_neg (acos (x / r))). rewrite <- (cos_period (- acos (x / r)) 1). f_equal. simpl. ring. }
    assert (S1 : sin (2 * PI - acos (x / r)) = - sin (acos (x / r))). { rewrite <- (sin_neg (acos (x / r))). rewrite <- (sin_period (- acos (x / r)) 1). f_equal. simpl. ring. }
    rewrite C1, S1. repeat split; lra.
Qed.

Lemma near_snap p : 0 <= p < 2 * PI -> near_2pi p = true <-> 2 * PI - p <= snap.
Proof.
  intros Hp. assert (HP := PI_RGT_0). unfold near_2pi, snap. rewrite (Rabs_left (p - 2 * PI)) by lra. rewrite (Rabs_right (2 * PI)) by lra.
  destruct (Rle_dec _ _) as [H|H]; split; intros H'; try reflexivity; try discriminate; lra.
Qed.

Lemma PI_gt_3 : 3 < PI.
Proof. assert (H := PI_ineq 1). assert (H2 := PI2_3_2). lra. Qed.

Lemma polar_angle t : 0 <= t <= PI -> option_map (fun t => if near_2pi t then 0 else t) (option_map (fun t => fmod t (2 * PI)) (arccos (cos t))) = Some t.
Proof.
  intros Ht. assert (HP := PI_gt_3). unfold arccos. destruct (COS_bound t) as [B1 B2]. destruct (Rle_dec (-1) (cos t)); [|lra]. destruct (Rle_dec (cos t) 1); [|lra].
  rewrite acos_cos by exact Ht. cbn [option_map]. rewrite fmod_id by lra. destruct (near_2pi t) eqn:E; [|reflexivity].
  apply near_snap in E; [|lra]. unfold snap in E. exfalso. assert (HP4 := PI_4). lra.
Qed.

Lemma sin_below x : 0 <= x -> sin x <= x.
Proof.
  intros [H|<-]; [|rewrite sin_0; lra]. destruct (MVT_cor2 sin cos 0 x H) as (c & E & _); [intros; apply derivable_pt_lim_sin|]. rewrite sin_0 in E. destruct (COS_bound c). nra.
Qed.

Lemma sin_square a : sin a * sin a <= a * a.
Proof.
  assert (B : forall x, 0 <= x -> sin x * sin x <= x * x).
  { intros x Hx. assert (S1 := sin_below x Hx). destruct Hx as [H|<-]; [|rewrite sin_0; lra].
    destruct (MVT_cor2 sin cos 0 x H) as (c & E & _); [intros; apply derivable_pt_lim_sin|]. rewrite sin_0 in E. destruct (COS_bound c). assert (- x <= sin x) by nra. nra. }
  destruct (Rle_dec 0 a) as [H|H]; [apply B, H|]. assert (E := B (- a) ltac:(lra)). rewrite sin_neg in E. lra.
Qed.

Lemma chord a : Cmod (cos a - 1, sin a) <= Rabs a.
Proof.
  unfold Cmod. cbn [fst snd]. rewrite <- (sqrt_Rsqr_abs a). apply sqrt_le_1; [assert (0 <= (cos a - 1) ^ 2) by apply pow2_ge_0; assert (0 <= sin a ^ 2) by apply pow2_ge_0; lra|apply Rle_0_sqr|]. unfold Rsqr.
  assert (P := sin2_cos2 a). unfold Rsqr in P. destruct (half_angles a) as (_ & H & _). assert (B := sin_square (a / 2)). simpl. nra.
Qed.

(** ** C67 *)
Theorem C67_states : forall phi theta, pure (spherical_to_state phi theta) /\
  meq (K := C) 2 (spherical_to_state phi theta) (bloch (sin theta * cos phi) (sin theta * sin phi) (cos theta)).
Proof.
  intros phi theta. split; [|apply sphere_bloch]. eapply pure_proper; [symmetry; apply sphere_bloch|]. apply bloch_pure.
  assert (P := sin2_cos2 phi). assert (Q := sin2_cos2 theta). unfold Rsqr in *. transitivity (sin theta * sin theta * (sin phi * sin phi + cos phi * cos phi) + cos theta * cos theta); [ring|]. rewrite P. lra.
Qed.
Print Assumptions C67_states.

(** ** C68 *)
Theorem C68_angles : forall phi theta, 0 <= phi < 2 * PI ->
  (0 < theta < PI -> (snap < 2 * PI - phi -> state_to_spherical (spherical_to_state phi theta) = Ok (phi, Some theta)) /\
                     (2 * PI - phi <= snap -> state_to_spherical (spherical_to_state phi theta) = Ok (0, Some theta))) /\
  (theta = 0 \/ theta = PI -> state_to_spherical (spherical_to_state phi theta) = Ok (0, Some theta)).
Proof.
  intros phi theta Hp. assert (HP := PI_gt_3). split.
  - intros Ht. rewrite (coordinates _ _ _ _ (sphere_bloch phi theta)). assert (Hs : 0 < sin theta) by (apply sin_gt_0; lra).
    rewrite azimuth by assumption. rewrite polar_angle by lra. assert (N := near_snap phi Hp). destruct (near_2pi phi); split; intros H; try reflexivity; exfalso; [assert (2 * PI - phi <= snap) by (apply N; reflexivity); lra|].
    assert (false = true) by (apply N; exact H). discriminate.
  - intros Ht. assert (Hs : sin theta = 0) by (destruct Ht as [-> | ->]; [apply sin_0|apply sin_PI]).
    rewrite (coordinates _ _ _ _ (sphere_bloch phi theta)), Hs, !Rmult_0_l. rewrite polar_angle by (destruct Ht; lra).
    assert (E : arctan2 0 0 = 0). { unfold arctan2. destruct (Rlt_dec 0 0); [lra|reflexivity]. }
    rewrite E, fmod_id by lra. destruct (near_2pi 0); reflexivity.
Qed.
Print Assumptions C68_angles.
Example C68_case : 0 <= 1 < 2 * PI /\ 0 < 2 < PI /\ snap < 2 * PI - 1.
Proof. assert (HP := PI_gt_3). assert (H4 := PI_4). unfold snap. lra. Qed.

(** ** C69 *)
Theorem C69_states : forall rho, pure rho -> exists phi theta p,
  0 <= phi < 2 * PI /\ 0 <= theta <= PI /\ meq (K := C) 2 (spherical_to_state phi theta) rho /\ state_to_spherical rho = Ok (p, Some theta) /\
  (snap < 2 * PI - phi -> p = phi) /\
  (2 * PI - phi <= snap -> p = 0 /\ forall i j, (i < 2)%nat -> (j < 2)%nat -> Cmod (Cminus (spherical_to_state p theta i j) (rho i j)) <= snap / 2).
Proof.
  intros rho H. assert (HP := PI_gt_3). destruct (pure_bloch rho H) as (x & y & z & Hr & Hl).
  assert (Hz : -1 <= z <= 1) by nra. set (t := acos z). assert (Ht : 0 <= t <= PI) by apply acos_bound. assert (Ez : cos t = z) by (apply cos_acos; exact Hz).
  assert (Hs : 0 <= sin t) by (apply sin_ge_0; lra). assert (Es : sin t * sin t = x * x + y * y) by (assert (Q := sin2_cos2 t); unfold Rsqr in Q; rewrite Ez in Q; nra).
  assert (Hxy : exists phi, 0 <= phi < 2 * PI /\ x = sin t * cos phi /\ y = sin t * sin phi /\ fmod (arctan2 y x) (2 * PI) = phi).
  { destruct (Req_dec x 0) as [Hx|Hx]; [destruct (Req_dec y 0) as [Hy|Hy]|].
    - rewrite Hx, Hy in *. exists 0. assert (E0 : sin t = 0) by nra. rewrite E0. assert (E : arctan2 0 0 = 0). { unfold arctan2. destruct (Rlt_dec 0 0); [lra|reflexivity]. } rewrite E, fmod_id by lra. repeat split; lra.
    - destruct (polar x y (or_intror Hy)) as (r & p & Hr0 & Er & Hp & Ex & Ey). assert (Et : r = sin t) by nra. rewrite Et in *. exists p. repeat (split; [assumption|]). rewrite Ex, Ey. apply azimuth; assumption.
    - destruct (polar x y (or_introl Hx)) as (r & p & Hr0 & Er & Hp & Ex & Ey). assert (Et : r = sin t) by nra. rewrite Et in *. exists p. repeat (split; [assumption|]). rewrite Ex, Ey. apply azimuth; assumption. }
  destruct Hxy as (phi & Hp & Ex & Ey & Ephi). exists phi, t, (if near_2pi phi then 0 else phi).
  assert (M : meq (K := C) 2 (spherical_to_state phi t) rho) by (rewrite sphere_bloch, Hr, Ex, Ey, Ez; reflexivity).
  split; [exact Hp|]. split; [exact Ht|]. split; [exact M|]. split; [rewrite (coordinates x y z rho Hr), Ephi, <- Ez, polar_angle by exact Ht; reflexivity|].
  assert (N := near_snap phi Hp). split; intros Hn.
  - destruct (near_2pi phi); [|reflexivity]. exfalso. assert (2 * PI - phi <= snap) by (apply N; reflexivity). lra.
  - rewrite (proj2 N Hn). split; [reflexivity|]. intros i j Hi Hj. rewrite <- (M i j Hi Hj). rewrite !(sphere_bloch _ _ i j Hi Hj).
    assert (Hb : Cmod (cos phi - 1, sin phi) <= snap).
    { apply Rle_trans with (2 * PI - phi); [|exact Hn]. assert (Ec : cos phi = cos (phi - 2 * PI)) by (rewrite <- (cos_period (phi - 2 * PI) 1); f_equal; simpl; ring).
      assert (Es' : sin phi = sin (phi - 2 * PI)) by (rewrite <- (sin_period (phi - 2 * PI) 1); f_equal; simpl; ring). rewrite Ec, Es'. eapply Rle_trans; [apply chord|]. rewrite Rabs_left; lra. }
    assert (S1 : sin t <= 1) by (destruct (SIN_bound t); lra). assert (S0 : 0 <= snap) by (unfold snap; lra). set (s := sin t) in *.
    assert (Big : forall d : C, d = Cmult (RtoC (s / 2)) (1 - cos phi, sin phi) \/ d = Cmult (RtoC (s / 2)) (1 - cos phi, - sin phi) -> Cmod d <= snap / 2).
    { intros d Hd. assert (Cmod d = s / 2 * Cmod (cos phi - 1, sin phi)).
      { destruct Hd as [-> | ->]; rewrite Cmod_mult, Cmod_R, Rabs_right by lra; f_equal; unfold Cmod; f_equal; simpl; ring. }
      rewrite H0. assert (0 <= Cmod (cos phi - 1, sin phi)) by apply Cmod_ge_0. nra. }
    assert (Zero : forall c : C, Cmod (Cminus c c) <= snap / 2) by (intros c; replace (Cminus c c) with (RtoC 0) by ring; rewrite Cmod_0; lra).
    destruct i as [|[|i]]; [| |lia]; (destruct j as [|[|j]]; [| |lia]); unfold bloch; rewrite ?cos_0, ?sin_0; try apply Zero; apply Big; [left|right]; apply C_ext; simpl; fold s; field.
Qed.
Print Assumptions C69_states.
Example C69_case : pure (bloch (3 / 5) 0 (4 / 5)).
Proof. apply bloch_pure. lra. Qed.

(** what is accepted: matrices of trace 1 within the tolerance, nothing else is checked *)
Theorem C69_accepts : forall rho,
  (Cmod (Cminus (Cplus (rho 0%nat 0%nat) (rho 1%nat 1%nat)) (RtoC 1)) <= / 100000000 + / 100000 -> exists r, state_to_spherical rho = Ok r) /\
  (/ 100000000 + / 100000 < Cmod (Cminus (Cplus (rho 0%nat 0%nat) (rho 1%nat 1%nat)) (RtoC 1)) -> state_to_spherical rho = Err AssertionError).
Proof.
  intros rho. unfold state_to_spherical, near_1.
  assert (T : mtrace (K := C) 2 rho = Cplus (rho 0%nat 0%nat) (rho 1%nat 1%nat)) by (unfold mtrace; cbn [seq]; rewrite !lsum_cons, lsum_nil; cbn [kadd k0 CStar]; ring).
  rewrite T. split; intros H; destruct (Rle_dec _ _); try lra; [|reflexivity]. cbn [py_assert bind seq mapM]. unfold get_su_2_operators, paulis_of, list_get. cbn [fst nth_error bind]. eauto.
Qed.
Print Assumptions C69_accepts.

(** ** C74: mixed states *)

(** refuted: for a mixed state theta is not the polar angle of the Bloch vector. The
    state with Bloch vector (1/2, 0, 1/2), which points in the direction
    (1, 0, 1) / sqrt 2, gets the angles of another direction. *)
Theorem C74_mixed_refuted : exists theta, state_to_spherical (bloch (/ 2) 0 (/ 2)) = Ok (0, Some theta) /\
  ~ exists r, 0 < r /\ / 2 = r * (sin theta * cos 0) /\ 0 = r * (sin theta * sin 0) /\ / 2 = r * cos theta.
Proof.
  assert (HP := PI_gt_3). assert (H4 := PI_4). exists (acos (/ 2)). split.
  - rewrite (coordinates (/ 2) 0 (/ 2) (bloch (/ 2) 0 (/ 2))) by reflexivity.
    assert (E : arctan2 0 (/ 2) = 0). { replace 0 with (/ 2 * sin 0) at 1 by (rewrite sin_0; ring). replace (/ 2) with (/ 2 * cos 0) at 2 by (rewrite cos_0; ring). apply arctan2_polar; lra. }
    rewrite E, fmod_id by lra. replace (arccos (/ 2)) with (arccos (cos (acos (/ 2)))) by (rewrite cos_acos by lra; reflexivity). rewrite polar_angle by apply acos_bound. destruct (near_2pi 0); reflexivity.
  - intros (r & Hr & H1 & _ & H3). rewrite cos_0, Rmult_1_r in H1. rewrite cos_acos in H3 by lra. assert (r = 1) by lra. subst r. rewrite sin_acos in H1 by lra.
    assert (Hq : sqrt (1 - Rsqr (/ 2)) * sqrt (1 - Rsqr (/ 2)) = 1 - Rsqr (/ 2)) by (apply sqrt_sqrt; unfold Rsqr; lra). unfold Rsqr in Hq at 3. rewrite Rmult_1_l in H1. rewrite <- H1 in Hq. lra.
Qed.
Print Assumptions C74_mixed_refuted.

(** for every density matrix phi is the azimuth of the Bloch vector (or 0 when
    within the tolerance of 2 pi) and cos theta its third component *)
Theorem C74_mixed_partial : forall x y z rho, meq (K := C) 2 rho (bloch x y z) -> x * x + y * y + z * z <= 1 -> exists phi theta p r,
  state_to_spherical rho = Ok (p, Some theta) /\ 0 <= theta <= PI /\ cos theta = z /\ 0 <= r /\ 0 <= phi < 2 * PI /\ x = r * cos phi /\ y = r * sin phi /\
  (snap < 2 * PI - phi -> p = phi) /\ (2 * PI - phi <= snap -> p = 0).
Proof.
  intros x y z rho Hr Hl. assert (HP := PI_gt_3). assert (Hz : -1 <= z <= 1) by nra. set (t := acos z). assert (Ht : 0 <= t <= PI) by apply acos_bound. assert (Ez : cos t = z) by (apply cos_acos; exact Hz).
  assert (Hxy : exists r phi, 0 <= r /\ 0 <= phi < 2 * PI /\ x = r * cos phi /\ y = r * sin phi /\ fmod (arctan2 y x) (2 * PI) = phi).
  { destruct (Req_dec x 0) as [Hx|Hx]; [destruct (Req_dec y 0) as [Hy|Hy]|].
    - rewrite Hx, Hy in *. exists 0, 0. assert (E : arctan2 0 0 = 0). { unfold arctan2. destruct (Rlt_dec 0 0); [lra|reflexivity]. } rewrite E, fmod_id by lra. repeat split; lra.
    - destruct (polar x y (or_intror Hy)) as (r & p & Hr0 & Er & Hp & Ex & Ey). exists r, p. split; [lra|]. repeat (split; [assumption|]). rewrite Ex, Ey. apply azimuth; assumption.
    - destruct (polar x y (or_introl Hx)) as (r & p & Hr0 & Er & Hp & Ex & Ey). exists r, p. split; [lra|]. repeat (split; [assumption|]). rewrite Ex, Ey. apply azimuth; assumption. }
  destruct Hxy as (r & phi & Hr0 & Hp & Ex & Ey & Ephi). exists phi, t, (if near_2pi phi then 0 else phi), r.
  split; [rewrite (coordinates x y z rho Hr), Ephi, <- Ez, polar_angle by exact Ht; reflexivity|]. repeat (split; [assumption|]).
  assert (N := near_snap phi Hp). split; intros Hn.
  - destruct (near_2pi phi); [|reflexivity]. exfalso. assert (2 * PI - phi <= snap) by (apply N; reflexivity). lra.
  - rewrite (proj2 N Hn). reflexivity.
Qed.
Print Assumptions C74_mixed_partial.
(** a matrix of trace 1 whose "Bloch vector" is too long along Z is accepted, and theta is nan *)
Theorem C74_too_long : forall x y z rho, meq (K := C) 2 rho (bloch x y z) -> 1 < Rabs z -> exists phi, state_to_spherical rho = Ok (phi, None).
Proof.
  intros x y z rho Hr Hz. rewrite (coordinates x y z rho Hr). assert (E : arccos z = None).
  { unfold arccos. destruct (Rle_dec (-1) z) as [A|A]; [|reflexivity]. destruct (Rle_dec z 1) as [B|B]; [|reflexivity]. exfalso. unfold Rabs in Hz. destruct (Rcase_abs z); lra. }
  rewrite E. eexists. reflexivity.
Qed.
Print Assumptions C74_too_long.
Example C74_case : (/ 2) * (/ 2) + 0 * 0 + (/ 2) * (/ 2) <= 1 /\ 1 < Rabs (-2).
Proof. split; [lra|]. rewrite Rabs_left; lra. Qed.
