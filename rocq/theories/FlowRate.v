(** How far a step of the exact flow moves the state, and how much the expectation
    value of another observable changes. *)
From Coq Require Import Arith Lia Bool String Reals Lra Ring Setoid Morphisms Classical.
From Coquelicot Require Import Coquelicot.
From Verif Require Import Py StarRing Matrix Cplx Expm MDeriv UtilsModel CircuitModel CircuitProofs CircuitProofs2 LayerModel LayerProofs OptimizerModel FlowModel FlowProofs FlowProofs2 FlowMany.
From Coq Require Import List.
Import ListNotations.
Local Open Scope R_scope.

(** ** Inequalities *)
Lemma sin_abs_le x : Rabs (sin x) <= Rabs x.
Proof.
  destruct (Rle_dec 0 x) as [H|H].
  - rewrite (Rabs_pos_eq x) by lra. apply Rabs_le. split; [|apply sin_le_x; lra].
    destruct (Rle_dec x PI) as [P|P]; [pose proof (sin_ge_0 x H P); lra|]. pose proof (SIN_bound x). pose proof PI2_3_2. lra.
  - rewrite (Rabs_left x) by lra. rewrite <- Rabs_Ropp, <- sin_neg. apply Rabs_le. split; [|apply sin_le_x; lra].
    destruct (Rle_dec (- x) PI) as [P|P]; [pose proof (sin_ge_0 (- x) ltac:(lra) P); lra|]. pose proof (SIN_bound (- x)). pose proof PI2_3_2. lra.
Qed.
Lemma sin_sq_le x : sin x * sin x <= x * x.
Proof. pose proof (sin_abs_le x) as H. pose proof (Rabs_pos (sin x)). apply Rsqr_le_abs_1 in H. exact H. Qed.
Lemma one_minus_cos x : 0 <= 1 - cos x <= x * x / 2.
Proof.
  replace (cos x) with (cos (2 * (x / 2))) by (f_equal; field). rewrite cos_2a_sin. pose proof (sin_sq_le (x / 2)). nra.
Qed.
Lemma x_minus_sin x : 0 <= x -> 0 <= x - sin x <= x * x / 2.
Proof.
  intros H. split; [pose proof (sin_le_x x H); lra|].
  destruct (Req_dec x 0) as [->|N]; [rewrite sin_0; lra|].
  destruct (MVT_gen (fun t => t * t / 2 - t + sin t) 0 x (fun t => t - 1 + cos t)) as (c & Hc & E).
  - intros t _. auto_derive; [exact I|field].
  - intros t _. apply continuity_pt_filterlim. apply (ex_derive_continuous (K := R_AbsRing) (V := R_NormedModule) (fun t => t * t / 2 - t + sin t) t). auto_derive. exact I.
  - rewrite sin_0 in E. rewrite Rmin_left, Rmax_right in Hc by lra.
    assert (Q : 0 <= c - 1 + cos c).
    { pose proof (one_minus_cos c). destruct (Rle_dec c 2) as [P|P]; [nra|]. pose proof (COS_bound c). lra. }
    assert (0 <= (c - 1 + cos c) * (x - 0)) by (apply Rmult_le_pos; lra). lra.
Qed.

(** ** The real inner product *)
Section Real.
Variable d : nat.
Definition rip (x y : nat -> C) : R := Re (ip d x y).
Definition nrm (x : nat -> C) : R := sqrt (rip x x).
Definition vlin (a : R) (x : nat -> C) (b : R) (y : nat -> C) : nat -> C := fun i => Cplus (Cmult (RtoC a) (x i)) (Cmult (RtoC b) (y i)).

Lemma rip_ext x x' y y' : veq d x x' -> veq d y y' -> rip x y = rip x' y'.
Proof. intros H1 H2. unfold rip. f_equal. apply ip_ext; assumption. Qed.
Lemma rip_sym x y : rip x y = rip y x.
Proof. unfold rip. rewrite <- (ip_conj d x y). destruct (ip d x y). reflexivity. Qed.
Lemma rip_lin x a y b z : rip x (vlin a y b z) = a * rip x y + b * rip x z.
Proof. unfold rip, vlin. rewrite ip_add_r, !ip_scale_r. destruct (ip d x y), (ip d x z). simpl. ring. Qed.
Lemma rip_lin_l x a y b z : rip (vlin a y b z) x = a * rip y x + b * rip z x.
Proof. rewrite rip_sym, rip_lin, !(rip_sym x). reflexivity. Qed.
Lemma rip_pos x : 0 <= rip x x.
Proof.
  unfold rip, ip. generalize (seq 0 d). induction l as [|a l IH]; [simpl; lra|]. rewrite lsum_cons. cbn [kadd CStar]. rewrite Re_plus. destruct (x a). simpl in *. nra.
Qed.
Lemma nrm_pos x : 0 <= nrm x. Proof. apply sqrt_pos. Qed.
Lemma nrm_sq x : nrm x * nrm x = rip x x. Proof. apply sqrt_sqrt, rip_pos. Qed.
Lemma nrm_ext x y : veq d x y -> nrm x = nrm y.
Proof. intros H. unfold nrm. f_equal. apply rip_ext; exact H. Qed.
Lemma nrm_le x a : 0 <= a -> rip x x <= a * a -> nrm x <= a.
Proof. intros H1 H2. pose proof (nrm_pos x). pose proof (nrm_sq x). nra. Qed.

Lemma rip_cs x y : Rabs (rip x y) <= nrm x * nrm y.
Proof.
  pose proof (nrm_pos x) as Px. pose proof (nrm_pos y) as Py. pose proof (nrm_sq x) as Sx. pose proof (nrm_sq y) as Sy.
  assert (Q : forall s, s * rip x y * (nrm x * nrm y) * 2 <= (1 + s * s) * ((nrm x * nrm y) * (nrm x * nrm y))).
  { intros s. pose proof (rip_pos (vlin (nrm y) x (- (s * nrm x)) y)) as P. rewrite rip_lin, !rip_lin_l, (rip_sym y x), <- Sx, <- Sy in P. nra. }
  destruct (Req_dec (nrm x * nrm y) 0) as [Z|Z].
  - rewrite Z. assert (Z2 : nrm x = 0 \/ nrm y = 0) by (apply Rmult_integral; exact Z).
    assert (K : forall v w, nrm v = 0 -> rip v w = 0).
    { intros v w Hv. pose proof (nrm_sq v) as Sv. rewrite Hv in Sv. set (a := rip v w). set (t := rip w w).
      assert (Pt : 0 <= t) by apply rip_pos. pose proof (rip_pos (vlin (- (t + 1)) v a w)) as P. rewrite rip_lin, !rip_lin_l, (rip_sym w v) in P. fold a t in P. rewrite <- Sv in P.
      assert (P' : 0 <= - (a * a * (t + 2))) by (eapply Rle_trans; [exact P|right; ring]). assert (0 <= a * a * t) by (apply Rmult_le_pos; [nra|exact Pt]). nra. }
    destruct Z2 as [Z2|Z2]; [rewrite (K x y Z2)|rewrite rip_sym, (K y x Z2)]; rewrite Rabs_R0; lra.
  - assert (0 < nrm x * nrm y) by (pose proof (Rmult_le_pos _ _ Px Py); lra). pose proof (Q 1) as Q1. pose proof (Q (-1)) as Q2. apply Rabs_le. split; nra.
Qed.

Lemma nrm_lin a x b y : nrm (vlin a x b y) <= Rabs a * nrm x + Rabs b * nrm y.
Proof.
  pose proof (nrm_pos x). pose proof (nrm_pos y). pose proof (Rabs_pos a). pose proof (Rabs_pos b). apply nrm_le; [nra|].
  rewrite rip_lin, !rip_lin_l, (rip_sym y x), <- !nrm_sq. pose proof (rip_cs x y) as P.
  assert (A : a * a = Rabs a * Rabs a) by (rewrite <- Rabs_mult, Rabs_pos_eq; nra). assert (B : b * b = Rabs b * Rabs b) by (rewrite <- Rabs_mult, Rabs_pos_eq; nra).
  assert (K : a * b * rip x y <= Rabs a * Rabs b * (nrm x * nrm y)).
  { apply (Rle_trans _ (Rabs (a * b * rip x y))); [apply Rle_abs|]. rewrite !Rabs_mult. apply Rmult_le_compat_l; [nra|exact P]. }
  replace (a * (a * (nrm x * nrm x) + b * rip x y) + b * (a * rip x y + b * (nrm y * nrm y))) with (a * a * (nrm x * nrm x) + b * b * (nrm y * nrm y) + 2 * (a * b * rip x y)) by ring. rewrite A, B. nra.
Qed.

(** [H] does not lengthen vectors by more than [L] *)
Definition bounded (L : R) (H : mat C) : Prop := forall x, nrm (mv d H x) <= L * nrm x.

Lemma rip_mv H x y : hermitian d H -> rip (mv d H x) y = rip x (mv d H y).
Proof. intros Hh. unfold rip. rewrite (ip_hermitian d H x y Hh). reflexivity. Qed.
Lemma mv_lin H a x b y : veq d (mv d H (vlin a x b y)) (vlin a (mv d H x) b (mv d H y)).
Proof. intros i _. unfold vlin. rewrite mv_add, !mv_scale. reflexivity. Qed.

Lemma bounded_le L H x y : bounded L H -> Rabs (rip x (mv d H y)) <= L * (nrm x * nrm y).
Proof.
  intros Hb. eapply Rle_trans; [apply rip_cs|]. pose proof (nrm_pos x). specialize (Hb y). nra.
Qed.

(** expectation value and covariance *)
Definition ev (H : mat C) (x : nat -> C) : R := rip x (mv d H x).
Definition cov (F H : mat C) (x : nat -> C) : R := rip (mv d F x) (mv d H x) - ev F x * ev H x.

(** the change of the expectation value in a step with the observable F *)
Lemma step_change L F H x x' eta : hermitian d F -> meq d (mmul d F F) mid -> hermitian d H -> bounded L H -> 0 <= L -> rip x x = 1 -> 0 <= eta ->
  let m := ev F x in let s := sqrt (1 - m * m) in let g := (eta / 2 * sinc (eta / 2 * s))%R in
  veq d x' (vlin (cos (eta / 2 * s) + g * m) x (- g) (mv d F x)) ->
  ev H x' <= ev H x - eta * cov F H x + L * (eta * eta) /\ nrm (vlin 1 x' (-1) x) <= eta / 2.
Proof.
  intros Fh F2 Hh HL L0 N E0 m s g Hx'. set (th := (eta / 2 * s)%R). set (c := cos th).
  set (w := vlin 1 (mv d F x) (- m) x).
  assert (FF : rip (mv d F x) (mv d F x) = 1).
  { rewrite rip_mv by exact Fh. rewrite (rip_ext x x _ x (veq_refl d x)); [exact N|]. intros i Hi. rewrite <- mv_mul, (mv_ext d _ _ x x F2 (veq_refl d x) i Hi). apply mv_id. exact Hi. }
  assert (Em : rip (mv d F x) x = m) by (rewrite rip_sym; reflexivity).
  assert (ww : rip w w = 1 - m * m). { unfold w. rewrite rip_lin, !rip_lin_l, FF, N, Em. change (rip x (mv d F x)) with m. ring. }
  assert (wx : rip x w = 0). { unfold w. rewrite rip_lin, N. change (rip x (mv d F x)) with m. ring. }
  assert (B : 0 <= 1 - m * m) by (rewrite <- ww; apply rip_pos).
  assert (Hs : (s * s = 1 - m * m)%R) by (apply sqrt_sqrt; exact B). assert (Hs0 : (0 <= s)%R) by apply sqrt_pos. assert (Hs1 : s <= 1) by nra.
  assert (nw : nrm w = s). { unfold nrm. rewrite ww. reflexivity. }
  assert (Hg : (g * s = sin th)%R) by (unfold g, th; rewrite <- (sinc_mul (eta / 2 * s)); ring).
  assert (T : 0 <= th <= eta / 2) by (unfold th; nra).
  assert (X : veq d x' (vlin c x (- g) w)). { intros i Hi. rewrite (Hx' i Hi). unfold vlin, w, vlin, c, th. destruct (x i), (mv d F x i). apply C_ext; simpl; ring. }
  assert (nx : nrm x = 1) by (unfold nrm; rewrite N; apply sqrt_1).
  set (r := rip w (mv d H x)). set (f := rip w (mv d H w)).
  assert (Hr : Rabs r <= L * s). { pose proof (bounded_le L H w x HL) as Q. rewrite nx, nw in Q. unfold r. lra. }
  assert (Hf : Rabs f <= L * (s * s)). { pose proof (bounded_le L H w w HL) as Q. rewrite nw in Q. exact Q. }
  assert (He : Rabs (ev H x) <= L). { pose proof (bounded_le L H x x HL) as Q. rewrite nx in Q. unfold ev. lra. }
  assert (E1 : ev H x' = c * c * ev H x - 2 * c * g * r + g * g * f).
  { unfold ev. rewrite (rip_ext _ _ _ _ X (veq_trans _ _ _ _ (mv_veq d H _ _ X) (mv_lin H c x (- g) w))). rewrite rip_lin, !rip_lin_l. fold r f.
    assert (Q : rip x (mv d H w) = r) by (unfold r; rewrite <- rip_mv by exact Hh; apply rip_sym). rewrite Q. ring. }
  assert (Hcov : cov F H x = r). { unfold cov, r, w. rewrite rip_lin_l. fold m. unfold ev. ring. }
  split.
  - rewrite Hcov, E1.
    assert (S2 : c * c = 1 - sin th * sin th) by (unfold c; pose proof (sin2_cos2 th) as Q; unfold Rsqr in Q; lra).
    assert (A1 : g * g * f <= L * (sin th * sin th)). { rewrite <- Hg. apply Rabs_le_between in Hf. assert (0 <= g * g) by nra. nra. }
    assert (A2 : - (sin th * sin th) * ev H x <= L * (sin th * sin th)). { apply Rabs_le_between in He. assert (0 <= sin th * sin th) by nra. nra. }
    assert (A3 : r * (eta - 2 * c * g) <= L * (2 * th * (2 * th) / 2)).
    { assert (G0 : 0 <= eta - 2 * c * g /\ s * (eta - 2 * c * g) <= 2 * th * (2 * th) / 2).
      { assert (Q : s * (eta - 2 * c * g) = 2 * th - sin (2 * th)).
        { rewrite sin_2a. fold c. replace (s * (eta - 2 * c * g)) with (eta * s - 2 * c * (g * s)) by ring. rewrite Hg. unfold th at 2. field. }
        destruct (x_minus_sin (2 * th) ltac:(lra)) as [Q1 Q2]. split; [|rewrite Q; exact Q2].
        destruct (Req_dec s 0) as [Z|Z]; [|assert (0 < s) by lra; nra].
        assert (Z' : th = 0) by (unfold th; rewrite Z; ring). unfold g. fold th. rewrite Z', sinc_0. unfold c. rewrite Z', cos_0. lra. }
      destruct G0 as [G0 G1]. apply Rabs_le_between in Hr. assert (r * (eta - 2 * c * g) <= (L * s) * (eta - 2 * c * g)) by (apply Rmult_le_compat_r; lra).
      assert (L * (s * (eta - 2 * c * g)) <= L * (2 * th * (2 * th) / 2)) by (apply Rmult_le_compat_l; lra). lra. }
    pose proof (sin_sq_le th) as A4. assert (A5 : th * th <= eta / 2 * (eta / 2)) by nra.
    assert (A6 : L * (sin th * sin th) <= L * (eta / 2 * (eta / 2))) by (apply Rmult_le_compat_l; lra).
    assert (A7 : L * (2 * th * (2 * th) / 2) <= L * (2 * (eta / 2 * (eta / 2)))) by (apply Rmult_le_compat_l; lra).
    rewrite S2. nra.
  - apply nrm_le; [lra|]. rewrite rip_lin, !rip_lin_l.
    assert (N' : rip x' x' = 1). { rewrite (rip_ext _ _ _ _ X X), rip_lin, !rip_lin_l, N, ww, (rip_sym w x), wx. unfold c. pose proof (sin2_cos2 th) as Q. unfold Rsqr in Q. rewrite <- Hs. nra. }
    assert (C' : rip x' x = c). { rewrite (rip_ext _ _ x x X (veq_refl _ _)), rip_lin_l, N, (rip_sym w x), wx. ring. }
    rewrite N', N, (rip_sym x x'), C'. pose proof (one_minus_cos th) as Q. fold c in Q. nra.
Qed.

(** the covariance changes little between near states *)
Lemma cov_near L F H x y D : bounded 1 F -> bounded L H -> 0 <= L -> rip x x = 1 -> rip y y = 1 -> nrm (vlin 1 y (-1) x) <= D ->
  Rabs (cov F H y - cov F H x) <= 6 * L * D.
Proof.
  intros HF HL L0 Nx Ny HD. set (e := vlin 1 y (-1) x) in *. assert (D0 : 0 <= D) by (pose proof (nrm_pos e); lra).
  assert (nx : nrm x = 1) by (unfold nrm; rewrite Nx; apply sqrt_1). assert (ny : nrm y = 1) by (unfold nrm; rewrite Ny; apply sqrt_1).
  assert (Y : veq d y (vlin 1 x 1 e)). { intros i _. unfold e, vlin. destruct (x i), (y i). apply C_ext; simpl; ring. }
  assert (Ev : forall M K, 0 <= K -> bounded K M -> Rabs (ev M y - ev M x) <= 2 * K * D).
  { intros M K K0 HM. assert (E : ev M y - ev M x = rip e (mv d M y) + rip x (mv d M e)).
    { unfold ev. rewrite (rip_ext y (vlin 1 x 1 e) (mv d M y) (mv d M y) Y (veq_refl _ _)), rip_lin_l.
      rewrite (rip_ext x x (mv d M y) (vlin 1 (mv d M x) 1 (mv d M e)) (veq_refl _ _)) by (eapply veq_trans; [apply mv_veq; exact Y|apply mv_lin]). rewrite rip_lin. ring. }
    rewrite E. eapply Rle_trans; [apply Rabs_triang|]. pose proof (bounded_le K M e y HM) as P1. pose proof (bounded_le K M x e HM) as P2. rewrite nx in P2. rewrite ny in P1.
    assert (K * nrm e <= K * D) by (apply Rmult_le_compat_l; lra). lra. }
  assert (BF : forall v, nrm (mv d F v) <= nrm v) by (intros v; specialize (HF v); lra).
  assert (P : Rabs (rip (mv d F y) (mv d H y) - rip (mv d F x) (mv d H x)) <= 2 * L * D).
  { assert (E : rip (mv d F y) (mv d H y) - rip (mv d F x) (mv d H x) = rip (mv d F e) (mv d H y) + rip (mv d F x) (mv d H e)).
    { rewrite (rip_ext (mv d F y) (vlin 1 (mv d F x) 1 (mv d F e)) (mv d H y) (mv d H y)); [|eapply veq_trans; [apply mv_veq; exact Y|apply mv_lin]|apply veq_refl]. rewrite rip_lin_l.
      rewrite (rip_ext (mv d F x) (mv d F x) (mv d H y) (vlin 1 (mv d H x) 1 (mv d H e)) (veq_refl _ _)) by (eapply veq_trans; [apply mv_veq; exact Y|apply mv_lin]). rewrite rip_lin. ring. }
    rewrite E. eapply Rle_trans; [apply Rabs_triang|]. pose proof (bounded_le L H (mv d F e) y HL) as P1. pose proof (bounded_le L H (mv d F x) e HL) as P2. rewrite ny in P1.
    pose proof (BF e) as B1. pose proof (BF x) as B2. rewrite nx in B2. pose proof (nrm_pos e). pose proof (nrm_pos (mv d F x)). pose proof (nrm_pos (mv d F e)).
    assert (L * (nrm (mv d F e) * 1) <= L * D) by (apply Rmult_le_compat_l; lra).
    assert (L * (nrm (mv d F x) * nrm e) <= L * (1 * D)) by (apply Rmult_le_compat_l; [lra|apply Rmult_le_compat; lra]). lra. }
  pose proof (Ev F 1 ltac:(lra) HF) as P2. pose proof (Ev H L L0 HL) as P3.
  assert (Bx : Rabs (ev H y) <= L). { pose proof (bounded_le L H y y HL) as Q. rewrite ny in Q. unfold ev. lra. }
  assert (Bf : Rabs (ev F x) <= 1). { pose proof (bounded_le 1 F x x HF) as Q. rewrite nx in Q. unfold ev. lra. }
  unfold cov. replace (rip (mv d F y) (mv d H y) - ev F y * ev H y - (rip (mv d F x) (mv d H x) - ev F x * ev H x))
    with ((rip (mv d F y) (mv d H y) - rip (mv d F x) (mv d H x)) + (- ((ev F y - ev F x) * ev H y) + - (ev F x * (ev H y - ev H x)))) by ring.
  eapply Rle_trans; [apply Rabs_triang|]. eapply Rle_trans; [apply Rplus_le_compat_l, Rabs_triang|]. rewrite !Rabs_Ropp, !Rabs_mult.
  assert (Rabs (ev F y - ev F x) * Rabs (ev H y) <= (2 * 1 * D) * L) by (apply Rmult_le_compat; try apply Rabs_pos; assumption).
  assert (Rabs (ev F x) * Rabs (ev H y - ev H x) <= 1 * (2 * L * D)) by (apply Rmult_le_compat; try apply Rabs_pos; assumption). lra.
Qed.

End Real.
