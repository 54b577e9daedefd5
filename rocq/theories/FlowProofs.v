(** Proofs about FlowModel.v: the exact step rotates the state in the plane of
    phi and F phi. *)
From Coq Require Import Arith Lia Bool String Reals Lra Ring Setoid Morphisms.
From Coquelicot Require Import Coquelicot.
From Verif Require Import Py StarRing Matrix Cplx Expm UtilsModel CircuitModel CircuitProofs CircuitProofs2 LayerModel LayerProofs OptimizerModel FlowModel.
From Coq Require Import List.
Import ListNotations.
Local Open Scope nat_scope.

(** a correct eigendecomposition of [H] *)
Definition eigh_at (d : nat) (H : mat C) (r : (nat -> R) * mat C) : Prop :=
  unitary2 d (snd r) /\ meq d H (mmul d (mmul d (snd r) (np_diag (fun i => RtoC (fst r i)))) (madj (snd r))).

Lemma np_diag_mul d f g : meq d (mmul (SR := CStar) d (np_diag f) (np_diag g)) (np_diag (fun i => Cmult (f i) (g i))).
Proof.
  intros i j Hi Hj. unfold mmul. rewrite (lsum_single (SR := CStar) _ _ i).
  - unfold np_diag. rewrite Nat.eqb_refl. destruct (i =? j) eqn:E; cbn [kmul CStar]; [apply Nat.eqb_eq in E; subst; ring|ring].
  - apply seq_NoDup.
  - apply in_seq; lia.
  - intros k _ Hn. unfold np_diag. destruct (i =? k) eqn:E; [apply Nat.eqb_eq in E; congruence|]. cbn [kmul k0 CStar]. ring.
Qed.
Lemma np_diag_adj d f : meq d (madj (SR := CStar) (np_diag f)) (np_diag (fun i => Cconj (f i))).
Proof.
  intros i j _ _. unfold madj, np_diag. rewrite (Nat.eqb_sym j i). destruct (i =? j) eqn:E; cbn [kconj CStar].
  - apply Nat.eqb_eq in E. subst. reflexivity.
  - apply C_ext; simpl; ring.
Qed.
Lemma np_diag_one d f : (forall i, i < d -> f i = RtoC 1) -> meq d (np_diag f) (mid (K := C)).
Proof.
  intros H i j Hi Hj. unfold np_diag, mid. destruct (i =? j); [apply H; auto|reflexivity].
Qed.
Lemma phase_unit eta s : Cmult (Cconj (phase eta s)) (phase eta s) = RtoC 1.
Proof.
  unfold phase. pose proof (sin2_cos2 (eta / 2 * s)) as E. unfold Rsqr in E. apply C_ext; simpl; [|ring].
  replace 1%R with (sin (eta / 2 * s) * sin (eta / 2 * s) + cos (eta / 2 * s) * cos (eta / 2 * s))%R by exact E. ring.
Qed.

Definition spin (d : nat) (eta : R) (r : (nat -> R) * mat C) : mat C :=
  mmul d (mmul d (snd r) (np_diag (fun i => phase eta (fst r i)))) (madj (snd r)).

Lemma eigh_step_spin eigh d eta H u : eigh_step eigh d eta H u = mmul d (spin d eta (eigh d H)) u.
Proof. unfold eigh_step, spin. destruct (eigh d H); reflexivity. Qed.

Lemma diag_unitary d eta f : unitary2 d (np_diag (fun i => phase eta (f i))).
Proof.
  split.
  - rewrite np_diag_adj, np_diag_mul. apply np_diag_one. intros i _. apply phase_unit.
  - rewrite np_diag_adj, np_diag_mul. apply np_diag_one. intros i _. rewrite Cmult_comm. apply phase_unit.
Qed.
Lemma spin_unitary d eta r : unitary2 d (snd r) -> unitary2 d (spin d eta r).
Proof. intros H. unfold spin. apply unitary2_mul; [apply unitary2_mul; [exact H|apply diag_unitary]|apply unitary2_adj; exact H]. Qed.

Lemma mv_diag d f x i : i < d -> mv d (np_diag f) x i = Cmult (f i) (x i).
Proof.
  intros Hi. unfold mv. rewrite (lsum_single (SR := CStar) _ _ i).
  - unfold np_diag. rewrite Nat.eqb_refl. reflexivity.
  - apply seq_NoDup.
  - apply in_seq; lia.
  - intros k _ Hn. unfold np_diag. destruct (i =? k) eqn:E; [apply Nat.eqb_eq in E; congruence|]. cbn [kmul k0 CStar]. ring.
Qed.
Lemma mv_veq d A x y : veq d x y -> veq d (mv d A x) (mv d A y).
Proof. intros H. apply mv_ext; [reflexivity|exact H]. Qed.
Lemma veq_refl d x : veq d x x. Proof. intros i _. reflexivity. Qed.
Lemma veq_trans d x y z : veq d x y -> veq d y z -> veq d x z.
Proof. intros H1 H2 i Hi. rewrite H1, H2 by auto. reflexivity. Qed.
Lemma veq_sym d x y : veq d x y -> veq d y x.
Proof. intros H i Hi. symmetry. auto. Qed.
Lemma mv_spin d f V x : veq d (mv d (mmul d (mmul d V (np_diag f)) (madj V)) x) (mv d V (fun i => Cmult (f i) (mv d (madj V) x i))).
Proof.
  intros i Hi. rewrite mv_mul, mv_mul. apply mv_veq; [|exact Hi]. intros j Hj. apply mv_diag. exact Hj.
Qed.
Lemma mv_inv_l d V x : meq d (mmul d (madj V) V) mid -> veq d (mv d (madj V) (mv d V x)) x.
Proof. intros H i Hi. rewrite <- mv_mul. rewrite (mv_ext d _ _ x x H (veq_refl d x) i Hi). apply mv_id. exact Hi. Qed.
Lemma mv_add d A x y i : mv d A (fun j => Cplus (x j) (y j)) i = Cplus (mv d A x i) (mv d A y i).
Proof. unfold mv. change Cplus with (kadd (StarRing := CStar)) at 2. rewrite <- lsum_add. apply lsum_ext. intros j _. cbn [kadd CStar]. ring. Qed.

Lemma mv_subv d A x y i : mv d A (fun j => Cminus (x j) (y j)) i = Cminus (mv d A x i) (mv d A y i).
Proof. unfold mv. change Cminus with (ksub (StarRing := CStar)) at 2. rewrite <- lsum_sub. apply lsum_ext. intros j _. cbn [ksub CStar]. ring. Qed.

Lemma Cmult_eq0 (a b : C) : Cmult a b = RtoC 0 -> a = RtoC 0 \/ b = RtoC 0.
Proof.
  intros H. destruct (Req_EM_T (Cmod a) 0) as [E|E]; [left; apply Cmod_eq_0; exact E|right]. apply Cmod_eq_0.
  apply (f_equal Cmod) in H. rewrite Cmod_mult, Cmod_0 in H. apply Rmult_integral in H. destruct H; [contradiction|exact H].
Qed.

(** When H^2 x = s^2 x the step acts as cos(eta s/2) - i (sin(eta s/2)/s) H. *)
Lemma spin_action d eta H r x (s g : R) : eigh_at d H r -> (0 <= s)%R -> (g * s = sin (eta / 2 * s))%R ->
  veq d (mv d H (mv d H x)) (fun i => Cmult (RtoC (s * s)) (x i)) ->
  veq d (mv d (spin d eta r) x) (fun i => Cplus (Cmult (RtoC (cos (eta / 2 * s))) (x i)) (Cmult (Cmult (Copp Ci) (RtoC g)) (mv d H x i))).
Proof.
  destruct r as [Sv V]. intros [[HV1 HV2] HH] Hs Hg Hx. cbn [fst snd] in *. set (y := mv d (madj V) x).
  assert (E1 : veq d (mv d H x) (mv d V (fun i => Cmult (RtoC (Sv i)) (y i)))).
  { eapply veq_trans; [apply mv_ext; [exact HH|apply veq_refl]|]. apply mv_spin. }
  assert (E2 : veq d (mv d H (mv d H x)) (mv d V (fun i => Cmult (RtoC (Sv i)) (Cmult (RtoC (Sv i)) (y i))))).
  { eapply veq_trans; [apply mv_ext; [exact HH|apply veq_refl]|]. eapply veq_trans; [apply mv_spin|]. apply mv_veq. intros i Hi. f_equal.
    rewrite (mv_veq d (madj V) _ _ E1 i Hi). apply mv_inv_l; auto. }
  assert (E3 : forall i, i < d -> Cmult (RtoC (Sv i)) (Cmult (RtoC (Sv i)) (y i)) = Cmult (RtoC (s * s)) (y i)).
  { intros i Hi. rewrite <- (mv_inv_l d V (fun i => Cmult (RtoC (Sv i)) (Cmult (RtoC (Sv i)) (y i))) HV1 i Hi).
    rewrite <- (mv_veq d (madj V) _ _ E2 i Hi). rewrite (mv_veq d (madj V) _ _ Hx i Hi). apply mv_scale. }
  assert (E4 : forall i, i < d -> Cmult (phase eta (Sv i)) (y i) = Cplus (Cmult (RtoC (cos (eta / 2 * s))) (y i)) (Cmult (Cmult (Copp Ci) (RtoC g)) (Cmult (RtoC (Sv i)) (y i)))).
  { intros i Hi. specialize (E3 i Hi).
    assert (Hz : Cmult (RtoC (Sv i * Sv i - s * s)) (y i) = RtoC 0).
    { transitivity (Cminus (Cmult (RtoC (Sv i)) (Cmult (RtoC (Sv i)) (y i))) (Cmult (RtoC (s * s)) (y i))); [destruct (y i); apply C_ext; simpl; ring|]. rewrite E3. destruct (y i). apply C_ext; simpl; ring. }
    apply Cmult_eq0 in Hz. destruct Hz as [Hz|Hz].
    - assert (Q : (Sv i = s \/ Sv i = - s)%R).
      { apply (f_equal Re) in Hz. simpl in Hz. assert ((Sv i - s) * (Sv i + s) = 0)%R by lra. apply Rmult_integral in H0. destruct H0; [left|right]; lra. }
      unfold phase. destruct Q as [->| ->].
      + rewrite <- Hg. destruct (y i). apply C_ext; simpl; ring.
      + replace (eta / 2 * - s)%R with (- (eta / 2 * s))%R by ring. rewrite cos_neg, sin_neg, <- Hg. destruct (y i). apply C_ext; simpl; ring.
    - rewrite Hz. unfold phase. apply C_ext; simpl; ring. }
  unfold spin. cbn [fst snd]. eapply veq_trans; [apply mv_spin|]. fold y. intros i Hi.
  rewrite (mv_veq d V _ _ E4 i Hi), mv_add, !mv_scale. f_equal; [|f_equal; symmetry; apply E1; exact Hi].
  f_equal. unfold y. rewrite <- mv_mul. rewrite (mv_ext d _ _ x x HV2 (veq_refl d x) i Hi). apply mv_id. exact Hi.
Qed.

(** ** The commutator of the state with an involution *)
Section Plane.
Variables (d : nat) (F : mat C) (phi : nat -> C).
Hypothesis Fh : hermitian d F.
Hypothesis F2 : meq d (mmul d F F) mid.
Hypothesis norm1 : ip d phi phi = RtoC 1.
Let m : R := Re (quad d phi F).
Let K : mat C := mscale Ci (msub (mmul d (outer phi) F) (mmul d F (outer phi))).

Lemma exp_real : ip d phi (mv d F phi) = RtoC m.
Proof. rewrite <- quad_ip. unfold m. apply C_ext; simpl; [reflexivity|]. apply (quad_real d F phi Fh). Qed.
Lemma F_twice x : veq d (mv d F (mv d F x)) x.
Proof. intros i Hi. rewrite <- mv_mul. rewrite (mv_ext d _ _ x x F2 (veq_refl d x) i Hi). apply mv_id. exact Hi. Qed.
Lemma K_apply x : veq d (mv d K x) (fun i => Cmult Ci (Cminus (Cmult (ip d phi (mv d F x)) (phi i)) (Cmult (ip d phi x) (mv d F phi i)))).
Proof.
  intros i Hi. unfold K. rewrite mv_scale_mat, mv_sub, !mv_mul, mv_outer. f_equal. f_equal.
  rewrite (mv_veq d F _ (fun j => Cmult (ip d phi x) (phi j))); [apply mv_scale| |exact Hi]. intros j _. apply mv_outer.
Qed.
Lemma K_phi : veq d (mv d K phi) (fun i => Cmult Ci (Cminus (Cmult (RtoC m) (phi i)) (mv d F phi i))).
Proof. intros i Hi. rewrite (K_apply phi i Hi), exp_real, norm1. f_equal. f_equal. ring. Qed.
Lemma K_twice : veq d (mv d K (mv d K phi)) (fun i => Cmult (RtoC (1 - m * m)) (phi i)).
Proof.
  intros i Hi. rewrite (K_apply (mv d K phi) i Hi).
  assert (E1 : ip d phi (mv d F (mv d K phi)) = Cmult Ci (Cminus (RtoC (m * m)) (RtoC 1))).
  { rewrite (ip_ext d phi phi _ (fun i => Cmult Ci (Cminus (Cmult (RtoC m) (mv d F phi i)) (phi i)))).
    - rewrite ip_scale_r, ip_sub_r, ip_scale_r, exp_real, norm1. f_equal. f_equal. apply C_ext; simpl; ring.
    - apply veq_refl.
    - intros j Hj. rewrite (mv_veq d F _ _ K_phi j Hj), mv_scale. f_equal.
      rewrite mv_subv, mv_scale, (F_twice phi j Hj). reflexivity. }
  assert (E2 : ip d phi (mv d K phi) = RtoC 0).
  { rewrite (ip_ext d phi phi _ _ (veq_refl d phi) K_phi). rewrite ip_scale_r, ip_sub_r, ip_scale_r, exp_real, norm1. apply C_ext; simpl; ring. }
  rewrite E1, E2. transitivity (Cmult (Cmult (Cmult Ci Ci) (Cminus (RtoC (m * m)) (RtoC 1))) (phi i)); [ring|]. f_equal. apply C_ext; simpl; ring.
Qed.

Lemma exp_bound : (-1 <= m <= 1)%R.
Proof.
  assert (N : forall z : C, (0 <= Re (Cmult (Cconj z) z))%R). { intros [a b]. simpl. nra. }
  assert (P : forall (x : nat -> C) l, (0 <= Re (lsum (SR := CStar) (fun i => Cmult (Cconj (x i)) (x i)) l))%R).
  { intros x l. induction l as [|a l IH]; [simpl; lra|]. rewrite lsum_cons. pose proof (N (x a)). cbn [kadd CStar]. rewrite Re_plus. lra. }
  assert (G : forall e : R, (e * e = 1)%R -> (0 <= 2 + 2 * (e * m))%R).
  { intros e He. pose proof (P (fun i => Cplus (phi i) (Cmult (RtoC e) (mv d F phi i))) (seq 0 d)) as Q.
    change (0 <= Re (ip d (fun i => Cplus (phi i) (Cmult (RtoC e) (mv d F phi i))) (fun i => Cplus (phi i) (Cmult (RtoC e) (mv d F phi i)))))%R in Q.
    assert (E : forall x y z, ip d (fun i => Cplus (x i) (y i)) z = Cplus (ip d x z) (ip d y z)).
    { intros x y z. rewrite <- (ip_conj d z x), <- (ip_conj d z y), <- (ip_conj d z). rewrite (ip_add_r d z x y). apply C_ext; simpl; ring. }
    rewrite E, !ip_add_r, !ip_scale_l, !ip_scale_r, norm1, exp_real in Q.
    assert (E3 : ip d (mv d F phi) phi = RtoC m) by (rewrite <- (ip_hermitian d F phi phi Fh); apply exp_real).
    assert (E4 : ip d (mv d F phi) (mv d F phi) = RtoC 1).
    { rewrite <- (ip_hermitian d F phi (mv d F phi) Fh). rewrite (ip_ext d phi phi _ _ (veq_refl d phi) (F_twice phi)). exact norm1. }
    rewrite E3, E4 in Q. simpl in Q. nra. }
  split; [pose proof (G 1%R ltac:(lra))|pose proof (G (-1)%R ltac:(lra))]; lra.
Qed.

(** the vector a phi + b F phi *)
Lemma plane_expval (a b : R) x : veq d x (fun i => Cplus (Cmult (RtoC a) (phi i)) (Cmult (RtoC b) (mv d F phi i))) ->
  Re (quad d x F) = ((a * a + b * b) * m + 2 * (a * b))%R.
Proof.
  intros Hx. rewrite quad_ip. rewrite (ip_ext d _ _ _ _ Hx (mv_veq d F _ _ Hx)).
  rewrite (ip_ext d _ _ _ (fun i => Cplus (Cmult (RtoC a) (mv d F phi i)) (Cmult (RtoC b) (phi i))) (veq_refl d _)).
  2: { intros i Hi. rewrite mv_add, !mv_scale, (F_twice phi i Hi). reflexivity. }
  assert (E : forall x y z, ip d (fun i => Cplus (x i) (y i)) z = Cplus (ip d x z) (ip d y z)).
  { intros x' y z. rewrite <- (ip_conj d z x'), <- (ip_conj d z y), <- (ip_conj d z). rewrite (ip_add_r d z x' y). apply C_ext; simpl; ring. }
  assert (E3 : ip d (mv d F phi) phi = RtoC m) by (rewrite <- (ip_hermitian d F phi phi Fh); apply exp_real).
  assert (E4 : ip d (mv d F phi) (mv d F phi) = RtoC 1).
  { rewrite <- (ip_hermitian d F phi (mv d F phi) Fh). rewrite (ip_ext d phi phi _ _ (veq_refl d phi) (F_twice phi)). exact norm1. }
  rewrite E, !ip_add_r, !ip_scale_l, !ip_scale_r, norm1, exp_real, E3, E4. simpl. ring.
Qed.

(** F phi = m phi exactly when m = +-1 *)
Lemma eigen_iff : (m * m = 1)%R <-> exists c : R, veq d (mv d F phi) (fun i => Cmult (RtoC c) (phi i)).
Proof.
  split.
  - intros Hm. exists m.
    assert (Z : ip d (fun i => Cminus (mv d F phi i) (Cmult (RtoC m) (phi i))) (fun i => Cminus (mv d F phi i) (Cmult (RtoC m) (phi i))) = RtoC 0).
    { rewrite ip_sub_r, ip_scale_r. rewrite <- (ip_conj d (mv d F phi)), <- (ip_conj d phi). rewrite !ip_sub_r, !ip_scale_r, norm1, exp_real.
      assert (E3 : ip d (mv d F phi) phi = RtoC m) by (rewrite <- (ip_hermitian d F phi phi Fh); apply exp_real).
      assert (E4 : ip d (mv d F phi) (mv d F phi) = RtoC 1).
      { rewrite <- (ip_hermitian d F phi (mv d F phi) Fh). rewrite (ip_ext d phi phi _ _ (veq_refl d phi) (F_twice phi)). exact norm1. }
      rewrite E3, E4. apply C_ext; simpl; nra. }
    assert (V : forall (x : nat -> C) l, Re (lsum (SR := CStar) (fun i => Cmult (Cconj (x i)) (x i)) l) = 0%R -> forall i, In i l -> x i = RtoC 0).
    { intros x l. assert (P : forall l, (0 <= Re (lsum (SR := CStar) (fun i => Cmult (Cconj (x i)) (x i)) l))%R).
      { induction l0 as [|a l0 IH]; [simpl; lra|]. rewrite lsum_cons. cbn [kadd CStar]. rewrite Re_plus. destruct (x a) as [p q]. simpl in *. nra. }
      induction l as [|a l IH]; intros E i Hi; [destruct Hi|]. rewrite lsum_cons in E. cbn [kadd CStar] in E. rewrite Re_plus in E. specialize (P l).
      assert (Na : (0 <= Re (Cmult (Cconj (x a)) (x a)))%R) by (destruct (x a); simpl; nra).
      destruct Hi as [<-|Hi]; [|apply IH; [lra|exact Hi]]. assert (Q : Re (Cmult (Cconj (x a)) (x a)) = 0%R) by lra.
      destruct (x a) as [p q]. simpl in Q. assert (p = 0%R) by nra. assert (q = 0%R) by nra. subst. reflexivity. }
    intros i Hi. apply (f_equal Re) in Z. assert (In i (seq 0 d)) by (apply in_seq; lia). pose proof (V _ _ Z i H) as W. cbn beta in W.
    transitivity (Cplus (Cminus (mv d F phi i) (Cmult (RtoC m) (phi i))) (Cmult (RtoC m) (phi i))); [ring|]. rewrite W. ring.
  - intros (c & Hc). assert (E : ip d phi (mv d F phi) = RtoC c).
    { rewrite (ip_ext d phi phi _ _ (veq_refl d phi) Hc), ip_scale_r, norm1. ring. }
    rewrite exp_real in E. apply (f_equal Re) in E. simpl in E.
    assert (E2 : ip d phi (mv d F (mv d F phi)) = RtoC (c * c)).
    { rewrite (ip_ext d phi phi _ (fun i => Cmult (RtoC c) (Cmult (RtoC c) (phi i))) (veq_refl d phi)).
      - rewrite !ip_scale_r, norm1. apply C_ext; simpl; ring.
      - intros i Hi. rewrite (mv_veq d F _ _ Hc i Hi), mv_scale, (Hc i Hi). reflexivity. }
    rewrite (ip_ext d phi phi _ _ (veq_refl d phi) (F_twice phi)), norm1 in E2. apply (f_equal Re) in E2. simpl in E2. rewrite E. lra.
Qed.
End Plane.

(** The cost after a step of the flow *)
Lemma flow_cost d F H r u eta : 0 < d -> hermitian d F -> meq d (mmul d F F) mid -> unitary2 d u ->
  meq d H (mscale Ci (msub (mmul d (outer (qnode_state u)) F) (mmul d F (outer (qnode_state u))))) -> eigh_at d H r ->
  let m := Re (quad d (qnode_state u) F) in let s := sqrt (1 - m * m) in
  Re (quad d (qnode_state (mmul d (spin d eta r) u)) F) = (m * cos (eta * s) - s * sin (eta * s))%R.
Proof.
  intros Hd Fh F2 Hu HH He m s. set (phi := qnode_state u) in *.
  assert (N : ip d phi phi = RtoC 1) by (apply state_norm; [exact Hd|apply Hu]).
  pose proof (exp_bound d F phi Fh F2 N) as B. fold m in B.
  assert (Hs : (s * s = 1 - m * m)%R) by (apply sqrt_sqrt; nra). assert (Hs0 : (0 <= s)%R) by apply sqrt_pos.
  set (g := (sin (eta / 2 * s) / s)%R).
  assert (Hg : (g * s = sin (eta / 2 * s))%R).
  { unfold g. destruct (Req_EM_T s 0) as [->|Hne]; [rewrite Rmult_0_r, Rmult_0_r, sin_0; reflexivity|field; exact Hne]. }
  rewrite state_mmul. fold phi.
  assert (HK : veq d (mv d H phi) (fun i => Cmult Ci (Cminus (Cmult (RtoC m) (phi i)) (mv d F phi i)))).
  { eapply veq_trans; [apply mv_ext; [exact HH|apply veq_refl]|]. apply K_phi; auto. }
  assert (HK2 : veq d (mv d H (mv d H phi)) (fun i => Cmult (RtoC (s * s)) (phi i))).
  { eapply veq_trans; [apply mv_ext; [exact HH|apply mv_ext; [exact HH|apply veq_refl]]|]. rewrite Hs. apply K_twice; auto. }
  pose proof (spin_action d eta H r phi s g He Hs0 Hg HK2) as A.
  assert (X : veq d (mv d (spin d eta r) phi) (fun i => Cplus (Cmult (RtoC (cos (eta / 2 * s) + g * m)) (phi i)) (Cmult (RtoC (- g)) (mv d F phi i)))).
  { intros i Hi. rewrite (A i Hi), (HK i Hi). destruct (phi i) as [p q], (mv d F phi i) as [p' q']. apply C_ext; simpl; ring. }
  rewrite (plane_expval d F phi Fh F2 N _ _ _ X). fold m.
  replace (eta * s)%R with (2 * (eta / 2 * s))%R by field. rewrite cos_2a, sin_2a. rewrite <- Hg. set (c := cos (eta / 2 * s)) in *.
  assert (CS : (g * s * (g * s) + c * c = 1)%R). { rewrite Hg. unfold c. pose proof (sin2_cos2 (eta / 2 * s)) as E. unfold Rsqr in E. exact E. }
  assert (Q : (m * m = 1 - s * s)%R) by lra.
  transitivity (m * c * c + 2 * c * g * (m * m - 1) + g * g * m * (m * m - 1))%R; [ring|].
  replace (m * m - 1)%R with (- (s * s))%R by lra. ring.
Qed.
