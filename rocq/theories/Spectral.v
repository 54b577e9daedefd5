(** The spectral theorem for Hermitian matrices: correct eigendecompositions exist
    for every Hermitian matrix, so the hypothesis on numpy.linalg.eigh used in
    PropFlow.v can be met. *)
From Coq Require Import Arith Lia Bool Reals Lra Ring Setoid Morphisms Classical.
From Coquelicot Require Import Coquelicot.
From Verif Require Import Py StarRing Matrix Cplx Expm CircuitModel CircuitProofs CircuitProofs2 LayerProofs FlowModel FlowProofs.
From Coq Require Import List.
Import ListNotations.
Local Open Scope R_scope.

Lemma lsum_shift (f : nat -> C) n : lsum (SR := CStar) f (seq 0 (S n)) = Cplus (f 0%nat) (lsum (SR := CStar) (fun j => f (S j)) (seq 0 n)).
Proof. cbn [seq]. rewrite lsum_cons. cbn [kadd CStar]. f_equal. rewrite <- seq_shift, lsum_map. reflexivity. Qed.

(** ** A matrix with trivial kernel is bounded below *)
Lemma mv_S n A x k : mv (S n) A x k = Cplus (Cmult (A k 0%nat) (x 0%nat)) (mv n (fun i j => A i (S j)) (fun j => x (S j)) k).
Proof. unfold mv. rewrite lsum_shift. reflexivity. Qed.

Lemma in_seq0 n i : In i (seq 0 n) <-> (i < n)%nat.
Proof. rewrite in_seq. lia. Qed.

Lemma one_norm m (y : nat -> C) k : (k < m)%nat -> Cmod (y k) <= rsum (fun k => Cmod (y k)) (seq 0 m).
Proof. intros H. apply (rsum_ge (fun k => Cmod (y k))); [intros; apply Cmod_ge_0|apply in_seq0; exact H]. Qed.

Lemma kernel_or_bound m : forall n (A : mat C),
  (exists x, (exists i, (i < n)%nat /\ x i <> RtoC 0) /\ forall k, (k < m)%nat -> mv n A x k = RtoC 0) \/
  (exists M, 0 <= M /\ forall x i, (i < n)%nat -> Cmod (x i) <= M * rsum (fun k => Cmod (mv n A x k)) (seq 0 m)).
Proof.
  induction n as [|n IH]; intros A.
  - right. exists 0. split; [lra|]. intros x i Hi. lia.
  - destruct (classic (exists r, (r < m)%nat /\ A r 0%nat <> RtoC 0)) as [(r & Hr & Hp)|Hn].
    2: { left. exists (fun i => if Nat.eqb i 0 then RtoC 1 else RtoC 0). split.
      - exists 0%nat. split; [lia|]. cbn. intros E. apply (f_equal Re) in E. simpl in E. lra.
      - intros k Hk. rewrite mv_S. cbn [Nat.eqb]. assert (E : A k 0%nat = RtoC 0) by (apply NNPP; intros E; apply Hn; eauto). rewrite E.
        unfold mv. rewrite lsum_zero; [cbn [k0 CStar]; ring|]. intros j _. cbn [k0 CStar]. ring. }
    set (p := A r 0%nat) in *. set (q := fun k => Cdiv (A k 0%nat) p).
    set (A' := fun k j => Cminus (A k (S j)) (Cmult (q k) (A r (S j)))).
    assert (HA' : forall x k, mv n A' x k = Cminus (mv n (fun i j => A i (S j)) x k) (Cmult (q k) (mv n (fun i j => A i (S j)) x r))).
    { intros x k. unfold mv, A'. rewrite <- (lsum_scale_l (SR := CStar)). change Cminus with (ksub (StarRing := CStar)) at 2. rewrite <- lsum_sub. apply lsum_ext. intros j _. cbn [ksub kmul CStar]. ring. }
    assert (Hq : forall k, Cmult (q k) p = A k 0%nat) by (intros k; unfold q; field; exact Hp).
    destruct (IH A') as [(x' & (i & Hi & Hx) & Hk)|(M & HM & HB)].
    + left. set (s := mv n (fun i j => A i (S j)) x' r).
      exists (fun i => match i with O => Cdiv (Copp s) p | S j => x' j end). split; [exists (S i); split; [lia|exact Hx]|].
      intros k Hkm. rewrite mv_S. specialize (Hk k Hkm). rewrite HA' in Hk. fold s in Hk.
      change (fun j => x' j) with x'. replace (mv n (fun i j => A i (S j)) x' k) with (Cmult (q k) s).
      * rewrite <- Hq. field. exact Hp.
      * symmetry. transitivity (Cplus (Cminus (mv n (fun i j => A i (S j)) x' k) (Cmult (q k) s)) (Cmult (q k) s)); [ring|]. rewrite Hk. ring.
    + right. set (Q := rsum (fun k => Cmod (q k)) (seq 0 m)). set (M1 := M * (1 + Q)). set (T := rsum (fun j => Cmod (A r (S j))) (seq 0 n)).
      assert (HQ : 0 <= Q) by (apply rsum_nonneg; intros; apply Cmod_ge_0). assert (HT : 0 <= T) by (apply rsum_nonneg; intros; apply Cmod_ge_0).
      assert (Pp : 0 < Cmod p) by (apply Cmod_gt_0; exact Hp). assert (HM1 : 0 <= M1) by (unfold M1; nra).
      set (M2 := (1 + T * M1) / Cmod p). assert (HM2 : 0 <= M2) by (unfold M2; apply Rmult_le_pos; [nra|left; apply Rinv_0_lt_compat; exact Pp]).
      exists (M1 + M2). split; [lra|]. intros x i Hi. set (y := mv (S n) A x). set (N := rsum (fun k => Cmod (y k)) (seq 0 m)).
      assert (HN : 0 <= N) by (apply rsum_nonneg; intros; apply Cmod_ge_0).
      assert (Hyr : Cmod (y r) <= N) by (apply one_norm; exact Hr).
      set (x' := fun j => x (S j)).
      assert (Ey : forall k, mv n A' x' k = Cminus (y k) (Cmult (q k) (y r))).
      { intros k. rewrite HA'. unfold y. rewrite !mv_S. fold x' p. rewrite <- (Hq k). ring. }
      assert (Hx' : forall j, (j < n)%nat -> Cmod (x' j) <= M1 * N).
      { intros j Hj. eapply Rle_trans; [apply (HB x' j Hj)|]. unfold M1. rewrite Rmult_assoc. apply Rmult_le_compat_l; [exact HM|].
        eapply Rle_trans; [apply (rsum_le _ (fun k => Cmod (y k) + N * Cmod (q k)))|].
        - intros k _. rewrite Ey. eapply Rle_trans; [apply Cmod_triangle|]. rewrite Cmod_opp, Cmod_mult. apply Rplus_le_compat_l.
          rewrite Rmult_comm. apply Rmult_le_compat_r; [apply Cmod_ge_0|exact Hyr].
        - rewrite rsum_plus, rsum_scale. fold N Q. lra. }
      destruct i as [|j].
      * assert (E0 : Cmult p (x 0%nat) = Cminus (y r) (mv n (fun i j => A i (S j)) x' r)) by (unfold y; rewrite mv_S; fold p x'; ring).
        assert (B0 : Cmod p * Cmod (x 0%nat) <= N + T * (M1 * N)).
        { rewrite <- Cmod_mult, E0. eapply Rle_trans; [apply Cmod_triangle|]. rewrite Cmod_opp. apply Rplus_le_compat; [exact Hyr|].
          unfold mv. eapply Rle_trans; [apply Cmod_lsum|]. unfold T. rewrite Rmult_comm, <- rsum_scale. apply rsum_le. intros j Hj. apply in_seq0 in Hj. rewrite Cmod_mult, Rmult_comm.
          apply Rmult_le_compat_r; [apply Cmod_ge_0|apply Hx'; exact Hj]. }
        assert (B1 : Cmod (x 0%nat) <= M2 * N).
        { apply (Rmult_le_reg_l (Cmod p)); [exact Pp|]. eapply Rle_trans; [exact B0|]. unfold M2. right. field. lra. }
        nra.
      * specialize (Hx' j ltac:(lia)). unfold x' in Hx'. nra.
Qed.

(** ** Norms *)
Definition sq (d : nat) (x : nat -> C) : R := Re (ip d x x).
Lemma sq_rsum d x : sq d x = rsum (fun i => Cmod (x i) * Cmod (x i)) (seq 0 d).
Proof.
  unfold sq, ip. rewrite lsum_Re. apply rsum_ext. intros i _. destruct (x i) as [a b]. unfold Cmod. simpl fst. simpl snd. rewrite sqrt_sqrt; [simpl; ring|]. nra.
Qed.
Lemma sq_nonneg d x : 0 <= sq d x.
Proof. rewrite sq_rsum. apply rsum_nonneg. intros i _. pose proof (Cmod_ge_0 (x i)). nra. Qed.
Lemma sq_entry d x i : (i < d)%nat -> Cmod (x i) * Cmod (x i) <= sq d x.
Proof.
  intros H. rewrite sq_rsum. apply (rsum_ge (fun i => Cmod (x i) * Cmod (x i))); [|apply in_seq0; exact H]. intros j _. pose proof (Cmod_ge_0 (x j)). nra.
Qed.
Lemma ip_self d x : ip d x x = RtoC (sq d x).
Proof. apply C_ext; [reflexivity|]. unfold ip. rewrite lsum_Im. simpl. rewrite <- (rsum_const0 (seq 0 d)). apply rsum_ext. intros i _. destruct (x i) as [a b]. simpl. ring. Qed.
Lemma sq_zero d x : sq d x = 0 -> forall i, (i < d)%nat -> x i = RtoC 0.
Proof.
  intros H i Hi. apply Cmod_eq_0. pose proof (sq_entry d x i Hi). pose proof (Cmod_ge_0 (x i)). nra.
Qed.

(** the quadratic form of a Hermitian matrix is bounded *)
Lemma quad_bound d A x : Re (ip d x (mv d A x)) <= mbound d A * sq d x.
Proof.
  unfold ip. rewrite lsum_Re. unfold mbound. rewrite Rmult_comm, <- rsum_scale. apply rsum_le. intros i Hi. apply in_seq0 in Hi.
  unfold mv. eapply Rle_trans; [apply Rle_abs|]. eapply Rle_trans; [apply Rabs_Re|]. rewrite Cmod_mult.
  eapply Rle_trans; [apply Rmult_le_compat_l; [apply Cmod_ge_0|apply Cmod_lsum]|]. rewrite <- !rsum_scale. apply rsum_le. intros j Hj. apply in_seq0 in Hj.
  rewrite Cmod_mult. replace (Cmod (Cconj (x i))) with (Cmod (x i)) by (destruct (x i) as [a b]; unfold Cmod; simpl; f_equal; ring).
  pose proof (sq_entry d x i Hi). pose proof (sq_entry d x j Hj). pose proof (Cmod_ge_0 (x i)). pose proof (Cmod_ge_0 (x j)). pose proof (Cmod_ge_0 (A i j)).
  assert (Cmod (x i) * Cmod (x j) <= sq d x) by nra. nra.
Qed.

(** for a positive form |A x|^2 <= K <x, A x> *)
Lemma psd_bound d A K x : hermitian d A -> (forall z, 0 <= Re (ip d z (mv d A z))) -> 0 < K -> (forall z, Re (ip d z (mv d A z)) <= K * sq d z) ->
  sq d (mv d A x) <= K * Re (ip d x (mv d A x)).
Proof.
  intros Hh Hp HK HB. set (y := mv d A x). set (t := / K).
  pose proof (Hp (fun i => Cminus (x i) (Cmult (RtoC t) (y i)))) as H.
  assert (E : Re (ip d (fun i => Cminus (x i) (Cmult (RtoC t) (y i))) (mv d A (fun i => Cminus (x i) (Cmult (RtoC t) (y i))))) =
    Re (ip d x y) - 2 * t * sq d y + t * t * Re (ip d y (mv d A y))).
  { assert (E1 : veq d (mv d A (fun i => Cminus (x i) (Cmult (RtoC t) (y i)))) (fun i => Cminus (y i) (Cmult (RtoC t) (mv d A y i)))).
    { intros i _. rewrite mv_subv, mv_scale. reflexivity. }
    rewrite (ip_ext d _ _ _ _ (veq_refl d _) E1). rewrite ip_sub_r, ip_scale_r.
    assert (L : forall z, ip d (fun i => Cminus (x i) (Cmult (RtoC t) (y i))) z = Cminus (ip d x z) (Cmult (RtoC t) (ip d y z))).
    { intros z. rewrite <- (ip_conj d z), ip_sub_r, ip_scale_r. rewrite <- (ip_conj d z x), <- (ip_conj d z y). destruct (ip d z x), (ip d z y). apply C_ext; simpl; ring. }
    rewrite !L. replace (ip d x (mv d A y)) with (ip d y y) by (unfold y; rewrite (ip_hermitian d A x) by exact Hh; reflexivity).
    rewrite ip_self. destruct (ip d x y), (ip d y (mv d A y)). simpl. ring. }
  rewrite E in H. pose proof (HB y) as Hy. assert (Ht : t * K = 1) by (unfold t; field; lra). assert (0 < t) by (apply Rinv_0_lt_compat; exact HK).
  pose proof (sq_nonneg d y). set (q := Re (ip d x y)) in *. set (r := Re (ip d y (mv d A y))) in *. set (N := sq d y) in *.
  assert (t * t * r <= t * N) by (replace (t * N) with (t * t * (K * N)) by (replace (t * t * (K * N)) with (t * K * (t * N)) by ring; rewrite Ht; ring); apply Rmult_le_compat_l; [nra|exact Hy]).
  assert (Q1 : t * N <= q) by lra. assert (Q2 : K * (t * N) <= K * q) by (apply Rmult_le_compat_l; lra).
  replace (K * (t * N)) with (t * K * N) in Q2 by ring. rewrite Ht in Q2. lra.
Qed.

(** ** Eigenvectors *)
Lemma eigenvector d H : (0 < d)%nat -> hermitian d H -> exists (l : R) x, sq d x = 1 /\ veq d (mv d H x) (fun i => Cmult (RtoC l) (x i)).
Proof.
  intros Hd Hh.
  set (E := fun v => exists x, sq d x = 1 /\ v = Re (ip d x (mv d H x))).
  set (e0 := fun i : nat => if Nat.eqb i 0 then RtoC 1 else RtoC 0).
  assert (He0 : sq d e0 = 1).
  { unfold sq, ip. destruct d as [|d']; [lia|]. rewrite lsum_shift. rewrite lsum_zero; [simpl; ring|]. intros j _. cbn. apply C_ext; simpl; ring. }
  destruct (completeness E) as (l & Hub & Hlub).
  - exists (mbound d H). intros v (x & Hx & ->). pose proof (quad_bound d H x). rewrite Hx in *. lra.
  - exists (Re (ip d e0 (mv d H e0))), e0. auto.
  - set (A := msub (mscale (RtoC l) mid) H).
    assert (HA : forall x, veq d (mv d A x) (fun i => Cminus (Cmult (RtoC l) (x i)) (mv d H x i))).
    { intros x i Hi. unfold A. rewrite mv_sub, mv_scale_mat, mv_id by exact Hi. reflexivity. }
    assert (Hf : forall x, Re (ip d x (mv d A x)) = l * sq d x - Re (ip d x (mv d H x))).
    { intros x. rewrite (ip_ext d x x _ _ (veq_refl d x) (HA x)), ip_sub_r, ip_scale_r, ip_self. destruct (ip d x (mv d H x)). simpl. ring. }
    assert (HAh : hermitian d A).
    { unfold hermitian in *. unfold A. rewrite madj_sub, madj_scale, madj_id, Hh. intros i j _ _. unfold msub, mscale. cbn [ksub kmul kconj CStar]. f_equal. f_equal. apply C_ext; simpl; ring. }
    assert (Hpsd : forall z, 0 <= Re (ip d z (mv d A z))).
    { intros z. rewrite Hf. destruct (Req_dec (sq d z) 0) as [Ez|Ez].
      - assert (Q : ip d z (mv d H z) = RtoC 0).
        { unfold ip. apply (lsum_zero (SR := CStar)). intros i Hi. apply in_seq0 in Hi. rewrite (sq_zero d z Ez i Hi). cbn [k0 CStar]. apply C_ext; simpl; ring. }
        rewrite Q, Ez. simpl. lra.
      - pose proof (sq_nonneg d z) as Hz. set (c := / sqrt (sq d z)).
        assert (Hs : 0 < sqrt (sq d z)) by (apply sqrt_lt_R0; lra). assert (Hss : sqrt (sq d z) * sqrt (sq d z) = sq d z) by (apply sqrt_sqrt; exact Hz).
        assert (Hcc : c * c * sq d z = 1) by (unfold c; rewrite <- Hss at 3; field; lra).
        assert (Sc : forall M, Re (ip d (fun i => Cmult (RtoC c) (z i)) (mv d M (fun i => Cmult (RtoC c) (z i)))) = c * c * Re (ip d z (mv d M z))).
        { intros M. rewrite (ip_ext d _ (fun i => Cmult (RtoC c) (z i)) _ (fun i => Cmult (RtoC c) (mv d M z i)) (veq_refl d _)); [|intros i _; apply mv_scale].
          rewrite ip_scale_r, ip_scale_l. destruct (ip d z (mv d M z)). simpl. ring. }
        assert (Hin : E (c * c * Re (ip d z (mv d H z)))).
        { exists (fun i => Cmult (RtoC c) (z i)). split; [|symmetry; apply Sc]. unfold sq. rewrite ip_scale_r, ip_scale_l, ip_self. simpl. rewrite <- Hcc. ring. }
        specialize (Hub _ Hin). set (w := Re (ip d z (mv d H z))) in *. assert (0 < c) by (unfold c; apply Rinv_0_lt_compat; exact Hs).
        assert (c * c * w <= l * (c * c * sq d z)) by (rewrite Hcc; lra). apply (Rmult_le_reg_l (c * c)); [nra|]. nra. }
    set (K := mbound d A + 1).
    assert (HK : 0 < K). { unfold K, mbound. assert (0 <= rsum (fun i => rsum (fun j => Cmod (A i j)) (seq 0 d)) (seq 0 d)); [|lra]. apply rsum_nonneg. intros. apply rsum_nonneg. intros. apply Cmod_ge_0. }
    assert (HB : forall z, Re (ip d z (mv d A z)) <= K * sq d z).
    { intros z. pose proof (quad_bound d A z). pose proof (sq_nonneg d z). unfold K. lra. }
    destruct (kernel_or_bound d d A) as [(x & (i & Hi & Hx) & Hk)|(M & HM & HBd)].
    + assert (Hpos : 0 < sq d x).
      { pose proof (sq_entry d x i Hi). assert (0 < Cmod (x i)) by (apply Cmod_gt_0; exact Hx). nra. }
      set (c := / sqrt (sq d x)). exists l, (fun i => Cmult (RtoC c) (x i)).
      assert (Hs : 0 < sqrt (sq d x)) by (apply sqrt_lt_R0; lra). assert (Hss : sqrt (sq d x) * sqrt (sq d x) = sq d x) by (apply sqrt_sqrt; lra).
      split.
      * unfold sq. rewrite ip_scale_r, ip_scale_l, ip_self. simpl. unfold c. rewrite <- Hss at 3. field. lra.
      * intros k Hkd. rewrite mv_scale. specialize (Hk k Hkd). rewrite (HA x k Hkd) in Hk.
        assert (Q : mv d H x k = Cmult (RtoC l) (x k)). { transitivity (Cminus (Cmult (RtoC l) (x k)) (Cminus (Cmult (RtoC l) (x k)) (mv d H x k))); [ring|]. rewrite Hk. ring. }
        rewrite Q. ring.
    + exfalso. set (D := INR d). assert (HD : 0 <= D) by apply pos_INR.
      set (B := D * (M * D) * (M * D) * K). assert (HB0 : 0 <= B) by (unfold B; apply Rmult_le_pos; [|lra]; apply Rmult_le_pos; [apply Rmult_le_pos|]; nra).
      assert (HE : exists x, sq d x = 1 /\ Re (ip d x (mv d A x)) < / (B + 1)).
      { apply NNPP. intros Hno. assert (Hi : 0 < / (B + 1)) by (apply Rinv_0_lt_compat; lra).
        assert (Q : is_upper_bound E (l - / (B + 1))).
        { intros v (x & Hx & ->). apply Rnot_lt_le. intros Hlt. apply Hno. exists x. split; [exact Hx|]. rewrite Hf, Hx. lra. }
        specialize (Hlub _ Q). lra. }
      destruct HE as (x & Hx & Hlt). pose proof (psd_bound d A K x HAh Hpsd HK HB) as Hy. set (y := mv d A x) in *.
      set (s := sqrt (sq d y)). assert (Hs0 : 0 <= s) by apply sqrt_pos. assert (Hss : s * s = sq d y) by (apply sqrt_sqrt, sq_nonneg).
      assert (Hyk : forall k, (k < d)%nat -> Cmod (y k) <= s).
      { intros k Hk. pose proof (sq_entry d y k Hk). pose proof (Cmod_ge_0 (y k)). apply Rnot_lt_le. intros Hc. assert (s * s < Cmod (y k) * Cmod (y k)) by (apply Rmult_le_0_lt_compat; assumption). lra. }
      assert (Hsum : forall f c, 0 <= c -> (forall k, (k < d)%nat -> f k <= c) -> rsum f (seq 0 d) <= D * c).
      { intros f c Hc Hfc. unfold D. clear - Hfc. induction d as [|d' IH]; [simpl; lra|]. rewrite seq_S, rsum_app. cbn [rsum]. rewrite S_INR. change (0 + d')%nat with d'.
        assert (rsum f (seq 0 d') <= INR d' * c) by (apply IH; intros; apply Hfc; lia). specialize (Hfc d' ltac:(lia)). lra. }
      assert (Hxi : forall i, (i < d)%nat -> Cmod (x i) <= M * D * s).
      { intros i Hi. eapply Rle_trans; [apply (HBd x i Hi)|]. rewrite Rmult_assoc. apply Rmult_le_compat_l; [exact HM|]. apply Hsum; [exact Hs0|exact Hyk]. }
      assert (H1 : sq d x <= D * (M * D * s * (M * D * s))).
      { rewrite sq_rsum. apply Hsum; [assert (0 <= M * D * s) by (apply Rmult_le_pos; [apply Rmult_le_pos; assumption|exact Hs0]); apply Rmult_le_pos; assumption|]. intros i Hi. specialize (Hxi i Hi). pose proof (Cmod_ge_0 (x i)). apply Rmult_le_compat; assumption. }
      rewrite Hx in H1. assert (H2 : 1 <= D * (M * D) * (M * D) * sq d y) by (rewrite <- Hss; replace (D * (M * D) * (M * D) * (s * s)) with (D * (M * D * s * (M * D * s))) by ring; exact H1).
      assert (H3 : D * (M * D) * (M * D) * sq d y <= B * Re (ip d x y)).
      { replace (B * Re (ip d x y)) with (D * (M * D) * (M * D) * (K * Re (ip d x y))) by (unfold B; ring). apply Rmult_le_compat_l; [apply Rmult_le_pos; [apply Rmult_le_pos|]; nra|exact Hy]. }
      assert (H4 : B * Re (ip d x y) <= B * / (B + 1)) by (apply Rmult_le_compat_l; lra).
      assert (H5 : B * / (B + 1) < 1). { apply (Rmult_lt_reg_r (B + 1)); [lra|]. rewrite Rmult_assoc, Rinv_l by lra. lra. }
      lra.
Qed.

(** ** A unitary matrix with a given first column *)
Lemma phased d x : (0 < d)%nat -> sq d x = 1 -> exists c : C, Cmult (Cconj c) c = RtoC 1 /\ Im (Cmult c (x 0%nat)) = 0.
Proof.
  intros Hd Hx. destruct (classic (x 0%nat = RtoC 0)) as [E|E].
  - exists (RtoC 1). split; [apply C_ext; simpl; ring|]. rewrite E. simpl. ring.
  - assert (P : 0 < Cmod (x 0%nat)) by (apply Cmod_gt_0; exact E). set (r := Cmod (x 0%nat)) in *.
    assert (Hr : r * r = Re (x 0%nat) * Re (x 0%nat) + Im (x 0%nat) * Im (x 0%nat)).
    { unfold r, Cmod. rewrite sqrt_sqrt; [unfold Re, Im; ring|]. nra. }
    exists (Cmult (RtoC (/ r)) (Cconj (x 0%nat))). destruct (x 0%nat) as [a b]. simpl in Hr. split.
    + apply C_ext; simpl; [|ring]. transitivity (/ r * / r * (a * a + b * b)); [ring|]. rewrite <- Hr. field. lra.
    + simpl. ring.
Qed.

Lemma complete_column d x : (0 < d)%nat -> sq d x = 1 -> Im (x 0%nat) = 0 -> exists P : mat C, hermitian d P /\ meq d (mmul d P P) mid /\ forall i, (i < d)%nat -> P i 0%nat = x i.
Proof.
  intros Hd Hx Him. set (e0 := fun i : nat => if Nat.eqb i 0 then RtoC 1 else RtoC 0).
  set (w := fun i => Cminus (x i) (e0 i)). set (N := sq d w).
  assert (He : forall y, ip d e0 y = y 0%nat).
  { intros y. unfold ip. destruct d as [|d']; [lia|]. rewrite lsum_shift, lsum_zero; [unfold e0; cbn [Nat.eqb k0 CStar]; destruct (y 0%nat); apply C_ext; simpl; ring|]. intros j _. unfold e0. cbn [Nat.eqb k0 CStar]. destruct (y (S j)); apply C_ext; simpl; ring. }
  assert (HN : N = 2 - 2 * Re (x 0%nat)).
  { unfold N, sq, w. assert (L : forall z, ip d (fun i => Cminus (x i) (e0 i)) z = Cminus (ip d x z) (ip d e0 z)).
    { intros z. rewrite <- (ip_conj d z), ip_sub_r. rewrite <- (ip_conj d z x), <- (ip_conj d z e0). destruct (ip d z x), (ip d z e0). apply C_ext; simpl; ring. }
    rewrite L, !ip_sub_r, !He, ip_self, Hx. rewrite <- (ip_conj d e0 x), He. unfold e0. cbn [Nat.eqb]. destruct (x 0%nat). simpl. ring. }
  destruct (Req_dec N 0) as [E|E].
  - exists mid. split; [apply madj_id|]. split; [apply mmul_1_l|]. intros i Hi. pose proof (sq_zero d w E i Hi) as Q. unfold w in Q.
    transitivity (e0 i); [unfold mid, e0; destruct i; reflexivity|]. transitivity (Cplus (Cminus (x i) (e0 i)) (e0 i)); [rewrite Q; ring|ring].
  - set (P := msub (K := C) mid (mscale (RtoC (2 / N)) (outer w))). exists P.
    assert (HP : hermitian d P).
    { unfold hermitian, P. rewrite madj_sub, madj_scale, madj_id. pose proof (outer_hermitian d w) as Ho. unfold hermitian in Ho. rewrite Ho.
      intros i j _ _. unfold msub, mscale. cbn [ksub kmul kconj CStar]. f_equal. f_equal. apply C_ext; simpl; ring. }
    assert (HO : meq d (mmul d (outer w) (outer w)) (mscale (RtoC N) (outer w))).
    { intros i j Hi Hj. unfold mmul, outer, mscale. cbn [kmul CStar].
      transitivity (Cmult (Cmult (w i) (Cconj (w j))) (ip d w w)); [|rewrite ip_self; fold N; ring].
      unfold ip. rewrite <- (lsum_scale_l (SR := CStar)). apply lsum_ext. intros k _. cbn [kmul CStar]. ring. }
    split; [exact HP|]. split.
    + unfold P. rewrite mmul_sub_l, mmul_1_l, mmul_sub_r, mmul_1_r, mmul_scale_l, mmul_scale_r, HO.
      intros i j _ _. unfold msub, mscale. cbn [ksub kmul CStar]. destruct (outer w i j) as [a b], (mid (K := C) i j) as [p q]. apply C_ext; simpl; field; exact E.
    + intros i Hi. unfold P, msub, mscale, outer, mid. cbn [ksub kmul CStar k0 k1].
      assert (W0 : w 0%nat = RtoC (- (N / 2))). { unfold w, e0. cbn [Nat.eqb]. rewrite HN. destruct (x 0%nat) as [a b]. simpl in Him. subst b. apply C_ext; simpl; field. }
      rewrite W0. replace (if Nat.eqb i 0 then RtoC 1 else RtoC 0) with (e0 i) by reflexivity. unfold w. destruct (x i) as [a b], (e0 i) as [p q]. apply C_ext; simpl; field; exact E.
Qed.

(** ** The spectral theorem *)
Definition block (l : C) (A : mat C) : mat C := fun i j => match i, j with O, O => l | S i, S j => A i j | _, _ => RtoC 0 end.
Lemma block_mul d l m A B : meq (S d) (mmul (SR := CStar) (S d) (block l A) (block m B)) (block (Cmult l m) (mmul d A B)).
Proof.
  intros i j Hi Hj. unfold mmul. rewrite lsum_shift. destruct i as [|i], j as [|j]; cbn [block kmul CStar].
  - rewrite lsum_zero; [cbn; ring|]. intros k _. cbn. ring.
  - rewrite lsum_zero; [cbn; ring|]. intros k _. cbn. ring.
  - rewrite lsum_zero; [cbn; ring|]. intros k _. cbn. ring.
  - rewrite Cmult_0_l, Cplus_0_l. reflexivity.
Qed.
Lemma block_adj d l A : meq (S d) (madj (SR := CStar) (block l A)) (block (Cconj l) (madj A)).
Proof. intros [|i] [|j] _ _; unfold madj, block; cbn [kconj CStar]; try reflexivity; apply C_ext; simpl; ring. Qed.
Lemma block_ext d l m A B : l = m -> meq d A B -> meq (S d) (block l A) (block m B).
Proof. intros -> H [|i] [|j] Hi Hj; cbn [block]; try reflexivity. apply H; lia. Qed.
Lemma block_id d : meq (S d) (block (RtoC 1) (mid (K := C))) mid.
Proof. intros [|i] [|j] _ _; reflexivity. Qed.

Theorem spectral : forall d H, hermitian d H -> exists r, eigh_at d H r.
Proof.
  induction d as [|d IH]; intros H Hh.
  - exists (fun _ => 0, mid). split; [split; intros i j Hi; lia|intros i j Hi; lia].
  - destruct (eigenvector (S d) H ltac:(lia) Hh) as (l & x0 & Hx0 & Hv0).
    destruct (phased (S d) x0 ltac:(lia) Hx0) as (c & Hc & Hci). set (x := fun i => Cmult c (x0 i)).
    assert (Hx : sq (S d) x = 1) by (unfold sq, x; rewrite ip_scale_r, ip_scale_l, Cmult_assoc, (Cmult_comm c), Hc, ip_self, Hx0; simpl; ring).
    assert (Hv : veq (S d) (mv (S d) H x) (fun i => Cmult (RtoC l) (x i))).
    { intros i Hi. unfold x. rewrite mv_scale, (Hv0 i Hi). ring. }
    destruct (complete_column (S d) x ltac:(lia) Hx Hci) as (P & HP & HPP & HP0).
    set (H1 := mmul (S d) (mmul (S d) P H) P).
    assert (HH1 : hermitian (S d) H1).
    { unfold hermitian in *. unfold H1. rewrite !madj_mul, HP, Hh. apply mmul_assoc. }
    assert (Hcol : forall i, (i < S d)%nat -> H1 i 0%nat = if Nat.eqb i 0 then RtoC l else RtoC 0).
    { intros i Hi. assert (Q : H1 i 0%nat = mv (S d) (mmul (S d) P H) x i).
      { unfold H1, mmul at 1, mv. apply lsum_ext. intros k Hk. apply in_seq0 in Hk. rewrite HP0 by exact Hk. reflexivity. }
      rewrite Q, mv_mul. rewrite (mv_veq (S d) P _ _ Hv i Hi), mv_scale.
      assert (Q2 : mv (S d) P x i = mid (K := C) i 0%nat).
      { rewrite <- (HPP i 0%nat Hi ltac:(lia)). unfold mv, mmul. apply lsum_ext. intros k Hk. apply in_seq0 in Hk. rewrite HP0 by exact Hk. reflexivity. }
      rewrite Q2. unfold mid. destruct (Nat.eqb i 0); cbn [k0 k1 CStar]; ring. }
    set (H' := fun i j => H1 (S i) (S j)).
    assert (HB : meq (S d) H1 (block (RtoC l) H')).
    { intros [|i] [|j] Hi Hj; cbn [block].
      - rewrite (Hcol 0%nat Hi). reflexivity.
      - rewrite <- (HH1 0%nat (S j) Hi Hj). unfold madj. rewrite (Hcol (S j) Hj). cbn. apply C_ext; simpl; ring.
      - rewrite (Hcol (S i) Hi). reflexivity.
      - reflexivity. }
    destruct (IH H') as ((Sv & V) & Hu & HE).
    { intros i j Hi Hj. unfold H', madj. rewrite <- (HH1 (S i) (S j) ltac:(lia) ltac:(lia)). reflexivity. }
    cbn [fst snd] in *. destruct Hu as [U1 U2].
    assert (PU : unitary2 (S d) P) by (unfold hermitian in HP; split; rewrite HP; exact HPP).
    assert (BU : unitary2 (S d) (block (RtoC 1) V)).
    { split; rewrite block_adj, block_mul, <- block_id; apply block_ext; try assumption; apply C_ext; simpl; ring. }
    exists (fun i => match i with O => l | S j => Sv j end, mmul (S d) P (block (RtoC 1) V)). split; cbn [fst snd]; [apply unitary2_mul; assumption|].
    assert (ED : meq (S d) (np_diag (fun i => RtoC (match i with O => l | S j => Sv j end))) (block (RtoC l) (np_diag (fun i => RtoC (Sv i))))).
    { intros [|i] [|j] _ _; reflexivity. }
    assert (EB : meq (S d) H1 (mmul (S d) (mmul (S d) (block (RtoC 1) V) (block (RtoC l) (np_diag (fun i => RtoC (Sv i))))) (madj (block (RtoC 1) V)))).
    { rewrite HB, block_adj, !block_mul. apply block_ext; [apply C_ext; simpl; ring|exact HE]. }
    rewrite ED, madj_mul. unfold hermitian in HP. rewrite HP.
    transitivity (mmul (S d) (mmul (S d) P H1) P).
    + unfold H1. rewrite !mmul_assoc, HPP, mmul_1_l. rewrite <- (mmul_assoc (S d) H P P), HPP, mmul_1_r. reflexivity.
    + rewrite EB. rewrite !mmul_assoc. reflexivity.
Qed.
