(** The matrix exponential (scipy.linalg.expm) as the entrywise sum of its power
    series, over the complex numbers. *)
From Coq Require Import Arith Lia Bool Reals Lra Ring Setoid Morphisms Factorial.
From Coquelicot Require Import Coquelicot.
From Verif Require Import StarRing Matrix Cplx.
From Coq Require Import List.
Import ListNotations.
Local Open Scope nat_scope.

(** U is unitary on both sides *)
Definition unitary2 {K} {SR : StarRing K} (n : nat) (U : mat K) : Prop :=
  meq n (mmul n (madj U) U) mid /\ meq n (mmul n U (madj U)) mid.

Section U2.
Context {K : Type} {SR : StarRing K}.
Lemma unitary2_proper n (U V : mat K) : meq n U V -> unitary2 n U -> unitary2 n V.
Proof. intros E [H1 H2]. split; rewrite <- E; auto. Qed.
Lemma unitary2_id n : unitary2 (K := K) n mid.
Proof. split; rewrite madj_id, mmul_1_l; reflexivity. Qed.
Lemma unitary2_mul n (U V : mat K) : unitary2 n U -> unitary2 n V -> unitary2 n (mmul n U V).
Proof.
  intros [U1 U2] [V1 V2]. split.
  - rewrite madj_mul. rewrite mmul_assoc, <- (mmul_assoc n (madj V)), U1, mmul_1_r. auto.
  - rewrite madj_mul. rewrite mmul_assoc, <- (mmul_assoc n U), V2, mmul_1_r. auto.
Qed.
Lemma unitary2_adj n (U : mat K) : unitary2 n U -> unitary2 n (madj U).
Proof. intros [H1 H2]. split; rewrite madj_adj_eq; auto. Qed.
End U2.

(** ** Powers *)

Section Pow.
Context {K : Type} {SR : StarRing K}.
Fixpoint mpow (n : nat) (A : mat K) (k : nat) : mat K :=
  match k with O => mid | S k' => mmul n A (mpow n A k') end.
Lemma mpow_proper n A B k : meq n A B -> meq n (mpow n A k) (mpow n B k).
Proof. intros H. induction k; simpl; [reflexivity|]. apply mmul_proper; auto. Qed.
Lemma mpow_comm n A B k : meq n (mmul n A B) (mmul n B A) -> meq n (mmul n B (mpow n A k)) (mmul n (mpow n A k) B).
Proof.
  intros H. induction k; simpl; [rewrite mmul_1_l, mmul_1_r; reflexivity|].
  rewrite mmul_assoc, <- H, <- mmul_assoc, IHk, mmul_assoc. reflexivity.
Qed.
Lemma mpow_adj n A k : meq n (madj (mpow n A k)) (mpow n (madj A) k).
Proof.
  induction k; simpl; [apply madj_id|]. rewrite madj_mul, IHk. symmetry. apply mpow_comm. reflexivity.
Qed.
End Pow.

(** ** Complex series *)

Local Open Scope R_scope.

Definition cser (a : nat -> C) (l : C) : Prop :=
  is_series (fun k => Re (a k)) (Re l) /\ is_series (fun k => Im (a k)) (Im l).

Lemma is_series_extR (a b : nat -> R) (l : R) : (forall k, a k = b k) -> is_series a l -> is_series b l.
Proof. apply is_series_ext. Qed.

Lemma cser_ext a b l : (forall k, a k = b k) -> cser a l -> cser b l.
Proof. intros H [H1 H2]. split; eapply is_series_extR; [|exact H1| |exact H2]; intros; simpl; rewrite H; auto. Qed.

Lemma cser_unique a l m : cser a l -> cser a m -> l = m.
Proof.
  intros [H1 H2] [H3 H4]. apply C_ext.
  - apply is_series_unique in H1. apply is_series_unique in H3. congruence.
  - apply is_series_unique in H2. apply is_series_unique in H4. congruence.
Qed.

Lemma cser_plus a b l m : cser a l -> cser b m -> cser (fun k => Cplus (a k) (b k)) (Cplus l m).
Proof. intros [H1 H2] [H3 H4]. split; [apply (is_series_plus _ _ _ _ H1 H3)|apply (is_series_plus _ _ _ _ H2 H4)]. Qed.

Lemma is_series_scal_R c (a : nat -> R) l : is_series a l -> is_series (fun k => c * a k) (c * l).
Proof. intros H. apply (is_series_scal c a l H). Qed.
Lemma is_series_minus_R (a b : nat -> R) l m : is_series a l -> is_series b m -> is_series (fun k => a k - b k) (l - m).
Proof. intros H1 H2. apply (is_series_minus a b l m H1 H2). Qed.
Lemma is_series_plus_R (a b : nat -> R) l m : is_series a l -> is_series b m -> is_series (fun k => a k + b k) (l + m).
Proof. intros H1 H2. apply (is_series_plus a b l m H1 H2). Qed.

Lemma cser_scal c a l : cser a l -> cser (fun k => Cmult c (a k)) (Cmult c l).
Proof.
  intros [H1 H2]. split.
  - apply (is_series_minus_R _ _ _ _ (is_series_scal_R (Re c) _ _ H1) (is_series_scal_R (Im c) _ _ H2)).
  - apply (is_series_plus_R _ _ _ _ (is_series_scal_R (Re c) _ _ H2) (is_series_scal_R (Im c) _ _ H1)).
Qed.

Lemma is_series_0 : is_series (fun _ : nat => 0) 0.
Proof.
  assert (H : is_series (fun k => 0 * (/ INR (fact k) * 1 ^ k)) (0 * exp 1)).
  { apply is_series_scal_R, is_pseries_R, is_exp_Reals. }
  rewrite Rmult_0_l in H. eapply is_series_extR; [|exact H]. intros k. simpl. ring.
Qed.

Lemma cser_0 : cser (fun _ => RtoC 0) (RtoC 0).
Proof. split; apply is_series_0. Qed.

Lemma cser_lsum {A} (f : A -> nat -> C) (g : A -> C) l :
  (forall x, In x l -> cser (f x) (g x)) ->
  cser (fun k => lsum (SR := CStar) (fun x => f x k) l) (lsum (SR := CStar) g l).
Proof.
  induction l as [|x l IH]; intros H.
  - apply cser_0.
  - change (lsum g (x :: l)) with (Cplus (g x) (lsum (SR := CStar) g l)).
    apply (cser_plus (f x) (fun k => lsum (SR := CStar) (fun x => f x k) l)); [apply H; left; auto|].
    apply IH. intros y Hy. apply H; right; auto.
Qed.

Lemma cser_conj a l : cser a l -> cser (fun k => Cconj (a k)) (Cconj l).
Proof.
  intros [H1 H2]. split; [exact H1|].
  pose proof (is_series_scal_R (-1) _ _ H2) as H. replace (-1 * Im l) with (Im (Cconj l)) in H by (rewrite Im_conj; ring).
  eapply is_series_extR; [|exact H]. intros k. change (-1 * Im (a k) = Im (Cconj (a k))). rewrite Im_conj. ring.
Qed.

Lemma Rabs_Re z : Rabs (Re z) <= Cmod z.
Proof. destruct z as [x y]. unfold Re. simpl. pose proof (Rmax_Cmod (x, y)) as H. simpl in H. pose proof (Rmax_l (Rabs x) (Rabs y)). lra. Qed.
Lemma Rabs_Im z : Rabs (Im z) <= Cmod z.
Proof. destruct z as [x y]. unfold Im. simpl. pose proof (Rmax_Cmod (x, y)) as H. simpl in H. pose proof (Rmax_r (Rabs x) (Rabs y)). lra. Qed.

Definition cabs (a : nat -> C) : Prop := ex_series (fun k => Cmod (a k)).

Lemma cabs_Re a : cabs a -> ex_series (fun k => Rabs (Re (a k))).
Proof.
  intros H. eapply (ex_series_le (V := R_CompleteNormedModule)); [|exact H]. intros k.
  unfold norm; simpl. unfold abs; simpl. rewrite Rabs_Rabsolu. apply Rabs_Re.
Qed.
Lemma cabs_Im a : cabs a -> ex_series (fun k => Rabs (Im (a k))).
Proof.
  intros H. eapply (ex_series_le (V := R_CompleteNormedModule)); [|exact H]. intros k.
  unfold norm; simpl. unfold abs; simpl. rewrite Rabs_Rabsolu. apply Rabs_Im.
Qed.

Lemma cabs_cser a : cabs a -> cser a (Series (fun k => Re (a k)), Series (fun k => Im (a k))).
Proof.
  intros H. split; apply Series_correct, ex_series_Rabs; [apply cabs_Re|apply cabs_Im]; auto.
Qed.

Lemma sum_f_rsum f n : sum_f_R0 f n = rsum f (seq 0 (S n)).
Proof.
  induction n as [|n IH]; [simpl; ring|]. rewrite seq_S, rsum_app. simpl sum_f_R0. rewrite IH. simpl. ring.
Qed.

Lemma cser_mult a b l m : cser a l -> cser b m -> cabs a -> cabs b ->
  cser (fun k => lsum (SR := CStar) (fun j => Cmult (a j) (b (k - j)%nat)) (seq 0 (S k))) (Cmult l m).
Proof.
  intros [A1 A2] [B1 B2] Ha Hb.
  pose proof (is_series_mult _ _ _ _ A1 B1 (cabs_Re _ Ha) (cabs_Re _ Hb)) as RR.
  pose proof (is_series_mult _ _ _ _ A2 B2 (cabs_Im _ Ha) (cabs_Im _ Hb)) as II.
  pose proof (is_series_mult _ _ _ _ A1 B2 (cabs_Re _ Ha) (cabs_Im _ Hb)) as RI.
  pose proof (is_series_mult _ _ _ _ A2 B1 (cabs_Im _ Ha) (cabs_Re _ Hb)) as IR.
  split.
  - eapply is_series_extR; [|apply (is_series_minus_R _ _ _ _ RR II)]. intros k. cbn beta.
    rewrite !sum_f_rsum. rewrite lsum_Re.
    replace (rsum (fun j => Re (a j) * Re (b (k - j)%nat)) (seq 0 (S k)) - rsum (fun j => Im (a j) * Im (b (k - j)%nat)) (seq 0 (S k)))
      with (rsum (fun j => Re (a j) * Re (b (k - j)%nat)) (seq 0 (S k)) + rsum (fun j => (-1) * (Im (a j) * Im (b (k - j)%nat))) (seq 0 (S k))).
    2:{ rewrite rsum_scale. ring. }
    rewrite <- rsum_plus. apply rsum_ext. intros j _. rewrite Re_mult. ring.
  - eapply is_series_extR; [|apply (is_series_plus_R _ _ _ _ RI IR)]. intros k. cbn beta.
    rewrite !sum_f_rsum. rewrite lsum_Im. rewrite <- rsum_plus. apply rsum_ext. intros j _. rewrite Im_mult. ring.
Qed.

(** ** The exponential *)

Definition eterm (n : nat) (A : mat C) (k : nat) : mat C := mscale (SR := CStar) (RtoC (/ INR (fact k))) (mpow n A k).

Definition expm (n : nat) (A : mat C) : mat C := fun i j =>
  (Series (fun k => Re (eterm n A k i j)), Series (fun k => Im (eterm n A k i j))).

(** a bound on the entries *)
Definition mbound (n : nat) (A : mat C) : R := rsum (fun i => rsum (fun j => Cmod (A i j)) (seq 0 n)) (seq 0 n).

Lemma rsum_ge {A} (f : A -> R) l x : (forall y, In y l -> 0 <= f y) -> In x l -> f x <= rsum f l.
Proof.
  induction l as [|a l IH]; intros H Hi; [destruct Hi|]. simpl.
  pose proof (rsum_nonneg f l (fun y Hy => H y (or_intror Hy))). pose proof (H a (or_introl eq_refl)).
  destruct Hi as [->|Hi]; [lra|]. pose proof (IH (fun y Hy => H y (or_intror Hy)) Hi). lra.
Qed.

Lemma row_bound n A i : (i < n)%nat -> rsum (fun j => Cmod (A i j)) (seq 0 n) <= mbound n A.
Proof.
  intros Hi. apply (rsum_ge (fun i => rsum (fun j => Cmod (A i j)) (seq 0 n))).
  - intros y _. apply rsum_nonneg. intros; apply Cmod_ge_0.
  - apply in_seq. lia.
Qed.

Lemma Cmod_lsum {A} (f : A -> C) l : Cmod (lsum (SR := CStar) f l) <= rsum (fun x => Cmod (f x)) l.
Proof.
  induction l as [|a l IH]; [simpl; rewrite Cmod_0; lra|].
  change (lsum (SR := CStar) f (a :: l)) with (Cplus (f a) (lsum (SR := CStar) f l)).
  simpl. pose proof (Cmod_triangle (f a) (lsum (SR := CStar) f l)). lra.
Qed.

Lemma mpow_bound n A k i j : (i < n)%nat -> (j < n)%nat -> Cmod (mpow n A k i j) <= mbound n A ^ k.
Proof.
  revert i j. induction k as [|k IH]; intros i j Hi Hj; simpl.
  - unfold mid. destruct (Nat.eqb i j); simpl; [rewrite Cmod_1|rewrite Cmod_0]; lra.
  - unfold mmul. eapply Rle_trans; [apply Cmod_lsum|].
    assert (HB : 0 <= mbound n A).
    { apply rsum_nonneg. intros; apply rsum_nonneg; intros; apply Cmod_ge_0. }
    apply Rle_trans with (rsum (fun l => mbound n A ^ k * Cmod (A i l)) (seq 0 n)).
    + apply rsum_le. intros l Hl. apply in_seq in Hl. cbn [kmul CStar]. rewrite Cmod_mult, Rmult_comm.
      apply Rmult_le_compat_r; [apply Cmod_ge_0|]. apply IH; lia.
    + rewrite rsum_scale, Rmult_comm. apply Rmult_le_compat_r; [apply pow_le; auto|]. apply row_bound; auto.
Qed.

Lemma eterm_cabs n A i j : (i < n)%nat -> (j < n)%nat -> cabs (fun k => eterm n A k i j).
Proof.
  intros Hi Hj. unfold cabs.
  eapply (ex_series_le (V := R_CompleteNormedModule)) with (b := fun k => / INR (fact k) * mbound n A ^ k).
  - intros k. unfold norm; simpl. unfold abs; simpl. rewrite Rabs_pos_eq by apply Cmod_ge_0.
    unfold eterm, mscale. cbn [kmul CStar]. rewrite Cmod_mult, Cmod_R.
    assert (0 < / INR (fact k)) by (apply Rinv_0_lt_compat, INR_fact_lt_0).
    rewrite Rabs_pos_eq by lra. apply Rmult_le_compat_l; [lra|]. apply mpow_bound; auto.
  - exists (exp (mbound n A)). apply is_pseries_R. apply is_exp_Reals.
Qed.

Lemma expm_cser n A i j : (i < n)%nat -> (j < n)%nat -> cser (fun k => eterm n A k i j) (expm n A i j).
Proof. intros Hi Hj. apply (cabs_cser (fun k => eterm n A k i j)). apply eterm_cabs; auto. Qed.

Lemma expm_intro n A B : (forall i j, (i < n)%nat -> (j < n)%nat -> cser (fun k => eterm n A k i j) (B i j)) -> meq n (expm n A) B.
Proof. intros H i j Hi Hj. eapply cser_unique; [apply expm_cser; auto|apply H; auto]. Qed.

Lemma eterm_proper n A B k : meq n A B -> meq n (eterm n A k) (eterm n B k).
Proof. intros H. unfold eterm. rewrite (mpow_proper n A B k H). reflexivity. Qed.

Lemma expm_proper n A B : meq n A B -> meq n (expm n A) (expm n B).
Proof.
  intros H. apply expm_intro. intros i j Hi Hj. eapply cser_ext; [|apply expm_cser; auto].
  intros k. symmetry. apply eterm_proper; auto.
Qed.

Lemma expm_adj n A : meq n (expm n (madj A)) (madj (expm n A)).
Proof.
  apply expm_intro. intros i j Hi Hj. unfold madj at 2. simpl kconj.
  eapply cser_ext; [|apply cser_conj; apply (expm_cser n A j i); auto].
  intros k. unfold eterm, mscale. rewrite <- (mpow_adj n A k i j Hi Hj). unfold madj. simpl.
  apply C_ext; simpl; ring.
Qed.

(** e_k(A+B) = sum_j e_j(A) e_(k-j)(B) for commuting A and B *)
Lemma eterm_S n A k : meq n (mscale (SR := CStar) (RtoC (INR (S k))) (eterm n A (S k))) (mmul n A (eterm n A k)).
Proof.
  unfold eterm. rewrite mmul_scale_r. intros i j Hi Hj. unfold mscale. cbn [mpow kmul CStar].
  rewrite Cmult_assoc. f_equal. rewrite <- RtoC_mult. f_equal. rewrite fact_simpl, mult_INR.
  field. split; [apply INR_fact_neq_0|apply not_0_INR; discriminate].
Qed.

Lemma eterm_comm n A B k : meq n (mmul n A B) (mmul n B A) -> meq n (mmul n B (eterm n A k)) (mmul n (eterm n A k) B).
Proof. intros H. unfold eterm. rewrite mmul_scale_r, mmul_scale_l, mpow_comm by auto. reflexivity. Qed.

Lemma eterm_0 n A : meq n (eterm n A 0) mid.
Proof. intros i j _ _. unfold eterm, mscale. cbn [mpow kmul CStar fact]. change (INR 1) with 1. rewrite Rinv_1. apply Cmult_1_l. Qed.

Definition conv (n : nat) (A B : mat C) (k : nat) : mat C :=
  msum (SR := CStar) (fun j => mmul n (eterm n A j) (eterm n B (k - j))) (seq 0 (S k)).

Lemma mscale_cancel n (c : C) (A B : mat C) : c <> RtoC 0 ->
  meq n (mscale (SR := CStar) c A) (mscale (SR := CStar) c B) -> meq n A B.
Proof.
  intros Hc H i j Hi Hj. specialize (H i j Hi Hj). unfold mscale in H. simpl in H.
  transitivity (Cmult (Cinv c) (Cmult c (A i j))); [|rewrite H];
    rewrite Cmult_assoc, Cinv_l, Cmult_1_l by auto; auto.
Qed.

Lemma msum_ext' {X} n (f g : X -> mat C) l : (forall x, In x l -> meq n (f x) (g x)) ->
  meq n (msum (SR := CStar) f l) (msum (SR := CStar) g l).
Proof. intros H i j Hi Hj. unfold msum. apply lsum_ext. intros x Hx. apply H; auto. Qed.

Lemma msum_madd {X} n (f g : X -> mat C) l :
  meq n (msum (SR := CStar) (fun x => madd (f x) (g x)) l) (madd (msum (SR := CStar) f l) (msum (SR := CStar) g l)).
Proof. intros i j _ _. unfold msum, madd. apply lsum_add. Qed.

Lemma msum_mscale {X} n c (f : X -> mat C) l :
  meq n (msum (SR := CStar) (fun x => mscale c (f x)) l) (mscale (SR := CStar) c (msum (SR := CStar) f l)).
Proof. intros i j _ _. unfold msum, mscale. apply lsum_scale_l. Qed.

Lemma conv_S n A B k : meq n (mmul n A B) (mmul n B A) ->
  meq n (mscale (SR := CStar) (RtoC (INR (S k))) (conv n A B (S k))) (mmul n (madd A B) (conv n A B k)).
Proof.
  intros H.
  transitivity (madd (SR := CStar)
    (msum (SR := CStar) (fun j => mscale (SR := CStar) (RtoC (INR (S j))) (mmul n (eterm n A (S j)) (eterm n B (k - j)))) (seq 0 (S k)))
    (msum (SR := CStar) (fun j => mscale (SR := CStar) (RtoC (INR (S (k - j)))) (mmul n (eterm n A j) (eterm n B (S (k - j))))) (seq 0 (S k)))).
  - (* split S k = j + (S k - j) *)
    unfold conv. rewrite <- msum_mscale.
    transitivity (madd (SR := CStar)
      (msum (SR := CStar) (fun j => mscale (SR := CStar) (RtoC (INR j)) (mmul n (eterm n A j) (eterm n B (S k - j)))) (seq 0 (S (S k))))
      (msum (SR := CStar) (fun j => mscale (SR := CStar) (RtoC (INR (S k - j))) (mmul n (eterm n A j) (eterm n B (S k - j)))) (seq 0 (S (S k))))).
    + rewrite <- msum_madd. apply msum_ext'. intros j Hj. apply in_seq in Hj. intros i l _ _.
      unfold madd, mscale. cbn [kadd kmul CStar].
      replace (INR (S k)) with (INR j + INR (S k - j)) by (rewrite <- plus_INR; f_equal; lia).
      rewrite RtoC_plus. ring.
    + intros i l Hi Hl. unfold madd, msum. f_equal.
      * change (seq 0 (S (S k))) with (0%nat :: seq 1 (S k)). rewrite <- seq_shift, lsum_cons, lsum_map.
        unfold mscale at 1. change (INR 0) with 0. cbn [kadd kmul CStar].
        rewrite Cmult_0_l, Cplus_0_l. reflexivity.
      * rewrite lsum_seq_S. rewrite Nat.sub_diag. unfold mscale at 2. change (INR 0) with 0. cbn [kadd kmul CStar].
        rewrite Cmult_0_l, Cplus_0_r. apply lsum_ext. intros j Hj. apply in_seq in Hj.
        replace (S k - j)%nat with (S (k - j)) by lia. reflexivity.
  - unfold conv. rewrite mmul_msum_r. rewrite <- msum_madd. apply msum_ext'. intros j Hj. apply in_seq in Hj.
    rewrite mmul_add_l.
    rewrite <- mmul_scale_l, eterm_S. rewrite <- mmul_scale_r, eterm_S.
    rewrite !mmul_assoc. rewrite (eterm_comm n A B j H). reflexivity.
Qed.

Lemma eterm_add n A B k : meq n (mmul n A B) (mmul n B A) -> meq n (eterm n (madd (SR := CStar) A B) k) (conv n A B k).
Proof.
  intros H. induction k as [|k IH].
  - rewrite eterm_0. unfold conv. intros i j Hi Hj. unfold msum. simpl seq. rewrite lsum_cons, lsum_nil.
    assert (E : meq n (mmul n (eterm n A 0) (eterm n B (0 - 0))) mid).
    { simpl Nat.sub. rewrite !eterm_0. apply mmul_1_l. }
    rewrite (E i j) by auto. simpl kadd. simpl k0. ring.
  - apply (mscale_cancel n (RtoC (INR (S k)))).
    + intros E. apply RtoC_inj in E. revert E. apply not_0_INR. discriminate.
    + rewrite conv_S, eterm_S, IH by auto. reflexivity.
Qed.

Lemma expm_add n A B : meq n (mmul n A B) (mmul n B A) ->
  meq n (expm n (madd (SR := CStar) A B)) (mmul n (expm n A) (expm n B)).
Proof.
  intros H. apply expm_intro. intros i j Hi Hj.
  eapply cser_ext; [intros k; symmetry; apply (eterm_add n A B k H i j Hi Hj)|].
  unfold mmul at 1.
  eapply cser_ext; [|apply (cser_lsum (fun l k => lsum (SR := CStar) (fun q => Cmult (eterm n A q i l) (eterm n B (k - q) l j)) (seq 0 (S k)))
       (fun l => kmul (expm n A i l) (expm n B l j)))].
  - intros k. unfold conv, msum, mmul. cbn [kmul CStar]. rewrite lsum_swap. reflexivity.
  - intros l Hl. apply in_seq in Hl. cbn [kmul CStar].
    apply (cser_mult (fun k => eterm n A k i l) (fun k => eterm n B k l j)); try (apply expm_cser; lia); apply eterm_cabs; lia.
Qed.

Lemma mpow_zero n k : meq n (mpow (SR := CStar) n mzero (S k)) mzero.
Proof. intros i j _ _. simpl. unfold mmul. apply (lsum_zero (SR := CStar)). intros. unfold mzero. cbn [kmul k0 CStar]. ring. Qed.

Lemma is_series_single (x : R) : is_series (fun k => match k with O => x | _ => 0 end) x.
Proof.
  apply (is_series_decr_1 (fun k => match k with O => x | _ => 0 end) x).
  change (is_series (fun _ : nat => 0) (x + - x)). rewrite Rplus_opp_r. exact is_series_0.
Qed.

Lemma cser_single (z : C) : cser (fun k => match k with O => z | _ => RtoC 0 end) z.
Proof.
  split; [eapply is_series_extR; [|apply (is_series_single (Re z))]|eapply is_series_extR; [|apply (is_series_single (Im z))]];
  intros [|k]; reflexivity.
Qed.

Lemma expm_zero n : meq n (expm n mzero) mid.
Proof.
  apply expm_intro. intros i j Hi Hj. eapply cser_ext; [|apply (cser_single (mid i j))].
  intros [|k].
  - symmetry. apply eterm_0; auto.
  - unfold eterm, mscale. rewrite (mpow_zero n k i j Hi Hj). unfold mzero. simpl. ring.
Qed.

Lemma expm_inv n A : meq n (mmul n (expm n A) (expm n (mscale (SR := CStar) (RtoC (-1)) A))) mid.
Proof.
  rewrite <- expm_add.
  - rewrite <- expm_zero. apply expm_proper. intros i j _ _. unfold madd, mscale, mzero. simpl. apply C_ext; simpl; ring.
  - rewrite mmul_scale_l, mmul_scale_r. reflexivity.
Qed.

(** the exponential of an anti-Hermitian matrix is unitary *)
Lemma expm_unitary n A : meq n (madj A) (mscale (SR := CStar) (RtoC (-1)) A) -> unitary2 n (expm n A).
Proof.
  intros H. assert (E : meq n (madj (expm n A)) (expm n (mscale (SR := CStar) (RtoC (-1)) A))).
  { rewrite <- expm_adj. apply expm_proper; auto. }
  split; rewrite E; [|apply expm_inv].
  rewrite <- expm_add; [|rewrite mmul_scale_l, mmul_scale_r; reflexivity].
  rewrite <- expm_zero. apply expm_proper. intros i j _ _. unfold madd, mscale, mzero. simpl. apply C_ext; simpl; ring.
Qed.

(** ** Involutions: exp(-i t P) = cos t - i sin t P *)

Fixpoint uv (t : R) (k : nat) : R * R :=
  match k with O => (1, 0) | S k' => let (u, v) := uv t k' in (- t * v, t * u) end.

Lemma uv_parity t k : uv t (2 * k) = ((-1) ^ k * t ^ (2 * k), 0) /\ uv t (2 * k + 1) = (0, (-1) ^ k * t ^ (2 * k + 1)).
Proof.
  assert (H : forall k, uv t (2 * k) = ((-1) ^ k * t ^ (2 * k), 0)).
  { clear k. induction k as [|k IH]; [simpl; f_equal; ring|].
    replace (2 * S k)%nat with (S (S (2 * k))) by lia. cbn [uv]. rewrite IH. f_equal; [|ring].
    simpl. ring. }
  split; [apply H|]. replace (2 * k + 1)%nat with (S (2 * k)) by lia. cbn [uv]. rewrite H. f_equal; simpl; ring.
Qed.

Lemma cos_series t : is_series (fun k => fst (uv t k) / INR (fact k)) (cos t).
Proof.
  set (a := fun k => if Nat.even k then (-1) ^ (Nat.div2 k) / INR (fact k) else 0).
  assert (H : is_pseries a t (cos t + t * 0)).
  { apply is_pseries_odd_even.
    - apply is_pseries_R. apply is_series_Reals. pose proof (proj2_sig (exist_cos (Rsqr t))) as Hc.
      unfold cos. destruct (exist_cos (Rsqr t)) as [l Hl]. simpl in *.
      unfold infinite_sum, cos_in in *. intros eps He. destruct (Hl eps He) as [N HN]. exists N. intros m Hm.
      specialize (HN m Hm).
      replace (sum_f_R0 (fun k => a (k + (k + 0))%nat * (t * (t * 1)) ^ k) m) with (sum_f_R0 (fun i => cos_n i * (t²) ^ i) m); auto.
      apply sum_eq. intros i _. unfold cos_n, a. replace (i + (i + 0))%nat with (2 * i)%nat by lia.
      rewrite Nat.even_mul. simpl orb. rewrite Nat.div2_double. unfold Rsqr. rewrite Rmult_1_r. reflexivity.
    - apply is_pseries_R. eapply is_series_extR; [|apply is_series_0]. intros k. unfold a.
      rewrite Nat.even_add, Nat.even_mul. simpl. ring. }
  rewrite Rmult_0_r, Rplus_0_r in H. apply is_pseries_R in H.
  eapply is_series_extR; [|exact H]. intros k. cbn beta. unfold a.
  destruct (Nat.Even_or_Odd k) as [[m ->]|[m ->]]; destruct (uv_parity t m) as [E1 E2].
  - rewrite E1. rewrite Nat.even_mul, Nat.div2_double. cbn [fst Nat.even orb]. unfold Rdiv. ring.
  - rewrite E2. rewrite Nat.even_add, Nat.even_mul. cbn [fst Nat.even orb Bool.eqb]. unfold Rdiv. ring.
Qed.

Lemma sin_series t : is_series (fun k => snd (uv t k) / INR (fact k)) (sin t).
Proof.
  set (a := fun k => if Nat.even k then 0 else (-1) ^ (Nat.div2 k) / INR (fact k)).
  assert (Hs : exists l, sin t = t * l /\ is_pseries (fun n => a (2 * n + 1)%nat) (t ^ 2) l).
  { unfold sin. destruct (exist_sin (Rsqr t)) as [l Hl]. exists l. split; [auto|].
    apply is_pseries_R. apply is_series_Reals. unfold infinite_sum, sin_in in *.
    intros eps He. destruct (Hl eps He) as [N HN]. exists N. intros m Hm. specialize (HN m Hm).
    replace (sum_f_R0 (fun k => a (2 * k + 1)%nat * (t ^ 2) ^ k) m) with (sum_f_R0 (fun i => sin_n i * (t²) ^ i) m); auto.
    apply sum_eq. intros i _. unfold sin_n, a.
    rewrite Nat.even_add, Nat.even_mul. cbn [Nat.even orb Bool.eqb].
    replace (Nat.div2 (2 * i + 1)) with i by (rewrite Nat.add_1_r, Nat.div2_succ_double; auto).
    unfold Rsqr. simpl pow at 4. rewrite Rmult_1_r. reflexivity. }
  destruct Hs as (l & -> & Hl).
  assert (H : is_pseries a t (0 + t * l)).
  { apply is_pseries_odd_even; [|exact Hl].
    apply is_pseries_R. eapply is_series_extR; [|apply is_series_0]. intros k. unfold a.
    rewrite Nat.even_mul. simpl. ring. }
  rewrite Rplus_0_l in H. apply is_pseries_R in H.
  eapply is_series_extR; [|exact H]. intros k. cbn beta. unfold a.
  destruct (Nat.Even_or_Odd k) as [[m ->]|[m ->]]; destruct (uv_parity t m) as [E1 E2].
  - rewrite E1. rewrite Nat.even_mul. cbn [snd Nat.even orb]. unfold Rdiv. ring.
  - rewrite E2. rewrite Nat.even_add, Nat.even_mul. cbn [Nat.even orb Bool.eqb].
    replace (Nat.div2 (2 * m + 1)) with m by (rewrite Nat.add_1_r, Nat.div2_succ_double; auto).
    cbn [snd]. unfold Rdiv. ring.
Qed.

(** -i t, the factor in front of the generator *)
Definition mit (t : R) : C := Cmult (Copp Ci) (RtoC t).

Lemma mpow_involution n P t k : meq n (mmul n P P) mid ->
  meq n (mpow (SR := CStar) n (mscale (SR := CStar) (mit t) P) k)
    (madd (SR := CStar) (mscale (SR := CStar) (RtoC (fst (uv t k))) mid) (mscale (SR := CStar) (mit (snd (uv t k))) P)).
Proof.
  intros H. assert (Hi : Cmult Ci Ci = Copp (RtoC 1)) by (apply C_ext; simpl; ring).
  induction k as [|k IH].
  - intros i j _ _. cbn [mpow uv fst snd]. unfold madd, mscale, mit. cbn [kadd kmul CStar]. ring.
  - cbn [mpow]. rewrite IH. rewrite mmul_add_r, !mmul_scale_l, !mmul_scale_r, mmul_1_r, H.
    intros i j _ _. cbn [uv]. destruct (uv t k) as [u v]. cbn [fst snd]. unfold madd, mscale, mit. cbn [kadd kmul CStar].
    rewrite !RtoC_mult, RtoC_opp. ring [Hi].
Qed.

Lemma expm_involution n P t : meq n (mmul n P P) mid ->
  meq n (expm n (mscale (SR := CStar) (mit t) P))
    (madd (SR := CStar) (mscale (SR := CStar) (RtoC (cos t)) mid) (mscale (SR := CStar) (mit (sin t)) P)).
Proof.
  intros H. apply expm_intro. intros i j Hi Hj.
  eapply cser_ext.
  - intros k. symmetry. unfold eterm. unfold mscale at 1. rewrite (mpow_involution n P t k H i j Hi Hj). reflexivity.
  - assert (Hc : forall c s l m, is_series c l -> is_series s m -> forall x y : C,
       cser (fun k => Cplus (Cmult (RtoC (c k)) x) (Cmult (mit (s k)) y)) (Cplus (Cmult (RtoC l) x) (Cmult (mit m) y))).
    { intros c s l m H1 H2 x y. apply cser_plus.
      - eapply cser_ext with (a := fun k => Cmult x (RtoC (c k))); [intros; ring|].
        rewrite (Cmult_comm (RtoC l)). apply cser_scal. split; [exact H1|apply is_series_0].
      - eapply cser_ext with (a := fun k => Cmult (Cmult y (Copp Ci)) (RtoC (s k))); [intros; unfold mit; ring|].
        replace (Cmult (mit m) y) with (Cmult (Cmult y (Copp Ci)) (RtoC m)) by (unfold mit; ring).
        apply cser_scal. split; [exact H2|apply is_series_0]. }
    eapply cser_ext; [|apply (Hc _ _ _ _ (cos_series t) (sin_series t) (mid i j) (P i j))].
    intros k. unfold madd, mscale, mit. simpl. apply C_ext; simpl; field; apply INR_fact_neq_0.
Qed.
