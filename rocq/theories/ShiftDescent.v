(** A descent bound for functions that are trigonometric in each of their variables: real
    analysis used by PropShiftRun.v. Nothing here refers to the code. *)
From Coq Require Import Arith Lia Bool Reals Lra.
From Coquelicot Require Import Coquelicot.
From Verif Require Import StarRing Cplx MDeriv.
From Coq Require Import List.
Import ListNotations.
Local Open Scope R_scope.

(** the point with coordinate i replaced *)
Definition put (a : nat -> R) (i : nat) (x : R) : nat -> R := fun j => if Nat.eqb j i then x else a j.
Definition line (a h : nat -> R) (t : R) : nat -> R := fun i => a i + t * h i.

(** the mean value theorem, as two inequalities *)
Lemma slope_le (f g : R -> R) (K t : R) : 0 <= t -> (forall x, is_derive f x (g x)) -> (forall x, 0 <= x <= t -> g x <= K) -> f t <= f 0 + K * t.
Proof.
  intros Ht Hd Hg. destruct (MVT_gen f 0 t g) as (c & [H1 H2] & E).
  - intros x _. apply Hd.
  - intros x _. apply continuity_pt_filterlim. apply (ex_derive_continuous (K := R_AbsRing) (V := R_NormedModule) f x). exists (g x). apply Hd.
  - rewrite Rmin_left in H1 by exact Ht. rewrite Rmax_right in H2 by exact Ht. specialize (Hg c (conj H1 H2)).
    assert (g c * (t - 0) <= K * t) by (rewrite Rminus_0_r; apply Rmult_le_compat_r; assumption). lra.
Qed.

Section Descent.
Variables (E : (nat -> R) -> R) (L : list nat) (B : R).
Hypothesis Hext : forall a b, (forall i, a i = b i) -> E a = E b.
Hypothesis Hnd : NoDup L.
Hypothesis Htrig : forall a i, In i L -> exists al be ga, forall x, E (put a i x) = al + be * cos x + ga * sin x.
Hypothesis Hder : forall a, exists cs : nat -> R, forall h, is_derive (fun t => E (line a h t)) 0 (rsum (fun i => h i * cs i) L).
Hypothesis HB : forall a, Rabs (E a) <= B.

Definition slope (a : nat -> R) (i : nat) : R := (E (put a i (a i + PI / 2)) - E (put a i (a i - PI / 2))) / 2.

Lemma rsum_unit i (cs : nat -> R) M : NoDup M -> In i M -> rsum (fun j => (if Nat.eqb j i then 1 else 0) * cs j) M = cs i.
Proof.
  induction 1 as [|j M Hj Hn IH]; intros Hi; [destruct Hi|]. cbn. fold (rsum (fun j => (if Nat.eqb j i then 1 else 0) * cs j) M). destruct Hi as [->|Hi].
  - rewrite Nat.eqb_refl. rewrite (rsum_ext _ (fun _ => 0)); [rewrite rsum_const0; ring|]. intros j Hj'. destruct (Nat.eqb_spec j i) as [->|]; [contradiction|ring].
  - destruct (Nat.eqb_spec j i) as [->|]; [contradiction|]. rewrite IH by exact Hi. ring.
Qed.

(** the partial derivatives are the shifted differences *)
Lemma slope_deriv a h : is_derive (fun t => E (line a h t)) 0 (rsum (fun i => h i * slope a i) L).
Proof.
  destruct (Hder a) as (cs & D). replace (rsum (fun i => h i * slope a i) L) with (rsum (fun i => h i * cs i) L); [apply D|].
  apply rsum_ext. intros i Hi. f_equal. set (u := fun j => if Nat.eqb j i then 1 else 0). specialize (D u). unfold u in D at 2. rewrite rsum_unit in D by assumption.
  destruct (Htrig a i Hi) as (al & be & ga & T).
  assert (D' : is_derive (fun t => al + be * cos (a i + t) + ga * sin (a i + t)) 0 (cs i)).
  { eapply is_derive_extR; [|reflexivity|exact D]. intros t. rewrite <- T. apply Hext. intros j. unfold line, put, u. destruct (Nat.eqb_spec j i) as [->|]; ring. }
  assert (D2 : is_derive (fun t => al + be * cos (a i + t) + ga * sin (a i + t)) 0 (- be * sin (a i) + ga * cos (a i))).
  { auto_derive; [exact I|]. rewrite Rplus_0_r. ring. }
  rewrite <- (is_derive_unique _ _ _ D'), (is_derive_unique _ _ _ D2).
  unfold slope. rewrite !T, cos_plus, sin_plus, cos_minus, sin_minus, cos_PI2, sin_PI2. field.
Qed.

Lemma line_deriv a h t : is_derive (fun t => E (line a h t)) t (rsum (fun i => h i * slope (line a h t) i) L).
Proof.
  pose proof (slope_deriv (line a h t) h) as D.
  eapply (is_derive_extR (fun y => (fun s => E (line (line a h t) h s)) (y - t)) _ t (1 * _)); [| |apply (is_derive_comp (fun s => E (line (line a h t) h s)) (fun y => y - t) t _ 1)].
  - intros y. apply Hext. intros i. unfold line. ring.
  - apply Rmult_1_l.
  - rewrite Rminus_diag_eq by reflexivity. exact D.
  - auto_derive; [exact I|]. change (@eq R 1 1). reflexivity.
Qed.

Lemma slope_bound a i : Rabs (slope a i) <= B.
Proof.
  unfold slope. pose proof (HB (put a i (a i + PI / 2))) as H1. pose proof (HB (put a i (a i - PI / 2))) as H2.
  apply Rabs_le_between in H1. apply Rabs_le_between in H2. apply Rabs_le_between. lra.
Qed.

Definition len (h : nat -> R) : R := rsum (fun i => Rabs (h i)) L.
Lemma len_pos h : 0 <= len h.
Proof. apply rsum_nonneg. intros. apply Rabs_pos. Qed.
Lemma B_pos : 0 <= B.
Proof. pose proof (HB (fun _ => 0)). pose proof (Rabs_pos (E (fun _ => 0))). lra. Qed.

Lemma rsum_prod_le (h c : nat -> R) K M : (forall i, In i M -> Rabs (c i) <= K) -> rsum (fun i => h i * c i) M <= K * rsum (fun i => Rabs (h i)) M.
Proof.
  intros H. rewrite <- rsum_scale. apply rsum_le. intros i Hi. eapply Rle_trans; [apply Rle_abs|]. rewrite Rabs_mult, Rmult_comm. apply Rmult_le_compat_r; [apply Rabs_pos|auto].
Qed.

(** the function changes by at most B times the length of the step *)
Lemma lipschitz a h t : 0 <= t -> Rabs (E (line a h t) - E a) <= B * len h * t.
Proof.
  assert (G : forall a h t, 0 <= t -> E (line a h t) <= E a + B * len h * t).
  { clear a h t. intros a h t Ht. rewrite (Hext a (line a h 0)) at 1 by (intros i; unfold line; ring).
    apply (slope_le (fun t => E (line a h t)) (fun t => rsum (fun i => h i * slope (line a h t) i) L)); [exact Ht|apply line_deriv|].
    intros x _. apply rsum_prod_le. intros i _. apply slope_bound. }
  intros Ht. apply Rabs_le_between. split.
  - pose proof (G (line a h t) (fun i => - h i) t Ht) as H. rewrite (Hext (line (line a h t) (fun i => - h i) t) a) in H by (intros i; unfold line; ring).
    assert (Q : len (fun i => - h i) = len h) by (apply rsum_ext; intros; apply Rabs_Ropp). rewrite Q in H. lra.
  - pose proof (G a h t Ht). lra.
Qed.

Lemma put_line a h t i s : E (put (line a h t) i (line a h t i + s)) = E (line (put a i (a i + s)) h t).
Proof. apply Hext. intros j. unfold put, line. destruct (Nat.eqb_spec j i) as [->|]; ring. Qed.

Lemma slope_lipschitz a h t i : 0 <= t -> Rabs (slope (line a h t) i - slope a i) <= B * len h * t.
Proof.
  intros Ht. unfold slope. unfold Rminus at 3 5. rewrite !put_line.
  pose proof (lipschitz (put a i (a i + PI / 2)) h t Ht) as H1. pose proof (lipschitz (put a i (a i + - (PI / 2))) h t Ht) as H2.
  apply Rabs_le_between in H1. apply Rabs_le_between in H2. apply Rabs_le_between. lra.
Qed.

(** the second-order bound *)
Lemma descent a h t : 0 <= t -> E (line a h t) <= E a + t * rsum (fun i => h i * slope a i) L + t ^ 2 / 2 * (B * len h ^ 2).
Proof.
  intros Ht. set (g0 := rsum (fun i => h i * slope a i) L).
  set (f := fun t => E (line a h t) - t * g0 - t ^ 2 / 2 * (B * len h ^ 2)).
  assert (D : forall x, is_derive f x (rsum (fun i => h i * slope (line a h x) i) L - g0 - x * (B * len h ^ 2))).
  { intros x. unfold f.
    apply (is_derive_extR (fun t => minus (minus (E (line a h t)) (t * g0)) (t ^ 2 / 2 * (B * len h ^ 2))) _ x
      (minus (minus (rsum (fun i => h i * slope (line a h x) i) L) g0) (x * (B * len h ^ 2)))); [intros y; reflexivity|reflexivity|].
    apply (is_derive_minus (K := R_AbsRing) (V := R_NormedModule)); [apply (is_derive_minus (K := R_AbsRing) (V := R_NormedModule)); [apply line_deriv|]|]; auto_derive; try exact I; match goal with |- ?a = ?b => change (@eq R a b) end; field. }
  pose proof (slope_le f _ 0 t Ht D) as H. assert (Z : f t <= f 0 + 0 * t).
  { apply H. intros x [Hx _]. unfold g0.
    assert (Q : rsum (fun i => h i * slope (line a h x) i) L - rsum (fun i => h i * slope a i) L <= B * len h * x * len h).
    { replace (rsum (fun i => h i * slope (line a h x) i) L - rsum (fun i => h i * slope a i) L) with (rsum (fun i => h i * (slope (line a h x) i - slope a i)) L).
      - apply rsum_prod_le. intros i _. apply slope_lipschitz. exact Hx.
      - rewrite (rsum_ext _ (fun i => h i * slope (line a h x) i + -1 * (h i * slope a i))) by (intros; ring). rewrite rsum_plus, rsum_scale. ring. }
    lra. }
  unfold f in Z. rewrite (Hext (line a h 0) a) in Z by (intros i; unfold line; ring). lra.
Qed.
End Descent.

(** (|x_1| + ... + |x_m|)^2 <= m (x_1^2 + ... + x_m^2) *)
Lemma sum_square {A} (f : A -> R) l : rsum (fun x => Rabs (f x)) l ^ 2 <= INR (List.length l) * rsum (fun x => f x ^ 2) l.
Proof.
  induction l as [|a l IH]; [cbn; lra|]. cbn [List.length]. rewrite S_INR. set (m := INR (List.length l)) in *.
  change (rsum (fun x => Rabs (f x)) (a :: l)) with (Rabs (f a) + rsum (fun x => Rabs (f x)) l). change (rsum (fun x => f x ^ 2) (a :: l)) with (f a ^ 2 + rsum (fun x => f x ^ 2) l).
  set (S := rsum (fun x => Rabs (f x)) l) in *. set (Q := rsum (fun x => f x ^ 2) l) in *. rewrite <- (pow2_abs (f a)). set (x := Rabs (f a)).
  assert (Hm : 0 <= m) by (apply pos_INR). assert (HQ : 0 <= Q) by (apply rsum_nonneg; intros; apply pow2_ge_0).
  assert (HS : 0 <= S) by (apply rsum_nonneg; intros; apply Rabs_pos). assert (Hx : 0 <= x) by (apply Rabs_pos).
  (* 2 x S <= m x^2 + Q *)
  assert (G : 2 * x * S <= m * x ^ 2 + Q).
  { destruct (Req_dec m 0) as [Z|Z].
    - rewrite Z in *. assert (S = 0) by nra. nra.
    - assert (0 < m) by lra. assert (0 <= (m * x - S) ^ 2) by apply pow2_ge_0. assert (2 * (m * x) * S <= m * (m * x ^ 2 + Q)) by nra. nra. }
  nra.
Qed.
