(** Commutative rings with a conjugation and an imaginary unit. The Gaussian
    rationals and the complex numbers are the two instances used. *)
From Coq Require Import List Arith Lia Bool Permutation Ring Setoid.
Import ListNotations.

Class StarRing (K : Type) := {
  k0 : K; k1 : K; kadd : K -> K -> K; kmul : K -> K -> K; ksub : K -> K -> K;
  kopp : K -> K; kconj : K -> K; ki : K;
  k_ring : ring_theory k0 k1 kadd kmul ksub kopp eq;
  kconj_add : forall x y, kconj (kadd x y) = kadd (kconj x) (kconj y);
  kconj_mul : forall x y, kconj (kmul x y) = kmul (kconj x) (kconj y);
  kconj_conj : forall x, kconj (kconj x) = x;
  kconj_k1 : kconj k1 = k1;
  ki_sq : kmul ki ki = kopp k1;
  kconj_i : kconj ki = kopp ki
}.

Declare Scope K_scope.
Delimit Scope K_scope with K.
Notation "0" := k0 : K_scope.
Notation "1" := k1 : K_scope.
Notation "x + y" := (kadd x y) : K_scope.
Notation "x * y" := (kmul x y) : K_scope.
Notation "x - y" := (ksub x y) : K_scope.
Notation "- x" := (kopp x) : K_scope.

Section Sums.
Context {K : Type} {SR : StarRing K}.
Add Ring Kr : (@k_ring K SR).
Local Open Scope K_scope.

Lemma kconj_0 : kconj 0 = 0.
Proof.
  assert (H : kconj 0 = kconj 0 + kconj 0) by (rewrite <- kconj_add; f_equal; ring).
  assert (H2 : kconj 0 - kconj 0 = (kconj 0 + kconj 0) - kconj 0) by (rewrite <- H; auto).
  ring_simplify in H2. auto.
Qed.

Lemma kconj_opp x : kconj (- x) = - kconj x.
Proof.
  assert (H : kconj (- x) + kconj x = 0).
  { rewrite <- kconj_add. replace (- x + x) with 0 by ring. apply kconj_0. }
  replace (kconj (- x)) with (kconj (- x) + kconj x - kconj x) by ring.
  rewrite H. ring.
Qed.

Lemma kconj_sub x y : kconj (x - y) = kconj x - kconj y.
Proof.
  replace (x - y) with (x + - y) by ring. rewrite kconj_add, kconj_opp. ring.
Qed.

(** Sum of [f] over a list of indices. *)
Definition lsum {A} (f : A -> K) (l : list A) : K :=
  fold_right (fun x acc => f x + acc) 0 l.

Lemma lsum_nil {A} (f : A -> K) : lsum f [] = 0.
Proof. reflexivity. Qed.

Lemma lsum_cons {A} (f : A -> K) x l : lsum f (x :: l) = f x + lsum f l.
Proof. reflexivity. Qed.

Lemma lsum_ext {A} (f g : A -> K) l :
  (forall x, In x l -> f x = g x) -> lsum f l = lsum g l.
Proof.
  induction l as [|a l IH]; intros H; auto.
  rewrite !lsum_cons, (H a (or_introl eq_refl)), IH; auto.
  intros; apply H; right; auto.
Qed.

Lemma lsum_app {A} (f : A -> K) l1 l2 : lsum f (l1 ++ l2) = lsum f l1 + lsum f l2.
Proof.
  induction l1 as [|a l IH]; simpl.
  - ring_simplify; reflexivity.
  - rewrite IH; ring.
Qed.

Lemma lsum_add {A} (f g : A -> K) l :
  lsum (fun x => f x + g x) l = lsum f l + lsum g l.
Proof. induction l as [|a l IH]; simpl; [ring|rewrite IH; ring]. Qed.

Lemma lsum_sub {A} (f g : A -> K) l :
  lsum (fun x => f x - g x) l = lsum f l - lsum g l.
Proof. induction l as [|a l IH]; simpl; [ring|rewrite IH; ring]. Qed.

Lemma lsum_opp {A} (f : A -> K) l : lsum (fun x => - f x) l = - lsum f l.
Proof. induction l as [|a l IH]; simpl; [ring|rewrite IH; ring]. Qed.

Lemma lsum_scale_l {A} c (f : A -> K) l : lsum (fun x => c * f x) l = c * lsum f l.
Proof. induction l as [|a l IH]; simpl; [ring|rewrite IH; ring]. Qed.

Lemma lsum_scale_r {A} c (f : A -> K) l : lsum (fun x => f x * c) l = lsum f l * c.
Proof. induction l as [|a l IH]; simpl; [ring|rewrite IH; ring]. Qed.

Lemma lsum_zero {A} (f : A -> K) l : (forall x, In x l -> f x = 0) -> lsum f l = 0.
Proof.
  induction l as [|a l IH]; intros H; auto.
  rewrite lsum_cons, (H a (or_introl eq_refl)), IH; [ring|intros; apply H; right; auto].
Qed.

Lemma lsum_conj {A} (f : A -> K) l : kconj (lsum f l) = lsum (fun x => kconj (f x)) l.
Proof. induction l as [|a l IH]; simpl; [apply kconj_0|rewrite kconj_add, IH; auto]. Qed.

Lemma lsum_swap {A B} (f : A -> B -> K) l1 l2 :
  lsum (fun x => lsum (fun y => f x y) l2) l1 = lsum (fun y => lsum (fun x => f x y) l1) l2.
Proof.
  induction l1 as [|a l IH]; simpl.
  - symmetry; apply lsum_zero; auto.
  - rewrite IH, <- lsum_add; auto.
Qed.

Lemma lsum_map {A B} (g : A -> B) (f : B -> K) l : lsum f (map g l) = lsum (fun x => f (g x)) l.
Proof. induction l as [|a l IH]; simpl; [auto|rewrite IH; auto]. Qed.

Lemma lsum_flat_map {A B} (g : A -> list B) (f : B -> K) l :
  lsum f (flat_map g l) = lsum (fun x => lsum f (g x)) l.
Proof. induction l as [|a l IH]; simpl; [auto|rewrite lsum_app, IH; auto]. Qed.

Lemma lsum_perm {A} (f : A -> K) l1 l2 : Permutation l1 l2 -> lsum f l1 = lsum f l2.
Proof.
  induction 1; simpl; auto.
  - rewrite IHPermutation; auto.
  - ring.
  - congruence.
Qed.

Lemma lsum_filter {A} (p : A -> bool) (f : A -> K) l :
  lsum f (filter p l) = lsum (fun x => if p x then f x else 0) l.
Proof.
  induction l as [|a l IH]; simpl; auto.
  destruct (p a); simpl; rewrite IH; ring.
Qed.

(** A sum with a single surviving index. *)
Lemma lsum_single {A} (f : A -> K) l a :
  NoDup l -> In a l -> (forall x, In x l -> x <> a -> f x = 0) -> lsum f l = f a.
Proof.
  induction l as [|b l IH]; intros Hn Hi Hz; [inversion Hi|].
  inversion Hn as [|b' l' Hb Hn']; subst. simpl.
  destruct Hi as [->|Hi].
  - rewrite lsum_zero; [ring|]. intros x Hx; apply Hz; [right; auto|].
    intros ->; contradiction.
  - rewrite IH; auto.
    + rewrite (Hz b); [ring|left; auto|]. intros ->; contradiction.
    + intros; apply Hz; auto. right; auto.
Qed.

Lemma lsum_seq_S f n : lsum f (seq 0 (S n)) = lsum f (seq 0 n) + f n.
Proof.
  rewrite seq_S, lsum_app. simpl. ring.
Qed.

Lemma lsum_const_nat {A} (f : A -> K) c l : (forall x, In x l -> f x = c) ->
  lsum f l = lsum (fun _ => c) l.
Proof. intros; apply lsum_ext; auto. Qed.

(** Splitting an index below [n*m] into quotient and remainder. *)
Lemma lsum_divmod (f : nat -> nat -> K) n m :
  lsum (fun k => f (k / m)%nat (k mod m)%nat) (seq 0 (n * m)) =
  lsum (fun a => lsum (fun b => f a b) (seq 0 m)) (seq 0 n).
Proof.
  destruct (Nat.eq_dec m 0) as [->|Hm].
  { rewrite Nat.mul_0_r. simpl. symmetry; apply lsum_zero; auto. }
  induction n as [|n IH]; auto.
  rewrite lsum_seq_S, <- IH.
  replace (S n * m)%nat with (n * m + m)%nat by lia.
  rewrite seq_app, lsum_app. f_equal. simpl.
  assert (E : seq (n * m) m = map (fun b => n * m + b)%nat (seq 0 m)).
  { clear. generalize (n * m)%nat as a. intros a.
    rewrite <- (Nat.add_0_r a) at 1. generalize 0%nat as s.
    induction m as [|m IH]; intros s; simpl; auto.
    f_equal. replace (S (a + s)) with (a + S s)%nat by lia. apply IH. }
  rewrite E, lsum_map. apply lsum_ext. intros b Hb. apply in_seq in Hb.
  f_equal.
  - symmetry; apply Nat.div_unique with b; lia.
  - symmetry; apply Nat.mod_unique with n; lia.
Qed.

End Sums.
