(** Square matrices as functions of two indices, with an explicit size. *)
From Coq Require Import List Arith Lia Bool Permutation Ring Setoid Morphisms.
From Verif Require Import StarRing.
Import ListNotations.

Section Mat.
Context {K : Type} {SR : StarRing K}.
Add Ring Kr : (@k_ring K SR).
Local Open Scope K_scope.

Definition mat := nat -> nat -> K.

(** Equality of the entries of two n x n matrices. *)
Definition meq (n : nat) (A B : mat) : Prop :=
  forall i j, (i < n)%nat -> (j < n)%nat -> A i j = B i j.

Definition mzero : mat := fun _ _ => 0.
Definition mid : mat := fun i j => if Nat.eqb i j then 1 else 0.
Definition madd (A B : mat) : mat := fun i j => A i j + B i j.
Definition msub (A B : mat) : mat := fun i j => A i j - B i j.
Definition mscale (c : K) (A : mat) : mat := fun i j => c * A i j.
Definition mmul (n : nat) (A B : mat) : mat :=
  fun i j => lsum (fun k => A i k * B k j) (seq 0 n).
(** conjugate transpose *)
Definition madj (A : mat) : mat := fun i j => kconj (A j i).
Definition mtrace (n : nat) (A : mat) : K := lsum (fun i => A i i) (seq 0 n).
(** Kronecker product, second factor [d x d] (numpy.kron) *)
Definition kron (d : nat) (A B : mat) : mat :=
  fun i j => A (i / d)%nat (j / d)%nat * B (i mod d)%nat (j mod d)%nat.
(** sum of a list of matrices *)
Definition msum {A} (f : A -> mat) (l : list A) : mat := fun i j => lsum (fun x => f x i j) l.

Definition unitary (n : nat) (U : mat) : Prop := meq n (mmul n (madj U) U) mid.
Definition hermitian (n : nat) (A : mat) : Prop := meq n (madj A) A.

(** ** Equivalence and congruence *)

Global Instance meq_equiv n : Equivalence (meq n).
Proof.
  split.
  - intros A i j _ _; reflexivity.
  - intros A B H i j Hi Hj; symmetry; auto.
  - intros A B C H1 H2 i j Hi Hj; rewrite H1, H2; auto.
Qed.

Global Instance madd_proper n : Proper (meq n ==> meq n ==> meq n) madd.
Proof. intros A A' HA B B' HB i j Hi Hj; unfold madd; rewrite HA, HB; auto. Qed.
Global Instance msub_proper n : Proper (meq n ==> meq n ==> meq n) msub.
Proof. intros A A' HA B B' HB i j Hi Hj; unfold msub; rewrite HA, HB; auto. Qed.
Global Instance mscale_proper n : Proper (eq ==> meq n ==> meq n) mscale.
Proof. intros c c' -> B B' HB i j Hi Hj; unfold mscale; rewrite HB; auto. Qed.
Global Instance mmul_proper n : Proper (meq n ==> meq n ==> meq n) (mmul n).
Proof.
  intros A A' HA B B' HB i j Hi Hj; unfold mmul; apply lsum_ext.
  intros k Hk; apply in_seq in Hk. rewrite HA, HB by lia; auto.
Qed.
Global Instance madj_proper n : Proper (meq n ==> meq n) madj.
Proof. intros A A' HA i j Hi Hj; unfold madj; rewrite HA; auto. Qed.
Global Instance mtrace_proper n : Proper (meq n ==> eq) (mtrace n).
Proof.
  intros A A' HA; unfold mtrace; apply lsum_ext.
  intros k Hk; apply in_seq in Hk. apply HA; lia.
Qed.
Global Instance unitary_proper n : Proper (meq n ==> iff) (unitary n).
Proof.
  intros A A' HA. unfold unitary. rewrite HA. reflexivity.
Qed.
Global Instance hermitian_proper n : Proper (meq n ==> iff) (hermitian n).
Proof.
  intros A A' HA. unfold hermitian. rewrite HA. reflexivity.
Qed.

(** ** Ring laws *)

Lemma mmul_assoc n A B C : meq n (mmul n A (mmul n B C)) (mmul n (mmul n A B) C).
Proof.
  intros i j Hi Hj. unfold mmul.
  rewrite (lsum_ext _ (fun k => lsum (fun l => A i k * (B k l * C l j)) (seq 0 n))).
  2: { intros; rewrite <- lsum_scale_l; auto. }
  rewrite lsum_swap. apply lsum_ext. intros l Hl.
  rewrite <- lsum_scale_r. apply lsum_ext. intros; ring.
Qed.

Lemma mid_neq i j : i <> j -> mid i j = 0.
Proof. unfold mid; intros H; apply Nat.eqb_neq in H; rewrite H; auto. Qed.
Lemma mid_eq i : mid i i = 1.
Proof. unfold mid; rewrite Nat.eqb_refl; auto. Qed.

Lemma mmul_1_l n A : meq n (mmul n mid A) A.
Proof.
  intros i j Hi Hj. unfold mmul.
  rewrite (lsum_single _ _ i).
  - rewrite mid_eq; ring.
  - apply seq_NoDup.
  - apply in_seq; lia.
  - intros x _ Hx; rewrite mid_neq; auto; ring.
Qed.

Lemma mmul_1_r n A : meq n (mmul n A mid) A.
Proof.
  intros i j Hi Hj. unfold mmul.
  rewrite (lsum_single _ _ j).
  - rewrite mid_eq; ring.
  - apply seq_NoDup.
  - apply in_seq; lia.
  - intros x _ Hx; rewrite mid_neq; auto; ring.
Qed.

Lemma mmul_add_l n A B C : meq n (mmul n (madd A B) C) (madd (mmul n A C) (mmul n B C)).
Proof.
  intros i j _ _. unfold mmul, madd. rewrite <- lsum_add. apply lsum_ext; intros; ring.
Qed.
Lemma mmul_add_r n A B C : meq n (mmul n A (madd B C)) (madd (mmul n A B) (mmul n A C)).
Proof.
  intros i j _ _. unfold mmul, madd. rewrite <- lsum_add. apply lsum_ext; intros; ring.
Qed.
Lemma mmul_sub_l n A B C : meq n (mmul n (msub A B) C) (msub (mmul n A C) (mmul n B C)).
Proof.
  intros i j _ _. unfold mmul, msub. rewrite <- lsum_sub. apply lsum_ext; intros; ring.
Qed.
Lemma mmul_sub_r n A B C : meq n (mmul n A (msub B C)) (msub (mmul n A B) (mmul n A C)).
Proof.
  intros i j _ _. unfold mmul, msub. rewrite <- lsum_sub. apply lsum_ext; intros; ring.
Qed.
Lemma mmul_scale_l n c A B : meq n (mmul n (mscale c A) B) (mscale c (mmul n A B)).
Proof.
  intros i j _ _. unfold mmul, mscale. rewrite <- lsum_scale_l. apply lsum_ext; intros; ring.
Qed.
Lemma mmul_scale_r n c A B : meq n (mmul n A (mscale c B)) (mscale c (mmul n A B)).
Proof.
  intros i j _ _. unfold mmul, mscale. rewrite <- lsum_scale_l. apply lsum_ext; intros; ring.
Qed.
Lemma mmul_msum_l n {X} (f : X -> mat) l B :
  meq n (mmul n (msum f l) B) (msum (fun x => mmul n (f x) B) l).
Proof.
  intros i j _ _. unfold mmul, msum.
  rewrite lsum_swap. apply lsum_ext. intros k _. rewrite <- lsum_scale_r. auto.
Qed.
Lemma mmul_msum_r n {X} (f : X -> mat) l B :
  meq n (mmul n B (msum f l)) (msum (fun x => mmul n B (f x)) l).
Proof.
  intros i j _ _. unfold mmul, msum.
  rewrite lsum_swap. apply lsum_ext. intros k _. rewrite <- lsum_scale_l. auto.
Qed.

(** ** Adjoint *)

Lemma madj_mul n A B : meq n (madj (mmul n A B)) (mmul n (madj B) (madj A)).
Proof.
  intros i j _ _. unfold madj, mmul. rewrite lsum_conj. apply lsum_ext.
  intros; rewrite kconj_mul; ring.
Qed.
Lemma madj_adj A i j : madj (madj A) i j = A i j.
Proof. unfold madj; apply kconj_conj. Qed.
Lemma madj_adj_eq n A : meq n (madj (madj A)) A.
Proof. intros i j _ _; apply madj_adj. Qed.
Lemma madj_id n : meq n (madj mid) mid.
Proof.
  intros i j _ _; unfold madj, mid. rewrite Nat.eqb_sym.
  destruct (Nat.eqb i j); [apply kconj_k1|apply kconj_0].
Qed.
Lemma madj_scale n c A : meq n (madj (mscale c A)) (mscale (kconj c) (madj A)).
Proof. intros i j _ _; unfold madj, mscale; apply kconj_mul. Qed.
Lemma madj_add n A B : meq n (madj (madd A B)) (madd (madj A) (madj B)).
Proof. intros i j _ _; unfold madj, madd; apply kconj_add. Qed.
Lemma madj_sub n A B : meq n (madj (msub A B)) (msub (madj A) (madj B)).
Proof. intros i j _ _; unfold madj, msub; apply kconj_sub. Qed.

(** ** Trace *)

Lemma mtrace_mul_comm n A B : mtrace n (mmul n A B) = mtrace n (mmul n B A).
Proof.
  unfold mtrace, mmul. rewrite lsum_swap. apply lsum_ext; intros.
  apply lsum_ext; intros; ring.
Qed.
Lemma mtrace_sub n A B : mtrace n (msub A B) = mtrace n A - mtrace n B.
Proof. unfold mtrace, msub; apply lsum_sub. Qed.
Lemma mtrace_add n A B : mtrace n (madd A B) = mtrace n A + mtrace n B.
Proof. unfold mtrace, madd; apply lsum_add. Qed.
Lemma mtrace_scale n c A : mtrace n (mscale c A) = c * mtrace n A.
Proof. unfold mtrace, mscale; apply lsum_scale_l. Qed.

(** ** Kronecker product *)

Lemma divmod_lt i n d : (i < n * d)%nat -> (i / d < n)%nat /\ (i mod d < d)%nat.
Proof.
  intros H. assert (d <> 0)%nat by (intros ->; lia). split.
  - apply Nat.div_lt_upper_bound; lia.
  - apply Nat.mod_upper_bound; auto.
Qed.

Lemma kron_mul n d A B C D :
  meq (n * d) (mmul (n * d) (kron d A B) (kron d C D)) (kron d (mmul n A C) (mmul d B D)).
Proof.
  intros i j Hi Hj. unfold mmul, kron.
  rewrite (lsum_divmod (fun a b => A (i / d)%nat a * B (i mod d)%nat b *
                                   (C a (j / d)%nat * D b (j mod d)%nat))).
  rewrite <- lsum_scale_r. apply lsum_ext. intros a _.
  rewrite <- lsum_scale_l. apply lsum_ext. intros; ring.
Qed.

Lemma kron_id n d : (0 < d)%nat -> meq (n * d) (kron d mid mid) mid.
Proof.
  intros Hd i j Hi Hj. unfold kron.
  destruct (Nat.eq_dec i j) as [->|Hne].
  - rewrite !mid_eq; ring.
  - rewrite (mid_neq i j) by auto.
    destruct (Nat.eq_dec (i / d) (j / d)) as [E|E]; [|rewrite (mid_neq _ _ E); ring].
    destruct (Nat.eq_dec (i mod d) (j mod d)) as [E2|E2]; [|rewrite (mid_neq _ _ E2); ring].
    exfalso; apply Hne. rewrite (Nat.div_mod i d), (Nat.div_mod j d) by lia. congruence.
Qed.

Lemma kron_adj n d A B : meq (n * d) (madj (kron d A B)) (kron d (madj A) (madj B)).
Proof. intros i j _ _; unfold madj, kron; apply kconj_mul. Qed.

Lemma kron_trace n d A B : mtrace (n * d) (kron d A B) = mtrace n A * mtrace d B.
Proof.
  unfold mtrace, kron.
  rewrite (lsum_divmod (fun a b => A a a * B b b)).
  rewrite <- lsum_scale_r. apply lsum_ext; intros. apply lsum_scale_l.
Qed.

Lemma kron_proper n d A A' B B' :
  meq n A A' -> meq d B B' -> meq (n * d) (kron d A B) (kron d A' B').
Proof.
  intros HA HB i j Hi Hj. unfold kron.
  destruct (divmod_lt _ _ _ Hi), (divmod_lt _ _ _ Hj). rewrite HA, HB; auto.
Qed.

Lemma kron_scale_l n d c A B : meq n (kron d (mscale c A) B) (mscale c (kron d A B)).
Proof. intros i j _ _; unfold kron, mscale; ring. Qed.
Lemma kron_scale_r n d c A B : meq n (kron d A (mscale c B)) (mscale c (kron d A B)).
Proof. intros i j _ _; unfold kron, mscale; ring. Qed.

(** ** Unitary and Hermitian matrices *)

Lemma unitary_mul n U V : unitary n U -> unitary n V -> unitary n (mmul n U V).
Proof.
  unfold unitary; intros HU HV.
  rewrite madj_mul, <- mmul_assoc, (mmul_assoc n (madj U)), HU, mmul_1_l. auto.
Qed.

Lemma unitary_id n : unitary n mid.
Proof. unfold unitary; rewrite madj_id, mmul_1_l; reflexivity. Qed.

End Mat.
Arguments mat K : clear implicits.
