(** Reference semantics of Pauli strings: the 2x2 Pauli matrices and their
    Kronecker products. Independent of the modelled code. *)
From Coq Require Import List Arith Lia Bool Permutation Ring Setoid Morphisms.
From Verif Require Import StarRing Matrix.
Import ListNotations.

Section PauliSpec.
Context {K : Type} {SR : StarRing K}.
Add Ring Kr : (@k_ring K SR).
Local Open Scope K_scope.

(** The four Pauli matrices, numbered I, X, Y, Z. *)
Definition sigma (g : nat) : mat K :=
  match g with
  | 0%nat => mid
  | 1%nat => fun i j => match i, j with 0%nat, 1%nat | 1%nat, 0%nat => 1 | _, _ => 0 end
  | 2%nat => fun i j => match i, j with
                        | 0%nat, 1%nat => - ki | 1%nat, 0%nat => ki | _, _ => 0 end
  | _ => fun i j => match i, j with 0%nat, 0%nat => 1 | 1%nat, 1%nat => - (1) | _, _ => 0 end
  end.

(** Kronecker product of a list of 2x2 matrices, first factor most significant. *)
Fixpoint kronl (l : list (mat K)) : mat K :=
  match l with
  | [] => mid
  | A :: r => kron (2 ^ length r) A (kronl r)
  end.

(** The operator with letter [g] on each site of the list. *)
Definition pword (l : list nat) : mat K := kronl (map sigma l).

(** Product of a list of scalars. *)
Definition kprod {A} (f : A -> K) (l : list A) : K := fold_right (fun x acc => f x * acc) 1 l.

Lemma kprod_perm {A} (f : A -> K) l1 l2 : Permutation l1 l2 -> kprod f l1 = kprod f l2.
Proof. induction 1; simpl; auto; try congruence. ring. Qed.

Lemma kprod_ext {A} (f g : A -> K) l : (forall x, In x l -> f x = g x) -> kprod f l = kprod g l.
Proof.
  induction l as [|a l IH]; intros H; auto. simpl.
  rewrite (H a (or_introl eq_refl)), IH; auto. intros; apply H; right; auto.
Qed.

Lemma kprod_app {A} (f : A -> K) l1 l2 : kprod f (l1 ++ l2) = kprod f l1 * kprod f l2.
Proof. induction l1 as [|a l IH]; simpl; [ring|rewrite IH; ring]. Qed.

Lemma kprod_map {A B} (g : A -> B) (f : B -> K) l : kprod f (map g l) = kprod (fun x => f (g x)) l.
Proof. induction l as [|a l IH]; simpl; [auto|rewrite IH; auto]. Qed.

Lemma kprod_1 {A} (f : A -> K) l : (forall x, In x l -> f x = 1) -> kprod f l = 1.
Proof.
  induction l as [|a l IH]; intros H; auto. simpl.
  rewrite (H a (or_introl eq_refl)), IH; [ring|]. intros; apply H; right; auto.
Qed.

Lemma kprod_mul {A} (f g : A -> K) l : kprod (fun x => f x * g x) l = kprod f l * kprod g l.
Proof. induction l as [|a l IH]; simpl; [ring|rewrite IH; ring]. Qed.

Lemma pow2_pos n : (0 < 2 ^ n)%nat.
Proof. induction n; simpl; lia. Qed.

Lemma pow2_S n : (2 ^ S n = 2 * 2 ^ n)%nat.
Proof. reflexivity. Qed.

Lemma kronl_mul {A} (f g : A -> mat K) l :
  meq (2 ^ length l) (mmul (2 ^ length l) (kronl (map f l)) (kronl (map g l)))
      (kronl (map (fun x => mmul 2 (f x) (g x)) l)).
Proof.
  induction l as [|a l IH]; cbn [map kronl length].
  - rewrite mmul_1_l. reflexivity.
  - rewrite !map_length, pow2_S, kron_mul. apply kron_proper; auto. reflexivity.
Qed.

Lemma kronl_ext {A} (f g : A -> mat K) l :
  (forall x, In x l -> meq 2 (f x) (g x)) ->
  meq (2 ^ length l) (kronl (map f l)) (kronl (map g l)).
Proof.
  induction l as [|a l IH]; intros H; cbn [map kronl length].
  - reflexivity.
  - rewrite !map_length, pow2_S. apply kron_proper.
    + apply H; left; auto.
    + apply IH. intros; apply H; right; auto.
Qed.

Lemma kronl_scale {A} (c : A -> K) (f : A -> mat K) l :
  meq (2 ^ length l) (kronl (map (fun x => mscale (c x) (f x)) l))
      (mscale (kprod c l) (kronl (map f l))).
Proof.
  induction l as [|a l IH]; cbn [map kronl length kprod fold_right].
  - intros i j _ _; unfold mscale; ring.
  - rewrite !map_length, pow2_S.
    transitivity (kron (2 ^ length l) (mscale (c a) (f a)) (mscale (kprod c l) (kronl (map f l)))).
    { apply kron_proper; [reflexivity|]. apply IH. }
    intros i j _ _; unfold kron, mscale, kprod; ring.
Qed.

Lemma kronl_adj {A} (f : A -> mat K) l :
  meq (2 ^ length l) (madj (kronl (map f l))) (kronl (map (fun x => madj (f x)) l)).
Proof.
  induction l as [|a l IH]; cbn [map kronl length].
  - apply madj_id.
  - rewrite !map_length, pow2_S, kron_adj. apply kron_proper; auto. reflexivity.
Qed.

Lemma kronl_id {A} (l : list A) : meq (2 ^ length l) (kronl (map (fun _ => mid) l)) mid.
Proof.
  induction l as [|a l IH]; cbn [map kronl length].
  - reflexivity.
  - rewrite !map_length, pow2_S.
    transitivity (kron (2 ^ length l) mid mid).
    + apply kron_proper; auto. reflexivity.
    + apply kron_id, pow2_pos.
Qed.

(** Checking a statement about 2x2 matrices entry by entry. *)
Lemma meq2_intro (A B : mat K) :
  A 0%nat 0%nat = B 0%nat 0%nat -> A 0%nat 1%nat = B 0%nat 1%nat ->
  A 1%nat 0%nat = B 1%nat 0%nat -> A 1%nat 1%nat = B 1%nat 1%nat -> meq 2 A B.
Proof.
  intros H1 H2 H3 H4 i j Hi Hj.
  destruct i as [|[|i]]; [| |lia]; destruct j as [|[|j]]; try lia; auto.
Qed.

(** Product table of the Pauli matrices: sigma g * sigma h = phase g h * sigma (g xor h). *)
Definition gidx (g h : nat) : nat :=
  match g, h with
  | 0, h => h | g, 0 => g
  | 1, 1 => 0 | 1, 2 => 3 | 1, 3 => 2
  | 2, 1 => 3 | 2, 2 => 0 | 2, 3 => 1
  | 3, 1 => 2 | 3, 2 => 1 | _, _ => 0
  end%nat.
Definition gphase (g h : nat) : K :=
  match g, h with
  | 1%nat, 2%nat => ki | 2%nat, 1%nat => - ki
  | 2%nat, 3%nat => ki | 3%nat, 2%nat => - ki
  | 3%nat, 1%nat => ki | 1%nat, 3%nat => - ki
  | _, _ => 1
  end.

Lemma sigma_mul g h : (g <= 3)%nat -> (h <= 3)%nat ->
  meq 2 (mmul 2 (sigma g) (sigma h)) (mscale (gphase g h) (sigma (gidx g h))).
Proof.
  intros Hg Hh.
  pose proof ki_sq as Hi.
  destruct g as [|[|[|[|g]]]]; try lia;
    destruct h as [|[|[|[|h]]]]; try lia;
    apply meq2_intro; unfold mmul, mscale, sigma, gphase, gidx, mid, lsum; simpl;
    ring [Hi].
Qed.

Lemma sigma_herm g : (g <= 3)%nat -> meq 2 (madj (sigma g)) (sigma g).
Proof.
  intros Hg. pose proof (@kconj_0 K SR) as H0. pose proof (@kconj_k1 K SR) as H1.
  pose proof (@kconj_i K SR) as H2.
  destruct g as [|[|[|[|g]]]]; try lia; apply meq2_intro;
    unfold madj, sigma, mid; simpl; rewrite ?kconj_opp, ?H0, ?H1, ?H2; try reflexivity; ring.
Qed.

Lemma gidx_le g h : (g <= 3)%nat -> (h <= 3)%nat -> (gidx g h <= 3)%nat.
Proof.
  intros Hg Hh.
  destruct g as [|[|[|[|g]]]]; try lia; destruct h as [|[|[|[|h]]]]; simpl; lia.
Qed.

Lemma sigma_sq g : (g <= 3)%nat -> meq 2 (mmul 2 (sigma g) (sigma g)) mid.
Proof.
  intros Hg. rewrite sigma_mul by auto.
  destruct g as [|[|[|[|g]]]]; try lia; intros i j _ _; unfold mscale; simpl; ring.
Qed.

Lemma pword_sq l : Forall (fun g => g <= 3)%nat l ->
  meq (2 ^ length l) (mmul (2 ^ length l) (pword l) (pword l)) mid.
Proof.
  intros H. unfold pword. rewrite kronl_mul. rewrite <- (kronl_id l).
  apply kronl_ext. intros x Hx. apply sigma_sq. rewrite Forall_forall in H; auto.
Qed.

Lemma pword_herm l : Forall (fun g => g <= 3)%nat l ->
  meq (2 ^ length l) (madj (pword l)) (pword l).
Proof.
  intros H. unfold pword. rewrite kronl_adj.
  apply kronl_ext. intros x Hx. apply sigma_herm. rewrite Forall_forall in H; auto.
Qed.

(** Two multiples of the same Pauli string are equal only if the factors are. *)
Lemma pword_scale_inj l c d : Forall (fun g => g <= 3)%nat l ->
  meq (2 ^ length l) (mscale c (pword l)) (mscale d (pword l)) -> c = d.
Proof.
  intros Hl H.
  assert (E : meq (2 ^ length l) (mscale c mid) (mscale d mid)).
  { rewrite <- (pword_sq l) by auto. rewrite <- !mmul_scale_l, H. reflexivity. }
  specialize (E 0%nat 0%nat (pow2_pos _) (pow2_pos _)).
  unfold mscale in E. rewrite !mid_eq in E.
  replace c with (c * 1) by ring. rewrite E. ring.
Qed.

End PauliSpec.
