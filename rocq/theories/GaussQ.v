(** Gaussian rationals: exact, executable complex coefficients. *)
From Coq Require Import ZArith QArith Qcanon Bool Ring Field Lia.
From Verif Require Import StarRing.

Record gq := GQ { gre : Qc; gim : Qc }.

Definition g0 : gq := GQ 0 0.
Definition g1 : gq := GQ 1 0.
Definition gi : gq := GQ 0 1.
Definition gadd (x y : gq) := GQ (gre x + gre y) (gim x + gim y).
Definition gmul (x y : gq) :=
  GQ (gre x * gre y - gim x * gim y) (gre x * gim y + gim x * gre y).
Definition gopp (x : gq) := GQ (- gre x) (- gim x).
Definition gsub (x y : gq) := GQ (gre x - gre y) (gim x - gim y).
Definition gconj (x : gq) := GQ (gre x) (- gim x).
(** rational number [a/b] as a coefficient *)
Definition gofQ (q : Q) : gq := GQ (Q2Qc q) 0.

(** Exact equality of coefficients. *)
Definition geqb (x y : gq) : bool := Qc_eq_bool (gre x) (gre y) && Qc_eq_bool (gim x) (gim y).

(** |x|^2 as a rational *)
Definition gnorm2 (x : gq) : Qc := gre x * gre x + gim x * gim x.

Lemma gq_eq x y : gre x = gre y -> gim x = gim y -> x = y.
Proof. destruct x, y; simpl; intros; subst; auto. Qed.

Lemma geqb_eq x y : geqb x y = true <-> x = y.
Proof.
  unfold geqb; rewrite andb_true_iff; split.
  - intros [H1 H2]. apply gq_eq; apply Qc_eq_bool_correct; auto.
  - intros ->. unfold Qc_eq_bool. destruct (Qc_eq_dec (gre y) (gre y)); [|congruence].
    destruct (Qc_eq_dec (gim y) (gim y)); [auto|congruence].
Qed.

Lemma gq_ring : ring_theory g0 g1 gadd gmul gsub gopp eq.
Proof.
  constructor; intros; apply gq_eq; simpl; ring.
Qed.

Global Instance GaussQ : StarRing gq.
Proof.
  refine {| k0 := g0; k1 := g1; kadd := gadd; kmul := gmul; ksub := gsub; kopp := gopp;
            kconj := gconj; ki := gi; k_ring := gq_ring |}.
  all: intros; apply gq_eq; simpl; ring.
Defined.

(** No zero divisors. *)
Lemma gnorm2_mul x y : gnorm2 (gmul x y) = (gnorm2 x * gnorm2 y)%Qc.
Proof. unfold gnorm2, gmul; simpl; ring. Qed.

Lemma Qc_sq_nonneg (x : Qc) : (0 <= x * x)%Qc.
Proof.
  destruct (Qclt_le_dec x 0) as [H|H].
  - replace (x * x)%Qc with ((- x) * (- x))%Qc by ring.
    assert (H2 : (0 <= - x)%Qc).
    { replace 0%Qc with (- (0))%Qc by ring. apply Qcopp_le_compat. apply Qclt_le_weak; auto. }
    replace 0%Qc with (0 * - x)%Qc by ring. apply Qcmult_le_compat_r; auto.
  - replace 0%Qc with (0 * x)%Qc by ring. apply Qcmult_le_compat_r; auto.
Qed.

Lemma gnorm2_nonneg x : (0 <= gnorm2 x)%Qc.
Proof.
  unfold gnorm2. replace 0%Qc with (0 + 0)%Qc by ring.
  apply Qcplus_le_compat; apply Qc_sq_nonneg.
Qed.

Lemma gnorm2_zero x : gnorm2 x = 0%Qc -> x = g0.
Proof.
  unfold gnorm2; intros H.
  pose proof (Qc_sq_nonneg (gre x)) as H1. pose proof (Qc_sq_nonneg (gim x)) as H2.
  assert (E1 : (gre x * gre x = 0)%Qc).
  { apply Qcle_antisym; auto. rewrite <- H.
    replace (gre x * gre x)%Qc with (gre x * gre x + 0)%Qc at 1 by ring.
    apply Qcplus_le_compat; auto. apply Qcle_refl. }
  assert (E2 : (gim x * gim x = 0)%Qc).
  { rewrite E1 in H. rewrite <- H. ring. }
  apply gq_eq; simpl.
  - apply Qcmult_integral in E1; tauto.
  - apply Qcmult_integral in E2; tauto.
Qed.

Lemma gmul_integral x y : gmul x y = g0 -> x = g0 \/ y = g0.
Proof.
  intros H. assert (E : (gnorm2 x * gnorm2 y = 0)%Qc).
  { rewrite <- gnorm2_mul, H. unfold gnorm2; simpl; ring. }
  apply Qcmult_integral in E. destruct E; [left|right]; apply gnorm2_zero; auto.
Qed.
