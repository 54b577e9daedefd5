(** Derivatives of complex valued functions and matrices of one real variable. *)
From Coq Require Import Arith Lia Bool Reals Lra Ring Setoid Morphisms Factorial.
From Coquelicot Require Import Coquelicot.
From Verif Require Import StarRing Matrix Cplx Expm.
From Coq Require Import List.
Import ListNotations.
Local Open Scope R_scope.

Definition cder (f : R -> C) (x : R) (l : C) : Prop :=
  is_derive (fun t => Re (f t)) x (Re l) /\ is_derive (fun t => Im (f t)) x (Im l).

Lemma is_derive_extR (f g : R -> R) x l m : (forall t, f t = g t) -> l = m -> is_derive f x l -> is_derive g x m.
Proof. intros H <-. apply is_derive_ext. exact H. Qed.

Lemma cder_ext f g x l m : (forall t, f t = g t) -> l = m -> cder f x l -> cder g x m.
Proof.
  intros H <- [H1 H2]. split; eapply is_derive_extR; [| |exact H1| | |exact H2]; auto; intros; cbn beta; rewrite H; auto.
Qed.

Lemma cder_const c x : cder (fun _ => c) x (RtoC 0).
Proof. split; apply (is_derive_const (V := R_NormedModule)). Qed.

Lemma cder_plus f g x l m : cder f x l -> cder g x m -> cder (fun t => Cplus (f t) (g t)) x (Cplus l m).
Proof. intros [F1 F2] [G1 G2]. split; [apply (is_derive_plus _ _ _ _ _ F1 G1)|apply (is_derive_plus _ _ _ _ _ F2 G2)]. Qed.

Lemma is_derive_multR (f g : R -> R) x l m : is_derive f x l -> is_derive g x m ->
  is_derive (fun t => f t * g t) x (l * g x + f x * m).
Proof. intros H1 H2. apply (is_derive_mult f g x l m H1 H2). intros; apply Rmult_comm. Qed.

Lemma cder_mult f g x l m : cder f x l -> cder g x m ->
  cder (fun t => Cmult (f t) (g t)) x (Cplus (Cmult l (g x)) (Cmult (f x) m)).
Proof.
  intros [F1 F2] [G1 G2]. split.
  - eapply is_derive_extR; [| |apply (is_derive_minus _ _ _ _ _ (is_derive_multR _ _ _ _ _ F1 G1) (is_derive_multR _ _ _ _ _ F2 G2))].
    + intros t. reflexivity.
    + simpl. unfold minus, plus, opp; simpl. unfold Re, Im; simpl. ring.
  - eapply is_derive_extR; [| |apply (is_derive_plus _ _ _ _ _ (is_derive_multR _ _ _ _ _ F1 G2) (is_derive_multR _ _ _ _ _ F2 G1))].
    + intros t. reflexivity.
    + simpl. unfold plus; simpl. unfold Re, Im; simpl. ring.
Qed.

Lemma cder_conj f x l : cder f x l -> cder (fun t => Cconj (f t)) x (Cconj l).
Proof. intros [H1 H2]. split; [exact H1|]. apply (is_derive_opp (V := R_NormedModule) _ _ _ H2). Qed.

Lemma cder_lsum {A} (f : A -> R -> C) (g : A -> C) x l : (forall a, In a l -> cder (f a) x (g a)) ->
  cder (fun t => lsum (SR := CStar) (fun a => f a t) l) x (lsum (SR := CStar) g l).
Proof.
  induction l as [|a l IH]; intros H.
  - exact (cder_const (RtoC 0) x).
  - change (lsum g (a :: l)) with (Cplus (g a) (lsum (SR := CStar) g l)).
    apply (cder_plus (f a) (fun t => lsum (SR := CStar) (fun a => f a t) l)); [apply H; left; auto|].
    apply IH. intros y Hy. apply H; right; auto.
Qed.

(** matrices *)
Definition mder (n : nat) (F : R -> mat C) (x : R) (D : mat C) : Prop :=
  forall i j, (i < n)%nat -> (j < n)%nat -> cder (fun t => F t i j) x (D i j).

Lemma mder_ext n F G x D E : (forall t, meq n (F t) (G t)) -> meq n D E -> mder n F x D -> mder n G x E.
Proof. intros H1 H2 H i j Hi Hj. eapply cder_ext; [| |apply (H i j Hi Hj)]; [intros; apply H1; auto|apply H2; auto]. Qed.

Lemma mder_const n A x : mder n (fun _ => A) x mzero.
Proof. intros i j _ _. apply cder_const. Qed.

Lemma mder_add n F G x D E : mder n F x D -> mder n G x E -> mder n (fun t => madd (F t) (G t)) x (madd D E).
Proof. intros H1 H2 i j Hi Hj. apply cder_plus; auto. Qed.

Lemma mder_mul n F G x D E : mder n F x D -> mder n G x E ->
  mder n (fun t => mmul n (F t) (G t)) x (madd (mmul n D (G x)) (mmul n (F x) E)).
Proof.
  intros H1 H2 i j Hi Hj. unfold mmul, madd.
  eapply cder_ext; [intros; reflexivity| |apply (cder_lsum (fun k t => Cmult (F t i k) (G t k j)) (fun k => Cplus (Cmult (D i k) (G x k j)) (Cmult (F x i k) (E k j))))].
  - rewrite <- lsum_add. reflexivity.
  - intros k Hk. apply in_seq in Hk. apply cder_mult; [apply H1|apply H2]; lia.
Qed.

Lemma mder_adj n F x D : mder n F x D -> mder n (fun t => madj (F t)) x (madj D).
Proof. intros H i j Hi Hj. apply cder_conj, H; auto. Qed.

Lemma mder_lmul n A F x D : mder n F x D -> mder n (fun t => mmul n A (F t)) x (mmul n A D).
Proof.
  intros H. eapply (mder_ext n (fun t => mmul n A (F t))); [intros; reflexivity| |apply (mder_mul n _ _ x _ _ (mder_const n A x) H)].
  intros i j _ _. unfold madd, mmul. rewrite (lsum_zero (SR := CStar)); [cbn [kadd k0 CStar]; ring|].
  intros k _. unfold mzero. cbn [kmul k0 CStar]. ring.
Qed.
Lemma mder_rmul n A F x D : mder n F x D -> mder n (fun t => mmul n (F t) A) x (mmul n D A).
Proof.
  intros H. eapply (mder_ext n (fun t => mmul n (F t) A)); [intros; reflexivity| |apply (mder_mul n _ _ x _ _ H (mder_const n A x))].
  intros i j _ _. unfold madd, mmul. rewrite (lsum_zero (SR := CStar) (fun k => kmul (F x i k) (mzero k j))); [cbn [kadd k0 CStar]; ring|].
  intros k _. unfold mzero. cbn [kmul k0 CStar]. ring.
Qed.

Lemma mtrace_der n F x D : mder n F x D -> cder (fun t => mtrace n (F t)) x (mtrace n D).
Proof.
  intros H. unfold mtrace. apply (cder_lsum (fun i t => F t i i)). intros i Hi. apply in_seq in Hi. apply H; lia.
Qed.

(** ** The exponential *)

Lemma mpow_scaleR n (t : R) A k : meq n (mpow n (mscale (RtoC t) A) k) (mscale (RtoC (t ^ k)) (mpow n A k)).
Proof.
  induction k as [|k IH]; cbn [mpow pow].
  - intros i j _ _. unfold mscale. cbn [kmul CStar]. ring.
  - rewrite IH, mmul_scale_l, mmul_scale_r. intros i j _ _. unfold mscale. cbn [kmul CStar]. rewrite RtoC_mult. ring.
Qed.

Lemma pseries_der0 (a : nat -> R) : ex_series (fun k => Rabs (a k)) -> is_derive (fun t => Series (fun k => t ^ k * a k)) 0 (a 1%nat).
Proof.
  intros H.
  assert (Hr : Rbar_lt (Rabs 0) (CV_radius a)).
  { apply Rbar_lt_le_trans with 1; [simpl; rewrite Rabs_R0; lra|]. apply (proj1 (Lub_Rbar_correct (CV_disk a))).
    unfold CV_disk. eapply ex_series_ext; [|exact H]. intros k. rewrite pow1, Rmult_1_r. auto. }
  eapply is_derive_extR; [| |apply (is_derive_PSeries a 0 Hr)].
  - intros t. unfold PSeries. apply Series_ext. intros k. ring.
  - rewrite PSeries_0. unfold PS_derive. simpl. ring.
Qed.

Lemma expm_der0 n A : mder n (fun t => expm n (mscale (RtoC t) A)) 0 A.
Proof.
  intros i j Hi Hj. pose proof (eterm_cabs n A i j Hi Hj) as Ha.
  assert (E1 : eterm n A 1 i j = A i j).
  { unfold eterm, mscale. cbn [mpow fact]. rewrite (mmul_1_r n A i j Hi Hj). simpl INR. rewrite Rinv_1. cbn [kmul CStar]. ring. }
  assert (Et : forall t k, eterm n (mscale (RtoC t) A) k i j = Cmult (RtoC (t ^ k)) (eterm n A k i j)).
  { intros t k. unfold eterm. unfold mscale at 1. rewrite (mpow_scaleR n t A k i j Hi Hj). unfold mscale.
    cbn [kmul CStar]. ring. }
  split.
  - eapply is_derive_extR; [| |apply (pseries_der0 (fun k => Re (eterm n A k i j)) (cabs_Re _ Ha))].
    + intros t. unfold expm, Re at 3. cbn [fst]. apply Series_ext. intros k. rewrite Et. rewrite Re_mult. simpl. ring.
    + cbn beta. rewrite E1. reflexivity.
  - eapply is_derive_extR; [| |apply (pseries_der0 (fun k => Im (eterm n A k i j)) (cabs_Im _ Ha))].
    + intros t. unfold expm, Im at 3. cbn [snd]. apply Series_ext. intros k. rewrite Et. rewrite Im_mult. simpl. ring.
    + cbn beta. rewrite E1. reflexivity.
Qed.
