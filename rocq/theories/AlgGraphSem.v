(** The operators behind the keys of AlgGraphProofs. *)
From Coq Require Import List Arith ZArith QArith Qcanon Bool Lia Permutation Ring Setoid Sorted String.
From Verif Require Import Py StarRing Matrix GaussQ PauliSpec PauliModel PauliSem PauliProofs PauliProofs2 PauliSumModel AlgGraphModel AlgGraphSpec
  AlgGraphProofs AlgGraphProofs2.
From Coq Require Import List.
Import ListNotations.
Local Open Scope nat_scope.

Add Ring gq_ring_inst_ags : gq_ring.

(** ** Products of three-letter words *)
Definition pw (w : word) : mat gq := let '(a, b, c) := w in pword [a; b; c].
Definition wphase (u v : word) : gq :=
  let '(a, b, c) := u in let '(x, y, z) := v in gmul (gphase a x) (gmul (gphase b y) (gphase c z)).

Lemma pw_mul u v : word_ok u -> word_ok v ->
  meq 8 (mmul 8 (pw u) (pw v)) (mscale (wphase u v) (pw (wprod u v))).
Proof.
  destruct u as [[a b] c], v as [[x y] z]. cbn [word_ok]. intros (A1 & A2 & A3) (B1 & B2 & B3).
  set (l := [(a, x); (b, y); (c, z)]).
  change 8 with (2 ^ List.length l).
  change (pw (a, b, c)) with (kronl (map (fun p => sigma (SR := GaussQ) (fst p)) l)).
  change (pw (x, y, z)) with (kronl (map (fun p => sigma (SR := GaussQ) (snd p)) l)).
  rewrite (kronl_mul (fun p => sigma (fst p)) (fun p => sigma (snd p)) l).
  rewrite (kronl_ext _ (fun p => mscale (gphase (fst p) (snd p)) (sigma (gidx (fst p) (snd p))))).
  - rewrite kronl_scale. cbn [map fst snd l].
    intros i j _ _. unfold mscale, wphase, pw, pword, wprod. cbn [map].
    f_equal. unfold kprod. cbn [fold_right fst snd]. simpl. ring.
  - intros p [<-|[<-|[<-|[]]]]; apply sigma_mul; auto.
Qed.

Lemma wphase_unit u v : unit4 (wphase u v).
Proof. destruct u as [[a b] c], v as [[x y] z]. cbn [wphase]. auto using unit4_mul, unit4_phase. Qed.

Lemma wphase_real u v : word_ok u -> word_ok v -> isreal (wphase u v) = negb (anti u v).
Proof.
  destruct u as [[a b] c], v as [[x y] z]. cbn [word_ok wphase anti]. intros (A1 & A2 & A3) (B1 & B2 & B3).
  rewrite !isreal_mul, !isreal_phase by (auto using unit4_mul, unit4_phase).
  destruct (clash a x), (clash b y), (clash c z); reflexivity.
Qed.

Lemma wphase_swap u v : word_ok u -> word_ok v -> wphase u v = gmul (sgn (anti u v)) (wphase v u).
Proof.
  destruct u as [[a b] c], v as [[x y] z]. cbn [word_ok wphase anti]. intros (A1 & A2 & A3) (B1 & B2 & B3).
  rewrite (gphase_comm a x), (gphase_comm b y), (gphase_comm c z) by auto.
  destruct (clash a x), (clash b y), (clash c z); cbn [sgn xorb]; ring.
Qed.

(** ** Units up to sign *)
Definition base (r : bool) : gq := if r then g1 else gi.
Definition sign (q : Qc) : Prop := q = 1%Qc \/ q = (- (1))%Qc.

Lemma unit4_base c : unit4 c -> exists q, sign q /\ c = gmul (GQ q 0) (base (isreal c)).
Proof.
  intros [-> | [-> | [-> | ->]]]; [exists 1%Qc|exists (- (1))%Qc|exists 1%Qc|exists (- (1))%Qc];
    (split; [unfold sign; auto|]); apply gq_eq; apply Qc_is_canon; reflexivity.
Qed.

Lemma sign_nonzero q : sign q -> q <> 0%Qc.
Proof. intros [-> | ->] H; apply (f_equal this) in H; discriminate H. Qed.

Lemma base_unit r : unit4 (base r).
Proof. destruct r; unfold unit4, base; auto. Qed.

Lemma base_real r : isreal (base r) = r.
Proof. destruct r; reflexivity. Qed.

Definition kmat (k : akey) : mat gq := mscale (base (fst k)) (pw (snd k)).

Lemma mscale_mscale (c d : gq) A : meq 8 (mscale c (mscale d A)) (mscale (gmul c d) A).
Proof. intros i j _ _. unfold mscale. simpl. ring. Qed.

Lemma GQ_mul p q : gmul (GQ p 0) (GQ q 0) = GQ (p * q) 0.
Proof. apply gq_eq; cbn; ring. Qed.

Lemma Qc_mul_nonzero p q : p <> 0%Qc -> q <> 0%Qc -> (p * q)%Qc <> 0%Qc.
Proof. intros Hp Hq H. apply Qcmult_integral in H. tauto. Qed.

Lemma proportional_refl A : proportional A A.
Proof.
  exists 1%Qc. split; [intros H; apply (f_equal this) in H; discriminate H|].
  intros i j _ _. unfold mscale. simpl. change (GQ 1 0) with g1. ring.
Qed.

Lemma proportional_trans A B C : proportional A B -> proportional B C -> proportional A C.
Proof.
  intros (p & Hp & E) (q & Hq & F). exists (p * q)%Qc. split; [apply Qc_mul_nonzero; auto|].
  rewrite E, F, mscale_mscale, GQ_mul. reflexivity.
Qed.

Lemma proportional_sym A B : proportional A B -> proportional B A.
Proof.
  intros (p & Hp & E). exists (/ p)%Qc. split.
  - intros H. apply Hp. replace p with (p * (p * / p))%Qc; [rewrite H; ring|]. rewrite Qcmult_inv_r by auto. ring.
  - rewrite E, mscale_mscale, GQ_mul. replace (/ p * p)%Qc with 1%Qc by (symmetry; rewrite Qcmult_comm; apply Qcmult_inv_r; auto).
    intros i j _ _. unfold mscale. simpl. change (GQ 1 0) with g1. ring.
Qed.

Lemma denote_key m : good m -> proportional (denote 3 m) (kmat (nk m)).
Proof.
  intros (Sm & U & E).
  assert (Um : unit4 (m_coeff m)) by (destruct E as [-> | ->]; auto using unit4_opp).
  destruct (unit4_base _ Um) as (q & Hq & Eq). exists q. split; [apply sign_nonzero; auto|].
  unfold denote, kmat, nk. cbn [fst snd]. rewrite mscale_mscale, <- Eq. reflexivity.
Qed.

(** ** Commutators of keys *)
Lemma kmat_comm x y : word_ok (snd x) -> word_ok (snd y) ->
  (anti (snd x) (snd y) = false -> meq 8 (mmul 8 (kmat x) (kmat y)) (mmul 8 (kmat y) (kmat x))) /\
  (anti (snd x) (snd y) = true -> proportional (msub (mmul 8 (kmat x) (kmat y)) (mmul 8 (kmat y) (kmat x))) (kmat (aprod x y))).
Proof.
  intros Hx Hy. destruct x as [r u], y as [s v]. cbn [fst snd] in *.
  set (c := gmul (base r) (base s)).
  assert (E1 : meq 8 (mmul 8 (kmat (r, u)) (kmat (s, v))) (mscale (gmul c (wphase u v)) (pw (wprod u v)))).
  { unfold kmat. cbn [fst snd]. rewrite mmul_scale_l, mmul_scale_r, (pw_mul u v), !mscale_mscale by auto.
    unfold c. intros i j _ _. unfold mscale. simpl. ring. }
  assert (E2 : meq 8 (mmul 8 (kmat (s, v)) (kmat (r, u))) (mscale (gmul c (wphase v u)) (pw (wprod u v)))).
  { unfold kmat. cbn [fst snd]. rewrite mmul_scale_l, mmul_scale_r, (pw_mul v u), !mscale_mscale, (wprod_comm v u) by auto.
    unfold c. intros i j _ _. unfold mscale. simpl. ring. }
  pose proof (wphase_swap u v Hx Hy) as Hs.
  split; intros Ha; rewrite Ha in Hs; cbn [sgn] in Hs.
  - rewrite E1, E2, Hs. intros i j _ _. unfold mscale. simpl. ring.
  - assert (U : unit4 (gmul c (wphase u v))) by (unfold c; auto using unit4_mul, base_unit, wphase_unit).
    destruct (unit4_base _ U) as (q & Hq & Eq).
    assert (R : isreal (gmul c (wphase u v)) = xorb r s).
    { unfold c. rewrite !isreal_mul, !base_real, wphase_real, Ha by (auto using unit4_mul, base_unit, wphase_unit).
      destruct r, s; reflexivity. }
    rewrite R in Eq.
    exists (q + q)%Qc. split.
    { destruct Hq as [-> | ->]; intros H; apply (f_equal this) in H; discriminate H. }
    rewrite E1, E2. unfold kmat, aprod. cbn [fst snd]. rewrite mscale_mscale.
    replace (gmul (GQ (q + q) 0) (base (xorb r s))) with (gadd (gmul c (wphase u v)) (gmul c (wphase u v))).
    2:{ rewrite Eq. replace (GQ (q + q) 0) with (gadd (GQ q 0) (GQ q 0)) by (apply gq_eq; cbn; ring). ring. }
    replace (wphase v u) with (gopp (wphase u v)) by (rewrite Hs; ring).
    intros i j _ _. unfold msub, mscale. simpl. ring.
Qed.

Lemma kmat_nonzero k : word_ok (snd k) -> ~ meq 8 (kmat k) (fun _ _ => g0).
Proof.
  destruct k as [r w]. cbn [snd]. intros Hw H.
  assert (F : Forall (fun g => g <= 3) (let '(a, b, c) := w in [a; b; c])).
  { destruct w as [[a b] c]. destruct Hw as (? & ? & ?). auto. }
  assert (E : base r = g0).
  { apply (pword_scale_inj (SR := GaussQ) (let '(a, b, c) := w in [a; b; c])); [exact F|].
    destruct w as [[a b] c]. cbn [List.length]. change (2 ^ 3) with 8. unfold kmat in H. cbn [fst snd pw] in H. rewrite H.
    intros i j _ _. unfold mscale. simpl. ring. }
  destruct r; discriminate E.
Qed.

(** ** Different keys are not proportional *)
Lemma clash_gidx g h k : g <= 3 -> h <= 3 -> k <= 3 -> clash g (gidx h k) = xorb (clash g h) (clash g k).
Proof.
  intros. destruct g as [|[|[|[|g]]]]; try lia; destruct h as [|[|[|[|h]]]]; try lia;
    destruct k as [|[|[|[|k]]]]; try lia; reflexivity.
Qed.

Lemma anti_wprod t u v : word_ok t -> word_ok u -> word_ok v -> anti t (wprod u v) = xorb (anti t u) (anti t v).
Proof.
  destruct t as [[a b] c], u as [[a' b'] c'], v as [[x y] z]. cbn [word_ok wprod anti].
  intros (? & ? & ?) (? & ? & ?) (? & ? & ?). rewrite !clash_gidx by auto.
  destruct (clash a a'), (clash a x), (clash b b'), (clash b y), (clash c c'), (clash c z); reflexivity.
Qed.

Definition weqb (u v : word) : bool :=
  let '(a, b, c) := u in let '(x, y, z) := v in (a =? x) && (b =? y) && (c =? z).
Lemma weqb_spec u v : weqb u v = true <-> u = v.
Proof.
  destruct u as [[a b] c], v as [[x y] z]. cbn [weqb]. rewrite !andb_true_iff, !Nat.eqb_eq. split.
  - intros [[-> ->] ->]; auto.
  - intros H; injection H as -> -> ->; auto.
Qed.

Lemma anti_exists v : word_ok v -> v <> (0, 0, 0) -> exists t, word_ok t /\ anti t v = true.
Proof.
  intros Hv Hn.
  assert (C : forallb (fun v => weqb v (0, 0, 0) || existsb (fun t => anti t v) all_words) all_words = true) by (vm_compute; reflexivity).
  rewrite forallb_forall in C. apply all_words_In in Hv. specialize (C v Hv). apply orb_true_iff in C. destruct C as [C|C].
  - apply weqb_spec in C. contradiction.
  - apply existsb_exists in C. destruct C as (t & Ht & C). exists t. split; auto. apply all_words_In; auto.
Qed.

Lemma comm_prop A B C : proportional A B -> meq 8 (mmul 8 C A) (mmul 8 A C) <-> meq 8 (mmul 8 C B) (mmul 8 B C).
Proof.
  assert (H : forall A B C, proportional A B -> meq 8 (mmul 8 C B) (mmul 8 B C) -> meq 8 (mmul 8 C A) (mmul 8 A C)).
  { intros A' B' C' (q & Hq & E) H. rewrite E, mmul_scale_l, mmul_scale_r, H. reflexivity. }
  intros P. split; apply H; auto. apply proportional_sym; auto.
Qed.

Lemma kmat_comm_iff x y : word_ok (snd x) -> word_ok (snd y) ->
  (meq 8 (mmul 8 (kmat x) (kmat y)) (mmul 8 (kmat y) (kmat x)) <-> anti (snd x) (snd y) = false).
Proof.
  intros Hx Hy. destruct (kmat_comm x y Hx Hy) as [H0 H1]. split; auto.
  intros E. destruct (anti (snd x) (snd y)) eqn:Ea; auto. exfalso.
  destruct (H1 eq_refl) as (q & Hq & P). apply (kmat_nonzero (aprod x y)); [apply wprod_ok; auto|].
  rewrite E in P.
  assert (P' : proportional (kmat (aprod x y)) (msub (mmul 8 (kmat y) (kmat x)) (mmul 8 (kmat y) (kmat x)))).
  { apply proportional_sym. exists q. split; auto. }
  destruct P' as (p & Hp & E'). rewrite E'. intros i j _ _. unfold mscale, msub. simpl. ring.
Qed.

Lemma kmat_inj x y : word_ok (snd x) -> word_ok (snd y) -> proportional (kmat x) (kmat y) -> x = y.
Proof.
  intros Hx Hy P.
  assert (Ew : snd x = snd y).
  { destruct (weqb (snd x) (snd y)) eqn:E; [apply weqb_spec; auto|]. exfalso.
    assert (Nw : wprod (snd x) (snd y) <> (0, 0, 0)).
    { intros H. apply (wprod_id (snd x) (snd y) Hx Hy) in H. apply weqb_spec in H. congruence. }
    destruct (anti_exists _ (wprod_ok _ _ Hx Hy) Nw) as (t & Ht & Ea).
    rewrite anti_wprod in Ea by auto.
    pose proof (comm_prop _ _ (kmat (true, t)) P) as C.
    rewrite (kmat_comm_iff (true, t) x), (kmat_comm_iff (true, t) y) in C by auto. cbn [snd] in C.
    destruct (anti t (snd x)), (anti t (snd y)); cbn in Ea; try discriminate Ea; [destruct C as [_ C]|destruct C as [C _]];
      discriminate (C eq_refl). }
  destruct x as [r u], y as [s v]. cbn [snd] in *. subst v. f_equal.
  destruct P as (q & Hq & P). unfold kmat in P. cbn [fst snd] in P. rewrite mscale_mscale in P.
  assert (F : Forall (fun g => g <= 3) (let '(a, b, c) := u in [a; b; c])).
  { destruct u as [[a b] c]. destruct Hx as (? & ? & ?). auto. }
  assert (E : base r = gmul (GQ q 0) (base s)).
  { apply (pword_scale_inj (SR := GaussQ) (let '(a, b, c) := u in [a; b; c])); [exact F|].
    destruct u as [[a b] c]. exact P. }
  destruct r, s; auto; exfalso; cbn [base] in E.
  - apply (f_equal gre) in E. cbn in E. replace (q * 0 - 0 * 1)%Qc with 0%Qc in E by ring. discriminate E.
  - apply (f_equal gim) in E. cbn in E. replace (q * 0 + 0 * 1)%Qc with 0%Qc in E by ring. discriminate E.
Qed.
