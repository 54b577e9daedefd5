(** Proofs about the Lie algebra layers. *)
From Coq Require Import Arith Lia Bool String Reals Lra Ring Setoid Morphisms.
From Coquelicot Require Import Coquelicot.
From Verif Require Import Py StarRing Matrix Cplx Expm MDeriv UtilsModel CircuitModel CircuitProofs2 AlgebraModel LayerModel.
From Coq Require Import List.
Import ListNotations.
Local Open Scope nat_scope.
Add Ring CringL : C_ring_theory.

(** ** Singular value decompositions *)
Definition mdiag (s : nat -> R) : mat C := fun i j => if Nat.eqb i j then RtoC (s i) else RtoC 0.
Definition svd_at (d : nat) (M : mat C) (r : mat C * (nat -> R) * mat C) : Prop :=
  let '(P, s, Q) := r in
  unitary2 d P /\ unitary2 d Q /\ (forall i, i < d -> (0 <= s i)%R) /\ meq d M (mmul d P (mmul d (mdiag s) Q)).
Definition svd_ok (svd : svd_fun) : Prop := forall d M, unitary2 d M -> svd_at d M (svd d M).

Lemma svd_unitary d M P s Q : unitary2 d M -> svd_at d M (P, s, Q) -> meq d (mmul d P Q) M.
Proof.
  intros HM (HP & HQ & Hs & E).
  assert (HD : meq d (mdiag s) (mmul d (madj P) (mmul d M (madj Q)))).
  { rewrite E. rewrite <- !mmul_assoc. rewrite (proj2 HQ). rewrite mmul_1_r. rewrite mmul_assoc. rewrite (proj1 HP). rewrite mmul_1_l. reflexivity. }
  assert (HU : unitary2 d (mdiag s)).
  { eapply unitary2_proper; [symmetry; exact HD|]. apply unitary2_mul; [apply unitary2_adj; auto|]. apply unitary2_mul; auto. apply unitary2_adj; auto. }
  assert (Hs1 : forall i, i < d -> s i = 1%R).
  { intros i Hi. pose proof (proj1 HU i i Hi Hi) as Ei. unfold mmul in Ei. rewrite (lsum_single (SR := CStar) _ _ i) in Ei.
    - unfold madj, mdiag in Ei. rewrite Nat.eqb_refl in Ei. rewrite mid_eq in Ei. apply (f_equal Re) in Ei.
      cbn [kmul kconj k1 CStar] in Ei. rewrite Re_mult in Ei. simpl in Ei. specialize (Hs i Hi). nra.
    - apply seq_NoDup.
    - apply in_seq; lia.
    - intros k _ Hk. apply Nat.eqb_neq in Hk. unfold mdiag. rewrite Hk. cbn [kmul k0 CStar]. ring. }
  assert (HI : meq d (mdiag s) mid).
  { intros i j Hi Hj. unfold mdiag, mid. destruct (Nat.eqb i j); auto. rewrite Hs1; auto. }
  rewrite E, HI, mmul_1_l. reflexivity.
Qed.

Lemma Rleb_true x y : Rleb x y = true <-> (x <= y)%R.
Proof. unfold Rleb. destruct (Rle_dec x y); split; auto; discriminate. Qed.

Lemma is_unitary_true d U : unitary2 d U -> is_unitary d U = true.
Proof.
  intros HU. unfold is_unitary. apply forallb_forall. intros i Hi. apply forallb_forall. intros j Hj.
  apply in_seq in Hi, Hj. apply Rleb_true. unfold msub. rewrite (proj2 HU i j) by lia.
  replace (ksub (mid i j) (mid i j)) with (RtoC 0) by (cbn [ksub CStar]; ring). rewrite Cmod_0.
  left. apply Rinv_0_lt_compat. apply pow_lt. lra.
Qed.

Lemma checked_step_unitary svd check d M : svd_ok svd -> unitary2 d M -> meq d (checked_step svd check d M) M.
Proof.
  intros Hs HM. unfold checked_step, project_onto_unitary. specialize (Hs d M HM). destruct (svd d M) as [[P s] Q].
  destruct (check && is_unitary d M); [|reflexivity]. eapply svd_unitary; eauto.
Qed.

(** ** Anti-Hermitian generators *)
Definition anti (d : nat) (A : mat C) : Prop := meq d (madj A) (mscale (RtoC (-1)) A).

Lemma anti_zero d : anti d mzero.
Proof. intros i j _ _. unfold madj, mscale, mzero. cbn [kmul kconj k0 CStar]. apply C_ext; simpl; ring. Qed.
Lemma anti_add d A B : anti d A -> anti d B -> anti d (madd A B).
Proof.
  unfold anti. intros HA HB. rewrite madj_add, HA, HB. intros i j _ _. unfold mscale, madd. cbn [kmul kadd CStar]. ring.
Qed.
Lemma anti_scale d (r : R) A : anti d A -> anti d (mscale (RtoC r) A).
Proof.
  unfold anti. intros HA. rewrite madj_scale, HA. intros i j _ _. unfold mscale. cbn [kmul kconj CStar].
  replace (Cconj (RtoC r)) with (RtoC r) by (apply C_ext; simpl; ring). ring.
Qed.
Lemma anti_proper d A B : meq d A B -> anti d A -> anti d B.
Proof. unfold anti. intros E H. rewrite <- E. exact H. Qed.

Lemma anti_omega d phi P O : hermitian d P -> hermitian d O -> anti d (mscale (omega d phi P O) P).
Proof.
  intros HP HO. unfold anti, omega. pose proof (comm_imaginary d phi P O HP HO) as Hre.
  set (w := quad d phi (msub (mmul d P O) (mmul d O P))) in *. unfold hermitian in HP. rewrite madj_scale, HP.
  intros i j _ _. unfold mscale. cbn [kmul kconj CStar].
  replace (Cconj w) with (Cmult (RtoC (-1)) w) by (apply C_ext; simpl; unfold Re in Hre; rewrite Hre; ring). ring.
Qed.

Lemma anti_expm d r A : anti d A -> unitary2 d (expm d (mscale (RtoC r) A)).
Proof. intros H. apply expm_unitary. apply (anti_scale d r A H). Qed.

Definition gen (d : nat) (phi : nat -> C) (O : mat C) (P : arr C) : mat C := mscale (omega d phi (a_ent P) O) (a_ent P).
Definition gens (d : nat) (trot : bool) (phi : nat -> C) (O : mat C) (g : list (arr C)) : list (mat C) :=
  if trot then map (gen d phi O) g else [msum (gen d phi O) g].
Definition apply_gens (d : nat) (c : C) (l : list (mat C)) (U : mat C) : mat C :=
  fold_left (fun u A => mmul d (expm d (mscale c A)) u) l U.

Lemma apply_gens_cons d c A l U : apply_gens d c (A :: l) U = apply_gens d c l (mmul d (expm d (mscale c A)) U).
Proof. reflexivity. Qed.
Lemma apply_gens_proper d c l : forall U V, meq d U V -> meq d (apply_gens d c l U) (apply_gens d c l V).
Proof. induction l as [|A l IH]; intros U V H; [exact H|]. apply IH. rewrite H. reflexivity. Qed.

Lemma apply_gens_app d c l m U : apply_gens d c (l ++ m) U = apply_gens d c m (apply_gens d c l U).
Proof. unfold apply_gens. rewrite fold_left_app. auto. Qed.

Lemma apply_gens_unitary d r l : Forall (anti d) l -> forall U, unitary2 d U -> unitary2 d (apply_gens d (RtoC r) l U).
Proof.
  induction 1 as [|A l HA Hl IH]; intros U HU; [exact HU|]. apply IH. apply unitary2_mul; auto. apply anti_expm; auto.
Qed.

Lemma fold_madd_msum d (f : arr C -> mat C) g : forall s, meq d (fold_left (fun s P => madd s (f P)) g s) (madd s (msum f g)).
Proof.
  induction g as [|P g IH]; intros s; cbn [fold_left].
  - intros i j _ _. unfold madd, msum, lsum. simpl. cbn [kadd k0 CStar]. ring.
  - rewrite IH. intros i j _ _. unfold madd, msum. rewrite lsum_cons. cbn [kadd CStar]. ring.
Qed.

Lemma gen_anti d phi O P : hermitian d O -> hermitian d (a_ent P) -> anti d (gen d phi O P).
Proof. intros H1 H2. apply anti_omega; auto. Qed.

Lemma msum_anti d (f : arr C -> mat C) g : (forall P, In P g -> anti d (f P)) -> anti d (msum f g).
Proof.
  induction g as [|P g IH]; intros H.
  - apply (anti_proper d mzero); [intros i j _ _; reflexivity|apply anti_zero].
  - apply (anti_proper d (madd (f P) (msum f g))); [intros i j _ _; unfold msum; rewrite lsum_cons; reflexivity|].
    apply anti_add; [apply H; left; auto|apply IH; intros Q HQ; apply H; right; auto].
Qed.

Lemma gens_anti d trot phi O g : hermitian d O -> Forall (fun P => hermitian d (a_ent P)) g -> Forall (anti d) (gens d trot phi O g).
Proof.
  intros HO Hg. rewrite Forall_forall in Hg. unfold gens. destruct trot.
  - apply Forall_forall. intros A HA. apply in_map_iff in HA. destruct HA as (P & <- & HP). apply gen_anti; auto.
  - constructor; [|constructor]. apply msum_anti. intros P HP. apply gen_anti; auto.
Qed.

Lemma group_step_spec svd check trot n eta phi O g U : svd_ok svd -> hermitian (2 ^ n) O ->
  Forall (fun P => hermitian (2 ^ n) (a_ent P)) g -> (trot = true \/ g <> []) ->
  exists V, group_step svd check trot n eta phi O g U = Ok V /\
    meq (2 ^ n) V (apply_gens (2 ^ n) (RtoC (- eta / 2 ^ n)) (gens (2 ^ n) trot phi O g) U).
Proof.
  intros Hs HO Hg Hne. unfold group_step, gens. destruct trot.
  - eexists. split; [reflexivity|]. clear Hne. revert U. induction Hg as [|P g HP Hg IH]; intros U; [reflexivity|].
    cbn [fold_left map]. rewrite apply_gens_cons. rewrite IH. apply apply_gens_proper. unfold riemann.
    rewrite checked_step_unitary; [reflexivity|auto|]. apply anti_expm. apply gen_anti; auto.
  - destruct Hne as [|Hne]; [discriminate|]. destruct g as [|P g]; [congruence|]. eexists. split; [reflexivity|].
    set (op := fold_left _ _ _).
    assert (E : meq (2 ^ n) op (msum (gen (2 ^ n) phi O) (P :: g))).
    { unfold op. rewrite (fold_madd_msum (2 ^ n) (gen (2 ^ n) phi O) (P :: g) mzero).
      intros i j _ _. unfold madd, mzero. cbn [kadd k0 CStar]. ring. }
    assert (Ha : anti (2 ^ n) (msum (gen (2 ^ n) phi O) (P :: g))).
    { apply msum_anti. intros Q HQ. rewrite Forall_forall in Hg. apply gen_anti; auto. }
    rewrite apply_gens_cons. cbn [apply_gens fold_left]. unfold riemann. rewrite checked_step_unitary; auto.
    + rewrite (expm_proper (2 ^ n) (mscale _ op) (mscale (RtoC (- eta / 2 ^ n)) (msum (gen (2 ^ n) phi O) (P :: g)))); [reflexivity|].
      rewrite E. reflexivity.
    + apply anti_expm. eapply anti_proper; [symmetry; exact E|auto].
Qed.

Definition all_gens (d : nat) (trot : bool) (phi : nat -> C) (obs : list (arr C)) (groups : list (list (arr C))) : list (mat C) :=
  flat_map (fun O => flat_map (gens d trot phi (a_ent O)) groups) obs.

Lemma foldM_app {A B} (f : B -> A -> res B) l m b : foldM f (l ++ m) b = do b' <- foldM f l b; foldM f m b'.
Proof. revert b. induction l as [|a l IH]; intros b; cbn [app foldM bind]; auto. destruct (f b a); cbn [bind]; auto. Qed.

Lemma groups_spec svd check trot n eta phi O groups : svd_ok svd -> hermitian (2 ^ n) O ->
  Forall (Forall (fun P => hermitian (2 ^ n) (a_ent P))) groups -> (trot = true \/ Forall (fun g => g <> []) groups) ->
  forall U W, meq (2 ^ n) U W ->
  exists V, foldM (fun v g => group_step svd check trot n eta phi O g v) groups U = Ok V /\
    meq (2 ^ n) V (apply_gens (2 ^ n) (RtoC (- eta / 2 ^ n)) (flat_map (gens (2 ^ n) trot phi O) groups) W).
Proof.
  intros Hs HO Hg. induction Hg as [|g groups Hg Hgs IH]; intros Hne U W HU.
  - exists U. split; [reflexivity|exact HU].
  - destruct (group_step_spec svd check trot n eta phi O g U Hs HO Hg) as (V1 & E1 & M1).
    { destruct Hne as [|Hne]; [left; auto|right; inversion Hne; auto]. }
    destruct (IH) with (U := V1) (W := apply_gens (2 ^ n) (RtoC (- eta / 2 ^ n)) (gens (2 ^ n) trot phi O g) W) as (V & E & M).
    { destruct Hne as [|Hne]; [left; auto|right; inversion Hne; auto]. }
    { rewrite M1. apply apply_gens_proper; auto. }
    exists V. cbn [foldM bind]. rewrite E1. cbn [bind]. split; [exact E|]. rewrite M.
    cbn [flat_map]. rewrite apply_gens_app. reflexivity.
Qed.

Lemma call_spec svd check trot n eta phi obs groups : svd_ok svd ->
  Forall (fun O => hermitian (2 ^ n) (a_ent O)) obs ->
  Forall (Forall (fun P => hermitian (2 ^ n) (a_ent P))) groups -> (trot = true \/ Forall (fun g => g <> []) groups) ->
  forall U W, meq (2 ^ n) U W ->
  exists V, foldM (fun u O => foldM (fun v g => group_step svd check trot n eta phi (a_ent O) g v) groups u) obs U = Ok V /\
    meq (2 ^ n) V (apply_gens (2 ^ n) (RtoC (- eta / 2 ^ n)) (all_gens (2 ^ n) trot phi obs groups) W).
Proof.
  intros Hs HO Hg Hne. induction HO as [|O obs HO Hobs IH]; intros U W HU.
  - exists U. split; [reflexivity|exact HU].
  - destruct (groups_spec svd check trot n eta phi (a_ent O) groups Hs HO Hg Hne U W HU) as (V1 & E1 & M1).
    destruct (IH _ _ M1) as (V & E & M). exists V. cbn [foldM]. rewrite E1. cbn [bind]. split; [exact E|].
    rewrite M. unfold all_gens. cbn [flat_map]. rewrite apply_gens_app. reflexivity.
Qed.

Lemma all_gens_anti d trot phi obs groups : Forall (fun O => hermitian d (a_ent O)) obs ->
  Forall (Forall (fun P => hermitian d (a_ent P))) groups -> Forall (anti d) (all_gens d trot phi obs groups).
Proof.
  intros HO Hg. apply Forall_forall. intros A HA. apply in_flat_map in HA. destruct HA as (O & Hi & HA).
  apply in_flat_map in HA. destruct HA as (g & Hgi & HA). rewrite Forall_forall in HO, Hg.
  pose proof (gens_anti d trot phi (a_ent O) g (HO _ Hi) (Hg _ Hgi)) as H. rewrite Forall_forall in H. auto.
Qed.

(** ** The derivative at step size zero *)
Lemma apply_gens_0 d l : forall U, meq d (apply_gens d (RtoC 0) l U) U.
Proof.
  induction l as [|A l IH]; intros U; [reflexivity|]. rewrite apply_gens_cons.
  rewrite IH. rewrite (expm_proper d _ mzero), expm_zero, mmul_1_l; [reflexivity|].
  intros i j _ _. unfold mscale, mzero. cbn [kmul k0 CStar]. ring.
Qed.

Lemma gens_der d k l : forall (F : R -> mat C) U D, (forall e, e = 0%R -> meq d (F e) U) -> mder d F 0 D ->
  mder d (fun e => apply_gens d (RtoC (e * k)) l (F e)) 0 (madd D (mscale (RtoC k) (mmul d (msum (fun A => A) l) U))).
Proof.
  induction l as [|A l IH]; intros F U D H0 HD.
  - eapply mder_ext; [| |exact HD]; [intros; reflexivity|]. intros i j _ _. unfold madd, mscale, mmul, msum.
    rewrite (lsum_zero (SR := CStar)); [cbn [kadd kmul k0 CStar]; ring|]. intros x _. unfold lsum. cbn [fold_right map kmul CStar k0]. simpl. ring.
  - assert (HE : mder d (fun e => expm d (mscale (RtoC (e * k)) A)) 0 (mscale (RtoC k) A)).
    { eapply mder_ext; [| |apply (expm_der0 d (mscale (RtoC k) A))]; [|reflexivity].
      intros t. apply expm_proper. intros i j _ _. unfold mscale. cbn [kmul CStar]. rewrite RtoC_mult. ring. }
    pose proof (mder_mul d _ _ 0 _ _ HE HD) as Hm.
    assert (H00 : forall e, e = 0%R -> meq d (mmul d (expm d (mscale (RtoC (e * k)) A)) (F e)) U).
    { intros e ->. rewrite (H0 0%R eq_refl). rewrite (expm_proper d _ mzero), expm_zero, mmul_1_l; [reflexivity|].
      intros i j _ _. unfold mscale, mzero. rewrite Rmult_0_l. cbn [kmul k0 CStar]. ring. }
    specialize (IH _ U _ H00 Hm). eapply mder_ext; [| |exact IH]; [intros; reflexivity|].
    assert (Z : meq d (expm d (mscale (RtoC (0 * k)) A)) mid).
    { rewrite (expm_proper d _ mzero), expm_zero; [reflexivity|].
      intros i j _ _. unfold mscale, mzero. rewrite Rmult_0_l. cbn [kmul k0 CStar]. ring. }
    rewrite Z, mmul_1_l, (H0 0%R eq_refl).
    assert (S : meq d (msum (fun A => A) (A :: l)) (madd A (msum (fun A => A) l))).
    { intros i j _ _. unfold msum, madd. rewrite lsum_cons. reflexivity. }
    rewrite S, mmul_add_l, mmul_scale_l. intros i j _ _. unfold madd, mscale. cbn [kadd kmul CStar]. ring.
Qed.

Lemma col_der d F D : mder d F 0 D -> 0 < d -> forall i, i < d -> cder (fun e => qnode_state (F e) i) 0 (qnode_state D i).
Proof. intros H Hd i Hi. apply H; auto. Qed.

Lemma quad_der d (F : R -> mat C) D H : 0 < d -> mder d F 0 D ->
  cder (fun e => quad d (qnode_state (F e)) H) 0
    (Cplus (ip d (qnode_state D) (mv d H (qnode_state (F 0%R)))) (ip d (qnode_state (F 0%R)) (mv d H (qnode_state D)))).
Proof.
  intros Hd HF. pose proof (col_der d F D HF Hd) as Hc.
  apply (cder_ext (fun e => lsum (SR := CStar) (fun i => Cmult (Cconj (qnode_state (F e) i)) (mv d H (qnode_state (F e)) i)) (seq 0 d)) _ _
    (lsum (SR := CStar) (fun i => Cplus (Cmult (Cconj (qnode_state D i)) (mv d H (qnode_state (F 0%R)) i))
        (Cmult (Cconj (qnode_state (F 0%R) i)) (mv d H (qnode_state D) i))) (seq 0 d))).
  - intros t. rewrite quad_ip. reflexivity.
  - unfold ip. apply (lsum_add (SR := CStar)).
  - apply (cder_lsum (fun i e => Cmult (Cconj (qnode_state (F e) i)) (mv d H (qnode_state (F e)) i))).
    intros i Hi. apply in_seq in Hi. apply cder_mult; [apply cder_conj; apply Hc; lia|].
    unfold mv. apply (cder_lsum (fun j e => Cmult (H i j) (qnode_state (F e) j))). intros j Hj. apply in_seq in Hj.
    eapply cder_ext; [intros; reflexivity| |apply cder_mult; [apply cder_const|apply Hc; lia]]. cbn beta. ring.
Qed.

Lemma ip_add_r d x y z : ip d x (fun i => Cplus (y i) (z i)) = Cplus (ip d x y) (ip d x z).
Proof.
  unfold ip. etransitivity; [|apply (lsum_add (SR := CStar))]. apply lsum_ext. intros i _. cbn [kadd CStar]. ring.
Qed.
Lemma state_mmul d A U : qnode_state (mmul d A U) = mv d A (qnode_state U).
Proof. reflexivity. Qed.

(** the derivative of an expectation value along an anti-Hermitian generator *)
Lemma expval_der d (F : R -> mat C) U G H : 0 < d -> (forall e, e = 0%R -> meq d (F e) U) -> anti d G ->
  mder d F 0 (mmul d G U) ->
  is_derive (fun e => Re (quad d (qnode_state (F e)) H)) 0%R
    (- Re (quad d (qnode_state U) (msub (mmul d G H) (mmul d H G))))%R.
Proof.
  intros Hd H0 HG HF. destruct (quad_der d F _ H Hd HF) as [HR _].
  eapply is_derive_extR; [intros; reflexivity| |exact HR]. rewrite <- Re_opp. f_equal.
  set (u := qnode_state U). rewrite state_mmul. fold u.
  assert (E0 : veq d (qnode_state (F 0%R)) u) by (intros i Hi; apply (H0 0%R eq_refl); auto).
  rewrite (ip_ext d _ (mv d G u) _ (mv d H u)); [|intros i _; auto|intros i Hi; apply (mv_ext d H H _ u ltac:(reflexivity) E0); auto].
  rewrite (ip_ext d (qnode_state (F 0%R)) u (mv d H (mv d G u)) (mv d H (mv d G u))); [|exact E0|intros i _; auto].
  rewrite quad_ip.
  rewrite (ip_ext d u u (mv d (msub (mmul d G H) (mmul d H G)) u) (fun i => Cminus (mv d G (mv d H u) i) (mv d H (mv d G u) i))).
  2:{ intros i _; auto. }
  2:{ intros i _. rewrite mv_sub, !mv_mul. auto. }
  rewrite ip_sub_r. rewrite (ip_adj d G u).
  assert (EG : ip d (mv d (madj G) u) (mv d H u) = Copp (ip d (mv d G u) (mv d H u))).
  { rewrite (ip_ext d _ (fun i => Cmult (RtoC (-1)) (mv d G u i)) _ (mv d H u)).
    - rewrite ip_scale_l. replace (Cconj (RtoC (-1))) with (RtoC (-1)) by (apply C_ext; simpl; ring). apply C_ext; simpl; ring.
    - intros i Hi. rewrite <- mv_scale_mat. apply (mv_ext d _ _ u u HG); auto. intros j _; auto.
    - intros i _; auto. }
  rewrite EG. apply C_ext; simpl; ring.
Qed.

(** the sum of all generators does not depend on trotterization *)
Lemma msum_app {X} d (f : X -> mat C) l m : meq d (msum f (l ++ m)) (madd (msum f l) (msum f m)).
Proof. intros i j _ _. unfold msum, madd. apply lsum_app. Qed.

Lemma msum_gens d trot phi O g : meq d (msum (fun A => A) (gens d trot phi O g)) (msum (gen d phi O) g).
Proof.
  unfold gens. destruct trot; intros i j _ _; unfold msum.
  - rewrite lsum_map. reflexivity.
  - rewrite lsum_cons, lsum_nil. cbn [kadd k0 CStar]. ring.
Qed.
Lemma msum_groups d trot phi O groups :
  meq d (msum (fun A => A) (flat_map (gens d trot phi O) groups)) (msum (gen d phi O) (List.concat groups)).
Proof.
  induction groups as [|g groups IH]; [reflexivity|]. cbn [flat_map List.concat]. rewrite !msum_app, IH, msum_gens. reflexivity.
Qed.
Lemma msum_all_gens d trot phi obs groups :
  meq d (msum (fun A => A) (all_gens d trot phi obs groups)) (msum (fun O => msum (gen d phi (a_ent O)) (List.concat groups)) obs).
Proof.
  unfold all_gens. induction obs as [|O obs IH]; [reflexivity|]. cbn [flat_map]. rewrite msum_app, IH, msum_groups.
  intros i j _ _. unfold madd, msum. rewrite lsum_cons. reflexivity.
Qed.

Lemma quad_msum {X} d x (f : X -> mat C) l : quad d x (msum f l) = lsum (SR := CStar) (fun a => quad d x (f a)) l.
Proof.
  rewrite quad_trace. rewrite (mtrace_meq d _ (msum (fun a => mmul d (f a) (outer x)) l)) by apply mmul_msum_l.
  unfold mtrace, msum. rewrite lsum_swap. apply lsum_ext. intros a _. rewrite quad_trace. reflexivity.
Qed.
Lemma quad_ext d x M N : meq d M N -> quad d x M = quad d x N.
Proof. intros H. rewrite !quad_trace. apply mtrace_meq. rewrite H. reflexivity. Qed.
Lemma quad_scale d x c M : quad d x (mscale c M) = Cmult c (quad d x M).
Proof.
  rewrite !quad_trace. rewrite (mtrace_meq d _ (mscale c (mmul d M (outer x)))) by apply mmul_scale_l. apply (mtrace_scale (SR := CStar)).
Qed.

Lemma omega_msum {X} d x P (f : X -> mat C) l : lsum (SR := CStar) (fun a => omega d x P (f a)) l = omega d x P (msum f l).
Proof.
  unfold omega. rewrite <- quad_msum. apply quad_ext.
  rewrite mmul_msum_l, mmul_msum_r. intros i j _ _. unfold msub, msum. apply lsum_sub.
Qed.
Lemma omega_scale d x c P O : omega d x (mscale c P) O = Cmult c (omega d x P O).
Proof.
  unfold omega. rewrite <- quad_scale. apply quad_ext. rewrite mmul_scale_l, mmul_scale_r.
  intros i j _ _. unfold msub, mscale. cbn [ksub kmul CStar]. ring.
Qed.
Lemma omega_msum_l {X} d x (f : X -> mat C) l O : omega d x (msum f l) O = lsum (SR := CStar) (fun a => omega d x (f a) O) l.
Proof.
  unfold omega. rewrite <- quad_msum. apply quad_ext.
  rewrite mmul_msum_l, mmul_msum_r. intros i j _ _. unfold msub, msum. symmetry. apply lsum_sub.
Qed.
Lemma omega_ext d x P P' O O' : meq d P P' -> meq d O O' -> omega d x P O = omega d x P' O'.
Proof. apply quad_comm_ext. Qed.

(** the commutator expectation of the sum of the generators is the sum of the
    squares of the commutator expectations *)
Lemma total_omega d x (obs Ps : list (arr C)) :
  omega d x (msum (fun O => msum (gen d x (a_ent O)) Ps) obs) (msum (fun O => a_ent O) obs) =
  lsum (SR := CStar) (fun P => Cmult (omega d x (a_ent P) (msum (fun O => a_ent O) obs)) (omega d x (a_ent P) (msum (fun O => a_ent O) obs))) Ps.
Proof.
  set (H := msum (fun O => a_ent O) obs).
  rewrite omega_msum_l.
  etransitivity; [apply lsum_ext; intros O _; rewrite omega_msum_l; apply lsum_ext; intros P _; unfold gen; apply omega_scale|].
  rewrite lsum_swap. apply lsum_ext. intros P _. etransitivity; [apply (lsum_scale_r (SR := CStar))|].
  rewrite omega_msum. reflexivity.
Qed.

Definition layer_cost (n : nat) (obs : list (arr C)) (U : mat C) : R := rsum (fun O => qnode_expval n U (a_ent O)) obs.

Lemma layer_cost_quad n obs U : layer_cost n obs U = Re (quad (2 ^ n) (qnode_state U) (msum (fun O => a_ent O) obs)).
Proof. rewrite quad_msum, lsum_Re. reflexivity. Qed.

Lemma layer_cost_ext n obs U V : meq (2 ^ n) U V -> layer_cost n obs U = layer_cost n obs V.
Proof.
  intros E. rewrite !layer_cost_quad. f_equal. rewrite !quad_ip. apply ip_ext; [intros i Hi; apply E; auto; apply Nat.neq_0_lt_0, Nat.pow_nonzero; lia|].
  apply mv_ext; [reflexivity|]. intros i Hi; apply E; auto; apply Nat.neq_0_lt_0, Nat.pow_nonzero; lia.
Qed.

Lemma msum_hermitian {X} d (f : X -> mat C) l : (forall a, In a l -> hermitian d (f a)) -> hermitian d (msum f l).
Proof.
  intros H i j Hi Hj. unfold madj, msum. change (Cconj) with (kconj (StarRing := CStar)). rewrite lsum_conj. apply lsum_ext.
  intros a Ha. apply (H a Ha i j); auto.
Qed.

Lemma layer_der n trot obs groups U (F : R -> mat C) : let d := 2 ^ n in
  Forall (fun O => hermitian d (a_ent O)) obs -> Forall (Forall (fun P => hermitian d (a_ent P))) groups ->
  (forall e, meq d (F e) (apply_gens d (RtoC (- e / 2 ^ n)) (all_gens d trot (qnode_state U) obs groups) U)) ->
  is_derive (fun e => layer_cost n obs (F e)) 0%R
    (- (rsum (fun P => (Im (omega d (qnode_state U) (a_ent P) (msum (fun O => a_ent O) obs))) ^ 2) (List.concat groups)) / 2 ^ n)%R.
Proof.
  intros d HO Hg HF.
  set (G := apply_gens d) in HF. set (As := all_gens d trot (qnode_state U) obs groups) in *.
  set (k := (- / 2 ^ n)%R). set (x := qnode_state U).
  assert (Hpos : 0 < d) by (apply Nat.neq_0_lt_0, Nat.pow_nonzero; lia).
  assert (Hk : forall e, (- e / 2 ^ n = e * k)%R) by (intros e; unfold k; unfold Rdiv; ring).
  assert (HD : mder d F 0 (mmul d (mscale (RtoC k) (msum (fun A => A) As)) U)).
  { eapply mder_ext; [| |apply (gens_der d k As (fun _ => U) U mzero); [intros; reflexivity|apply mder_const]].
    - intros t. symmetry. rewrite HF. unfold G. rewrite Hk. reflexivity.
    - rewrite mmul_scale_l. intros i j _ _. unfold madd, mzero. cbn [kadd k0 CStar]. ring. }
  assert (Ha : anti d (mscale (RtoC k) (msum (fun A => A) As))).
  { apply anti_scale. pose proof (all_gens_anti d trot (qnode_state U) obs groups HO Hg) as Hf. fold As in Hf. clear -Hf.
    induction Hf as [|A As HA _ IH].
    - apply (anti_proper d mzero); [intros i j _ _; reflexivity|apply anti_zero].
    - apply (anti_proper d (madd A (msum (fun A => A) As))); [intros i j _ _; unfold msum; rewrite lsum_cons; reflexivity|].
      apply anti_add; auto. }
  assert (H0 : forall e, e = 0%R -> meq d (F e) U).
  { intros e ->. rewrite HF. unfold G. replace (- 0 / 2 ^ n)%R with 0%R by (unfold Rdiv; ring). apply apply_gens_0. }
  pose proof (expval_der d F U _ (msum (fun O => a_ent O) obs) Hpos H0 Ha HD) as Hder.
  eapply is_derive_extR; [intros t; symmetry; apply layer_cost_quad| |exact Hder].
  fold x. change (quad d x (msub (mmul d (mscale (RtoC k) (msum (fun A => A) As)) (msum (fun O => a_ent O) obs))
       (mmul d (msum (fun O => a_ent O) obs) (mscale (RtoC k) (msum (fun A => A) As)))))
    with (omega d x (mscale (RtoC k) (msum (fun A => A) As)) (msum (fun O => a_ent O) obs)).
  rewrite omega_scale. rewrite (omega_ext d x _ (msum (fun O => msum (gen d x (a_ent O)) (List.concat groups)) obs) _ (msum (fun O => a_ent O) obs)); [|apply msum_all_gens|reflexivity].
  rewrite total_omega. set (H := msum (fun O => a_ent O) obs).
  assert (HH : hermitian d H). { apply msum_hermitian. rewrite Forall_forall in HO. auto. }
  rewrite Re_mult, lsum_Re. rewrite Im_RtoC, Re_RtoC.
  rewrite (rsum_ext (fun P => Re (Cmult (omega d x (a_ent P) H) (omega d x (a_ent P) H))) (fun P => (-1) * Im (omega d x (a_ent P) H) ^ 2)%R).
  - rewrite rsum_scale. unfold k. unfold Rdiv. match goal with |- ?a = ?b => change (@eq R a b) end. ring.
  - intros P HP. rewrite Re_mult. apply in_concat in HP. destruct HP as (g & Hgi & HPi).
    rewrite Forall_forall in Hg. specialize (Hg g Hgi). rewrite Forall_forall in Hg.
    pose proof (comm_imaginary d x (a_ent P) H (Hg P HPi) HH) as Hre. fold (omega d x (a_ent P) H) in Hre. rewrite Hre. ring.
Qed.
