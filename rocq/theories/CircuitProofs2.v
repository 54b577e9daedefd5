(** Hamiltonians, circuit unitaries, the parameter shift commutator and Lie
    directions. *)
From Coq Require Import Arith Lia Bool String Permutation Reals Lra Ring Setoid Morphisms.
From Coquelicot Require Import Coquelicot.
From Verif Require Import Py StarRing Matrix Cplx PauliSpec Bits PauliBasis UtilsModel UtilsProofs Expm CircuitModel CircuitProofs.
From Coq Require Import List.
Import ListNotations.
Local Open Scope nat_scope.

Section Gen.
Context {K : Type} {SR : StarRing K}.
Add Ring Kr : (@k_ring K SR).
Local Open Scope K_scope.

(** an operator that fits on n qubits *)
Definition valid_qop (n : nat) (o : qop K) : Prop :=
  q_wires o <> [] /\ NoDup (q_wires o) /\ Forall (fun w => w < n)%nat (q_wires o) /\
  a_rows (q_matrix o) = (2 ^ List.length (q_wires o))%nat /\ a_cols (q_matrix o) = (2 ^ List.length (q_wires o))%nat.

(** its matrix on the whole register *)
Definition qmat (n : nat) (o : qop K) : mat K := emb n (q_wires o) (a_ent (q_matrix o)).

Lemma full_ok n o : valid_qop n o -> exists F, full n o = Ok F /\ a_rows F = (2 ^ n)%nat /\ a_cols F = (2 ^ n)%nat /\ meq (2 ^ n) (a_ent F) (qmat n o).
Proof. intros (H1 & H2 & H3 & H4 & H5). apply full_is_emb; auto. split; auto. Qed.

Definition local_unitary (o : qop K) : Prop := unitary2 (2 ^ List.length (q_wires o)) (a_ent (q_matrix o)).
Definition local_hermitian (o : qop K) : Prop := hermitian (2 ^ List.length (q_wires o)) (a_ent (q_matrix o)).

Lemma emb_unitary n ws A : wires_ok n ws -> unitary2 (2 ^ List.length ws) A -> unitary2 (2 ^ n) (emb n ws A).
Proof.
  intros Hw [H1 H2]. split; rewrite emb_adj, emb_mul by auto; rewrite <- (emb_id n ws) by auto; apply emb_proper; auto.
Qed.
Lemma emb_hermitian n ws A : hermitian (2 ^ List.length ws) A -> hermitian (2 ^ n) (emb n ws A).
Proof. intros H. unfold hermitian. rewrite emb_adj. apply emb_proper. auto. Qed.

Lemma qmat_unitary n o : valid_qop n o -> local_unitary o -> unitary2 (2 ^ n) (qmat n o).
Proof. intros (_ & H2 & H3 & _). apply emb_unitary. split; auto. Qed.
Lemma qmat_hermitian n o : local_hermitian o -> hermitian (2 ^ n) (qmat n o).
Proof. apply emb_hermitian. Qed.

(** ** Circuit unitaries *)

(** product of a list of matrices, first factor leftmost *)
Fixpoint mprod (n : nat) (l : list (mat K)) : mat K :=
  match l with [] => mid | A :: r => mmul n A (mprod n r) end.

Lemma mprod_app n l m : meq n (mprod n (l ++ m)) (mmul n (mprod n l) (mprod n m)).
Proof.
  induction l as [|A l IH]; simpl; [rewrite mmul_1_l; reflexivity|]. rewrite IH, mmul_assoc. reflexivity.
Qed.

Lemma mprod_unitary n l : Forall (unitary2 n) l -> unitary2 n (mprod n l).
Proof. induction 1; simpl; [apply unitary2_id|apply unitary2_mul; auto]. Qed.

Lemma unitary_loop_spec n gates : Forall (valid_qop n) gates -> forall u, exists v,
  unitary_loop n gates u = Ok v /\ meq (2 ^ n) v (mmul (2 ^ n) (mprod (2 ^ n) (map (qmat n) (rev gates))) u).
Proof.
  induction 1 as [|g r Hg Hr IH]; intros u; simpl.
  - exists u. split; auto. rewrite mmul_1_l. reflexivity.
  - destruct (full_ok n g Hg) as (F & E & _ & _ & M). rewrite E. simpl.
    destruct (IH (mmul (2 ^ n) (a_ent F) u)) as (v & Ev & Mv). exists v. split; auto.
    rewrite Mv, map_app, mprod_app. simpl. rewrite mmul_1_r, M, mmul_assoc. reflexivity.
Qed.

Lemma circuit_unitary_spec n gates : Forall (valid_qop n) gates -> exists U,
  circuit_unitary n gates = Ok U /\ a_rows U = (2 ^ n)%nat /\ a_cols U = (2 ^ n)%nat /\
  meq (2 ^ n) (a_ent U) (mprod (2 ^ n) (map (qmat n) (rev gates))).
Proof.
  intros H. unfold circuit_unitary.
  destruct (unitary_loop_spec n gates H (a_ent (np_eye (2 ^ n)))) as (v & -> & M). simpl bind.
  eexists; split; [reflexivity|]. split; [reflexivity|]. split; [reflexivity|]. simpl a_ent.
  rewrite M. simpl a_ent. apply mmul_1_r.
Qed.

(** ** Hamiltonians *)

Definition wsum (n : nat) (c : list K) (obs : list (qop K)) : mat K :=
  msum (fun p => mscale (fst p) (qmat n (snd p))) (combine c obs).

Lemma ham_loop_ok n l obs : Forall (valid_qop n) obs -> forall i h,
  (i + List.length obs <= List.length l)%nat -> exists h',
  ham_loop n (list_get l) i obs h = Ok h' /\ meq (2 ^ n) h' (madd h (wsum n (skipn i l) obs)).
Proof.
  induction 1 as [|o r Ho Hr IH]; intros i h Hl; simpl in *.
  - exists h. split; auto. intros a b _ _. unfold madd, wsum, msum. destruct (skipn i l); simpl; ring.
  - unfold list_get at 1. destruct (nth_error l i) as [x|] eqn:Ex; [|apply nth_error_None in Ex; lia]. simpl.
    destruct (full_ok n o Ho) as (F & E & _ & _ & M). rewrite E. simpl.
    destruct (IH (S i) (madd h (mscale x (a_ent F)))) as (h' & Eh & Mh); [lia|]. exists h'. split; auto.
    rewrite Mh, M.
    assert (Es : skipn i l = x :: skipn (S i) l).
    { clear - Ex. revert i Ex. induction l as [|y l IHl]; intros [|i] Ex; try discriminate; simpl in *.
      - congruence.
      - apply IHl; auto. }
    rewrite Es. intros a b _ _. unfold madd, wsum, msum. cbn [combine]. rewrite lsum_cons. unfold mscale. cbn [fst snd].
    ring.
Qed.

Lemma ham_loop_short n l obs : Forall (valid_qop n) obs -> forall i h,
  (i <= List.length l)%nat -> (List.length l < i + List.length obs)%nat ->
  ham_loop n (list_get l) i obs h = Err IndexError.
Proof.
  induction 1 as [|o r Ho Hr IH]; intros i h Hi Hl; simpl in *; [lia|].
  unfold list_get at 1. destruct (nth_error l i) as [x|] eqn:Ex; [|reflexivity]. simpl.
  assert (i < List.length l)%nat by (apply nth_error_Some; congruence).
  destruct (full_ok n o Ho) as (F & E & _ & _ & M). rewrite E. simpl. apply IH; lia.
Qed.

Lemma hamiltonian_spec n obs coeffs : Forall (valid_qop n) obs ->
  let c := match coeffs with None => repeat 1 (List.length obs) | Some l => l end in
  ((List.length obs <= List.length c)%nat -> exists H, get_hamiltonian_matrix n obs coeffs = Ok H /\
     a_rows H = (2 ^ n)%nat /\ a_cols H = (2 ^ n)%nat /\ meq (2 ^ n) (a_ent H) (wsum n c obs)) /\
  ((List.length c < List.length obs)%nat -> get_hamiltonian_matrix n obs coeffs = Err IndexError).
Proof.
  intros Ho c. unfold get_hamiltonian_matrix.
  replace (match coeffs with Some l => list_get l | None => list_get (repeat 1 (List.length obs)) end) with (list_get c) by (destruct coeffs; auto).
  split; intros Hl.
  - destruct (ham_loop_ok n c obs Ho 0 mzero) as (h & -> & M); [simpl; auto|]. simpl bind.
    eexists; split; [reflexivity|]. split; [reflexivity|]. split; [reflexivity|]. simpl. rewrite M. simpl skipn.
    intros i j _ _. unfold madd, mzero. ring.
  - rewrite ham_loop_short; auto; simpl; lia.
Qed.

Lemma wsum_hermitian n c obs : Forall (fun x => kconj x = x) c -> Forall local_hermitian obs ->
  hermitian (2 ^ n) (wsum n c obs).
Proof.
  intros Hc Ho i j Hi Hj. unfold wsum, msum, madj. rewrite lsum_conj. apply lsum_ext. intros [x o] Hin.
  unfold mscale. cbn [fst snd]. rewrite kconj_mul.
  pose proof (in_combine_l _ _ _ _ Hin) as H1. pose proof (in_combine_r _ _ _ _ Hin) as H2.
  rewrite Forall_forall in Hc, Ho. rewrite (Hc x H1). f_equal. apply (qmat_hermitian n o (Ho o H2) i j); auto.
Qed.

End Gen.

Add Ring Cring2 : C_ring_theory.

(** ** The parameter shift commutator *)

Lemma Ci_sq : Cmult Ci Ci = Copp (RtoC 1).
Proof. apply C_ext; simpl; ring. Qed.

Lemma conj_involution d (O rho : mat C) (a b b' : C) :
  meq d (mmul d (madd (mscale a mid) (mscale b O)) (mmul d rho (madd (mscale a mid) (mscale b' O))))
    (madd (madd (mscale (Cmult a a) rho) (mscale (Cmult b b') (mmul d O (mmul d rho O))))
          (madd (mscale (Cmult a b') (mmul d rho O)) (mscale (Cmult a b) (mmul d O rho)))).
Proof.
  rewrite !mmul_add_r, !mmul_add_l, !mmul_scale_l, !mmul_scale_r, !mmul_1_l, !mmul_1_r.
  intros i j _ _. unfold madd, mscale. cbn [kadd kmul CStar]. ring.
Qed.

(** the gate t -> exp(-i t/2 O) *)
Definition shift_gate (d : nat) (O : mat C) (t : R) : mat C := expm d (mscale (mit (t / 2)) O).

Lemma shift_gate_adj d O t : hermitian d O -> meq d (mmul d O O) mid ->
  meq d (madj (shift_gate d O t)) (madd (mscale (RtoC (cos (t / 2))) mid) (mscale (mit (- sin (t / 2))) O)).
Proof.
  intros Hh Hs. unfold shift_gate. rewrite expm_involution by auto. unfold hermitian in Hh.
  rewrite madj_add, !madj_scale, madj_id, Hh. intros i j _ _. unfold madd, mscale, mit. cbn [kadd kmul kconj CStar].
  f_equal; f_equal; apply C_ext; simpl; ring.
Qed.

Lemma param_shift_comm_spec d rho O : hermitian d O -> meq d (mmul d O O) mid ->
  meq d (param_shift_comm d rho (shift_gate d O)) (mscale Ci (msub (mmul d rho O) (mmul d O rho))).
Proof.
  intros Hh Hs. unfold param_shift_comm. rewrite !shift_gate_adj by auto. unfold shift_gate.
  rewrite !(expm_involution d O) by auto. rewrite !conj_involution.
  replace (- PI / 2 / 2)%R with (- (PI / 4))%R by field. replace (PI / 2 / 2)%R with (PI / 4)%R by field.
  rewrite cos_neg, sin_neg.
  assert (Hcs : (2 * (cos (PI / 4) * sin (PI / 4)) = 1)%R).
  { rewrite <- sin_PI2. replace (PI / 2)%R with (2 * (PI / 4))%R by field. rewrite sin_2a. ring. }
  set (c := cos (PI / 4)) in *. set (s := sin (PI / 4)) in *.
  assert (Hc2 : Cmult (RtoC 2) (Cmult (RtoC c) (RtoC s)) = RtoC 1) by (rewrite <- !RtoC_mult; f_equal; lra).
  intros i j _ _. unfold msub, madd, mscale, mit. cbn [kadd kmul ksub CStar]. rewrite !RtoC_opp.
  set (x := mmul d rho O i j). set (y := mmul d O rho i j). 
  transitivity (Cmult (Cmult Ci (Cminus x y)) (Cmult (RtoC 2) (Cmult (RtoC c) (RtoC s)))).
  - replace (RtoC 2) with (Cplus (RtoC 1) (RtoC 1)) by (apply C_ext; simpl; ring). ring.
  - rewrite Hc2. ring.
Qed.

Lemma comm_hermitian d (rho O : mat C) : hermitian d O -> hermitian d rho ->
  hermitian d (mscale Ci (msub (mmul d rho O) (mmul d O rho))).
Proof.
  intros Ho Hr. unfold hermitian in *. rewrite madj_scale, madj_sub, !madj_mul, Ho, Hr.
  intros i j _ _. unfold mscale, msub. cbn [kmul ksub kconj CStar].
  replace (Cconj Ci) with (Copp Ci) by (apply C_ext; simpl; ring). ring.
Qed.

Lemma comm_traceless d (rho O : mat C) : mtrace d (mscale Ci (msub (mmul d rho O) (mmul d O rho))) = RtoC 0.
Proof. rewrite mtrace_scale, mtrace_sub, (mtrace_mul_comm d O). cbn [kmul ksub CStar]. ring. Qed.

(** ** Vectors *)

Lemma Cconj_conj a : Cconj (Cconj a) = a.
Proof. destruct a. unfold Cconj. simpl. f_equal. ring. Qed.
Lemma Cmult_conj a b : Cconj (Cmult a b) = Cmult (Cconj a) (Cconj b).
Proof. apply C_ext; simpl; ring. Qed.

Definition mv (d : nat) (M : mat C) (x : nat -> C) : nat -> C := fun i => lsum (fun j => Cmult (M i j) (x j)) (seq 0 d).
Definition ip (d : nat) (x y : nat -> C) : C := lsum (fun i => Cmult (Cconj (x i)) (y i)) (seq 0 d).
Definition veq (d : nat) (x y : nat -> C) : Prop := forall i, i < d -> x i = y i.

Lemma quad_ip d x M : quad d x M = ip d x (mv d M x).
Proof.
  unfold quad, ip, mv. apply lsum_ext. intros i _. rewrite <- (lsum_scale_l (SR := CStar)).
  apply lsum_ext. intros j _. cbn [kmul kconj CStar]. ring.
Qed.

Lemma mv_ext d M N x y : meq d M N -> veq d x y -> veq d (mv d M x) (mv d N y).
Proof.
  intros H1 H2 i Hi. unfold mv. apply lsum_ext. intros j Hj. apply in_seq in Hj. rewrite H1, H2 by lia. auto.
Qed.
Lemma ip_ext d x x' y y' : veq d x x' -> veq d y y' -> ip d x y = ip d x' y'.
Proof. intros H1 H2. unfold ip. apply lsum_ext. intros j Hj. apply in_seq in Hj. rewrite H1, H2 by lia. auto. Qed.

Lemma mv_mul d A B x i : mv d (mmul d A B) x i = mv d A (mv d B x) i.
Proof.
  unfold mv, mmul.
  transitivity (lsum (fun j => lsum (fun k => Cmult (Cmult (A i k) (B k j)) (x j)) (seq 0 d)) (seq 0 d)).
  - apply lsum_ext. intros j _. rewrite <- (lsum_scale_r (SR := CStar)). reflexivity.
  - rewrite lsum_swap. apply lsum_ext. intros k _. rewrite <- (lsum_scale_l (SR := CStar)).
    apply lsum_ext. intros j _. cbn [kmul CStar]. ring.
Qed.

Lemma mv_sub d A B x i : mv d (msub A B) x i = Cminus (mv d A x i) (mv d B x i).
Proof.
  unfold mv. change Cminus with (ksub (StarRing := CStar)). rewrite <- lsum_sub. apply lsum_ext. intros j _. unfold msub.
  cbn [ksub CStar]. ring.
Qed.
Lemma mv_scale_mat d c A x i : mv d (mscale c A) x i = Cmult c (mv d A x i).
Proof.
  unfold mv. rewrite <- (lsum_scale_l (SR := CStar)). apply lsum_ext. intros j _. unfold mscale. cbn [kmul CStar]. ring.
Qed.
Lemma mv_scale d c A x i : mv d A (fun j => Cmult c (x j)) i = Cmult c (mv d A x i).
Proof.
  unfold mv. rewrite <- (lsum_scale_l (SR := CStar)). apply lsum_ext. intros j _. cbn [kmul CStar]. ring.
Qed.
Lemma mv_id d x i : i < d -> mv d mid x i = x i.
Proof.
  intros Hi. unfold mv. rewrite (lsum_single (SR := CStar) _ _ i).
  - rewrite mid_eq. cbn [k1 CStar]. ring.
  - apply seq_NoDup.
  - apply in_seq; lia.
  - intros j _ Hn. rewrite mid_neq by auto. cbn [k0 CStar]. ring.
Qed.
Lemma ip_scale_r d c x y : ip d x (fun i => Cmult c (y i)) = Cmult c (ip d x y).
Proof. unfold ip. rewrite <- (lsum_scale_l (SR := CStar)). apply lsum_ext. intros j _. cbn [kmul CStar]. ring. Qed.
Lemma ip_scale_l d c x y : ip d (fun i => Cmult c (x i)) y = Cmult (Cconj c) (ip d x y).
Proof. unfold ip. rewrite <- (lsum_scale_l (SR := CStar)). apply lsum_ext. intros j _. cbn [kmul CStar]. rewrite Cmult_conj. ring. Qed.
Lemma ip_sub_r d x y z : ip d x (fun i => Cminus (y i) (z i)) = Cminus (ip d x y) (ip d x z).
Proof.
  unfold ip. change Cminus with (ksub (StarRing := CStar)) at 2. rewrite <- lsum_sub. apply lsum_ext. intros j _.
  cbn [ksub CStar]. ring.
Qed.
Lemma ip_conj d x y : Cconj (ip d x y) = ip d y x.
Proof.
  unfold ip. change Cconj with (kconj (StarRing := CStar)) at 1. rewrite lsum_conj. apply lsum_ext. intros j _.
  cbn [kconj CStar]. rewrite Cmult_conj, Cconj_conj. ring.
Qed.

Lemma ip_adj d A x y : ip d x (mv d A y) = ip d (mv d (madj A) x) y.
Proof.
  unfold ip, mv.
  transitivity (lsum (fun i => lsum (fun j => Cmult (Cmult (Cconj (x i)) (A i j)) (y j)) (seq 0 d)) (seq 0 d)).
  - apply lsum_ext. intros i _. rewrite <- (lsum_scale_l (SR := CStar)). apply lsum_ext. intros j _. cbn [kmul CStar]. ring.
  - rewrite lsum_swap. apply lsum_ext. intros j _.
    change Cconj with (kconj (StarRing := CStar)) at 2. rewrite lsum_conj.
    rewrite <- (lsum_scale_r (SR := CStar)). apply lsum_ext. intros i _. unfold madj. cbn [kmul kconj CStar].
    rewrite Cmult_conj, Cconj_conj. ring.
Qed.

Lemma ip_hermitian d A x y : hermitian d A -> ip d x (mv d A y) = ip d (mv d A x) y.
Proof.
  intros H. rewrite ip_adj. apply ip_ext; [|intros i _; auto]. apply mv_ext; [exact H|intros i _; auto].
Qed.

Lemma quad_real d A x : hermitian d A -> Im (quad d x A) = 0%R.
Proof.
  intros H. rewrite quad_ip. pose proof (ip_conj d x (mv d A x)) as E. rewrite (ip_hermitian d A x x H) in E at 1.
  rewrite <- (ip_hermitian d A x x H) in E. rewrite (ip_hermitian d A x x H) in E at 1.
  assert (E2 : Cconj (ip d x (mv d A x)) = ip d x (mv d A x)).
  { rewrite ip_conj. symmetry. apply ip_hermitian; auto. }
  apply (f_equal Im) in E2. rewrite Im_conj in E2. lra.
Qed.

(** the density matrix of a vector *)
Definition outer (x : nat -> C) : mat C := fun i j => Cmult (x i) (Cconj (x j)).

Lemma outer_hermitian d x : hermitian d (outer x).
Proof. intros i j _ _. unfold outer, madj. cbn [kconj CStar]. rewrite Cmult_conj, Cconj_conj. ring. Qed.

Lemma mv_outer d x y i : mv d (outer x) y i = Cmult (ip d x y) (x i).
Proof.
  unfold mv, outer, ip. rewrite <- (lsum_scale_r (SR := CStar)). apply lsum_ext. intros j _. cbn [kmul CStar]. ring.
Qed.

Lemma quad_trace d x M : quad d x M = mtrace d (mmul d M (outer x)).
Proof.
  unfold quad, mtrace, mmul, outer. apply lsum_ext. intros i _. apply lsum_ext. intros j _. cbn [kmul kconj CStar]. ring.
Qed.

Lemma mtrace_meq d (A B : mat C) : meq d A B -> mtrace d A = mtrace d B.
Proof. intros H. rewrite H. auto. Qed.

Lemma quad_comm_trace d x P H :
  quad d x (msub (mmul d P H) (mmul d H P)) = mtrace d (mmul d P (msub (mmul d H (outer x)) (mmul d (outer x) H))).
Proof.
  rewrite quad_trace. transitivity (mtrace d (msub (mmul d (mmul d P H) (outer x)) (mmul d (mmul d H P) (outer x)))).
  { apply mtrace_meq. rewrite mmul_sub_l. reflexivity. }
  transitivity (mtrace d (msub (mmul d P (mmul d H (outer x))) (mmul d P (mmul d (outer x) H)))).
  2:{ apply mtrace_meq. rewrite mmul_sub_r. reflexivity. }
  rewrite !mtrace_sub. f_equal.
  - apply mtrace_meq. rewrite mmul_assoc. reflexivity.
  - transitivity (mtrace d (mmul d H (mmul d P (outer x)))).
    { apply mtrace_meq. rewrite mmul_assoc. reflexivity. }
    rewrite mtrace_mul_comm. apply mtrace_meq. rewrite mmul_assoc. reflexivity.
Qed.

Lemma mtrace_adj d (A : mat C) : mtrace d (madj A) = Cconj (mtrace d A).
Proof. unfold mtrace. change Cconj with (kconj (StarRing := CStar)). rewrite lsum_conj. apply lsum_ext. intros; reflexivity. Qed.

(** expectation values of commutators of Hermitian matrices are imaginary *)
Lemma comm_imaginary d x P H : hermitian d P -> hermitian d H ->
  Re (quad d x (msub (mmul d P H) (mmul d H P))) = 0%R.
Proof.
  intros HP HH. rewrite quad_ip.
  rewrite (ip_ext d x x _ (fun i => Cminus (mv d (mmul d P H) x i) (mv d (mmul d H P) x i))); [|intros i _; auto|intros i _; apply mv_sub].
  rewrite ip_sub_r.
  assert (E : ip d x (mv d (mmul d H P) x) = Cconj (ip d x (mv d (mmul d P H) x))).
  { rewrite ip_conj.
    rewrite (ip_ext d x x _ (mv d H (mv d P x))); [|intros i _; auto|intros i _; apply mv_mul].
    rewrite (ip_ext d _ (mv d P (mv d H x)) x x); [|intros i _; apply mv_mul|intros i _; auto].
    rewrite ip_hermitian by auto. rewrite <- (ip_hermitian d P) by auto. auto. }
  rewrite E. rewrite Re_minus, Re_conj. ring.
Qed.

Lemma msub_zero d (A B : mat C) : meq d (msub A B) mzero -> meq d A B.
Proof.
  intros H i j Hi Hj. specialize (H i j Hi Hj). unfold msub, mzero in H. cbn [ksub k0 CStar] in H.
  replace (A i j) with (Cplus (Cminus (A i j) (B i j)) (B i j)) by ring. rewrite H. ring.
Qed.

Lemma C_imag_zero z : Re z = 0%R -> Im z = 0%R -> z = RtoC 0.
Proof. intros. apply C_ext; auto. Qed.

Lemma directions_zero n x H : ip (2 ^ n) x x = RtoC 1 -> hermitian (2 ^ n) H ->
  (forall w, In w (words 4 n) -> Im (quad (2 ^ n) x (msub (mmul (2 ^ n) (pword w) H) (mmul (2 ^ n) H (pword w)))) = 0%R) <->
  exists lam : R, forall i, i < 2 ^ n -> mv (2 ^ n) H x i = Cmult (RtoC lam) (x i).
Proof.
  intros Hx HH. set (d := 2 ^ n) in *. split.
  - intros Hz. set (Q := msub (mmul d H (outer x)) (mmul d (outer x) H)).
    assert (HQ : meq d Q mzero).
    { assert (Hk : knat (K := C) d <> RtoC 0).
      { assert (E : forall m, knat (K := C) m = RtoC (INR m)).
        { induction m as [|m IH]; [reflexivity|]. rewrite S_INR. cbn [knat kadd k1 CStar]. rewrite IH, RtoC_plus. ring. }
        rewrite E. intros E0. apply RtoC_inj in E0. revert E0. apply not_0_INR. apply pow2_nz. }
      apply (mscale_cancel d (knat d)); auto. etransitivity; [symmetry; apply (pauli_expansion n Q)|]. fold d.
      intros i j Hi Hj. unfold msum. unfold mscale at 2, mzero. replace (kmul (knat d) k0) with (RtoC 0) by (cbn [kmul k0 CStar]; ring).
      apply (lsum_zero (SR := CStar)). intros w Hw. unfold mscale.
      replace (mtrace d (mmul d (pword w) Q)) with (RtoC 0); [cbn [kmul k0 CStar]; ring|].
      symmetry. unfold Q. rewrite <- quad_comm_trace. apply C_imag_zero; auto.
      apply comm_imaginary; auto.
      apply words_spec in Hw. destruct Hw as [Hl Hw]. unfold d. rewrite <- Hl. apply pword_herm.
      eapply Forall_impl; [|exact Hw]. simpl; intros; lia. }
    apply msub_zero in HQ.
    exists (Re (ip d x (mv d H x))). intros i Hi.
    assert (E : mv d (mmul d H (outer x)) x i = mv d (mmul d (outer x) H) x i).
    { apply mv_ext; auto. intros j _; auto. }
    rewrite !mv_mul in E. rewrite mv_outer in E.
    rewrite (mv_ext d H H (mv d (outer x) x) x) in E; auto; [|reflexivity|].
    2:{ intros j _. rewrite mv_outer, Hx. ring. }
    rewrite E. f_equal. apply C_ext; [reflexivity|]. rewrite <- quad_ip. rewrite quad_real by auto. reflexivity.
  - intros [lam Hl] w Hw. rewrite quad_ip.
    rewrite (ip_ext d x x _ (fun i => Cminus (mv d (mmul d (pword w) H) x i) (mv d (mmul d H (pword w)) x i))); [|intros i _; auto|intros i _; apply mv_sub].
    rewrite ip_sub_r.
    rewrite (ip_ext d x x (mv d (mmul d (pword w) H) x) (fun i => Cmult (RtoC lam) (mv d (pword w) x i))); [|intros i _; auto|].
    2:{ intros i Hi. rewrite mv_mul. rewrite <- mv_scale. apply mv_ext; auto. reflexivity. }
    rewrite (ip_ext d x x (mv d (mmul d H (pword w)) x) (mv d H (mv d (pword w) x))); [|intros i _; auto|intros i _; apply mv_mul].
    rewrite ip_hermitian by auto.
    rewrite (ip_ext d (mv d H x) (fun i => Cmult (RtoC lam) (x i)) (mv d (pword w) x) (mv d (pword w) x)); auto; [|intros i _; auto].
    rewrite ip_scale_l, ip_scale_r. replace (Cconj (RtoC lam)) with (RtoC lam) by (apply C_ext; simpl; ring).
    rewrite Im_minus. ring.
Qed.

(** sums over the observables *)
Lemma quad_comm_ext d x P P' H H' : meq d P P' -> meq d H H' ->
  quad d x (msub (mmul d P H) (mmul d H P)) = quad d x (msub (mmul d P' H') (mmul d H' P')).
Proof.
  intros H1 H2. rewrite !quad_trace. apply mtrace_meq. rewrite H1, H2. reflexivity.
Qed.

Lemma fold_left_rsum {A} (f : A -> R) l : forall x, fold_left (fun s a => (s + f a)%R) l x = (x + rsum f l)%R.
Proof. induction l as [|a l IH]; intros x; simpl; [lra|]. rewrite IH. lra. Qed.

Lemma quad_comm_sum {A} d x P (f : A -> mat C) l :
  rsum (fun a => Im (quad d x (msub (mmul d P (f a)) (mmul d (f a) P)))) l =
  Im (quad d x (msub (mmul d P (msum f l)) (mmul d (msum f l) P))).
Proof.
  transitivity (rsum (fun a => Im (mtrace d (mmul d (msub (mmul d P (f a)) (mmul d (f a) P)) (outer x)))) l).
  { apply rsum_ext. intros a _. rewrite quad_trace. auto. }
  rewrite quad_trace. rewrite <- lsum_Im. f_equal.
  rewrite (mtrace_meq d (mmul d (msub (mmul d P (msum f l)) (mmul d (msum f l) P)) (outer x))
     (msum (fun a => mmul d (msub (mmul d P (f a)) (mmul d (f a) P)) (outer x)) l)).
  - unfold mtrace, msum. rewrite lsum_swap. reflexivity.
  - rewrite mmul_msum_l, mmul_msum_r.
    transitivity (mmul d (msum (fun a => msub (mmul d P (f a)) (mmul d (f a) P)) l) (outer x)).
    + apply mmul_proper; [|reflexivity]. intros i j _ _. unfold msub, msum. symmetry. apply lsum_sub.
    + apply mmul_msum_l.
Qed.

(** the sum of the observables *)
Definition obs_sum (n : nat) (obs : list (qop C)) : mat C := msum (qmat n) obs.

Lemma mapM_full n (obs : list (qop C)) : Forall (valid_qop n) obs -> exists Fs,
  mapM (full n) obs = Ok Fs /\ Forall2 (fun F o => meq (2 ^ n) (a_ent F) (qmat n o)) Fs obs.
Proof.
  induction 1 as [|o r Ho Hr (Fs & E & HF)]; simpl; [exists []; auto|].
  destruct (full_ok n o Ho) as (F & EF & _ & _ & M). rewrite EF, E. simpl. exists (F :: Fs). auto.
Qed.

Lemma combine_map_same {A B D} (f : A -> B) (g : A -> D) l : combine (map f l) (map g l) = map (fun a => (f a, g a)) l.
Proof. induction l; simpl; auto. rewrite IHl; auto. Qed.

Lemma directions_spec n U (obs : list (qop C)) : Forall (valid_qop n) obs ->
  get_all_su_n_directions n U obs =
  Ok (map (fun w => (word_name w,
     (Im (quad (2 ^ n) (qnode_state U) (msub (mmul (2 ^ n) (pword w) (obs_sum n obs)) (mmul (2 ^ n) (obs_sum n obs) (pword w)))) / 2 ^ n)%R))
   (words 4 n)).
Proof.
  intros Ho. unfold get_all_su_n_directions. destruct (mapM_full n obs Ho) as (Fs & -> & HF). simpl bind.
  rewrite su_n_eq by apply pow2_pos. rewrite Nat.log2_pow2 by lia. simpl bind. cbn iota.
  rewrite combine_map_same. rewrite map_map. f_equal. apply map_ext_in. intros w Hw. cbn [fst snd].
  change (alpha true) with 4 in Hw. rewrite map_add0. f_equal.
  destruct (su_op_spec (K := C) true n w Hw) as (_ & _ & M). rewrite map_add0 in M.
  rewrite (fold_left_rsum (fun obs0 => Im (quad (2 ^ n) (qnode_state U)
     (msub (mmul (2 ^ n) (a_ent (su_op true w)) (a_ent obs0)) (mmul (2 ^ n) (a_ent obs0) (a_ent (su_op true w))))) / 2 ^ n)%R).
  rewrite Rplus_0_l. unfold obs_sum. rewrite <- quad_comm_sum. unfold Rdiv.
  assert (E : rsum (fun obs0 => Im (quad (2 ^ n) (qnode_state U)
     (msub (mmul (2 ^ n) (a_ent (su_op true w)) (a_ent obs0)) (mmul (2 ^ n) (a_ent obs0) (a_ent (su_op true w)))))) Fs
    = rsum (fun o => Im (quad (2 ^ n) (qnode_state U) (msub (mmul (2 ^ n) (pword w) (qmat n o)) (mmul (2 ^ n) (qmat n o) (pword w))))) obs).
  { clear Ho. induction HF as [|F o Fs' obs' HM _ IH]; simpl; auto. rewrite IH. f_equal. f_equal. apply quad_comm_ext; auto. }
  rewrite <- E. rewrite Rmult_comm, <- rsum_scale. apply rsum_ext. intros; ring.
Qed.

Lemma state_norm d U : 0 < d -> unitary d U -> ip d (qnode_state U) (qnode_state U) = RtoC 1.
Proof.
  intros Hd HU. unfold ip, qnode_state. pose proof (HU 0%nat 0%nat Hd Hd) as H. unfold mmul, madj in H.
  cbn [kmul kconj CStar] in H. rewrite H. apply (mid_eq (SR := CStar)).
Qed.

Lemma obs_sum_hermitian n obs : Forall (local_hermitian) obs -> hermitian (2 ^ n) (obs_sum n obs).
Proof.
  intros H i j Hi Hj. unfold obs_sum, msum, madj. rewrite lsum_conj. apply lsum_ext. intros o Ho.
  rewrite Forall_forall in H. apply (qmat_hermitian n o (H o Ho) i j); auto.
Qed.

Lemma quad_identity_word n x H : quad (2 ^ n) x (msub (mmul (2 ^ n) (pword (repeat 0 n)) H) (mmul (2 ^ n) H (pword (repeat 0 n)))) = RtoC 0.
Proof.
  assert (E : meq (2 ^ n) (pword (K := C) (repeat 0 n)) mid).
  { unfold pword. replace (map sigma (repeat 0 n)) with (map (fun _ : nat => @mid C CStar) (repeat 0 n)).
    - rewrite <- (repeat_length 0 n) at 1. apply kronl_id.
    - apply map_ext_in. intros g Hg. apply repeat_spec in Hg. subst. reflexivity. }
  rewrite (quad_comm_ext _ x _ mid H H E) by reflexivity. rewrite quad_trace.
  rewrite (mtrace_meq _ _ mzero).
  - unfold mtrace, mzero. apply (lsum_zero (SR := CStar)). auto.
  - rewrite mmul_1_l, mmul_1_r. intros i j Hi Hj. unfold mmul. apply (lsum_zero (SR := CStar)). intros k Hk. unfold msub.
    cbn [ksub kmul k0 CStar]. ring.
Qed.
