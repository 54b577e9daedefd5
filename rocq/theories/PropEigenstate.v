(** Properties C101 and C103: the figure of eigenstate_perturbation.py. *)
From Coq Require Import ZArith Arith Lia Bool String Reals Lra Ring Setoid Morphisms Classical Permutation Sorting.Sorted.
From Coquelicot Require Import Coquelicot.
From Verif Require Import Py StarRing Matrix Cplx Bits Expm MDeriv UtilsModel CircuitModel CircuitProofs CircuitProofs2 LayerModel LayerProofs OptimizerModel OptProofs RotoProofs
  FlowModel FlowProofs FlowProofs2 Spectral FlowMany AdaptModel AdaptProofs PropLayers PropGreedy PropOptArgs PropOptRun PropFlow PropMany PropFlowRate PropSpectrum PropConserved EigenstateModel.
From Coq Require Import List.
Import ListNotations.
Local Open Scope nat_scope.
Local Open Scope list_scope.

(** ** Specification *)

(** numpy.linalg.eigh returns the eigenvalues in ascending order *)
Definition ascending (d : nat) (eigh : eigh_fun) : Prop := forall H, hermitian d H -> forall i j, i <= j < d -> (fst (eigh d H) i <= fst (eigh d H) j)%R.

(** ** Sorted eigendecompositions exist *)
Fixpoint ins (f : nat -> R) (x : nat) (l : list nat) : list nat :=
  match l with [] => [x] | y :: r => if Rle_dec (f x) (f y) then x :: l else y :: ins f x r end.
Definition sorted_by (f : nat -> R) (l : list nat) : list nat := fold_right (ins f) [] l.
Lemma ins_perm f x l : Permutation (x :: l) (ins f x l).
Proof. induction l as [|y r IH]; [reflexivity|]. cbn [ins]. destruct (Rle_dec _ _); [reflexivity|]. rewrite perm_swap. constructor. exact IH. Qed.
Lemma sorted_perm f l : Permutation l (sorted_by f l).
Proof. induction l as [|x l IH]; [reflexivity|]. cbn [sorted_by fold_right]. rewrite <- ins_perm. constructor. exact IH. Qed.
Lemma ins_sorted f x l : StronglySorted (fun a b => f a <= f b)%R l -> StronglySorted (fun a b => f a <= f b)%R (ins f x l).
Proof.
  induction 1 as [|y r Hr IH Hy]; [repeat constructor|]. cbn [ins]. destruct (Rle_dec (f x) (f y)) as [L|L].
  - constructor; [constructor; assumption|]. constructor; [exact L|]. eapply Forall_impl; [|exact Hy]. intros z Hz. cbv beta in Hz. lra.
  - constructor; [exact IH|]. apply (Permutation_Forall (ins_perm f x r)). constructor; [lra|exact Hy].
Qed.
Lemma sorted_sorted f l : StronglySorted (fun a b => f a <= f b)%R (sorted_by f l).
Proof. induction l as [|x l IH]; [constructor|]. cbn [sorted_by fold_right]. apply ins_sorted. exact IH. Qed.
Lemma sorted_nth (f : nat -> R) l : StronglySorted (fun a b => f a <= f b)%R l -> forall i j, i <= j < List.length l -> (f (nth i l 0%nat) <= f (nth j l 0%nat))%R.
Proof.
  induction 1 as [|y r Hr IH Hy]; intros i j Hij; cbn [List.length] in Hij; [lia|]. destruct i as [|i], j as [|j]; cbn [nth]; [lra| |lia|apply IH; lia].
  rewrite Forall_forall in Hy. apply Hy. apply nth_In. lia.
Qed.

Lemma ascending_exists : exists eigh, forall d, eigh_correct d eigh /\ ascending d eigh.
Proof.
  destruct eigh_exists as (e & He). set (ord := fun d H => sorted_by (fst (e d H)) (seq 0 d)).
  exists (fun d H => (fun k => fst (e d H) (nth k (ord d H) 0), fun i k => snd (e d H) i (nth k (ord d H) 0))). intros d.
  assert (P : forall H, Permutation (seq 0 d) (ord d H)) by (intros H; apply sorted_perm).
  assert (L : forall H, List.length (ord d H) = d) by (intros H; rewrite <- (Permutation_length (P H)), seq_length; reflexivity).
  assert (M : forall H, map (fun k => nth k (ord d H) 0) (seq 0 d) = ord d H).
  { intros H. apply (nth_ext _ _ 0 0); [rewrite map_length, seq_length, L; reflexivity|]. intros k Hk. rewrite map_length, seq_length in Hk. rewrite (nth_indep _ 0 ((fun k => nth k (ord d H) 0) 0)) by (rewrite map_length, seq_length; exact Hk). rewrite (map_nth (fun k => nth k (ord d H) 0) (seq 0 d) 0 k), seq_nth by exact Hk. reflexivity. }
  assert (S : forall H (g : nat -> C), lsum (SR := CStar) (fun k => g (nth k (ord d H) 0)) (seq 0 d) = lsum (SR := CStar) g (seq 0 d)).
  { intros H g. rewrite <- (lsum_map (SR := CStar) (fun k => nth k (ord d H) 0) g), M. symmetry. apply lsum_perm. apply P. }
  assert (B : forall H k, k < d -> nth k (ord d H) 0 < d).
  { intros H k Hk. assert (I : In (nth k (ord d H) 0) (ord d H)) by (apply nth_In; rewrite L; exact Hk). apply (Permutation_in _ (Permutation_sym (P H))) in I. apply in_seq in I. lia. }
  assert (N : forall H, NoDup (ord d H)) by (intros H; apply (Permutation_NoDup (P H)), seq_NoDup).
  split.
  - intros H Hh. specialize (He d H Hh). destruct (e d H) as [Sv V] eqn:E. cbn [fst snd]. destruct He as [[V1 V2] HH].
    assert (E1 : fst (e d H) = Sv) by (rewrite E; reflexivity). 
    split; [split|].
    + intros i j Hi Hj. specialize (V1 (nth i (ord d H) 0) (nth j (ord d H) 0) (B H i Hi) (B H j Hj)). unfold mmul, madj in *. rewrite V1.
      destruct (Nat.eq_dec i j) as [->|Nij]; [rewrite !mid_eq; reflexivity|]. rewrite !mid_neq; [reflexivity|exact Nij|].
      intros Q. apply Nij. apply (proj1 (NoDup_nth (ord d H) 0) (N H)); rewrite ?L; assumption.
    + intros i j Hi Hj. specialize (V2 i j Hi Hj). unfold mmul, madj in *. rewrite <- V2. exact (S H (fun k => kmul (V i k) (kconj (V j k)))).
    + intros i j Hi Hj. rewrite (HH i j Hi Hj). symmetry. exact (S H (fun k => Cmult (Cmult (V i k) (RtoC (Sv k))) (Cconj (V j k)))).
  - intros H Hh i j Hij. cbn [fst]. apply (sorted_nth (fst (e d H))); [apply sorted_sorted|rewrite L; exact Hij].
Qed.
Print Assumptions ascending_exists.

(** ** The Hamiltonian *)
Ltac four i Hi := destruct i as [|[|[|[|i]]]]; [| | | |lia].

(** the matrix of X_1 + X_0 + Y_0 *)
Definition ep_table (r c : nat) : C :=
  match r, c with
  | 0, 1 | 1, 0 | 2, 3 | 3, 2 => (1, 0)%R
  | 0, 2 | 1, 3 => (1, -1)%R
  | 2, 0 | 3, 1 => (1, 1)%R
  | _, _ => (0, 0)%R
  end.
Lemma ep_H_ok : exists H, ep_H = Ok H /\ forall r c, r < 4 -> c < 4 -> H r c = ep_table r c.
Proof.
  eexists. split; [reflexivity|]. intros r c Hr Hc. four r Hr; four c Hc; apply C_ext; cbn; ring.
Qed.
Lemma ep_fits : Forall (fits 2) ep_observables.
Proof. repeat constructor; cbn; try discriminate; auto; try lia. Qed.
Lemma ep_qmat o r c : In o ep_observables -> r < 4 -> c < 4 -> qmat 2 o r c =
  match q_wires o with
  | [0] => if Nat.eqb (r mod 2) (c mod 2) then a_ent (q_matrix o) (r / 2) (c / 2) else RtoC 0
  | _ => if Nat.eqb (r / 2) (c / 2) then a_ent (q_matrix o) (r mod 2) (c mod 2) else RtoC 0
  end.
Proof. intros Ho Hr Hc. destruct Ho as [<-|[<-|[<-|[]]]]; four r Hr; four c Hc; reflexivity. Qed.
Lemma ep_ham : exists G, get_hamiltonian_matrix 2 ep_observables None = Ok G /\ forall r c, r < 4 -> c < 4 -> a_ent G r c = ep_table r c.
Proof.
  destruct (hamiltonian_spec 2 ep_observables None ep_fits) as [A _]. destruct A as (G & EG & _ & _ & M); [cbn; lia|]. exists G. split; [exact EG|].
  intros r c Hr Hc. rewrite (M r c Hr Hc). four r Hr; four c Hc; apply C_ext; cbn; ring.
Qed.

(** ** The start *)
Lemma ep_gates : Forall (unitary_gate 2) ep_circuit.
Proof. repeat constructor; cbn; try discriminate; auto; try lia; try apply hadamard_unitary. Qed.
Lemma ep_start : exists U, circuit_unitary 2 ep_circuit = Ok U /\ forall i, i < 4 -> a_ent U i 0 = RtoC (/ 2).
Proof.
  destruct (circuit_unitary_spec 2 ep_circuit) as (U & E & _ & _ & M); [repeat constructor; cbn; try discriminate; auto; try lia|]. exists U. split; [exact E|].
  assert (Q : (/ sqrt 2 * / sqrt 2 = / 2)%R) by (rewrite <- Rinv_mult, sqrt_sqrt; lra).
  intros i Hi. rewrite (M i 0 Hi ltac:(cbn; lia)). four i Hi; apply C_ext; cbn; lra.
Qed.

(** ** The eigenvalues *)
Lemma xy_value m p q : (p <> RtoC 0 \/ q <> RtoC 0) -> Cmult (1, -1)%R q = Cmult (RtoC m) p -> Cmult (1, 1)%R p = Cmult (RtoC m) q -> (m * m = 2)%R.
Proof.
  intros N E0 E1. destruct p as [a b], q as [c d]. apply (f_equal (fun z => (Re z, Im z))) in E0, E1. simpl in E0, E1. injection E0 as A1 A2. injection E1 as B1 B2.
  apply NNPP. intros Nm. assert (Z : (m * m - 2)%R <> 0%R) by (intros Z; apply Nm; lra). destruct N as [N|N]; apply N; apply C_ext; simpl; apply (Rmult_eq_reg_l (m * m - 2)); try exact Z; nra.
Qed.
Lemma eigenvalue_ext d H G l : meq d H G -> eigenvalue d H l -> eigenvalue d G l.
Proof. intros M (v & Nv & Hv). exists v. split; [exact Nv|]. intros i Hi. rewrite <- (Hv i Hi). apply lsum_ext. intros j Hj. apply in_seq in Hj. rewrite (M i j Hi ltac:(lia)). reflexivity. Qed.

Lemma ep_eigenvalue m : eigenvalue 4 ep_table m <-> ((m - 1) * (m - 1) = 2 \/ (m + 1) * (m + 1) = 2)%R.
Proof.
  split.
  - intros (v & (i & Hi & Nv) & Hv). pose proof (Hv 0 ltac:(lia)) as E0. pose proof (Hv 1 ltac:(lia)) as E1. pose proof (Hv 2 ltac:(lia)) as E2. pose proof (Hv 3 ltac:(lia)) as E3.
    cbn [seq] in E0, E1, E2, E3. rewrite !lsum_cons, lsum_nil in E0, E1, E2, E3. cbn [kadd k0 CStar ep_table] in E0, E1, E2, E3.
    destruct (v 0) as [a0 b0] eqn:V0, (v 1) as [a1 b1] eqn:V1, (v 2) as [a2 b2] eqn:V2, (v 3) as [a3 b3] eqn:V3.
    apply (f_equal (fun z => (Re z, Im z))) in E0, E1, E2, E3. simpl in E0, E1, E2, E3. injection E0 as A0 B0. injection E1 as A1 B1. injection E2 as A2 B2. injection E3 as A3 B3.
    destruct (classic ((a0 + a1, b0 + b1)%R <> RtoC 0 \/ (a2 + a3, b2 + b3)%R <> RtoC 0)) as [N|N].
    + left. apply (xy_value (m - 1) (a0 + a1, b0 + b1)%R (a2 + a3, b2 + b3)%R N); apply C_ext; simpl; lra.
    + right. apply (xy_value (m + 1) (a0 - a1, b0 - b1)%R (a2 - a3, b2 - b3)%R); [|apply C_ext; simpl; lra|apply C_ext; simpl; lra].
      apply NNPP. intros N'. apply not_or_and in N. apply not_or_and in N'. destruct N as [N0 N1], N' as [M0 M1]. apply NNPP in N0, N1, M0, M1.
      apply (f_equal (fun z => (Re z, Im z))) in N0, N1, M0, M1. simpl in N0, N1, M0, M1. injection N0 as N0 N0'. injection N1 as N1 N1'. injection M0 as M0 M0'. injection M1 as M1 M1'.
      apply Nv. four i Hi; [rewrite V0|rewrite V1|rewrite V2|rewrite V3]; apply C_ext; simpl; lra.
  - intros Hm. assert (E : exists s e : R, (s * s = 2 /\ e * e = 1 /\ m = s + e)%R) by (destruct Hm; [exists (m - 1)%R, 1%R|exists (m + 1)%R, (-1)%R]; repeat split; lra).
    destruct E as (s & e & Hs & He & ->).
    exists (fun i => match i with 0 => RtoC s | 1 => RtoC (e * s) | 2 => (1, 1)%R | _ => (e, e)%R end). split; [exists 2; split; [lia|]; intros Q; apply (f_equal Re) in Q; simpl in Q; lra|].
    intros i Hi. cbn [seq]. rewrite !lsum_cons, lsum_nil. cbn [kadd k0 CStar]. four i Hi; apply C_ext; cbn; ring_simplify; try (replace (s ^ 2)%R with 2%R by (cbn; lra)); try (replace (e ^ 2)%R with 1%R by (cbn; lra)); try ring; try nra.
Qed.

Lemma root2 : (sqrt 2 * sqrt 2 = 2 /\ 1 < sqrt 2)%R.
Proof. split; [apply sqrt_sqrt; lra|]. rewrite <- sqrt_1 at 1. apply sqrt_lt_1; lra. Qed.

Lemma ep_lowest H : meq 4 H ep_table -> lowest 4 H (- 1 - sqrt 2) /\ highest 4 H (1 + sqrt 2).
Proof.
  intros M. destruct root2 as [Q P]. assert (M' : meq 4 ep_table H) by (symmetry; exact M).
  split; (split; [apply (eigenvalue_ext 4 ep_table H _ M'), ep_eigenvalue; first [left; nra|right; nra]|]; intros m Hm; apply (eigenvalue_ext 4 H ep_table _ M), ep_eigenvalue in Hm; destruct Hm; nra).
Qed.

Lemma ep_herm H : meq 4 H ep_table -> hermitian 4 H.
Proof. intros M i j Hi Hj. unfold madj. rewrite !M by assumption. four i Hi; four j Hj; apply C_ext; cbn; ring. Qed.

Lemma ep_lines H eigh : meq 4 H ep_table -> eigh_correct 4 eigh -> ascending 4 eigh -> fst (eigh 4 H) 0 = (- 1 - sqrt 2)%R /\ fst (eigh 4 H) 1 = (1 - sqrt 2)%R.
Proof.
  intros M He Ha. destruct root2 as [Q P]. pose proof (ep_herm H M) as Hh. destruct (C100_eigenvalues 4 H eigh Hh He ltac:(lia)) as [A _]. specialize (Ha H Hh). set (f := fst (eigh 4 H)) in *.
  assert (M' : meq 4 ep_table H) by (symmetry; exact M).
  assert (I : forall l, ((l - 1) * (l - 1) = 2 \/ (l + 1) * (l + 1) = 2)%R -> exists k, k < 4 /\ l = f k) by (intros l Hl; apply A, (eigenvalue_ext 4 ep_table H _ M'), ep_eigenvalue; exact Hl).
  destruct (I (- 1 - sqrt 2)%R ltac:(right; nra)) as (k1 & L1 & E1). destruct (I (1 - sqrt 2)%R ltac:(left; nra)) as (k2 & L2 & E2). destruct (I (- 1 + sqrt 2)%R ltac:(right; nra)) as (k3 & L3 & E3). destruct (I (1 + sqrt 2)%R ltac:(left; nra)) as (k4 & L4 & E4).
  assert (O : forall i j, j < 4 -> i < 4 -> (f i < f j)%R -> i < j) by (intros i j Hj Hi L; apply Nat.nle_gt; intros G; specialize (Ha j i ltac:(lia)); lra).
  assert (k1 < k2) by (apply O; [lia|lia|lra]). assert (k2 < k3) by (apply O; [lia|lia|lra]). assert (k3 < k4) by (apply O; [lia|lia|lra]).
  assert (k1 = 0) as -> by lia. assert (k2 = 1) as -> by lia. auto.
Qed.

(** ** C101 *)

(** The matrix written down in line 35 is the one of the observables of line 33. *)
Theorem C101_hamiltonian : exists H G, ep_H = Ok H /\ get_hamiltonian_matrix 2 ep_observables None = Ok G /\ forall r c, r < 4 -> c < 4 -> H r c = a_ent G r c.
Proof. destruct ep_H_ok as (H & EH & MH). destruct ep_ham as (G & EG & MG). exists H, G. split; [exact EH|]. split; [exact EG|]. intros r c Hr Hc. rewrite MH, MG by assumption. reflexivity. Qed.
Print Assumptions C101_hamiltonian.

Lemma diag_first d u H i : mmul (K := C) d (mmul (K := C) d (madj (K := C) u) H) u i 0 = ip d (fun k => u k i) (mv d H (fun k => u k 0)).
Proof. unfold ip. change (mv d (mmul d (madj u) H) (fun k => u k 0) i = lsum (SR := CStar) (fun k => Cmult (Cconj (u k i)) (mv d H (fun k => u k 0) k)) (seq 0 d)). rewrite mv_mul. reflexivity. Qed.

(** The panels with a diagonalization, for any unitary: the first entry is the energy of
    the state; the state is an eigenvector if and only if the rest of the first column of
    U^* H U is zero, and then the rest of the first row and column shown is zero. *)
Theorem C101_diagonal : forall n H u, hermitian (2 ^ n) H -> unitary2 (2 ^ n) u ->
  diagonalization (2 ^ n) u H 0 0 = Re (quad (2 ^ n) (fun i => u i 0) H) /\
  ((exists l, has_value (2 ^ n) H l (fun i => u i 0)) <-> forall i, 0 < i < 2 ^ n -> mmul (K := C) (2 ^ n) (mmul (K := C) (2 ^ n) (madj u) H) u i 0 = RtoC 0) /\
  (forall l, has_value (2 ^ n) H l (fun i => u i 0) -> diagonalization (2 ^ n) u H 0 0 = l /\ forall i, 0 < i < 2 ^ n -> diagonalization (2 ^ n) u H i 0 = 0%R /\ diagonalization (2 ^ n) u H 0 i = 0%R).
Proof.
  intros n H u Hh [U1 U2]. set (d := 2 ^ n) in *. assert (Hd : 0 < d) by apply pow2_pos'. set (x := fun k => u k 0).
  set (D := mmul (K := C) d (mmul (K := C) d (madj u) H) u).
  assert (A0 : D 0 0 = quad d x H) by (unfold D; rewrite diag_first, quad_ip; reflexivity).
  assert (V : forall l, has_value d H l x -> forall i, i < d -> D i 0 = Cmult (RtoC l) (mid (K := C) i 0)).
  { intros l Hl i Hi. unfold D. rewrite diag_first. rewrite (ip_ext d _ (fun k => u k i) _ (fun k => Cmult (RtoC l) (x k)) (veq_refl d _)); [|intros k Hk; exact (Hl k Hk)].
    rewrite ip_scale_r. f_equal. exact (U1 i 0 Hi Hd). }
  assert (Hherm : forall i, i < d -> D 0 i = Cconj (D i 0)).
  { intros i Hi. assert (HD : hermitian d D). { unfold hermitian, D in *. rewrite !madj_mul, madj_adj_eq, Hh, mmul_assoc. reflexivity. } specialize (HD 0 i Hd Hi). unfold madj in HD. symmetry. exact HD. }
  split; [unfold diagonalization; fold D; rewrite A0; reflexivity|]. split; [split|].
  - intros (l & Hl) i Hi. fold D. rewrite (V l Hl i ltac:(lia)), mid_neq by lia. cbn [k0 CStar]. ring.
  - intros Z. exists (Re (D 0 0)). fold D in Z.
    assert (I0 : Im (D 0 0) = 0%R). { pose proof (f_equal Im (Hherm 0 Hd)) as Q. destruct (D 0 0) as [a b]. simpl in *. lra. }
    assert (C0 : veq d (mv d (madj u) (mv d H x)) (fun i => Cmult (RtoC (Re (D 0 0))) (mid (K := C) i 0))).
    { intros i Hi. rewrite <- mv_mul. change (D i 0 = Cmult (RtoC (Re (D 0 0))) (mid (K := C) i 0)). destruct (Nat.eq_dec i 0) as [->|Ni].
      - rewrite mid_eq. destruct (D 0 0) as [a b]. simpl in I0 |- *. rewrite I0. apply C_ext; simpl; ring.
      - rewrite (Z i ltac:(lia)), mid_neq by exact Ni. cbn [k0 CStar]. ring. }
    intros i Hi. change (mv d H x i = Cmult (RtoC (Re (D 0 0))) (x i)). rewrite <- (PropSpectrum.back d u (mv d H x) U2 i Hi), (mv_veq d u _ _ C0 i Hi), mv_scale. f_equal.
    unfold mv. rewrite (lsum_single (SR := CStar) _ _ 0); [rewrite mid_eq; cbn [kmul k1 CStar]; unfold x; ring|apply seq_NoDup|apply in_seq; lia|].
    intros j Hj Nj. rewrite mid_neq by exact Nj. cbn [kmul k0 CStar]. ring.
  - intros l Hl. split.
    + unfold diagonalization. fold D. rewrite (V l Hl 0 Hd), mid_eq. cbn [k1 CStar]. simpl. ring.
    + intros i Hi. unfold diagonalization. fold D. rewrite (Hherm i ltac:(lia)), (V l Hl i ltac:(lia)), mid_neq by lia. cbn [k0 CStar]. simpl. split; ring.
Qed.
Print Assumptions C101_diagonal.

(** ** The runs *)
Lemma ep_pauli : Forall pauli_type ep_observables.
Proof.
  repeat constructor; unfold hermitian_obs, hermitian; cbn [q_wires List.length q_matrix]; change (2 ^ 1) with 2; intros i j Hi Hj;
    (destruct i as [|[|i]]; [| |lia]); (destruct j as [|[|j]]; [| |lia]); apply C_ext; cbn; ring.
Qed.
Lemma ep_hermitian : Forall hermitian_obs ep_observables.
Proof. eapply Forall_impl; [|exact ep_pauli]. intros o [H _]. exact H. Qed.

Lemma ep_cost u : exact_cost 2 ep_observables u = Ok (Re (quad 4 (fun i => u i 0) ep_table)).
Proof.
  assert (Q : exists Fs, Forall2 (fun o F => full 2 o = Ok F) ep_observables Fs /\ Forall2 (embedded 2) ep_observables Fs).
  { pose proof ep_fits as Hf. induction Hf as [|o l Ho _ (Fs & A & B)]; [exists []; split; constructor|]. destruct (obs_one 2 o Ho) as (F & EF & HE & _). exists (F :: Fs). split; constructor; assumption. }
  destruct ep_ham as (G & EG & MG). destruct Q as (Fs & A & B). rewrite (cost_energy 2 _ Fs u A). f_equal. destruct (hamiltonian_sum 2 ep_observables Fs G ep_fits ep_hermitian B EG) as [M _].
  rewrite energy_quad, !quad_ip. f_equal. apply ip_ext; [apply veq_refl|]. apply mv_ext; [|apply veq_refl]. change (2 ^ 2) with 4 in *. rewrite <- M. exact MG.
Qed.

(** X on the second qubit, which commutes with all three observables *)
Definition ep_X1 (r c : nat) : C := match r, c with 0, 1 | 1, 0 | 2, 3 | 3, 2 => (1, 0)%R | _, _ => (0, 0)%R end.
Lemma ep_commutes : commutes 2 ep_observables ep_X1.
Proof.
  intros o F Ho HE. assert (Hf : fits 2 o) by (pose proof ep_fits as Hf; rewrite Forall_forall in Hf; auto).
  destruct (obs_one 2 o Hf) as (G & EG & HG & _). destruct (full_ok 2 o Hf) as (G' & EG' & _ & _ & M). assert (G' = G) as -> by congruence.
  assert (Q : meq (2 ^ 2) (a_ent F) (qmat 2 o)). { rewrite <- M. apply (PropShiftRun.embedded_unique 2 o F G); [apply Hf|exact HE|exact HG]. }
  rewrite Q. clear Q M EG EG' HG HE Hf G F. change (2 ^ 2) with 4. intros r c Hr Hc. unfold mmul. cbn [seq]. rewrite !lsum_cons, !lsum_nil.
  destruct Ho as [<-|[<-|[<-|[]]]]; four r Hr; four c Hc; apply C_ext; cbn; ring.
Qed.
Lemma ep_X1_start u : (forall i, i < 4 -> u i 0 = RtoC (/ 2)) -> has_value 4 ep_X1 1 (fun i => u i 0).
Proof. intros H i Hi. cbn [seq]. rewrite !lsum_cons, lsum_nil, !H by lia. four i Hi; apply C_ext; cbn; ring. Qed.

Lemma ep_floor u : unitary2 4 u -> has_value 4 ep_X1 1 (fun i => u i 0) -> (1 - sqrt 2 <= Re (quad 4 (fun i => u i 0%nat) ep_table))%R.
Proof.
  intros [Hu _] Hv. destruct root2 as [Q P]. pose proof (Hu 0 0 ltac:(lia) ltac:(lia)) as N. pose proof (Hv 0 ltac:(lia)) as V0. pose proof (Hv 2 ltac:(lia)) as V2.
  unfold mmul, madj in N. cbn [seq] in N, V0, V2. rewrite !lsum_cons, lsum_nil in N, V0, V2. cbn [kadd k0 CStar ep_X1] in N, V0, V2.
  rewrite quad_ip. unfold ip, mv. cbn [seq]. rewrite !lsum_cons, !lsum_nil.
  destruct (u 0 0) as [a b], (u 1 0) as [a' b'], (u 2 0) as [c d], (u 3 0) as [c' d'].
  apply (f_equal Re) in N. apply (f_equal (fun z => (Re z, Im z))) in V0, V2. simpl in N, V0, V2. injection V0 as A1 A2. injection V2 as B1 B2.
  assert (a' = a) as -> by lra. assert (b' = b) as -> by lra. assert (c' = c) as -> by lra. assert (d' = d) as -> by lra.
  cbn. assert (N' : (2 * (a * a + b * b + c * c + d * d) = 1)%R) by lra. clear - N' Q P.
  assert (T : (0 <= sqrt 2 * ((sqrt 2 * a + (c + d)) * (sqrt 2 * a + (c + d)) + (sqrt 2 * b + (d - c)) * (sqrt 2 * b + (d - c))))%R).
  { apply Rmult_le_pos; [lra|]. apply Rplus_le_le_0_compat; apply Rle_0_sqr. }
  set (s := sqrt 2) in *.
  assert (T2 : (s * ((s * a + (c + d)) * (s * a + (c + d)) + (s * b + (d - c)) * (s * b + (d - c))) = s * (2 * (a * a + b * b + c * c + d * d)) + 4 * (a * (c + d) + b * (d - c)))%R).
  { replace (s * ((s * a + (c + d)) * (s * a + (c + d)) + (s * b + (d - c)) * (s * b + (d - c))))%R with (s * ((s * s) * (a * a + b * b) + 2 * (c * c + d * d)) + 2 * (s * s) * (a * (c + d) + b * (d - c)))%R by ring. rewrite Q. ring. }
  rewrite T2, N' in T. lra.
Qed.

Definition kw_unp : kwargs := [("eta"%string, PyFloat (Fin (/ 5))); ("return_unitary"%string, PyBool true); ("nsteps"%string, PyInt 100)].
Definition kw_p : kwargs := [("eta"%string, PyFloat (Fin (/ 5))); ("perturbation"%string, PyBool true); ("return_perturbations"%string, PyBool true);
  ("return_unitary"%string, PyBool true); ("nsteps"%string, PyInt 100)].
Lemma kw_unp_ok : ex_accepts kw_unp.
Proof.
  unfold ex_accepts, allowed, arg, kw_unp. cbn. split; [intros v H; assert (v = PyInt 100) as -> by congruence; right; exists 100%Z; split; [reflexivity|lia]|].
  split; [intros v H; assert (v = PyFloat (Fin (/ 5))) as -> by congruence; exists (/ 5)%R; split; [reflexivity|lra]|]. split; [intros v H; discriminate|].
  split; [|intros H; discriminate]. intros name Hin v H. simpl in Hin. intuition; subst; cbn in H; try discriminate; injection H as <-; eexists; reflexivity.
Qed.
Lemma kw_p_ok : ex_accepts kw_p.
Proof.
  unfold ex_accepts, allowed, arg, kw_p. cbn. split; [intros v H; assert (v = PyInt 100) as -> by congruence; right; exists 100%Z; split; [reflexivity|lia]|].
  split; [intros v H; assert (v = PyFloat (Fin (/ 5))) as -> by congruence; exists (/ 5)%R; split; [reflexivity|lra]|]. split; [intros v H; discriminate|].
  split; [|intros H; reflexivity]. intros name Hin v H. simpl in Hin. intuition; subst; cbn in H; try discriminate; injection H as <-; eexists; reflexivity.
Qed.

Lemma marks_ok cs ps : Forall (fun p => p < List.length cs) ps -> marks cs ps = Ok (map (fun p => (p, nth p cs 0%R)) ps).
Proof.
  induction 1 as [|p ps Hp _ IH]; [reflexivity|]. unfold marks in *. cbn [mapM map]. rewrite IH. unfold list_get. rewrite (nth_error_nth' cs 0%R Hp). reflexivity.
Qed.

(** The figure: it is drawn without an error, for any correct eigh that sorts the
    eigenvalues. The dashed lines are the two smallest eigenvalues of the Hamiltonian of
    the observables. Both curves start at 2. The curve without perturbations never gets
    below the gray line, so it does not reach the minimum; the one with perturbations
    never gets below the black line. The first entry of the left panel is the last cost
    of the curve, that of the middle panel as well unless the last step stalls. The marks
    are on the curve, one for each step that stalls. *)
Theorem C101_figure : forall eigh random, eigh_correct 4 eigh -> ascending 4 eigh -> exists fig, two_observables_2_qubits eigh random = Ok fig /\
  line0 fig = (- 1 - sqrt 2)%R /\ line1 fig = (1 - sqrt 2)%R /\
  (exists G, get_hamiltonian_matrix 2 ep_observables None = Ok G /\ lowest 4 (a_ent G) (line0 fig) /\ eigenvalue 4 (a_ent G) (line1 fig) /\
     forall l, eigenvalue 4 (a_ent G) l -> (l < line1 fig)%R -> l = line0 fig) /\
  nth_error (costs_unp fig) 0 = Some 2%R /\ nth_error (costs_p fig) 0 = Some 2%R /\
  Forall (fun c => line1 fig <= c <= 1 + sqrt 2)%R (costs_unp fig) /\ Forall (fun c => line0 fig <= c <= 1 + sqrt 2)%R (costs_p fig) /\
  stop_rule 3 1 (Some (Fin (/ 1000)%R)) 100 (costs_unp fig) /\ List.length (costs_p fig) = 101 /\
  diag1 fig 0 0 = last (costs_unp fig) 0%R /\ (~ stalls 3 1 (Some (Fin (/ 1000)%R)) (costs_p fig) 99 -> diag2 fig 0 0 = last (costs_p fig) 0%R) /\
  exists ps, perturbation_rule 3 1 (Some (Fin (/ 1000)%R)) 100 (costs_p fig) ps /\ marked fig = map (fun p => (p, nth p (costs_p fig) 0%R)) ps.
Proof.
  intros eigh random He Ha. destruct root2 as [Q P]. destruct ep_H_ok as (H & EH & MH). destruct ep_ham as (G & EG & MG). destruct ep_start as (U & EU & MU).
  destruct (ep_lines H eigh MH He Ha) as [L0 L1]. destruct (ep_lowest _ MG) as [Lo Hi].
  assert (He2 : eigh_correct (2 ^ 2) eigh) by exact He.
  destruct (C66_exact_unitary unit unit unit 2 ep_circuit ep_observables eigh random kw_unp ep_gates ep_fits He2 kw_unp_ok) as (r1 & E1 & K1).
  destruct (C66_exact_unitary unit unit unit 2 ep_circuit ep_observables eigh random kw_p ep_gates ep_fits He2 kw_p_ok) as (r2 & E2 & K2).
  destruct (C60_exact_shape _ _ _ _ _ _ _ _ _ _ _ _ kw_unp_ok E1) as (c1 & ss1 & ps1 & u1 & R1). destruct (C60_exact_shape _ _ _ _ _ _ _ _ _ _ _ _ kw_p_ok E2) as (c2 & ss2 & ps2 & u2 & R2).
  pose proof (C61_returned_cost_partial _ _ _ _ _ _ _ _ _ _ _ _ _ _ kw_unp_ok E1 R1 eq_refl) as T1. pose proof (C61_returned_cost_partial _ _ _ _ _ _ _ _ _ _ _ _ _ _ kw_p_ok E2 R2 eq_refl) as T2.
  pose proof (C100_exact _ _ _ _ _ _ _ _ _ _ _ _ _ _ _ ep_gates ep_fits ep_hermitian He2 kw_p_ok E2 R2 EG _ _ Lo Hi) as [B2 _].
  pose proof (C100_exact _ _ _ _ _ _ _ _ _ _ _ _ _ _ _ ep_gates ep_fits ep_hermitian He2 kw_unp_ok E1 R1 EG _ _ Lo Hi) as [B1 _].
  destruct (C102_run _ _ _ _ _ _ _ _ _ _ _ _ _ _ ep_X1 1%R U ep_gates ep_fits ep_pauli He2 kw_unp_ok eq_refl E1 R1 EU ep_commutes (ep_X1_start _ MU)) as (_ & _ & ws & W).
  destruct (C58_exact_perturbations _ _ _ _ _ _ _ _ _ _ _ _ _ _ _ _ kw_p_ok E2 R2 eq_refl) as (Len & PR). specialize (PR eq_refl).
  pose proof (C57_exact_stop _ _ _ _ _ _ _ _ _ _ _ _ _ _ _ _ kw_unp_ok E1 R1 eq_refl) as ST.
  destruct (C56_exact_histories _ _ _ _ _ _ _ _ _ _ _ _ _ _ _ _ kw_unp_ok E1 R1) as (w1 & v1 & m1 & S1 & F1 & _ & _ & _ & D1 & _).
  destruct (C56_exact_histories _ _ _ _ _ _ _ _ _ _ _ _ _ _ _ _ kw_p_ok E2 R2) as (w2 & v2 & m2 & S2 & F2 & _ & _ & _ & D2 & _).
  rewrite EU in S1, S2. cbn [bind] in S1, S2. assert (v1 = a_ent U) as -> by congruence. assert (v2 = a_ent U) as -> by congruence.
  assert (First : forall ws cs, nth_error ws 0 = Some (a_ent U) -> Forall2 (fun u c => exact_cost 2 ep_observables u = Ok c) ws cs -> nth_error cs 0 = Some 2%R).
  { intros ws' cs F D. destruct D as [|w c ws' cs Ec _]; [discriminate|]. cbn in F |- *. assert (w = a_ent U) as -> by congruence. rewrite ep_cost in Ec. assert (c = Re (quad 4 (fun i => a_ent U i 0) ep_table)) as -> by congruence. f_equal.
    rewrite quad_ip, (ip_ext 4 _ (fun _ => RtoC (/ 2)) _ (mv 4 ep_table (fun _ => RtoC (/ 2)))); [unfold ip, mv; cbn [seq]; rewrite !lsum_cons, !lsum_nil; cbn; lra|exact MU|apply mv_veq; exact MU]. }
  assert (Diag : forall u c, exact_cost 2 ep_observables u = Ok c -> diagonalization 4 u H 0 0 = c).
  { intros u c Ec. rewrite ep_cost in Ec. assert (c = Re (quad 4 (fun i => u i 0) ep_table)) as -> by congruence. unfold diagonalization. rewrite diag_first, quad_ip. f_equal. apply ip_ext; [apply veq_refl|]. apply mv_ext; [exact MH|apply veq_refl]. }
  pose proof (First _ _ F1 D1) as Z1. pose proof (First _ _ F2 D2) as Z2.
  assert (Marks : marks c2 ps2 = Ok (map (fun p => (p, nth p c2 0%R)) ps2)).
  { apply marks_ok. apply Forall_forall. intros p Hp. destruct PR as (_ & _ & PI). apply PI in Hp. rewrite Len. lia. }
  unfold ex_result in R1, R2. cbn in R1, R2. subst r1 r2. unfold two_observables_2_qubits. rewrite EH. cbn [bind]. fold kw_unp kw_p. rewrite E1. cbn [bind]. rewrite E2. cbn [bind]. rewrite Marks. cbn [bind].
  eexists. split; [reflexivity|]. cbn [line0 line1 costs_unp costs_p diag1 diag2 marked]. rewrite L0, L1. split; [reflexivity|]. split; [reflexivity|]. split; [|split; [exact Z1|]; split; [exact Z2|]; split; [|split; [exact B2|]; split; [exact ST|]; split; [exact Len|]; split; [|split; [|exists ps2; split; [exact PR|reflexivity]]]]].
  - exists G. split; [exact EG|]. split; [exact Lo|]. split; [apply (eigenvalue_ext 4 ep_table _ _ ltac:(symmetry; exact MG)), ep_eigenvalue; left; nra|].
    intros l El Hl. apply (eigenvalue_ext 4 _ ep_table _ MG), ep_eigenvalue in El. destruct El as [El|El]; [exfalso; nra|]. assert (Z : ((l + 1 - sqrt 2) * (l + 1 + sqrt 2) = 0)%R) by nra. apply Rmult_integral in Z. destruct Z; lra.
  - clear - W B1. rewrite Forall_forall in B1. apply Forall_forall. intros c Hc. specialize (B1 c Hc). split; [|apply B1].
    assert (X : exists w, unitary2 4 w /\ has_value 4 ep_X1 1 (fun i => w i 0) /\ exact_cost 2 ep_observables w = Ok c) by (clear - W Hc; induction W as [|w y ws cs Hw _ IH]; [destruct Hc|destruct Hc as [<-|Hc]; [exists w; exact Hw|apply IH; exact Hc]]).
    destruct X as (w & Hw & Hv & Ec). rewrite ep_cost in Ec. assert (c = Re (quad 4 (fun i => w i 0) ep_table)) as -> by congruence. apply ep_floor; assumption.
  - apply Diag, T1. intros [B _]. discriminate B.
  - intros N. apply Diag, T2. intros [_ B]. rewrite Len in B. exact (N B).
Qed.
Print Assumptions C101_figure.

(** A case: numpy's eigh, as assumed, exists. *)
Example C101_case : exists eigh, eigh_correct 4 eigh /\ ascending 4 eigh /\ forall random, exists fig, two_observables_2_qubits eigh random = Ok fig /\ Forall (fun c => 1 - sqrt 2 <= c)%R (costs_unp fig).
Proof.
  destruct ascending_exists as (eigh & H). destruct (H 4) as [He Ha]. exists eigh. split; [exact He|]. split; [exact Ha|]. intros random.
  destruct (C101_figure eigh random He Ha) as (fig & E & _ & L1 & _ & _ & _ & B & _). exists fig. split; [exact E|]. eapply Forall_impl; [|exact B]. intros c Hc. cbv beta in *. rewrite L1 in Hc. lra.
Qed.

(** A case for C102: X_1 commutes with the three observables, whose sum it is not a
    multiple of, and the start is an eigenvector of X_1 but not of the Hamiltonian. *)
Example C102_case : commutes 2 ep_observables ep_X1 /\ exists U G, circuit_unitary 2 ep_circuit = Ok U /\ get_hamiltonian_matrix 2 ep_observables None = Ok G /\
  has_value 4 ep_X1 1 (fun i => a_ent U i 0) /\ forall l, ~ has_value 4 (a_ent G) l (fun i => a_ent U i 0).
Proof.
  split; [exact ep_commutes|]. destruct ep_start as (U & EU & MU). destruct ep_ham as (G & EG & MG). exists U, G. split; [exact EU|]. split; [exact EG|]. split; [apply ep_X1_start; exact MU|].
  intros l Hl. pose proof (Hl 0 ltac:(lia)) as E. cbn [seq] in E. rewrite !lsum_cons, lsum_nil, !MU, !MG in E by lia. apply (f_equal Im) in E. cbn in E. lra.
Qed.

(** ** C103: refuted. The circuit perturbed in step p is the one computed in step p, whose
    cost is entry p+1 of the costs; the mark is drawn at entry p. *)

(** What holds for any run: the marks are on the curve, after the warm-up, and the cost of
    the circuit that was perturbed is within the tolerance of the height of the mark. *)
Theorem C103_marks_partial : forall P Om Z n gates obs eigh random kw (r : retval (item (nat -> C) P Om (mat C) Z)) cs ss ps u,
  ex_accepts kw -> exact_optimizer eigh random n gates obs RetState kw = Ok r -> ex_result kw r cs ss ps u -> the_flag kw "return_perturbations" = true ->
  exists pts circuits, marks cs ps = Ok pts /\ map fst pts = ps /\ Forall2 (fun w c => exact_cost n obs w = Ok c) circuits cs /\
  forall p c, In (p, c) pts -> 3 < p /\ nth_error cs p = Some c /\ exists w c', nth_error circuits (S p) = Some w /\ exact_cost n obs w = Ok c' /\ close (the_tol kw) c' c /\
    (forall v, nth_error circuits (S (S p)) = Some v -> exact_flow eigh n obs (the_eta kw) (random_perturb eigh n random (the_eta kw) p w) = Ok v).
Proof.
  intros P Om Z n gates obs eigh random kw r cs ss ps u Ha E Hr Hf. assert (Hp : the_flag kw "perturbation" = true) by (apply Ha; exact Hf). unfold exact_optimizer in E.
  destruct (C58_exact_perturbations _ _ _ _ _ _ _ _ _ _ _ _ _ _ _ _ Ha E Hr Hp) as (Len & PR). specialize (PR Hf). destruct PR as (_ & _ & PI).
  destruct (C56_exact_histories _ _ _ _ _ _ _ _ _ _ _ _ _ _ _ _ Ha E Hr) as (circuits & u0 & m & _ & _ & Hl & Hm & Hch & Hcost & _).
  exists (map (fun p => (p, nth p cs 0%R)) ps), circuits. split; [apply marks_ok, Forall_forall; intros p Hin; apply PI in Hin; lia|]. split; [rewrite map_map; apply map_id|]. split; [exact Hcost|].
  intros p c Hin. apply in_map_iff in Hin. destruct Hin as (q & Q & Hq). injection Q as -> <-. apply PI in Hq. destruct Hq as (Hlt & St). assert (St' := St). destruct St as (Hw & t & x & y & Et & Ex & Ey & Hc). injection Et as <-.
  replace (S p - 1) with p in Ey by lia. split; [exact Hw|]. rewrite (nth_error_nth _ _ 0%R Ey). split; [exact Ey|].
  assert (X : exists w, nth_error circuits (S p) = Some w /\ exact_cost n obs w = Ok x).
  { clear - Hcost Ex. revert Ex. generalize (S p). induction Hcost as [|w c cw cc Ew _ IH]; intros [|k] Ex; try discriminate; cbn in Ex |- *; [exists w; split; [reflexivity|congruence]|apply IH; exact Ex]. }
  destruct X as (w & Ew & Cw). exists w, x. split; [exact Ew|]. split; [exact Cw|]. split; [exact Hc|]. intros v Ev. specialize (Hch (S p) w v Ew Ev). cbn beta in Hch. destruct Hch as (w' & Hre & Hfl). cbn [restart] in Hre.
  destruct Hre as [(_ & _ & ->)|(No & _)]; [exact Hfl|exfalso; apply No; split; [exact Hp|exact St']].
Qed.
Print Assumptions C103_marks_partial.

Lemma next_inside eta m : (0 < eta <= 1)%R -> (-1 < m < 1)%R -> (-1 < next_cost eta m < m)%R.
Proof.
  intros He Hm. pose proof (next_cost_le eta m ltac:(lra) ltac:(lra)) as [_ B]. pose proof (next_cost_stall eta m He ltac:(lra)) as [Ns _].
  assert (N : next_cost eta m <> m) by (intros Q; specialize (Ns Q); nra). split; [|lra].
  assert (Ac : (0 < acos m < PI)%R).
  { pose proof (acos_bound m) as [A1 A2]. split; apply Rnot_le_lt; intros Q; [assert (Z : acos m = 0%R) by lra; pose proof (cos_acos m ltac:(lra)) as W; rewrite Z, cos_0 in W; lra|assert (Z : acos m = PI) by lra; pose proof (cos_acos m ltac:(lra)) as W; rewrite Z, cos_PI in W; lra]. }
  rewrite next_cost_angle by lra. rewrite <- cos_PI. assert (L : (next_angle eta (acos m) < PI)%R).
  { unfold next_angle. assert (S1 : (sin (acos m) < PI - acos m)%R) by (rewrite <- sin_PI_x; apply sin_lt_x; lra). assert (S0 : (0 < sin (acos m))%R) by (apply sin_gt_0; lra). nra. }
  pose proof (next_angle_bound eta (acos m) ltac:(lra) ltac:(lra)). apply cos_decreasing_1; lra.
Qed.

Definition mark_kw : kwargs := [("nsteps", PyInt 5); ("eta", PyFloat (Fin 1)); ("tol", PyFloat PInf); ("perturbation", PyBool true); ("return_perturbations", PyBool true)]%string.
Lemma mark_kw_ok : ex_accepts mark_kw.
Proof.
  unfold ex_accepts, allowed, arg. cbn. split; [intros v H; injection H as <-; right; exists 5%Z; split; [reflexivity|lia]|].
  split; [intros v H; injection H as <-; exists 1%R; split; [reflexivity|lra]|]. split; [intros v H; injection H as <-; left; reflexivity|].
  split; [|intros H; reflexivity]. intros name Hin v H. simpl in Hin. intuition; subst; cbn in H; try discriminate; injection H as <-; eexists; reflexivity.
Qed.
Definition h_gate : qop C := gate_qop (AH 0).
Lemma h_gate_ok : unitary_gate 1 h_gate.
Proof. repeat constructor; cbn; try discriminate; auto; try lia; try apply hadamard_unitary. Qed.

Theorem C103_marks_refuted : forall P Om Z, exists n gates obs kw,
  Forall (unitary_gate n) gates /\ Forall (fits n) obs /\ Forall pauli_type obs /\ ex_accepts kw /\
  forall eigh random, eigh_correct (2 ^ n) eigh -> exists cs p c c',
    exact_optimizer (P := P) (Om := Om) (Z := Z) eigh random n gates obs RetState kw = Ok (RTuple [ItCosts cs; ItPerturbations [p]]) /\
    marks cs [p] = Ok [(p, c)] /\ nth_error cs (S p) = Some c' /\ (c' < c)%R.
Proof.
  intros P Om Z. exists 1, [h_gate], [z_obs], mark_kw. assert (Hg : Forall (unitary_gate 1) [h_gate]) by (constructor; [apply h_gate_ok|constructor]).
  assert (Hf : Forall (fits 1) [z_obs]) by (constructor; [apply z_obs_fit|constructor]).
  split; [exact Hg|]. split; [exact Hf|]. split; [constructor; [apply z_obs_pauli|constructor]|]. split; [apply mark_kw_ok|]. intros eigh random He.
  destruct (C66_exact_unitary P Om Z 1 [h_gate] [z_obs] eigh random mark_kw Hg Hf He mark_kw_ok) as (r & Er & _). assert (Er' := Er). unfold exact_optimizer in Er'.
  destruct (start_unitary 1 [h_gate] Hg) as (U & EU & HU).
  destruct (C60_exact_shape _ _ _ _ _ _ _ _ _ _ _ r mark_kw_ok Er') as (cs & ss & ps & u & Hr).
  destruct (C56_exact_histories _ _ _ _ _ _ _ _ _ _ _ _ _ _ _ _ mark_kw_ok Er' Hr) as (us & u0 & m & Eu0 & Hu0 & Hl & Hm & Hch & Hcost & _ & _).
  destruct (C58_exact_perturbations _ _ _ _ _ _ _ _ _ _ _ r cs ss ps u mark_kw_ok Er' Hr eq_refl) as (Hlc & PR). specialize (PR eq_refl).
  change (the_steps mark_kw) with 5 in *. change (the_eta mark_kw) with 1%R in *. change (the_tol mark_kw) with PInf in *. change (the_flag mark_kw "perturbation") with true in *.
  rewrite EU in Eu0. cbn [bind] in Eu0. assert (u0 = a_ent U) as -> by congruence.
  pose proof (Forall2_length' _ _ _ Hcost) as Hlen. assert (m = 5) by lia. subst m.
  assert (Q : forall k w, nth_error us k = Some w -> exists c, nth_error cs k = Some c /\ exact_cost 1 [z_obs] w = Ok c).
  { clear - Hcost. induction Hcost as [|w y cw cc Ew H IH]; intros [|i] v Hx; try discriminate; cbn in Hx |- *; [injection Hx as <-; eauto|apply IH; exact Hx]. }
  assert (H1 : forall k w, k <= 5 -> nth_error us k = Some w -> unitary2 (2 ^ 1) w /\ exists c, exact_cost 1 [z_obs] w = Ok c /\ (-1 < c < 1)%R /\ (forall j v, k = S j -> nth_error us j = Some v -> exists b, exact_cost 1 [z_obs] v = Ok b /\ (c < b)%R)).
  { induction k as [|k IH]; intros w Hk Hw.
    - rewrite Hu0 in Hw. assert (w = a_ent U) as -> by congruence. split; [exact HU|]. exists 0%R. split; [|split; [lra|intros j v B; discriminate B]].
      destruct (circuit_unitary_spec 1 [h_gate]) as (U' & EU' & _ & _ & M); [constructor; [apply h_gate_ok|constructor]|]. assert (U' = U) as -> by congruence.
      rewrite z_cost, (M 0 0), (M 1 0) by (cbn; lia). f_equal. cbn. ring.
    - destruct (nth_error us k) as [x|] eqn:Ex; [|apply nth_error_None in Ex; lia]. destruct (IH x ltac:(lia) eq_refl) as (Hx & c & Ec & Hc & _).
      destruct (Hch k x w Ex Hw) as (x' & Hx' & Ef).
      assert (x' = x) as ->. { destruct k as [|j]; cbn [restart] in Hx'; [exact Hx'|]. destruct Hx' as [(_ & (Hj & _) & _)|(_ & ->)]; [lia|reflexivity]. }
      destruct (flow_next eigh 1 z_obs 1 x z_obs_fit z_obs_pauli He Hx) as (v & F & c0 & Ev & Hv & _ & _ & _ & C1 & C2 & _).
      assert (v = w) as -> by congruence. assert (c0 = c) as -> by congruence. split; [exact Hv|]. pose proof (next_inside 1 c ltac:(lra) Hc) as N. exists (next_cost 1 c). split; [exact C2|]. split; [lra|].
      intros j v0 B Ev0. assert (j = k) as -> by lia. exists c. split; [congruence|lra]. }
  destruct (nth_error us 5) as [w5|] eqn:E5; [|apply nth_error_None in E5; lia]. destruct (nth_error us 4) as [w4|] eqn:E4; [|apply nth_error_None in E4; lia].
  destruct (H1 5 w5 ltac:(lia) E5) as (_ & c5 & C5 & _ & D). destruct (D 4 w4 eq_refl E4) as (c4 & C4 & Lt).
  destruct (Q 5 w5 E5) as (d5 & N5 & X5). destruct (Q 4 w4 E4) as (d4 & N4 & X4). assert (d5 = c5) as -> by congruence. assert (d4 = c4) as -> by congruence.
  assert (ps = [4]) as ->.
  { destruct PR as (_ & So & In'). assert (I4 : In 4 ps) by (apply In'; split; [lia|]; split; [lia|]; exists PInf, c5, c4; repeat split; assumption).
    assert (A4 : forall s, In s ps -> s = 4) by (intros s Hs; apply In' in Hs; destruct Hs as (A & B & _); lia).
    destruct ps as [|a [|b ps]]; [destruct I4|rewrite (A4 a (or_introl eq_refl)); reflexivity|]. inversion So as [|? ? _ Fo]. inversion Fo as [|? ? L _]. pose proof (A4 a (or_introl eq_refl)). pose proof (A4 b (or_intror (or_introl eq_refl))). lia. }
  exists cs, 4, c4, c5. split; [rewrite Er; f_equal; exact Hr|]. split; [unfold marks; cbn [mapM]; unfold list_get; rewrite N4; reflexivity|]. split; [exact N5|exact Lt].
Qed.
Print Assumptions C103_marks_refuted.
