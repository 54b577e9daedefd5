(** The circuit and the polynomial of ZassenhausLayerV2. *)
From Coq Require Import ZArith QArith Qcanon Qreals Arith Lia Bool String Reals Lra Permutation List.
From Coquelicot Require Import Coquelicot.
From Verif Require Import Py StarRing Matrix GaussQ Cplx PauliSpec Bits PauliBasis Expm UtilsModel UtilsProofs CircuitModel CircuitProofs2 AlgebraModel AlgebraProofs LayerModel PauliModel GreedyModel GreedyProofs AdaptModel AdaptProofs ZasV2Model ZasV2Terms.
From Coq Require Import List.
Import ListNotations.
Local Open Scope nat_scope.

(** ** Unitarity *)
Lemma rotation_unitary d t P : hermitian d P -> unitary2 d (expm d (mscale (mit t) P)).
Proof.
  intros Hh. apply expm_unitary. intros r c Hr Hc. specialize (Hh r c Hr Hc).
  unfold madj, mscale in *. rewrite kconj_mul, Hh. unfold mit. cbn [kmul kconj CStar]. destruct (P r c) as [x y]. apply C_ext; simpl; ring.
Qed.

(** ** Embedding twice *)
Lemma emb_emb n ws us (A : mat C) : wires_ok n ws -> wires_ok (List.length ws) us ->
  meq (2 ^ n) (emb n ws (emb (List.length ws) us A)) (emb n (map (fun i => nth i ws 0) us) A).
Proof.
  intros [Nw Fw] [Nu Fu] r c Hr Hc. unfold emb.
  pose proof (bits_bitlist n r Hr) as Br. pose proof (bits_bitlist n c Hc) as Bc.
  rewrite !bits_unbits by (apply (sel_bitlist n); assumption).
  rewrite !sel_sel by assumption.
  set (vs := map (fun i => nth i ws 0) us).
  assert (E : agree_off n vs (bits n r) (bits n c) =
              agree_off n ws (bits n r) (bits n c) && agree_off (List.length ws) us (sel ws (bits n r)) (sel ws (bits n c))).
  { apply bool_iff. rewrite andb_true_iff, !agree_off_spec. split.
    - intros H. split.
      + intros p Hp Hn. apply H; [exact Hp|]. intros Hv. apply Hn. unfold vs in Hv. apply in_map_iff in Hv. destruct Hv as (i & <- & Hi).
        rewrite Forall_forall in Fu. apply nth_In, Fu, Hi.
      + intros p Hp Hn. rewrite !nth_sel by exact Hp. rewrite Forall_forall in Fw. apply H; [apply Fw, nth_In, Hp|].
        intros Hv. apply Hn. unfold vs in Hv. apply in_map_iff in Hv. destruct Hv as (i & Ei & Hi).
        rewrite Forall_forall in Fu. specialize (Fu i Hi). apply (proj1 (NoDup_nth ws 0) Nw) in Ei; [subst; exact Hi|exact Fu|exact Hp].
    - intros [H1 H2] p Hp Hn. destruct (in_dec Nat.eq_dec p ws) as [Hi|Hi]; [|apply H1; assumption].
      apply (In_nth _ _ 0) in Hi. destruct Hi as (i & Hi & <-). specialize (H2 i Hi). rewrite !nth_sel in H2 by exact Hi. apply H2.
      intros Hu. apply Hn. unfold vs. apply in_map_iff. exists i. auto. }
  rewrite E. destruct (agree_off n ws _ _); reflexivity.
Qed.

Definition Cexp_i (t : R) : C := (cos t, sin t).

(** the two-qubit circuit as matrices *)
Definition rx (t : R) : mat C := madd (mscale (RtoC (cos (t / 2))) mid) (mscale (mit (sin (t / 2))) (sigma 1)).
Definition rz (t : R) : mat C := madd (mscale (RtoC (cos (t / 2))) mid) (mscale (mit (sin (t / 2))) (sigma 3)).

Definition small (x0 x1 z : R) : mat C :=
  mprod 4 [a_ent cnot_matrix; emb 2 [1] (rz z); a_ent cnot_matrix; emb 2 [1] (rx x1); emb 2 [0] (rx x0);
           emb 2 [1] (a_ent hadamard_matrix); emb 2 [0] (a_ent hadamard_matrix)].

(** columns *)
Definition col (M : mat C) (v : nat -> C) : nat -> C := mv 4 M v.
Definition v4 (a b c d : C) : nat -> C := fun i => nth i [a; b; c; d] (RtoC 0).

Lemma veq4 (x : nat -> C) a b c d : x 0 = a -> x 1 = b -> x 2 = c -> x 3 = d -> veq 4 x (v4 a b c d).
Proof. intros H0 H1 H2 H3 i Hi. destruct i as [|[|[|[|i]]]]; simpl; auto; lia. Qed.

Lemma mv_mprod d Ms M v : veq d (mv d (mprod d (M :: Ms)) v) (mv d M (mv d (mprod d Ms) v)).
Proof. intros i Hi. cbn [mprod]. apply mv_mul. Qed.

Lemma inv_sqrt2 : (/ sqrt 2 * / sqrt 2 = / 2)%R.
Proof. assert (H2 : (0 < sqrt 2)%R) by (apply sqrt_lt_R0; lra). rewrite <- Rinv_mult_distr by lra. rewrite sqrt_def by lra. reflexivity. Qed.

(** one-qubit gates on two qubits *)
Lemma mv_first M a b c d : veq 4 (mv 4 (emb 2 [0] M) (v4 a b c d))
  (v4 (Cplus (Cmult (M 0 0) a) (Cmult (M 0 1) c)) (Cplus (Cmult (M 0 0) b) (Cmult (M 0 1) d))
      (Cplus (Cmult (M 1 0) a) (Cmult (M 1 1) c)) (Cplus (Cmult (M 1 0) b) (Cmult (M 1 1) d))).
Proof.
  intros i Hi. destruct i as [|[|[|[|i]]]]; try lia; unfold mv; cbn -[Cmult Cplus RtoC];
  destruct (M 0 0), (M 0 1), (M 1 0), (M 1 1), a, b, c, d; apply C_ext; simpl; ring.
Qed.
Lemma mv_second M a b c d : veq 4 (mv 4 (emb 2 [1] M) (v4 a b c d))
  (v4 (Cplus (Cmult (M 0 0) a) (Cmult (M 0 1) b)) (Cplus (Cmult (M 1 0) a) (Cmult (M 1 1) b))
      (Cplus (Cmult (M 0 0) c) (Cmult (M 0 1) d)) (Cplus (Cmult (M 1 0) c) (Cmult (M 1 1) d))).
Proof.
  intros i Hi. destruct i as [|[|[|[|i]]]]; try lia; unfold mv; cbn -[Cmult Cplus RtoC];
  destruct (M 0 0), (M 0 1), (M 1 0), (M 1 1), a, b, c, d; apply C_ext; simpl; ring.
Qed.

Lemma rx_entries t : rx t 0 0 = RtoC (cos (t / 2)) /\ rx t 0 1 = (0, - sin (t / 2))%R /\ rx t 1 0 = (0, - sin (t / 2))%R /\ rx t 1 1 = RtoC (cos (t / 2)).
Proof. unfold rx, madd, mscale, mid, mit. repeat split; cbn; apply C_ext; simpl; ring. Qed.
Lemma rz_entries t : rz t 0 0 = (cos (t / 2), - sin (t / 2))%R /\ rz t 0 1 = RtoC 0 /\ rz t 1 0 = RtoC 0 /\ rz t 1 1 = (cos (t / 2), sin (t / 2))%R.
Proof. unfold rz, madd, mscale, mid, mit. repeat split; cbn; apply C_ext; simpl; ring. Qed.

Lemma small_col x0 x1 z : forall i, i < 4 ->
  small x0 x1 z i 0 = Cmult (RtoC (/ 2)) (Cexp_i (- (x0 + x1) / 2 + (if Nat.eqb i 0 || Nat.eqb i 3 then - z / 2 else z / 2))).
Proof.
  assert (A : forall i, i < 4 -> small x0 x1 z i 0 = mv 4 (small x0 x1 z) (v4 (RtoC 1) (RtoC 0) (RtoC 0) (RtoC 0)) i).
  { intros i Hi. generalize (small x0 x1 z). intros M. unfold mv. cbn. destruct (M i 0), (M i 1), (M i 2), (M i 3). apply C_ext; simpl; ring. }
  set (r := Cmult (RtoC (/ 2)) (Cmult (Cexp_i (- (x0 / 2))) (Cexp_i (- (x1 / 2))))).
  assert (S1 : veq 4 (mv 4 (emb 2 [0] (a_ent hadamard_matrix)) (v4 (RtoC 1) (RtoC 0) (RtoC 0) (RtoC 0))) (v4 (RtoC (/ sqrt 2)) (RtoC 0) (RtoC (/ sqrt 2)) (RtoC 0))).
  { intros i Hi. rewrite mv_first by exact Hi. revert i Hi. apply veq4; cbn; apply C_ext; simpl; ring. }
  assert (S2 : veq 4 (mv 4 (emb 2 [1] (a_ent hadamard_matrix)) (v4 (RtoC (/ sqrt 2)) (RtoC 0) (RtoC (/ sqrt 2)) (RtoC 0))) (v4 (RtoC (/ 2)) (RtoC (/ 2)) (RtoC (/ 2)) (RtoC (/ 2)))).
  { rewrite <- inv_sqrt2. intros i Hi. rewrite mv_second by exact Hi. revert i Hi. apply veq4; cbn; apply C_ext; simpl; ring. }
  assert (S3 : forall w, w = 0 \/ w = 1 -> forall t a, veq 4 (mv 4 (emb 2 [w] (rx t)) (v4 a a a a)) (v4 (Cmult (Cexp_i (- (t / 2))) a) (Cmult (Cexp_i (- (t / 2))) a) (Cmult (Cexp_i (- (t / 2))) a) (Cmult (Cexp_i (- (t / 2))) a))).
  { intros w Hw t [a1 a2]. destruct (rx_entries t) as (E0 & E1 & E2 & E3). unfold Cexp_i. rewrite cos_neg, sin_neg.
    destruct Hw as [-> | ->]; intros i Hi; [rewrite mv_first by exact Hi|rewrite mv_second by exact Hi]; rewrite E0, E1, E2, E3; revert i Hi;
    apply veq4; unfold v4; cbn [nth]; apply C_ext; simpl; ring. }
  assert (S4 : forall a b c d, veq 4 (mv 4 (a_ent cnot_matrix) (v4 a b c d)) (v4 a b d c)).
  { intros [a1 a2] [b1 b2] [c1 c2] [d1 d2]. apply veq4; unfold mv; cbn; apply C_ext; simpl; ring. }
  assert (S5 : forall a b c d, veq 4 (mv 4 (emb 2 [1] (rz z)) (v4 a b c d)) (v4 (Cmult (Cexp_i (- (z / 2))) a) (Cmult (Cexp_i (z / 2)) b) (Cmult (Cexp_i (- (z / 2))) c) (Cmult (Cexp_i (z / 2)) d))).
  { intros [a1 a2] [b1 b2] [c1 c2] [d1 d2]. destruct (rz_entries z) as (E0 & E1 & E2 & E3). unfold Cexp_i. rewrite cos_neg, sin_neg.
    intros i Hi. rewrite mv_second by exact Hi. rewrite E0, E1, E2, E3. revert i Hi. apply veq4; unfold v4; cbn [nth]; apply C_ext; simpl; ring. }
  assert (T : forall M v w, veq 4 v w -> veq 4 (mv 4 M v) (mv 4 M w)). { intros. apply mv_ext; [reflexivity|assumption]. }
  assert (TT : forall x y w : nat -> C, veq 4 x y -> veq 4 y w -> veq 4 x w). { intros x y w H1 H2 i Hi. rewrite H1, H2 by exact Hi. reflexivity. }
  assert (F : veq 4 (mv 4 (small x0 x1 z) (v4 (RtoC 1) (RtoC 0) (RtoC 0) (RtoC 0)))
                (v4 (Cmult (Cexp_i (- (z / 2))) (Cmult (Cexp_i (- (x1 / 2))) (Cmult (Cexp_i (- (x0 / 2))) (RtoC (/ 2)))))
                    (Cmult (Cexp_i (z / 2)) (Cmult (Cexp_i (- (x1 / 2))) (Cmult (Cexp_i (- (x0 / 2))) (RtoC (/ 2)))))
                    (Cmult (Cexp_i (z / 2)) (Cmult (Cexp_i (- (x1 / 2))) (Cmult (Cexp_i (- (x0 / 2))) (RtoC (/ 2)))))
                    (Cmult (Cexp_i (- (z / 2))) (Cmult (Cexp_i (- (x1 / 2))) (Cmult (Cexp_i (- (x0 / 2))) (RtoC (/ 2))))))).
  { unfold small. eapply TT; [apply mv_mprod|]. eapply TT; [apply T|apply S4]. eapply TT; [apply mv_mprod|]. eapply TT; [apply T|apply S5].
    eapply TT; [apply mv_mprod|]. eapply TT; [apply T|apply S4]. eapply TT; [apply mv_mprod|]. eapply TT; [apply T|apply S3; auto].
    eapply TT; [apply mv_mprod|]. eapply TT; [apply T|apply S3; auto]. eapply TT; [apply mv_mprod|]. eapply TT; [apply T|apply S2].
    eapply TT; [apply mv_mprod|]. eapply TT; [apply T|apply S1]. intros i Hi. cbn [mprod]. apply mv_id. exact Hi. }
  assert (E : forall s t, Cmult (Cexp_i s) (Cexp_i t) = Cexp_i (s + t)).
  { intros s t. unfold Cexp_i. rewrite cos_plus, sin_plus. apply C_ext; simpl; ring. }
  intros i Hi. rewrite A, F by exact Hi.
  assert (Q : forall y, Cmult (Cexp_i y) (Cmult (Cexp_i (- (x1 / 2))) (Cmult (Cexp_i (- (x0 / 2))) (RtoC (/ 2)))) = Cmult (RtoC (/ 2)) (Cexp_i (- (x0 + x1) / 2 + y))).
  { intros y. replace (- (x0 + x1) / 2 + y)%R with (y + (- (x1 / 2) + - (x0 / 2)))%R by field. rewrite <- !E. ring. }
  replace (- z / 2)%R with (- (z / 2))%R by field.
  destruct i as [|[|[|[|i]]]]; try lia; cbn [v4 nth Nat.eqb orb]; rewrite Q; reflexivity.
Qed.

(** ** The circuit on n qubits *)
Lemma pair_ok n : 2 <= n -> wires_ok n [0; 1].
Proof. intros H. split; [repeat constructor; simpl; lia|repeat constructor; lia]. Qed.
Lemma one_ok n w : w < n -> wires_ok n [w].
Proof. intros H. split; repeat constructor; auto. Qed.

Lemma v2_gates_valid n x : 2 <= n -> Forall (valid_qop n) (v2_gates x).
Proof.
  intros Hn. destruct x as [[x0 x1] z]. unfold v2_gates.
  repeat apply Forall_cons; try apply Forall_nil; (split; [discriminate|]); (split; [repeat constructor; simpl; lia|]); (split; [repeat constructor; cbn; lia|]); split; reflexivity.
Qed.

Lemma pword_one g : meq 2 (pword (K := C) [g]) (sigma g).
Proof.
  intros i j Hi Hj. destruct i as [|[|i]], j as [|[|j]]; try lia; cbn; match goal with |- _ = ?z => destruct z end; apply C_ext; simpl; ring.
Qed.

Lemma rot_small n t s g w : (s = "X"%string /\ g = 1) \/ (s = "Z"%string /\ g = 3) -> w < 2 -> 2 <= n ->
  meq (2 ^ n) (qmat n (gate_qop (ARot t s [w]))) (emb n [0; 1] (emb 2 [w] (madd (mscale (RtoC (cos (t / 2))) mid) (mscale (mit (sin (t / 2))) (sigma g))))).
Proof.
  intros Hg Hw Hn. rewrite (emb_emb n [0; 1] [w]) by (apply pair_ok, Hn || apply (one_ok 2), Hw).
  replace (map (fun i => nth i [0; 1] 0) [w]) with [w] by (destruct w as [|[|w]]; [reflexivity|reflexivity|lia]).
  unfold qmat. cbn [gate_qop q_wires q_matrix a_ent]. apply emb_proper. change (2 ^ List.length [w]) with 2.
  assert (E : word_of s = [g]) by (destruct Hg as [[-> ->]|[-> ->]]; reflexivity). rewrite E. change (2 ^ List.length [g]) with 2.
  rewrite expm_involution.
  - intros i j Hi Hj. unfold madd, mscale. rewrite (pword_one g i j Hi Hj). reflexivity.
  - change 2 with (2 ^ List.length [g]). apply pword_sq. constructor; [|constructor]. destruct Hg as [[_ ->]|[_ ->]]; lia.
Qed.

Lemma had_small n w : w < 2 -> 2 <= n -> meq (2 ^ n) (qmat n (gate_qop (AH w))) (emb n [0; 1] (emb 2 [w] (a_ent hadamard_matrix))).
Proof.
  intros Hw Hn. rewrite (emb_emb n [0; 1] [w]) by (apply pair_ok, Hn || apply (one_ok 2), Hw).
  replace (map (fun i => nth i [0; 1] 0) [w]) with [w] by (destruct w as [|[|w]]; [reflexivity|reflexivity|lia]). reflexivity.
Qed.

Lemma emb_mprod n ws Ms : wires_ok n ws -> meq (2 ^ n) (mprod (2 ^ n) (map (emb n ws) Ms)) (emb n ws (mprod (K := C) (2 ^ List.length ws) Ms)).
Proof.
  intros H. induction Ms as [|M Ms IH]; cbn [map mprod]; [symmetry; apply emb_id, H|]. rewrite IH. apply emb_mul, H.
Qed.

Lemma v2_unitary_spec n x0 x1 z : 2 <= n -> exists V, circuit_unitary n (v2_gates (x0, x1, z)) = Ok V /\
  meq (2 ^ n) (a_ent V) (emb n [0; 1] (small x0 x1 z)).
Proof.
  intros Hn. destruct (circuit_unitary_spec n _ (v2_gates_valid n (x0, x1, z) Hn)) as (V & E & _ & _ & M).
  exists V. split; [exact E|]. rewrite M. unfold small. change 4 with (2 ^ List.length [0; 1]).
  rewrite <- emb_mprod by (apply pair_ok, Hn). cbn [v2_gates rev app map mprod].
  rewrite !had_small by lia. rewrite (rot_small n x0 "X" 1 0), (rot_small n x1 "X" 1 1), (rot_small n z "Z" 3 1) by (auto; lia). reflexivity.
Qed.

Lemma cnot_unitary : unitary2 4 (a_ent cnot_matrix).
Proof.
  split; intros i j Hi Hj; destruct i as [|[|[|[|i]]]]; try lia; destruct j as [|[|[|[|j]]]]; try lia; cbn; apply C_ext; simpl; ring.
Qed.

Lemma v2_gates_unitary x : Forall (local_unitary (K := C)) (v2_gates x).
Proof.
  destruct x as [[x0 x1] z]. unfold v2_gates.
  assert (R : forall t s g w, word_of s = [g] -> g <= 3 -> local_unitary (gate_qop (ARot t s [w]))).
  { intros t s g w E Hg. unfold local_unitary. cbn [gate_qop q_wires q_matrix a_ent]. rewrite E. change (2 ^ List.length [w]) with (2 ^ List.length [g]).
    apply rotation_unitary. apply pword_herm. constructor; [exact Hg|constructor]. }
  apply Forall_cons; [apply hadamard_unitary|]. apply Forall_cons; [apply hadamard_unitary|].
  apply Forall_cons; [apply (R x0 "X"%string 1); auto|]. apply Forall_cons; [apply (R x1 "X"%string 1); auto|].
  apply Forall_cons; [apply cnot_unitary|]. apply Forall_cons; [apply (R z "Z"%string 3); auto|].
  apply Forall_cons; [apply cnot_unitary|]. apply Forall_nil.
Qed.

(** ** The constructor *)
Lemma su2_keys n : exists full : list (key * arr C),
  (do a0 <- AlgebraSU2 (K := C) n; get_all_directions_and_qubits a0) =
    Ok (mkalg (mkcore n (wnames [1]) (al_paulis (core0 n [1])) full) (repeat 0 n)) /\
  map fst full = all_keys n [1] /\ Forall (key_ok n) full.
Proof.
  destruct (enumerate_spec (K := C) n [1]) as (full & E1 & E2 & E3 & _).
  { repeat constructor; simpl; tauto. } { simpl; lia. }
  exists full. rewrite AlgebraSU2_eq. cbn [bind]. unfold core0 at 1. rewrite get_all_keys by (simpl; lia).
  fold (core0 (K := C) n [1]). rewrite E1. auto.
Qed.

Lemma mapM_map {A B} (f : A -> res B) (g : A -> B) l : Forall (fun a => f a = Ok (g a)) l -> mapM f l = Ok (map g l).
Proof. induction 1 as [|a l E H IH]; [reflexivity|]. simpl. rewrite E, IH. reflexivity. Qed.

Lemma v2_init ord ordS n obs Fs eta b c : orders ord -> orders ordS -> mapM (full n) obs = Ok Fs -> (0 <= eta <= 1)%R -> exists t2 t4 t8 p,
  ZassenhausLayerV2 ord ordS n obs eta b c = Ok (mkv2 n eta t2 t4 t8 Fs (map term_val p) (/ 10, 12 / 10, 6 / 10)%R) /\ Permutation p five /\
  map fst t2 = all_keys n [1] /\ Forall (key_ok n) t2 /\ map fst t4 = all_keys n (ks4 b) /\ Forall (key_ok n) t4.
Proof.
  intros HO HS EF He. destruct (su8_table n b c) as (t8 & E8 & _). destruct (su4_table n b) as (t4 & E4 & H3 & H4).
  destruct (su2_keys n) as (t2 & E2 & H1 & H2). destruct (bch_result ord ordS HO HS) as (last & bch & Eb & El & Pl).
  exists t2, t4, t8, (ordS last). split.
  - unfold ZassenhausLayerV2. rewrite EF. cbn [bind]. apply eta_ok in He. rewrite He. cbn [py_assert bind].
    rewrite AlgebraSU8_eq, AlgebraSU4_eq, AlgebraSU2_eq in *. cbn [bind] in *. rewrite E2. cbn [bind]. rewrite E4. cbn [bind]. rewrite E8. cbn [bind].
    rewrite v2_circuit_eq. cbn [bind List.length Nat.sub]. rewrite Eb. cbn [bind]. rewrite El. cbn [bind].
    fold term_of. rewrite (mapM_map term_of term_val); [reflexivity|]. rewrite (HS last), Pl. apply five_terms.
  - split; [rewrite (HS last); exact Pl|]. auto.
Qed.

(** ** The call *)
Definition kmat (n : nat) (k : key) : mat C := emb n (snd k) (pword (word_of (fst k))).
Definition slope (n : nat) (phi : nat -> C) (H : mat C) (k : key) : R :=
  Im (quad (2 ^ n) phi (msub (mmul (2 ^ n) (kmat n k) H) (mmul (2 ^ n) H (kmat n k)))).

Lemma key_kmat n k P : key_ok (K := C) n (k, P) -> meq (2 ^ n) (a_ent P) (kmat n k).
Proof.
  intros (w & E & Hw & Hq & _ & _ & _ & M). cbn [fst snd] in *. unfold kmat. rewrite M, E. unfold wname. rewrite word_of_name; [reflexivity|].
  apply Forall_forall. intros g Hg. apply in_map_iff in Hg. destruct Hg as (x & <- & Hx). rewrite Forall_forall in Hw. specialize (Hw x Hx). lia.
Qed.

Lemma gradient_slope n phi Fs obs k P : Forall2 (fun F o => meq (2 ^ n) (a_ent F) (qmat n o)) Fs obs -> key_ok (K := C) n (k, P) ->
  gradient n phi Fs (a_ent P) = slope n phi (obs_sum n obs) k.
Proof.
  intros HF HP. rewrite gradient_eq. unfold omega, slope. f_equal. apply quad_comm_ext; [apply key_kmat, HP|].
  unfold obs_sum. clear HP. induction HF as [|F o Fs obs M HF IH]; [reflexivity|].
  intros i j Hi Hj. unfold msum in *. rewrite !lsum_cons. rewrite (M i j Hi Hj), (IH i j Hi Hj). reflexivity.
Qed.

Lemma found {B} (t : list (key * B)) k : In k (map fst t) -> NoDup (map fst t) -> exists P, dget key_eqb t k = Ok P /\ In (k, P) t.
Proof.
  intros Hk Hn. apply in_map_iff in Hk. destruct Hk as ([k' P] & E & Hi). cbn [fst] in E. subst k'. exists P. split; [|exact Hi].
  apply (dget_In key_eqb key_eqb_spec); assumption.
Qed.

Lemma ks2_in n k : 2 <= n -> In k ks2 -> In k (all_keys n [1]).
Proof.
  intros Hn [<-|[<-|[]]]; apply all_keys_In; exists [0]; (split; [apply wwords_In; split; [simpl; auto|repeat constructor]|]); (split; [reflexivity|]);
  (split; [reflexivity|]); (split; [repeat constructor|repeat constructor; lia]).
Qed.
Lemma ks4_in n b k : 2 <= n -> In k ks4' -> In k (all_keys n (ks4 b)).
Proof.
  intros Hn Hk.
  assert (G : forall w, Forall (fun g => g < 3) w -> List.length w = 2 -> In (wname w, [0; 1]) (all_keys n (ks4 b))).
  { intros w Hw Hl. apply all_keys_In. exists w. split; [apply wwords_In; split; [rewrite Hl; destruct b; simpl; auto|exact Hw]|]. split; [reflexivity|].
    rewrite Hl. split; [reflexivity|]. split; [repeat constructor|repeat constructor; lia]. }
  destruct Hk as [<-|[<-|[<-|[]]]]; [apply (G [2; 2])|apply (G [1; 2])|apply (G [2; 1])]; repeat constructor.
Qed.

(** the function that is minimized *)
Definition fit (eta : R) (w : key -> R) (x : R * R * R) : R :=
  let '(x0, x1, z) := x in
  (((- x0 - eta * w ("X"%string, [0%nat])) ^ 2 + (- x1 - eta * w ("X"%string, [1%nat])) ^ 2 + (- z - eta * w ("ZZ"%string, [0%nat; 1%nat])) ^ 2 +
    (x0 * z - eta * w ("YZ"%string, [0%nat; 1%nat])) ^ 2 + (x1 * z - eta * w ("ZY"%string, [0%nat; 1%nat])) ^ 2) / 5)%R.

Lemma rsum_perm {A} (f : A -> R) l m : Permutation l m -> rsum f l = rsum f m.
Proof. induction 1; cbn [rsum]; lra. Qed.

Lemma five_sum (w : key -> R) eta x :
  rsum (fun t => (term_imag (snd (term_val t)) x - eta * w (fst (term_val t))) ^ 2)%R five = (5 * fit eta w x)%R.
Proof.
  destruct x as [[x0 x1] z].
  assert (G : forall t k a b e, reading (term_val t) = (k, (a, b), e) -> fst (term_val t) = k /\
    term_imag (snd (term_val t)) (x0, x1, z) = (Q2R b * (x0 ^ fst (fst e) * x1 ^ snd (fst e) * z ^ snd e))%R).
  { intros t k a b [[e0 e1] e2] E. unfold reading in E. injection E as E1 E2 E3 E4. split; [exact E1|]. unfold term_imag. rewrite E4, E3. reflexivity. }
  destruct (G _ _ _ _ _ read_zz) as [A1 B1]. destruct (G _ _ _ _ _ read_x0) as [A2 B2]. destruct (G _ _ _ _ _ read_yz) as [A3 B3].
  destruct (G _ _ _ _ _ read_x1) as [A4 B4]. destruct (G _ _ _ _ _ read_zy) as [A5 B5]. unfold five.
  cbn [rsum]. rewrite A1, A2, A3, A4, A5, B1, B2, B3, B4, B5. unfold fit. cbn [fst snd pow]. unfold Q2R. simpl. field.
Qed.

Lemma fold_plus_map {A} (f : A -> R) l : forall x, fold_left Rplus (map f l) x = (x + rsum f l)%R.
Proof. induction l as [|a l IH]; intros x; simpl; [lra|]. rewrite IH. lra. Qed.

Lemma mapM_map_in {A B D} (f : A -> res B) (h : D -> A) (g : D -> B) l : (forall d, In d l -> f (h d) = Ok (g d)) -> mapM f (map h l) = Ok (map g l).
Proof.
  induction l as [|d l IH]; intros H; [reflexivity|]. simpl. rewrite (H d (or_introl eq_refl)), IH; [reflexivity|]. intros; apply H; right; assumption.
Qed.

Lemma v2_call_eq m n eta b t2 t4 t8 Fs obs p ps U : 2 <= n -> Forall2 (fun F o => meq (2 ^ n) (a_ent F) (qmat n o)) Fs obs -> Permutation p five ->
  map fst t2 = all_keys n [1] -> Forall (key_ok n) t2 -> map fst t4 = all_keys n (ks4 b) -> Forall (key_ok n) t4 ->
  v2_call m (mkv2 n eta t2 t4 t8 Fs (map term_val p) ps) U =
  let x := m (fit eta (slope n (qnode_state U) (obs_sum n obs))) in
  do V <- circuit_unitary n (v2_gates x);
  Ok (a_ent V, mkv2 n eta t2 t4 t8 Fs (map term_val p)
    (fst (fst ps) + fst (fst x), snd (fst ps) + snd (fst x), snd ps + snd x)%R).
Proof.
  intros Hn HF Hp K2 H2 K4 H4. unfold v2_call. cbn [v2_n v2_eta v2_su2 v2_su4 v2_su8 v2_obs v2_terms v2_params].
  set (w := slope n (qnode_state U) (obs_sum n obs)).
  rewrite (mapM_map_in _ term_val (fun t => w (fst (term_val t))) p).
  2:{ intros t Ht. pose proof five_keys as F. rewrite <- Hp in F. rewrite Forall_forall in F. cbv zeta.
      destruct (F t Ht) as [[L I]|[L I]]; rewrite L; cbn [Nat.eqb].
      - destruct (found t2 (fst (term_val t))) as (P & EP & HP).
        + apply (eq_ind_r (fun l => In (fst (term_val t)) l) (ks2_in n _ Hn I) K2).
        + apply (eq_ind_r (@NoDup _) (all_keys_NoDup n [1] ltac:(repeat constructor; simpl; tauto)) K2).
        + rewrite EP. cbn [bind]. rewrite Forall_forall in H2. rewrite (gradient_slope n _ Fs obs _ P HF (H2 _ HP)). reflexivity.
      - destruct (found t4 (fst (term_val t))) as (P & EP & HP).
        + apply (eq_ind_r (fun l => In (fst (term_val t)) l) (ks4_in n b _ Hn I) K4).
        + apply (eq_ind_r (@NoDup _) (all_keys_NoDup n (ks4 b) (ks4_NoDup b)) K4).
        + rewrite EP. cbn [bind]. rewrite Forall_forall in H4. rewrite (gradient_slope n _ Fs obs _ P HF (H4 _ HP)). reflexivity. }
  cbn [bind].
  assert (EC : (fun x => (fold_left Rplus (map (fun to => (term_imag (snd (fst to)) x - eta * snd to) ^ 2)
      (combine (map term_val p) (map (fun t => w (fst (term_val t))) p))) 0 / INR (List.length (map term_val p)))%R) = fit eta w).
  { apply FunctionalExtensionality.functional_extensionality. intros x. rewrite combine_map_same, map_map, fold_plus_map. cbn [fst snd].
    rewrite (rsum_perm _ p five Hp), five_sum, map_length, (Permutation_length Hp). unfold five. cbn [List.length]. simpl INR. field. }
  cbv zeta. match goal with |- context [m ?f] => replace f with (fit eta w) by (symmetry; exact EC) end. destruct ps as [[p0 p1] p2]. destruct (m (fit eta w)) as [[x0 x1] z]. reflexivity.
Qed.

(** ** Objects *)
Definition v2_sound (n : nat) (l : v2_layer) : Prop := 2 <= n /\ exists eta b t2 t4 t8 Fs obs p ps, l = mkv2 n eta t2 t4 t8 Fs (map term_val p) ps /\
  Forall2 (fun F o => meq (2 ^ n) (a_ent F) (qmat n o)) Fs obs /\ Permutation p five /\
  map fst t2 = all_keys n [1] /\ Forall (key_ok n) t2 /\ map fst t4 = all_keys n (ks4 b) /\ Forall (key_ok n) t4.

Lemma v2_unitary n x V : 2 <= n -> circuit_unitary n (v2_gates x) = Ok V -> unitary2 (2 ^ n) (a_ent V).
Proof.
  intros Hn E. destruct (circuit_unitary_spec n _ (v2_gates_valid n x Hn)) as (V' & E' & _ & _ & M).
  rewrite E in E'. injection E' as <-. eapply unitary2_proper; [symmetry; exact M|]. apply mprod_unitary.
  pose proof (v2_gates_valid n x Hn) as F. pose proof (v2_gates_unitary x) as G. rewrite Forall_forall in *.
  intros A HA. apply in_map_iff in HA. destruct HA as (o & <- & Ho). apply in_rev in Ho. apply qmat_unitary; auto.
Qed.

Lemma v2_total m n l U : v2_sound n l -> exists V l', v2_call m l U = Ok (V, l') /\ unitary2 (2 ^ n) V /\ v2_sound n l' /\ v2_n l' = v2_n l.
Proof.
  intros (Hn & eta & b & t2 & t4 & t8 & Fs & obs & p & ps & -> & HF & Hp & K2 & H2 & K4 & H4).
  pose proof (v2_call_eq m n eta b t2 t4 t8 Fs obs p ps U Hn HF Hp K2 H2 K4 H4) as E. cbv zeta in E.
  destruct (m _) as [[x0 x1] z]. destruct (v2_unitary_spec n x0 x1 z Hn) as (V & EV & _). rewrite EV in E. cbn [bind] in E.
  eexists _, _. split; [exact E|]. split; [eapply v2_unitary; eassumption|]. split; [|reflexivity]. split; [exact Hn|].
  exists eta, b, t2, t4, t8, Fs, obs, p. eexists. split; [reflexivity|]. repeat (split; [assumption|]). assumption.
Qed.

Lemma v2_made ord ordS n obs eta b c l : orders ord -> orders ordS -> Forall (valid_qop n) obs -> 2 <= n -> ZassenhausLayerV2 ord ordS n obs eta b c = Ok l -> v2_sound n l.
Proof.
  intros HO HS Ho Hn E. destruct (mapM_full n obs Ho) as (Fs & EF & HF).
  assert (He : (0 <= eta <= 1)%R).
  { apply eta_ok. unfold ZassenhausLayerV2 in E. rewrite EF in E. cbn [bind] in E. destruct (Rleb 0 eta && Rleb eta 1); [reflexivity|discriminate]. }
  destruct (v2_init ord ordS n obs Fs eta b c HO HS EF He) as (t2 & t4 & t8 & p & E' & Hp & K2 & H2 & K4 & H4).
  rewrite E in E'. injection E' as ->. split; [exact Hn|]. exists eta, b, t2, t4, t8, Fs, obs, p. eexists. split; [reflexivity|]. repeat (split; [assumption|]). assumption.
Qed.
