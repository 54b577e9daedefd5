(** Properties C83 and C84: ZassenhausLayerV2. *)
From Coq Require Import ZArith QArith Qcanon Qreals Arith Lia Bool Ascii String Reals Lra Permutation Setoid.
From Coquelicot Require Import Coquelicot.
From Verif Require Import Py StarRing Matrix GaussQ Cplx PauliSpec Bits PauliBasis Expm UtilsModel UtilsProofs CircuitModel CircuitProofs CircuitProofs2 AlgebraModel AlgebraProofs LayerModel PauliModel GreedyModel GreedyProofs AdaptModel AdaptProofs CommuteProofs ApproxProofs PropLayers ZasV2Model ZasV2Terms ZasV2Proofs.
From Coq Require Import List.
Import ListNotations.
Local Open Scope nat_scope.

(** ** Specification *)

(** the operator with the given letters on the given qubits, identity elsewhere *)
Definition letters (n : nat) (qs gs : list nat) : mat C := emb n qs (pword gs).

(** the derivative of the total cost along a direction *)
Definition direction_slope (n : nat) (obs : list (qop C)) (U P : mat C) : R :=
  let H := msum (fun o => emb n (q_wires o) (a_ent (q_matrix o))) obs in
  Im (quad (2 ^ n) (fun i => U i 0) (msub (mmul (2 ^ n) P H) (mmul (2 ^ n) H P))).

(** the mean of the squared differences between the coefficients of
    X0, X1, Z0 Z1, Y0 Z1, Z0 Y1 and the slopes scaled by the step size *)
Definition mismatch (n : nat) (obs : list (qop C)) (eta : R) (U : mat C) (x : R * R * R) : R :=
  let '(x0, x1, z) := x in
  let slope qs gs := (eta * direction_slope n obs U (letters n qs gs))%R in
  let a := slope [0] [1] in let b := slope [1] [1] in let c := slope [0; 1] [3; 3] in
  let d := slope [0; 1] [2; 3] in let e := slope [0; 1] [3; 2] in
  (((- x0 - a) ^ 2 + (- x1 - b) ^ 2 + (- z - c) ^ 2 + (x0 * z - d) ^ 2 + (x1 * z - e) ^ 2) / 5)%R.

(** e^(i t) *)
Definition cis (t : R) : C := (cos t, sin t).

(** the amplitudes of the state: the qubits 0 and 1 in the state
    exp(-i z/2 Z Z) |++> up to a phase, the others in the state 0 *)
Definition v2_state (n : nat) (x0 x1 z : R) (i : nat) : C :=
  match bits n i with
  | b0 :: b1 :: others =>
      if forallb (Nat.eqb 0) others
      then Cmult (RtoC (/ 2)) (cis (- (x0 + x1) / 2 + (if Nat.eqb b0 b1 then - z / 2 else z / 2)))
      else RtoC 0
  | _ => RtoC 0
  end.

(** exp(-i z/2 Z0 Z1) exp(-i x1/2 X1) exp(-i x0/2 X0) H1 H0 *)
Definition fitted (n : nat) (x0 x1 z : R) : mat C :=
  let h := fun i j => RtoC (if Nat.eqb i 1 && Nat.eqb j 1 then (- / sqrt 2)%R else (/ sqrt 2)%R) in
  let d := 2 ^ n in
  mmul d (expm d (mscale (mit (z / 2)) (letters n [0; 1] [3; 3])))
 (mmul d (expm d (mscale (mit (x1 / 2)) (letters n [1] [1])))
 (mmul d (expm d (mscale (mit (x0 / 2)) (letters n [0] [1])))
 (mmul d (emb n [1] h) (emb n [0] h)))).

(** the layer objects that calls with any minimizers and circuits lead to *)
Inductive reached (l : v2_layer) : v2_layer -> Prop :=
| reached_start : reached l l
| reached_call l1 minimize U V l2 : reached l l1 -> v2_call minimize l1 U = Ok (V, l2) -> reached l l2.

(** iteration orders of sets *)
Definition reordering {A} (ord : list A -> list A) : Prop := forall l, Permutation (ord l) l.

(** expectation of Z on one wire *)
Definition z_mean (n : nat) (U : mat C) (w : nat) : R := Re (quad (2 ^ n) (fun i => U i 0) (emb n [w] (sigma 3))).

(** ** Lemmas *)
Lemma mismatch_fit n obs eta U : mismatch n obs eta U = fit eta (slope n (qnode_state U) (obs_sum n obs)).
Proof.
  apply FunctionalExtensionality.functional_extensionality. intros [[x0 x1] z]. reflexivity.
Qed.

Lemma quad_column d (M F : mat C) : quad d (fun i => M i 0) F = mmul d (madj M) (mmul d F M) 0 0.
Proof.
  unfold quad, mmul, madj. apply lsum_ext. intros i _. rewrite <- lsum_scale_l. apply lsum_ext. intros j _. cbn [kmul kconj CStar]. ring.
Qed.

Lemma quad_mean_emb n ws (W F : mat C) : wires_ok n ws ->
  quad (2 ^ n) (fun i => emb n ws W i 0) (emb n ws F) = quad (2 ^ List.length ws) (fun i => W i 0) F.
Proof.
  intros H. rewrite !quad_column.
  assert (E : meq (2 ^ n) (mmul (2 ^ n) (madj (emb n ws W)) (mmul (2 ^ n) (emb n ws F) (emb n ws W)))
                (emb n ws (mmul (2 ^ List.length ws) (madj W) (mmul (2 ^ List.length ws) F W)))).
  { rewrite emb_adj, !emb_mul by exact H. reflexivity. }
  rewrite E by apply pow2_pos. unfold emb. rewrite agree_off_refl.
  assert (Z : unbits (sel ws (bits n 0)) = 0).
  { assert (B : forall n, bits n 0 = repeat 0 n). { clear. induction n as [|n IH]; [reflexivity|]. cbn [bits repeat]. rewrite Nat.div_0_l, Nat.mod_0_l by (apply pow2_nz). rewrite IH. reflexivity. }
    rewrite B. assert (S : sel ws (repeat 0 n) = repeat 0 (List.length ws)).
    { unfold sel. clear. induction ws as [|w ws IH]; [reflexivity|]. cbn [map List.length repeat]. rewrite IH, nth_repeat. reflexivity. }
    rewrite S. clear. induction (List.length ws) as [|k IH]; [reflexivity|]. cbn [repeat unbits]. rewrite IH. lia. }
  rewrite Z. reflexivity.
Qed.

Lemma amplitudes n x0 x1 z : 2 <= n -> forall i, i < 2 ^ n -> emb n [0; 1] (small x0 x1 z) i 0 = v2_state n x0 x1 z i.
Proof.
  intros Hn i Hi. destruct n as [|[|m]]; try lia. pose proof (bits_bitlist _ _ Hi) as [BL BF].
  assert (B0 : forall n, bits n 0 = repeat 0 n).
  { clear. induction n as [|n IH]; [reflexivity|]. cbn [bits repeat]. rewrite Nat.div_0_l, Nat.mod_0_l by (apply pow2_nz). rewrite IH. reflexivity. }
  unfold emb, v2_state. rewrite B0. destruct (bits (S (S m)) i) as [|b0 [|b1 others]] eqn:Eb; try discriminate.
  injection BL as BL. cbn [repeat]. inversion BF as [|? ? F0 BF']; subst. inversion BF' as [|? ? F1 BF'']; subst.
  assert (EA : agree_off (S (S (List.length others))) [0; 1] (b0 :: b1 :: others) (0 :: 0 :: repeat 0 (List.length others)) = forallb (Nat.eqb 0) others).
  { apply bool_iff. rewrite agree_off_spec, forallb_forall. split.
    - intros H y Hy. apply (In_nth _ _ 0) in Hy. destruct Hy as (p & Hp & <-). specialize (H (S (S p)) ltac:(lia)). cbn [nth] in H.
      rewrite H by (simpl; intuition lia). rewrite nth_repeat. reflexivity.
    - intros H p Hp Hn'. destruct p as [|[|p]]; [simpl in Hn'; tauto|simpl in Hn'; tauto|]. cbn [nth]. rewrite nth_repeat.
      assert (Hp' : p < List.length others) by lia. specialize (H (nth p others 0) (nth_In others 0 Hp')). apply Nat.eqb_eq in H. auto. }
  rewrite EA. destruct (forallb _ others); [|reflexivity].
  cbn [sel map nth]. change (unbits [0; 0]) with 0.
  rewrite small_col by (cbn; lia). unfold cis, Cexp_i.
  destruct b0 as [|[|b0]]; try lia; destruct b1 as [|[|b1]]; try lia; reflexivity.
Qed.

Lemma zz_small z : meq 4 (mmul 4 (a_ent cnot_matrix) (mmul 4 (emb 2 [1] (rz z)) (a_ent cnot_matrix)))
  (madd (mscale (RtoC (cos (z / 2))) mid) (mscale (mit (sin (z / 2))) (pword [3; 3]))).
Proof.
  destruct (rz_entries z) as (E0 & E1 & E2 & E3).
  assert (EE : meq 4 (emb 2 [1] (rz z)) (fun i j => if Nat.eqb (i / 2) (j / 2) then rz z (i mod 2) (j mod 2) else RtoC 0)).
  { intros i j Hi Hj. destruct i as [|[|[|[|i]]]]; try lia; destruct j as [|[|[|[|j]]]]; try lia; reflexivity. }
  rewrite EE. intros i j Hi Hj.
  destruct i as [|[|[|[|i]]]]; try lia; destruct j as [|[|[|[|j]]]]; try lia;
  unfold mmul, madd, mscale, mit, mid; cbn -[rz Cmult Cplus]; rewrite ?E0, ?E1, ?E2, ?E3; apply C_ext; simpl; ring.
Qed.

Lemma fits_valid n o : fits n o -> valid_qop n o.
Proof. intros H. exact H. Qed.

Lemma reached_shape n eta t2 t4 t8 Fs ts ps l' : reached (mkv2 n eta t2 t4 t8 Fs ts ps) l' -> exists ps', l' = mkv2 n eta t2 t4 t8 Fs ts ps'.
Proof.
  intros H. induction H as [|l1 m U V l2 _ [ps' ->] E]; [exists ps; reflexivity|].
  unfold v2_call in E. cbn [v2_n v2_eta v2_su2 v2_su4 v2_su8 v2_obs v2_terms v2_params] in E.
  match type of E with bind ?a _ = _ => destruct a; [|discriminate] end. cbn [bind] in E. match type of E with bind ?a _ = _ => destruct a; [|discriminate] end. cbn [bind] in E.
  destruct ps' as [[p0 p1] p2]. destruct (m _) as [[x0 x1] x2]. injection E as _ <-. eexists; reflexivity.
Qed.

Lemma rotation_emb n ws gs t : wires_ok n ws -> List.length gs = List.length ws -> Forall (fun g => g <= 3) gs ->
  meq (2 ^ n) (expm (2 ^ n) (mscale (mit t) (letters n ws gs)))
    (emb n ws (madd (mscale (RtoC (cos t)) mid) (mscale (mit (sin t)) (pword gs)))).
Proof.
  intros Hw Hl Hg. unfold letters. rewrite expm_involution.
  - rewrite emb_add, !emb_scale, emb_id by exact Hw. reflexivity.
  - rewrite emb_mul by exact Hw. transitivity (emb n ws (mid (K := C))); [|apply emb_id, Hw]. apply emb_proper. rewrite <- Hl. apply pword_sq, Hg.
Qed.

Lemma small_product x0 x1 z : meq 4 (small x0 x1 z)
  (mprod 4 [madd (mscale (RtoC (cos (z / 2))) mid) (mscale (mit (sin (z / 2))) (pword [3; 3]));
            emb 2 [1] (rx x1); emb 2 [0] (rx x0); emb 2 [1] (a_ent hadamard_matrix); emb 2 [0] (a_ent hadamard_matrix)]).
Proof.
  unfold small. cbn [mprod]. rewrite <- zz_small. rewrite !mmul_assoc. reflexivity.
Qed.

Lemma pair_wire n w (A : mat C) : w < 2 -> 2 <= n -> meq (2 ^ n) (emb n [0; 1] (emb 2 [w] A)) (emb n [w] A).
Proof.
  intros Hw Hn. rewrite (emb_emb n [0; 1] [w]) by (apply pair_ok, Hn || apply (one_ok 2), Hw).
  replace (map (fun i => nth i [0; 1] 0) [w]) with [w] by (destruct w as [|[|w]]; [reflexivity|reflexivity|lia]). reflexivity.
Qed.

Lemma rx_rotation n w t : w < n -> meq (2 ^ n) (emb n [w] (rx t)) (expm (2 ^ n) (mscale (mit (t / 2)) (letters n [w] [1]))).
Proof.
  intros Hw. rewrite rotation_emb; [|apply one_ok, Hw|reflexivity|repeat constructor; lia]. apply emb_proper. unfold rx. change (2 ^ List.length [w]) with 2.
  rewrite pword_one. reflexivity.
Qed.

Lemma v2_product n x0 x1 z : 2 <= n -> meq (2 ^ n) (emb n [0; 1] (small x0 x1 z)) (fitted n x0 x1 z).
Proof.
  intros Hn. rewrite (emb_proper n [0; 1] _ _ (small_product x0 x1 z)). change 4 with (2 ^ List.length [0; 1]).
  rewrite <- emb_mprod by (apply pair_ok, Hn). cbn [map mprod]. unfold fitted.
  rewrite (pair_wire n 0 (rx x0)), (pair_wire n 1 (rx x1)), (pair_wire n 0 (a_ent hadamard_matrix)), (pair_wire n 1 (a_ent hadamard_matrix)) by lia.
  rewrite !rx_rotation by lia. rewrite (rotation_emb n [0; 1] [3; 3]) by (apply pair_ok, Hn || reflexivity || (repeat constructor; lia)).
  rewrite !mmul_assoc, mmul_1_r. reflexivity.
Qed.

(** ** C83 *)
Theorem C83_v2_call_partial n obs eta b c ord ordS :
  2 <= n -> Forall (fits n) obs -> (0 <= eta <= 1)%R -> reordering ord -> reordering ordS ->
  exists l, ZassenhausLayerV2 ord ordS n obs eta b c = Ok l /\ v2_params l = (/ 10, 12 / 10, 6 / 10)%R /\
  forall l' minimize U, reached l l' ->
  let '(x0, x1, z) := minimize (mismatch n obs eta U) in
  exists V l'', v2_call minimize l' U = Ok (V, l'') /\ unitary2 (2 ^ n) V /\
    meq (2 ^ n) V (fitted n x0 x1 z) /\
    (forall i, i < 2 ^ n -> V i 0 = v2_state n x0 x1 z i) /\
    v2_params l'' = (fst (fst (v2_params l')) + x0, snd (fst (v2_params l')) + x1, snd (v2_params l') + z)%R.
Proof.
  intros Hn Ho He HO HS.
  destruct (mapM_full n obs) as (Fs & EF & HF). { eapply Forall_impl; [|exact Ho]. intros o H. exact H. }
  destruct (v2_init ord ordS n obs Fs eta b c HO HS EF He) as (t2 & t4 & t8 & p & E & Hp & K2 & H2 & K4 & H4).
  eexists. split; [exact E|]. split; [reflexivity|]. intros l' m U Hr. destruct (reached_shape _ _ _ _ _ _ _ _ _ Hr) as [ps ->].
  pose proof (v2_call_eq m n eta b t2 t4 t8 Fs obs p ps U Hn HF Hp K2 H2 K4 H4) as EC. rewrite <- mismatch_fit in EC. cbv zeta in EC.
  destruct (m (mismatch n obs eta U)) as [[x0 x1] z]. destruct (v2_unitary_spec n x0 x1 z Hn) as (V & EV & MV). rewrite EV in EC. cbn [bind] in EC.
  eexists. eexists. split; [exact EC|]. split; [eapply v2_unitary; eassumption|]. split; [rewrite MV; apply v2_product, Hn|].
  split; [|reflexivity]. intros i Hi. rewrite MV by (exact Hi || apply pow2_pos). apply amplitudes; assumption.
Qed.
Print Assumptions C83_v2_call_partial.

(** ** Energies *)
Lemma v2_result n obs eta b c ord ordS l l' m U V l'' :
  2 <= n -> Forall (fits n) obs -> (0 <= eta <= 1)%R -> reordering ord -> reordering ordS ->
  ZassenhausLayerV2 ord ordS n obs eta b c = Ok l -> reached l l' -> v2_call m l' U = Ok (V, l'') ->
  unitary2 (2 ^ n) V /\ exists x0 x1 z, m (mismatch n obs eta U) = (x0, x1, z) /\ meq (2 ^ n) V (emb n [0; 1] (small x0 x1 z)).
Proof.
  intros Hn Ho He HO HS E Hr EV. destruct (C83_v2_call_partial n obs eta b c ord ordS Hn Ho He HO HS) as (l0 & E0 & _ & H).
  rewrite E in E0. injection E0 as <-. specialize (H l' m U Hr). destruct (m (mismatch n obs eta U)) as [[x0 x1] z].
  destruct H as (V' & l3 & EV' & HU & MV & _). rewrite EV in EV'. injection EV' as <- _. split; [exact HU|].
  exists x0, x1, z. split; [reflexivity|]. rewrite MV. symmetry. apply v2_product, Hn.
Qed.

Lemma quad_ext_col d (x y : nat -> C) (F G : mat C) : veq d x y -> meq d F G -> quad d x F = quad d y G.
Proof.
  intros H HF. unfold quad. apply lsum_ext. intros i Hi. apply lsum_ext. intros j Hj. apply in_seq in Hi. apply in_seq in Hj.
  rewrite (H i), (H j), (HF i j) by lia. reflexivity.
Qed.

Lemma cis_norm t : Cmult (Cconj (Cexp_i t)) (Cexp_i t) = RtoC 1.
Proof. unfold Cexp_i. pose proof (sin2_cos2 t) as H. unfold Rsqr in H. apply C_ext; simpl; [lra|ring]. Qed.

Lemma small_z x0 x1 z w : w < 2 -> quad 4 (fun i => small x0 x1 z i 0) (emb 2 [w] (sigma 3)) = RtoC 0.
Proof.
  intros Hw. pose proof (small_col x0 x1 z) as S. revert S. generalize (small x0 x1 z). intros M S.
  rewrite (quad_ext_col 4 _ (v4 (M 0 0) (M 1 0) (M 2 0) (M 3 0)) _ (emb 2 [w] (sigma 3))); [|intros i Hi; destruct i as [|[|[|[|i]]]]; try lia; reflexivity|reflexivity].
  assert (N : forall i, i < 4 -> Cmult (Cconj (M i 0)) (M i 0) = RtoC (/ 4)).
  { intros i Hi. rewrite S by exact Hi. match goal with |- context [Cexp_i ?t] => pose proof (cis_norm t) as N; destruct (Cexp_i t) as [a b] end.
    apply (f_equal fst) in N. simpl in N. apply C_ext; simpl; nra. }
  pose proof (N 0 ltac:(lia)) as N0. pose proof (N 1 ltac:(lia)) as N1. pose proof (N 2 ltac:(lia)) as N2. pose proof (N 3 ltac:(lia)) as N3.
  destruct (M 0 0) as [a0 b0], (M 1 0) as [a1 b1], (M 2 0) as [a2 b2], (M 3 0) as [a3 b3].
  apply (f_equal fst) in N0, N1, N2, N3. simpl in N0, N1, N2, N3.
  destruct w as [|[|w]]; [| |lia]; unfold quad; cbn; apply C_ext; simpl; nra.
Qed.

Lemma z_mean_ext n U V w : meq (2 ^ n) U V -> z_mean n U w = z_mean n V w.
Proof. intros H. unfold z_mean. f_equal. apply quad_ext_col; [|reflexivity]. intros i Hi. apply H; [exact Hi|apply pow2_pos]. Qed.

Lemma z_mean_pair n W w : 2 <= n -> w < 2 -> z_mean n (emb n [0; 1] W) w = Re (quad 4 (fun i => W i 0) (emb 2 [w] (sigma 3))).
Proof.
  intros Hn Hw. unfold z_mean. f_equal. rewrite <- (quad_mean_emb n [0; 1] W (emb 2 [w] (sigma 3))) by (apply pair_ok, Hn).
  apply quad_ext_col; [intros i _; reflexivity|]. symmetry. apply pair_wire; assumption.
Qed.

Lemma bits_zero n : bits n 0 = repeat 0 n.
Proof. induction n as [|n IH]; [reflexivity|]. cbn [bits repeat]. rewrite Nat.div_0_l, Nat.mod_0_l by (apply pow2_nz). rewrite IH. reflexivity. Qed.

Lemma z_mean_off n W w : 2 <= w < n -> unitary2 (2 ^ n) (emb n [0; 1] W) -> z_mean n (emb n [0; 1] W) w = 1%R.
Proof.
  intros Hw [HU _]. unfold z_mean. rewrite quad_column.
  assert (E : meq (2 ^ n) (mmul (2 ^ n) (madj (emb n [0; 1] W)) (mmul (2 ^ n) (emb n [w] (sigma 3)) (emb n [0; 1] W))) (emb n [w] (sigma 3))).
  { rewrite <- emb_commute.
    - rewrite mmul_assoc, HU, mmul_1_l. reflexivity.
    - cbn [app]. split; [repeat constructor; simpl; intuition lia|repeat constructor; lia]. }
  rewrite E by apply pow2_pos. unfold emb. rewrite agree_off_refl. unfold sel. rewrite bits_zero. cbn [map]. rewrite nth_repeat. reflexivity.
Qed.

(** Whatever the minimizer returns, Z has expectation 0 on the qubits 0 and 1
    and 1 on all others *)
Theorem C83_v2_flat n obs eta b c ord ordS l l' minimize U V l'' :
  2 <= n -> Forall (fits n) obs -> (0 <= eta <= 1)%R -> reordering ord -> reordering ordS ->
  ZassenhausLayerV2 ord ordS n obs eta b c = Ok l -> reached l l' -> v2_call minimize l' U = Ok (V, l'') ->
  (forall w, w < 2 -> z_mean n V w = 0%R) /\ (forall w, 2 <= w < n -> z_mean n V w = 1%R).
Proof.
  intros Hn Ho He HO HS E Hr EV. destruct (v2_result n obs eta b c ord ordS l l' minimize U V l'' Hn Ho He HO HS E Hr EV) as (HU & x0 & x1 & z & _ & M).
  split; intros w Hw; rewrite (z_mean_ext n _ _ w M).
  - rewrite z_mean_pair by assumption. rewrite small_z by exact Hw. reflexivity.
  - apply z_mean_off; [exact Hw|]. eapply unitary2_proper; [exact M|exact HU].
Qed.
Print Assumptions C83_v2_flat.

(** The state depends on the angle of Z0 Z1 only, up to a phase *)
Theorem C83_v2_one_angle n obs eta b c ord ordS l l' minimize U V l'' :
  2 <= n -> Forall (fits n) obs -> (0 <= eta <= 1)%R -> reordering ord -> reordering ordS ->
  ZassenhausLayerV2 ord ordS n obs eta b c = Ok l -> reached l l' -> v2_call minimize l' U = Ok (V, l'') ->
  forall F, quad (2 ^ n) (fun i => V i 0) F = quad (2 ^ n) (v2_state n 0 0 (snd (minimize (mismatch n obs eta U)))) F.
Proof.
  intros Hn Ho He HO HS E Hr EV F. destruct (v2_result n obs eta b c ord ordS l l' minimize U V l'' Hn Ho He HO HS E Hr EV) as (HU & x0 & x1 & z & Em & M).
  rewrite Em. cbn [snd].
  assert (P : forall i, i < 2 ^ n -> V i 0 = Cmult (cis (- (x0 + x1) / 2)) (v2_state n 0 0 z i)).
  { intros i Hi. rewrite M by (exact Hi || apply pow2_pos). rewrite amplitudes by assumption. unfold v2_state.
    assert (Z : forall c, Cmult c (RtoC 0) = RtoC 0) by (intros [u v]; apply C_ext; simpl; ring).
    destruct (bits n i) as [|b0 [|b1 others]]; [symmetry; apply Z|symmetry; apply Z|]. destruct (forallb _ others); [|symmetry; apply Z].
    replace (- (0 + 0) / 2)%R with 0%R by field. generalize (if Nat.eqb b0 b1 then (- z / 2)%R else (z / 2)%R). intros t. rewrite Rplus_0_l.
    unfold cis. rewrite cos_plus, sin_plus. apply C_ext; simpl; ring. }
  unfold quad. apply lsum_ext. intros i Hi. apply lsum_ext. intros j Hj. apply in_seq in Hi. apply in_seq in Hj.
  rewrite (P i), (P j) by lia. pose proof (cis_norm (- (x0 + x1) / 2)) as N. change (Cexp_i (- (x0 + x1) / 2)) with (cis (- (x0 + x1) / 2)) in N.
  revert N. generalize (cis (- (x0 + x1) / 2)). intros u N. cbn [kmul kconj CStar].
  assert (CM : forall a b, Cconj (Cmult a b) = Cmult (Cconj a) (Cconj b)) by (intros [? ?] [? ?]; apply C_ext; simpl; ring).
  rewrite CM. transitivity (Cmult (Cmult (Cconj u) u) (Cmult (Cmult (Cconj (v2_state n 0 0 z i)) (F i j)) (v2_state n 0 0 z j))); [ring|]. rewrite N. ring.
Qed.
Print Assumptions C83_v2_one_angle.

Definition z_obs (w : nat) : qop C := mkqop (mkarr 2 2 (sigma 3)) [w].

Lemma z_obs_fits n w : w < n -> fits n (z_obs w).
Proof. intros H. split; [discriminate|]. split; [repeat constructor; simpl; tauto|]. split; [repeat constructor; exact H|]. split; reflexivity. Qed.
Lemma z_obs_herm w : hermitian_obs (z_obs w).
Proof. intros i j Hi Hj. change (2 ^ List.length (q_wires (z_obs w))) with 2 in *. destruct i as [|[|i]]; try lia; destruct j as [|[|j]]; try lia; cbn; apply C_ext; simpl; ring. Qed.

(** The call does not improve the circuit it is given: with the observables
    Z0 and Z1 and the circuit that flips both qubits, every step size and every
    minimizer raise the total cost from its minimum -2 to 0 *)
Theorem C83_v2_step_refuted : forall n eta b c ord ordS minimize,
  2 <= n -> (0 <= eta <= 1)%R -> reordering ord -> reordering ordS ->
  exists l U V l', ZassenhausLayerV2 ord ordS n [z_obs 0; z_obs 1] eta b c = Ok l /\ unitary2 (2 ^ n) U /\
    v2_call minimize l U = Ok (V, l') /\
    (z_mean n U 0 + z_mean n U 1 = -2)%R /\ (z_mean n V 0 + z_mean n V 1 = 0)%R.
Proof.
  intros n eta b c ord ordS m Hn He HO HS.
  assert (Ho : Forall (fits n) [z_obs 0; z_obs 1]) by (apply Forall_cons; [apply z_obs_fits; lia|apply Forall_cons; [apply z_obs_fits; lia|apply Forall_nil]]).
  destruct (C83_v2_call_partial n _ eta b c ord ordS Hn Ho He HO HS) as (l & E & _ & H).
  pose (U := emb n [0; 1] (pword (K := C) [1; 1])). specialize (H l m U (reached_start l)).
  destruct (m (mismatch n [z_obs 0; z_obs 1] eta U)) as [[x0 x1] z]. destruct H as (V & l' & EV & _).
  exists l, U, V, l'. split; [exact E|]. split.
  { apply emb_unitary; [apply pair_ok, Hn|]. split.
    - rewrite (pword_herm [1; 1]) by (repeat constructor; lia). apply (pword_sq [1; 1]). repeat constructor; lia.
    - rewrite (pword_herm [1; 1]) by (repeat constructor; lia). apply (pword_sq [1; 1]). repeat constructor; lia. }
  split; [exact EV|]. split.
  - unfold U. rewrite !z_mean_pair by lia. unfold quad. cbn. ring.
  - destruct (C83_v2_flat n _ eta b c ord ordS l l m U V l' Hn Ho He HO HS E (reached_start l) EV) as [F _]. rewrite !F by lia. ring.
Qed.
Print Assumptions C83_v2_step_refuted.

(** ** C84 *)
(** the value of a coefficient c x0^a x1^b z^d *)
Definition coefficient (t : gq * (nat * nat * nat)) (x0 x1 z : R) : C :=
  let '(a, b, d) := snd t in
  Cmult (Q2R (this (gre (fst t))), Q2R (this (gim (fst t)))) (RtoC (x0 ^ a * x1 ^ b * z ^ d)).

Definition letter_number (a : Ascii.ascii) : nat :=
  if Ascii.eqb a "X"%char then 1 else if Ascii.eqb a "Y"%char then 2 else if Ascii.eqb a "Z"%char then 3 else 0.

Definition bracket (d : nat) (A B : mat C) : mat C := msub (mmul d A B) (mmul d B A).

(** A + B + C + 1/2 ([A, B] + [A, C] + [B, C]) *)
Definition second_order (d : nat) (A B D : mat C) : mat C :=
  madd (madd (madd A B) D) (mscale (RtoC (/ 2)) (madd (madd (bracket d A B) (bracket d A D)) (bracket d B D))).

(** The terms of the object are the expansion of log(e^A e^B e^C) to second
    order with A = -i x0 X0, B = -i x1 X1, C = -i z Z0 Z1, and no name occurs twice *)
Theorem C84_v2_polynomial n obs eta b c ord ordS :
  2 <= n -> Forall (fits n) obs -> (0 <= eta <= 1)%R -> reordering ord -> reordering ordS ->
  exists l, ZassenhausLayerV2 ord ordS n obs eta b c = Ok l /\
  List.length (v2_terms l) = 5 /\ NoDup (map fst (v2_terms l)) /\
  forall l' x0 x1 z, reached l l' ->
  meq (2 ^ n)
    (msum (fun t => mscale (coefficient (snd t) x0 x1 z)
                      (letters n (snd (fst t)) (map letter_number (list_ascii_of_string (fst (fst t)))))) (v2_terms l'))
    (second_order (2 ^ n) (mscale (mit x0) (letters n [0] [1])) (mscale (mit x1) (letters n [1] [1]))
                  (mscale (mit z) (letters n [0; 1] [3; 3]))).
Proof.
  intros Hn Ho He HO HS.
  destruct (mapM_full n obs) as (Fs & EF & HF). { eapply Forall_impl; [|exact Ho]. intros o H. exact H. }
  destruct (v2_init ord ordS n obs Fs eta b c HO HS EF He) as (t2 & t4 & t8 & p & E & Hp & _).
  eexists. split; [exact E|]. cbn [v2_terms].
  assert (G : forall t k a b e, reading (term_val t) = (k, (a, b), e) -> fst (term_val t) = k /\
    forall x0 x1 z, coefficient (snd (term_val t)) x0 x1 z = Cmult (Q2R a, Q2R b) (RtoC (x0 ^ fst (fst e) * x1 ^ snd (fst e) * z ^ snd e))).
  { intros t k a b' [[e0 e1] e2] Er. unfold reading in Er. injection Er as E1 E2 E3 E4. split; [exact E1|]. intros. unfold coefficient. rewrite E2, E4, E3. reflexivity. }
  destruct (G _ _ _ _ _ read_zz) as [A1 B1]. destruct (G _ _ _ _ _ read_x0) as [A2 B2]. destruct (G _ _ _ _ _ read_yz) as [A3 B3].
  destruct (G _ _ _ _ _ read_x1) as [A4 B4]. destruct (G _ _ _ _ _ read_zy) as [A5 B5].
  split; [rewrite map_length, (Permutation_length Hp); reflexivity|]. split.
  { assert (K : NoDup (map (fun t => fst (term_val t)) p)).
    { eapply Permutation_NoDup; [apply Permutation_sym; apply Permutation_map; exact Hp|].
      unfold five. cbn [map]. rewrite A1, A2, A3, A4, A5. repeat constructor; simpl; intuition discriminate. }
    rewrite map_map. exact K. }
  intros l' x0 x1 z Hr. destruct (reached_shape _ _ _ _ _ _ _ _ _ Hr) as [ps ->]. cbn [v2_terms].
  transitivity (madd (mscale (mit z) (letters n [0; 1] [3; 3])) (madd (mscale (mit x0) (letters n [0] [1]))
     (madd (mscale (0, x0 * z)%R (letters n [0; 1] [2; 3])) (madd (mscale (mit x1) (letters n [1] [1])) (mscale (0, x1 * z)%R (letters n [0; 1] [3; 2])))))).
  { intros i j Hi Hj. unfold msum. rewrite lsum_map, (lsum_perm _ _ _ Hp). unfold five. cbn [lsum]. unfold mscale. unfold key.
    cbn [lsum fold_right map]. unfold lsum; cbn [fold_right map]. rewrite A1, A2, A3, A4, A5, B1, B2, B3, B4, B5. cbn [fst snd list_ascii_of_string map].
    change (letter_number "X"%char) with 1. change (letter_number "Y"%char) with 2. change (letter_number "Z"%char) with 3.
    unfold madd, mit. cbn [kadd kmul k0 CStar]. generalize (letters n [0; 1] [3; 3] i j) (letters n [0] [1] i j) (letters n [0; 1] [2; 3] i j) (letters n [1] [1] i j) (letters n [0; 1] [3; 2] i j).
    intros [a1 b1] [a2 b2] [a3 b3] [a4 b4] [a5 b5]. unfold Q2R. apply C_ext; simpl; field. }
  unfold second_order, bracket, letters.
  rewrite <- (pair_wire n 0 (pword [1])), <- (pair_wire n 1 (pword [1])) by lia.
  assert (L : forall a b (P Q : mat C), meq (2 ^ n) (mmul (2 ^ n) (mscale a (emb n [0; 1] P)) (mscale b (emb n [0; 1] Q))) (mscale (Cmult a b) (emb n [0; 1] (mmul 4 P Q)))).
  { intros a b' P Q. rewrite mmul_scale_l, mmul_scale_r, emb_mul by (apply pair_ok, Hn). intros i j Hi Hj. unfold mscale. cbn [kmul CStar]. change (2 ^ List.length [0; 1]) with 4. ring. }
  rewrite !L.
  intros i j Hi Hj. unfold madd, msub, mscale.
  assert (EE : forall A : mat C, emb n [0; 1] A i j = if agree_off n [0; 1] (bits n i) (bits n j) then A (unbits (sel [0; 1] (bits n i))) (unbits (sel [0; 1] (bits n j))) else RtoC 0) by reflexivity.
  pose proof (sel_lt n [0; 1] i Hi) as Bi. pose proof (sel_lt n [0; 1] j Hj) as Bj. change (2 ^ List.length [0; 1]) with 4 in Bi, Bj.
  rewrite !EE. clear EE L. destruct (agree_off n [0; 1] (bits n i) (bits n j)); [|apply C_ext; simpl; ring].
  revert Bi Bj. generalize (unbits (sel [0; 1] (bits n i))) (unbits (sel [0; 1] (bits n j))). intros r s Hr' Hs'.
  unfold mit. destruct r as [|[|[|[|r]]]]; try lia; destruct s as [|[|[|[|s]]]]; try lia; unfold mmul; cbn; apply C_ext; simpl; field.
Qed.
Print Assumptions C84_v2_polynomial.

(** ** One qubit *)
Lemma dget_miss {B} (t : list (key * B)) k : ~ In k (map fst t) -> dget key_eqb t k = Err KeyError.
Proof.
  induction t as [|[k' v] t IH]; intros H; [reflexivity|]. cbn [dget]. destruct (key_eqb k' k) eqn:E.
  - apply key_eqb_spec in E. subst. exfalso. apply H. left. reflexivity.
  - apply IH. intros Hi. apply H. right. exact Hi.
Qed.
Lemma dget_cases {B} (t : list (key * B)) k : (exists v, dget key_eqb t k = Ok v) \/ dget key_eqb t k = Err KeyError.
Proof. induction t as [|[k' v] t IH]; [right; reflexivity|]. cbn [dget]. destruct (key_eqb k' k); [left; eauto|exact IH]. Qed.
Lemma mapM_err {A B} (f : A -> res B) e l : Forall (fun a => (exists v, f a = Ok v) \/ f a = Err e) l -> Exists (fun a => f a = Err e) l -> mapM f l = Err e.
Proof.
  intros H E. induction E as [a l Ea|a l _ IH]; inversion H as [|? ? Ha Hl]; subst; cbn [mapM]; [rewrite Ea; reflexivity|].
  destruct Ha as [[v ->]| ->]; [|reflexivity]. cbn [bind]. rewrite (IH Hl). reflexivity.
Qed.

Theorem C83_v2_one_qubit n obs eta b c ord ordS : n <= 1 -> Forall (fits n) obs -> (0 <= eta <= 1)%R -> reordering ord -> reordering ordS ->
  exists l, ZassenhausLayerV2 ord ordS n obs eta b c = Ok l /\ forall minimize U, v2_call minimize l U = Err KeyError.
Proof.
  intros Hn Ho He HO HS.
  destruct (mapM_full n obs) as (Fs & EF & HF). { eapply Forall_impl; [|exact Ho]. intros o H. exact H. }
  destruct (v2_init ord ordS n obs Fs eta b c HO HS EF He) as (t2 & t4 & t8 & p & E & Hp & K2 & H2 & K4 & H4).
  eexists. split; [exact E|]. intros m U. unfold v2_call. cbn [v2_n v2_eta v2_su2 v2_su4 v2_su8 v2_obs v2_terms v2_params].
  match goal with |- bind ?a _ = _ => assert (EE : a = Err KeyError); [|rewrite EE; reflexivity] end.
  apply mapM_err.
  - apply Forall_forall. intros [k t] _. cbv zeta. cbn [fst snd].
    match goal with |- context [dget key_eqb ?T k] => destruct (dget_cases T k) as [[v ->]| ->] end; cbn [bind]; eauto.
  - apply Exists_exists. exists (term_val t_x1). split.
    + apply in_map. apply (Permutation_in _ (Permutation_sym Hp)). unfold five. simpl. tauto.
    + assert (R : fst (term_val t_x1) = ("X"%string, [1])) by (exact (f_equal (fun x => fst (fst x)) read_x1)). cbv zeta. unfold key in *.
      rewrite R. cbn [fst String.length Nat.eqb]. rewrite dget_miss; [reflexivity|].
      intros Hi. apply (eq_ind _ (fun l => In ("X"%string, [1]) l) Hi) in K2. clear Hi. rename K2 into Hi. apply all_keys_In in Hi. destruct Hi as (w & _ & _ & _ & _ & F). inversion F; lia.
Qed.
Print Assumptions C83_v2_one_qubit.

(** ** A case *)
Lemma rev_reordering {A} : reordering (@rev A).
Proof. intros l. apply Permutation_sym, Permutation_rev. Qed.

(** two calls on three qubits, sets iterated backwards *)
Example C83_case : exists l V l1 W l2,
  ZassenhausLayerV2 (@rev _) (@rev _) 3 [z_obs 0; z_obs 2] (1 / 2) true false = Ok l /\
  v2_call (fun _ => (1, 2, PI / 2)%R) l (mid (K := C)) = Ok (V, l1) /\
  v2_call (fun f => (f (1, 0, 0)%R, 0, 0)%R) l1 V = Ok (W, l2) /\ reached l l2 /\
  z_mean 3 W 1 = 0%R /\ z_mean 3 W 2 = 1%R /\ V 7 0 = RtoC 0 /\ v2_params l1 = (11 / 10, 32 / 10, 6 / 10 + PI / 2)%R.
Proof.
  assert (Ho : Forall (fits 3) [z_obs 0; z_obs 2]) by (apply Forall_cons; [apply z_obs_fits; lia|apply Forall_cons; [apply z_obs_fits; lia|apply Forall_nil]]).
  assert (He : (0 <= 1 / 2 <= 1)%R) by lra.
  destruct (C83_v2_call_partial 3 _ (1 / 2) true false (@rev _) (@rev _) ltac:(lia) Ho He rev_reordering rev_reordering) as (l & E & Ep & H).
  destruct (H l (fun _ => (1, 2, PI / 2)%R) mid (reached_start l)) as (V & l1 & EV & _ & _ & SV & PV).
  assert (Hr : reached l l1) by (eapply reached_call; [apply reached_start|exact EV]).
  pose proof (H l1 (fun f => (f (1, 0, 0)%R, 0, 0)%R) V Hr) as H2. cbv beta iota in H2. destruct H2 as (W & l2 & EW & _).
  exists l, V, l1, W, l2. split; [exact E|]. split; [exact EV|]. split; [exact EW|]. split; [eapply reached_call; eassumption|].
  destruct (C83_v2_flat 3 _ _ _ _ _ _ _ _ _ _ _ _ ltac:(lia) Ho He rev_reordering rev_reordering E Hr EW) as [F G].
  split; [apply F; lia|]. split; [apply G; lia|]. split; [rewrite SV by (cbn; lia); reflexivity|].
  rewrite PV, Ep. cbn [fst snd]. replace (11 / 10)%R with (/ 10 + 1)%R by lra. replace (32 / 10)%R with (12 / 10 + 2)%R by lra. reflexivity.
Qed.
