(** Properties C95 and C96: the energies and directions on the 3-sphere in
    experiments_paper/fixed_points.py and the level surface in
    experiments_paper/3_sphere_level_curves.py. *)
From Coq Require Import Arith Bool Lia String Reals Lra Psatz.
From Coquelicot Require Import Coquelicot.
From Verif Require Import Py StarRing Matrix Cplx PauliSpec Bits PauliBasis Expm UtilsModel UtilsProofs CircuitModel CircuitProofs CircuitProofs2 AlgebraModel S3Model.
From Coq Require Import List.
Import ListNotations.
Local Open Scope R_scope.

(** ** Specification *)

(** the energy <U0| X + Y |U0> of the first column of U, with the matrix X + Y written out *)
Definition XY (i j : nat) : C := match i, j with 0%nat, 1%nat => (1, -1) | 1%nat, 0%nat => (1, 1) | _, _ => (0, 0) end.
Definition energy (U : nat -> nat -> C) : R :=
  Re (Cplus (Cmult (Cconj (U 0%nat 0%nat)) (Cmult (XY 0 1) (U 1%nat 0%nat))) (Cmult (Cconj (U 1%nat 0%nat)) (Cmult (XY 1 0) (U 0%nat 0%nat)))).

(** exp(i t P) U for the three Pauli matrices P *)
Definition rotX (t : R) (U : nat -> nat -> C) : nat -> nat -> C := fun i j => Cplus (Cmult (cos t, 0) (U i j)) (Cmult (0, sin t) (U (1 - i)%nat j)).
Definition rotY (t : R) (U : nat -> nat -> C) : nat -> nat -> C := fun i j =>
  if Nat.eqb i 0 then Cplus (Cmult (cos t, 0) (U 0%nat j)) (Cmult (sin t, 0) (U 1%nat j)) else Cminus (Cmult (cos t, 0) (U 1%nat j)) (Cmult (sin t, 0) (U 0%nat j)).
Definition rotZ (t : R) (U : nat -> nat -> C) : nat -> nat -> C := fun i j => Cmult (if Nat.eqb i 0 then (cos t, sin t) else (cos t, - sin t)) (U i j).

Definition special_unitary (U : nat -> nat -> C) : Prop :=
  (Cmod (U 0%nat 0%nat) ^ 2 + Cmod (U 1%nat 0%nat) ^ 2 = 1) /\ (Cmod (U 0%nat 1%nat) ^ 2 + Cmod (U 1%nat 1%nat) ^ 2 = 1) /\
  Cplus (Cmult (Cconj (U 0%nat 0%nat)) (U 0%nat 1%nat)) (Cmult (Cconj (U 1%nat 0%nat)) (U 1%nat 1%nat)) = 0 /\
  Cminus (Cmult (U 0%nat 0%nat) (U 1%nat 1%nat)) (Cmult (U 0%nat 1%nat) (U 1%nat 0%nat)) = 1.

(** ** Proofs *)
Lemma Cmod2 (a b : R) : Cmod (a, b) ^ 2 = a ^ 2 + b ^ 2.
Proof. unfold Cmod. cbn [fst snd]. rewrite pow2_sqrt; [reflexivity|]. nra. Qed.
Lemma sphere_energy a b c d : energy (sphere_matrix a b c d) = 2 * (a * (c + d) + b * (d - c)).
Proof. unfold energy. cbn. ring. Qed.
Lemma sphere_special a b c d : a ^ 2 + b ^ 2 + c ^ 2 + d ^ 2 = 1 -> special_unitary (sphere_matrix a b c d).
Proof.
  intros H. unfold special_unitary, sphere_matrix. rewrite !Cmod2. split; [nra|]. split; [nra|]. split; apply C_ext; cbn; nra.
Qed.
Lemma norm_sq r0 r1 r2 : sqrt (r0 ^ 2 + r1 ^ 2 + r2 ^ 2) ^ 2 = r0 ^ 2 + r1 ^ 2 + r2 ^ 2.
Proof. apply pow2_sqrt. nra. Qed.
Lemma sphere_in r0 r1 r2 : r0 ^ 2 + r1 ^ 2 + r2 ^ 2 <= 1 ->
  sphere_unitary r0 r1 r2 = (Some (sphere_matrix r0 r1 r2 (sqrt (1 - (r0 ^ 2 + r1 ^ 2 + r2 ^ 2)))), true).
Proof.
  intros H. unfold sphere_unitary. rewrite norm_sq. unfold np_sqrt. destruct (Rlt_dec _ 0) as [L|L]; [lra|].
  set (d := sqrt _). assert (Hd : d ^ 2 = 1 - (r0 ^ 2 + r1 ^ 2 + r2 ^ 2)) by (apply pow2_sqrt; lra). f_equal.
  unfold allclose. apply forallb_forall. intros i Hi. apply forallb_forall. intros j Hj. apply in_seq in Hi, Hj. destruct (Rle_dec _ _) as [|N]; [reflexivity|]. exfalso. apply N. clear N.
  replace (Cminus _ _) with (RtoC 0).
  - rewrite Cmod_0. assert (0 <= Cmod (mid (K := C) i j)) by apply Cmod_ge_0. lra.
  - destruct i as [|[|i]]; [| |lia]; (destruct j as [|[|j]]; [| |lia]); apply C_ext; unfold mmul, madj, mid, sphere_matrix, lsum; cbn; nra.
Qed.
Lemma sphere_out r0 r1 r2 : 1 < r0 ^ 2 + r1 ^ 2 + r2 ^ 2 -> sphere_unitary r0 r1 r2 = (None, false).
Proof. intros H. unfold sphere_unitary. rewrite norm_sq. unfold np_sqrt. destruct (Rlt_dec _ 0) as [L|L]; [reflexivity|lra]. Qed.

Lemma fp_valid : Forall (valid_qop (K := C) 1) fp_observables.
Proof. repeat constructor; cbn; try discriminate; auto; try lia. Qed.
Lemma fp_sum i j : (i < 2)%nat -> (j < 2)%nat -> obs_sum 1 fp_observables i j = XY i j.
Proof.
  intros Hi Hj. unfold obs_sum, msum, fp_observables, qmat, lsum. destruct i as [|[|i]]; [| |lia]; (destruct j as [|[|j]]; [| |lia]); apply C_ext; cbn; ring.
Qed.
Lemma fp_hamiltonian : exists H, get_hamiltonian_matrix 1 fp_observables None = Ok H /\ forall i j, (i < 2)%nat -> (j < 2)%nat -> a_ent H i j = XY i j.
Proof.
  destruct (hamiltonian_spec (K := C) 1 fp_observables None fp_valid) as [HH _]. cbn [List.length fp_observables repeat] in HH. destruct (HH (le_n _)) as (H & E & _ & _ & M). exists H. split; [exact E|]. intros i j Hi Hj. rewrite (M i j Hi Hj), <- (fp_sum i j Hi Hj).
  unfold wsum, obs_sum, msum, lsum, mscale. cbn [fp_observables combine map fold_right fst snd]. apply C_ext; cbn; ring.
Qed.

Lemma pword1 g : (g < 4)%nat -> meq (2 ^ 1) (pword (K := C) [g]) (sigma g).
Proof. intros Hg i j Hi Hj. cbn in Hi, Hj. destruct g as [|[|[|[|g]]]]; try lia; (destruct i as [|[|i]]; [| |lia]); (destruct j as [|[|j]]; [| |lia]); apply C_ext; cbn; ring. Qed.
Definition bloch_x (a b c d : R) : R := 2 * (a * c + b * d).
Definition bloch_y (a b c d : R) : R := 2 * (a * d - b * c).
Definition bloch_z (a b c d : R) : R := a ^ 2 + b ^ 2 - c ^ 2 - d ^ 2.
Lemma fp_direction a b c d g : (g < 4)%nat ->
  Im (quad (2 ^ 1) (qnode_state (sphere_matrix a b c d)) (msub (mmul (2 ^ 1) (pword [g]) (obs_sum 1 fp_observables)) (mmul (2 ^ 1) (obs_sum 1 fp_observables) (pword [g])))) / 2 ^ 1 =
  match g with 0%nat => 0 | 1%nat => bloch_z a b c d | 2%nat => - bloch_z a b c d | _ => bloch_y a b c d - bloch_x a b c d end.
Proof.
  intros Hg. rewrite (quad_comm_ext (2 ^ 1) _ _ (sigma g) _ XY (pword1 g Hg)); [|intros i j Hi Hj; apply fp_sum; exact Hi || exact Hj].
  unfold quad, qnode_state, sphere_matrix, bloch_x, bloch_y, bloch_z, XY, msub, mmul, lsum. destruct g as [|[|[|[|g]]]]; try lia; cbn; field.
Qed.
Definition fp_cost (a b c d : R) : R := a ^ 2 - b ^ 2 - 2 * a * b - c ^ 2 + d ^ 2 - 2 * c * d.
Lemma fp_value r0 r1 r2 : r0 ^ 2 + r1 ^ 2 + r2 ^ 2 <= 1 -> let d := sqrt (1 - (r0 ^ 2 + r1 ^ 2 + r2 ^ 2)) in
  fixed_point r0 r1 r2 = Ok ([bloch_z r0 r1 r2 d; - bloch_z r0 r1 r2 d; bloch_y r0 r1 r2 d - bloch_x r0 r1 r2 d], fp_cost r0 r1 r2 d).
Proof.
  intros H d. unfold fixed_point. destruct fp_hamiltonian as (h & -> & M). rewrite (sphere_in _ _ _ H). fold d. cbn [bind].
  rewrite (directions_spec 1 (sphere_matrix r0 r1 r2 d) fp_observables fp_valid). change (words 4 1) with [[0%nat]; [1%nat]; [2%nat]; [3%nat]]. cbn [map bind].
  rewrite !fp_direction by lia. remember (mtrace 2 _) as T eqn:ET. cbn. f_equal. f_equal. rewrite ET.
  unfold mtrace, fp_cost. unfold mmul at 1. unfold lsum. cbn [seq map fold_right]. rewrite !M by lia. unfold mmul, lsum, madj, fp_rho_0, sphere_matrix, XY. cbn. ring.
Qed.

(** ** C95 *)

(** For a grid point in the unit ball the script uses a special unitary matrix, and
    the gradients are half the derivatives of the energy along the three Pauli matrices;
    they vanish together exactly where the energy is one of the two eigenvalues of X + Y.
    Outside the ball all the entries are 0. *)
Theorem C95_gradients_partial : forall r0 r1 r2,
  (r0 ^ 2 + r1 ^ 2 + r2 ^ 2 <= 1 -> exists U gx gy gz cost,
     sphere_unitary r0 r1 r2 = (Some U, true) /\ fixed_point r0 r1 r2 = Ok ([gx; gy; gz], cost) /\ special_unitary U /\
     is_derive (fun t => energy (rotX t U)) 0 (2 * gx) /\ is_derive (fun t => energy (rotY t U)) 0 (2 * gy) /\ is_derive (fun t => energy (rotZ t U)) 0 (2 * gz) /\
     - sqrt 2 <= energy U <= sqrt 2 /\ ((gx = 0 /\ gy = 0 /\ gz = 0) <-> (energy U = sqrt 2 \/ energy U = - sqrt 2))) /\
  (1 < r0 ^ 2 + r1 ^ 2 + r2 ^ 2 -> fixed_point r0 r1 r2 = Ok ([0; 0; 0], 0)).
Proof.
  intros r0 r1 r2. split; intros H.
  - set (d := sqrt (1 - (r0 ^ 2 + r1 ^ 2 + r2 ^ 2))). assert (Hd : d ^ 2 = 1 - (r0 ^ 2 + r1 ^ 2 + r2 ^ 2)) by (apply pow2_sqrt; lra).
    exists (sphere_matrix r0 r1 r2 d). do 4 eexists. split; [apply sphere_in; exact H|]. split; [apply fp_value; exact H|]. fold d. split; [apply sphere_special; lra|].
    assert (S2 : sqrt 2 ^ 2 = 2) by (apply pow2_sqrt; lra). assert (P2 : 0 < sqrt 2) by (apply sqrt_lt_R0; lra).
    split; [|split; [|split; [|split]]].
    + unfold energy, rotX, sphere_matrix, XY. cbn. auto_derive; [exact I|]. rewrite sin_0, cos_0. unfold bloch_z. ring.
    + unfold energy, rotY, sphere_matrix, XY. cbn. auto_derive; [exact I|]. rewrite sin_0, cos_0. unfold bloch_z. ring.
    + unfold energy, rotZ, sphere_matrix, XY. cbn. auto_derive; [exact I|]. rewrite sin_0, cos_0. unfold bloch_x, bloch_y. ring.
    + rewrite sphere_energy. set (x := bloch_x r0 r1 r2 d). set (y := bloch_y r0 r1 r2 d). set (z := bloch_z r0 r1 r2 d).
      assert (B : x ^ 2 + y ^ 2 + z ^ 2 = 1). { unfold x, y, z, bloch_x, bloch_y, bloch_z. transitivity ((r0 ^ 2 + r1 ^ 2 + r2 ^ 2 + d ^ 2) ^ 2); [ring|]. rewrite Hd. ring. }
      replace (2 * (r0 * (r2 + d) + r1 * (d - r2))) with (x + y) by (unfold x, y, bloch_x, bloch_y; ring).
      assert (Q : (x + y) ^ 2 + (x - y) ^ 2 + 2 * z ^ 2 = 2) by nra. pose proof (pow2_ge_0 (x - y)). pose proof (pow2_ge_0 z). assert ((x + y) ^ 2 <= sqrt 2 ^ 2) by lra. split; nra.
    + rewrite sphere_energy. set (x := bloch_x r0 r1 r2 d). set (y := bloch_y r0 r1 r2 d). set (z := bloch_z r0 r1 r2 d).
      assert (B : x ^ 2 + y ^ 2 + z ^ 2 = 1). { unfold x, y, z, bloch_x, bloch_y, bloch_z. transitivity ((r0 ^ 2 + r1 ^ 2 + r2 ^ 2 + d ^ 2) ^ 2); [ring|]. rewrite Hd. ring. }
      replace (2 * (r0 * (r2 + d) + r1 * (d - r2))) with (x + y) by (unfold x, y, bloch_x, bloch_y; ring).
      assert (Q : (x + y) ^ 2 + (x - y) ^ 2 + 2 * z ^ 2 = 2) by nra. split.
      * intros (Z1 & _ & Z2). assert (E : (x + y - sqrt 2) * (x + y + sqrt 2) = 0). { transitivity ((x + y) ^ 2 - sqrt 2 ^ 2); [ring|]. rewrite S2. nra. } apply Rmult_integral in E. destruct E; [left|right]; lra.
      * intros E. assert (E2 : (x + y) ^ 2 = 2) by (destruct E as [->| ->]; [exact S2|replace ((- sqrt 2) ^ 2) with (sqrt 2 ^ 2) by ring; exact S2]).
        pose proof (pow2_ge_0 (x - y)). pose proof (pow2_ge_0 z). assert (z ^ 2 = 0) by lra. assert ((x - y) ^ 2 = 0) by lra. assert (z = 0) by nra. assert (x - y = 0) by nra. lra.
  - unfold fixed_point. destruct fp_hamiltonian as (h & -> & _). cbn [bind]. rewrite (sphere_out _ _ _ H). reflexivity.
Qed.
Print Assumptions C95_gradients_partial.

(** Every special unitary matrix is one of these up to its sign, which does not change
    the energy. *)
Theorem C95_chart : forall V, special_unitary V -> exists s r0 r1 r2 U, (s = 1 \/ s = -1) /\ r0 ^ 2 + r1 ^ 2 + r2 ^ 2 <= 1 /\
  sphere_unitary r0 r1 r2 = (Some U, true) /\ (forall i j, (i < 2)%nat -> (j < 2)%nat -> V i j = Cmult (RtoC s) (U i j)) /\ energy V = energy U.
Proof.
  intros V (H1 & H2 & H3 & H4). destruct (V 0%nat 0%nat) as [a b] eqn:E00, (V 1%nat 0%nat) as [c d] eqn:E10, (V 0%nat 1%nat) as [e f] eqn:E01, (V 1%nat 1%nat) as [g h] eqn:E11. 
  set (p := (a, b) : C) in *. set (q := (e, f) : C) in *. set (u := (c, d) : C) in *. set (v := (g, h) : C) in *.
  assert (N : Cplus (Cmult (Cconj p) p) (Cmult (Cconj u) u) = 1) by (unfold p, u in *; rewrite !Cmod2 in H1; apply C_ext; cbn; nra).
  (* the second column is determined by the first one *)
  assert (Ev : v = Cconj p).
  { transitivity (Cplus (Cmult (Cconj p) (Cminus (Cmult p v) (Cmult q u))) (Cmult u (Cplus (Cmult (Cconj p) q) (Cmult (Cconj u) v)))); [|rewrite H3, H4; ring].
    transitivity (Cmult (Cplus (Cmult (Cconj p) p) (Cmult (Cconj u) u)) v); [rewrite N|]; ring. }
  assert (Eq : q = Copp (Cconj u)).
  { transitivity (Cminus (Cmult p (Cplus (Cmult (Cconj p) q) (Cmult (Cconj u) v))) (Cmult (Cconj u) (Cminus (Cmult p v) (Cmult q u)))); [|rewrite H3, H4; ring].
    transitivity (Cmult (Cplus (Cmult (Cconj p) p) (Cmult (Cconj u) u)) q); [rewrite N|]; ring. }
  assert (N2 : a ^ 2 + b ^ 2 + c ^ 2 + d ^ 2 = 1) by (unfold p, u in *; rewrite !Cmod2 in H1; lra).
  assert (K : forall s, (s = 1 \/ s = -1) -> 0 <= s * d -> exists U, (s * a) ^ 2 + (s * b) ^ 2 + (s * c) ^ 2 <= 1 /\ sphere_unitary (s * a) (s * b) (s * c) = (Some U, true) /\
    (forall i j, (i < 2)%nat -> (j < 2)%nat -> V i j = Cmult (RtoC s) (U i j)) /\ energy V = energy U).
  { intros s Hs Pd. assert (S2 : s * s = 1) by (destruct Hs; subst; lra). pose proof (pow2_ge_0 d) as Qd.
    assert (B : (s * a) ^ 2 + (s * b) ^ 2 + (s * c) ^ 2 = 1 - d ^ 2) by (replace ((s * a) ^ 2 + (s * b) ^ 2 + (s * c) ^ 2) with (s * s * (a ^ 2 + b ^ 2 + c ^ 2)) by ring; rewrite S2; lra).
    eexists. split; [rewrite B; lra|]. split; [apply sphere_in; rewrite B; lra|]. rewrite B. replace (1 - (1 - d ^ 2)) with ((s * d) ^ 2) by (replace ((s * d) ^ 2) with (s * s * d ^ 2) by ring; rewrite S2; ring). rewrite sqrt_pow2 by exact Pd.
    assert (E : forall i j, (i < 2)%nat -> (j < 2)%nat -> V i j = Cmult (RtoC s) (sphere_matrix (s * a) (s * b) (s * c) (s * d) i j)).
    { assert (M : forall x, s * (s * x) = x) by (intros x; rewrite <- Rmult_assoc, S2; ring).
      intros [|[|i]] [|[|j]] Hi Hj; try lia; rewrite ?E00, ?E01, ?E10, ?E11, ?Ev, ?Eq; unfold p, u; apply C_ext; cbn; rewrite ?Ropp_mult_distr_r_reverse; rewrite ?M; try ring; rewrite ?Ropp_mult_distr_l_reverse, ?M; try ring; rewrite <- (M a), <- (M b), <- (M c), <- (M d); ring. }
    split; [exact E|]. unfold energy. rewrite !E by lia. unfold sphere_matrix. destruct Hs as [->| ->]; cbn; ring. }
  destruct (Rle_dec 0 d) as [P|P].
  - destruct (K 1) as (U & HU); [auto|lra|]. exists 1, (1 * a), (1 * b), (1 * c), U. tauto.
  - destruct (K (-1)) as (U & HU); [auto|lra|]. exists (-1), (-1 * a), (-1 * b), (-1 * c), U. tauto.
Qed.
Print Assumptions C95_chart.

(** The costs are not the energies: they are 0 at every point where the gradients vanish,
    and on the grid of the script they put two points in the wrong order. *)
Theorem C95_cost_refuted :
  (forall r0 r1 r2 U cost, sphere_unitary r0 r1 r2 = (Some U, true) -> fixed_point r0 r1 r2 = Ok ([0; 0; 0], cost) -> cost = 0 /\ energy U <> 0) /\
  exists g h U V gs hs cost cost', sphere_unitary (1 / 19) (17 / 19) (1 / 19) = (Some U, true) /\ sphere_unitary (13 / 19) (1 / 19) (-13 / 19) = (Some V, true) /\
    fixed_point (1 / 19) (17 / 19) (1 / 19) = Ok (gs, cost) /\ fixed_point (13 / 19) (1 / 19) (-13 / 19) = Ok (hs, cost') /\
    g = energy U /\ h = energy V /\ cost < 0 < cost' /\ h < 0 < g.
Proof.
  split.
  - intros r0 r1 r2 U cost EU EF. assert (H : r0 ^ 2 + r1 ^ 2 + r2 ^ 2 <= 1) by (apply Rnot_lt_le; intros L; rewrite (sphere_out _ _ _ L) in EU; discriminate). rewrite (sphere_in _ _ _ H) in EU. assert (EU' : U = sphere_matrix r0 r1 r2 (sqrt (1 - (r0 ^ 2 + r1 ^ 2 + r2 ^ 2)))) by congruence. clear EU. subst U. rewrite (fp_value _ _ _ H) in EF. set (d := sqrt (1 - (r0 ^ 2 + r1 ^ 2 + r2 ^ 2))) in *. assert (Hd : d ^ 2 = 1 - (r0 ^ 2 + r1 ^ 2 + r2 ^ 2)) by (apply pow2_sqrt; lra).
    injection EF as Ez _ Exy Ec. rewrite sphere_energy.
    assert (B : bloch_x r0 r1 r2 d ^ 2 + bloch_y r0 r1 r2 d ^ 2 + bloch_z r0 r1 r2 d ^ 2 = 1). { unfold bloch_x, bloch_y, bloch_z. transitivity ((r0 ^ 2 + r1 ^ 2 + r2 ^ 2 + d ^ 2) ^ 2); [ring|]. rewrite Hd. ring. }
    replace (2 * (r0 * (r2 + d) + r1 * (d - r2))) with (bloch_x r0 r1 r2 d + bloch_y r0 r1 r2 d) by (unfold bloch_x, bloch_y; ring).
    split; [|intros E; assert (X0 : bloch_x r0 r1 r2 d = 0) by lra; assert (Y0 : bloch_y r0 r1 r2 d = 0) by lra; rewrite X0, Y0, Ez in B; lra]. rewrite <- Ec.
    (* |<0|U^* H U|1>|^2 = 2 - energy^2 *)
    assert (T : fp_cost r0 r1 r2 d ^ 2 + (- (r0 ^ 2) + r1 ^ 2 - 2 * r0 * r1 - r2 ^ 2 + d ^ 2 + 2 * r2 * d) ^ 2 = 2 * (r0 ^ 2 + r1 ^ 2 + r2 ^ 2 + d ^ 2) ^ 2 - (bloch_x r0 r1 r2 d + bloch_y r0 r1 r2 d) ^ 2) by (unfold fp_cost, bloch_x, bloch_y; ring).
    replace (r0 ^ 2 + r1 ^ 2 + r2 ^ 2 + d ^ 2) with 1 in T by lra. set (K := _ ^ 2) in T at 2. assert (PK : 0 <= K) by apply pow2_ge_0. set (x := bloch_x r0 r1 r2 d) in *. set (y := bloch_y r0 r1 r2 d) in *. rewrite Ez in B. assert (Exy' : y = x) by lra. rewrite Exy' in T, B. assert (Q : fp_cost r0 r1 r2 d ^ 2 <= 0) by lra. apply Rsqr_0_uniq. pose proof (Rle_0_sqr (fp_cost r0 r1 r2 d)) as Z. rewrite <- Rsqr_pow2 in Q. lra.
  - assert (A : (1 / 19) ^ 2 + (17 / 19) ^ 2 + (1 / 19) ^ 2 <= 1) by lra. assert (B : (13 / 19) ^ 2 + (1 / 19) ^ 2 + (-13 / 19) ^ 2 <= 1) by lra.
    do 8 eexists. split; [apply sphere_in; exact A|]. split; [apply sphere_in; exact B|]. split; [apply fp_value; exact A|]. split; [apply fp_value; exact B|]. split; [reflexivity|]. split; [reflexivity|]. rewrite !sphere_energy. unfold fp_cost.
    set (x := sqrt (1 - ((1 / 19) ^ 2 + (17 / 19) ^ 2 + (1 / 19) ^ 2))). set (y := sqrt (1 - ((13 / 19) ^ 2 + (1 / 19) ^ 2 + (-13 / 19) ^ 2))).
    assert (Hx : x ^ 2 = 70 / 361) by (unfold x; rewrite pow2_sqrt; lra). assert (Hy : y ^ 2 = 22 / 361) by (unfold y; rewrite pow2_sqrt; lra).
    assert (Px : 0 <= x) by apply sqrt_pos. assert (Py : 0 <= y) by apply sqrt_pos.
    assert (8 / 19 < x < 9 / 19) by (split; nra). assert (4 / 19 < y < 5 / 19) by (split; nra). split; split; nra.
Qed.
Print Assumptions C95_cost_refuted.

(** A point where the gradients vanish. *)
Example C95_case : sqrt (/ 2) ^ 2 + 0 ^ 2 + (1 / 2) ^ 2 <= 1 /\ fixed_point (sqrt (/ 2)) 0 (1 / 2) = Ok ([0; 0; 0], 0) /\ exists U, sphere_unitary (sqrt (/ 2)) 0 (1 / 2) = (Some U, true) /\ energy U = 2 * sqrt (/ 2).
Proof.
  assert (S : sqrt (/ 2) ^ 2 = / 2) by (apply pow2_sqrt; lra). assert (H : sqrt (/ 2) ^ 2 + 0 ^ 2 + (1 / 2) ^ 2 <= 1) by (rewrite S; lra). split; [exact H|].
  assert (D : sqrt (1 - (sqrt (/ 2) ^ 2 + 0 ^ 2 + (1 / 2) ^ 2)) = 1 / 2). { rewrite S. replace (1 - (/ 2 + 0 ^ 2 + (1 / 2) ^ 2)) with ((1 / 2) ^ 2) by lra. apply sqrt_pow2. lra. }
  split.
  - rewrite (fp_value _ _ _ H), D. unfold bloch_x, bloch_y, bloch_z, fp_cost. rewrite S. repeat f_equal; lra.
  - eexists. split; [apply sphere_in; exact H|]. rewrite D, sphere_energy. lra.
Qed.

(** ** C96 *)
Lemma level_den r3 r4 : r3 + r4 <> 0 -> 0 < r3 ^ 2 + r4 ^ 2.
Proof. intros H. destruct (Req_dec r3 0) as [->|N]; [destruct (Req_dec r4 0) as [->|M]; [lra|]|]; nra. Qed.
(** the equation for r2 over the point r3, r4 *)
Lemma level_quadratic r1 r2 r3 r4 c : r3 + r4 <> 0 -> (r1 ^ 2 + r2 ^ 2 + r3 ^ 2 + r4 ^ 2 = 1 /\ 2 * (r1 * (r3 + r4) + r2 * (r4 - r3)) = c) <->
  (r1 = (c / 2 - r2 * (r4 - r3)) / (r3 + r4) /\ (4 * (r3 ^ 2 + r4 ^ 2) * r2 - c * (r4 - r3)) ^ 2 = - (r3 + r4) ^ 2 * (c ^ 2 + 8 * r3 ^ 4 - 8 * r4 ^ 2 + 8 * r4 ^ 4 + 8 * r3 ^ 2 * (-1 + 2 * r4 ^ 2))).
Proof.
  intros H. pose proof (level_den r3 r4 H) as P. split.
  - intros [E1 E2]. assert (Er : r1 = (c / 2 - r2 * (r4 - r3)) / (r3 + r4)) by (apply (Rmult_eq_reg_r (r3 + r4)); [field_simplify; [lra|exact H]|exact H]). split; [exact Er|].
    subst c.
    assert (Z : (4 * (r3 ^ 2 + r4 ^ 2) * r2 - 2 * (r1 * (r3 + r4) + r2 * (r4 - r3)) * (r4 - r3)) ^ 2 - - (r3 + r4) ^ 2 * ((2 * (r1 * (r3 + r4) + r2 * (r4 - r3))) ^ 2 + 8 * (r3 ^ 2 + r4 ^ 2) ^ 2 - 8 * (r3 ^ 2 + r4 ^ 2)) = - 8 * (r3 + r4) ^ 2 * (r3 ^ 2 + r4 ^ 2) * (1 - (r1 ^ 2 + r2 ^ 2 + r3 ^ 2 + r4 ^ 2))) by ring.
    rewrite E1 in Z. lra.
  - intros [-> E]. split; [|field; exact H].
    set (r1 := (c / 2 - r2 * (r4 - r3)) / (r3 + r4)). assert (Ec : c = 2 * (r1 * (r3 + r4) + r2 * (r4 - r3))) by (unfold r1; field; exact H).
    assert (Z : (4 * (r3 ^ 2 + r4 ^ 2) * r2 - c * (r4 - r3)) ^ 2 - - (r3 + r4) ^ 2 * (c ^ 2 + 8 * (r3 ^ 2 + r4 ^ 2) ^ 2 - 8 * (r3 ^ 2 + r4 ^ 2)) = - 8 * (r3 + r4) ^ 2 * (r3 ^ 2 + r4 ^ 2) * (1 - (r1 ^ 2 + r2 ^ 2 + r3 ^ 2 + r4 ^ 2))) by (rewrite Ec; ring).
    assert (Z2 : - 8 * (r3 + r4) ^ 2 * (r3 ^ 2 + r4 ^ 2) * (1 - (r1 ^ 2 + r2 ^ 2 + r3 ^ 2 + r4 ^ 2)) = 0) by (rewrite <- Z; lra).
    apply Rmult_integral in Z2. destruct Z2 as [Z2|Z2]; [|lra]. exfalso. apply Rmult_integral in Z2. destruct Z2 as [Z2|Z2]; [|lra]. apply Rmult_integral in Z2. destruct Z2 as [Z2|Z2]; [lra|]. nra.
Qed.

(** Away from the line r3 + r4 = 0 the surface is the lower half of the level set of the
    energy on the 3-sphere: every value belongs to a point of the level set, every point
    of the level set has a value at or below it, and the value is nan exactly where there is no
    point; a point above the surface is at the same distance from the middle plane. *)
Theorem C96_lower_half_partial : forall r3 r4 c, r3 + r4 <> 0 ->
  (forall r2, level_surface r3 r4 c = Some r2 -> exists r1, r1 ^ 2 + r2 ^ 2 + r3 ^ 2 + r4 ^ 2 = 1 /\ energy (sphere_matrix r1 r2 r3 r4) = c) /\
  (forall r1 r2, r1 ^ 2 + r2 ^ 2 + r3 ^ 2 + r4 ^ 2 = 1 -> energy (sphere_matrix r1 r2 r3 r4) = c -> exists s, level_surface r3 r4 c = Some s /\ s <= r2 /\ (r2 = s \/ r2 = c * (r4 - r3) / (2 * (r3 ^ 2 + r4 ^ 2)) - s)).
Proof.
  intros r3 r4 c H. pose proof (level_den r3 r4 H) as P. unfold level_surface, np_sqrt. set (D := - (r3 + r4) ^ 2 * _). split.
  - intros r2. destruct (Rlt_dec D 0) as [L|L]; [discriminate|]. destruct (Req_EM_T _ 0) as [N|N]; [lra|]. intros E. assert (E2 : r2 = (- c * r3 + c * r4 - sqrt D) / (4 * (r3 ^ 2 + r4 ^ 2))) by congruence. clear E.
    exists ((c / 2 - r2 * (r4 - r3)) / (r3 + r4)). rewrite sphere_energy. apply level_quadratic; [exact H|]. split; [reflexivity|]. fold D.
    replace (4 * (r3 ^ 2 + r4 ^ 2) * r2 - c * (r4 - r3)) with (- sqrt D) by (rewrite E2; field; lra). replace ((- sqrt D) ^ 2) with (sqrt D ^ 2) by ring. apply pow2_sqrt. lra.
  - intros r1 r2 E1 E2. rewrite sphere_energy in E2. destruct (proj1 (level_quadratic r1 r2 r3 r4 c H) (conj E1 E2)) as [_ E]. fold D in E.
    pose proof (pow2_ge_0 (4 * (r3 ^ 2 + r4 ^ 2) * r2 - c * (r4 - r3))) as Q. destruct (Rlt_dec D 0) as [L|L]; [lra|]. destruct (Req_EM_T _ 0) as [N|N]; [lra|].
    eexists. split; [reflexivity|]. assert (S : sqrt D ^ 2 = D) by (apply pow2_sqrt; lra). pose proof (sqrt_pos D) as SP. set (s := sqrt D) in *. set (k := r3 ^ 2 + r4 ^ 2) in *.
    assert (F : (4 * k * r2 - c * (r4 - r3) - s) * (4 * k * r2 - c * (r4 - r3) + s) = 0) by (transitivity ((4 * k * r2 - c * (r4 - r3)) ^ 2 - s ^ 2); [ring|rewrite E, S; ring]).
    assert (R : r2 = (- c * r3 + c * r4 - s) / (4 * k) \/ r2 = (- c * r3 + c * r4 + s) / (4 * k)).
    { apply Rmult_integral in F. destruct F as [F|F]; [right|left]; apply (Rmult_eq_reg_r (4 * k)); try lra; field_simplify; lra. }
    split.
    + assert (Hs : 0 <= s / (4 * k)) by (apply Rdiv_le_0_compat; lra). destruct R as [-> | ->]; unfold Rdiv in *; lra || nra.
    + destruct R as [->| ->]; [left; reflexivity|right; field; lra].
Qed.
Print Assumptions C96_lower_half_partial.

(** The surface is not the level set: a point of the level set that is not on it, and on
    the line r3 + r4 = 0, which the grid meets, a value over which there is no point at all. *)
Theorem C96_level_surface_refuted :
  (exists r1 r2 r3 r4, r1 ^ 2 + r2 ^ 2 + r3 ^ 2 + r4 ^ 2 = 1 /\ energy (sphere_matrix r1 r2 r3 r4) = 1 /\ exists s, level_surface r3 r4 1 = Some s /\ s <> r2) /\
  (exists s, level_surface 1 (-1) 1 = Some s /\ forall r1 r2, r1 ^ 2 + r2 ^ 2 + 1 ^ 2 + (-1) ^ 2 <> 1).
Proof.
  split.
  - exists (1 / 2), (1 / 2), (1 / 2), (1 / 2). assert (E1 : (1 / 2) ^ 2 + (1 / 2) ^ 2 + (1 / 2) ^ 2 + (1 / 2) ^ 2 = 1) by lra. split; [exact E1|]. split; [rewrite sphere_energy; lra|].
    unfold level_surface, np_sqrt. replace (- (1 / 2 + 1 / 2) ^ 2 * (1 ^ 2 + 8 * (1 / 2) ^ 4 - 8 * (1 / 2) ^ 2 + 8 * (1 / 2) ^ 4 + 8 * (1 / 2) ^ 2 * (-1 + 2 * (1 / 2) ^ 2))) with 1 by lra.
    destruct (Rlt_dec 1 0); [lra|]. rewrite sqrt_1. destruct (Req_EM_T _ 0); [lra|]. eexists. split; [reflexivity|]. lra.
  - unfold level_surface, np_sqrt. replace (- (1 + -1) ^ 2 * _) with 0 by (replace (1 + -1) with 0 by ring; ring). destruct (Rlt_dec 0 0); [lra|]. rewrite sqrt_0. destruct (Req_EM_T _ 0); [lra|]. eexists. split; [reflexivity|]. intros r1 r2. nra.
Qed.
Print Assumptions C96_level_surface_refuted.
Example C96_case : 1 / 2 + 1 / 2 <> 0 /\ level_surface (1 / 2) (1 / 2) 1 = Some (- 1 / 2) /\ exists r1, r1 ^ 2 + (- 1 / 2) ^ 2 + (1 / 2) ^ 2 + (1 / 2) ^ 2 = 1 /\ energy (sphere_matrix r1 (- 1 / 2) (1 / 2) (1 / 2)) = 1.
Proof.
  split; [lra|]. assert (E : level_surface (1 / 2) (1 / 2) 1 = Some (- 1 / 2)).
  { unfold level_surface, np_sqrt. replace (- (1 / 2 + 1 / 2) ^ 2 * (1 ^ 2 + 8 * (1 / 2) ^ 4 - 8 * (1 / 2) ^ 2 + 8 * (1 / 2) ^ 4 + 8 * (1 / 2) ^ 2 * (-1 + 2 * (1 / 2) ^ 2))) with 1 by lra.
    destruct (Rlt_dec 1 0); [lra|]. rewrite sqrt_1. destruct (Req_EM_T _ 0); [lra|]. f_equal. lra. }
  split; [exact E|]. exists (1 / 2). rewrite sphere_energy. lra.
Qed.
