(** Properties C97-C99: the figures of experiments_paper/red_blue_comparison.py. *)
From Coq Require Import ZArith Arith Lia Bool String Reals Lra Psatz.
From Coquelicot Require Import Coquelicot.
From Verif Require Import Py StarRing Matrix Cplx PauliSpec Bits PauliBasis Expm MDeriv UtilsModel UtilsProofs CircuitModel CircuitProofs CircuitProofs2 LayerModel LayerProofs OptimizerModel OptProofs RotoProofs
  FlowModel FlowProofs FlowProofs2 AdaptModel AdaptProofs ShiftModel ShiftProofs CommuteProofs SphereModel RedBlueModel PropLayers PropGreedy PropOptArgs PropOptRun PropFlow PropShift PropSphere.
From Coq Require Import List.
Import ListNotations.
Local Open Scope R_scope.

(** ** Lemmas *)
Lemma emb1 (A : arr C) : meq 2 (qmat 1 (mkqop A [0%nat])) (a_ent A).
Proof. exact (emb_all 1 (a_ent A)). Qed.

(** twice the product of the amplitudes: the first two components of the Bloch vector *)
Definition coherence (u : mat C) : C := Cmult (RtoC 2) (Cmult (Cconj (u 0%nat 0%nat)) (u 1%nat 0%nat)).

Lemma rb_fits : Forall (fits 1) rb_observables.
Proof. repeat constructor; cbn; try discriminate; auto; try lia. Qed.

Lemma rb_energy u : exact_cost 1 rb_observables u = Ok (Re (coherence u) + Im (coherence u)).
Proof.
  assert (HF : forall o, In o rb_observables -> exists F, full 1 o = Ok F /\ meq 2 (a_ent F) (a_ent (q_matrix o))).
  { intros o Ho. assert (V : valid_qop 1 o) by (pose proof rb_fits as Hf; rewrite Forall_forall in Hf; exact (Hf o Ho)). destruct (full_ok 1 o V) as (F & E & _ & _ & M). exists F. split; [exact E|]. rewrite M.
    destruct Ho as [<-|[<-|[]]]; apply emb1. }
  destruct (HF (mkqop lit_X [0%nat]) (or_introl eq_refl)) as (FX & EX & MX). destruct (HF (mkqop lit_Y [0%nat]) (or_intror (or_introl eq_refl))) as (FY & EY & MY).
  unfold exact_cost, rb_observables. cbn [foldM]. unfold expval. rewrite EX, EY. cbn [bind]. f_equal. unfold qnode_expval, quad, qnode_state, lsum, coherence. cbn [Nat.pow Nat.mul Nat.add seq map fold_right].
  rewrite !MX, !MY by lia. destruct (u 0%nat 0%nat), (u 1%nat 0%nat). cbn. ring.
Qed.

Lemma expm_pauli g t : (1 <= g <= 3)%nat -> meq 2 (expm 2 (mscale (mit t) (pword (K := C) [g]))) (madd (SR := CStar) (mscale (SR := CStar) (RtoC (cos t)) mid) (mscale (SR := CStar) (mit (sin t)) (pword [g]))).
Proof. intros Hg. apply expm_involution. apply (pword_sq (K := C) [g]). constructor; [lia|constructor]. Qed.

Lemma rb_gates a b : Forall (fits 1) (map gate_qop [ARot a "Y" [0%nat]; ARot b "Z" [0%nat]]).
Proof. repeat constructor; cbn; try discriminate; auto; try lia. Qed.

Lemma rb_unitary a b : exists U, circuit_unitary 1 (map gate_qop [ARot a "Y" [0%nat]; ARot b "Z" [0%nat]]) = Ok U /\
  a_ent U 0%nat 0%nat = Cmult (cos (b / 2), - sin (b / 2)) (RtoC (cos (a / 2))) /\ a_ent U 1%nat 0%nat = Cmult (cos (b / 2), sin (b / 2)) (RtoC (sin (a / 2))).
Proof.
  destruct (circuit_unitary_spec 1 (map gate_qop [ARot a "Y" [0%nat]; ARot b "Z" [0%nat]]) (rb_gates a b)) as (U & E & _ & _ & M). exists U. split; [exact E|].
  cbn [map rev app] in M. unfold mprod in M. cbn [fold_right] in M. change (2 ^ 1)%nat with 2%nat in M. cbn [gate_qop] in M. rewrite !emb1 in M. cbn [a_ent] in M. change (word_of "Y") with [2%nat] in M. change (word_of "Z") with [3%nat] in M.
  change (2 ^ List.length [2%nat])%nat with 2%nat in M. change (2 ^ List.length [3%nat])%nat with 2%nat in M. rewrite !expm_pauli in M by lia.
  split; rewrite M by lia; unfold mmul, madd, mscale, mid, mit, lsum; cbn; apply C_ext; cbn; field.
Qed.

Lemma rb_rho a b (U : mat C) : U 0%nat 0%nat = Cmult (cos (b / 2), - sin (b / 2)) (RtoC (cos (a / 2))) -> U 1%nat 0%nat = Cmult (cos (b / 2), sin (b / 2)) (RtoC (sin (a / 2))) ->
  meq (K := C) 2 (fun i j => Cmult (qnode_state U i) (Cconj (qnode_state U j))) (spherical_to_state b a) /\ coherence U = (sin a * cos b, sin a * sin b).
Proof.
  intros E0 E1. destruct (half_angles a) as (A1 & A2 & A3). destruct (half_angles b) as (B1 & B2 & B3). assert (Q := sin2_cos2 b). unfold Rsqr in Q.
  set (ca := cos (a / 2)) in *. set (sa := sin (a / 2)) in *. set (cb := cos (b / 2)) in *. set (sb := sin (b / 2)) in *.
  assert (N : cb * cb + sb * sb = 1) by lra. assert (D : cb * cb - sb * sb = cos b) by lra. split.
  - apply meq2; unfold qnode_state, spherical_to_state, bloch_psi; fold ca sa; rewrite ?E0, ?E1; apply C_ext; cbn.
    + transitivity (ca * ca * (cb * cb + sb * sb)); [ring|rewrite N; ring].
    + ring.
    + transitivity (ca * sa * (cb * cb - sb * sb)); [ring|rewrite D; ring].
    + transitivity (- (ca * sa * (2 * (cb * sb)))); [ring|rewrite B3; field].
    + transitivity (ca * sa * (cb * cb - sb * sb)); [ring|rewrite D; ring].
    + transitivity (ca * sa * (2 * (cb * sb))); [ring|rewrite B3; field].
    + transitivity (sa * sa * (cb * cb + sb * sb)); [ring|rewrite N]. transitivity (sa * sa * (sin b * sin b + cos b * cos b)); [rewrite Q; ring|ring].
    + ring.
  - unfold coherence. rewrite E0, E1. apply C_ext; cbn.
    + transitivity (2 * (ca * sa) * (cb * cb - sb * sb)); [ring|rewrite A3, D; field].
    + transitivity (4 * (ca * sa) * (cb * sb)); [ring|rewrite A3, B3; field].
Qed.

Lemma rb_vqe a b : vqe_cost 1 rb_observables rb_circuit [[a; b]] = Ok (sin a * (cos b + sin b)).
Proof.
  unfold vqe_cost, rb_circuit, list_get. cbn [nth_error bind]. destruct (rb_unitary a b) as (U & -> & E0 & E1). cbn [bind]. rewrite rb_energy. destruct (rb_rho a b _ E0 E1) as [_ ->]. cbn. f_equal. ring.
Qed.
Lemma rb_vqe_state a b : exists U, vqe_state 1 rb_circuit [[a; b]] = Ok (qnode_state U) /\
  meq (K := C) 2 (fun i j => Cmult (qnode_state U i) (Cconj (qnode_state U j))) (spherical_to_state b a) /\ coherence U = (sin a * cos b, sin a * sin b).
Proof.
  unfold vqe_state, rb_circuit, list_get. cbn [nth_error bind]. destruct (rb_unitary a b) as (U & -> & E0 & E1). cbn [bind]. exists (a_ent U). split; [reflexivity|]. apply rb_rho; assumption.
Qed.

Lemma rb_step eta a b : gd_step (vqe_cost 1 rb_observables rb_circuit) eta [[a; b]] = Ok [[a - eta * (cos a * (cos b + sin b)); b - eta * (sin a * (cos b - sin b))]].
Proof.
  unfold gd_step. rewrite rb_vqe. cbn [bind]. f_equal. unfold enum, partial. cbn [List.length seq combine map fst snd nth]. unfold set_entry. cbn [nth replace_at].
  assert (D1 : Derive (fun x => value (vqe_cost 1 rb_observables rb_circuit [[x; b]])) a = cos a * (cos b + sin b)).
  { apply is_derive_unique. apply (is_derive_extR (fun x => sin x * (cos b + sin b)) _ a (cos a * (cos b + sin b))); [intros x; rewrite rb_vqe; reflexivity|reflexivity|]. auto_derive; [exact I|ring]. }
  assert (D2 : Derive (fun x => value (vqe_cost 1 rb_observables rb_circuit [[a; x]])) b = sin a * (cos b - sin b)).
  { apply is_derive_unique. apply (is_derive_extR (fun x => sin a * (cos x + sin x)) _ b (sin a * (cos b - sin b))); [intros x; rewrite rb_vqe; reflexivity|reflexivity|]. auto_derive; [exact I|ring]. }
  rewrite D1, D2. reflexivity.
Qed.

Lemma outer_pure (u : mat C) : Cmod (u 0%nat 0%nat) ^ 2 + Cmod (u 1%nat 0%nat) ^ 2 = 1 -> pure (fun i j => Cmult (qnode_state u i) (Cconj (qnode_state u j))).
Proof.
  unfold qnode_state. destruct (u 0%nat 0%nat) as [p q] eqn:E0, (u 1%nat 0%nat) as [r s] eqn:E1. intros H.
  assert (N : p * p + q * q + (r * r + s * s) = 1). { unfold Cmod in H. cbn [fst snd] in H. rewrite !pow2_sqrt in H by nra. nra. }
  split; [|split].
  - apply meq2; unfold madj; rewrite ?E0, ?E1; apply C_ext; cbn; ring.
  - unfold mtrace, lsum. cbn [seq map fold_right]. rewrite E0, E1. apply C_ext; cbn; nra.
  - apply meq2; unfold mmul, lsum; cbn [seq map fold_right]; rewrite ?E0, ?E1; cbn [kadd kmul k0 CStar].
    all: set (z := (p, q) : C); set (w := (r, s) : C); assert (NC : Cplus (Cmult z (Cconj z)) (Cmult w (Cconj w)) = RtoC 1) by (apply C_ext; cbn; nra).
    + transitivity (Cmult (Cmult z (Cconj z)) (Cplus (Cmult z (Cconj z)) (Cmult w (Cconj w)))); [ring|rewrite NC; ring].
    + transitivity (Cmult (Cmult z (Cconj w)) (Cplus (Cmult z (Cconj z)) (Cmult w (Cconj w)))); [ring|rewrite NC; ring].
    + transitivity (Cmult (Cmult w (Cconj z)) (Cplus (Cmult z (Cconj z)) (Cmult w (Cconj w)))); [ring|rewrite NC; ring].
    + transitivity (Cmult (Cmult w (Cconj w)) (Cplus (Cmult z (Cconj z)) (Cmult w (Cconj w)))); [ring|rewrite NC; ring].
Qed.

(** ** Specification *)

(** the energy <X> + <Y> of the qubit state with polar angle theta and azimuth phi *)
Definition height (phi theta : R) : R := sin theta * (cos phi + sin phi).

(** phi and theta (which is not nan) are coordinates on the chart, and the energy there
    is c: exactly, except for azimuths that are reported as 0, where it is c up to
    twice the tolerance of about 0.00106 *)
Definition shows (phi : R) (theta : option R) (c : R) : Prop := exists t, theta = Some t /\ 0 <= phi < 2 * PI /\ 0 <= t <= PI /\
  Rabs (height phi t - c) <= 2 * snap /\ (phi <> 0 -> height phi t = c).

(** x' is x modulo a full turn *)
Definition reduced (x x' : R) : Prop := 0 <= x' < 2 * PI /\ exists k : Z, x = x' + 2 * PI * IZR k.

(** the points (x_i, y_j) with x_i = 2 pi i / (n - 1) and y_j = top j / (n - 1) *)
Definition grid_point (n : nat) (top x y : R) : Prop := exists i j, (i < n)%nat /\ (j < n)%nat /\ x = 2 * PI * INR i / INR (n - 1) /\ y = top * INR j / INR (n - 1).

(** ** Lemmas *)
Lemma snap_pos : 0 < snap.
Proof. assert (H := PI_RGT_0). unfold snap. lra. Qed.
Lemma snap_small : snap < / 900.
Proof. assert (H := PI_4). unfold snap. lra. Qed.

Lemma coherence_rho u : coherence u = Cmult (RtoC 2) (Cmult (qnode_state u 1%nat) (Cconj (qnode_state u 0%nat))).
Proof. unfold coherence, qnode_state. ring. Qed.

Lemma sphere_10 phi theta : spherical_to_state phi theta 1%nat 0%nat = (sin theta * cos phi / 2, sin theta * sin phi / 2).
Proof. rewrite (sphere_bloch phi theta 1%nat 0%nat) by lia. reflexivity. Qed.

Lemma Cmod_parts z r : Cmod z <= r -> Rabs (Re z) <= r /\ Rabs (Im z) <= r.
Proof. intros H. assert (M := Rmax_Cmod z). assert (L := Rmax_l (Rabs (fst z)) (Rabs (snd z))). assert (L' := Rmax_r (Rabs (fst z)) (Rabs (snd z))). unfold Re, Im. lra. Qed.

Lemma place u : Cmod (u 0%nat 0%nat) ^ 2 + Cmod (u 1%nat 0%nat) ^ 2 = 1 -> exists phi theta,
  state_to_spherical (fun i j => Cmult (qnode_state u i) (Cconj (qnode_state u j))) = Ok (phi, theta) /\ shows phi theta (Re (coherence u) + Im (coherence u)).
Proof.
  intros H. assert (HP := PI_RGT_0). assert (HS := snap_pos). assert (HS' := snap_small). destruct (C69_states _ (outer_pure u H)) as (phi & theta & p & Hp & Ht & M & E & N1 & N2). exists p, (Some theta). split; [exact E|]. exists theta. split; [reflexivity|].
  rewrite coherence_rho. set (z := Cmult (qnode_state u 1%nat) (Cconj (qnode_state u 0%nat))) in *. assert (Mz : z = (sin theta * cos phi / 2, sin theta * sin phi / 2)) by (rewrite <- sphere_10, (M 1%nat 0%nat) by lia; reflexivity).
  assert (Ec : Re (Cmult (RtoC 2) z) + Im (Cmult (RtoC 2) z) = height phi theta) by (rewrite Mz; unfold height; cbn; field).
  rewrite Ec. destruct (Rlt_dec snap (2 * PI - phi)) as [L|L].
  - rewrite (N1 L). split; [exact Hp|]. split; [exact Ht|]. split; [|reflexivity]. rewrite Rminus_eq_0, Rabs_R0. lra.
  - destruct (N2 ltac:(lra)) as [-> B]. split; [lra|]. split; [exact Ht|]. split; [|intros X; destruct X; reflexivity].
    specialize (B 1%nat 0%nat ltac:(lia) ltac:(lia)). fold z in B. rewrite Mz, sphere_10 in B. apply Cmod_parts in B. cbn in B. destruct B as [B1 B2]. apply Rabs_le_between in B1, B2. apply Rabs_le_between. unfold height. lra.
Qed.

Lemma reduced_fmod x : reduced x (fmod x (2 * PI)).
Proof.
  assert (HP := PI_RGT_0). unfold reduced, fmod. destruct (base_Int_part (x / (2 * PI))) as [B1 B2]. set (q := Int_part (x / (2 * PI))) in *.
  assert (Ex : x = x / (2 * PI) * (2 * PI)) by (field; lra). split.
  - split; nra.
  - exists q. ring.
Qed.

Lemma reduced_trig x x' : reduced x x' -> sin x = sin x' /\ cos x = cos x'.
Proof.
  intros (_ & k & ->). assert (P : forall n, sin (x' + 2 * PI * INR n) = sin x' /\ cos (x' + 2 * PI * INR n) = cos x').
  { intros n. replace (2 * PI * INR n) with (2 * INR n * PI) by ring. rewrite sin_period, cos_period. auto. }
  assert (Q : forall n, sin (x' - 2 * PI * INR n) = sin x' /\ cos (x' - 2 * PI * INR n) = cos x').
  { intros n. rewrite <- (sin_period (x' - 2 * PI * INR n) n), <- (cos_period (x' - 2 * PI * INR n) n). split; f_equal; ring. }
  destruct (Z_le_dec 0 k) as [H|H].
  - replace (IZR k) with (INR (Z.to_nat k)) by (rewrite INR_IZR_INZ, Z2Nat.id by exact H; reflexivity). apply P.
  - replace (x' + 2 * PI * IZR k) with (x' - 2 * PI * INR (Z.to_nat (- k))) by (rewrite INR_IZR_INZ, Z2Nat.id by lia; rewrite opp_IZR; ring). apply Q.
Qed.

Lemma trajectory_ok (us : list (mat C)) : Forall (fun u => Cmod (u 0%nat 0%nat) ^ 2 + Cmod (u 1%nat 0%nat) ^ 2 = 1) us ->
  exists phis thetas, trajectory (map qnode_state us) = Ok (phis, thetas) /\ List.length phis = List.length us /\ List.length thetas = List.length us /\
  forall k u, nth_error us k = Some u -> exists phi theta, nth_error phis k = Some phi /\ nth_error thetas k = Some theta /\
    state_to_spherical (fun i j => Cmult (qnode_state u i) (Cconj (qnode_state u j))) = Ok (phi, theta) /\ shows phi theta (Re (coherence u) + Im (coherence u)).
Proof.
  unfold trajectory. induction 1 as [|u us Hu Hus IH].
  - exists [], []. cbn. split; [reflexivity|]. split; [reflexivity|]. split; [reflexivity|]. intros [|k] u E; discriminate.
  - destruct IH as (phis & thetas & E & L1 & L2 & IH). destruct (place u Hu) as (phi & theta & Ep & Hs). cbn [map mapM]. rewrite Ep. cbn [bind].
    destruct (mapM _ (map qnode_state us)) as [pts|] eqn:Epts; [|discriminate]. cbn [bind] in E |- *. assert (E1 : map fst pts = phis /\ map snd pts = thetas) by (split; congruence). destruct E1 as [<- <-].
    exists (phi :: map fst pts), (theta :: map snd pts). cbn [map fst snd List.length]. split; [reflexivity|]. split; [congruence|]. split; [congruence|].
    intros [|k] v Ev; cbn in Ev |- *; [assert (v = u) as -> by congruence; exists phi, theta; auto|apply IH; exact Ev].
Qed.

(** the values of f on the mesh, drawn over the two axes *)
Definition mesh {A} (f : R -> R -> A) (x y : list R) : list (list A) := map (fun v => map (fun u => f u v) x) y.

Lemma mesh_pairs x y : combine (List.concat (fst (meshgrid x y))) (List.concat (snd (meshgrid x y))) = List.concat (mesh pair x y).
Proof.
  unfold meshgrid, mesh. cbn [fst snd]. induction y as [|v y IH]; [reflexivity|]. cbn [map List.concat].
  assert (A : forall (l m : list R) r s, List.length l = List.length m -> combine (l ++ r) (m ++ s) = combine l m ++ combine r s).
  { induction l as [|a l IHl]; intros [|b m] r s Hl; try discriminate; [reflexivity|]. cbn. f_equal. apply IHl. cbn in Hl. lia. }
  rewrite A by (rewrite map_length; reflexivity). rewrite IH. f_equal. clear. induction x as [|u x IH]; [reflexivity|]. cbn. f_equal. exact IH.
Qed.
Lemma mapM_mesh {B} (g : R * R -> res B) (f : R -> R -> B) x y : (forall u v, g (u, v) = Ok (f u v)) -> mapM g (List.concat (mesh pair x y)) = Ok (List.concat (mesh f x y)).
Proof.
  intros H. assert (G : forall l, mapM g l = Ok (map (fun p => f (fst p) (snd p)) l)).
  { induction l as [|[u v] l IH]; [reflexivity|]. cbn [mapM map fst snd]. rewrite H. cbn [bind]. rewrite IH. reflexivity. }
  rewrite G, concat_map. unfold mesh. rewrite map_map. f_equal. f_equal. apply map_ext. intros v. rewrite map_map. reflexivity.
Qed.
Lemma mesh_length {A} (f : R -> R -> A) x y : List.length (List.concat (mesh f x y)) = (List.length y * List.length x)%nat.
Proof. unfold mesh. induction y as [|v y IH]; [reflexivity|]. cbn [map List.concat List.length]. rewrite app_length, map_length, IH. reflexivity. Qed.
Lemma chunks_mesh (f : R -> R -> R) x y : chunks (List.length y) (List.length x) (List.concat (mesh f x y)) = mesh f x y.
Proof.
  induction y as [|v y IH]; [reflexivity|]. unfold mesh in *. cbn [map List.concat List.length chunks].
  rewrite <- (map_length (fun u => f u v) x) at 1 3. rewrite firstn_app, firstn_all, Nat.sub_diag, firstn_O, app_nil_r. f_equal.
  rewrite skipn_app, skipn_all, Nat.sub_diag, skipn_O. exact IH.
Qed.
Lemma contourf_mesh (f : R -> R -> R) x y : (2 <= List.length x)%nat -> (2 <= List.length y)%nat -> contourf x y (mesh f x y) = Ok (List.concat (mesh (fun u v => (u, v, f u v)) x y)).
Proof.
  intros Hx Hy. unfold contourf. unfold mesh at 1 2 3 4. rewrite !map_length. destruct y as [|v y]; [cbn in Hy; lia|]. cbn [map].
  rewrite map_length. assert (L1 : Nat.leb 2 (List.length (v :: y)) = true) by (apply Nat.leb_le; exact Hy). assert (L2 : Nat.leb 2 (List.length x) = true) by (apply Nat.leb_le; exact Hx).
  rewrite L1, L2, !Nat.eqb_refl. cbn [andb negb]. f_equal. generalize (v :: y) as l. intros l. f_equal. unfold mesh. induction l as [|w l IH]; [reflexivity|]. cbn [map combine fst snd]. rewrite IH. f_equal.
  clear. induction x as [|u x IH]; [reflexivity|]. cbn. f_equal. exact IH.
Qed.
Lemma in_mesh {A} (f : R -> R -> A) x y a : In a (List.concat (mesh f x y)) <-> exists u v, In u x /\ In v y /\ a = f u v.
Proof.
  unfold mesh. rewrite in_concat. split.
  - intros (l & Hl & Ha). apply in_map_iff in Hl. destruct Hl as (v & <- & Hv). apply in_map_iff in Ha. destruct Ha as (u & <- & Hu). eauto 6.
  - intros (u & v & Hu & Hv & ->). exists (map (fun u => f u v) x). split; [apply in_map_iff; eauto|]. apply in_map_iff. eauto.
Qed.
Lemma in_linspace top n x : In x (linspace 0 top n) <-> exists i, (i < n)%nat /\ x = top * INR i / INR (n - 1).
Proof.
  unfold linspace. rewrite in_map_iff. split.
  - intros (i & <- & Hi). apply in_seq in Hi. exists i. split; [lia|]. unfold Rdiv. ring.
  - intros (i & Hi & ->). exists i. split; [unfold Rdiv; ring|apply in_seq; lia].
Qed.

Lemma rb_cost_sphere p t : rb_cost (spherical_to_state p t) = Ok (RtoC (height p t)).
Proof.
  unfold rb_cost, get_su_2_operators, paulis_of, list_get. cbn [fst nth_error bind]. f_equal.
  assert (M : forall i j, (i < 2)%nat -> (j < 2)%nat -> spherical_to_state p t i j = bloch (sin t * cos p) (sin t * sin p) (cos t) i j) by apply sphere_bloch.
  unfold mtrace, mmul, madd, lsum. cbn [seq map fold_right]. rewrite !M by lia. apply C_ext; cbn; unfold height; field.
Qed.

Lemma map_ok (top : R) (f : R -> R -> R) (g : R * R -> res R) gran : (2 <= gran)%nat -> (forall u v, g (u, v) = Ok (f u v)) ->
  exists pts, (do costs <- mapM g (combine (List.concat (fst (meshgrid (linspace 0 (2 * PI) gran) (linspace 0 top gran)))) (List.concat (snd (meshgrid (linspace 0 (2 * PI) gran) (linspace 0 top gran)))));
               do z <- reshape gran gran costs; contourf (linspace 0 (2 * PI) gran) (linspace 0 top gran) z) = Ok pts /\
  forall x y z, In (x, y, z) pts <-> grid_point gran top x y /\ z = f x y.
Proof.
  intros Hg Hf. rewrite mesh_pairs, (mapM_mesh g f _ _ Hf). cbn [bind]. assert (L : forall t, List.length (linspace 0 t gran) = gran) by (intros t; unfold linspace; rewrite map_length, seq_length; reflexivity).
  unfold reshape. rewrite mesh_length, !L, Nat.eqb_refl. cbn [bind]. pose proof (chunks_mesh f (linspace 0 (2 * PI) gran) (linspace 0 top gran)) as Ck. rewrite !L in Ck. rewrite Ck.
  rewrite contourf_mesh by (rewrite L; exact Hg). eexists. split; [reflexivity|]. intros x y z. rewrite in_mesh. split.
  - intros (u & v & Hu & Hv & E). apply in_linspace in Hu, Hv. destruct Hu as (i & Hi & Ei), Hv as (j & Hj & Ej). assert (x = u /\ y = v /\ z = f u v) as (-> & -> & ->) by (repeat split; congruence). split; [|reflexivity]. exists i, j. auto.
  - intros ((i & j & Hi & Hj & Ex & Ey) & ->). exists x, y. split; [apply in_linspace; eauto|]. split; [apply in_linspace; eauto|reflexivity].
Qed.

(** ** C97 *)

(** The blue map has the energy of the state with azimuth x and polar angle y at (x, y),
    for every point of the grid; the red one has the cost of the circuit with the angles
    x and y there. *)
Theorem C97_maps : forall gran, (2 <= gran)%nat ->
  (exists pts, blue_map gran = Ok pts /\ forall x y z, In (x, y, z) pts <-> grid_point gran PI x y /\ z = height x y) /\
  (exists pts, red_map gran = Ok pts /\ forall x y z, In (x, y, z) pts <-> grid_point gran (2 * PI) x y /\ z = height y x).
Proof.
  intros gran Hg. split.
  - apply (map_ok PI height (fun pt => do c <- rb_cost (spherical_to_state (fst pt) (snd pt)); Ok (Re c)) gran Hg). intros u v. cbn [fst snd]. rewrite rb_cost_sphere. reflexivity.
  - apply (map_ok (2 * PI) (fun a b => height b a) (fun ab => vqe_cost 1 rb_observables rb_circuit [[fst ab; snd ab]]) gran Hg). intros u v. cbn [fst snd]. apply rb_vqe.
Qed.
Print Assumptions C97_maps.

(** the keyword arguments of the two calls are accepted *)
Lemma ps_kw_ok eta nsteps : 0 <= eta <= 1 -> (1 <= nsteps)%Z ->
  ps_accepts [("eta"%string, PyFloat (Fin eta)); ("return_state"%string, PyBool true); ("return_params"%string, PyBool true); ("nsteps"%string, PyInt nsteps)].
Proof.
  intros He Hn. unfold ps_accepts, allowed, arg. cbn. split; [intros v H; assert (v = PyInt nsteps) as -> by congruence; right; exists nsteps; split; [reflexivity|lia]|].
  split; [intros v H; assert (v = PyFloat (Fin eta)) as -> by congruence; exists eta; split; [reflexivity|lra]|]. split; [intros v H; discriminate|].
  intros name Hin v H. simpl in Hin. intuition; subst; cbn in H; try discriminate; injection H as <-; eexists; reflexivity.
Qed.
Lemma ex_kw_ok eta nsteps : 0 <= eta <= 1 -> (1 <= nsteps)%Z ->
  ex_accepts [("eta"%string, PyFloat (Fin eta)); ("return_state"%string, PyBool true); ("nsteps"%string, PyInt nsteps)].
Proof.
  intros He Hn. unfold ex_accepts, allowed, arg. cbn. split; [intros v H; assert (v = PyInt nsteps) as -> by congruence; right; exists nsteps; split; [reflexivity|lia]|].
  split; [intros v H; assert (v = PyFloat (Fin eta)) as -> by congruence; exists eta; split; [reflexivity|lra]|]. split; [intros v H; discriminate|].
  split; [|intros H; discriminate]. intros name Hin v H. simpl in Hin. intuition; subst; cbn in H; try discriminate; injection H as <-; eexists; reflexivity.
Qed.

Definition slots_rb : list slot := [Param 0 0 "Y" [0%nat]; Param 0 1 "Z" [0%nat]].
Lemma rb_rotation a b : rotation_circuit 1 rb_circuit [[a; b]] slots_rb.
Proof.
  split; [|split].
  - repeat constructor; cbn; try discriminate; auto; try lia.
  - intros j k [H|[H|[]]]; injection H as <- <-; unfold in_shape; cbn; lia.
  - intros q Hq. unfold PropAdapt.same_shape in Hq. destruct q as [|[|x [|y [|? ?]]] [|? ?]]; cbn in Hq; try discriminate. reflexivity.
Qed.

Lemma states_ok (pts : list (R * R)) (ss : list (nat -> C)) :
  Forall2 (fun p s => vqe_state 1 rb_circuit [[fst p; snd p]] = Ok s) pts ss ->
  exists us, ss = map qnode_state us /\ Forall2 (fun p (u : mat C) => Cmod (u 0%nat 0%nat) ^ 2 + Cmod (u 1%nat 0%nat) ^ 2 = 1 /\
    meq (K := C) 2 (fun i j => Cmult (qnode_state u i) (Cconj (qnode_state u j))) (spherical_to_state (snd p) (fst p)) /\ coherence u = (sin (fst p) * cos (snd p), sin (fst p) * sin (snd p))) pts us.
Proof.
  induction 1 as [|p s pts ss E H (us & -> & IH)]; [exists []; split; [reflexivity|constructor]|]. destruct p as [a b]. destruct (rb_vqe_state a b) as (U & EU & M & Ch). cbn [fst snd] in *.
  assert (s = qnode_state U) as -> by congruence. exists (U :: us). split; [reflexivity|]. constructor; [|exact IH]. cbn [fst snd]. split; [|split; assumption].
  assert (D0 := M 0%nat 0%nat ltac:(lia) ltac:(lia)). assert (D1 := M 1%nat 1%nat ltac:(lia) ltac:(lia)). cbn beta in D0, D1. rewrite (sphere_bloch b a) in D0, D1 by lia. unfold qnode_state, bloch in D0, D1.
  destruct (U 0%nat 0%nat) as [p q], (U 1%nat 0%nat) as [r s]. unfold Cmod. cbn [fst snd]. rewrite !pow2_sqrt by nra. apply (f_equal Re) in D0, D1. cbn in D0, D1. lra.
Qed.

Lemma Forall2_nth {A B} (P : A -> B -> Prop) l m : Forall2 P l m -> forall k x, nth_error l k = Some x -> exists y, nth_error m k = Some y /\ P x y.
Proof. induction 1 as [|a b l m Hab H IH]; intros [|k] x E; try discriminate; cbn in E |- *; [injection E as <-; eauto|apply IH; exact E]. Qed.

Lemma nth_map {A B} (f : A -> B) l k y : nth_error (map f l) k = Some y -> exists x, nth_error l k = Some x /\ f x = y.
Proof. rewrite nth_error_map. destruct (nth_error l k) as [x|]; [|discriminate]. cbn. intros E. exists x. split; [reflexivity|congruence]. Qed.

Lemma column_ok k (pts : list (R * R)) : (k < 2)%nat -> column k (map (fun p => [[fst p; snd p]]) pts) = Ok (map (fun p => fmod (if Nat.eqb k 0 then fst p else snd p) (2 * PI)) pts).
Proof.
  intros Hk. unfold column. induction pts as [|p pts IH]; [reflexivity|]. cbn [map mapM]. destruct k as [|[|k]]; [| |lia]; cbn [list_get nth_error bind Nat.eqb] in *; rewrite IH; reflexivity.
Qed.

(** The dashed trajectory follows gradient descent of the cost sin(alpha) (cos(beta) + sin(beta));
    the points on the blue map are where it shows the costs, and so are those on the red
    one, which are the parameters modulo full turns. *)
Theorem C97_shift : forall eta nsteps a b, 0 <= eta <= 1 -> (1 <= nsteps)%Z ->
  exists phis thetas alphas betas costs points, ps_optimization eta nsteps a b = Ok (phis, thetas, alphas, betas, costs) /\
    nth_error points 0 = Some (a, b) /\ (2 <= List.length points <= S (Z.to_nat nsteps))%nat /\
    chain (fun _ p p' => p' = (fst p - eta * (cos (fst p) * (cos (snd p) + sin (snd p))), snd p - eta * (sin (fst p) * (cos (snd p) - sin (snd p))))) points /\
    List.length phis = List.length points /\ List.length thetas = List.length points /\ List.length alphas = List.length points /\ List.length betas = List.length points /\ List.length costs = List.length points /\
    forall k alpha beta, nth_error points k = Some (alpha, beta) -> exists phi theta alpha' beta' c,
      nth_error phis k = Some phi /\ nth_error thetas k = Some theta /\ nth_error alphas k = Some alpha' /\ nth_error betas k = Some beta' /\ nth_error costs k = Some c /\
      c = height beta alpha /\ shows phi theta c /\ reduced alpha alpha' /\ reduced beta beta' /\ height beta' alpha' = c /\
      (0 < alpha < PI -> 0 <= beta < 2 * PI - snap -> phi = beta /\ theta = Some alpha).
Proof.
  intros eta nsteps a b He Hn. assert (HP := PI_RGT_0). assert (HS := snap_pos). unfold ps_optimization. set (kw := [_; _; _; _]). assert (Ha : ps_accepts kw) by (apply ps_kw_ok; assumption).
  destruct (shift_runs (Om := unit) (U := unit) (Z := unit) 1 rb_observables rb_circuit [[a; b]] slots_rb kw rb_fits (rb_rotation a b) Ha) as (r & Er). rewrite Er. cbn [bind]. unfold shift_optimizer in Er.
  destruct (C60_shift_shape _ _ _ _ _ _ _ _ _ _ _ Ha Er) as (cs & ss & ps & Hr).
  destruct (C56_shift_histories _ _ _ _ _ _ _ _ _ _ _ _ _ _ Ha Er Hr) as (points & H0 & Hch & Hlen & Hc & Hs & Hp). specialize (Hs eq_refl). specialize (Hp eq_refl). subst ps.
  change (the_eta kw) with eta in Hch. change (the_steps kw) with (Z.to_nat nsteps) in Hlen. unfold ps_result in Hr. cbn in Hr. subst r.
  assert (Sh : forall k p, nth_error points k = Some p -> exists x y, p = [[x; y]]).
  { induction k as [|k IH]; intros p E; [exists a, b; congruence|]. destruct (nth_error points k) as [q|] eqn:Eq; [|apply nth_error_None in Eq; assert (S k < List.length points)%nat by (apply nth_error_Some; congruence); lia].
    destruct (IH q eq_refl) as (x & y & ->). specialize (Hch k _ _ Eq E). cbn beta in Hch. rewrite rb_step in Hch. eexists _, _. symmetry. apply (f_equal (fun r => match r with Ok p => p | _ => [] end)) in Hch. exact Hch. }
  assert (Ep : exists pts, points = map (fun p => [[fst p; snd p]]) pts).
  { clear -Sh. induction points as [|p points IH]; [exists []; reflexivity|]. destruct IH as (pts & ->); [intros k q E; apply (Sh (S k)); exact E|]. destruct (Sh 0%nat p eq_refl) as (x & y & ->). exists ((x, y) :: pts). reflexivity. }
  destruct Ep as (pts & ->). clear Sh.
  assert (Hst : Forall2 (fun p s => vqe_state 1 rb_circuit [[fst p; snd p]] = Ok s) pts ss) by (clear -Hs; remember (map _ pts) as l eqn:El; revert pts El; induction Hs; intros [|p pts] El; try discriminate; constructor; cbn in El; [replace [[fst p; snd p]] with x by congruence; assumption|apply IHHs; congruence]).
  assert (Hco : Forall2 (fun p c => vqe_cost 1 rb_observables rb_circuit [[fst p; snd p]] = Ok c) pts cs) by (clear -Hc; remember (map _ pts) as l eqn:El; revert pts El; induction Hc; intros [|p pts] El; try discriminate; constructor; cbn in El; [replace [[fst p; snd p]] with x by congruence; assumption|apply IHHc; congruence]).
  destruct (states_ok pts ss Hst) as (us & -> & Hus).
  destruct (trajectory_ok us) as (phis & thetas & Et & L1 & L2 & Htr). { clear -Hus. induction Hus as [|p u pts us (H & _) _ IH]; constructor; assumption. }
  rewrite Et. cbn [bind fst snd]. rewrite !column_ok by lia. cbn [bind Nat.eqb]. do 5 eexists. exists pts. split; [reflexivity|].
  rewrite map_length in Hlen. assert (Lu := Forall2_length' _ _ _ Hus). assert (Lc := Forall2_length' _ _ _ Hco).
  split. { destruct pts as [|[x y] pts]; [discriminate|]. cbn in H0 |- *. injection H0 as -> ->. reflexivity. }
  split; [exact Hlen|]. split.
  { intros k [x y] [x' y'] E E'. specialize (Hch k [[x; y]] [[x'; y']]). rewrite !nth_error_map, E, E' in Hch. specialize (Hch eq_refl eq_refl). cbn beta in Hch. rewrite rb_step in Hch. cbn [fst snd]. injection Hch as <- <-. reflexivity. }
  rewrite !map_length. repeat (split; [congruence|]).
  intros k alpha beta E. destruct (Forall2_nth _ _ _ Hus k _ E) as (u & Eu & _ & Mu & Cu). destruct (Forall2_nth _ _ _ Hco k _ E) as (c & Ec & Cc). cbn [fst snd] in *. rewrite rb_vqe in Cc. assert (Ec' : c = height beta alpha) by (unfold height; congruence).
  destruct (Htr k u Eu) as (phi & theta & Ephi & Etheta & Est & Hsh). exists phi, theta, (fmod alpha (2 * PI)), (fmod beta (2 * PI)), c.
  split; [exact Ephi|]. split; [exact Etheta|]. split; [rewrite nth_error_map, E; reflexivity|]. split; [rewrite nth_error_map, E; reflexivity|]. split; [exact Ec|]. split; [exact Ec'|].
  split. { rewrite Cu in Hsh. cbn in Hsh. rewrite Ec'. unfold height. replace (sin alpha * (cos beta + sin beta)) with (sin alpha * cos beta + sin alpha * sin beta) by ring. exact Hsh. }
  split; [apply reduced_fmod|]. split; [apply reduced_fmod|]. split.
  { rewrite Ec'. unfold height. destruct (reduced_trig _ _ (reduced_fmod alpha)) as [-> _]. destruct (reduced_trig _ _ (reduced_fmod beta)) as [-> ->]. reflexivity. }
  intros Hal Hbe. destruct (proj1 (C68_angles beta alpha ltac:(lra)) Hal) as [A _]. specialize (A ltac:(lra)).
  rewrite (coordinates _ _ _ _ (sphere_bloch beta alpha)) in A. rewrite (coordinates (sin alpha * cos beta) (sin alpha * sin beta) (cos alpha) _) in Est by (rewrite Mu; apply sphere_bloch).
  rewrite Est in A. split; congruence.
Qed.
Print Assumptions C97_shift.

(** The solid trajectory: it starts at the same state, and every point is where the blue
    map shows its cost. *)
Theorem C97_riemann : forall eigh random eta nsteps a b, eigh_correct 2 eigh -> 0 <= eta <= 1 -> (1 <= nsteps)%Z ->
  exists phis thetas costs, riemann_optimization eigh random eta nsteps a b = Ok (phis, thetas, costs) /\
    (2 <= List.length costs <= S (Z.to_nat nsteps))%nat /\ List.length phis = List.length costs /\ List.length thetas = List.length costs /\
    (forall k c, nth_error costs k = Some c -> exists phi theta, nth_error phis k = Some phi /\ nth_error thetas k = Some theta /\ shows phi theta c) /\
    nth_error costs 0 = Some (height b a) /\ (0 < a < PI -> 0 <= b < 2 * PI - snap -> nth_error phis 0 = Some b /\ nth_error thetas 0 = Some (Some a)).
Proof.
  intros eigh random eta nsteps a b Hei He Hn. assert (HS := snap_pos). unfold riemann_optimization. change (rb_circuit [[a; b]]) with (Ok [ARot a "Y"%string [0%nat]; ARot b "Z"%string [0%nat]]). cbn [bind]. set (kw := [_; _; _]). assert (Ha : ex_accepts kw) by (apply ex_kw_ok; assumption).
  assert (Hg : Forall (unitary_gate 1) (map gate_qop [ARot a "Y" [0%nat]; ARot b "Z" [0%nat]])).
  { pose proof (rb_gates a b) as Hf. assert (Hu : forall g t, (1 <= g <= 3)%nat -> unitary2 2 (expm 2 (mscale (mit t) (pword (K := C) [g])))).
    { intros g t Hg. apply expm_unitary. intros i j Hi Hj. destruct g as [|[|[|[|g]]]]; try lia; (destruct i as [|[|i]]; [| |lia]); (destruct j as [|[|j]]; [| |lia]); unfold madj, mscale, mit; apply C_ext; cbn; ring. }
    cbn [map] in *. inversion Hf as [|? ? F1 Hf']. inversion Hf' as [|? ? F2 _]. constructor; [split; [assumption|apply (Hu 2%nat); lia]|]. constructor; [|constructor]. split; [assumption|apply (Hu 3%nat); lia]. }
  destruct (C66_exact_unitary unit unit unit 1 _ rb_observables eigh random kw Hg rb_fits Hei Ha) as (r & Er & Hun). rewrite Er. cbn [bind]. unfold exact_optimizer in Er.
  destruct (C60_exact_shape _ _ _ _ _ _ _ _ _ _ _ _ Ha Er) as (cs & ss & ps & u & Hr).
  destruct (C56_exact_histories _ _ _ _ _ _ _ _ _ _ _ _ _ _ _ _ Ha Er Hr) as (circuits & u0 & m & Eu0 & Hu0 & Hl & Hm & _ & Hcost & Hst & _). specialize (Hst eq_refl).
  destruct (Hun _ _ _ _ Hr) as ((circuits' & Fs & _ & HU & _ & Hss) & _). specialize (Hss eq_refl). unfold ex_result in Hr. cbn in Hr. subst r.
  change (the_steps kw) with (Z.to_nat nsteps) in Hm.
  assert (Ess : ss = map qnode_state circuits) by (clear -Hst; induction Hst as [|x y l m E H IH]; [reflexivity|]; cbn; f_equal; congruence).
  assert (HN : Forall (fun u : mat C => Cmod (u 0%nat 0%nat) ^ 2 + Cmod (u 1%nat 0%nat) ^ 2 = 1) circuits).
  { apply Forall_forall. intros w Hw. apply In_nth_error in Hw. destruct Hw as (k & Ek). assert (Ek' : nth_error ss k = Some (qnode_state w)) by (rewrite Ess, nth_error_map, Ek; reflexivity).
    rewrite Hss in Ek'. destruct (nth_map _ _ _ _ Ek') as (v & Ev & Ew).
    assert (E0 : w 0%nat 0%nat = v 0%nat 0%nat) by exact (eq_sym (f_equal (fun f => f 0%nat) Ew)). assert (E1 : w 1%nat 0%nat = v 1%nat 0%nat) by exact (eq_sym (f_equal (fun f => f 1%nat) Ew)). rewrite E0, E1.
    apply nth_error_In in Ev. rewrite Forall_forall in HU. destruct (HU v Ev) as [Hv _]. specialize (Hv 0%nat 0%nat ltac:(cbn; lia) ltac:(cbn; lia)). unfold mmul, madj, mid, lsum in Hv. cbn in Hv. apply (f_equal Re) in Hv.
    destruct (v 0%nat 0%nat), (v 1%nat 0%nat). unfold Cmod. cbn [fst snd]. rewrite !pow2_sqrt by nra. cbn in Hv. lra. }
  destruct (trajectory_ok circuits HN) as (phis & thetas & Et & L1 & L2 & Htr). rewrite Ess, Et. cbn [bind fst snd]. exists phis, thetas, cs. split; [reflexivity|].
  pose proof (Forall2_length' _ _ _ Hcost) as Lc. split; [lia|]. split; [congruence|]. split; [congruence|].
  destruct (rb_unitary a b) as (U & EU & E0 & E1). rewrite EU in Eu0. cbn [bind] in Eu0. assert (u0 = a_ent U) as -> by congruence. destruct (rb_rho a b _ E0 E1) as [MU CU]. split; [|split].
  - intros k c Ec. assert (Hk : (k < List.length circuits)%nat) by (rewrite Lc; apply nth_error_Some; congruence). destruct (nth_error circuits k) as [w|] eqn:Ew; [|apply nth_error_None in Ew; lia].
    destruct (Forall2_nth _ _ _ Hcost k w Ew) as (c' & Ec' & Cw). assert (c' = c) as -> by congruence. rewrite rb_energy in Cw. destruct (Htr k w Ew) as (phi & theta & Ep & Eth & _ & Hs). exists phi, theta. split; [exact Ep|]. split; [exact Eth|].
    replace c with (Re (coherence w) + Im (coherence w)) by congruence. exact Hs.
  - destruct (Forall2_nth _ _ _ Hcost 0%nat _ Hu0) as (c & Ec & Cw). rewrite rb_energy, CU in Cw. transitivity (Some c); [exact Ec|]. f_equal. cbn in Cw. unfold height. assert (c = sin a * cos b + sin a * sin b) as -> by congruence. ring.
  - intros Hal Hbe. destruct (Htr 0%nat _ Hu0) as (phi & theta & Ep & Eth & Est & _). rewrite Ep, Eth.
    destruct (proj1 (C68_angles b a ltac:(lra)) Hal) as [A _]. specialize (A ltac:(lra)).
    rewrite (coordinates _ _ _ _ (sphere_bloch b a)) in A. rewrite (coordinates (sin a * cos b) (sin a * sin b) (cos a) _) in Est by (rewrite MU; apply sphere_bloch).
    rewrite Est in A. split; congruence.
Qed.
Print Assumptions C97_riemann.

(** the calls of the script, and what the first points are *)
Example C97_case : forall eigh random, eigh_correct 2 eigh ->
  (exists phis thetas costs, riemann_optimization eigh random (5 / 100) 100 (PI / 3) (PI / 5) = Ok (phis, thetas, costs) /\ nth_error phis 0 = Some (PI / 5) /\ nth_error thetas 0 = Some (Some (PI / 3))) /\
  (exists phis thetas alphas betas costs c0 c1, ps_optimization (5 / 100) 100 (PI / 3) (PI / 5) = Ok (phis, thetas, alphas, betas, costs) /\
     nth_error phis 0 = Some (PI / 5) /\ nth_error thetas 0 = Some (Some (PI / 3)) /\ nth_error alphas 0 = Some (PI / 3) /\ nth_error betas 0 = Some (PI / 5) /\
     nth_error costs 0 = Some c0 /\ nth_error costs 1 = Some c1 /\ 0 < c0 /\ c1 <> c0).
Proof.
  intros eigh random He. assert (HP := PI_RGT_0). assert (HS := snap_small). assert (H3 := PI_gt_3). split.
  - destruct (C97_riemann eigh random (5 / 100) 100 (PI / 3) (PI / 5) He ltac:(lra) ltac:(lia)) as (phis & thetas & costs & E & _ & _ & _ & _ & _ & H). exists phis, thetas, costs. split; [exact E|]. apply H; lra.
  - destruct (C97_shift (5 / 100) 100 (PI / 3) (PI / 5) ltac:(lra) ltac:(lia)) as (phis & thetas & alphas & betas & costs & points & E & H0 & Hl & Hch & _ & _ & _ & _ & _ & H).
    destruct (H 0%nat _ _ H0) as (phi & theta & al & be & c & E1 & E2 & E3 & E4 & E5 & Ec & _ & R1 & R2 & _ & Hpt). destruct (Hpt ltac:(lra) ltac:(lra)) as [-> ->].
    assert (Ered : forall x x', 0 <= x < 2 * PI -> reduced x x' -> x' = x).
    { intros x x' Hx (Hx' & k & Ek). assert (k = 0)%Z; [|subst k; lra]. assert (K1 : IZR k < 1) by nra. assert (K2 : -1 < IZR k) by nra. apply (lt_IZR k 1) in K1. apply (lt_IZR (-1) k) in K2. lia. }
    assert (al = PI / 3) as -> by (apply Ered; [lra|exact R1]). assert (be = PI / 5) as -> by (apply Ered; [lra|exact R2]).
    destruct (nth_error points 1) as [p1|] eqn:Ep; [|apply nth_error_None in Ep; lia]. pose proof (Hch 0%nat _ _ H0 Ep) as Hs. cbn [fst snd] in Hs.
    destruct p1 as [a1 b1]. destruct (H 1%nat _ _ Ep) as (? & ? & ? & ? & c1 & _ & _ & _ & _ & E5' & Ec' & _). exists phis, thetas, alphas, betas, costs, c, c1. repeat (split; [assumption|]).
    set (a := PI / 3) in *. set (b := PI / 5) in *. assert (Sb : 0 < sin b) by (apply sin_gt_0; unfold b; lra). assert (Cb : 0 < cos b) by (apply cos_gt_0; unfold b; lra). assert (Sa : 0 < sin a) by (apply sin_gt_0; unfold a; lra). assert (Ca : 0 < cos a) by (apply cos_gt_0; unfold a; lra).
    assert (Pc : 0 < c) by (rewrite Ec; unfold height; nra). split; [exact Pc|].
    (* both factors decrease *)
    assert (Ea : a1 = a - 5 / 100 * (cos a * (cos b + sin b))) by congruence. assert (Eb : b1 = b - 5 / 100 * (sin a * (cos b - sin b))) by congruence.
    assert (B1 := COS_bound a). assert (B2 := COS_bound b). assert (B3 := SIN_bound a). assert (B4 := SIN_bound b).
    assert (Pb : 0 < cos b - sin b). { assert (Q : sin b < cos b); [|lra]. rewrite <- (sin_shift b). apply sin_increasing_1; unfold b; lra. }
    assert (Da : sin a1 < sin a). { apply sin_increasing_1; rewrite ?Ea; unfold a in *; nra. }
    assert (Pa1 : 0 < sin a1). { apply sin_gt_0; rewrite Ea; unfold a in *; nra. }
    assert (F : forall x, cos x + sin x = sqrt 2 * sin (x + PI / 4)).
    { intros ?. rewrite sin_plus, cos_PI4, sin_PI4. assert (N : sqrt 2 <> 0) by (apply Rgt_not_eq, sqrt_lt_R0; lra). field. exact N. }
    assert (S2 : 0 < sqrt 2) by (apply sqrt_lt_R0; lra).
    assert (Db : sin (b1 + PI / 4) < sin (b + PI / 4)). { apply sin_increasing_1; rewrite ?Eb; unfold b in *; nra. }
    rewrite Ec, Ec'. unfold height. rewrite !F. intros X.
    assert (Pb1 : 0 < sin (b1 + PI / 4)). { apply sin_gt_0; rewrite Eb; unfold b in *; nra. }
    assert (sin a1 * sin (b1 + PI / 4) < sin a * sin (b + PI / 4)) by nra. nra.
Qed.
Print Assumptions C97_case.

(** ** C98 *)

(** The number next to the last point is not its step: no point has that number. *)
Theorem C98_label_refuted : forall eigh random eta nsteps a b, eigh_correct 2 eigh -> 0 <= eta <= 1 -> (1 <= nsteps)%Z ->
  exists phis thetas costs phis' thetas' alphas betas costs', riemann_optimization eigh random eta nsteps a b = Ok (phis, thetas, costs) /\
    ps_optimization eta nsteps a b = Ok (phis', thetas', alphas, betas, costs') /\
    nth_error phis (last_label costs) = None /\ nth_error alphas (last_label costs') = None.
Proof.
  intros eigh random eta nsteps a b He Ht Hn. destruct (C97_riemann eigh random eta nsteps a b He Ht Hn) as (phis & thetas & costs & E & _ & L & _).
  destruct (C97_shift eta nsteps a b Ht Hn) as (phis' & thetas' & alphas & betas & costs' & points & E' & _ & _ & _ & _ & _ & L1 & _ & L2 & _).
  exists phis, thetas, costs, phis', thetas', alphas, betas, costs'. split; [exact E|]. split; [exact E'|]. unfold last_label. split; apply nth_error_None; lia.
Qed.
Print Assumptions C98_label_refuted.

(** It is the number of points: one more than the step of the last one. *)
Theorem C98_label_partial : forall eigh random eta nsteps a b, eigh_correct 2 eigh -> 0 <= eta <= 1 -> (1 <= nsteps)%Z ->
  exists phis thetas costs phis' thetas' alphas betas costs' p q, riemann_optimization eigh random eta nsteps a b = Ok (phis, thetas, costs) /\
    ps_optimization eta nsteps a b = Ok (phis', thetas', alphas, betas, costs') /\
    nth_error (rev phis) 0 = Some p /\ nth_error phis (last_label costs - 1) = Some p /\ nth_error (rev alphas) 0 = Some q /\ nth_error alphas (last_label costs' - 1) = Some q /\
    (2 <= last_label costs <= S (Z.to_nat nsteps))%nat /\ (2 <= last_label costs' <= S (Z.to_nat nsteps))%nat.
Proof.
  intros eigh random eta nsteps a b He Ht Hn. destruct (C97_riemann eigh random eta nsteps a b He Ht Hn) as (phis & thetas & costs & E & L0 & L & _).
  destruct (C97_shift eta nsteps a b Ht Hn) as (phis' & thetas' & alphas & betas & costs' & points & E' & _ & L0' & _ & _ & _ & L1 & _ & L2 & _).
  assert (G : forall l : list R, (0 < List.length l)%nat -> exists x, nth_error (rev l) 0 = Some x /\ nth_error l (List.length l - 1) = Some x).
  { intros l Hl. destruct (rev l) as [|x r] eqn:Er; [apply (f_equal (@List.length R)) in Er; rewrite rev_length in Er; cbn in Er; lia|]. exists x. split; [reflexivity|].
    assert (El : l = rev r ++ [x]) by (rewrite <- (rev_involutive l), Er; reflexivity). rewrite El, app_length. cbn [List.length]. rewrite nth_error_app2 by lia. replace (List.length (rev r) + 1 - 1 - List.length (rev r))%nat with 0%nat by lia. reflexivity. }
  destruct (G phis ltac:(lia)) as (p & P1 & P2). destruct (G alphas ltac:(lia)) as (q & Q1 & Q2).
  exists phis, thetas, costs, phis', thetas', alphas, betas, costs', p, q. unfold last_label. split; [exact E|]. split; [exact E'|]. split; [exact P1|]. split; [rewrite <- L; exact P2|]. split; [exact Q1|]. split; [rewrite L2, <- L1; exact Q2|]. lia.
Qed.
Print Assumptions C98_label_partial.

(** ** C99 *)

(** a matrix with the given numbers of rows and columns *)
Definition shaped (rows cols : nat) (z : list (list R)) : Prop := List.length z = rows /\ Forall (fun r => List.length r = cols) z.
Definition entry (z : list (list R)) (i j : nat) : option R := match nth_error z i with Some r => nth_error r j | None => None end.

Lemma combine_nth_error' {A B} (l : list A) (m : list B) k a b : nth_error (combine l m) k = Some (a, b) <-> nth_error l k = Some a /\ nth_error m k = Some b.
Proof.
  revert m k. induction l as [|x l IH]; intros [|y m] [|k]; cbn; try (split; [discriminate|intros [H1 H2]; discriminate]); [|apply IH].
  split; [intros H; split; congruence|intros [H1 H2]; congruence].
Qed.

(** A matrix with a row for every theta and a column for every phi is drawn with the
    entry in row l, column k at (phi_k, theta_l), and nothing else is drawn. *)
Theorem C99_plot_partial : forall phi theta z, (2 <= List.length phi)%nat -> (2 <= List.length theta)%nat -> shaped (List.length theta) (List.length phi) z ->
  exists pts, plot_bloch_sphere_2d phi theta z = Ok pts /\ forall x y c, In (x, y, c) pts <-> exists k l, nth_error phi k = Some x /\ nth_error theta l = Some y /\ entry z l k = Some c.
Proof.
  intros phi theta z Hp Ht [Hz Hr]. unfold plot_bloch_sphere_2d, contourf. destruct z as [|r0 z0] eqn:Ez; [cbn in Hz; lia|]. rewrite <- Ez in *. assert (L0 : List.length r0 = List.length phi) by (rewrite Ez in Hr; apply Forall_inv in Hr; exact Hr).
  rewrite L0, Hz. assert (B1 : Nat.leb 2 (List.length theta) = true) by (apply Nat.leb_le; exact Ht). assert (B2 : Nat.leb 2 (List.length phi) = true) by (apply Nat.leb_le; exact Hp).
  rewrite B1, B2, !Nat.eqb_refl. cbn [andb negb]. eexists. split; [reflexivity|]. intros x y c. rewrite in_concat. split.
  - intros (l & Hl & Hin). apply in_map_iff in Hl. destruct Hl as ([y' r] & <- & Hyr). apply in_map_iff in Hin. destruct Hin as ([x' v] & E & Hxv). cbn [fst snd] in *.
    apply In_nth_error in Hyr, Hxv. destruct Hyr as (l & Hl), Hxv as (k & Hk). apply combine_nth_error' in Hl, Hk. assert (x' = x /\ y' = y /\ v = c) as (-> & -> & ->) by (repeat split; congruence).
    exists k, l. unfold entry. destruct Hl as [H1 H2], Hk as [H3 H4]. rewrite H2. auto.
  - intros (k & l & Hk & Hl & He). unfold entry in He. destruct (nth_error z l) as [r|] eqn:Er; [|discriminate]. eexists. split; [apply in_map_iff; exists (y, r); split; [reflexivity|]; apply (nth_error_In _ l), combine_nth_error'; auto|].
    cbn [fst snd]. apply in_map_iff. exists (x, c). split; [reflexivity|]. apply (nth_error_In _ k), combine_nth_error'. auto.
Qed.
Print Assumptions C99_plot_partial.

(** The documented K x L matrix with the cost of (phi_k, theta_l) in row k, column l is
    refused when K and L differ, and drawn the wrong way round when they agree. *)
Theorem C99_plot_refuted :
  (forall phi theta z, List.length phi <> List.length theta -> shaped (List.length phi) (List.length theta) z -> plot_bloch_sphere_2d phi theta z = Err TypeError) /\
  exists phi theta z pts, shaped (List.length phi) (List.length theta) z /\ plot_bloch_sphere_2d phi theta z = Ok pts /\
    exists k l x y c, nth_error phi k = Some x /\ nth_error theta l = Some y /\ entry z k l = Some c /\ forall c', In (x, y, c') pts -> c' <> c.
Proof.
  split.
  - intros phi theta z Hd [Hz Hr]. unfold plot_bloch_sphere_2d, contourf. destruct z as [|r z]; [reflexivity|]. apply Forall_inv in Hr. rewrite Hr. destruct (negb _); [reflexivity|].
    replace (Nat.eqb (List.length phi) (List.length theta)) with false by (symmetry; apply Nat.eqb_neq; exact Hd). reflexivity.
  - exists [0; 1], [0; 1], [[0; 1]; [2; 3]]. assert (Sz : shaped 2 2 [[0; 1]; [2; 3]]) by (split; [reflexivity|repeat constructor]).
    destruct (C99_plot_partial [0; 1] [0; 1] [[0; 1]; [2; 3]] ltac:(cbn; lia) ltac:(cbn; lia) Sz) as (pts & E & H). exists pts. split; [exact Sz|]. split; [exact E|]. exists 0%nat, 1%nat, 0, 1, 1. repeat (split; [reflexivity|]).
    intros c' Hc. apply H in Hc. destruct Hc as (k & l & Hk & Hl & He). destruct k as [|[|k]]; cbn in Hk; [|injection Hk as Hk; lra|destruct k; discriminate]. destruct l as [|[|l]]; cbn in Hl; [injection Hl as Hl; lra| |destruct l; discriminate]. cbn in He. injection He as <-. lra.
Qed.
Print Assumptions C99_plot_refuted.

(** a matrix with 2 rows and 3 columns *)
Example C99_case : exists pts, plot_bloch_sphere_2d [0; 1; 2] [0; 1] [[5; 6; 7]; [8; 9; 10]] = Ok pts /\ In (2, 0, 7) pts /\ In (0, 1, 8) pts /\ List.length pts = 6%nat.
Proof. eexists. split; [reflexivity|]. cbn. tauto. Qed.
