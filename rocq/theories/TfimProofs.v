(** Lemmas on the transverse field Ising model: the states of the scripts and the table of its
    Hamiltonian. *)
From Coq Require Import ZArith Arith Lia Bool String Reals Lra Ring Setoid Morphisms.
From Coquelicot Require Import Coquelicot.
From Verif Require Import Py StarRing Matrix Cplx Bits Expm UtilsModel CircuitModel CircuitProofs CircuitProofs2 LayerModel LayerProofs AdaptModel AdaptProofs OptimizerModel OptProofs RotoProofs FlowModel FlowProofs FlowProofs2 Spectral FlowMany FlowRate
  PropCircuit PropLayers PropGreedy PropFlow PropFlowRate PropSpectrum PropSymmetry ApproxModel PlotModel ApproxExampleModel TfimModel TfimNum.
From Coq Require Import List.
Import ListNotations.
Local Open Scope nat_scope.
Local Open Scope list_scope.

Notation X1 := (a_ent (lit_X (K := C))).
Notation Z1 := (a_ent (lit_Z (K := C))).

Lemma two_wires n i j : i < n -> j < n -> i <> j -> wires_ok n [i; j].
Proof. intros Hi Hj N. split; [repeat constructor; simpl; intuition|repeat constructor; assumption]. Qed.
Lemma one_wire_ok n i : i < n -> wires_ok n [i].
Proof. intros Hi. split; repeat constructor; simpl; auto. Qed.

(** column 0 of a Z operator *)
Lemma z_column n i k : i < n -> k < 2 ^ n -> emb n [i] Z1 k 0 = mid k 0.
Proof.
  intros Hi Hk. pose proof (pow2_pos n) as D0. assert (B0 : forall p, p < n -> nth p (bits n 0) 0 = 0) by (intros p Hp; rewrite nth_bits by assumption; unfold wire_bit; rewrite Nat.div_0_l by (apply Nat.pow_nonzero; lia); reflexivity).
  assert (Bk : nth i (bits n k) 0 < 2) by (rewrite nth_bits by assumption; unfold wire_bit; apply Nat.mod_upper_bound; lia).
  unfold emb. destruct (agree_off n [i] (bits n k) (bits n 0)) eqn:E.
  - cbn [sel map]. rewrite (B0 i Hi). cbn [unbits]. destruct (nth i (bits n k) 0) as [|[|a]] eqn:En; [| |lia].
    + assert (k = 0) as ->; [|rewrite mid_eq; cbn; apply C_ext; simpl; ring]. apply (bits_inj n); [exact Hk|exact D0|]. apply (nth_ext _ _ 0 0).
      * pose proof (bits_bitlist n k Hk) as [L1 _]. pose proof (bits_bitlist n 0 D0) as [L2 _]. congruence.
      * intros p Hp. pose proof (bits_bitlist n k Hk) as [L1 _]. rewrite L1 in Hp. destruct (Nat.eq_dec p i) as [->|N]; [rewrite En, B0 by exact Hi; reflexivity|]. apply (proj1 (agree_off_spec _ _ _ _) E); [exact Hp|]. simpl. intuition.
    + rewrite mid_neq; [cbn; reflexivity|]. intros ->. rewrite B0 in En by exact Hi. discriminate.
  - rewrite mid_neq; [reflexivity|]. intros ->. assert (agree_off n [i] (bits n 0) (bits n 0) = true) by (apply agree_off_spec; reflexivity). congruence.
Qed.

Section State.
Variables (n : nat) (A : mat C) (s : R).
Hypothesis flip : meq 2 (mmul 2 X1 A) (mscale (SR := CStar) (RtoC s) (mmul 2 A Z1)).

Lemma flip_emb i : i < n -> meq (2 ^ n) (mmul (2 ^ n) (emb n [i] X1) (emb n [i] A)) (mscale (SR := CStar) (RtoC s) (mmul (2 ^ n) (emb n [i] A) (emb n [i] Z1))).
Proof.
  intros Hi. rewrite !emb_mul by (apply one_wire_ok; exact Hi). rewrite <- emb_scale. apply emb_proper. exact flip.
Qed.
Lemma commute_off i (B : mat C) ws : i < n -> Forall (fun w => w < n) ws -> ~ In i ws ->
  meq (2 ^ n) (mmul (2 ^ n) (emb n [i] B) (mprod (2 ^ n) (map (fun w => emb n [w] A) ws))) (mmul (2 ^ n) (mprod (2 ^ n) (map (fun w => emb n [w] A) ws)) (emb n [i] B)).
Proof.
  intros Hi Hw Hn. induction Hw as [|w ws Hw Hws IH]; cbn [map mprod]; [rewrite mmul_1_l, mmul_1_r; reflexivity|].
  assert (N : i <> w) by (intros ->; apply Hn; left; reflexivity). set (P := mprod (2 ^ n) (map (fun w => emb n [w] A) ws)) in *.
  transitivity (mmul (2 ^ n) (mmul (2 ^ n) (emb n [i] B) (emb n [w] A)) P); [rewrite mmul_assoc; reflexivity|].
  rewrite (emb_commute n [i] [w] B A (two_wires n i w Hi Hw N)), <- !mmul_assoc, IH by (intros Q; apply Hn; right; exact Q). reflexivity.
Qed.
Lemma flip_all i ws : NoDup ws -> Forall (fun w => w < n) ws -> In i ws ->
  meq (2 ^ n) (mmul (2 ^ n) (emb n [i] X1) (mprod (2 ^ n) (map (fun w => emb n [w] A) ws))) (mscale (SR := CStar) (RtoC s) (mmul (2 ^ n) (mprod (2 ^ n) (map (fun w => emb n [w] A) ws)) (emb n [i] Z1))).
Proof.
  intros Hd Hw Hin. assert (Hi : i < n) by (rewrite Forall_forall in Hw; apply Hw; exact Hin).
  induction Hw as [|w ws Hww Hws IH]; [destruct Hin|]. inversion Hd; subst. cbn [map mprod]. set (P := mprod (2 ^ n) (map (fun w => emb n [w] A) ws)) in *.
  transitivity (mmul (2 ^ n) (mmul (2 ^ n) (emb n [i] X1) (emb n [w] A)) P); [rewrite mmul_assoc; reflexivity|]. destruct (Nat.eq_dec i w) as [->|N].
  - rewrite (flip_emb w Hi), mmul_scale_l, <- !mmul_assoc. pose proof (commute_off w Z1 ws Hi Hws ltac:(assumption)) as Q. fold P in Q. rewrite Q. reflexivity.
  - rewrite (emb_commute n [i] [w] X1 A (two_wires n i w Hi Hww N)). destruct Hin as [->|Hin]; [contradiction|]. rewrite <- mmul_assoc, IH, mmul_scale_r, mmul_assoc by assumption. reflexivity.
Qed.
End State.

(** a circuit of one gate on every wire *)
Definition product_circuit (n : nat) (G : arr C) : list (qop C) := map (fun w => mkqop G [w]) (seq 0 n).

Lemma product_state n G s : a_rows G = 2 -> a_cols G = 2 -> meq 2 (mmul 2 X1 (a_ent G)) (mscale (SR := CStar) (RtoC s) (mmul 2 (a_ent G) Z1)) -> forall U, circuit_unitary n (product_circuit n G) = Ok U ->
  forall i, i < n -> veq (2 ^ n) (mv (2 ^ n) (emb n [i] X1) (qnode_state (a_ent U))) (fun k => Cmult (RtoC s) (qnode_state (a_ent U) k)).
Proof.
  intros R1 R2 Hf U EU i Hi. destruct (circuit_unitary_spec n (product_circuit n G)) as (U' & EU' & _ & _ & M).
  { apply Forall_forall. intros o Ho. unfold product_circuit in Ho. apply in_map_iff in Ho. destruct Ho as (w & <- & Hw). apply in_seq in Hw. repeat split; cbn; try discriminate; auto; repeat constructor; simpl; auto; lia. }
  rewrite EU in EU'. injection EU' as <-. set (ws := rev (seq 0 n)).
  assert (Q : map (qmat n) (rev (product_circuit n G)) = map (fun w => emb n [w] (a_ent G)) ws) by (unfold product_circuit, ws; rewrite <- map_rev, map_map; reflexivity). rewrite Q in M.
  assert (Hd : NoDup ws) by (apply NoDup_rev, seq_NoDup). assert (Hw : Forall (fun w => w < n) ws) by (apply Forall_rev, Forall_forall; intros w Hw; apply in_seq in Hw; lia).
  pose proof (flip_all n (a_ent G) s Hf i ws Hd Hw ltac:(unfold ws; rewrite <- in_rev; apply in_seq; lia)) as F. rewrite <- M in F.
  intros k Hk. pose proof (pow2_pos n) as D0. specialize (F k 0 Hk D0). unfold mv, qnode_state. unfold mmul at 1 in F. cbn [kmul CStar] in F. rewrite F. unfold mscale. cbn [kmul CStar]. f_equal.
  transitivity (mmul (2 ^ n) (a_ent U) mid k 0); [|rewrite mmul_1_r by assumption; reflexivity]. unfold mmul. apply lsum_ext. intros j Hj. apply in_seq in Hj. rewrite z_column by (try assumption; lia). reflexivity.
Qed.

Lemma zz_anti n i j : i < n -> j < n -> i <> j -> meq (2 ^ n) (mmul (2 ^ n) (emb n [i] X1) (emb n [i; j] (kron 2 Z1 Z1))) (mscale (SR := CStar) (RtoC (-1)) (mmul (2 ^ n) (emb n [i; j] (kron 2 Z1 Z1)) (emb n [i] X1))).
Proof.
  intros Hi Hj N. assert (W : wires_ok n ([i] ++ [j])) by (apply two_wires; assumption).
  pose proof (emb_mul_disjoint n [i] [j] Z1 Z1 W) as P. change ([i] ++ [j]) with [i; j] in P. change (2 ^ List.length [j]) with 2 in P. rewrite <- P.
  assert (A : meq (2 ^ n) (mmul (2 ^ n) (emb n [i] X1) (emb n [i] Z1)) (mscale (SR := CStar) (RtoC (-1)) (mmul (2 ^ n) (emb n [i] Z1) (emb n [i] X1)))).
  { rewrite !emb_mul by (apply one_wire_ok; exact Hi). rewrite <- emb_scale. apply emb_proper. intros a b Ha Hb. change (2 ^ List.length [i]) with 2 in *. (destruct a as [|[|a]]; [| |lia]); (destruct b as [|[|b]]; [| |lia]); apply C_ext; cbn; ring. }
  rewrite mmul_assoc, A, mmul_scale_l, <- !mmul_assoc, (emb_commute n [i] [j] X1 Z1 W). reflexivity.
Qed.

Lemma tfim_fits n : 2 <= n -> Forall (PropLayers.fits n) (tfim_observables n).
Proof.
  intros Hn. unfold tfim_observables. repeat (apply Forall_app; split).
  - apply Forall_forall. intros o Ho. apply in_map_iff in Ho. destruct Ho as (w & <- & Hw). apply in_seq in Hw. repeat split; cbn; try discriminate; auto; repeat constructor; simpl; auto; lia.
  - apply Forall_forall. intros o Ho. apply in_map_iff in Ho. destruct Ho as (w & <- & Hw). apply in_seq in Hw. repeat split; cbn; try discriminate; auto; repeat constructor; simpl; intuition; lia.
  - constructor; [|constructor]. repeat split; cbn; try discriminate; auto; repeat constructor; simpl; intuition; lia.
Qed.
Lemma x_herm : hermitian 2 X1.
Proof. intros i j Hi Hj. (destruct i as [|[|i]]; [| |lia]); (destruct j as [|[|j]]; [| |lia]); apply C_ext; cbn; ring. Qed.
Lemma zz_herm : hermitian 4 (a_ent (np_kron (lit_Z (K := C)) lit_Z)).
Proof. intros i j Hi Hj. (destruct i as [|[|[|[|i]]]]; [| | | |lia]); (destruct j as [|[|[|[|j]]]]; [| | | |lia]); apply C_ext; cbn; ring. Qed.
Lemma tfim_hermitian n : Forall hermitian_obs (tfim_observables n).
Proof.
  unfold tfim_observables. repeat (apply Forall_app; split).
  - apply Forall_forall. intros o Ho. apply in_map_iff in Ho. destruct Ho as (w & <- & Hw). exact x_herm.
  - apply Forall_forall. intros o Ho. apply in_map_iff in Ho. destruct Ho as (w & <- & Hw). exact zz_herm.
  - constructor; [exact zz_herm|constructor].
Qed.

(** the cost of a state in which every X has the value s *)
Lemma cost_sum n u (v : qop C -> R) obs : (forall o, In o obs -> expval n u o = Ok (v o)) -> exact_cost n obs u = Ok (rsum v obs).
Proof.
  intros H. unfold exact_cost. assert (Q : forall c0, foldM (fun c o => do e <- expval n u o; Ok (c + e)%R) obs c0 = Ok (c0 + rsum v obs)%R).
  { induction obs as [|o obs IH]; intros c0; cbn [foldM rsum]; [f_equal; ring|]. rewrite (H o (or_introl eq_refl)). cbn [bind]. rewrite IH by (intros o' Ho; apply H; right; exact Ho). f_equal. ring. }
  rewrite Q. f_equal. ring.
Qed.
Lemma rsum_app {A} (f : A -> R) l m : rsum f (l ++ m) = (rsum f l + rsum f m)%R.
Proof. induction l as [|a l IH]; cbn [app rsum]; [ring|rewrite IH; ring]. Qed.
Lemma rsum_const {A} (c : R) (l : list A) : rsum (fun _ => c) l = (INR (List.length l) * c)%R.
Proof. induction l as [|a l IH]; [cbn; ring|]. cbn [rsum]. rewrite IH. change (List.length (a :: l)) with (S (List.length l)). rewrite S_INR. ring. Qed.
Lemma expval_emb n u o : PropLayers.fits n o -> expval n u o = Ok (Re (ip (2 ^ n) (qnode_state u) (mv (2 ^ n) (qmat n o) (qnode_state u)))).
Proof.
  intros Hf. destruct (full_ok n o Hf) as (F & EF & _ & _ & M). unfold expval. rewrite EF. cbn [bind]. unfold qnode_expval. rewrite quad_ip. f_equal. f_equal. apply ip_ext; [apply veq_refl|]. apply mv_ext; [exact M|apply veq_refl].
Qed.

Lemma tfim_cost n u s : 2 <= n -> unitary2 (2 ^ n) u -> s <> 0%R -> (forall i, i < n -> veq (2 ^ n) (mv (2 ^ n) (emb n [i] X1) (qnode_state u)) (fun k => Cmult (RtoC s) (qnode_state u k))) ->
  exact_cost n (tfim_observables n) u = Ok (INR n * s)%R.
Proof.
  intros Hn Hu Hs Hx. pose proof (tfim_fits n Hn) as Hf. rewrite Forall_forall in Hf. set (x := qnode_state u) in *. pose proof (state_unit n u Hu) as N. unfold rip in N. fold x in N.
  assert (Vx : forall i, i < n -> expval n u (tfim_x i) = Ok s).
  { intros i Hi. rewrite expval_emb; [|repeat split; cbn; try discriminate; auto; repeat constructor; simpl; auto; lia].
    change (qmat n (tfim_x i)) with (emb n [i] X1). fold x. rewrite (ip_ext _ x x _ _ (veq_refl _ x) (Hx i Hi)), ip_scale_r. f_equal. destruct (ip (2 ^ n) x x) as [a b]. simpl in *. rewrite N. ring. }
  assert (Vz : forall i j, i < n -> j < n -> i <> j -> expval n u (tfim_zz i j) = Ok 0%R).
  { intros i j Hi Hj Nij. rewrite expval_emb; [|repeat split; cbn; try discriminate; auto; repeat constructor; simpl; intuition; lia].
    change (qmat n (tfim_zz i j)) with (emb n [i; j] (kron 2 Z1 Z1)). fold x. f_equal.
    rewrite (opposite_orthogonal (2 ^ n) (emb n [i] X1) s x); [reflexivity| |exact Hs|apply Hx; exact Hi|].
    - unfold hermitian. rewrite emb_adj. apply emb_proper. apply x_herm.
    - intros k Hk. rewrite <- mv_mul, (mv_ext _ _ _ x x (zz_anti n i j Hi Hj Nij) (veq_refl _ x) k Hk), mv_scale_mat, mv_mul, (mv_veq _ _ _ _ (Hx i Hi) k Hk), mv_scale. apply C_ext; simpl; ring. }
  rewrite (cost_sum n u (fun o => if Nat.eqb (List.length (q_wires o)) 1 then s else 0%R)).
  - f_equal. unfold tfim_observables. rewrite !rsum_app. assert (E1 : rsum (fun o => if Nat.eqb (List.length (q_wires o)) 1 then s else 0%R) (map tfim_x (seq 0 n)) = (INR n * s)%R).
    { replace (INR n) with (INR (List.length (seq 0 n))) by (rewrite seq_length; reflexivity). generalize (seq 0 n). intros l. induction l as [|a l IH]; [cbn; ring|]. cbn [map rsum]. rewrite IH. cbn [tfim_x q_wires List.length Nat.eqb]. change (List.length (a :: l)) with (S (List.length l)). rewrite S_INR. ring. }
    assert (E2 : forall f l, rsum (fun o => if Nat.eqb (List.length (q_wires o)) 1 then s else 0%R) (map (fun i => tfim_zz i (f i)) l) = 0%R).
    { intros f l. induction l as [|a l IH]; [reflexivity|]. cbn [map rsum]. rewrite IH. cbn. ring. }
    rewrite E1, (E2 (fun i => i + 1)). cbn. ring.
  - intros o Ho. unfold tfim_observables in Ho. apply in_app_or in Ho. destruct Ho as [Ho|Ho]; [|apply in_app_or in Ho; destruct Ho as [Ho|[<-|[]]]].
    + apply in_map_iff in Ho. destruct Ho as (i & <- & Hi). apply in_seq in Hi. cbn [tfim_x q_wires List.length Nat.eqb]. apply Vx. lia.
    + apply in_map_iff in Ho. destruct Ho as (i & <- & Hi). apply in_seq in Hi. cbn [tfim_zz q_wires List.length Nat.eqb]. apply Vz; lia.
    + cbn [tfim_zz q_wires List.length Nat.eqb]. apply Vz; lia.
Qed.

(** ** The table of the Hamiltonian *)
Definition zx (i j : nat) : Z := if Nat.eqb i j then 0%Z else 1%Z.
Definition zzz (i j : nat) : Z := if Nat.eqb i j then (if Nat.eqb i 0 || Nat.eqb i 3 then 1%Z else (-1)%Z) else 0%Z.
Definition embz (n : nat) (ws : list nat) (op : nat -> nat -> Z) (r c : nat) : Z :=
  if agree_off n ws (bits n r) (bits n c) then op (unbits (sel ws (bits n r))) (unbits (sel ws (bits n c))) else 0%Z.
Definition obs_z (n : nat) (o : qop C) : nat -> nat -> Z := embz n (q_wires o) (if Nat.eqb (List.length (q_wires o)) 1 then zx else zzz).
Definition wires_list (n : nat) : list (list nat) := map (fun i => [i]) (seq 0 n) ++ map (fun i => [i; i + 1]) (seq 0 (n - 1)) ++ [[n - 1; 0]].
Definition tfim_entry (n r c : nat) : Z := fold_right Z.add 0%Z (map (fun ws => embz n ws (if Nat.eqb (List.length ws) 1 then zx else zzz) r c) (wires_list n)).
Definition tfim_table (n : nat) : list (list Z) := map (fun r => map (tfim_entry n r) (seq 0 (2 ^ n))) (seq 0 (2 ^ n)).

Lemma embz_zc n ws (op : nat -> nat -> Z) (M : mat C) r c : r < 2 ^ n -> c < 2 ^ n -> (forall a b, a < 2 ^ List.length ws -> b < 2 ^ List.length ws -> M a b = zc (op a b)) -> emb n ws M r c = zc (embz n ws op r c).
Proof. intros Hr Hc H. unfold emb, embz. destruct (agree_off _ _ _ _); [apply H; apply sel_lt; assumption|reflexivity]. Qed.

Lemma tfim_matrix n H : 2 <= n -> get_hamiltonian_matrix n (tfim_observables n) None = Ok H -> forall r c, r < 2 ^ n -> c < 2 ^ n -> a_ent H r c = zc (tfim_entry n r c).
Proof.
  intros Hn EH r c Hr Hc. pose proof (tfim_fits n Hn) as Hf. destruct (mapM_full n (tfim_observables n) Hf) as (Fs & EF & HF).
  destruct (hamiltonian_sum n _ Fs H Hf (tfim_hermitian n) (full_embedded n _ Fs Hf EF) EH) as [M _]. rewrite (M r c Hr Hc). unfold msum, tfim_entry. clear M EF EH.
  assert (Ew : wires_list n = map (@q_wires C) (tfim_observables n)) by (unfold wires_list, tfim_observables; rewrite !map_app, !map_map; reflexivity). rewrite Ew, map_map. clear Ew.
  assert (Ho : Forall (fun o => forall a b, a < 2 ^ List.length (q_wires o) -> b < 2 ^ List.length (q_wires o) -> a_ent (q_matrix o) a b = zc ((if Nat.eqb (List.length (q_wires o)) 1 then zx else zzz) a b)) (tfim_observables n)).
  { assert (Zz : forall i j a b, a < 4 -> b < 4 -> a_ent (q_matrix (tfim_zz i j)) a b = zc (zzz a b)) by (intros i j a b Ha Hb; (destruct a as [|[|[|[|a]]]]; [| | | |lia]); (destruct b as [|[|[|[|b]]]]; [| | | |lia]); apply C_ext; cbn; ring).
    unfold tfim_observables. repeat (apply Forall_app; split).
    - apply Forall_forall. intros o Ho. apply in_map_iff in Ho. destruct Ho as (w & <- & _). intros a b Ha Hb. change (a < 2) in Ha. change (b < 2) in Hb. (destruct a as [|[|a]]; [| |lia]); (destruct b as [|[|b]]; [| |lia]); apply C_ext; cbn; ring.
    - apply Forall_forall. intros o Ho. apply in_map_iff in Ho. destruct Ho as (w & <- & _). exact (Zz w (w + 1)).
    - constructor; [|constructor]. exact (Zz (n - 1) 0). }
  revert Ho. clear Hf. induction HF as [|F o Fs obs HFo _ IH]; intros Ho; [reflexivity|]. inversion Ho; subst. cbn [map fold_right]. rewrite lsum_cons, zc_add, IH by assumption. cbn [kadd CStar]. f_equal.
  rewrite (HFo r c Hr Hc). unfold qmat. apply embz_zc; assumption.
Qed.

Lemma table_entry n r c : r < 2 ^ n -> c < 2 ^ n -> nth c (nth r (tfim_table n) []) 0%Z = tfim_entry n r c.
Proof.
  intros Hr Hc. unfold tfim_table. rewrite (nth_indep _ [] (map (tfim_entry n 0) (seq 0 (2 ^ n)))) by (rewrite map_length, seq_length; exact Hr).
  rewrite (map_nth (fun r => map (tfim_entry n r) (seq 0 (2 ^ n)))), seq_nth by exact Hr. rewrite (nth_indep _ 0%Z (tfim_entry n (0 + r) 0)) by (rewrite map_length, seq_length; exact Hc). rewrite map_nth, seq_nth by exact Hc. reflexivity.
Qed.
Lemma table_size n : List.length (tfim_table n) = 2 ^ n.
Proof. unfold tfim_table. rewrite map_length, seq_length. reflexivity. Qed.
Lemma table_square n : Forall (fun row => List.length row = List.length (tfim_table n)) (tfim_table n).
Proof. rewrite table_size. apply Forall_forall. intros row Hr. apply in_map_iff in Hr. destruct Hr as (r & <- & _). rewrite map_length, seq_length. reflexivity. Qed.
