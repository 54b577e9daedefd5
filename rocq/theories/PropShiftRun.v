(** Property C90: whole runs of parameter_shift_optimizer with a small learning rate. *)
From Coq Require Import ZArith Arith Lia Bool String Reals Lra Ring Setoid Morphisms Classical.
From Coquelicot Require Import Coquelicot.
From Verif Require Import Py StarRing Matrix Cplx PauliSpec Bits PauliBasis Expm MDeriv UtilsModel UtilsProofs CircuitModel CircuitProofs CircuitProofs2 LayerModel LayerProofs OptimizerModel OptProofs RotoProofs ZasV2Proofs
  FlowModel FlowProofs FlowProofs2 FlowMany AdaptModel AdaptProofs ShiftModel ShiftProofs ShiftDescent ApproxModel ApproxProofs PropLayers PropGreedy PropAdapt PropOptArgs PropOptRun PropFlow PropMany PropShift PropApprox PropLayerState.
From Coq Require Import List.
Import ListNotations.
Local Open Scope nat_scope.
Local Open Scope list_scope.

(** ** Specification *)

(** the expectation value of the sum of the observables is in [-B, B] in every state *)
Definition within (n : nat) (obs : list (qop C)) (B : R) : Prop :=
  forall Os, Forall2 (embedded n) obs Os -> forall u, unitary2 (2 ^ n) u -> (Rabs (energy n Os u) <= B)%R.
(** how many rotations read the entry *)
Definition uses (l : list slot) (j k : nat) : nat := List.length (filter (fun jk => Nat.eqb j (fst jk) && Nat.eqb k (snd jk)) (keys l)).

(** ** Proofs *)

Lemma fill_unitary n a s : slot_valid n s -> unitary2 (2 ^ n) (qmat n (gate_qop (fill a s))).
Proof.
  intros Hs. pose proof (fill_valid n a s Hs) as Hv. apply qmat_unitary; [exact Hv|].
  assert (R : forall t w q, valid_qop n (gate_qop (ARot t w q)) -> local_unitary (gate_qop (ARot t w q))).
  { intros t w q (_ & _ & _ & H4 & _). cbn [gate_qop q_wires q_matrix a_rows] in H4. unfold local_unitary. cbn [gate_qop q_wires q_matrix a_ent].
    assert (L : List.length (word_of w) = List.length q) by (apply (Nat.pow_inj_r 2); [lia|exact H4]). rewrite L.
    apply rotation_unitary. rewrite <- L. apply pword_herm. apply word_letters. }
  destruct s as [[w|t w q]|j k w q]; cbn [fill] in *; [apply hadamard_unitary|apply R; exact Hv|apply R; exact Hv].
Qed.

Lemma slots_mat_unitary n a l : Forall (slot_valid n) l -> unitary2 (2 ^ n) (slots_mat n a l).
Proof.
  intros H. unfold slots_mat. apply mprod_unitary. apply Forall_map. apply Forall_rev. eapply Forall_impl; [|exact H]. intros s. apply fill_unitary.
Qed.

(** every rotation with a parameter of its own *)
Fixpoint relabel (s : nat) (l : list slot) : list slot :=
  match l with
  | [] => []
  | Fixed g :: r => Fixed g :: relabel s r
  | Param _ _ w q :: r => Param 0 s w q :: relabel (S s) r
  end.

Lemma relabel_keys l : forall s, keys (relabel s l) = map (fun i => (0, i)) (seq s (List.length (keys l))).
Proof. induction l as [|[g|j k w q] l IH]; intros s; [reflexivity|apply IH|]. cbn [relabel]. change (keys (Param j k w q :: l)) with ((j, k) :: keys l). cbn [List.length seq map]. rewrite <- IH. reflexivity. Qed.
Lemma relabel_valid n l : Forall (slot_valid n) l -> forall s, Forall (slot_valid n) (relabel s l).
Proof. induction 1 as [|[g|j k w q] l H _ IH]; intros s; cbn [relabel]; constructor; auto. Qed.
Lemma relabel_fill a l : forall s b, (forall i jk, nth_error (keys l) i = Some jk -> b (s + i) = a (fst jk) (snd jk)) -> map (fill (fun _ => b)) (relabel s l) = map (fill a) l.
Proof.
  induction l as [|[g|j k w q] l IH]; intros s b H; cbn [relabel map fill]; [reflexivity|f_equal; apply IH; exact H|]. f_equal.
  - f_equal. specialize (H 0 (j, k) eq_refl). rewrite Nat.add_0_r in H. exact H.
  - apply IH. intros i jk E. specialize (H (S i) jk E). rewrite Nat.add_succ_r in H. exact H.
Qed.

Lemma slots_mat_fill n a b l m : map (fill a) l = map (fill b) m -> slots_mat n a l = slots_mat n b m.
Proof. intros H. unfold slots_mat. rewrite <- !(map_map (fill _) (fun g => qmat n (gate_qop g))), !map_rev, H. reflexivity. Qed.

Section Run.
Variables (n : nat) (Fs : list (arr C)) (l : list slot) (B : R).
Hypothesis Hl : Forall (slot_valid n) l.
Hypothesis HB : forall u, unitary2 (2 ^ n) u -> (Rabs (energy n Fs u) <= B)%R.
Let m := List.length (keys l).
Let L := seq 0 m.
Let E (b : nat -> R) : R := energy n Fs (slots_mat n (fun _ => b) (relabel 0 l)).

Lemma E_ext a b : (forall i, a i = b i) -> E a = E b.
Proof. intros H. unfold E. f_equal. apply slots_angles. intros j k _. apply H. Qed.

Lemma E_trig a i : In i L -> exists al be ga, forall x, E (put a i x) = (al + be * cos x + ga * sin x)%R.
Proof.
  intros _. destruct (one_param n Fs (fun _ => a) (relabel 0 l) 0 i (relabel_valid n l Hl 0)) as (al & be & ga & H).
  { rewrite relabel_keys. apply FinFun.Injective_map_NoDup; [intros x y Q; congruence|apply seq_NoDup]. }
  exists al, be, ga. intros x. rewrite <- H. unfold E. f_equal. apply slots_angles. intros j k Hk. rewrite relabel_keys in Hk. apply in_map_iff in Hk. destruct Hk as (i' & Q & _). injection Q as <- <-.
  unfold put, upd. destruct (Nat.eqb i' i); reflexivity.
Qed.

Lemma E_der a : exists cs : nat -> R, forall h, is_derive (fun t => E (line a h t)) 0%R (rsum (fun i => h i * cs i)%R L).
Proof.
  destruct (slots_slope n Fs (fun _ => a) (relabel 0 l) (relabel_valid n l Hl 0)) as (cs & _ & H).
  exists (fun i => rsum (fun sc => is_key 0 i (fst sc) * snd sc)%R (combine (relabel 0 l) cs)). intros h.
  eapply is_derive_extR; [| |exact (H (fun _ => h))].
  - intros t. unfold E. f_equal. 
  - rewrite (regroup [repeat 0%R m] (fun _ => h) (relabel 0 l)).
    + unfold all_entries. cbn [List.length seq rsum nth]. rewrite repeat_length. fold L. apply Rplus_0_r.
    + intros j k Hk. rewrite relabel_keys in Hk. apply in_map_iff in Hk. destruct Hk as (i & Q & Hi). injection Q as <- <-. apply in_seq in Hi. unfold in_shape. cbn [nth]. rewrite repeat_length. fold m in Hi. lia.
Qed.

Lemma E_bound a : (Rabs (E a) <= B)%R.
Proof. apply HB. apply slots_mat_unitary. apply relabel_valid. exact Hl. Qed.

(** the angles read by the rotations *)
Definition reads (a : nat -> nat -> R) (i : nat) : R := let jk := nth i (keys l) (0, 0) in a (fst jk) (snd jk).

Lemma E_reads a : energy n Fs (slots_mat n a l) = E (reads a).
Proof.
  unfold E. f_equal. symmetry. apply slots_mat_fill. apply relabel_fill. intros i jk H. cbn [Nat.add]. unfold reads. rewrite (nth_error_nth _ _ _ H). reflexivity.
Qed.
Lemma E_line a h t : E (reads (moved a h t)) = E (line (reads a) (reads h) t).
Proof. apply E_ext. intros i. reflexivity. Qed.

Lemma rsum_reads f : rsum (fun i => reads f i) L = rsum (fun jk => f (fst jk) (snd jk)) (keys l).
Proof.
  unfold L, m, reads. generalize (keys l). intros ks. rewrite <- (rsum_map (fun i => nth i ks (0, 0)) (fun jk => f (fst jk) (snd jk))). f_equal.
  induction ks as [|k ks IH]; [reflexivity|]. cbn [List.length seq map nth]. f_equal. rewrite <- seq_shift, map_map. exact IH.
Qed.

(** the second-order bound in terms of the slots *)
Lemma slots_descent a h t : (0 <= t)%R -> exists d, is_derive (fun t => energy n Fs (slots_mat n (moved a h t) l)) 0%R d /\
  (energy n Fs (slots_mat n (moved a h t) l) <= energy n Fs (slots_mat n a l) + t * d + t ^ 2 / 2 * (B * (INR m * rsum (fun jk => h (fst jk) (snd jk) ^ 2) (keys l))))%R.
Proof.
  intros Ht. eexists. split.
  - eapply is_derive_extR; [|reflexivity|exact (slope_deriv E L E_ext (seq_NoDup m 0) E_trig E_der (reads a) (reads h))]. intros s. cbv beta. rewrite <- E_line, E_reads. reflexivity.
  - rewrite !E_reads, E_line. eapply Rle_trans; [exact (descent E L B E_ext (seq_NoDup m 0) E_trig E_der E_bound (reads a) (reads h) t Ht)|].
    apply Rplus_le_compat_l. apply Rmult_le_compat_l; [pose proof (pow2_ge_0 t); lra|]. apply Rmult_le_compat_l; [apply (B_pos E B E_bound)|].
    unfold len. pose proof (sum_square (reads h) L) as S. unfold L in S at 2. rewrite seq_length in S. eapply Rle_trans; [exact S|].
    apply Rmult_le_compat_l; [apply pos_INR|]. change (fun x => reads h x ^ 2)%R with (reads (fun j k => h j k ^ 2)%R). rewrite rsum_reads. lra.
Qed.
End Run.

(** *** counting *)
Lemma rsum_keys p (f : nat -> nat -> R) l r : (forall j k, 0 <= f j k)%R -> (forall j k, In (j, k) (keys l) -> in_shape p j k) -> (forall j k, uses l j k <= r) ->
  (rsum (fun jk => f (fst jk) (snd jk)) (keys l) <= INR r * all_entries p f)%R.
Proof.
  intros Hf Hk Hr. unfold uses in Hr. revert Hk Hr. generalize (keys l). intros ks Hk Hr.
  assert (G : rsum (fun jk => f (fst jk) (snd jk)) ks = all_entries p (fun j k => INR (List.length (filter (fun jk => Nat.eqb j (fst jk) && Nat.eqb k (snd jk)) ks)) * f j k)%R).
  { clear Hr. induction ks as [|[j k] ks IH]; [symmetry; apply all_entries_zero; intros; cbn; ring|]. cbn [rsum fst snd].
    rewrite IH by (intros; apply Hk; right; assumption). rewrite <- (all_entries_delta p f j k (Hk j k (or_introl eq_refl))), <- all_entries_add. apply all_entries_ext.
    intros j' k' _. cbn [filter fst snd]. rewrite (Nat.eqb_sym j j'), (Nat.eqb_sym k k'). destruct (Nat.eqb j' j && Nat.eqb k' k); [cbn [List.length]; rewrite S_INR|]; ring. }
  rewrite G. unfold all_entries. rewrite <- rsum_scale. apply rsum_le. intros j _. rewrite <- rsum_scale. apply rsum_le. intros k _.
  apply Rmult_le_compat_r; [apply Hf|]. apply le_INR, Hr.
Qed.

Lemma full_emb n obs Fs : Forall (fits n) obs -> Forall2 (fun o F => full n o = Ok F) obs Fs -> Forall2 (embedded n) obs Fs.
Proof. intros Hf H. apply full_embedded; [exact Hf|]. clear Hf. induction H as [|o F obs Fs Ho _ IH]; [reflexivity|]. cbn [mapM]. rewrite Ho, IH. reflexivity. Qed.

Lemma F2_length {A B} (P : A -> B -> Prop) la lb : Forall2 P la lb -> List.length la = List.length lb.
Proof. induction 1; cbn; congruence. Qed.

(** one step *)
Lemma step_descent n obs circ p0 l r B p : Forall (fits n) obs -> rotation_circuit n circ p0 l -> within n obs B -> (forall j k, uses l j k <= r) -> same_shape p0 p ->
  exists s c, (forall j k, in_shape p j k -> cost_slope n obs circ p j k (s j k)) /\ vqe_cost n obs circ p = Ok c /\ (Rabs c <= B)%R /\
    forall eta, (0 <= eta)%R -> exists q c', gd_step (vqe_cost n obs circ) eta p = Ok q /\ same_shape p q /\ vqe_cost n obs circ q = Ok c' /\
      (forall j k, in_shape p j k -> angles q j k = (angles p j k - eta * s j k)%R) /\
      (c' <= c - eta * (1 - eta * (B * INR (List.length (keys l)) * INR r) / 2) * all_entries p (fun j k => s j k ^ 2))%R.
Proof.
  intros Hf Hr HB Hu Hp. pose proof Hr as (Hl & Hk & Hc).
  assert (Hr' : rotation_circuit n circ p l).
  { split; [exact Hl|]. split; [intros j k H; eapply shape_in; [exact Hp|auto]|]. intros q Hq. apply Hc. eapply same_shape_trans; eassumption. }
  destruct (vqe_ok n obs circ p l Hf Hr') as (Fs & HF & Hcost).
  assert (HB' : forall u, unitary2 (2 ^ n) u -> (Rabs (energy n Fs u) <= B)%R) by (apply HB; apply full_emb; assumption).
  destruct (C81_shift_descent_partial n obs circ p l Hf Hr') as (s & G & c & Hs & HG & Ha & E0 & D & _). exists s, (c 0%R). split; [exact Hs|]. split; [exact E0|].
  assert (Ec : forall eta, c eta = energy n Fs (slots_mat n (moved (angles p) (fun j k => - s j k)%R eta) l)).
  { intros eta. destruct (HG eta) as [Eg Eq]. rewrite Hcost in Eq by (eapply gd_shape; exact Eg). injection Eq as <-. f_equal. apply slots_angles. intros j k H. rewrite Ha by (apply (proj1 (proj2 Hr')); exact H). unfold moved. ring. }
  assert (E00 : c 0%R = energy n Fs (slots_mat n (angles p) l)) by (rewrite Hcost in E0 by reflexivity; congruence).
  split; [rewrite E00; apply HB', slots_mat_unitary, Hl|].
  intros eta He. exists (G eta), (c eta). destruct (HG eta) as [Eg Eq]. split; [exact Eg|]. split; [eapply gd_shape; exact Eg|]. split; [exact Eq|]. split; [apply Ha|].
  destruct (slots_descent n Fs l B Hl HB' (angles p) (fun j k => - s j k)%R eta He) as (d & Dd & Hd). set (N := all_entries p (fun j k => s j k ^ 2)%R) in *.
  assert (Qd : d = (- N)%R).
  { rewrite <- (is_derive_unique _ _ _ Dd), <- (is_derive_unique _ _ _ D). apply Derive_ext. intros t. symmetry. apply Ec. }
  rewrite Ec, E00. eapply Rle_trans; [exact Hd|]. rewrite Qd.
  rewrite (rsum_ext _ (fun jk => s (fst jk) (snd jk) ^ 2)%R) by (intros; cbv beta; ring).
  pose proof (rsum_keys p (fun j k => s j k ^ 2)%R l r (fun j k => pow2_ge_0 _) (proj1 (proj2 Hr')) Hu) as K. fold N in K.
  assert (Bp : (0 <= B)%R) by (pose proof (HB' _ (slots_mat_unitary n (angles p) l Hl)); pose proof (Rabs_pos (energy n Fs (slots_mat n (angles p) l))); lra).
  set (m := INR (List.length (keys l))) in *. assert (Hm : (0 <= m)%R) by apply pos_INR. set (S := rsum (fun jk => s (fst jk) (snd jk) ^ 2)%R (keys l)) in *.
  assert (K2 : (B * (m * S) <= B * (m * (INR r * N)))%R) by (apply Rmult_le_compat_l; [exact Bp|]; apply Rmult_le_compat_l; assumption).
  apply (Rmult_le_compat_l (eta ^ 2 / 2)) in K2; [lra|]. pose proof (pow2_ge_0 eta). lra.
Qed.

(** the specification of an embedded observable determines its matrix *)
Lemma embedded_unique n o F G : Forall (fun w => w < n) (q_wires o) -> embedded n o F -> embedded n o G -> meq (2 ^ n) (a_ent F) (a_ent G).
Proof.
  intros Hw (_ & _ & HF) (_ & _ & HG) r c Hr Hc. destruct (HF r c Hr Hc) as [F1 F2]. destruct (HG r c Hr Hc) as [G1 G2]. clear HF HG. set (ws := q_wires o) in *.
  destruct (classic (exists v, v < n /\ ~ In v ws /\ PropCircuit.wire_bit n v r <> PropCircuit.wire_bit n v c)) as [H|H]; [rewrite (F1 H), (G1 H); reflexivity|].
  assert (Ha : forall v, v < n -> ~ In v ws -> PropCircuit.wire_bit n v r = PropCircuit.wire_bit n v c).
  { intros v Hv Hn. apply NNPP. intros Hne. apply H. exists v. auto. }
  assert (Hs : forall x, x < 2 ^ n -> unbits (sel ws (bits n x)) < 2 ^ List.length ws /\
    forall i, i < List.length ws -> PropCircuit.wire_bit (List.length ws) i (unbits (sel ws (bits n x))) = PropCircuit.wire_bit n (nth i ws 0) x).
  { intros x Hx. pose proof (sel_bitlist n ws _ (bits_bitlist n x Hx)) as Hb. pose proof (unbits_lt' _ _ Hb) as Hlt. split; [exact Hlt|]. intros i Hi.
    rewrite <- PropCircuit.nth_bits by assumption. rewrite bits_unbits by exact Hb. rewrite nth_sel by exact Hi. apply PropCircuit.nth_bits; [|exact Hx].
    rewrite Forall_forall in Hw. apply Hw, nth_In, Hi. }
  destruct (Hs r Hr) as [R1 R2]. destruct (Hs c Hc) as [C1 C2]. rewrite (F2 Ha _ _ R1 C1 R2 C2), (G2 Ha _ _ R1 C1 R2 C2). reflexivity.
Qed.

(** observables whose square is the identity *)
Theorem C90_pauli_bound : forall n obs, Forall (fits n) obs -> Forall pauli_type obs -> within n obs (INR (List.length obs)).
Proof.
  intros n obs Hf Hp Os HO u Hu. unfold energy. revert Os HO. induction Hf as [|o obs Ho Hf IH]; intros Os HO; inversion HO as [|? F ? Fs HF HFs]; subst; [cbn; rewrite Rabs_R0; lra|].
  inversion Hp as [|? ? Po Pp]; subst. specialize (IH Pp Fs HFs). cbn [rsum]. change (List.length (o :: obs)) with (S (List.length obs)). rewrite S_INR.
  assert (Q : (Rabs (Re (quad (2 ^ n) (qnode_state u) (a_ent F))) <= 1)%R).
  { destruct (obs_one n o Ho) as (G & _ & HG & Hh & H2). specialize (Hh (proj1 Po)). specialize (H2 Po).
    pose proof (embedded_unique n o F G (proj1 (proj2 (proj2 Ho))) HF HG) as EQ.
    assert (E : quad (2 ^ n) (qnode_state u) (a_ent F) = quad (2 ^ n) (qnode_state u) (a_ent G)).
    { rewrite !quad_ip. apply ip_ext; [apply veq_refl|]. apply mv_ext; [exact EQ|apply veq_refl]. }
    rewrite E. apply Rabs_le_between. apply (exp_bound (2 ^ n) (a_ent G) (qnode_state u) Hh H2). apply state_norm; [apply pow2_pos'|apply Hu]. }
  eapply Rle_trans; [apply Rabs_triang|]. unfold qnode_state in Q. lra.
Qed.
Print Assumptions C90_pauli_bound.

Lemma distinct_uses l : NoDup (keys l) -> forall j k, uses l j k <= 1.
Proof.
  unfold uses. generalize (keys l). intros ks H j k. induction H as [|[j' k'] ks Hx Hn IH]; [cbn; lia|]. cbn [filter fst snd].
  destruct (Nat.eqb_spec j j') as [->|]; [destruct (Nat.eqb_spec k k') as [->|]|]; cbn [andb]; try exact IH. cbn [List.length].
  assert (Z : filter (fun jk => Nat.eqb j' (fst jk) && Nat.eqb k' (snd jk)) ks = []).
  { destruct (filter _ ks) as [|[a b] f] eqn:Ef; [reflexivity|]. exfalso. assert (Hin : In (a, b) (filter (fun jk => Nat.eqb j' (fst jk) && Nat.eqb k' (snd jk)) ks)) by (rewrite Ef; left; reflexivity).
    apply filter_In in Hin. destruct Hin as [Hin Hb]. cbn [fst snd] in Hb. apply andb_prop in Hb. destruct Hb as [B1 B2]. apply Nat.eqb_eq in B1, B2. subst. contradiction. }
  rewrite Z. cbn. lia.
Qed.

(** ** C90 *)

(** With m rotations, none of the parameters read by more than r of them, and a total
    cost between -B and B: if eta B m r <= 1, every step of a run lowers the cost by at
    least eta/2 times the squared length of the gradient. So the costs never rise, and
    of T steps one starts at a point where the squared gradient is at most 4 B / (eta T). *)
Theorem C90_shift_run : forall Om U Z n obs circ p0 l r B kw, Forall (fits n) obs -> rotation_circuit n circ p0 l -> (forall j k, uses l j k <= r) -> within n obs B ->
  ps_accepts kw -> (the_eta kw * (B * INR (List.length (keys l)) * INR r) <= 1)%R ->
  exists res : retval (item (nat -> C) rows Om U Z), shift_optimizer n obs circ RetPlain p0 kw = Ok res /\
  forall cs ss ps, ps_result kw res cs ss ps -> exists points slopes,
    Forall2 (fun p c => vqe_cost n obs circ p = Ok c) points cs /\ (the_flag kw "return_params" = true -> ps = points) /\
    Forall2 (fun p s => same_shape p0 p /\ forall j k, in_shape p0 j k -> cost_slope n obs circ p j k (s j k)) points slopes /\
    (forall i c c' s, nth_error cs i = Some c -> nth_error cs (S i) = Some c' -> nth_error slopes i = Some s ->
       (c' <= c - the_eta kw / 2 * all_entries p0 (fun j k => s j k ^ 2))%R) /\
    chain (fun _ c c' => (c' <= c)%R) cs /\
    exists i s, S i < List.length cs /\ nth_error slopes i = Some s /\
      (the_eta kw * INR (List.length cs - 1) * all_entries p0 (fun j k => s j k ^ 2) <= 4 * B)%R.
Proof.
  intros Om U Z n obs circ p0 l r B kw Hf Hr Hu HB Ha He.
  destruct (shift_runs (Om := Om) (U := U) (Z := Z) n obs circ p0 l kw Hf Hr Ha) as (res & Er). exists res. split; [exact Er|]. intros cs ss ps Hres. unfold shift_optimizer in Er.
  destruct (C56_shift_histories _ _ _ _ _ _ _ _ _ _ _ _ _ _ Ha Er Hres) as (points & H0 & Hch & Hlen & Hc & _ & Hp).
  assert (Eta : (0 <= the_eta kw)%R).
  { destruct Ha as (_ & A2 & _). unfold the_eta. unfold allowed in A2. destruct (arg kw "eta") as [v|]; [|lra]. destruct (A2 v eq_refl) as (x & -> & Hx). lra. }
  set (eta := the_eta kw) in *.
  assert (Hs' : forall i p, nth_error points i = Some p -> same_shape p0 p).
  { induction i as [|i IH]; intros p E; [rewrite H0 in E; injection E as <-; reflexivity|].
    destruct (nth_error points i) as [q|] eqn:Eq; [|apply nth_error_None in Eq; assert (i < List.length points) by (assert (S i < List.length points) by (apply nth_error_Some; congruence); lia); lia].
    eapply same_shape_trans; [exact (IH q eq_refl)|]. eapply gd_shape. exact (Hch i q p Eq E). }
  assert (Hs : Forall (same_shape p0) points) by (apply Forall_forall; intros q Hq; apply In_nth_error in Hq; destruct Hq as (i & Hi); exact (Hs' i q Hi)).
  (* the gradients of all points *)
  assert (G : exists slopes, Forall2 (fun p s => exists c, (forall j k, in_shape p j k -> cost_slope n obs circ p j k (s j k)) /\ vqe_cost n obs circ p = Ok c /\ (Rabs c <= B)%R /\
    forall eta, (0 <= eta)%R -> exists q c', gd_step (vqe_cost n obs circ) eta p = Ok q /\ same_shape p q /\ vqe_cost n obs circ q = Ok c' /\
      (forall j k, in_shape p j k -> angles q j k = (angles p j k - eta * s j k)%R) /\
      (c' <= c - eta * (1 - eta * (B * INR (List.length (keys l)) * INR r) / 2) * all_entries p (fun j k => s j k ^ 2))%R) points slopes).
  { clear -Hf Hr Hu HB Hs. induction Hs as [|p points Hp _ (slopes & IH)]; [exists []; constructor|].
    destruct (step_descent n obs circ p0 l r B p Hf Hr HB Hu Hp) as (s & c & H). exists (s :: slopes). constructor; [exists c; exact H|exact IH]. }
  destruct G as (slopes & G). exists points, slopes. split; [exact Hc|]. split; [exact Hp|].
  assert (AE : forall p f, same_shape p0 p -> all_entries p f = all_entries p0 f).
  { intros p f Hps. unfold all_entries. assert (Ln : List.length p = List.length p0) by (apply (f_equal (@List.length nat)) in Hps; rewrite !map_length in Hps; auto). rewrite Ln. apply rsum_ext. intros j _. rewrite (len_nth_map p0 p Hps j). reflexivity. }
  assert (Dec : forall i c c' s, nth_error cs i = Some c -> nth_error cs (S i) = Some c' -> nth_error slopes i = Some s ->
       (c' <= c - eta / 2 * all_entries p0 (fun j k => s j k ^ 2))%R).
  { intros i c c' s Ec Ec' Es. 
    assert (N2 : forall {A B} (P : A -> B -> Prop) la lb i b, Forall2 P la lb -> nth_error lb i = Some b -> exists a, nth_error la i = Some a /\ P a b).
    { clear. intros A B P la lb i b H. revert i. induction H as [|x y la lb Hxy _ IH]; intros [|i] E; try discriminate; [injection E as <-; exists x; auto|apply IH; exact E]. }
    destruct (N2 _ _ _ _ _ _ _ Hc Ec) as (p & Ep & Vp). destruct (N2 _ _ _ _ _ _ _ Hc Ec') as (p' & Ep' & Vp'). destruct (N2 _ _ _ _ _ _ _ G Es) as (p1 & Ep1 & c1 & _ & V1 & _ & H1).
    rewrite Ep in Ep1. injection Ep1 as <-. rewrite Vp in V1. injection V1 as <-. destruct (H1 eta Eta) as (q & c2 & Eq & _ & Vq & _ & Hd).
    pose proof (Hch i p p' Ep Ep') as Hst. cbv beta in Hst. fold eta in Hst. rewrite Eq in Hst. injection Hst as <-. rewrite Vp' in Vq. injection Vq as <-.
    assert (Sp : same_shape p0 p) by (rewrite Forall_forall in Hs; apply Hs; eapply nth_error_In; exact Ep). rewrite (AE p _ Sp) in Hd.
    assert (N : (0 <= all_entries p0 (fun j k => s j k ^ 2))%R) by (apply rsum_nonneg; intros; apply rsum_nonneg; intros; apply pow2_ge_0).
    eapply Rle_trans; [exact Hd|]. apply Rplus_le_compat_l. apply Ropp_le_contravar. apply Rmult_le_compat_r; [exact N|]. apply Rmult_le_compat_l with (r := eta) in He as He'; [|exact Eta]. nra. }
  assert (Nn : forall s : nat -> nat -> R, (0 <= all_entries p0 (fun j k => s j k ^ 2))%R) by (intros s; apply rsum_nonneg; intros; apply rsum_nonneg; intros; apply pow2_ge_0).
  assert (Ls : List.length slopes = List.length cs) by (rewrite <- (F2_length _ _ _ G); exact (F2_length _ _ _ Hc)).
  assert (Lc : List.length points = List.length cs) by exact (F2_length _ _ _ Hc).
  assert (Bd : forall i c, nth_error cs i = Some c -> (Rabs c <= B)%R).
  { intros i c Ec. destruct (nth_error points i) as [p|] eqn:Ep; [|apply nth_error_None in Ep; assert (i < List.length cs) by (apply nth_error_Some; congruence); lia].
    destruct (step_descent n obs circ p0 l r B p Hf Hr HB Hu (Hs' i p Ep)) as (_ & c1 & _ & V & Hb & _).
    assert (V' : vqe_cost n obs circ p = Ok c).
    { clear -Hc Ep Ec. revert i Ep Ec. induction Hc as [|x y lx ly Hxy _ IH]; intros [|i] Ep Ec; try discriminate; [injection Ep as <-; injection Ec as <-; exact Hxy|exact (IH i Ep Ec)]. }
    rewrite V in V'. injection V' as <-. exact Hb. }
  split.
  { clear -G Hs. induction G as [|p s points slopes (c & H1 & _) _ IH]; constructor.
    - apply Forall_inv in Hs. split; [exact Hs|]. intros j k Hi. apply H1. eapply shape_in; eassumption.
    - apply IH. apply Forall_inv_tail in Hs. exact Hs. }
  split; [exact Dec|].
  split.
  { intros i c c' Ec Ec'. destruct (nth_error slopes i) as [s|] eqn:Es.
    - specialize (Dec i c c' s Ec Ec' Es). specialize (Nn s). assert (0 <= eta / 2 * all_entries p0 (fun j k => s j k ^ 2))%R by (apply Rmult_le_pos; lra). lra.
    - apply nth_error_None in Es. assert (i < List.length cs) by (apply nth_error_Some; congruence). lia. }
  set (T := List.length cs - 1). assert (HT : 1 <= T) by (unfold T; lia). assert (HTR : (0 < INR T)%R) by (apply lt_0_INR; lia).
  apply NNPP. intros Hno.
  assert (Big : forall i s, i < T -> nth_error slopes i = Some s -> (4 * B < eta * INR T * all_entries p0 (fun j k => s j k ^ 2))%R).
  { intros i s Hi Es. apply Rnot_le_lt. intros Hle. apply Hno. exists i, s. split; [unfold T in Hi; lia|]. split; [exact Es|exact Hle]. }
  assert (C0 : exists c0, nth_error cs 0 = Some c0) by (destruct (nth_error cs 0) eqn:Q; [eauto|apply nth_error_None in Q; lia]). destruct C0 as (c0 & C0).
  assert (Fall : forall k, k <= T -> exists c, nth_error cs k = Some c /\ (INR T * c <= INR T * c0 - INR k * (2 * B))%R /\ (1 <= k -> (INR T * c < INR T * c0 - INR k * (2 * B))%R)).
  { induction k as [|k IH]; intros Hk; [exists c0; split; [exact C0|]; split; [cbn; lra|lia]|]. destruct (IH ltac:(lia)) as (c & Ec & Hle & _).
    destruct (nth_error cs (S k)) as [c'|] eqn:Ec'; [|apply nth_error_None in Ec'; unfold T in Hk; lia]. destruct (nth_error slopes k) as [s|] eqn:Es; [|apply nth_error_None in Es; unfold T in Hk; lia].
    specialize (Dec k c c' s Ec Ec' Es). specialize (Big k s ltac:(lia) Es). exists c'. split; [reflexivity|].
    assert (St : (INR T * c' <= INR T * c - INR T * (eta / 2 * all_entries p0 (fun j k => s j k ^ 2)))%R) by (rewrite <- Rmult_minus_distr_l; apply Rmult_le_compat_l; lra).
    rewrite S_INR. set (N := all_entries p0 (fun j k => s j k ^ 2)%R) in *. replace (INR T * (eta / 2 * N))%R with (eta * INR T * N / 2)%R in St by field.
    assert (INR T * c' < INR T * c0 - (INR k + 1) * (2 * B))%R by lra. split; [lra|intros _; assumption]. }
  destruct (Fall T (le_n T)) as (cT & ECT & _ & Hlt). specialize (Hlt HT).
  pose proof (Bd 0 c0 C0) as B0. pose proof (Bd T cT ECT) as BT. apply Rabs_le_between in B0. apply Rabs_le_between in BT.
  assert (Q : (cT < c0 - 2 * B)%R) by (apply (Rmult_lt_reg_l (INR T)); [exact HTR|lra]). lra.
Qed.
Print Assumptions C90_shift_run.

(** Pauli observables and parameters that are read once: eta times the number of
    observables times the number of rotations at most 1 is small enough *)
Theorem C90_pauli_run : forall Om U Z n obs circ p0 l kw, Forall (fits n) obs -> Forall pauli_type obs -> rotation_circuit n circ p0 l -> NoDup (keys l) ->
  ps_accepts kw -> (the_eta kw * (INR (List.length obs) * INR (List.length (keys l))) <= 1)%R ->
  exists res : retval (item (nat -> C) rows Om U Z), shift_optimizer n obs circ RetPlain p0 kw = Ok res /\
  forall cs ss ps, ps_result kw res cs ss ps -> chain (fun _ c c' => (c' <= c)%R) cs.
Proof.
  intros Om U Z n obs circ p0 l kw Hf Hp Hr Hn Ha He.
  destruct (C90_shift_run Om U Z n obs circ p0 l 1 (INR (List.length obs)) kw Hf Hr (distinct_uses l Hn) (C90_pauli_bound n obs Hf Hp) Ha) as (res & E & H); [cbn [INR]; lra|].
  exists res. split; [exact E|]. intros cs ss ps Hres. destruct (H cs ss ps Hres) as (_ & _ & _ & _ & _ & _ & Hc & _). exact Hc.
Qed.
Print Assumptions C90_pauli_run.

(** ** AdaptVQELayer *)

(** a parameter-shift step is a gradient step *)
Lemma shift_step_le n obs circ p0 l B eta p p' c c' : Forall (fits n) obs -> rotation_circuit n circ p0 l -> NoDup (keys l) -> within n obs B ->
  (0 <= eta)%R -> (eta * (B * INR (List.length (keys l))) <= 1)%R -> same_shape p0 p -> same_shape p p' ->
  (forall j k forth back, in_shape p j k -> with_entry p j k (angles p j k + PI / 2) forth -> with_entry p j k (angles p j k - PI / 2) back ->
    exists c1 c2, vqe_cost n obs circ forth = Ok c1 /\ vqe_cost n obs circ back = Ok c2 /\ angles p' j k = (angles p j k - eta * ((c1 - c2) / 2))%R) ->
  vqe_cost n obs circ p = Ok c -> vqe_cost n obs circ p' = Ok c' -> (c' <= c)%R.
Proof.
  intros Hf Hr Hn HB H0 He Hp Hpp Hstep Ec Ec'. pose proof Hr as (Hl & Hk & Hc).
  destruct (step_descent n obs circ p0 l 1 B p Hf Hr HB (distinct_uses l Hn) Hp) as (s & c0 & Hs & E0 & _ & HG). rewrite Ec in E0. injection E0 as <-.
  destruct (HG eta H0) as (q & c2 & Eg & Sq & Eq & Aq & Hd). destruct (vqe_ok n obs circ p0 l Hf Hr) as (Fs & _ & Hcost).
  assert (Q : c' = c2).
  { rewrite Hcost in Ec' by (eapply same_shape_trans; eassumption). rewrite Hcost in Eq by (eapply same_shape_trans; eassumption). injection Ec' as <-. injection Eq as <-.
    f_equal. apply slots_angles. intros j k Hin. assert (Hi : in_shape p j k) by (eapply shape_in; [exact Hp|auto]). rewrite (Aq j k Hi).
    destruct (Hstep j k _ _ Hi (entry_set p j k _ Hi) (entry_set p j k _ Hi)) as (c1 & c3 & E1 & E3 & ->). do 2 f_equal.
    destruct (Hs j k Hi) as (f & Ff & Df). rewrite (Ff _ _ (entry_set p j k _ Hi)) in E1. rewrite (Ff _ _ (entry_set p j k _ Hi)) in E3. injection E1 as <-. injection E3 as <-.
    destruct (one_param n Fs (angles p) l j k Hl Hn) as (al & be & ga & T).
    assert (Tf : forall x, f x = (al + be * cos x + ga * sin x)%R).
    { intros x. rewrite <- T. pose proof (Ff x _ (entry_set p j k x Hi)) as Fx. rewrite (curve_cost n obs circ p0 l Fs Hcost p j k x _ Hp (entry_set p j k x Hi)) in Fx. injection Fx as <-. reflexivity. }
    assert (D2 : is_derive f (angles p j k) (- be * sin (angles p j k) + ga * cos (angles p j k))%R).
    { apply (is_derive_extR (fun x => al + be * cos x + ga * sin x)%R _ _ (- be * sin (angles p j k) + ga * cos (angles p j k))%R); [intros y; symmetry; apply Tf|reflexivity|].
      auto_derive; [exact I|]. match goal with |- ?a = ?b => change (@eq R a b) end. ring. }
    rewrite <- (is_derive_unique _ _ _ Df), (is_derive_unique _ _ _ D2), !Tf, cos_plus, sin_plus, cos_minus, sin_minus, cos_PI2, sin_PI2. match goal with |- ?a = ?b => change (@eq R a b) end. field. }
  subst c2. cbn [INR] in Hd. set (N := all_entries p (fun j k => s j k ^ 2)%R) in *. assert (Nn : (0 <= N)%R) by (apply rsum_nonneg; intros; apply rsum_nonneg; intros; apply pow2_ge_0).
  assert (0 <= eta * (1 - eta * (B * INR (List.length (keys l)) * 1) / 2) * N)%R by (apply Rmult_le_pos; [apply Rmult_le_pos|]; lra). lra.
Qed.

Lemma adapt_rotations n layers : 2 <= n -> incl layers moves -> List.length (keys (adapt_slots n layers)) <= n * List.length layers.
Proof.
  intros Hn Hi. unfold adapt_slots. rewrite keys_app, keys_fixed. cbn [app].
  assert (Hidx : forall b, List.length (brick_idx n b) = List.length (brick_keys n b) /\ NoDup (brick_idx n b) /\ Forall (fun i => i < n) (brick_idx n b)).
  { intros b. destruct (layer_gates_eq n (match b with Single => "X" | _ => "XX" end) b (repeat 0%R n) Hn (repeat_length _ _)) as (_ & H); [destruct b; reflexivity|]. exact H. }
  generalize 0 at 1. clear Hi. induction layers as [|[d b] ls IH]; intros s; cbn [List.length seq combine flat_map]; [cbn; lia|]. rewrite keys_app. cbn [fst snd].
  destruct (Hidx b) as (Lb & Nb & Fb). rewrite (keys_params s d _ _ Lb), app_length, map_length. specialize (IH (S s)).
  assert (List.length (brick_idx n b) <= n).
  { assert (Q : List.length (brick_idx n b) <= List.length (seq 0 n)); [|rewrite seq_length in Q; exact Q]. apply NoDup_incl_length; [exact Nb|]. intros i Hin. apply in_seq. rewrite Forall_forall in Fb. specialize (Fb i Hin). lia. }
  lia.
Qed.

(** While the number of observables times the number of angles (qubits times layers)
    is at most 100, the training of a call does not raise the cost: the returned circuit
    costs at most as much as the circuit with the new layer at its starting angles. *)
Theorem C90_adapt_training : forall n obs eta, Forall (fits n) obs -> Forall pauli_type obs -> (0 <= eta <= 1)%R -> 2 <= n ->
  exists l0, AdaptVQELayer n obs eta = Ok l0 /\ forall p0 l p U, Forall (fun r => List.length r = n) p0 -> adapt_after (layer_optimizer n obs) l0 p0 l p ->
  exists V p' l' c c', adapt_call (layer_optimizer n obs) l U p = Ok (V, p', l') /\
    vqe_cost n obs (circuit_vqe n (ad_layers l')) (p ++ [repeat (/ 10)%R n]) = Ok c /\ exact_cost n obs V = Ok c' /\
    (List.length obs * (n * List.length (ad_layers l')) <= 100 -> (c' <= c)%R).
Proof.
  intros n obs eta Hf Hp He Hn. destruct (C86_adapt_training n obs eta Hf He Hn) as (l0 & E0 & H). exists l0. split; [exact E0|]. intros p0 l p U Hp0 Ha.
  destruct (H p0 l p U Hp0 Ha) as (V & p' & l' & points & cs & c' & E & GL & P0 & Len & Hch & Hc & _ & Hlast & Clast & EV & _).
  destruct (Forall2_nth _ _ _ Hc) as (Lc & Hc'). destruct (Hc' _ _ P0) as (c & Ec & Evc). exists V, p', l', c, c'. split; [exact E|]. split; [exact Evc|]. split; [exact EV|]. intros Hb.
  assert (Inv : adapt_sound n l /\ List.length (ad_layers l) <= List.length p /\ Forall (fun r => List.length r = n) p).
  { destruct (obs_embedded n obs Hf) as (Os & EO & HO). destruct (adapt_init n obs Os eta EO He) as (table & El & Ht). rewrite El in E0. injection E0 as <-.
    clear - Ha Hf Hn Hp0 EO HO Ht El He. set (l0 := mkadapt _ _ _ _ _ _) in *. induction Ha as [|l1 p U' V p' l2 Ha (I1 & I2 & I3) E].
    - split; [eapply adapt_built; eauto|]. split; [cbn; lia|exact Hp0].
    - pose proof (adapt_unitary_call _ n _ _ _ _ _ _ I1 E) as (_ & J & _). split; [exact J|]. assert (En : ad_n l1 = n) by (destruct I1 as (_ & t & _ & _ & ->); reflexivity).
      destruct (adapt_total n obs l1 U' p Hf I1 I2 I3) as (V' & q & l3 & E' & L & F & G). rewrite En, E in E'. injection E' as <- <- <-. split; [lia|exact F]. }
  destruct Inv as (I1 & I2 & I3). pose proof (adapt_unitary_call _ n _ _ _ _ _ _ I1 E) as (_ & (_ & t' & _ & Hi & _) & _).
  set (p1 := p ++ [repeat (/ 10)%R n]) in *.
  destruct (C80_adapt_circuits n (ad_layers l') p1 Hn Hi) as [Hr Hd].
  { unfold p1. rewrite app_length. cbn. lia. }
  { apply Forall_app. split; [exact I3|constructor; [apply repeat_length|constructor]]. }
  pose proof (C90_pauli_bound n obs Hf Hp) as HB. pose proof (adapt_rotations n (ad_layers l') Hn Hi) as Hk.
  assert (Hm : (/ 100 * (INR (List.length obs) * INR (List.length (keys (adapt_slots n (ad_layers l'))))) <= 1)%R).
  { rewrite <- mult_INR. assert (Q : (INR (List.length obs * List.length (keys (adapt_slots n (ad_layers l')))) <= INR 100)%R) by (apply le_INR; nia). replace (INR 100) with 100%R in Q by (rewrite INR_IZR_INZ; reflexivity). lra. }
  assert (All : forall k q, nth_error points k = Some q -> same_shape p1 q /\ forall d, vqe_cost n obs (circuit_vqe n (ad_layers l')) q = Ok d -> (d <= c)%R).
  { induction k as [|k IH]; intros q Eq.
    - rewrite P0 in Eq. injection Eq as <-. split; [reflexivity|]. intros d Ed. rewrite Evc in Ed. injection Ed as <-. lra.
    - destruct (nth_error points k) as [q0|] eqn:E1; [|apply nth_error_None in E1; assert (k < List.length points) by (assert (S k < List.length points) by (apply nth_error_Some; congruence); lia); lia].
      destruct (IH q0 eq_refl) as (S0 & D0). destruct (Hch k q0 q E1 Eq) as (S1 & Hs). split; [eapply same_shape_trans; eassumption|]. intros d Ed.
      destruct (Hc' _ _ E1) as (d0 & _ & Ed0). apply (Rle_trans _ d0); [|apply D0; exact Ed0].
      eapply (shift_step_le n obs _ p1 _ _ (/ 100)%R q0 q); try eassumption. lra. }
  apply (proj2 (All _ _ Hlast)). destruct (Hc' _ _ Hlast) as (d & Ed & Evd). rewrite <- Lc in Clast. pose proof (eq_trans (eq_sym Clast) Ed) as Q. injection Q as <-. exact Evd.
Qed.
Print Assumptions C90_adapt_training.

Example C90_case : Forall (fits 1) [z_obs] /\ Forall pauli_type [z_obs] /\ rotation_circuit 1 rx_circ [[/ 3]]%R rx_slots /\ NoDup (keys rx_slots) /\
  ps_accepts [("eta"%string, PyFloat (Fin 1))] /\ (the_eta [("eta"%string, PyFloat (Fin 1))] * (INR (List.length [z_obs]) * INR (List.length (keys rx_slots))) <= 1)%R /\
  cost_slope 1 [z_obs] rx_circ [[/ 3]]%R 0 0 (- sin (/ 3)) /\ (- sin (/ 3) <> 0)%R.
Proof.
  destruct C80_case as (H1 & H2 & H3 & _ & H5 & H6 & _). split; [exact H1|]. split; [constructor; [apply z_obs_pauli|constructor]|]. split; [exact H2|]. split; [exact H3|].
  split; [|split; [unfold the_eta; cbn; lra|split; [exact H5|exact H6]]].
  split; [intros v E; discriminate|]. split; [intros v E; injection E as <-; exists 1%R; split; [reflexivity|lra]|].
  split; [intros v E; discriminate|]. intros name [<-|[<-|[]]] v E; discriminate.
Qed.

(** the third call of a layer on three qubits *)
Example C90_adapt_case : Forall (fits 3) [z_obs] /\ Forall pauli_type [z_obs] /\ exists l0 l p V p' l', AdaptVQELayer 3 [z_obs] 1 = Ok l0 /\
  adapt_after (layer_optimizer 3 [z_obs]) l0 [] l p /\ adapt_call (layer_optimizer 3 [z_obs]) l mid p = Ok (V, p', l') /\ List.length (ad_layers l') = 3 /\ 1 * (3 * List.length (ad_layers l')) <= 100.
Proof.
  assert (Hf : Forall (fits 3) [z_obs]) by (repeat constructor; simpl; try discriminate; auto; lia). assert (He : (0 <= 1 <= 1)%R) by lra.
  split; [exact Hf|]. split; [constructor; [apply z_obs_pauli|constructor]|]. destruct (C86_adapt_training 3 [z_obs] 1 Hf He ltac:(lia)) as (l0 & E0 & H).
  assert (L0 : ad_layers l0 = []).
  { destruct (mapM_full 3 [z_obs] Hf) as (Fs & EF & _). destruct (adapt_init 3 [z_obs] Fs 1 EF He) as (t & E & _). rewrite E0 in E. injection E as ->. reflexivity. }
  destruct (H [] l0 [] mid (Forall_nil _) (adapt_start _ _ _)) as (V1 & p1 & l1 & _ & _ & _ & E1 & L1 & _).
  assert (A1 : adapt_after (layer_optimizer 3 [z_obs]) l0 [] l1 p1) by (eapply adapt_step; [apply adapt_start|exact E1]).
  destruct (H [] l1 p1 V1 (Forall_nil _) A1) as (V2 & p2 & l2 & _ & _ & _ & E2 & L2 & _).
  assert (A2 : adapt_after (layer_optimizer 3 [z_obs]) l0 [] l2 p2) by (eapply adapt_step; [exact A1|exact E2]).
  destruct (H [] l2 p2 mid (Forall_nil _) A2) as (V3 & p3 & l3 & _ & _ & _ & E3 & L3 & _).
  assert (L : List.length (ad_layers l3) = 3) by (rewrite L3, L2, L1, L0; reflexivity).
  exists l0, l2, p2, V3, p3, l3. split; [exact E0|]. split; [exact A2|]. split; [exact E3|]. split; [exact L|]. rewrite L. lia.
Qed.
