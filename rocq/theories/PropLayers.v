(** Properties C41-C45 and the first part of C52: the Local, Custom and
    Stochastic Lie algebra layers of oranssi/opt_tools.py. *)
From Coq Require Import Arith Lia Bool String Sorted Reals Lra Ring Setoid Morphisms.
From Coquelicot Require Import Coquelicot.
From Verif Require Import Py StarRing Matrix Cplx PauliSpec Bits PauliBasis Expm UtilsModel UtilsProofs CircuitModel CircuitProofs CircuitProofs2
  AlgebraModel AlgebraProofs LayerModel LayerProofs LayerProofs2.
From Verif Require PropCircuit.
From Coq Require Import List.
Import ListNotations.
Local Open Scope nat_scope.

(** ** Specification *)

(** an observable with a matrix of the right size on distinct wires of the device *)
Definition fits (n : nat) (o : qop C) : Prop :=
  q_wires o <> [] /\ NoDup (q_wires o) /\ Forall (fun w => w < n) (q_wires o) /\
  a_rows (q_matrix o) = 2 ^ List.length (q_wires o) /\ a_cols (q_matrix o) = 2 ^ List.length (q_wires o).
Definition hermitian_obs (o : qop C) : Prop := hermitian (2 ^ List.length (q_wires o)) (a_ent (q_matrix o)).

(** the documented direction names *)
Definition su2_list : list string := ["X"; "Y"; "Z"]%string.
Definition su4_list : list string := ["XX"; "XY"; "XZ"; "YX"; "YY"; "YZ"; "ZX"; "ZY"; "ZZ"]%string.

(** [F] is the matrix of the word spelled [d] on the qubits [q]: that of the
    n-letter word with the letter d_i at q_i and the identity elsewhere *)
Definition word_operator (n : nat) (d : string) (q : list nat) (F : arr C) : Prop :=
  forall w v, d = word_name w -> Forall (fun g => 1 <= g <= 3) w -> List.length v = n ->
    (forall i, i < List.length w -> nth (nth i q 0) v 0 = nth i w 0) ->
    (forall p, p < n -> ~ In p q -> nth p v 0 = 0) ->
    a_rows F = 2 ^ n /\ a_cols F = 2 ^ n /\ meq (2 ^ n) (a_ent F) (pword v).

(** [F] acts as the matrix of [o] on the wires of [o] and as the identity on the
    other wires of the device *)
Definition embedded (n : nat) (o : qop C) (F : arr C) : Prop :=
  let ws := q_wires o in
  a_rows F = 2 ^ n /\ a_cols F = 2 ^ n /\
  forall r c, r < 2 ^ n -> c < 2 ^ n ->
    ((exists v, v < n /\ ~ In v ws /\ PropCircuit.wire_bit n v r <> PropCircuit.wire_bit n v c) -> a_ent F r c = RtoC 0) /\
    ((forall v, v < n -> ~ In v ws -> PropCircuit.wire_bit n v r = PropCircuit.wire_bit n v c) ->
     forall a b, a < 2 ^ List.length ws -> b < 2 ^ List.length ws ->
       (forall i, i < List.length ws -> PropCircuit.wire_bit (List.length ws) i a = PropCircuit.wire_bit n (nth i ws 0) r) ->
       (forall i, i < List.length ws -> PropCircuit.wire_bit (List.length ws) i b = PropCircuit.wire_bit n (nth i ws 0) c) ->
       a_ent F r c = a_ent (q_matrix o) a b).

(** the increasing tuples of k qubits *)
Definition qubit_tuple (n k : nat) (q : list nat) : Prop :=
  List.length q = k /\ StronglySorted lt q /\ Forall (fun x => x < n) q.

(** np.linalg.svd returns singular value decompositions of unitary matrices *)
Definition svd_correct (svd : svd_fun) : Prop := forall d M, unitary2 d M ->
  let '(P, s, Q) := svd d M in
  unitary2 d P /\ unitary2 d Q /\ (forall i, i < d -> (0 <= s i)%R) /\
  meq d M (mmul d P (mmul d (fun i j => if Nat.eqb i j then RtoC (s i) else RtoC 0) Q)).

Lemma key_ok_word n d q F : key_ok (K := C) n ((d, q), F) -> word_operator n d q F.
Proof.
  intros (u & Eu & Hu & Hq & _ & R1 & R2 & M) w v Ew Hw Hv Hin Hout.
  cbn [fst snd] in *. split; [auto|]. split; [auto|]. rewrite M.
  assert (E' : w = up u).
  { apply word_name_inj; [eapply Forall_impl; [|exact Hw]; simpl; intros; lia| |rewrite <- Ew; exact Eu].
    apply Forall_forall. intros g Hg. apply in_map_iff in Hg. destruct Hg as (x & <- & Hx).
    rewrite Forall_forall in Hu. specialize (Hu x Hx). lia. }
  assert (Hok : wires_ok n q) by (eapply qtuple_wires; eauto).
  assert (Hlq : List.length q = List.length u) by apply Hq.
  rewrite emb_pword by (auto; rewrite up_length; auto).
  assert (E : place n q (up u) = v).
  { apply (nth_ext _ _ 0 0); [rewrite place_length; auto|]. intros p Hp. rewrite place_length in Hp.
    rewrite nth_place by auto. destruct (index_of p q) as [i|] eqn:Ei.
    - apply index_of_Some in Ei. rewrite <- E'. assert (Hi' : i < List.length w).
      { rewrite E', up_length, <- Hlq. apply nth_error_Some. congruence. }
      rewrite <- (Hin i Hi'). f_equal. apply nth_error_nth; auto.
    - apply index_of_None in Ei. symmetry. apply Hout; auto. }
  rewrite E. reflexivity.
Qed.

Lemma full_embedded n obs Fs : Forall (fits n) obs -> mapM (CircuitModel.full n) obs = Ok Fs -> Forall2 (embedded n) obs Fs.
Proof.
  intros Hf. revert Fs. induction Hf as [|o obs Ho Hf IH]; intros Fs E; simpl in E; [injection E as <-; constructor|].
  destruct (CircuitModel.full n o) as [F|] eqn:EF; [|discriminate]. cbn [bind] in E.
  destruct (mapM _ obs) as [Fs'|] eqn:EM; [|discriminate]. injection E as <-. constructor; [|apply IH; auto].
  destruct Ho as (H1 & H2 & H3 & H4 & H5).
  destruct (PropCircuit.C32_full_operator_entries C CStar n (q_wires o) (q_matrix o) H1 H2 H3 H4 H5) as (F' & EF' & R1 & R2 & HF).
  unfold CircuitModel.full in EF. rewrite EF' in EF. injection EF as <-. split; [exact R1|]. split; [exact R2|]. exact HF.
Qed.

Lemma kept_keys n ds (full : list (key * arr C)) : incl ds (su2_list ++ su4_list) -> map fst full = all_keys n [1; 2] ->
  NoDup (map fst (kept ds full)) /\
  (forall d q, In (d, q) (map fst (kept ds full)) <-> In d ds /\ qubit_tuple n (String.length d) q).
Proof.
  intros Hd Ek. split.
  - apply (NoDup_filter_fst (A := key)). change (NoDup (map (B := key) fst full)). rewrite Ek. apply all_keys_NoDup. repeat constructor; simpl; lia.
  - intros d q. transitivity (In d ds /\ In ((d, q) : key) (map fst full)).
    + split.
      * intros Hin. apply in_map_iff in Hin. destruct Hin as ([k F] & E & Hin). cbn [fst] in E. subst k. apply filter_In in Hin. destruct Hin as [Hin Hs].
        apply str_in_spec in Hs. split; auto. apply (in_map fst _ _ Hin).
      * intros [Hds Hin]. apply in_map_iff in Hin. destruct Hin as ([k F] & E & Hin). cbn [fst] in E. subst k. apply in_map_iff. exists ((d, q), F).
        split; auto. apply filter_In. split; auto. apply str_in_spec; auto.
    + rewrite Ek, all_keys_In. split.
      * intros [Hds (w & Hw & -> & Hq)]. split; auto. unfold wname. rewrite word_name_length, up_length. exact Hq.
      * intros [Hds Hq]. split; auto. specialize (Hd d Hds). change (In d (wnames [1; 2])) in Hd. unfold wnames in Hd.
        apply in_map_iff in Hd. destruct Hd as (w & <- & Hw). exists w. split; auto. split; auto.
        unfold wname in Hq. rewrite word_name_length, up_length in Hq. exact Hq.
Qed.

(** ** C41: refuted, every call raises *)
Theorem C41_stochastic_step_refuted : forall n obs eta check, Forall (fits n) obs -> (0 <= eta <= 1)%R ->
  exists l, StochasticLieAlgebraLayer n obs eta check = Ok l /\
    forall svd U, stochastic_call svd l U = Err NotImplementedError.
Proof.
  intros n obs eta check Hf He. destruct (mapM_full n obs Hf) as (Fs & EF & _).
  eexists. unfold StochasticLieAlgebraLayer. rewrite EF. cbn [bind].
  assert (E1 : Rleb 0 eta && Rleb eta 1 = true) by (apply andb_true_iff; rewrite !Rleb_true; auto). rewrite E1. cbn [py_assert bind].
  rewrite AlgebraSU4_eq. cbn [bind]. split; [reflexivity|]. reflexivity.
Qed.
Print Assumptions C41_stochastic_step_refuted.

Definition two_obs : list (qop C) := [mkqop lit_Z [0]; mkqop lit_X [1]].
Lemma two_obs_fit : Forall (fits 2) two_obs.
Proof. repeat constructor; simpl; try discriminate; auto; lia. Qed.
Lemma two_obs_herm : Forall hermitian_obs two_obs.
Proof.
  repeat constructor; intros i j Hi Hj; simpl in Hi, Hj; (destruct i as [|[|i]]; [| |lia]); (destruct j as [|[|j]]; [| |lia]);
      unfold madj; simpl; apply C_ext; simpl; ring.
Qed.
Example C41_case : Forall (fits 2) two_obs /\ (0 <= 1 / 10 <= 1)%R.
Proof. split; [apply two_obs_fit|lra]. Qed.

(** ** C42 *)
Lemma chosen_nonempty k ds : k = 1 \/ k = 2 -> ds <> Some [] ->
  match ds with None => True | Some l => forall d, In d l -> In d (wnames [k]) end -> chosen k ds <> [].
Proof.
  intros Hk Hne Hd. destruct ds as [[|d l]|].
  - congruence.
  - assert (H : In d (wnames [k])) by (apply Hd; left; auto). rewrite wnames_1 in H. apply in_map_iff in H.
    destruct H as (w & <- & Hw). intros E. assert (Hin : In w (chosen k (Some (wname w :: l)))).
    { apply filter_In. split; auto. apply str_in_spec. left; auto. }
    rewrite E in Hin. inversion Hin.
  - destruct Hk as [-> | ->]; discriminate.
Qed.

Lemma args_names locality (l : list string) : locality = 1 \/ locality = 2 ->
  wnames [locality] = if locality =? 1 then su2_list else su4_list.
Proof. intros [-> | ->]; reflexivity. Qed.

(** the documented arguments *)
Definition good_args (n locality : nat) (eta : R) (stride : nat) (ds : option (list string)) : Prop :=
  (0 <= eta <= 1)%R /\ (locality = 1 \/ locality = 2) /\ (locality = 2 -> Nat.Even n /\ (stride = 0 \/ stride = 1)) /\
  match ds with None => True | Some l => incl l (if locality =? 1 then su2_list else su4_list) end.

Lemma good_args_ok n locality eta stride ds : good_args n locality eta stride ds <-> local_args_ok n locality eta stride ds.
Proof.
  unfold good_args, local_args_ok. split; intros (H1 & H2 & H3 & H4); (split; [exact H1|]; split; [exact H2|]; split).
  - intros Hl. destruct (H3 Hl) as [Hev Hs]. split; auto. apply Nat.even_spec; auto.
  - destruct ds as [l|]; auto. rewrite (args_names locality l H2). exact H4.
  - intros Hl. destruct (H3 Hl) as [Hev Hs]. split; auto. apply Nat.even_spec; auto.
  - destruct ds as [l|]; auto. rewrite (args_names locality l H2) in H4. exact H4.
Qed.

Theorem C42_local_layer_unitary : forall n obs locality eta stride ds check trot,
  Forall (fits n) obs -> Forall hermitian_obs obs -> good_args n locality eta stride ds -> trot = true \/ ds <> Some [] ->
  exists l, LocalLieAlgebraLayer n obs locality eta stride ds check trot = Ok l /\
    forall svd, svd_correct svd -> forall (eta' : R) U, unitary2 (2 ^ n) U ->
      exists V, local_call svd (local_set_eta l eta') U = Ok V /\ unitary2 (2 ^ n) V.
Proof.
  intros n obs locality eta stride ds check trot Hf Hh Ha Ht. apply good_args_ok in Ha.
  destruct (obs_full n obs Hf Hh) as (Fs & EF & _ & HF).
  destruct (local_init n obs Fs locality eta stride ds check trot EF Ha) as (gs & El & Hg). eexists. split; [exact El|].
  intros svd Hs eta' U HU.
  destruct (call_spec svd check trot n eta' (qnode_state U) Fs gs Hs HF (groups_hermitian _ _ _ _ Hg)) with (U := U) (W := U) as (V & EV & M).
  - destruct Ht as [Ht|Ht]; [left; auto|]. right. eapply groups_nonempty; [|exact Hg].
    destruct Ha as (_ & H2 & _ & H4). apply chosen_nonempty; auto.
  - reflexivity.
  - exists V. split; [exact EV|]. eapply unitary2_proper; [symmetry; exact M|]. apply apply_gens_unitary; auto.
    apply all_gens_anti; auto. eapply groups_hermitian; eauto.
Qed.
Print Assumptions C42_local_layer_unitary.

Lemma kept_nonempty n ds (items : list (key * arr C)) d : map fst items = all_keys n [1; 2] -> incl ds (su2_list ++ su4_list) ->
  In d ds -> String.length d <= n -> map snd (kept ds items) <> [].
Proof.
  intros Ek Hd Hin Hl E.
  assert (Hw : exists w, d = wname w /\ In w (wwords [1; 2])).
  { specialize (Hd d Hin). change (su2_list ++ su4_list) with (wnames [1; 2]) in Hd. apply in_map_iff in Hd.
    destruct Hd as (w & <- & Hw). eauto. }
  destruct Hw as (w & -> & Hw). unfold wname in Hl. rewrite word_name_length, up_length in Hl.
  assert (Hkey : In ((wname w, seq 0 (List.length w)) : key) (map fst items)).
  { rewrite Ek. apply all_keys_In. exists w. split; [auto|]. split; [auto|].
    split; [apply seq_length|]. split; [apply seq_sorted|]. apply Forall_forall. intros x Hx. apply in_seq in Hx. lia. }
  apply in_map_iff in Hkey. destruct Hkey as ([k F] & E2 & Hkey). cbn [fst] in E2. subst k.
  assert (Hkin : In ((wname w, seq 0 (List.length w)) : key, F) (kept ds items)).
  { apply filter_In. split; auto. apply str_in_spec. auto. }
  apply map_eq_nil in E. rewrite E in Hkin. inversion Hkin.
Qed.

Theorem C42_custom_layer_unitary : forall n obs ds eta check trot,
  Forall (fits n) obs -> Forall hermitian_obs obs -> (0 <= eta <= 1)%R -> incl ds (su2_list ++ su4_list) ->
  trot = true \/ obs = [] \/ (exists d, In d ds /\ String.length d <= n) ->
  exists l, CustomDirectionLieAlgebraLayer n obs (Some ds) eta check trot = Ok l /\
    forall svd, svd_correct svd -> forall (eta' : R) U, unitary2 (2 ^ n) U ->
      exists V, custom_call svd (custom_set_eta l eta') U = Ok V /\ unitary2 (2 ^ n) V.
Proof.
  intros n obs ds eta check trot Hf Hh He Hd Ht.
  destruct (obs_full n obs Hf Hh) as (Fs & EF & _ & HF).
  destruct (custom_items n) as (items & Ei & Ek & Hk).
  rewrite (custom_init n obs Fs eta (Some ds) check trot items Ei Ek EF He).
  assert (E1 : forallb (fun d => str_in d (wnames [1; 2])) ds = true).
  { apply forallb_forall. intros d Hin. apply str_in_spec. apply Hd; auto. }
  rewrite E1. eexists. split; [reflexivity|]. intros svd Hs eta' U HU. unfold custom_set_eta.
  cbn [cu_n cu_check cu_trotterize cu_directions cu_full_paulis cu_observables]. rewrite custom_call_eq.
  assert (HG : Forall (Forall (fun P => hermitian (2 ^ n) (a_ent P))) [map snd (kept ds items)]).
  { constructor; auto. apply kept_hermitian; auto. }
  assert (Hcase : Fs = [] \/ (trot = true \/ Forall (fun g => g <> []) [map snd (kept ds items)])).
  { destruct Ht as [Ht|[Ho|(d & Hin & Hl)]]; [right; left; auto| |].
    - left. rewrite Ho in EF. cbn [mapM] in EF. congruence.
    - right; right. constructor; [|constructor]. eapply kept_nonempty; eauto. }
  destruct Hcase as [-> | Hcase].
  - exists U. split; [reflexivity|auto].
  - destruct (call_spec svd check trot n eta' (qnode_state U) Fs [map snd (kept ds items)] Hs HF HG Hcase) with (U := U) (W := U) as (V & EV & M); [reflexivity|].
    exists V. split; [exact EV|]. eapply unitary2_proper; [symmetry; exact M|]. apply apply_gens_unitary; auto.
    apply all_gens_anti; auto.
Qed.
Print Assumptions C42_custom_layer_unitary.

(** a correct svd of unitary matrices, and arguments meeting the hypotheses *)
Definition svd_trivial : svd_fun := fun d M => (M, fun _ => 1%R, mid).
Lemma svd_trivial_correct : svd_correct svd_trivial.
Proof.
  intros d M HM. unfold svd_trivial. split; [auto|]. split; [apply unitary2_id|]. split; [intros; lra|].
  transitivity (mmul d M mid); [symmetry; apply mmul_1_r|]. apply mmul_proper; [reflexivity|].
  transitivity (mmul d (mid (K := C)) mid); [symmetry; apply mmul_1_l|]. apply mmul_proper; [|reflexivity].
  intros i j _ _. unfold mid. destruct (i =? j); reflexivity.
Qed.
Example C42_case : Forall (fits 2) two_obs /\ Forall hermitian_obs two_obs /\
  good_args 2 2 (1 / 10) 0 (Some ["ZY"; "XX"]%string) /\ incl ["ZY"; "X"]%string (su2_list ++ su4_list) /\
  svd_correct svd_trivial /\ unitary2 (2 ^ 2) (mid (K := C)).
Proof.
  split; [apply two_obs_fit|]. split; [apply two_obs_herm|]. split; [|split; [|split; [apply svd_trivial_correct|apply unitary2_id]]].
  - split; [lra|]. split; [auto|]. split; [intros _; split; [exists 1; reflexivity|auto]|].
    intros d Hd. simpl in Hd. simpl. intuition.
  - intros d Hd. simpl in Hd. simpl. intuition.
Qed.

(** ** C43: refuted. A matrix that fails the test comes back unchanged. *)
Theorem C43_unitary_repair_refuted : exists (d : nat) (M : mat C), ~ unitary2 d M /\ is_unitary d M = false /\
  forall svd, checked_step svd true d M = M.
Proof.
  exists 1, (fun _ _ => RtoC 2).
  assert (E : is_unitary 1 (fun _ _ => RtoC 2) = false).
  { unfold is_unitary. cbn [seq forallb]. rewrite !andb_true_r. unfold Rleb. destruct (Rle_dec _ _) as [H|]; auto. exfalso.
    revert H. unfold msub, mmul, madj, mid. cbn [seq Nat.eqb]. rewrite lsum_cons, lsum_nil. cbn [ksub kadd kmul kconj k0 k1 CStar].
    replace (Cminus (Cplus (Cmult (RtoC 2) (Cconj (RtoC 2))) (RtoC 0)) (RtoC 1)) with (RtoC 3) by (apply C_ext; simpl; ring).
    rewrite Cmod_R. rewrite Rabs_right by lra. assert (0 < 10 ^ 8)%R by (apply pow_lt; lra).
    assert (/ 10 ^ 8 < 1)%R. { rewrite <- Rinv_1. apply Rinv_lt_contravar; lra. } lra. }
  split; [|split; [exact E|]].
  - intros HU. rewrite is_unitary_true in E by auto. discriminate.
  - intros svd. unfold checked_step. rewrite E. reflexivity.
Qed.
Print Assumptions C43_unitary_repair_refuted.

(** What holds instead: a step that passes the test is replaced by the unitary
    factor of its decomposition; missing is the repair of steps that fail it. *)
Theorem C43_projection_partial : forall (svd : svd_fun) d M P s Q, svd d M = (P, s, Q) -> unitary2 d P -> unitary2 d Q ->
  is_unitary d M = true -> checked_step svd true d M = mmul d P Q /\ unitary2 d (checked_step svd true d M).
Proof.
  intros svd d M P s Q E HP HQ HM. unfold checked_step, project_onto_unitary. rewrite HM, E. cbn [andb].
  split; [reflexivity|]. apply unitary2_mul; auto.
Qed.
Print Assumptions C43_projection_partial.
Example C43_case : svd_trivial 2 mid = (mid, (fun _ => 1%R), mid) /\ is_unitary 2 (mid (K := C)) = true.
Proof. split; [reflexivity|]. apply is_unitary_true, unitary2_id. Qed.

(** ** C44 *)
Definition requested (ds : option (list string)) (all : list string) : list string :=
  match ds with None => all | Some l => filter (fun d => if in_dec string_dec d l then true else false) all end.

Lemma chosen_names k ds : k = 1 \/ k = 2 -> map wname (chosen k ds) = requested ds (if k =? 1 then su2_list else su4_list).
Proof.
  intros Hk. rewrite <- (args_names k [] Hk), wnames_1. destruct ds as [l|]; [|reflexivity]. cbn [chosen requested].
  rewrite filter_map_comm. f_equal. apply filter_ext. intros w. destruct (in_dec string_dec (wname w) l) as [H|H].
  - apply str_in_spec; auto.
  - apply not_true_is_false. rewrite str_in_spec. auto.
Qed.

Theorem C44_local_directions : forall n obs locality eta stride ds check trot, Forall (fits n) obs ->
  (good_args n locality eta stride ds -> exists l qs,
     LocalLieAlgebraLayer n obs locality eta stride ds check trot = Ok l /\
     lc_directions l = requested ds (if locality =? 1 then su2_list else su4_list) /\
     NoDup qs /\ (forall q, In q qs <-> qubit_tuple n locality q) /\
     Forall2 (fun q g => Forall2 (fun d F => word_operator n d q F) (lc_directions l) g) qs (lc_full_paulis l)) /\
  (~ good_args n locality eta stride ds ->
     LocalLieAlgebraLayer n obs locality eta stride ds check trot = Err AssertionError).
Proof.
  intros n obs locality eta stride ds check trot Hf. destruct (mapM_full n obs Hf) as (Fs & EF & _). split; intros Ha.
  - pose proof Ha as Hg. apply good_args_ok in Ha.
    destruct (local_init n obs Fs locality eta stride ds check trot EF Ha) as (gs & El & Hgs).
    eexists _, (combinations (seq 0 n) locality). split; [exact El|]. cbn [lc_directions lc_full_paulis].
    split; [apply chosen_names; apply Hg|]. split; [apply combinations_NoDup, seq_NoDup|].
    split; [intros q; apply comb_seq|]. clear - Hgs. induction Hgs as [|q g qs gs Hqg _ IH]; constructor; [|exact IH].
    clear - Hqg. unfold group_ok in Hqg. induction Hqg; cbn [map]; constructor; auto. apply key_ok_word; auto.
  - apply (local_reject n obs Fs); auto. rewrite <- good_args_ok. auto.
Qed.
Print Assumptions C44_local_directions.

Theorem C44_custom_directions : forall n obs ds eta check trot, Forall (fits n) obs -> (0 <= eta <= 1)%R ->
  (incl ds (su2_list ++ su4_list) -> exists l,
     CustomDirectionLieAlgebraLayer n obs (Some ds) eta check trot = Ok l /\
     NoDup (cu_directions l) /\
     (forall d q, In (d, q) (cu_directions l) <-> In d ds /\ qubit_tuple n (String.length d) q) /\
     map fst (cu_full_paulis l) = cu_directions l /\
     (forall d q o, In ((d, q), o) (cu_full_paulis l) -> exists F, o = OMat F /\ word_operator n d q F)) /\
  (~ incl ds (su2_list ++ su4_list) -> CustomDirectionLieAlgebraLayer n obs (Some ds) eta check trot = Err AssertionError).
Proof.
  intros n obs ds eta check trot Hf He. destruct (mapM_full n obs Hf) as (Fs & EF & _).
  destruct (custom_items n) as (items & Ei & Ek & Hk).
  rewrite (custom_init n obs Fs eta (Some ds) check trot items Ei Ek EF He).
  split; intros Hd.
  - assert (E1 : forallb (fun d => str_in d (wnames [1; 2])) ds = true).
    { apply forallb_forall. intros d Hin. apply str_in_spec. apply Hd; auto. }
    rewrite E1. eexists. split; [reflexivity|]. cbn [cu_directions cu_full_paulis].
    destruct (kept_keys n ds items Hd Ek) as [K1 K2]. split; [exact K1|]. split; [exact K2|]. split.
    + rewrite map_map. reflexivity.
    + intros d q o Hin. apply in_map_iff in Hin. destruct Hin as ([k F] & E & Hkept). cbn [fst snd] in E. injection E as -> <-.
      exists F. split; auto. apply filter_In in Hkept. rewrite Forall_forall in Hk. apply key_ok_word. apply Hk. tauto.
  - destruct (forallb _ ds) eqn:E1; [|reflexivity]. exfalso. apply Hd. intros d Hin. rewrite forallb_forall in E1.
    specialize (E1 d Hin). apply str_in_spec in E1. exact E1.
Qed.
Print Assumptions C44_custom_directions.

(** Refuted for the custom layer without a directions argument: it stores names
    instead of operators and every call raises. *)
Theorem C44_custom_default_refuted : forall n obs eta check trot, Forall (fits n) obs -> obs <> [] -> (0 <= eta <= 1)%R ->
  exists l, CustomDirectionLieAlgebraLayer n obs None eta check trot = Ok l /\
    forall svd U, custom_call svd l U = Err TypeError.
Proof.
  intros n obs eta check trot Hf Hne He. destruct (mapM_full n obs Hf) as (Fs & EF & HF).
  destruct (custom_items n) as (items & Ei & Ek & Hk).
  rewrite (custom_init n obs Fs eta None check trot items Ei Ek EF He). eexists. split; [reflexivity|].
  intros svd U. unfold custom_call. cbn [cu_full_paulis cu_check cu_trotterize cu_n cu_eta cu_observables].
  destruct HF as [|F o Fs obs]; [congruence|]. cbn [foldM].
  assert (Hn : 0 < n). { inversion Hf as [|? ? (Hw & _ & Hlt & _) _]; subst. destruct (q_wires o) as [|w ws]; [congruence|]. inversion Hlt; subst. lia. }
  assert (Hx : In ("X"%string, [0]) (map fst items)).
  { rewrite Ek. apply all_keys_In. exists [0]. split; [simpl; auto|]. split; [reflexivity|]. split; [reflexivity|].
    split; repeat constructor. auto. }
  destruct items as [|[k P] items]; [inversion Hx|]. reflexivity.
Qed.
Print Assumptions C44_custom_default_refuted.
Example C44_case : requested (Some ["ZY"; "XX"; "ZY"]%string) su4_list = ["XX"; "ZY"]%string /\ two_obs <> [].
Proof. split; [reflexivity|discriminate]. Qed.

(** ** C45. [x] is the state before the step, [H] the sum of the observables. *)
Theorem C45_local_descent : forall n obs locality eta stride ds check trot,
  Forall (fits n) obs -> Forall hermitian_obs obs -> good_args n locality eta stride ds -> trot = true \/ ds <> Some [] ->
  exists l Os qs gs, LocalLieAlgebraLayer n obs locality eta stride ds check trot = Ok l /\
    Forall2 (embedded n) obs Os /\ NoDup qs /\ (forall q, In q qs <-> qubit_tuple n locality q) /\
    Forall2 (fun q g => Forall2 (fun d P => word_operator n d q P) (requested ds (if locality =? 1 then su2_list else su4_list)) g) qs gs /\
    forall svd, svd_correct svd -> forall U, exists F : R -> mat C,
      (forall e, local_call svd (local_set_eta l e) U = Ok (F e)) /\
      let x := qnode_state U in
      let H := msum a_ent Os in
      let direction P := Im (quad (2 ^ n) x (msub (mmul (2 ^ n) P H) (mmul (2 ^ n) H P))) in
      is_derive (fun e => rsum (fun O => qnode_expval n (F e) (a_ent O)) Os) 0%R
        (- (rsum (fun P => direction (a_ent P) ^ 2) (List.concat gs)) / 2 ^ n)%R.
Proof.
  intros n obs locality eta stride ds check trot Hf Hh Ha Ht. apply good_args_ok in Ha.
  destruct (obs_full n obs Hf Hh) as (Fs & EF & _ & HF).
  destruct (local_init n obs Fs locality eta stride ds check trot EF Ha) as (gs & El & Hg).
  eexists _, Fs, (combinations (seq 0 n) locality), gs. split; [exact El|]. split; [apply full_embedded; auto|].
  split; [apply combinations_NoDup, seq_NoDup|]. split; [intros q; apply comb_seq|]. split.
  { rewrite <- chosen_names by apply Ha. clear - Hg. induction Hg as [|q g qs gs Hqg _ IH]; constructor; [|exact IH].
    clear - Hqg. unfold group_ok in Hqg. induction Hqg; cbn [map]; constructor; auto. apply key_ok_word; auto. }
  intros svd Hs U.
  assert (Hc : forall e, exists V, local_call svd (mklocal n locality (if locality =? 2 then stride else 0) e check trot (map wname (chosen locality ds)) Fs gs) U = Ok V /\
    meq (2 ^ n) V (apply_gens (2 ^ n) (RtoC (- e / 2 ^ n)) (all_gens (2 ^ n) trot (qnode_state U) Fs gs) U)).
  { intros e. apply (call_spec svd check trot n e (qnode_state U) Fs gs Hs HF (groups_hermitian _ _ _ _ Hg)); [|reflexivity].
    destruct Ht as [Ht|Ht]; [left; auto|]. right. eapply groups_nonempty; [|exact Hg].
    destruct Ha as (_ & H2 & _ & H4). apply chosen_nonempty; auto. }
  exists (fun e => match local_call svd (local_set_eta (mklocal n locality (if locality =? 2 then stride else 0) eta check trot (map wname (chosen locality ds)) Fs gs) e) U with Ok V => V | Err _ => U end).
  split.
  - intros e. unfold local_set_eta. cbn [lc_n lc_locality lc_stride lc_check lc_trotterize lc_directions lc_observables lc_full_paulis].
    destruct (Hc e) as (V & E & _). rewrite E. reflexivity.
  - cbv zeta. cbn [lc_observables lc_full_paulis]. apply (layer_der n trot Fs gs U _ HF (groups_hermitian _ _ _ _ Hg)).
    intros e. unfold local_set_eta. cbn [lc_n lc_locality lc_stride lc_check lc_trotterize lc_directions lc_observables lc_full_paulis].
    destruct (Hc e) as (V & E & M). rewrite E. exact M.
Qed.
Print Assumptions C45_local_descent.

Theorem C45_custom_descent : forall n obs ds eta check trot,
  Forall (fits n) obs -> Forall hermitian_obs obs -> (0 <= eta <= 1)%R -> incl ds (su2_list ++ su4_list) ->
  trot = true \/ (exists d, In d ds /\ String.length d <= n) ->
  exists l Os ks Ps, CustomDirectionLieAlgebraLayer n obs (Some ds) eta check trot = Ok l /\
    Forall2 (embedded n) obs Os /\ NoDup ks /\ (forall d q, In (d, q) ks <-> In d ds /\ qubit_tuple n (String.length d) q) /\
    Forall2 (fun k P => word_operator n (fst k) (snd k) P) ks Ps /\
    forall svd, svd_correct svd -> forall U, exists F : R -> mat C,
      (forall e, custom_call svd (custom_set_eta l e) U = Ok (F e)) /\
      let x := qnode_state U in
      let H := msum a_ent Os in
      let direction P := Im (quad (2 ^ n) x (msub (mmul (2 ^ n) P H) (mmul (2 ^ n) H P))) in
      is_derive (fun e => rsum (fun O => qnode_expval n (F e) (a_ent O)) Os) 0%R
        (- (rsum (fun P => direction (a_ent P) ^ 2) Ps) / 2 ^ n)%R.
Proof.
  intros n obs ds eta check trot Hf Hh He Hd Ht.
  destruct (obs_full n obs Hf Hh) as (Fs & EF & _ & HF).
  destruct (custom_items n) as (items & Ei & Ek & Hk).
  rewrite (custom_init n obs Fs eta (Some ds) check trot items Ei Ek EF He).
  assert (E1 : forallb (fun d => str_in d (wnames [1; 2])) ds = true).
  { apply forallb_forall. intros d Hin. apply str_in_spec. apply Hd; auto. }
  rewrite E1. destruct (kept_keys n ds items Hd Ek) as [K1 K2].
  eexists _, Fs, (map fst (kept ds items)), (map snd (kept ds items)). split; [reflexivity|]. split; [apply full_embedded; auto|].
  split; [exact K1|]. split; [exact K2|]. split.
  { clear - Hk. assert (H : Forall (key_ok (K := C) n) (kept ds items)).
    { apply Forall_forall. intros x Hx. apply filter_In in Hx. rewrite Forall_forall in Hk. apply Hk. tauto. }
    induction H as [|[[d q] F] l Hx _ IH]; cbn [map]; constructor; auto. apply key_ok_word; auto. }
  intros svd Hs U. unfold custom_set_eta.
  cbn [cu_n cu_check cu_trotterize cu_directions cu_full_paulis cu_observables].
  set (Ps := map snd (kept ds items)).
  assert (HG : Forall (Forall (fun P => hermitian (2 ^ n) (a_ent P))) [Ps]).
  { constructor; auto. apply kept_hermitian; auto. }
  assert (Hcase : (trot = true \/ Forall (fun g => g <> []) [Ps])).
  { destruct Ht as [Ht|(d & Hin & Hl)]; [left; auto|].
    right. constructor; [|constructor]. eapply kept_nonempty; eauto. }
  assert (Hc : forall e, exists V, custom_call svd (mkcustom n e check trot (map fst (kept ds items)) (map (fun kv => (fst kv, OMat (snd kv))) (kept ds items)) Fs) U = Ok V /\
    meq (2 ^ n) V (apply_gens (2 ^ n) (RtoC (- e / 2 ^ n)) (all_gens (2 ^ n) trot (qnode_state U) Fs [Ps]) U)).
  { intros e. rewrite custom_call_eq. apply (call_spec svd check trot n e (qnode_state U) Fs [Ps] Hs HF HG Hcase). reflexivity. }
  exists (fun e => match custom_call svd (mkcustom n e check trot (map fst (kept ds items)) (map (fun kv => (fst kv, OMat (snd kv))) (kept ds items)) Fs) U with Ok V => V | Err _ => U end).
  split.
  - intros e. destruct (Hc e) as (V & E & _). rewrite E. reflexivity.
  - cbv zeta. fold Ps. replace Ps with (List.concat [Ps]) at 1 by apply app_nil_r. apply (layer_der n trot Fs [Ps] U _ HF HG).
    intros e. destruct (Hc e) as (V & E & M). rewrite E. exact M.
Qed.
Print Assumptions C45_custom_descent.

(** the hypotheses are those of C42; a direction that is not zero: the state
    |0>, the observable X and the direction Y of one qubit *)
Example C45_case : let H := a_ent (lit_X (K := C)) in let P := a_ent (lit_Y (K := C)) in
  Im (quad 2 (qnode_state mid) (msub (mmul 2 P H) (mmul 2 H P))) = (-2)%R.
Proof.
  cbv zeta. unfold quad, qnode_state, msub, mmul, mid, lit_X, lit_Y, lit2. cbn [seq a_ent Nat.eqb].
  rewrite !lsum_cons, !lsum_nil. cbn [kadd kmul ksub kconj kopp k0 k1 ki CStar]. simpl. ring.
Qed.

(** ** C52, first part: refuted for the layers of this file *)
Theorem C52_directions_refuted : forall n (Fs : list (arr C)) U, Fs <> [] ->
  get_lie_algebra_directions n (map ObsArr Fs) U = Err AttributeError.
Proof. intros n [|F Fs] U H; [congruence|]. reflexivity. Qed.
Print Assumptions C52_directions_refuted.

(** What holds instead: the other layers keep the observables themselves and get
    the directions described in C38. *)
(** missing: the three layers above, for which the claim is false *)
Theorem C52_directions_partial : forall n (U : mat C) (obs : list (qop C)), unitary2 (2 ^ n) U ->
  Forall (fits n) obs -> Forall hermitian_obs obs -> exists Fs ops names dirs,
    mapM (fun o => get_full_operator (q_matrix o) (q_wires o) n) obs = Ok Fs /\
    get_su_n_operators (2 ^ n) true true = Ok (ops, Some names) /\
    get_lie_algebra_directions n (map ObsQ obs) U = Ok dirs /\ map fst dirs = names /\
    let x := qnode_state U in let H := msum a_ent Fs in
    map snd dirs = map (fun P => (Im (quad (2 ^ n) x (msub (mmul (2 ^ n) (a_ent P) H) (mmul (2 ^ n) H (a_ent P)))) / 2 ^ n)%R) ops.
Proof.
  intros n U obs HU Hf Hh. destruct (PropCircuit.C38_directions n U obs (proj1 HU) Hf Hh) as (Fs & names & ops & dirs & E1 & E2 & E3 & E4 & E5 & _).
  exists Fs, ops, names, dirs. split; [exact E1|]. split; [exact E2|]. split; [|split; [exact E4|exact E5]].
  unfold get_lie_algebra_directions.
  assert (Ea : mapM (fun o => do q <- as_qop o; full n q) (map ObsQ obs) = Ok Fs).
  { rewrite <- E1. clear. induction obs as [|o obs IH]; [reflexivity|]. cbn [map mapM as_qop bind]. rewrite IH. reflexivity. }
  assert (Eb : mapM as_qop (map ObsQ obs) = Ok obs).
  { clear. induction obs as [|o obs IH]; [reflexivity|]. cbn [map mapM as_qop bind]. rewrite IH. reflexivity. }
  rewrite Ea, Eb. exact E3.
Qed.
Print Assumptions C52_directions_partial.
