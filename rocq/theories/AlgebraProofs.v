(** Proofs about the algebra classes. *)
From Coq Require Import Arith Lia Bool String Ascii Sorted Permutation Ring Setoid Morphisms.
From Verif Require Import Py StarRing Matrix PauliSpec Bits PauliBasis UtilsModel UtilsProofs CircuitModel CircuitProofs AlgebraModel.
From Coq Require Import List.
Import ListNotations.
Local Open Scope nat_scope.

(** ** Dictionaries *)
Section Dict.
Context {A B : Type} (eqb : A -> A -> bool) (eqb_spec : forall x y, eqb x y = true <-> x = y).

Lemma eqb_refl x : eqb x x = true.
Proof. apply eqb_spec; auto. Qed.
Lemma eqb_neq x y : x <> y -> eqb x y = false.
Proof. intros H. apply not_true_iff_false. rewrite eqb_spec. auto. Qed.

Lemma dmem_spec (d : list (A * B)) k : dmem eqb d k = true <-> In k (map fst d).
Proof.
  unfold dmem. rewrite existsb_exists, in_map_iff. split; intros (p & H1 & H2); exists p; split; auto; apply eqb_spec; auto.
Qed.

Lemma dset_new (d : list (A * B)) k v : ~ In k (map fst d) -> dset eqb d k v = d ++ [(k, v)].
Proof.
  induction d as [|[a b] r IH]; simpl; intros H; auto. rewrite eqb_neq by tauto. rewrite IH by tauto. auto.
Qed.

Lemma dget_In (d : list (A * B)) k v : NoDup (map fst d) -> In (k, v) d -> dget eqb d k = Ok v.
Proof.
  induction d as [|[a b] r IH]; simpl; intros Hn Hi; [tauto|]. inversion Hn; subst. destruct Hi as [E|Hi].
  - injection E as -> ->. rewrite eqb_refl. auto.
  - rewrite eqb_neq; auto. intros ->. apply H1. apply in_map_iff. exists (k, v); auto.
Qed.
Lemma dget_Ok (d : list (A * B)) k v : dget eqb d k = Ok v -> In (k, v) d.
Proof.
  induction d as [|[a b] r IH]; simpl; [discriminate|]. destruct (eqb a k) eqn:E.
  - apply eqb_spec in E. subst. intros E; injection E as ->; auto.
  - auto.
Qed.
Lemma dget_missing (d : list (A * B)) k : ~ In k (map fst d) -> dget eqb d k = Err KeyError.
Proof. induction d as [|[a b] r IH]; simpl; intros H; auto. rewrite eqb_neq by tauto. apply IH; tauto. Qed.

Lemma dzip_NoDup (ks : list A) : forall (vs : list B), NoDup ks -> dzip eqb ks vs = combine ks vs.
Proof.
  intros vs Hn. unfold dzip.
  assert (G : forall l (d : list (A * B)), NoDup (map fst d ++ map fst l) ->
    fold_left (fun d p => dset eqb d (fst p) (snd p)) l d = d ++ l).
  { induction l as [|[k v] l IH]; intros d Hd; simpl; [rewrite app_nil_r; auto|].
    rewrite dset_new.
    - rewrite IH.
      + rewrite <- app_assoc. reflexivity.
      + rewrite map_app. simpl. rewrite <- app_assoc. exact Hd.
    - intros Hi. apply NoDup_remove_2 in Hd. apply Hd. apply in_or_app; auto. }
  rewrite G; auto. simpl.
  assert (Hc : forall (vs : list B), exists t, ks = map fst (combine ks vs) ++ t).
  { clear. induction ks as [|k ks IH]; intros [|v vs]; simpl; try (eexists; reflexivity).
    destruct (IH vs) as [t E]. exists t. f_equal. exact E. }
  destruct (Hc vs) as [t E]. rewrite E in Hn. clear - Hn.
  induction (map fst (combine ks vs)) as [|a l IH]; [constructor|]. simpl in Hn. inversion Hn; subst. constructor; auto.
  intros Hi. apply H1. apply in_or_app; auto.
Qed.
End Dict.

Lemma natlist_eqb_spec l : forall m, natlist_eqb l m = true <-> l = m.
Proof.
  induction l as [|x l IH]; intros [|y m]; simpl; split; try congruence; auto.
  - rewrite andb_true_iff, Nat.eqb_eq, IH. intros [-> ->]; auto.
  - intros E; injection E as -> ->. rewrite andb_true_iff, Nat.eqb_eq, IH. auto.
Qed.
Lemma key_eqb_spec a b : key_eqb a b = true <-> a = b.
Proof.
  destruct a, b. unfold key_eqb. simpl. rewrite andb_true_iff, String.eqb_eq, natlist_eqb_spec. split.
  - intros [-> ->]; auto.
  - intros E; injection E; auto.
Qed.

(** ** Combinations *)

Lemma combinations_In l r q : StronglySorted lt l ->
  In q (combinations l r) <-> List.length q = r /\ StronglySorted lt q /\ Forall (fun x => In x l) q.
Proof.
  intros Hs. revert r q. induction Hs as [|x l Hs IH Hx]; intros r q.
  - destruct r; simpl.
    + split; [intros [<-|[]]; repeat split; constructor|]. intros (H & _). destruct q; [auto|discriminate].
    + split; [tauto|]. intros (H & _ & HF). destruct q; [discriminate|]. inversion HF; subst; simpl in *; tauto.
  - destruct r; simpl.
    + split; [intros [<-|[]]; repeat split; constructor|]. intros (H & _). destruct q; [auto|discriminate].
    + rewrite in_app_iff, in_map_iff, IH. split.
      * intros [(q' & <- & Hq)|Hq].
        -- apply IH in Hq. destruct Hq as (H1 & H2 & H3). split; [simpl; lia|]. split.
           ++ constructor; auto. rewrite Forall_forall in *. auto.
           ++ constructor; [left; auto|]. eapply Forall_impl; [|exact H3]. simpl; auto.
        -- destruct Hq as (H1 & H2 & H3). split; auto. split; auto. eapply Forall_impl; [|exact H3]. simpl; auto.
      * intros (H1 & H2 & H3). destruct q as [|y q]; [discriminate|]. inversion H2; inversion H3; subst.
        simpl in H1. destruct H8 as [->|Hy].
        -- left. exists q. split; auto. apply IH. split; [lia|]. split; auto.
           rewrite Forall_forall in *. intros z Hz. destruct (H9 z Hz) as [->|]; auto. specialize (H5 z Hz). lia.
        -- right. split; auto. split; auto. constructor; auto. rewrite Forall_forall in *. intros z Hz.
           destruct (H9 z Hz) as [->|]; auto. specialize (H5 z Hz). specialize (Hx y Hy). lia.
Qed.

Lemma combinations_NoDup (l : list nat) r : NoDup l -> NoDup (combinations l r).
Proof.
  intros Hn. revert r. induction Hn as [|x l Hx Hn IH]; intros [|r]; simpl; try (repeat constructor; simpl; tauto).
  apply NoDup_app_intro; auto.
  - apply map_cons_NoDup; auto.
  - intros q H1 H2. apply in_map_iff in H1. destruct H1 as (q' & <- & _).
    assert (G : forall (m : list nat) r q, In q (combinations m r) -> incl q m).
    { clear. induction m as [|y m IH]; intros [|r] q; simpl; try tauto.
      - intros [<-|[]] z Hz; simpl in Hz; tauto.
      - intros [<-|[]] z Hz; simpl in Hz; tauto.
      - rewrite in_app_iff, in_map_iff. intros [(q' & <- & Hq)|Hq] z Hz.
        + destruct Hz as [->|Hz]; [left; auto|right; eapply IH; eauto].
        + right; eapply IH; eauto. }
    apply Hx. eapply G; [exact H2|left; auto].
Qed.

Lemma seq_sorted n : forall s, StronglySorted lt (seq s n).
Proof.
  induction n as [|n IH]; intros s; simpl; constructor; auto.
  apply Forall_forall. intros x Hx. apply in_seq in Hx. lia.
Qed.

Definition qtuple (n k : nat) (q : list nat) : Prop :=
  List.length q = k /\ StronglySorted lt q /\ Forall (fun x => x < n) q.

Lemma comb_seq n k q : In q (combinations (seq 0 n) k) <-> qtuple n k q.
Proof.
  rewrite combinations_In by apply seq_sorted. unfold qtuple.
  assert (E : Forall (fun x => In x (seq 0 n)) q <-> Forall (fun x => x < n) q).
  { rewrite !Forall_forall. split; intros H x Hx; specialize (H x Hx); [apply in_seq in H; lia|apply in_seq; lia]. }
  rewrite E. tauto.
Qed.

Lemma sorted_NoDup_nat q : StronglySorted lt q -> NoDup q.
Proof.
  induction 1 as [|x q Hs IH Hx]; constructor; auto. intros Hi. rewrite Forall_forall in Hx. specialize (Hx x Hi). lia.
Qed.

Lemma qtuple_wires n k q : qtuple n k q -> wires_ok n q.
Proof. intros (_ & H1 & H2). split; auto using sorted_NoDup_nat. Qed.

Lemma word_name_length w : String.length (word_name w) = List.length w.
Proof. induction w as [|g w IH]; simpl; auto. Qed.

(** ** Words without the identity *)

Definition up (w : list nat) : list nat := map (fun g => g + 1) w.
Definition wname (w : list nat) : string := word_name (up w).
Definition wwords (ks : list nat) : list (list nat) := flat_map (fun k => words 3 k) ks.
Definition wnames (ks : list nat) : list string := map wname (wwords ks).

Lemma up_length w : List.length (up w) = List.length w.
Proof. apply map_length. Qed.

Lemma up_inj w v : up w = up v -> w = v.
Proof.
  revert v. induction w as [|a w IH]; intros [|b v] E; try discriminate; auto. simpl in E. injection E as E1 E2.
  f_equal; [lia|auto].
Qed.

Lemma up_letters k w : In w (words 3 k) -> Forall (fun g => 1 <= g <= 3) (up w) /\ List.length w = k.
Proof.
  intros H. apply words_spec in H. destruct H as [Hl H]. split; auto. apply Forall_forall. intros g Hg.
  apply in_map_iff in Hg. destruct Hg as (x & <- & Hx). rewrite Forall_forall in H. specialize (H x Hx). lia.
Qed.

Lemma up_surj w : Forall (fun g => 1 <= g <= 3) w -> exists v, In v (words 3 (List.length w)) /\ up v = w.
Proof.
  intros H. exists (map (fun g => g - 1) w). split.
  - apply words_spec. split; [apply map_length|]. apply Forall_forall. intros x Hx. apply in_map_iff in Hx.
    destruct Hx as (g & <- & Hg). rewrite Forall_forall in H. specialize (H g Hg). lia.
  - unfold up. rewrite map_map. rewrite <- (map_id w) at 2. apply map_ext_in. intros g Hg. rewrite Forall_forall in H.
    specialize (H g Hg). lia.
Qed.

Lemma wname_inj w v : Forall (fun g => g < 3) w -> Forall (fun g => g < 3) v -> wname w = wname v -> w = v.
Proof.
  intros Hw Hv E. apply up_inj. apply word_name_inj; auto;
  apply Forall_forall; intros g Hg; apply in_map_iff in Hg; destruct Hg as (x & <- & Hx);
  [rewrite Forall_forall in Hw; specialize (Hw x Hx)|rewrite Forall_forall in Hv; specialize (Hv x Hx)]; lia.
Qed.

Lemma wwords_In ks w : In w (wwords ks) <-> In (List.length w) ks /\ Forall (fun g => g < 3) w.
Proof.
  unfold wwords. rewrite in_flat_map. split.
  - intros (k & Hk & Hw). apply words_spec in Hw. destruct Hw as [<- Hw]. auto.
  - intros [H1 H2]. exists (List.length w). split; auto. apply words_spec. auto.
Qed.

Lemma wwords_NoDup ks : NoDup ks -> NoDup (wwords ks).
Proof.
  intros H. unfold wwords. apply NoDup_flat_map_disj; auto.
  - intros k _. apply words_NoDup.
  - intros k k' w _ _ H1 H2. apply words_spec in H1. apply words_spec in H2. destruct H1 as [<- _], H2 as [E _]. congruence.
Qed.

Lemma wnames_NoDup ks : NoDup ks -> NoDup (wnames ks).
Proof.
  intros H. unfold wnames. apply NoDup_map_on; [|apply wwords_NoDup; auto].
  intros w v Hw Hv E. apply wwords_In in Hw. apply wwords_In in Hv. apply wname_inj; tauto.
Qed.

Section Alg.
Context {K : Type} {SR : StarRing K}.
Add Ring Kr : (@k_ring K SR).
Local Open Scope K_scope.

(** the operator stored for a word *)
Definition op_of (w : list nat) : arr K :=
  match w with
  | [a] => lit false a
  | [a; b] => np_kron (lit false a) (lit false b)
  | _ => su_op false w
  end.

Lemma op_of_spec k w : In w (words 3 k) ->
  a_rows (op_of w) = (2 ^ k)%nat /\ a_cols (op_of w) = (2 ^ k)%nat /\ meq (2 ^ k) (a_ent (op_of w)) (pword (up w)).
Proof.
  intros H. destruct (su_op_spec false k w H) as (H1 & H2 & H3). change (first false) with 1%nat in H3.
  apply words_spec in H. destruct H as [Hl Hw].
  assert (G : arr_eq (op_of w) (su_op false w)).
  { destruct w as [|a [|b [|c w]]]; simpl op_of.
    - repeat split; auto.
    - inversion Hw as [|? ? Ha _]; subst. destruct (lit_sigma (K := K) false a Ha) as (L1 & L2 & _).
      split; [rewrite H1, L1; reflexivity|]. split; [rewrite H2, L2; reflexivity|]. rewrite L1, L2. intros i j Hi Hj.
      unfold su_op, kron_fold. cbn [fold_left np_kron a_ent]. rewrite L1, L2.
      rewrite (Nat.div_small i), (Nat.div_small j), (Nat.mod_small i), (Nat.mod_small j) by auto.
      change (a_ent (lit false a) i j = (a_ent (np_eye 1) 0%nat 0%nat) * a_ent (lit false a) i j).
      change (a_ent (np_eye 1) 0%nat 0%nat) with (1 : K). ring.
    - inversion Hw as [|? ? Ha Hw']; subst. inversion Hw' as [|? ? Hb _]; subst.
      destruct (lit_sigma (K := K) false a Ha) as (A1 & A2 & _), (lit_sigma (K := K) false b Hb) as (B1 & B2 & _).
      apply np_kron_assoc1; lia.
    - repeat split; auto. }
  destruct G as (G1 & G2 & G3). rewrite G1, G2. split; auto. split; auto.
  rewrite <- H3. intros i j Hi Hj. apply G3; rewrite ?G1, ?G2; lia.
Qed.

Lemma su2_eq names : get_su_2_operators (K := K) false names = (map op_of (words 3 1), if names then Some (wnames [1%nat]) else None).
Proof. destruct names; reflexivity. Qed.

Lemma su4_eq names : get_su_4_operators (K := K) false names = Ok (map op_of (words 3 2), if names then Some (wnames [2%nat]) else None).
Proof. destruct names; reflexivity. Qed.

Lemma su8_eq names : get_su_n_operators (K := K) 8 false names = Ok (map op_of (words 3 3), if names then Some (wnames [3%nat]) else None).
Proof.
  rewrite su_n_eq by lia. change (Nat.log2 8) with 3%nat. change (alpha false) with 3%nat.
  assert (E : map (su_op (K := K) false) (words 3 3) = map op_of (words 3 3)).
  { apply map_ext_in. intros w Hw. apply words_spec in Hw. destruct Hw as [Hl _].
    destruct w as [|a [|b [|c [|]]]]; try discriminate. reflexivity. }
  rewrite E. destruct names; reflexivity.
Qed.

(** an initial core for the lengths [ks] *)
Definition core0 (n : nat) (ks : list nat) : core K :=
  mkcore n (wnames ks) (combine (wnames ks) (map op_of (wwords ks))) [].

Lemma init_core_eq n ks : NoDup ks -> init_core n (map op_of (wwords ks)) (wnames ks) = core0 n ks.
Proof. intros H. unfold init_core, core0. rewrite dzip_NoDup; auto; [apply String.eqb_eq|apply wnames_NoDup; auto]. Qed.

Lemma AlgebraSU2_eq n : AlgebraSU2 (K := K) n = Ok (mkalg (core0 n [1%nat]) (repeat 0%nat n)).
Proof. unfold AlgebraSU2. rewrite su2_eq. simpl fst. cbn [su_names snd bind].
  rewrite <- init_core_eq by (repeat constructor; simpl; tauto). reflexivity. Qed.

Definition ks4 (add_su2 : bool) : list nat := ((if add_su2 then [1] else []) ++ [2])%nat.
Definition ks8 (add_su2 add_su4 : bool) : list nat := ((if add_su2 then [1] else []) ++ (if add_su4 then [2] else []) ++ [3])%nat.

Lemma ks4_NoDup b : NoDup (ks4 b).
Proof. destruct b; repeat constructor; simpl; lia. Qed.
Lemma ks8_NoDup b c : NoDup (ks8 b c).
Proof. destruct b, c; repeat constructor; simpl; lia. Qed.

Lemma AlgebraSU4_eq n b : AlgebraSU4 (K := K) n b = Ok (mkalg (core0 n (ks4 b)) (repeat 0%nat n)).
Proof.
  unfold AlgebraSU4. rewrite !su4_eq, !su2_eq. cbn [su_names snd fst bind].
  destruct b; rewrite <- init_core_eq by (apply (ks4_NoDup true) || apply (ks4_NoDup false)); reflexivity.
Qed.

Definition qubits8 (n : nat) (b c : bool) : list (nat * list (list nat)) :=
  [(3%nat, combinations (seq 0 n) 3)] ++ (if b then [(1%nat, map (fun i => [i]) (seq 0 n))] else []) ++
  (if c then [(2%nat, combinations (seq 0 n) 2)] else []).

Lemma AlgebraSU8_eq n b c : AlgebraSU8 (K := K) n b c = Ok (mkalg8 (core0 n (ks8 b c)) (qubits8 n b c)).
Proof.
  unfold AlgebraSU8. rewrite su4_eq, su8_eq, !su2_eq.
  destruct b, c; cbn [bind app mapM su_names snd fst flat_map];
  rewrite <- init_core_eq by apply ks8_NoDup; reflexivity.
Qed.

(** ** Adding keys *)

(** the dictionary entry for a word and a tuple of qubits *)
Fixpoint add_keys (c : core K) (l : list (string * list nat)) : res (core K) :=
  match l with [] => Ok c | k :: r => do c' <- add_pauli c (fst k) (snd k); add_keys c' r end.

Lemma add_keys_app c l m : add_keys c (l ++ m) = do c' <- add_keys c l; add_keys c' m.
Proof.
  revert c. induction l as [|k l IH]; intros c; simpl; auto. destruct (add_pauli c (fst k) (snd k)); simpl; auto.
Qed.

Lemma qubit_loop_keys c d qs :
  qubit_loop c d qs = add_keys c (map (pair d) (filter (fun q => Nat.eqb (List.length q) (String.length d)) qs)).
Proof.
  revert c. induction qs as [|q qs IH]; intros c; simpl; auto.
  destruct (Nat.eqb _ _); simpl; [|apply IH]. destruct (add_pauli c d q); simpl; auto.
Qed.
Lemma qubit_loop8_keys c d qs : qubit_loop8 c d qs = add_keys c (map (pair d) qs).
Proof.
  revert c. induction qs as [|q qs IH]; intros c; simpl; auto. destruct (add_pauli c d q); simpl; auto.
Qed.

Lemma direction_loop_keys qs ds : forall c,
  direction_loop c ds qs = add_keys c (flat_map (fun d => map (pair d) (filter (fun q => Nat.eqb (List.length q) (String.length d)) qs)) ds).
Proof.
  induction ds as [|d ds IH]; intros c; simpl; auto. rewrite add_keys_app, qubit_loop_keys.
  destruct (add_keys _ _); simpl; auto.
Qed.

(** the whole enumeration *)
Definition all_keys (n : nat) (ks : list nat) : list (string * list nat) :=
  flat_map (fun w => map (pair (wname w)) (combinations (seq 0 n) (List.length w))) (wwords ks).

Lemma singles_comb {A} (l : list A) : combinations l 1 = map (fun q => [q]) l.
Proof. induction l as [|x l IH]; auto. cbn [combinations map app]. destruct l; simpl in *; congruence. Qed.

Lemma filter_none {A} (f : A -> bool) l : (forall x, In x l -> f x = false) -> filter f l = [].
Proof. induction l as [|x l IH]; simpl; intros H; auto. rewrite (H x) by auto. auto. Qed.
Lemma filter_all {A} (f : A -> bool) l : (forall x, In x l -> f x = true) -> filter f l = l.
Proof. induction l as [|x l IH]; simpl; intros H; auto. rewrite (H x) by auto. rewrite IH; auto. Qed.

Lemma where0_repeat n : where0 (repeat 0%nat n) = seq 0 n.
Proof.
  unfold where0. rewrite repeat_length. apply filter_all. intros x _. rewrite nth_repeat. reflexivity.
Qed.

Lemma comb_lengths (l : list nat) r q : In q (combinations l r) -> List.length q = r.
Proof.
  revert r q. induction l as [|x l IH]; intros [|r] q; simpl; try tauto.
  - intros [<-|[]]; auto.
  - intros [<-|[]]; auto.
  - rewrite in_app_iff, in_map_iff. intros [(q' & <- & H)|H]; [simpl; f_equal; auto|auto].
Qed.

Lemma get_all_keys n ks full : (forall k, In k ks -> k = 1 \/ k = 2)%nat ->
  get_all_directions_and_qubits (mkalg (mkcore n (wnames ks) (combine (wnames ks) (map op_of (wwords ks))) full) (repeat 0%nat n)) =
  do c <- add_keys (mkcore n (wnames ks) (combine (wnames ks) (map op_of (wwords ks))) full) (all_keys n ks);
  Ok (mkalg c (repeat 0%nat n)).
Proof.
  intros Hk. unfold get_all_directions_and_qubits. simpl al_left. simpl al_core. rewrite !where0_repeat.
  set (c := mkcore n (wnames ks) (combine (wnames ks) (map op_of (wwords ks))) full).
  assert (E1 : match seq 0 n with [] => repeat 0%nat (al_n c) | _ :: _ => repeat 0%nat n end = repeat 0%nat n).
  { destruct (seq 0 n); reflexivity. }
  rewrite E1.
  assert (E2 : match seq 0 n with [] => where0 (repeat 0%nat n) | _ :: _ => seq 0 n end = seq 0 n).
  { destruct (seq 0 n) eqn:E; auto. rewrite where0_repeat; auto. }
  rewrite E2.
  assert (E3 : (if Nat.ltb 1 (List.length (seq 0 n)) then map (fun q => [q]) (seq 0 n) ++ combinations (seq 0 n) 2 else map (fun q => [q]) (seq 0 n))
     = combinations (seq 0 n) 1 ++ combinations (seq 0 n) 2).
  { rewrite singles_comb, seq_length. destruct n as [|[|n]]; reflexivity. }
  rewrite E3. change (al_directions c) with (wnames ks). rewrite direction_loop_keys. f_equal. f_equal.
  unfold wnames, all_keys. rewrite flat_map_concat_map, map_map, <- flat_map_concat_map.
  rewrite !flat_map_concat_map. f_equal. apply map_ext_in. intros w Hw. f_equal.
  apply wwords_In in Hw. destruct Hw as [Hl _]. unfold wname at 1. rewrite word_name_length, up_length.
  rewrite filter_app. destruct (Hk _ Hl) as [-> | ->].
  - rewrite filter_all, filter_none, app_nil_r; auto; intros q Hq; apply comb_lengths in Hq; rewrite Hq; auto.
  - rewrite filter_none, filter_all; auto; intros q Hq; apply comb_lengths in Hq; rewrite Hq; auto.
Qed.

Lemma get_all_keys8 n b d full :
  get_all_directions_and_qubits8 (mkalg8 (mkcore n (wnames (ks8 b d)) (combine (wnames (ks8 b d)) (map op_of (wwords (ks8 b d)))) full) (qubits8 n b d)) =
  do c <- add_keys (mkcore n (wnames (ks8 b d)) (combine (wnames (ks8 b d)) (map op_of (wwords (ks8 b d)))) full) (all_keys n (ks8 b d));
  Ok (mkalg8 c (qubits8 n b d)).
Proof.
  unfold get_all_directions_and_qubits8. simpl al8_core. simpl al8_qubits.
  set (c := mkcore n (wnames (ks8 b d)) (combine (wnames (ks8 b d)) (map op_of (wwords (ks8 b d)))) full).
  change (al_directions c) with (wnames (ks8 b d)).
  f_equal. unfold wnames, all_keys.
  assert (G : forall ws c0, (forall w, In w ws -> In (List.length w) (ks8 b d)) ->
    direction_loop8 c0 (map wname ws) (qubits8 n b d) = add_keys c0 (flat_map (fun w => map (pair (wname w)) (combinations (seq 0 n) (List.length w))) ws)).
  { induction ws as [|w ws IH]; intros c0 Hw; [reflexivity|]. cbn [map flat_map direction_loop8].
    rewrite add_keys_app.
    assert (Eq : dget Nat.eqb (qubits8 n b d) (String.length (wname w)) = Ok (combinations (seq 0 n) (List.length w))).
    { unfold wname. rewrite word_name_length, up_length. specialize (Hw w (or_introl eq_refl)).
      unfold ks8 in Hw. unfold qubits8. clear - Hw.
      destruct b, d; simpl in Hw;
      repeat (destruct Hw as [Hw|Hw]; [rewrite <- Hw; cbn [app dget Nat.eqb]; rewrite ?singles_comb; reflexivity|]); tauto. }
    rewrite Eq. cbn [bind]. rewrite qubit_loop8_keys. destruct (add_keys c0 _); cbn [bind]; auto. apply IH. intros; apply Hw; right; auto. }
  apply G. intros w Hw. apply wwords_In in Hw. tauto.
Qed.

Lemma all_keys_In n ks d q : In (d, q) (all_keys n ks) <->
  exists w, In w (wwords ks) /\ d = wname w /\ qtuple n (List.length w) q.
Proof.
  unfold all_keys. rewrite in_flat_map. split.
  - intros (w & Hw & Hi). apply in_map_iff in Hi. destruct Hi as (q' & E & Hq). injection E as <- <-.
    apply comb_seq in Hq. exists w; auto.
  - intros (w & Hw & -> & Hq). exists w. split; auto. apply in_map_iff. exists q. split; auto. apply comb_seq; auto.
Qed.

Lemma all_keys_NoDup n ks : NoDup ks -> NoDup (all_keys n ks).
Proof.
  intros H. unfold all_keys. apply NoDup_flat_map_disj; [apply wwords_NoDup; auto| |].
  - intros w _. apply FinFun.Injective_map_NoDup; [intros x y E; injection E; auto|].
    apply combinations_NoDup, seq_NoDup.
  - intros w v k Hw Hv H1 H2. apply in_map_iff in H1. apply in_map_iff in H2.
    destruct H1 as (q & <- & _), H2 as (q' & E & _). injection E as E _.
    apply wwords_In in Hw. apply wwords_In in Hv. symmetry. apply wname_inj; tauto.
Qed.

Lemma dget_paulis n ks w : NoDup ks -> In w (wwords ks) -> dget String.eqb (al_paulis (core0 n ks)) (wname w) = Ok (op_of w).
Proof.
  intros Hn Hw. apply dget_In; [apply String.eqb_eq| |].
  - simpl. assert (E : forall (l : list (list nat)), map fst (combine (map wname l) (map op_of l)) = map wname l).
    { clear. induction l; simpl; congruence. }
    unfold wnames. rewrite E. apply wnames_NoDup; auto.
  - simpl. unfold wnames. clear Hn. induction (wwords ks) as [|v l IH]; simpl in *; [tauto|].
    destruct Hw as [->|Hw]; auto.
Qed.

(** the operator stored under a key *)
Definition key_ok (n : nat) (kF : key * arr K) : Prop :=
  exists w, fst (fst kF) = wname w /\ Forall (fun g => g < 3)%nat w /\ qtuple n (List.length w) (snd (fst kF)) /\
    get_full_operator (op_of w) (snd (fst kF)) n = Ok (snd kF) /\
    a_rows (snd kF) = (2 ^ n)%nat /\ a_cols (snd kF) = (2 ^ n)%nat /\
    meq (2 ^ n) (a_ent (snd kF)) (emb n (snd (fst kF)) (pword (up w))).

Lemma key_full n ks w q : (0 < List.length w)%nat -> In w (wwords ks) -> qtuple n (List.length w) q ->
  exists F, get_full_operator (op_of w) q n = Ok F /\ key_ok n ((wname w, q), F).
Proof.
  intros Hpos Hw Hq. apply wwords_In in Hw. destruct Hw as [_ Hw].
  destruct (op_of_spec (List.length w) w) as (O1 & O2 & O3); [apply words_spec; auto|].
  assert (Hlq : List.length q = List.length w) by apply Hq.
  destruct (full_is_emb n q (op_of w)) as (F & E & R1 & R2 & M).
  - destruct q; [simpl in *; lia|discriminate].
  - apply (qtuple_wires n (List.length w)); auto.
  - rewrite Hlq; auto.
  - rewrite Hlq; auto.
  - exists F. split; auto. exists w. simpl. repeat (split; [auto|]). rewrite M. apply emb_proper. rewrite Hlq. auto.
Qed.

Lemma add_keys_spec n ks : NoDup ks -> (forall k, In k ks -> 0 < k)%nat -> forall l full,
  incl l (all_keys n ks) -> NoDup (map fst full ++ l) ->
  exists new, add_keys (mkcore n (wnames ks) (al_paulis (core0 n ks)) full) l =
    Ok (mkcore n (wnames ks) (al_paulis (core0 n ks)) (full ++ new)) /\ map fst new = l /\ Forall (key_ok n) new.
Proof.
  intros Hn Hpos. induction l as [|[d q] l IH]; intros full Hi Hd.
  - exists []. simpl. rewrite app_nil_r. auto.
  - assert (Hk : In (d, q) (all_keys n ks)) by (apply Hi; left; auto).
    apply all_keys_In in Hk. destruct Hk as (w & Hw & -> & Hq).
    destruct (key_full n ks w q) as (F & EF & HF); auto.
    { apply Hpos. apply wwords_In in Hw. tauto. }
    simpl add_keys. unfold add_pauli. cbn [al_full al_paulis al_n al_directions].
    assert (Hnew : ~ In (wname w, q) (map fst full)).
    { intros Hin. apply NoDup_remove_2 in Hd. apply Hd. apply in_or_app; auto. }
    assert (Em : dmem key_eqb full (wname w, q) = false).
    { apply not_true_iff_false. rewrite (dmem_spec key_eqb key_eqb_spec). auto. }
    rewrite Em. change (combine (wnames ks) (map op_of (wwords ks))) with (al_paulis (core0 n ks)).
    rewrite dget_paulis by auto. cbn [bind]. rewrite EF. cbn [bind].
    rewrite (dset_new key_eqb key_eqb_spec) by auto.
    destruct (IH (full ++ [((wname w, q), F)])) as (new & En & Em' & Hf).
    + intros x Hx. apply Hi; right; auto.
    + rewrite map_app. simpl. rewrite <- app_assoc. exact Hd.
    + exists (((wname w, q), F) :: new). rewrite <- app_assoc in En. split; [exact En|]. split; [simpl; congruence|constructor; auto].
Qed.

Lemma add_keys_again n ks l full : (forall k, In k l -> In k (map fst full)) ->
  add_keys (mkcore n (wnames ks) (al_paulis (core0 n ks)) full) l = Ok (mkcore n (wnames ks) (al_paulis (core0 n ks)) full).
Proof.
  induction l as [|[d q] l IH]; intros H; auto. simpl add_keys. unfold add_pauli. cbn [al_full].
  assert (Em : dmem key_eqb full (d, q) = true) by (apply (dmem_spec key_eqb key_eqb_spec); apply H; left; auto).
  rewrite Em. cbn [bind]. apply IH. intros; apply H; right; auto.
Qed.

Lemma enumerate_spec n ks : NoDup ks -> (forall k, In k ks -> 0 < k)%nat -> exists full,
  add_keys (core0 n ks) (all_keys n ks) = Ok (mkcore n (wnames ks) (al_paulis (core0 n ks)) full) /\
  map fst full = all_keys n ks /\ Forall (key_ok n) full /\
  add_keys (mkcore n (wnames ks) (al_paulis (core0 n ks)) full) (all_keys n ks) = Ok (mkcore n (wnames ks) (al_paulis (core0 n ks)) full).
Proof.
  intros Hn Hp. destruct (add_keys_spec n ks Hn Hp (all_keys n ks) []) as (full & E & Em & Hf).
  - apply incl_refl.
  - apply all_keys_NoDup; auto.
  - exists full. split; [exact E|]. split; [exact Em|]. split; [exact Hf|]. apply add_keys_again. intros k Hk. change (In k (map fst full)). rewrite Em. exact Hk.
Qed.

End Alg.
