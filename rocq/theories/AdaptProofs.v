(** Proofs about the model of AdaptVQELayer. *)
From Coq Require Import ZArith Arith Lia Bool String Ascii Permutation Reals Lra Ring Setoid Morphisms ZifyNat.
From Coquelicot Require Import Coquelicot.
From Verif Require Import Py StarRing Matrix Cplx PauliSpec Bits PauliBasis Expm UtilsModel UtilsProofs CircuitModel CircuitProofs CircuitProofs2
  AlgebraModel AlgebraProofs LayerModel LayerProofs LayerProofs2 GreedyModel RotoProofs GreedyProofs CommProofs AdaptModel.
From Coq Require Import List.
Import ListNotations.
Local Open Scope nat_scope.

(** ** range2 *)
Lemma range2_In a b i : In i (range2 a b) <-> exists k, i = a + 2 * k /\ i < b.
Proof.
  unfold range2. rewrite in_map_iff. split.
  - intros (k & <- & Hk). apply in_seq in Hk. exists k. split; [reflexivity|].
    pose proof (Nat.div_mod (b - a + 1) 2 ltac:(lia)). lia.
  - intros (k & -> & Hb). exists k. split; [reflexivity|]. apply in_seq. split; [lia|]. rewrite Nat.add_0_l.
    apply (Nat.div_le_lower_bound (b - a + 1) 2 (S k)); lia.
Qed.

Lemma range2_NoDup a b : NoDup (range2 a b).
Proof. unfold range2. apply FinFun.Injective_map_NoDup; [intros x y; lia|apply seq_NoDup]. Qed.

Lemma range2_length a b : List.length (range2 a b) = (b - a + 1) / 2.
Proof. unfold range2. rewrite map_length, seq_length. reflexivity. Qed.

(** ** The patterns *)
Definition brick_keys (n : nat) (b : brick) : list (list nat) :=
  match b with
  | Single => map (fun i => [i]) (seq 0 n)
  | Even => map (fun i => [i; i + 1]) (range2 0 (n - 1))
  | Odd => map (fun i => [i; i + 1]) (range2 1 (n - 1)) ++ [[0; n - 1]]
  end.

Lemma pairs_In a b q : In q (map (fun i => [i; i + 1]) (range2 a b)) <-> exists k, q = [a + 2 * k; a + 2 * k + 1] /\ a + 2 * k < b.
Proof.
  rewrite in_map_iff. split.
  - intros (i & <- & Hi). apply range2_In in Hi. destruct Hi as (k & -> & Hk). exists k. auto.
  - intros (k & -> & Hk). exists (a + 2 * k). split; [reflexivity|]. apply range2_In. exists k. auto.
Qed.

Lemma pairs_NoDup a b : NoDup (map (fun i => [i; i + 1]) (range2 a b)).
Proof. apply FinFun.Injective_map_NoDup; [|apply range2_NoDup]. intros x y E. congruence. Qed.

Lemma brick_keys_NoDup n b : NoDup (brick_keys n b).
Proof.
  destruct b; cbn [brick_keys].
  - apply FinFun.Injective_map_NoDup; [|apply seq_NoDup]. intros x y E. congruence.
  - apply pairs_NoDup.
  - apply (Permutation_NoDup (Permutation_app_comm [[0; n - 1]] _)). simpl. constructor; [|apply pairs_NoDup].
    intros H. apply pairs_In in H. destruct H as (k & E & _). injection E as E _. lia.
Qed.

(** qubit tuples of the right length *)
Definition arity (b : brick) : nat := match b with Single => 1 | _ => 2 end.

Lemma pair_tuple n i j : i < j < n -> List.length [i; j] = 2 /\ NoDup [i; j] /\ Forall (fun x => x < n) [i; j] /\ Sorted.StronglySorted lt [i; j].
Proof.
  intros H. split; [reflexivity|]. split; [constructor; [simpl; lia|constructor; [simpl; tauto|constructor]]|].
  split; [constructor; [lia|constructor; [lia|constructor]]|]. constructor; [constructor; constructor|constructor; [lia|constructor]].
Qed.

Lemma brick_keys_tuple n b q : 2 <= n -> In q (brick_keys n b) ->
  List.length q = arity b /\ NoDup q /\ Forall (fun x => x < n) q /\ Sorted.StronglySorted lt q.
Proof.
  intros Hn. destruct b; cbn [brick_keys arity]; intros H.
  - apply in_map_iff in H. destruct H as (i & <- & Hi). apply in_seq in Hi. repeat split; repeat constructor; simpl; try tauto; lia.
  - apply pairs_In in H. destruct H as (k & -> & Hk). apply pair_tuple; lia.
  - apply in_app_or in H. destruct H as [H|[<-|[]]].
    + apply pairs_In in H. destruct H as (k & -> & Hk). apply pair_tuple; lia.
    + apply pair_tuple; lia.
Qed.

(** a common qubit has the same place in both tuples *)
Lemma brick_same_place n b q1 q2 i j : 2 <= n -> In q1 (brick_keys n b) -> In q2 (brick_keys n b) ->
  i < List.length q1 -> j < List.length q2 -> nth i q1 0 = nth j q2 0 -> i = j.
Proof.
  intros Hn. destruct b; cbn [brick_keys]; intros H1 H2 Hi Hj E.
  - apply in_map_iff in H1. destruct H1 as (x & <- & _). apply in_map_iff in H2. destruct H2 as (y & <- & _). simpl in *. lia.
  - apply pairs_In in H1. destruct H1 as (x & -> & _). apply pairs_In in H2. destruct H2 as (y & -> & _).
    simpl in Hi, Hj. destruct i as [|[|i]], j as [|[|j]]; simpl in E; lia.
  - apply in_app_or in H1. apply in_app_or in H2.
    destruct H1 as [H1|[<-|[]]]; [apply pairs_In in H1; destruct H1 as (x & -> & Hx)|];
    (destruct H2 as [H2|[<-|[]]]; [apply pairs_In in H2; destruct H2 as (y & -> & Hy)|]);
    simpl in Hi, Hj; destruct i as [|[|i]], j as [|[|j]]; simpl in E; lia.
Qed.

(** ** Sums of table entries *)
Lemma rsum_perm {A} (f : A -> R) l m : Permutation l m -> rsum f l = rsum f m.
Proof. induction 1; simpl; lra. Qed.

Lemma fold_Rplus l : forall s, fold_left Rplus l s = (s + rsum (fun x => x) l)%R.
Proof. induction l as [|x l IH]; intros s; simpl; [lra|]. rewrite IH. lra. Qed.

Lemma mapM_dget {B} (d : list (key * B)) l : NoDup (map fst d) -> incl l d -> mapM (dget key_eqb d) (map fst l) = Ok (map snd l).
Proof.
  intros Hn Hi. induction l as [|[k v] l IH]; [reflexivity|]. cbn [map mapM fst snd].
  rewrite (dget_In key_eqb key_eqb_spec d k v Hn) by (apply Hi; left; auto). cbn [bind].
  rewrite IH by (intros x Hx; apply Hi; right; auto). reflexivity.
Qed.

Lemma sum_get_spec (t : list (key * arr C)) (g : arr C -> R) ks (f : key -> bool) : NoDup (map fst t) -> NoDup ks ->
  (forall k, In k ks <-> In k (map fst t) /\ f k = true) ->
  sum_get (map (fun kv => (fst kv, g (snd kv))) t) ks = Ok (rsum (fun e => g (snd e)) (filter (fun e => f (fst e)) t)).
Proof.
  intros Ht Hk Hs.
  assert (Hf : forall k, In k (map fst (filter (fun e => f (fst e)) t)) <-> In k (map fst t) /\ f k = true).
  { intros k. rewrite !in_map_iff. split.
    - intros (e & <- & He). apply filter_In in He. destruct He as [He Fe]. split; [exists e; auto|auto].
    - intros [(e & <- & He) Fe]. exists e. split; [reflexivity|]. apply filter_In. auto. }
  assert (Hnf : NoDup (map fst (filter (fun e => f (fst e)) t))).
  { clear - Ht. induction t as [|e t IH]; [constructor|]. cbn [map] in Ht. inversion Ht as [|? ? H1 H2]; subst. cbn [filter].
    destruct (f (fst e)); [|auto]. cbn [map]. constructor; [|auto]. intros Hin. apply H1. apply in_map_iff in Hin.
    destruct Hin as (x & E & Hx). apply filter_In in Hx. apply in_map_iff. exists x. tauto. }
  assert (P : Permutation (map fst (filter (fun e => f (fst e)) t)) ks).
  { apply NoDup_Permutation; auto. intros k. rewrite Hf, Hs. reflexivity. }
  apply Permutation_sym in P. apply Permutation_map_inv in P. destruct P as (l & -> & P).
  unfold sum_get. replace (map fst l) with (map fst (map (fun kv => (fst kv, g (snd kv))) l)) by (rewrite map_map; reflexivity).
  rewrite mapM_dget.
  - cbn [bind]. rewrite fold_Rplus, rsum_map, rsum_map, Rplus_0_l. cbn [snd]. f_equal. apply rsum_perm. apply Permutation_sym. exact P.
  - rewrite map_map. exact Ht.
  - intros x Hx. apply in_map_iff in Hx. destruct Hx as (e & <- & He). apply in_map_iff. exists e. split; [reflexivity|].
    apply (Permutation_in _ (Permutation_sym P)) in He. apply filter_In in He. tauto.
Qed.

Lemma mapM_app {A B} (f : A -> res B) l m : mapM f (l ++ m) = do x <- mapM f l; do y <- mapM f m; Ok (x ++ y).
Proof.
  induction l as [|a l IH]; [simpl; destruct (mapM f m); reflexivity|]. cbn [app mapM]. destruct (f a); cbn [bind]; [|reflexivity].
  rewrite IH. destruct (mapM f l); cbn [bind]; [|reflexivity]. destruct (mapM f m); reflexivity.
Qed.

Lemma sum_get_snoc d ks k : sum_get d (ks ++ [k]) = do o <- sum_get d ks; do w <- dget key_eqb d k; Ok (o + w)%R.
Proof.
  unfold sum_get. rewrite mapM_app. destruct (mapM (dget key_eqb d) ks) as [vs|]; cbn [bind]; [|reflexivity].
  cbn [mapM bind]. destruct (dget key_eqb d k); cbn [bind]; [|reflexivity]. rewrite fold_left_app. reflexivity.
Qed.

(** ** The rotations of a layer *)
Lemma letter_index_letter g : 1 <= g <= 3 -> letter_index (UtilsProofs.letter g) = g.
Proof. intros H. destruct g as [|[|[|[|g]]]]; try lia; reflexivity. Qed.

Lemma word_of_name w : Forall (fun g => 1 <= g <= 3) w -> word_of (word_name w) = w.
Proof.
  induction 1 as [|g w Hg _ IH]; [reflexivity|]. cbn [word_name fold_right word_of]. fold (word_name w). rewrite IH.
  f_equal. apply letter_index_letter. exact Hg.
Qed.

Lemma list_get_nth (l : list R) i : i < List.length l -> list_get l i = Ok (nth i l 0%R).
Proof. intros H. unfold list_get. rewrite (nth_error_nth' l 0%R H). reflexivity. Qed.

Lemma row_last_nth (r : list R) : r <> [] -> row_last r = Ok (nth (List.length r - 1) r 0%R).
Proof.
  intros H. destruct (exists_last H) as (r' & x & ->). unfold row_last. rewrite rev_app_distr. simpl.
  rewrite app_length. simpl. replace (List.length r' + 1 - 1) with (List.length r') by lia. rewrite app_nth2, Nat.sub_diag by lia. reflexivity.
Qed.

Lemma combine_app {A B} (l1 l2 : list A) (m1 m2 : list B) : List.length l1 = List.length m1 ->
  combine (l1 ++ l2) (m1 ++ m2) = combine l1 m1 ++ combine l2 m2.
Proof. revert m1. induction l1 as [|x l1 IH]; intros [|y m1] H; simpl in *; try discriminate; auto. f_equal. apply IH. lia. Qed.

(** the parameters of a pattern *)
Definition brick_idx (n : nat) (b : brick) : list nat :=
  match b with
  | Single => seq 0 n
  | Even => seq 0 (List.length (range2 0 (n - 1)))
  | Odd => seq 0 (List.length (range2 1 (n - 1))) ++ [n - 1]
  end.

Lemma layer_gates_eq n d b row : 2 <= n -> List.length row = n -> String.length d = arity b ->
  let idx := brick_idx n b in layer_gates n (d, b) row = Ok (map (fun iw => ARot (nth (fst iw) row 0%R) d (snd iw)) (combine idx (brick_keys n b))) /\
    List.length idx = List.length (brick_keys n b) /\ NoDup idx /\ Forall (fun i => i < n) idx.
Proof.
  intros Hn Hr Hd.
  assert (Pairs : forall a, (n - 1 - a + 1) / 2 <= n - 1 ->
    mapM (fun ki => do t <- list_get row (fst ki); Ok (ARot t d [snd ki; snd ki + 1])) (combine (seq 0 (List.length (range2 a (n - 1)))) (range2 a (n - 1))) =
    Ok (map (fun iw => ARot (nth (fst iw) row 0%R) d (snd iw)) (combine (seq 0 (List.length (range2 a (n - 1)))) (map (fun i => [i; i + 1]) (range2 a (n - 1)))))).
  { intros a Ha. rewrite <- range2_length in Ha. revert Ha. generalize (range2 a (n - 1)) as l. intros l Hl.
    assert (G : forall l s, s + List.length l <= n ->
      mapM (fun ki => do t <- list_get row (fst ki); Ok (ARot t d [snd ki; snd ki + 1])) (combine (seq s (List.length l)) l) =
      Ok (map (fun iw => ARot (nth (fst iw) row 0%R) d (snd iw)) (combine (seq s (List.length l)) (map (fun i => [i; i + 1]) l)))).
    { clear l Hl. induction l as [|x l IH]; intros s Hs; [reflexivity|]. cbn [List.length seq combine map mapM fst snd] in *.
      rewrite list_get_nth by lia. cbn [bind]. rewrite IH by lia. reflexivity. }
    apply G. lia. }
  unfold layer_gates. cbn [fst snd]. rewrite Hd. destruct b; cbn [arity Nat.eqb brick_keys brick_idx]; cbv zeta.
  - rewrite map_length, seq_length. split; [|split; [reflexivity|split; [apply seq_NoDup|apply Forall_forall; intros x Hx; apply in_seq in Hx; lia]]].
    assert (G : forall l, Forall (fun i => i < n) l -> mapM (fun i => do t <- list_get row i; Ok (ARot t d [i])) l =
      Ok (map (fun iw => ARot (nth (fst iw) row 0%R) d (snd iw)) (combine l (map (fun i => [i]) l)))).
    { induction 1 as [|x l Hx _ IH]; [reflexivity|]. cbn [mapM map combine fst snd]. rewrite list_get_nth by lia. cbn [bind]. rewrite IH. reflexivity. }
    apply G. apply Forall_forall. intros x Hx. apply in_seq in Hx. lia.
  - rewrite map_length, seq_length.
    assert (Hl : List.length (range2 0 (n - 1)) <= n - 1) by (rewrite range2_length; apply Nat.div_le_upper_bound; lia).
    split; [apply Pairs; rewrite <- range2_length; exact Hl|]. split; [reflexivity|]. split; [apply seq_NoDup|].
    apply Forall_forall. intros x Hx. apply in_seq in Hx. lia.
  - assert (Hl : List.length (range2 1 (n - 1)) <= n - 1) by (rewrite range2_length; apply Nat.div_le_upper_bound; lia).
    rewrite Pairs by (rewrite <- range2_length; exact Hl). cbn [bind]. rewrite row_last_nth by (destruct row; simpl in *; [lia|discriminate]). cbn [bind].
    rewrite Hr. split; [|split; [|split]].
    + f_equal. rewrite combine_app by (rewrite map_length, seq_length; reflexivity). rewrite map_app. reflexivity.
    + rewrite !app_length, map_length, seq_length. reflexivity.
    + apply (Permutation_NoDup (Permutation_app_comm [n - 1] _)). simpl. constructor; [|apply seq_NoDup].
      intros H. apply in_seq in H. assert (List.length (range2 1 (n - 1)) <= n - 2) by (rewrite range2_length; apply Nat.div_le_upper_bound; lia). lia.
    + apply Forall_app. split; [|constructor; [lia|constructor]]. apply Forall_forall. intros x Hx. apply in_seq in Hx. lia.
Qed.

Lemma layer_gates_ok n d b row : 2 <= n -> List.length row = n -> String.length d = arity b ->
  exists idx, layer_gates n (d, b) row = Ok (map (fun iw => ARot (nth (fst iw) row 0%R) d (snd iw)) (combine idx (brick_keys n b))) /\
    List.length idx = List.length (brick_keys n b) /\ NoDup idx /\ Forall (fun i => i < n) idx.
Proof. intros. exists (brick_idx n b). apply layer_gates_eq; auto. Qed.

Lemma brick_keys_ne n b : 2 <= n -> brick_keys n b <> [].
Proof.
  intros Hn. destruct b; cbn [brick_keys].
  - destruct n; [lia|discriminate].
  - intros E. assert (H : In [0; 1] (map (fun i => [i; i + 1]) (range2 0 (n - 1)))) by (apply pairs_In; exists 0; split; [reflexivity|lia]). rewrite E in H. destruct H.
  - intros E. apply app_eq_nil in E. destruct E. discriminate.
Qed.

(** rows that differ everywhere give different gates *)
Lemma layer_gates_inj n d b r1 r2 : 2 <= n -> List.length r1 = n -> List.length r2 = n -> String.length d = arity b ->
  (forall i, i < n -> nth i r1 0%R <> nth i r2 0%R) -> layer_gates n (d, b) r1 <> layer_gates n (d, b) r2.
Proof.
  intros Hn H1 H2 Hd Hr E. destruct (layer_gates_eq n d b r1 Hn H1 Hd) as (E1 & L & _ & B). destruct (layer_gates_eq n d b r2 Hn H2 Hd) as (E2 & _).
  cbv zeta in *. rewrite E1, E2 in E. injection E as E. pose proof (brick_keys_ne n b Hn) as Hne.
  destruct (brick_idx n b) as [|i idx]; [destruct (brick_keys n b); [congruence|discriminate]|].
  destruct (brick_keys n b) as [|q qs]; [congruence|]. cbn [combine map fst snd] in E. injection E as E _. apply (Hr i); [|exact E].
  apply Forall_inv in B. exact B.
Qed.

(** ** Commuting rotations *)
Lemma gphase_self {K} {SR : StarRing K} g : gphase g g = k1.
Proof. destruct g as [|[|[|[|g]]]]; reflexivity. Qed.
Lemma gidx_self g : g <= 3 -> gidx g g = 0.
Proof. destruct g as [|[|[|[|g]]]]; intros; try lia; reflexivity. Qed.
Lemma gphase_0_l {K} {SR : StarRing K} g : gphase 0 g = k1.
Proof. reflexivity. Qed.

Lemma words_commute n v1 v2 : List.length v1 = n -> List.length v2 = n -> Forall (fun g => g <= 3) v1 -> Forall (fun g => g <= 3) v2 ->
  (forall p, p < n -> nth p v1 0 = 0 \/ nth p v2 0 = 0 \/ nth p v1 0 = nth p v2 0) ->
  meq (2 ^ n) (mmul (K := C) (2 ^ n) (pword v1) (pword v2)) (mmul (2 ^ n) (pword v2) (pword v1)).
Proof.
  intros L1 L2 F1 F2 H. rewrite (pword_mul (K := C) n v1 v2), (pword_mul (K := C) n v2 v1) by auto.
  assert (E1 : kprod (K := C) (fun p => gphase (nth p v1 0) (nth p v2 0)) (seq 0 n) = kprod (fun p => gphase (nth p v2 0) (nth p v1 0)) (seq 0 n)).
  { apply kprod_ext. intros p Hp. apply in_seq in Hp. destruct (H p ltac:(lia)) as [E|[E|E]]; rewrite E, ?gphase_0_r; reflexivity. }
  assert (E2 : map (fun p => gidx (nth p v1 0) (nth p v2 0)) (seq 0 n) = map (fun p => gidx (nth p v2 0) (nth p v1 0)) (seq 0 n)).
  { apply map_ext_in. intros p Hp. apply in_seq in Hp. destruct (H p ltac:(lia)) as [E|[E|E]]; rewrite E; [| |reflexivity];
    match goal with |- context [gidx 0 ?x] => destruct x as [|[|[|[|?]]]]; reflexivity end. }
  rewrite E1, E2. reflexivity.
Qed.

Lemma rot_valid n t w q : Forall (fun g => 1 <= g <= 3) w -> List.length q = List.length w -> w <> [] -> NoDup q -> Forall (fun x => x < n) q ->
  valid_qop n (gate_qop (ARot t (word_name w) q)).
Proof.
  intros Hw Hl Hne Hn Hq. cbn [gate_qop]. rewrite (word_of_name w Hw). split; [cbn [q_wires]; destruct q, w; simpl in *; congruence|].
  split; [exact Hn|]. split; [exact Hq|]. cbn [q_matrix q_wires a_rows a_cols]. rewrite Hl. auto.
Qed.

Lemma letters_le w : Forall (fun g => 1 <= g <= 3) w -> Forall (fun g => g <= 3) w.
Proof. intros H. eapply Forall_impl; [|exact H]. simpl. intros; lia. Qed.

Lemma rot_matrix n t w q : Forall (fun g => 1 <= g <= 3) w -> List.length q = List.length w -> NoDup q -> Forall (fun x => x < n) q ->
  meq (2 ^ n) (qmat n (gate_qop (ARot t (word_name w) q)))
    (madd (mscale (RtoC (cos (t / 2))) mid) (mscale (mit (sin (t / 2))) (pword (place n q w)))).
Proof.
  intros Hw Hl Hn Hq. cbn [gate_qop]. rewrite (word_of_name w Hw). unfold qmat. cbn [q_wires q_matrix a_ent].
  assert (Hok : wires_ok n q) by (split; auto).
  rewrite (emb_proper n q _ (madd (mscale (RtoC (cos (t / 2))) mid) (mscale (mit (sin (t / 2))) (pword w)))).
  - rewrite emb_add, !emb_scale, emb_id by auto. rewrite emb_pword by auto. reflexivity.
  - rewrite Hl. apply expm_involution. apply pword_sq. apply letters_le. exact Hw.
Qed.

Lemma rot_commute n b t1 t2 w q1 q2 : 2 <= n -> Forall (fun g => 1 <= g <= 3) w -> List.length w = arity b -> In q1 (brick_keys n b) -> In q2 (brick_keys n b) ->
  exists F1 F2, full n (gate_qop (ARot t1 (word_name w) q1)) = Ok F1 /\ full n (gate_qop (ARot t2 (word_name w) q2)) = Ok F2 /\
    meq (2 ^ n) (mmul (2 ^ n) (a_ent F1) (a_ent F2)) (mmul (2 ^ n) (a_ent F2) (a_ent F1)).
Proof.
  intros Hn Hw Hl H1 H2. destruct (brick_keys_tuple n b q1 Hn H1) as (L1 & N1 & B1 & _). destruct (brick_keys_tuple n b q2 Hn H2) as (L2 & N2 & B2 & _).
  assert (Hne : w <> []) by (intros ->; destruct b; discriminate).
  destruct (full_ok n _ (rot_valid n t1 w q1 Hw ltac:(congruence) Hne N1 B1)) as (F1 & E1 & _ & _ & M1).
  destruct (full_ok n _ (rot_valid n t2 w q2 Hw ltac:(congruence) Hne N2 B2)) as (F2 & E2 & _ & _ & M2).
  exists F1, F2. split; [exact E1|]. split; [exact E2|]. rewrite M1, M2. rewrite !rot_matrix by (auto; congruence).
  assert (W : meq (2 ^ n) (mmul (K := C) (2 ^ n) (pword (place n q1 w)) (pword (place n q2 w))) (mmul (2 ^ n) (pword (place n q2 w)) (pword (place n q1 w)))).
  { apply words_commute; auto using place_length, place_word_le. intros p Hp. rewrite !nth_place by auto.
    destruct (index_of p q1) as [i|] eqn:I1; [|auto]. destruct (index_of p q2) as [j|] eqn:I2; [|auto]. right; right.
    apply index_of_Some in I1. apply index_of_Some in I2. f_equal.
    apply (brick_same_place n b q1 q2); auto; try (apply nth_error_Some; congruence).
    rewrite (nth_error_nth q1 i 0 I1), (nth_error_nth q2 j 0 I2). reflexivity. }
  rewrite !mmul_add_l, !mmul_add_r, !mmul_scale_l, !mmul_scale_r, !mmul_1_l, !mmul_1_r, W.
  intros r c _ _. unfold madd, mscale, mit. cbn [kadd kmul CStar]. ring.
Qed.

(** ** Unitarity *)
Lemma hadamard_unitary : unitary2 2 (a_ent hadamard_matrix).
Proof.
  assert (S : (/ sqrt 2 * / sqrt 2 = / 2)%R). { assert (H2 : (0 < sqrt 2)%R) by (apply sqrt_lt_R0; lra). rewrite <- Rinv_mult_distr by lra. rewrite sqrt_def by lra. reflexivity. }
  assert (E : forall i j, i < 2 -> j < 2 -> mmul (K := C) 2 (madj (a_ent hadamard_matrix)) (a_ent hadamard_matrix) i j = mid i j /\
                                       mmul (K := C) 2 (a_ent hadamard_matrix) (madj (a_ent hadamard_matrix)) i j = mid i j).
  { intros i j Hi Hj. destruct i as [|[|i]]; try lia; destruct j as [|[|j]]; try lia; cbn; split; apply C_ext; cbn; nra. }
  split; intros i j Hi Hj; apply (E i j Hi Hj).
Qed.
