(** Properties C48 (AdaptVQELayer), C51, C71 and C72: the AdaptVQELayer of
    oranssi/opt_tools.py. *)
From Coq Require Import ZArith Arith Lia Bool String Ascii Permutation Reals Lra Ring Setoid Morphisms.
From Coquelicot Require Import Coquelicot.
From Verif Require Import Py StarRing Matrix Cplx PauliSpec Bits PauliBasis Expm UtilsModel UtilsProofs CircuitModel CircuitProofs CircuitProofs2
  AlgebraModel AlgebraProofs LayerModel LayerProofs LayerProofs2 GreedyModel RotoProofs GreedyProofs RotoWitness CommProofs AdaptModel AdaptProofs.
From Verif Require Import PropAlgebra PropLayers PropGreedy.
From Coq Require Import List.
Import ListNotations.
Local Open Scope nat_scope.

(** ** Specification *)

(** the qubit tuples of a pattern on n qubits: all qubits, the bonds (i, i+1)
    with i even, the bonds with i odd and the bond of the ends *)
Definition in_brick (n : nat) (b : brick) (q : list nat) : bool :=
  match b, q with
  | Single, [i] => i <? n
  | Even, [i; j] => Nat.even i && (j =? i + 1) && (j <? n)
  | Odd, [i; j] => (Nat.odd i && (j =? i + 1) && (j <? n)) || ((i =? 0) && (j =? n - 1))
  | _, _ => false
  end.

(** the possible layers in the order of the enumeration *)
Definition moves : list (string * brick) :=
  map (fun d => (d, Single)) su2_list ++ flat_map (fun d => [(d, Even); (d, Odd)]) su4_list.

(** the summed slopes of the operators of a layer *)
Definition brick_value (n : nat) (Os : list (arr C)) (U : mat C) (table : list (key * arr C)) (k : string * brick) : R :=
  rsum (fun e => slope n Os U (snd e)) (filter (fun e => String.eqb (fst (fst e)) (fst k) && in_brick n (snd k) (snd (fst e))) table).

(** k is the first move of largest value among those with another direction
    than the last layer *)
Definition best_move (value : string * brick -> R) (layers : list (string * brick)) (k : string * brick) : Prop :=
  let ok x := forall y rest, rev layers = y :: rest -> fst x <> fst y in
  ok k /\ exists l1 l2, moves = l1 ++ k :: l2 /\
    Forall (fun x => ok x -> (value x < value k)%R) l1 /\ Forall (fun x => ok x -> (value x <= value k)%R) l2.

Definition optimizer := (list (list R) -> res (list agate)) -> list (list R) -> res (list (list (list R))).

(** the states and parameters reached from (l, params) by successful calls *)
Inductive adapt_after (opt : optimizer) (l : adapt_layer) (p0 : list (list R)) : adapt_layer -> list (list R) -> Prop :=
| adapt_start : adapt_after opt l p0 l p0
| adapt_step l1 p U V p' l2 : adapt_after opt l p0 l1 p -> adapt_call opt l1 U p = Ok (V, p', l2) -> adapt_after opt l p0 l2 p'.

(** ** The choice *)
Lemma in_brick_keys n b q : 2 <= n -> In q (brick_keys n b) <-> in_brick n b q = true.
Proof.
  intros Hn. destruct b; cbn [brick_keys].
  - rewrite in_map_iff. split.
    + intros (i & <- & Hi). apply in_seq in Hi. apply Nat.ltb_lt. lia.
    + destruct q as [|i [|? ?]]; try discriminate. intros H. exists i. split; [reflexivity|]. apply in_seq. apply Nat.ltb_lt in H. lia.
  - rewrite pairs_In. split.
    + intros (k & -> & Hk). cbn [in_brick]. rewrite !andb_true_iff, Nat.eqb_eq, Nat.ltb_lt. split; [|lia]. split; [|reflexivity].
      rewrite Nat.even_spec. exists k. lia.
    + destruct q as [|i [|j [|? ?]]]; try discriminate. cbn [in_brick]. rewrite !andb_true_iff, Nat.eqb_eq, Nat.ltb_lt. intros [[H1 ->] H2].
      apply Nat.even_spec in H1. destruct H1 as (k & ->). exists k. split; [reflexivity|lia].
  - rewrite in_app_iff, pairs_In. cbn [In]. split.
    + intros [(k & -> & Hk)|[<-|[]]]; cbn [in_brick]; rewrite orb_true_iff, !andb_true_iff, !Nat.eqb_eq, Nat.ltb_lt; [left|right; auto].
      split; [|lia]. split; [|reflexivity]. rewrite Nat.odd_spec. exists k. lia.
    + destruct q as [|i [|j [|? ?]]]; try discriminate. cbn [in_brick]. rewrite orb_true_iff, !andb_true_iff, !Nat.eqb_eq, Nat.ltb_lt. intros [[[H1 ->] H2]|[-> ->]]; [left|auto].
      apply Nat.odd_spec in H1. destruct H1 as (k & ->). exists k. split; [f_equal; [lia|f_equal; lia]|lia].
Qed.

Definition kinds (d : string) : list (string * brick) := if String.length d =? 1 then [(d, Single)] else [(d, Even); (d, Odd)].

Lemma moves_kinds : moves = flat_map kinds (su2_list ++ su4_list).
Proof. reflexivity. Qed.

Lemma direction_word d : In d (su2_list ++ su4_list) -> exists w, d = word_name w /\ Forall (fun g => 1 <= g <= 3) w /\ (List.length w = 1 \/ List.length w = 2) /\ String.length d = List.length w.
Proof.
  change (su2_list ++ su4_list) with (map word_name [[1];[2];[3];[1;1];[1;2];[1;3];[2;1];[2;2];[2;3];[3;1];[3;2];[3;3]]).
  rewrite in_map_iff. intros (w & <- & H). exists w. split; [reflexivity|].
  assert (G : Forall (fun w => Forall (fun g => 1 <= g <= 3) w /\ (List.length w = 1 \/ List.length w = 2))
    [[1];[2];[3];[1;1];[1;2];[1;3];[2;1];[2;2];[2;3];[3;1];[3;2];[3;3]]).
  { repeat (constructor; [split; [repeat (constructor; [lia|]); constructor|simpl; auto]|]). constructor. }
  rewrite Forall_forall in G. destruct (G w H) as [G1 G2]. split; [exact G1|]. split; [exact G2|].
  clear. induction w; simpl; auto.
Qed.

Section Choice.
Variables (n : nat) (Os : list (arr C)) (U : mat C) (table : list (key * arr C)).
Hypothesis (Hn : 2 <= n) (Ht : complete_algebra (K := C) n [1; 2] table).

Lemma brick_sum d b : In d (su2_list ++ su4_list) -> String.length d = arity b ->
  sum_get (abs_gradients n (qnode_state U) Os table) (map (fun q => (d, q)) (brick_keys n b)) = Ok (brick_value n Os U table (d, b)).
Proof.
  intros Hd Hl. pose proof Ht as (N & Hk & _). unfold abs_gradients.
  rewrite (sum_get_spec table (fun P => Rabs (gradient n (qnode_state U) Os (a_ent P))) _ (fun k => String.eqb (fst k) d && in_brick n b (snd k))).
  - f_equal. unfold brick_value. cbn [fst snd]. apply rsum_ext. intros e _. symmetry. apply slope_eq.
  - exact N.
  - apply FinFun.Injective_map_NoDup; [intros x y E; congruence|apply brick_keys_NoDup].
  - intros [d' q]. cbn [fst snd]. rewrite andb_true_iff, String.eqb_eq, <- in_brick_keys by auto. split.
    + intros E. apply in_map_iff in E. destruct E as (q' & E & Hq). injection E as -> ->. split; [|auto]. apply Hk. destruct (direction_word d' Hd) as (w & -> & Hw & Hlw & Hlen).
      destruct (brick_keys_tuple n b q Hn Hq) as (L & _ & B & S). exists w. split; [reflexivity|]. split; [simpl; destruct Hlw; auto|].
      split; [exact Hw|]. split; [congruence|]. split; [exact S|exact B].
    + intros (_ & -> & Hq). apply in_map_iff. exists q. auto.
Qed.

Lemma direction_ok d : In d (su2_list ++ su4_list) ->
  direction_omegas n (abs_gradients n (qnode_state U) Os table) d = Ok (map (fun k => (k, brick_value n Os U table k)) (kinds d)).
Proof.
  intros Hd. unfold direction_omegas, kinds. destruct (direction_word d Hd) as (w & _ & _ & Hlw & Hlen). rewrite Hlen. destruct Hlw as [Hlw|Hlw]; rewrite Hlw in *; cbn [Nat.eqb].
  - replace (map (fun i => (d, [i])) (seq 0 n)) with (map (fun q => (d, q)) (brick_keys n Single)) by (cbn [brick_keys]; rewrite map_map; reflexivity).
    rewrite brick_sum by auto. reflexivity.
  - replace (map (fun i => (d, [i; i + 1])) (range2 0 (n - 1))) with (map (fun q => (d, q)) (brick_keys n Even)) by (cbn [brick_keys]; rewrite map_map; reflexivity).
    rewrite brick_sum by auto. cbn [bind].
    assert (E := brick_sum d Odd Hd Hlen). cbn [brick_keys] in E. rewrite map_app, map_map in E. cbn [map] in E. rewrite sum_get_snoc in E.
    destruct (sum_get _ (map (fun i => (d, [i; i + 1])) (range2 1 (n - 1)))) as [o|]; cbn [bind] in *; [|discriminate].
    destruct (dget key_eqb _ _) as [w'|]; cbn [bind] in *; [|discriminate]. injection E as E. cbn [map]. rewrite <- E. reflexivity.
Qed.

Lemma concat_map_filter (f : string -> bool) (v : string * brick -> R) ds :
  List.concat (map (fun d => map (fun k => (k, v k)) (kinds d)) (filter f ds)) = map (fun k => (k, v k)) (filter (fun k => f (fst k)) (flat_map kinds ds)).
Proof.
  induction ds as [|d ds IH]; [reflexivity|]. cbn [filter flat_map]. rewrite filter_app, map_app, <- IH.
  assert (E : filter (fun k => f (fst k)) (kinds d) = if f d then kinds d else []).
  { unfold kinds. destruct (String.length d =? 1); cbn [filter fst]; destruct (f d); reflexivity. }
  rewrite E. destruct (f d); reflexivity.
Qed.

Lemma choice prev : exists k, 
  (do los <- mapM (direction_omegas n (abs_gradients n (qnode_state U) Os table))
               (filter (fun d => match prev with Some p => negb (String.eqb d p) | None => true end) (su2_list ++ su4_list));
   py_max_key (List.concat los)) = Ok k /\
  let ok x := Some (fst x) <> prev in
  ok k /\ exists l1 l2, moves = l1 ++ k :: l2 /\
    Forall (fun x => ok x -> (brick_value n Os U table x < brick_value n Os U table k)%R) l1 /\
    Forall (fun x => ok x -> (brick_value n Os U table x <= brick_value n Os U table k)%R) l2.
Proof.
  set (f := fun d => match prev with Some p => negb (String.eqb d p) | None => true end).
  assert (Ff : forall d, f d = true <-> Some d <> prev).
  { intros d. unfold f. destruct prev as [p|]; [|split; [discriminate|auto]]. rewrite negb_true_iff. split.
    - intros H E. injection E as ->. rewrite String.eqb_refl in H. discriminate.
    - intros H. apply String.eqb_neq. congruence. }
  assert (E : mapM (direction_omegas n (abs_gradients n (qnode_state U) Os table)) (filter f (su2_list ++ su4_list)) =
    Ok (map (fun d => map (fun k => (k, brick_value n Os U table k)) (kinds d)) (filter f (su2_list ++ su4_list)))).
  { apply mapM_ok. intros d Hd. apply filter_In in Hd. apply direction_ok. tauto. }
  rewrite E. cbn [bind]. rewrite concat_map_filter, <- moves_kinds.
  destruct (py_max_key_spec (map (fun k => (k, brick_value n Os U table k)) (filter (fun k => f (fst k)) moves))) as (l1 & k & w & l2 & El & Em & F1 & F2).
  { assert (Hne : exists k, In k moves /\ f (fst k) = true).
    { destruct (f "X"%string) eqn:EX; [exists ("X"%string, Single); split; [simpl; auto|exact EX]|].
      exists ("Y"%string, Single). split; [simpl; auto|]. apply Ff. intros E'. assert (Some "X"%string <> prev) by (rewrite <- E'; discriminate).
      apply Ff in H. congruence. }
    destruct Hne as (k & H1 & H2). intros E'. assert (Hin : In k (filter (fun k => f (fst k)) moves)) by (apply filter_In; auto).
    destruct (filter (fun k => f (fst k)) moves); [destruct Hin|discriminate]. }
  apply map_eq_app in El. destruct El as (m1 & m2 & El & E1 & E2). apply map_eq_cons in E2. destruct E2 as (k' & m3 & -> & E2 & E3).
  injection E2 as -> <-. exists k. split; [exact Em|]. cbv zeta. split.
  { assert (Hin : In k (filter (fun k => f (fst k)) moves)) by (rewrite El; apply in_or_app; right; left; auto). apply filter_In in Hin. apply Ff. tauto. }
  destruct (filter_split _ _ _ _ _ El) as (n1 & n2 & En & G1 & G2). exists n1, n2. split; [exact En|].
  rewrite Forall_forall in F1, F2. split; apply Forall_forall; intros x Hx Hok; apply Ff in Hok.
  - apply (F1 (x, brick_value n Os U table x)). rewrite <- E1. apply in_map_iff. exists x. split; [reflexivity|]. rewrite <- G1. apply filter_In. auto.
  - apply (F2 (x, brick_value n Os U table x)). rewrite <- E3. apply in_map_iff. exists x. split; [reflexivity|]. rewrite <- G2. apply filter_In. auto.
Qed.
End Choice.

(** ** The states *)
Definition last_dir (layers : list (string * brick)) : option string := match rev layers with [] => None | y :: _ => Some (fst y) end.

Lemma adapt_init n obs Fs eta : mapM (full n) obs = Ok Fs -> (0 <= eta <= 1)%R -> exists table,
  AdaptVQELayer n obs eta = Ok (mkadapt n (su2_list ++ su4_list) table Fs None []) /\ complete_algebra (K := C) n [1; 2] table.
Proof.
  intros EF He. destruct (su4_table n true) as (t & Et & H1 & H2). exists t. split.
  - unfold AdaptVQELayer. rewrite EF. cbn [bind]. apply eta_ok in He. rewrite He. cbn [py_assert bind].
    rewrite AlgebraSU4_eq in *. cbn [bind] in *. rewrite Et. reflexivity.
  - apply complete_intro; auto. apply (ks4_NoDup true).
Qed.

Lemma last_dir_ok layers (x : string * brick) : Some (fst x) <> last_dir layers <-> (forall y rest, rev layers = y :: rest -> fst x <> fst y).
Proof.
  unfold last_dir. destruct (rev layers) as [|y r].
  - split; [intros _ y rest E; discriminate|discriminate].
  - split; [intros H y' r' E; injection E as <- _; congruence|]. intros H E. injection E as E. apply (H y r); auto.
Qed.

(** one call, from a state of the expected form *)
Lemma adapt_call_spec n table Os opt layers U p V p' l' : 2 <= n -> complete_algebra (K := C) n [1; 2] table ->
  adapt_call opt (mkadapt n (su2_list ++ su4_list) table Os (last_dir layers) layers) U p = Ok (V, p', l') ->
  exists k, best_move (brick_value n Os U table) layers k /\
    l' = mkadapt n (su2_list ++ su4_list) table Os (last_dir (layers ++ [k])) (layers ++ [k]) /\
    exists h gs W, opt (circuit_vqe n (layers ++ [k])) (p ++ [repeat (/ 10)%R n]) = Ok h /\ In p' h /\
      circuit_vqe n (layers ++ [k]) p' = Ok gs /\ circuit_unitary n (map gate_qop gs) = Ok W /\ V = a_ent W.
Proof.
  intros Hn Ht. unfold adapt_call. cbn [ad_n ad_obs ad_table ad_dirs ad_prev ad_layers].
  destruct (choice n Os U table Hn Ht (last_dir layers)) as (k & Ek & Hk).
  destruct (mapM _ (filter _ _)) as [los|]; cbn [bind] in *; [|discriminate]. rewrite Ek. cbn [bind].
  destruct (opt _ _) as [h|] eqn:Eo; cbn [bind]; [|discriminate]. destruct (last_params h) as [q|] eqn:El; cbn [bind]; [|discriminate].
  destruct (circuit_vqe n (layers ++ [k]) q) as [gs|] eqn:Ec; cbn [bind]; [|discriminate].
  destruct (circuit_unitary n (map gate_qop gs)) as [W|] eqn:EW; cbn [bind]; [|discriminate].
  intros E. injection E as <- <- <-. exists k. split; [|split].
  - destruct Hk as (H1 & l1 & l2 & Em & F1 & F2). split; [apply last_dir_ok; exact H1|]. exists l1, l2. split; [exact Em|].
    split; [eapply Forall_impl; [|exact F1]|eapply Forall_impl; [|exact F2]]; intros x Hx Hok; apply Hx; apply last_dir_ok; exact Hok.
  - unfold last_dir. rewrite rev_app_distr. reflexivity.
  - exists h, gs, W. split; [exact Eo|]. split; [|auto]. unfold last_params in El. destruct (rev h) as [|y r] eqn:Er; [discriminate|].
    injection El as <-. apply in_rev. rewrite Er. left. reflexivity.
Qed.

Lemma adapt_state n table Os opt p0 : 2 <= n -> complete_algebra (K := C) n [1; 2] table -> forall l p,
  adapt_after opt (mkadapt n (su2_list ++ su4_list) table Os None []) p0 l p ->
  l = mkadapt n (su2_list ++ su4_list) table Os (last_dir (ad_layers l)) (ad_layers l) /\ incl (ad_layers l) moves /\
  forall a x y b, ad_layers l = a ++ x :: y :: b -> fst x <> fst y.
Proof.
  intros Hn Ht l p H. induction H as [|l1 p U V p' l2 H (IH & Hi & Hr) E].
  - cbn [ad_layers]. split; [reflexivity|]. split; [intros x []|]. intros [|? ?] x y b E; discriminate.
  - rewrite IH in E. apply adapt_call_spec in E; auto. destruct E as (k & Hb & -> & _). cbn [ad_layers]. split; [reflexivity|].
    destruct Hb as (Hok & m1 & m2 & Em & _). split.
    + intros x Hx. apply in_app_or in Hx. destruct Hx as [Hx|[<-|[]]]; [auto|]. rewrite Em. apply in_or_app. right. left. reflexivity.
    + intros a x y b Eq. destruct b as [|z b] using rev_ind.
      * change (a ++ [x; y]) with (a ++ ([x] ++ [y])) in Eq. rewrite app_assoc in Eq. apply app_inj_tail in Eq. destruct Eq as [Eq <-].
        intros E. apply (Hok x (rev a)); [|auto]. rewrite Eq, rev_app_distr. reflexivity.
      * replace (a ++ x :: y :: b ++ [z]) with ((a ++ x :: y :: b) ++ [z]) in Eq by (rewrite <- app_assoc; reflexivity).
        apply app_inj_tail in Eq. destruct Eq as [Eq _]. apply (Hr a x y b Eq).
Qed.

(** ** C48 *)
Theorem C48_adapt_greedy : forall n obs eta, Forall (fits n) obs -> (0 <= eta <= 1)%R -> 2 <= n ->
  exists l0 Os table, AdaptVQELayer n obs eta = Ok l0 /\ ad_layers l0 = [] /\ Forall2 (embedded n) obs Os /\ complete_algebra (K := C) n [1; 2] table /\
  forall opt p0 l p, adapt_after opt l0 p0 l p ->
    (forall a x y b, ad_layers l = a ++ x :: y :: b -> fst x <> fst y) /\
    (forall U V p' l', adapt_call opt l U p = Ok (V, p', l') ->
       exists k, ad_layers l' = ad_layers l ++ [k] /\ best_move (brick_value n Os U table) (ad_layers l) k).
Proof.
  intros n obs eta Hf He Hn. destruct (obs_embedded n obs Hf) as (Os & EO & HO). destruct (adapt_init n obs Os eta EO He) as (table & El & Ht).
  eexists _, Os, table. split; [exact El|]. split; [reflexivity|]. split; [exact HO|]. split; [exact Ht|].
  intros opt p0 l p H. destruct (adapt_state n table Os opt p0 Hn Ht l p H) as (E1 & _ & E2). split; [exact E2|].
  intros U V p' l' E. rewrite E1 in E. apply adapt_call_spec in E; auto. destruct E as (k & Hb & -> & _). exists k. auto.
Qed.
Print Assumptions C48_adapt_greedy.

(** ** C51 *)

(** [g] rotates by the word d on the qubits q with angle t *)
Definition gate_on (d : string) (row : list R) (g : agate) (i : nat) (q : list nat) : Prop :=
  i < List.length row /\ g = ARot (nth i row 0%R) d q.

(** the gates of a layer: one for every tuple of the pattern and no other, each
    with a parameter of its own in the row; the matrices on the register commute *)
Definition well_scheduled (n : nat) (k : string * brick) (row : list R) (gs : list agate) : Prop :=
  (exists idx qs, Forall2 (fun g iq => gate_on (fst k) row g (fst iq) (snd iq)) gs (combine idx qs) /\
     List.length idx = List.length qs /\ NoDup idx /\ NoDup qs /\ (forall q, In q qs <-> in_brick n (snd k) q = true)) /\
  forall g1 g2, In g1 gs -> In g2 gs -> exists F1 F2, full n (gate_qop g1) = Ok F1 /\ full n (gate_qop g2) = Ok F2 /\
    meq (2 ^ n) (mmul (2 ^ n) (a_ent F1) (a_ent F2)) (mmul (2 ^ n) (a_ent F2) (a_ent F1)).

Definition same_shape (p q : list (list R)) : Prop := map (@List.length R) p = map (@List.length R) q.

(** the history returned by the optimizer is not empty and keeps the shape of
    the parameters *)
Definition keeps_shape (opt : optimizer) : Prop := forall circ p h, opt circ p = Ok h -> h <> [] /\ Forall (same_shape p) h.
(** the optimizer returns when every circuit of this shape can be run on n qubits *)
Definition works (n : nat) (opt : optimizer) : Prop := forall circ p,
  (forall q, same_shape p q -> exists gs, circ q = Ok gs /\ Forall (fits n) (map gate_qop gs)) -> exists h, opt circ p = Ok h.

(** the circuit of the layers with the parameters p *)
Definition scheduled (n : nat) (layers : list (string * brick)) (p : list (list R)) (gs : list agate) : Prop :=
  exists gss, gs = map AH (seq 0 n) ++ List.concat gss /\ List.length gss = List.length layers /\
    forall j k row, nth_error layers j = Some k -> nth_error p j = Some row ->
      exists g, nth_error gss j = Some g /\ well_scheduled n k row g.

Lemma moves_word k : In k moves -> exists w, fst k = word_name w /\ Forall (fun g => 1 <= g <= 3) w /\ List.length w = arity (snd k) /\ String.length (fst k) = arity (snd k).
Proof.
  rewrite moves_kinds, in_flat_map. intros (d & Hd & Hk). destruct (direction_word d Hd) as (w & Ew & Hw & Hl & Hlen).
  unfold kinds in Hk. rewrite Hlen in Hk. destruct Hl as [Hl|Hl]; rewrite Hl in *; cbn in Hk.
  - destruct Hk as [<-|[]]. exists w. auto.
  - destruct Hk as [<-|[<-|[]]]; exists w; auto.
Qed.

Lemma layer_scheduled n k row : 2 <= n -> In k moves -> List.length row = n -> exists gs, layer_gates n k row = Ok gs /\ well_scheduled n k row gs /\
  Forall (fun g => valid_qop n (gate_qop g) /\ local_unitary (gate_qop g)) gs.
Proof.
  intros Hn Hk Hr. destruct (moves_word k Hk) as (w & Ew & Hw & Hl & Hlen). destruct k as [d b]. cbn [fst snd] in *. subst d.
  destruct (layer_gates_ok n (word_name w) b row Hn Hr Hlen) as (idx & E & Li & Ni & Bi). eexists. split; [exact E|].
  assert (In' : forall g, In g (map (fun iw => ARot (nth (fst iw) row 0%R) (word_name w) (snd iw)) (combine idx (brick_keys n b))) ->
    exists t q, g = ARot t (word_name w) q /\ In q (brick_keys n b)).
  { intros g Hg. apply in_map_iff in Hg. destruct Hg as ([i q] & <- & Hg). apply in_combine_r in Hg. cbn [fst snd]. eauto. }
  split; [split|].
  - exists idx, (brick_keys n b). split; [|split; [exact Li|split; [exact Ni|split; [apply brick_keys_NoDup|intros q; apply in_brick_keys; exact Hn]]]].
    cbn [fst]. clear E In'. revert Li. generalize (brick_keys n b). clear Ni. induction idx as [|i idx IH]; intros [|q qs] Li; try discriminate; cbn [combine map]; constructor.
    + pose proof (Forall_inv Bi) as B1. cbn beta in B1. split; [cbn [fst]; lia|reflexivity].
    + apply IH; [exact (Forall_inv_tail Bi)|]. cbn [List.length] in Li. lia.
  - intros g1 g2 H1 H2. destruct (In' g1 H1) as (t1 & q1 & -> & Q1). destruct (In' g2 H2) as (t2 & q2 & -> & Q2).
    apply (rot_commute n b); auto.
  - apply Forall_forall. intros g Hg. destruct (In' g Hg) as (t & q & -> & Q). destruct (brick_keys_tuple n b q Hn Q) as (L & N & B & _).
    assert (w <> []) by (intros ->; destruct b; discriminate). split; [apply rot_valid; auto; congruence|].
    unfold local_unitary. cbn [gate_qop q_wires q_matrix a_ent]. rewrite word_of_name by auto. rewrite L, Hl.
    apply expm_unitary. intros r c Hr' Hc. pose proof (pword_herm (K := C) w (letters_le w Hw)) as Hh. rewrite Hl in Hh. specialize (Hh r c Hr' Hc).
    unfold madj, mscale in *. rewrite kconj_mul, Hh. unfold mit. cbn [kmul kconj CStar]. destruct (pword w r c) as [x y].
    apply C_ext; simpl; ring.
Qed.

Lemma mapM_Forall2 {A B} (f : A -> res B) (P : A -> B -> Prop) l : Forall (fun x => exists y, f x = Ok y /\ P x y) l ->
  exists ys, mapM f l = Ok ys /\ Forall2 P l ys.
Proof.
  induction 1 as [|x l (y & Ey & Hy) _ (ys & E & F)]; [exists []; auto|]. exists (y :: ys). cbn [mapM]. rewrite Ey, E. auto.
Qed.

Lemma numbered_nth {A} (l : list A) : forall s j x, nth_error l j = Some x -> nth_error (combine (seq s (List.length l)) l) j = Some (s + j, x).
Proof.
  induction l as [|a l IH]; intros s [|j] x H; simpl in *; try discriminate.
  - injection H as ->. f_equal. f_equal. lia.
  - rewrite (IH (S s) j x H). f_equal. f_equal. lia.
Qed.
Lemma numbered_In {A} (l : list A) : forall s j x, In (j, x) (combine (seq s (List.length l)) l) -> s <= j /\ nth_error l (j - s) = Some x.
Proof.
  induction l as [|a l IH]; intros s j x H; simpl in *; [tauto|]. destruct H as [H|H].
  - injection H as <- <-. rewrite Nat.sub_diag. auto.
  - destruct (IH (S s) j x H) as [H1 H2]. split; [lia|]. replace (j - s) with (S (j - S s)) by lia. exact H2.
Qed.

Lemma Forall2_len {A B} (P : A -> B -> Prop) l m : Forall2 P l m -> List.length l = List.length m.
Proof. induction 1; simpl; auto. Qed.
Lemma Forall2_nth_error {A B} (P : A -> B -> Prop) l m : Forall2 P l m -> forall j x, nth_error l j = Some x -> exists y, nth_error m j = Some y /\ P x y.
Proof. induction 1; intros [|j] z Hz; simpl in *; try discriminate; [injection Hz as <-; eauto|eauto]. Qed.

Lemma circuit_scheduled n layers p : 2 <= n -> incl layers moves -> List.length layers <= List.length p -> Forall (fun r => List.length r = n) p ->
  exists gs, circuit_vqe n layers p = Ok gs /\ scheduled n layers p gs /\ Forall (fun g => valid_qop n (gate_qop g) /\ local_unitary (gate_qop g)) gs.
Proof.
  intros Hn Hi Hl Hr. unfold circuit_vqe.
  destruct (mapM_Forall2 (fun jl => do row <- list_get p (fst jl); layer_gates n (snd jl) row)
    (fun jl g => exists row, nth_error p (fst jl) = Some row /\ well_scheduled n (snd jl) row g /\
       Forall (fun g => valid_qop n (gate_qop g) /\ local_unitary (gate_qop g)) g) (combine (seq 0 (List.length layers)) layers)) as (gss & E & F).
  { apply Forall_forall. intros [j k] Hjk. apply numbered_In in Hjk. destruct Hjk as [_ Hjk]. rewrite Nat.sub_0_r in Hjk. cbn [fst snd].
    assert (Hj : j < List.length p). { apply Nat.lt_le_trans with (List.length layers); [|exact Hl]. apply nth_error_Some. congruence. }
    destruct (nth_error p j) as [row|] eqn:Er; [|apply nth_error_None in Er; lia]. unfold list_get. rewrite Er. cbn [bind].
    destruct (layer_scheduled n k row Hn) as (gs & E & W & V).
    { apply Hi. eapply nth_error_In. exact Hjk. } { rewrite Forall_forall in Hr. apply Hr. eapply nth_error_In. exact Er. }
    exists gs. split; [exact E|]. exists row. auto. }
  rewrite E. cbn [bind]. eexists. split; [reflexivity|]. split.
  - exists gss. split; [reflexivity|]. split.
    + apply Forall2_len in F. rewrite <- F, combine_length, seq_length. lia.
    + intros j k row Hk Hrow. apply (numbered_nth layers 0) in Hk. destruct (Forall2_nth_error _ _ _ F _ _ Hk) as (g & Eg & row' & Er' & W & _).
      cbn [fst snd Nat.add] in *. exists g. split; [exact Eg|]. congruence.
  - apply Forall_app. split.
    + apply Forall_forall. intros g Hg. apply in_map_iff in Hg. destruct Hg as (w & <- & Hw). apply in_seq in Hw. split; [|apply hadamard_unitary].
      split; [discriminate|]. cbn [gate_qop q_wires q_matrix]. split; [constructor; [simpl; tauto|constructor]|]. split; [constructor; [lia|constructor]|]. split; reflexivity.
    + clear E. induction F as [|x g l gs (_ & _ & _ & V) _ IH]; cbn [List.concat]; [constructor|]. apply Forall_app. auto.
Qed.

Lemma shape_rows n p q : Forall (fun r => List.length r = n) p -> same_shape p q -> List.length q = List.length p /\ Forall (fun r => List.length r = n) q.
Proof.
  intros Hp Hs. unfold same_shape in Hs. split; [apply (f_equal (@List.length nat)) in Hs; rewrite !map_length in Hs; auto|].
  apply Forall_forall. intros r Hr. apply (in_map (@List.length R)) in Hr. rewrite <- Hs in Hr. apply in_map_iff in Hr.
  destruct Hr as (r' & <- & Hr'). rewrite Forall_forall in Hp. auto.
Qed.

Theorem C51_adapt_schedule : forall n obs eta, Forall (fits n) obs -> (0 <= eta <= 1)%R -> 2 <= n ->
  exists l0, AdaptVQELayer n obs eta = Ok l0 /\ forall opt l p, keeps_shape opt -> adapt_after opt l0 [] l p ->
    List.length p = List.length (ad_layers l) /\ Forall (fun r => List.length r = n) p /\
    (forall q, same_shape p q -> exists gs, circuit_vqe n (ad_layers l) q = Ok gs /\ scheduled n (ad_layers l) q gs) /\
    (works n opt -> forall U, exists V p' l', adapt_call opt l U p = Ok (V, p', l')) /\
    (forall U V p' l', adapt_call opt l U p = Ok (V, p', l') -> unitary2 (2 ^ n) V /\
       exists gs Fs, circuit_vqe n (ad_layers l') p' = Ok gs /\ mapM (full n) (map gate_qop gs) = Ok Fs /\
         meq (2 ^ n) V (mprod (2 ^ n) (map a_ent (rev Fs)))).
Proof.
  intros n obs eta Hf He Hn. destruct (obs_embedded n obs Hf) as (Os & EO & HO). destruct (adapt_init n obs Os eta EO He) as (table & El & Ht).
  eexists. split; [exact El|]. intros opt l p Hs H. destruct (adapt_state n table Os opt [] Hn Ht l p H) as (E1 & Hi & _).
  assert (Ext : forall layers p, List.length p = List.length layers -> Forall (fun r => List.length r = n) p -> forall k : string * brick,
    List.length (p ++ [repeat (/ 10)%R n]) = List.length (layers ++ [k]) /\ Forall (fun r => List.length r = n) (p ++ [repeat (/ 10)%R n])).
  { intros ls q H1 H2 k. rewrite !app_length, H1. split; [reflexivity|]. apply Forall_app. split; [exact H2|]. constructor; [apply repeat_length|constructor]. }
  assert (Inv : List.length p = List.length (ad_layers l) /\ Forall (fun r => List.length r = n) p).
  { clear E1 Hi. induction H as [|l1 p U V p' l2 H IH E]; [split; [reflexivity|constructor]|].
    destruct (adapt_state n table Os opt [] Hn Ht _ _ H) as (E1 & _ & _). rewrite E1 in E.
    apply adapt_call_spec in E; auto. destruct E as (k & _ & -> & h & gs & W & Eo & Ip & _).
    destruct IH as [I1 I2]. destruct (Ext _ p I1 I2 k) as [J1 J2]. destruct (Hs _ _ _ Eo) as [_ Hh]. rewrite Forall_forall in Hh.
    destruct (shape_rows n _ p' J2 (Hh p' Ip)) as [K1 K2]. cbn [ad_layers]. split; [congruence|exact K2]. }
  destruct Inv as [I1 I2]. split; [exact I1|]. split; [exact I2|]. split; [|split].
  - intros q Hq. destruct (shape_rows n p q I2 Hq) as [L1 L2]. destruct (circuit_scheduled n (ad_layers l) q Hn Hi) as (gs & E & S & _); [lia|auto|]. eauto.
  - intros Hw U. rewrite E1. unfold adapt_call. cbn [ad_n ad_obs ad_table ad_dirs ad_prev ad_layers].
    destruct (choice n Os U table Hn Ht (last_dir (ad_layers l))) as (k & Ek & _ & m1 & m2 & Em & _).
    destruct (mapM _ (filter _ _)) as [los|]; cbn [bind] in *; [|discriminate]. rewrite Ek. cbn [bind].
    assert (Hi' : incl (ad_layers l ++ [k]) moves).
    { apply incl_app; [exact Hi|]. intros x [<-|[]]. rewrite Em. apply in_or_app. right. left. reflexivity. }
    destruct (Ext _ p I1 I2 k) as [J1 J2].
    destruct (Hw (circuit_vqe n (ad_layers l ++ [k])) (p ++ [repeat (/ 10)%R n])) as (h & Eo).
    { intros q Hq. destruct (shape_rows n _ q J2 Hq) as [L1 L2]. destruct (circuit_scheduled n _ q Hn Hi') as (gs & E & _ & S); [lia|auto|].
      exists gs. split; [exact E|]. apply Forall_map. eapply Forall_impl; [|exact S]. simpl. tauto. }
    rewrite Eo. cbn [bind]. destruct (Hs _ _ _ Eo) as [Hne Hh]. unfold last_params. destruct (rev h) as [|q r] eqn:Er.
    { apply (f_equal (@rev _)) in Er. rewrite rev_involutive in Er. contradiction. }
    assert (Iq : In q h) by (apply in_rev; rewrite Er; left; reflexivity). rewrite Forall_forall in Hh.
    destruct (shape_rows n _ q J2 (Hh q Iq)) as [L1 L2]. cbn [bind].
    destruct (circuit_scheduled n _ q Hn Hi') as (gs & E & _ & S); [lia|auto|]. rewrite E. cbn [bind].
    destruct (circuit_unitary_spec n (map gate_qop gs)) as (W & EW & _); [apply Forall_map; eapply Forall_impl; [|exact S]; simpl; tauto|].
    rewrite EW. cbn [bind]. eauto.
  - intros U V p' l' E. rewrite E1 in E. apply adapt_call_spec in E; auto. destruct E as (k & Hb & -> & h & gs & W & Eo & Ip & Ec & EW & ->).
    destruct Hb as (_ & m1 & m2 & Em & _).
    assert (Hi' : incl (ad_layers l ++ [k]) moves).
    { apply incl_app; [exact Hi|]. intros x [<-|[]]. rewrite Em. apply in_or_app. right. left. reflexivity. }
    destruct (Ext _ p I1 I2 k) as [J1 J2]. destruct (Hs _ _ _ Eo) as [_ Hh]. rewrite Forall_forall in Hh.
    destruct (shape_rows n _ p' J2 (Hh p' Ip)) as [L1 L2].
    destruct (circuit_scheduled n _ p' Hn Hi') as (gs' & E' & _ & S); [lia|auto|]. rewrite Ec in E'. injection E' as <-.
    assert (Hv : Forall (PropCircuit.fits n) (map gate_qop gs)) by (apply Forall_map; eapply Forall_impl; [|exact S]; simpl; tauto).
    destruct (PropCircuit.C39_circuit_unitary C CStar n (map gate_qop gs) [] Hv (Forall_nil _)) as (W' & _ & _ & Fs & EW' & _ & _ & _ & _ & EF & M & Hu & _).
    rewrite EW in EW'. injection EW' as <-. split.
    + apply Hu. apply Forall_map. eapply Forall_impl; [|exact S]. simpl. tauto.
    + exists gs, Fs. cbn [ad_layers]. auto.
Qed.
Print Assumptions C51_adapt_schedule.

(** the observables of C48_case with an optimizer that returns the given parameters *)
Definition idle : optimizer := fun _ p => Ok [p].
Example C51_case : Forall (fits 3) obs4 /\ (0 <= 1 <= 1)%R /\ 2 <= 3 /\ keeps_shape idle /\ works 3 idle /\
  exists l0 l p, AdaptVQELayer 3 obs4 1 = Ok l0 /\ adapt_after idle l0 [] l p /\ List.length (ad_layers l) = 2.
Proof.
  destruct C48_case as (Hf & He & _). split; [exact Hf|]. split; [exact He|]. split; [lia|].
  assert (K : keeps_shape idle). { intros circ p h E. injection E as <-. split; [discriminate|]. repeat constructor. }
  assert (W : works 3 idle) by (intros circ p _; eexists; reflexivity).
  split; [exact K|]. split; [exact W|]. assert (H2 : 2 <= 3) by lia.
  destruct (C51_adapt_schedule 3 obs4 1 Hf He H2) as (l0 & El & H). destruct (C48_adapt_greedy 3 obs4 1 Hf He H2) as (l0' & Os & t & El' & E0 & _ & _ & G).
  rewrite El in El'. injection El' as <-.
  pose proof (adapt_start idle l0 []) as S0. destruct (H idle _ _ K S0) as (_ & _ & _ & H1 & _). destruct (H1 W mid) as (V1 & p1 & l1 & E1).
  pose proof (adapt_step _ _ _ _ _ _ _ _ _ S0 E1) as S1. destruct (H idle _ _ K S1) as (_ & _ & _ & H3 & _). destruct (H3 W V1) as (V2 & p2 & l2 & E2).
  pose proof (adapt_step _ _ _ _ _ _ _ _ _ S1 E2) as S2. exists l0, l2, p2. split; [exact El|]. split; [exact S2|].
  destruct (proj2 (G idle _ _ _ S0) _ _ _ _ E1) as (k1 & K1 & _). destruct (proj2 (G idle _ _ _ S1) _ _ _ _ E2) as (k2 & K2 & _).
  rewrite K2, K1, E0. reflexivity.
Qed.

(** ** C71 *)
Lemma mapM_ext {A B} (f g : A -> res B) l : (forall x, In x l -> f x = g x) -> mapM f l = mapM g l.
Proof. induction l as [|x l IH]; intros H; [reflexivity|]. cbn [mapM]. rewrite H by (left; reflexivity). rewrite IH by (intros; apply H; right; auto). reflexivity. Qed.
Lemma circuit_snoc n layers k p row : List.length p = List.length layers ->
  circuit_vqe n (layers ++ [k]) (p ++ [row]) = do g <- circuit_vqe n layers p; do r <- layer_gates n k row; Ok (g ++ r).
Proof.
  intros Hl. unfold circuit_vqe. rewrite app_length, seq_app, AdaptProofs.combine_app, mapM_app by (apply seq_length). cbn [List.length seq combine mapM fst snd Nat.add].
  assert (E1 : mapM (fun jl => do r <- list_get (p ++ [row]) (fst jl); layer_gates n (snd jl) r) (combine (seq 0 (List.length layers)) layers) =
               mapM (fun jl => do r <- list_get p (fst jl); layer_gates n (snd jl) r) (combine (seq 0 (List.length layers)) layers)).
  { apply mapM_ext. intros [j x] Hj. apply in_combine_l in Hj. apply in_seq in Hj. cbn [fst snd]. unfold list_get. rewrite nth_error_app1 by lia. reflexivity. }
  assert (E2 : list_get (p ++ [row]) (List.length layers) = Ok row).
  { unfold list_get. rewrite <- Hl, nth_error_app2, Nat.sub_diag by lia. reflexivity. }
  rewrite E1, E2. clear E1 E2. cbn [bind].
  destruct (mapM _ _) as [gs|]; cbn [bind]; [|reflexivity]. destruct (layer_gates n k row) as [r|]; cbn [bind]; [|reflexivity].
  rewrite concat_app. cbn [List.concat]. rewrite app_nil_r, app_assoc. reflexivity.
Qed.

(** The documented meaning of the parameters: a row for every layer. A layer
    added to an object used with no initial parameters reads the row added with
    it: rows that differ everywhere give different circuits. *)
Theorem C71_own_row_partial : forall n obs eta, Forall (fits n) obs -> (0 <= eta <= 1)%R -> 2 <= n ->
  exists l0, AdaptVQELayer n obs eta = Ok l0 /\ forall opt l p U V p' l', keeps_shape opt -> adapt_after opt l0 [] l p ->
    adapt_call opt l U p = Ok (V, p', l') -> forall r1 r2, List.length r1 = n -> List.length r2 = n ->
    (forall i, i < n -> nth i r1 0%R <> nth i r2 0%R) ->
    circuit_vqe n (ad_layers l') (p ++ [r1]) <> circuit_vqe n (ad_layers l') (p ++ [r2]).
Proof.
  intros n obs eta Hf He Hn. destruct (obs_embedded n obs Hf) as (Os & EO & HO). destruct (adapt_init n obs Os eta EO He) as (table & El & Ht).
  destruct (C51_adapt_schedule n obs eta Hf He Hn) as (l0 & El0 & H). exists l0. split; [exact El0|]. rewrite El in El0. injection El0 as <-.
  intros opt l p U V p' l' Hs Ha E r1 r2 H1 H2 Hr. destruct (H opt l p Hs Ha) as (Hl & _ & Hc & _).
  destruct (adapt_state n table Os opt [] Hn Ht l p Ha) as (E1 & Hi & _). rewrite E1 in E. apply adapt_call_spec in E; auto.
  destruct E as (k & (_ & m1 & m2 & Em & _) & -> & _). cbn [ad_layers]. rewrite !circuit_snoc by exact Hl.
  destruct (Hc p eq_refl) as (gs & Eg & _). rewrite Eg. cbn [bind].
  assert (Ik : In k moves) by (rewrite Em; apply in_or_app; right; left; reflexivity). destruct (moves_word k Ik) as (w & _ & _ & _ & Hlen). destruct k as [d b].
  pose proof (layer_gates_inj n d b r1 r2 Hn H1 H2 Hlen Hr) as Hne.
  destruct (layer_scheduled n (d, b) r1 Hn Ik H1) as (g1 & G1 & _). destruct (layer_scheduled n (d, b) r2 Hn Ik H2) as (g2 & G2 & _).
  rewrite G1, G2 in *. cbn [bind]. intros E. injection E as E. apply app_inv_head in E. congruence.
Qed.
Print Assumptions C71_own_row_partial.

(** With initial parameters, as the docstring of the optimizer allows, the layer
    reads the caller's row and never the one added for it: the circuits do not
    depend on the added row. *)
Theorem C71_own_row_refuted : exists n obs l0 p0, 2 <= n /\ Forall (fits n) obs /\ Forall (fun r => List.length r = n) p0 /\ AdaptVQELayer n obs 1 = Ok l0 /\
  (exists V p' l', adapt_call idle l0 mid p0 = Ok (V, p', l')) /\
  forall opt U V p' l', adapt_call opt l0 U p0 = Ok (V, p', l') ->
    forall r1 r2, circuit_vqe n (ad_layers l') (p0 ++ [r1]) = circuit_vqe n (ad_layers l') (p0 ++ [r2]).
Proof.
  destruct C48_case as (Hf & He & _). assert (Hn : 2 <= 3) by lia.
  destruct (obs_embedded 3 obs4 Hf) as (Os & EO & HO). destruct (adapt_init 3 obs4 Os 1 EO He) as (table & El & Ht).
  exists 3, obs4. eexists. exists [[0; 0; 0]%R]. split; [lia|]. split; [exact Hf|]. split; [constructor; [reflexivity|constructor]|]. split; [exact El|].
  split.
  - destruct (choice 3 Os mid table Hn Ht None) as (k & Ek & _ & m1 & m2 & Em & _).
    unfold adapt_call. cbn [ad_n ad_obs ad_table ad_dirs ad_prev ad_layers].
    destruct (mapM _ (filter _ _)) as [los|]; cbn [bind] in *; [|discriminate]. rewrite Ek. cbn [bind idle app]. unfold last_params. cbn [rev app bind].
    destruct (circuit_scheduled 3 [k] [[0; 0; 0]%R; repeat (/ 10)%R 3] Hn) as (gs & E & _ & S).
    { intros x [<-|[]]. rewrite Em. apply in_or_app. right. left. reflexivity. } { simpl. lia. } { constructor; [reflexivity|constructor; [apply repeat_length|constructor]]. }
    rewrite E. cbn [bind].
    destruct (circuit_unitary_spec 3 (map gate_qop gs)) as (W & EW & _); [apply Forall_map; eapply Forall_impl; [|exact S]; simpl; tauto|].
    rewrite EW. cbn [bind]. eauto.
  - intros opt U V p' l' E r1 r2. change (@None string) with (last_dir []) in E. apply adapt_call_spec in E; auto. destruct E as (k & _ & -> & _).
    reflexivity.
Qed.
Print Assumptions C71_own_row_refuted.

(** ** C72 *)
Lemma dget_In_keys {B} (d : list (key * B)) (k : key) : In k (map fst d) -> exists v, dget key_eqb d k = Ok v.
Proof.
  induction d as [|[a b] r IH]; intros H; simpl in *; [tauto|]. destruct (key_eqb a k) eqn:E; [eauto|]. destruct H as [->|H]; [|auto].
  rewrite (proj2 (key_eqb_spec k k) eq_refl) in E. discriminate.
Qed.

(** on one qubit the layer can be made but not called *)
Theorem C72_one_qubit_refuted : forall obs eta, Forall (fits 1) obs -> (0 <= eta <= 1)%R ->
  exists l, AdaptVQELayer 1 obs eta = Ok l /\ forall opt U p, adapt_call opt l U p = Err KeyError.
Proof.
  intros obs eta Hf He. destruct (obs_embedded 1 obs Hf) as (Os & EO & HO). destruct (adapt_init 1 obs Os eta EO He) as (table & El & Ht).
  eexists. split; [exact El|]. intros opt U p. unfold adapt_call. cbn [ad_n ad_obs ad_table ad_dirs ad_prev ad_layers].
  set (om := abs_gradients 1 (qnode_state U) Os table).
  assert (Ek : map fst om = map fst table) by (unfold om, abs_gradients; rewrite map_map; reflexivity).
  destruct Ht as (_ & Hk & _).
  assert (S : forall d, In d su2_list -> exists v, dget key_eqb om ((d, [0]) : key) = Ok v).
  { intros d Hd. destruct (dget_In_keys om (d, [0])) as (v & Ev); [|eauto]. rewrite Ek. apply Hk. destruct (direction_word d) as (w & Ew & Hw & Hl & Hlen); [apply in_or_app; auto|].
    exists w. split; [exact Ew|]. assert (List.length w = 1). { rewrite <- Hlen. destruct Hd as [<-|[<-|[<-|[]]]]; reflexivity. }
    split; [simpl; auto|]. split; [exact Hw|]. split; [auto|]. split; [constructor; constructor|constructor; [lia|constructor]]. }
  assert (M : dget key_eqb om (("XX"%string, [0; 0]) : key) = Err KeyError).
  { apply (dget_missing key_eqb key_eqb_spec). rewrite Ek. intros Hin. apply Hk in Hin. destruct Hin as (w & _ & _ & _ & _ & Hs & _).
    inversion Hs as [|? ? _ Hs']; subst. inversion Hs'; subst. lia. }
  destruct (S "X"%string) as (vx & Ex); [simpl; auto|]. destruct (S "Y"%string) as (vy & Ey); [simpl; auto|]. destruct (S "Z"%string) as (vz & Ez); [simpl; auto|].
  cbn [filter su2_list su4_list app mapM].
  unfold direction_omegas at 1 2 3 4. cbn [String.length Nat.eqb seq map]. unfold sum_get. cbn [mapM]. rewrite Ex, Ey, Ez. cbn [bind].
  cbn [range2 Nat.sub]. unfold range2. cbn [Nat.sub Nat.add seq map mapM bind]. 
  change ((0 - 1 + 1) / 2) with 0. change (1 / 2) with 0. cbn [seq map mapM bind]. rewrite M. reflexivity.
Qed.
Print Assumptions C72_one_qubit_refuted.
Example C72_case : Forall (fits 1) [mkqop (mkarr 2 2 (sigma 3)) [0]].
Proof. constructor; [|constructor]. split; [discriminate|]. split; [constructor; [simpl; tauto|constructor]|]. split; [constructor; [lia|constructor]|]. split; reflexivity. Qed.
