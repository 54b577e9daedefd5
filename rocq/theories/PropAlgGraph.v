(** Property C85: the graphs of repeated commutators in experiments_paper/algebra_graphs.py. *)
From Coq Require Import List Arith ZArith QArith Qcanon Bool Lia Permutation Sorted String.
From Verif Require Import Py StarRing Matrix GaussQ PauliSpec PauliModel PauliSem PauliProofs PauliProofs2 PauliSumModel AlgebraModel AlgGraphModel AlgGraphSpec
  AlgGraphProofs AlgGraphProofs2 AlgGraphSem AlgGraphProofs3 AlgGraphProofs4.
From Coq Require Import List.
Import ListNotations.
Local Open Scope nat_scope.

Lemma three_good gens : Forall three_qubit gens -> Forall good gens.
Proof. intros H. eapply Forall_impl; [|exact H]. apply three_qubit_good. Qed.

Lemma keys_sound gens m d : Forall good gens -> good m -> rlev (keys_of gens) d (nk m) ->
  exists A, nested gens d A /\ proportional (denote 3 m) A.
Proof.
  intros G Gm R. destruct (rlev_nested gens d (nk m) G R) as (A & N & P). exists A. split; auto.
  eapply proportional_trans; [apply denote_key; auto|]. apply proportional_sym; auto.
Qed.

Lemma keys_complete gens (ms : list mono) d A : Forall good gens -> Forall good ms ->
  (forall k, reach (keys_of gens) k -> In k (map nk ms)) -> nested gens d A ->
  meq 8 A (fun _ _ => g0) \/ exists m, In m ms /\ proportional A (denote 3 m).
Proof.
  intros G Gm H N. destruct (nested_rlev gens d A G N) as [Z|(k & R & P)]; [auto|]. right.
  assert (Hk : In k (map nk ms)) by (apply H, rlev_reach; eauto).
  apply in_map_iff in Hk. destruct Hk as (m & <- & Hm). exists m. split; auto.
  rewrite Forall_forall in Gm. eapply proportional_trans; [exact P|]. apply proportional_sym, denote_key; auto.
Qed.

(** C85, generate_product_algebra_graph. From any list of three-qubit monomials with
    coefficients 1, -1, i, -i the loop ends, whatever order the sets are walked in.
    The nodes are the nested commutators of the list, each once up to a rational
    factor, and every nested commutator that is not zero is a node. Missing for the
    full claim: the identity is a node as well ([C85_identity_refuted]). Two nodes
    are adjacent when one is the commutator of the other with a node, or one is the
    identity. *)
Theorem C85_graph_partial : forall ord gens, reorders ord -> Forall three_qubit gens ->
  exists k g, (forall fuel, k <= fuel -> generate_product_algebra_graph ord fuel gens = Ok g) /\
    (forall m, In m (g_nodes g) -> (exists d A, nested gens d A /\ proportional (denote 3 m) A) \/ proportional (denote 3 m) mid) /\
    (forall d A, nested gens d A -> meq 8 A (fun _ _ => g0) \/ exists m, In m (g_nodes g) /\ proportional A (denote 3 m)) /\
    (gens <> [] -> exists m, In m (g_nodes g) /\ proportional (denote 3 m) mid) /\
    no_repeats (g_nodes g) /\
    (forall u v, In u (g_nodes g) -> In v (g_nodes g) ->
       (has_edge g u v = true <-> proportional (denote 3 u) mid \/ proportional (denote 3 v) mid \/
          commutator_with (g_nodes g) u v \/ commutator_with (g_nodes g) v u)).
Proof.
  intros ord gens Ho T. pose proof (three_good gens T) as G.
  destruct (generate_spec ord gens Ho G) as (k & g & F & I & C & H). exists k, g. split; [exact F|].
  pose proof (i_good _ g I) as Gg. pose proof Gg as Gf. rewrite Forall_forall in Gf.
  assert (Hs : forall x, keys_of gens x -> In x (NK g)) by (intros x (m & Hm & <-); auto).
  split; [|split; [|split; [|split]]].
  - intros m Hm. destruct (i_sound _ g I (nk m)) as [R|R]; [apply in_map; auto| |].
    + left. apply rlev_reach in R. destruct R as (d & R). exists d. apply keys_sound; auto.
    + right. apply good_id; auto.
  - intros d A N. apply (keys_complete gens (g_nodes g) d A); auto.
    intros x R. apply (closed_reach (keys_of gens)); auto.
  - intros Hne. destruct gens as [|m0 gens]; [congruence|].
    assert (H0 : In (nk m0) (NK g)) by (apply H; left; auto).
    destruct (C (nk m0) (nk m0) H0 H0) as [_ P]. destruct (P eq_refl) as [L _].
    assert (Hi : In idkey (NK g)) by (destruct L as [L|L]; apply (i_end _ g I) in L; tauto).
    apply in_map_iff in Hi. destruct Hi as (m & E & Hm). exists m. split; auto. apply good_id; auto.
  - apply keys_no_repeats; auto. apply (i_nd _ g I).
  - assert (Cw : forall u v, In u (g_nodes g) -> In v (g_nodes g) -> (commutator_with (g_nodes g) u v <->
       exists b, In b (NK g) /\ anti (snd (nk u)) (snd b) = true /\ nk v = aprod (nk u) b)).
    { intros u v Hu Hv. split.
      - intros (b & Hb & P). apply comm_nodes in P; auto. exists (nk b). split; [apply in_map; auto|exact P].
      - intros (x & Hx & P). apply in_map_iff in Hx. destruct Hx as (b & <- & Hb). exists b. split; auto. apply comm_nodes; auto. }
    intros u v Hu Hv. rewrite (has_edge_spec _ g u v I) by (apply Gf; auto).
    rewrite (linked_iff _ g (nk u) (nk v) I C) by (apply in_map; auto).
    rewrite (good_id u), (good_id v), (Cw u v), (Cw v u) by auto. reflexivity.
Qed.
Print Assumptions C85_graph_partial.

(** C85, generate_product_algebra_digraph. From a non-empty list the loop ends; the
    nodes are exactly the nested commutators that are not zero, each once, and the
    attribute [depth] of a node is the least nesting that yields it. A node of positive
    depth has edges from two nodes of smaller depth whose commutator it is. *)
Theorem C85_digraph : forall ord gens, reorders ord -> Forall three_qubit gens -> gens <> [] ->
  exists k g, (forall fuel, k <= fuel -> generate_product_algebra_digraph ord fuel gens = Ok g) /\
    (forall m o, In (m, o) (d_nodes g) -> exists e, o = Some e /\
       (exists A, nested gens e A /\ proportional (denote 3 m) A) /\
       (forall e' A, nested gens e' A -> proportional A (denote 3 m) -> e <= e')) /\
    (forall d A, nested gens d A -> meq 8 A (fun _ _ => g0) \/
       exists m o, In (m, o) (d_nodes g) /\ proportional A (denote 3 m)) /\
    (forall m e, In (m, Some (S e)) (d_nodes g) -> exists a b i j,
       In (a, Some i) (d_nodes g) /\ In (b, Some j) (d_nodes g) /\ i <= e /\ j <= e /\
       d_has_edge g a m = true /\ d_has_edge g b m = true /\
       proportional (denote 3 m) (msub (mmul 8 (denote 3 a) (denote 3 b)) (mmul 8 (denote 3 b) (denote 3 a)))) /\
    no_repeats (map fst (d_nodes g)).
Proof.
  intros ord gens Ho T Hne. pose proof (three_good gens T) as G.
  destruct (d_generate_spec ord gens Ho G Hne) as (k & g & F & I & D & R & Pa). exists k, g. split; [exact F|].
  pose proof (di_good g I) as Gg. pose proof Gg as Gf. rewrite Forall_forall in Gf.
  split; [|split; [|split]].
  - intros m o Hm. assert (Gm : good m) by (apply Gf; unfold DN; apply in_map_iff; exists (m, o); auto).
    destruct (D m o Hm) as (e & -> & (Re & Le)). exists e. split; [auto|]. split; [apply keys_sound; auto|].
    intros e' A N P. apply Le. destruct (nested_rlev gens e' A G N) as [Z|(x & Rx & Px)].
    + exfalso. apply (kmat_nonzero (nk m)); [apply good_ok; auto|].
      assert (P' : proportional (kmat (nk m)) A).
      { apply proportional_sym. eapply proportional_trans; [exact P|apply denote_key; auto]. }
      destruct P' as (q & Hq & E). rewrite E, Z. intros i j _ _. unfold mscale. simpl. ring.
    + replace (nk m) with x; auto. apply kmat_inj; [exact (rlev_ok gens e' x G Rx)|apply good_ok; auto|].
      eapply proportional_trans; [apply proportional_sym; exact Px|]. eapply proportional_trans; [exact P|apply denote_key; auto].
  - intros d A N. destruct (keys_complete gens (DN g) d A G Gg R N) as [Z|(m & Hm & P)]; [auto|]. right.
    unfold DN in Hm. apply in_map_iff in Hm. destruct Hm as ([m' o] & <- & Hm). exists m', o. auto.
  - assert (Gn : forall x o, In (x, o) (d_nodes g) -> good x).
    { intros x o Hx. apply Gf. unfold DN. apply in_map_iff. exists (x, o); auto. }
    intros m e Hm. destruct (Pa m e Hm) as (a & b & i & j & Ha & Hb & Hi & Hj & Han & En & X1 & X2). exists a, b, i, j.
    repeat (split; [assumption|]). apply comm_nodes; eauto.
  - apply keys_no_repeats; auto. apply (di_nd g I).
Qed.
Print Assumptions C85_digraph.

(** C85, what raises: an empty list for the directed graph, and a first monomial that
    is not on three sites for the undirected one. *)
Theorem C85_errors : forall ord, reorders ord ->
  (forall fuel, generate_product_algebra_digraph ord (S fuel) [] = Err ValueError) /\
  (forall m rest fuel, fresh m -> List.length (m_locs m) <> 3 ->
     generate_product_algebra_graph ord (S fuel) (m :: rest) = Err AssertionError).
Proof. intros ord Ho. split; [reflexivity|]. intros; apply not_three; auto. Qed.
Print Assumptions C85_errors.

(** C85, SU4_to_SU8_algebra: nine monomials with letters on the qubits 0 and 1 and
    nine with letters on 1 and 2. Their commutators give all 63 Pauli words other than the
    identity, each once; the undirected graph has the identity as its 64th node. *)
Theorem C85_su8 : forall (K : Type) (SR : StarRing K) ord, reorders ord -> exists A B k g h,
  SU4_to_SU8_algebra (K := K) ord = Ok (A, B) /\ Forall three_qubit (A ++ B) /\
  Permutation (map letters A) (map (fun p => (fst p, snd p, 0)) (list_prod [1; 2; 3] [1; 2; 3])) /\
  Permutation (map letters B) (map (fun p => (0, fst p, snd p)) (list_prod [1; 2; 3] [1; 2; 3])) /\
  (forall fuel, k <= fuel -> generate_product_algebra_graph ord fuel (A ++ B) = Ok g) /\
  (forall fuel, k <= fuel -> generate_product_algebra_digraph ord fuel (A ++ B) = Ok h) /\
  Permutation (map letters (g_nodes g)) pauli_words /\
  Permutation ((0, 0, 0) :: map letters (map fst (d_nodes h))) pauli_words.
Proof.
  intros K SR ord Ho. exists (pick [0; 1]), (pick [1; 2]). fold su8_gens.
  pose proof (three_good _ pick_three_qubit) as G. fold su8_gens in G.
  destruct (generate_spec ord su8_gens Ho G) as (k1 & g & F1 & I & C & H).
  destruct (d_generate_spec ord su8_gens Ho G) as (k2 & h & F2 & J & D & R & _).
  { intros E. apply (f_equal (@List.length mono)) in E. vm_compute in E. discriminate E. }
  exists (Nat.max k1 k2), g, h.
  assert (Wp : Permutation ((0, 0, 0) :: filter (fun w => negb (weqb w (0, 0, 0))) pauli_words) pauli_words).
  { vm_compute. apply Permutation_refl. }
  assert (Kid : ~ In idkey su8_keys).
  { intros X. apply (in_map snd) in X. rewrite su8_words in X. apply filter_In in X. destruct X as [_ X]. discriminate X. }
  assert (Hn : Permutation (NK g) (idkey :: su8_keys)).
  { apply NoDup_Permutation; [apply (i_nd _ g I)|constructor; [exact Kid|apply su8_keys_nodup]|].
    intros x. split.
    - intros X. destruct (i_sound _ g I x X) as [X'|X']; [right; apply su8_reach; auto|left; auto].
    - intros [<-|X].
      + assert (E : exists m0, In m0 su8_gens) by (eexists; left; reflexivity). destruct E as (m0 & H0). apply H in H0.
        destruct (C (nk m0) (nk m0) H0 H0) as [_ P]. destruct (P eq_refl) as [L _].
        destruct L as [L|L]; apply (i_end _ g I) in L; tauto.
      + apply (closed_reach (keys_of su8_gens) g); auto; [intros y (m & Hm & <-); auto|]. apply su8_reach; auto. }
  assert (Hd : Permutation (DK h) su8_keys).
  { apply NoDup_Permutation; [apply (di_nd h J)|apply su8_keys_nodup|].
    intros x. split.
    - intros X. unfold DK, DN in X. rewrite map_map in X. apply in_map_iff in X. destruct X as ([m o] & <- & Hm).
      destruct (D m o Hm) as (e & _ & (Re & _)). apply su8_reach, rlev_reach. exists e. exact Re.
    - intros X. apply R, su8_reach; auto. }
  split; [apply su8_eq; auto|]. split; [apply pick_three_qubit|].
  split; [vm_compute; apply Permutation_refl|]. split; [vm_compute; apply Permutation_refl|].
  split; [intros fuel Hf; apply F1; lia|]. split; [intros fuel Hf; apply F2; lia|]. split.
  - apply (Permutation_map snd) in Hn. unfold NK in Hn. rewrite map_map in Hn.
    apply (Permutation_trans Hn). change (Permutation ((0, 0, 0) :: map snd su8_keys) pauli_words). rewrite su8_words. exact Wp.
  - apply (Permutation_map snd) in Hd. unfold DK, DN in Hd. rewrite (map_map nk snd) in Hd. rewrite su8_words in Hd.
    exact (Permutation_trans (perm_skip _ Hd) Wp).
Qed.
Print Assumptions C85_su8.

(** Concrete monomials. *)
Definition tm (a b c : nat) : mono :=
  mk_mono [{| p_alpha := 0; p_gamma := a; p_coeff := g1 |}; {| p_alpha := 1; p_gamma := b; p_coeff := g1 |};
           {| p_alpha := 2; p_gamma := c; p_coeff := g1 |}].
Lemma tm_three a b c : a <= 3 -> b <= 3 -> c <= 3 -> three_qubit (tm a b c).
Proof.
  intros. split; [|split].
  - apply fresh_wfc. split; [|reflexivity]. split; [reflexivity|]. split; cbn.
    + repeat (apply SSorted_cons; [|repeat (apply Forall_cons; [lia|]); apply Forall_nil]). apply SSorted_nil.
    + repeat (apply Forall_cons; [unfold valid; cbn; lia|]). apply Forall_nil.
  - reflexivity.
  - left. apply gq_eq; apply Qc_is_canon; reflexivity.
Qed.

(** C85 in full is false for the undirected graph: from [X I I] alone every commutator is
    zero, but the graph has the identity as a second node. *)
Theorem C85_identity_refuted : exists gens, Forall three_qubit gens /\
  forall ord, reorders ord -> exists k g m,
    (forall fuel, k <= fuel -> generate_product_algebra_graph ord fuel gens = Ok g) /\
    In m (g_nodes g) /\ forall d A, nested gens d A -> ~ proportional (denote 3 m) A.
Proof.
  exists [tm 1 0 0]. assert (T : Forall three_qubit [tm 1 0 0]) by (constructor; [apply tm_three; lia|constructor]).
  split; [exact T|]. intros ord Ho. destruct (C85_graph_partial ord [tm 1 0 0] Ho T) as (k & g & F & _ & _ & Hid & _).
  destruct Hid as (m & Hm & P); [discriminate|]. exists k, g, m. split; [exact F|]. split; [exact Hm|].
  intros d A N Q. pose proof (three_good _ T) as G.
  assert (Pm : proportional A (kmat idkey)).
  { eapply proportional_trans; [apply proportional_sym; exact Q|]. destruct P as (q & Hq & E). exists q. split; auto. rewrite E, kmat_id. reflexivity. }
  destruct (nested_rlev _ d A G N) as [Z|(x & Rx & Px)].
  - apply (kmat_nonzero idkey); [cbn; lia|]. apply proportional_sym in Pm. destruct Pm as (q & Hq & E). rewrite E, Z.
    intros i j _ _. unfold mscale. simpl. ring.
  - assert (Ex : x = idkey).
    { apply kmat_inj; [exact (rlev_ok _ d x G Rx)|cbn; lia|]. eapply proportional_trans; [apply proportional_sym; exact Px|exact Pm]. }
    assert (R : reach (keys_of [tm 1 0 0]) x) by (apply rlev_reach; eauto).
    assert (I : In x [nk (tm 1 0 0)]) by (apply (saturated _ [tm 1 0 0]); auto; vm_compute; reflexivity).
    destruct I as [I|[]]. rewrite Ex in I. discriminate I.
Qed.
Print Assumptions C85_identity_refuted.

(** Non-vacuity: X I I and Z X I. Their commutator is Y X I and two passes close the set:
    three nodes of depth 0, 0, 1, and the identity in the undirected graph. *)
Example C85_case : reorders ord_id /\ Forall three_qubit [tm 1 0 0; tm 3 1 0] /\ [tm 1 0 0; tm 3 1 0] <> [] /\
  option_map (fun g => map letters (g_nodes g))
    (match generate_product_algebra_graph ord_id 4 [tm 1 0 0; tm 3 1 0] with Ok g => Some g | Err _ => None end) =
    Some [(1, 0, 0); (3, 1, 0); (0, 0, 0); (2, 1, 0)] /\
  option_map (fun g => map (fun nd => (letters (fst nd), snd nd)) (d_nodes g))
    (match generate_product_algebra_digraph ord_id 4 [tm 1 0 0; tm 3 1 0] with Ok g => Some g | Err _ => None end) =
    Some [((1, 0, 0), Some 0); ((3, 1, 0), Some 0); ((2, 1, 0), Some 1)].
Proof.
  split; [apply ord_id_ok|]. split; [constructor; [apply tm_three; lia|constructor; [apply tm_three; lia|constructor]]|].
  split; [discriminate|]. split; vm_compute; reflexivity.
Qed.
(** The single-site monomial X(0) for [C85_errors]. *)
Example C85_errors_case : fresh (X0 g1) /\ List.length (m_locs (X0 g1)) <> 3.
Proof. split; [apply single_fresh; lia|cbn; lia]. Qed.
