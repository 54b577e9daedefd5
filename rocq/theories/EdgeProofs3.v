(** Fuel independence and get_commuting_set. *)
From Coq Require Import List Arith ZArith Bool Lia Permutation.
From Verif Require Import Py EdgeModel EdgeSpec EdgeProofs EdgeProofs2.
Import ListNotations.
Local Open Scope nat_scope.

(** ** More fuel gives the same answer *)

Lemma KempeProcess_mono G D rnd : forall f f' s last node x chain r,
  f <= f' -> KempeProcess f G D rnd s last node x chain = Ok r ->
  KempeProcess f' G D rnd s last node x chain = Ok r.
Proof.
  induction f as [|f IH]; intros f' s last node x chain r Hle H; [discriminate|].
  destruct f' as [|f']; [lia|]. simpl in *. destruct (mem last chain); auto.
  destruct (KempeStep G D rnd s last node x) as [[[[w oc]|] s1]|]; simpl in *; auto. apply IH; auto; lia.
Qed.

Lemma KempeStart_mono G D rnd f f' s node r :
  f <= f' -> KempeStart f G D rnd s node = Ok r -> KempeStart f' G D rnd s node = Ok r.
Proof.
  unfold KempeStart; intros Hle. destruct (kempe_scan _ _ _ _ _) as [colors [a|]]; auto.
  destruct (choice rnd (s_k s) colors); simpl; auto. apply KempeProcess_mono; auto.
Qed.

Lemma heuristic_loop_mono G D rnd rl fk fk' : fk <= fk' -> forall f f' s prev cnt r,
  f <= f' -> heuristic_loop f fk G D rnd rl s prev cnt = Ok r ->
  heuristic_loop f' fk' G D rnd rl s prev cnt = Ok r.
Proof.
  intros Hk. induction f as [|f IH]; intros f' s prev cnt r Hle H; [discriminate|].
  destruct f' as [|f']; [lia|]. cbn [heuristic_loop] in *.
  destruct (Nat.eqb prev 0); auto.
  destruct (maxConflictLevel D (s_cd s)) as [h|]; cbn [bind] in *; auto.
  destruct (choice rnd (s_k s) (s_cd s h)) as [nd|]; cbn [bind] in *; auto.
  destruct (KempeStart fk G D rnd (tick s) nd) as [s1|] eqn:E; [|discriminate].
  rewrite (KempeStart_mono _ _ _ _ _ _ _ _ Hk E). cbn [bind] in *.
  destruct (Nat.eqb _ 0); auto.
  destruct (prev <=? _); [destruct (rl <? cnt + 1)%Z; auto|]; apply IH; auto; lia.
Qed.

Lemma heuristic_mono G D rnd rl fh fh' fk fk' c k log r : fh <= fh' -> fk <= fk' ->
  heuristic fh fk G D rnd rl c k log = Ok r -> heuristic fh' fk' G D rnd rl c k log = Ok r.
Proof.
  intros H1 H2. unfold heuristic. destruct (createConflictDictionary G D c); simpl; auto.
  apply heuristic_loop_mono; auto.
Qed.

Lemma apply_loop_mono G D rnd rl il fh fh' fk fk' : fh <= fh' -> fk <= fk' -> forall f f' c k log n r,
  f <= f' -> apply_loop f fh fk G D rnd rl il c k log n = Ok r ->
  apply_loop f' fh' fk' G D rnd rl il c k log n = Ok r.
Proof.
  intros Hh Hk. induction f as [|f IH]; intros f' c k log n r Hle H; [discriminate|].
  destruct f' as [|f']; [lia|]. simpl in *.
  destruct (heuristic fh fk G D rnd rl c k log) as [[ok s]|] eqn:E; [|discriminate].
  rewrite (heuristic_mono _ _ _ _ _ _ _ _ _ _ _ _ Hh Hk E). simpl in *.
  destruct (ok || _); auto. destruct (preColoring G D rnd (s_col s) (s_k s)) as [[c' k']|]; simpl in *; auto.
  apply IH; auto; lia.
Qed.

Lemma applyHeuristic_mono G D rnd rl il fa fa' fh fh' fk fk' c k r :
  fa <= fa' -> fh <= fh' -> fk <= fk' ->
  applyHeuristic fa fh fk G D rnd rl il c k = Ok r -> applyHeuristic fa' fh' fk' G D rnd rl il c k = Ok r.
Proof.
  intros Ha Hh Hk. unfold applyHeuristic. destruct (preColoring G D rnd c k) as [[c' k']|]; simpl; auto.
  apply apply_loop_mono; auto.
Qed.

(** ** A vertex of degree above D *)

Lemma properlyColored_degree G c u D : properlyColored G c u D = true -> degree G u <= D.
Proof.
  unfold properlyColored. rewrite andb_true_iff, Nat.eqb_eq, forallb_forall. intros [<- H].
  unfold distinct. rewrite <- (seq_length D 0), <- (map_length Some (seq 0 D)).
  apply NoDup_incl_length; [apply NoDup_nodup|].
  intros x Hx. apply nodup_In, H in Hx. destruct x as [y|]; [|discriminate].
  apply Nat.ltb_lt in Hx. apply in_map, in_seq; lia.
Qed.

Lemma apply_loop_result G D rnd rl il fh fk : forall fa c k log n o,
  apply_loop fa fh fk G D rnd rl il c k log n = Ok o ->
  o_result o = checkEdgeColoring G (s_col (o_state o)) D.
Proof.
  induction fa as [|f IH]; simpl; intros c k log n o H; [discriminate|].
  apply bind_ok in H. destruct H as ([ok s] & _ & H).
  destruct (ok || _).
  - injection H as <-; auto.
  - apply bind_ok in H. destruct H as ([c' k'] & _ & H). eapply IH; eauto.
Qed.

Lemma too_few_colors G D rnd rl il fa fh fk c k o u :
  In u (g_nodes G) -> D < degree G u ->
  applyHeuristic fa fh fk G D rnd rl il c k = Ok o -> o_result o = false.
Proof.
  intros Hu Hd H. unfold applyHeuristic in H. apply bind_ok in H. destruct H as ([c' k'] & _ & H).
  apply apply_loop_result in H. rewrite H. destruct (checkEdgeColoring _ _ _) eqn:E; auto.
  unfold checkEdgeColoring in E. rewrite forallb_forall in E. apply E, properlyColored_degree in Hu. lia.
Qed.

(** ** get_commuting_set *)

Definition no_loops (es : list (nat * nat)) : Prop := forall u v, In (u, v) es -> u <> v.

Lemma app_new_length x l : length (app_new x l) <= S (length l).
Proof. unfold app_new. destruct (mem x l); [lia|]. rewrite app_length; simpl; lia. Qed.

Lemma nodes_length : forall es G, length (g_nodes (fold_left add_edge es G)) <= length (g_nodes G) + 2 * length es.
Proof.
  induction es as [|[u v] es IH]; intros G; [simpl; lia|].
  change (fold_left add_edge ((u, v) :: es) G) with (fold_left add_edge es (add_edge G (u, v))).
  specialize (IH (add_edge G (u, v))).
  assert (H : length (g_nodes (add_edge G (u, v))) <= 2 + length (g_nodes G)).
  { simpl. pose proof (app_new_length v (app_new u (g_nodes G))). pose proof (app_new_length u (g_nodes G)). lia. }
  simpl length in *. lia.
Qed.

Lemma two_edges_le G D : max_degree G D -> two_edges G <= D * length (g_nodes G).
Proof.
  intros HD. unfold two_edges. induction (g_nodes G) as [|u us IH]; simpl; [lia|].
  specialize (HD u). lia.
Qed.

(** every qubit has at most two neighbours among the bonds *)
Definition at_most_two_neighbours (es : list (nat * nat)) : Prop :=
  forall u l, NoDup l -> (forall v, In v l -> In (u, v) es \/ In (v, u) es) -> length l <= 2.

Lemma commuting_max_degree es : no_loops es -> at_most_two_neighbours es -> max_degree (from_edgelist es) 2.
Proof.
  intros Hl H u. destruct (from_edgelist_spec es Hl) as [SG Ha]. apply (H u); [apply SG|].
  intros v Hv. apply Ha in Hv. exact Hv.
Qed.

Lemma commuting_ok rnd k es fa fh fk : no_loops es -> at_most_two_neighbours es ->
  2 * length es < fk -> (4 * length es + 1) * 52 < fh -> 51 <= fa ->
  exists l k', get_commuting_set fa fh fk rnd k es = Ok (l, k').
Proof.
  intros Hl H2 Hk Hh Ha. unfold get_commuting_set. destruct (Nat.eqb _ _); [eauto|].
  destruct (from_edgelist_spec es Hl) as [SG Hadj].
  pose proof (commuting_max_degree es Hl H2) as HD.
  pose proof (nodes_length es {| g_nodes := []; g_adj := fun _ => [] |}) as Hn. fold (from_edgelist es) in Hn. simpl in Hn.
  pose proof (two_edges_le _ _ HD) as Ht.
  destruct (applyHeuristic_ok (from_edgelist es) SG 2 rnd 50 50 fa fh fk (fun _ _ => None) k) as [o Ho];
    auto; try lia.
  rewrite Ho; simpl; eauto.
Qed.

Lemma commuting_subset rnd k es fa fh fk l k' :
  get_commuting_set fa fh fk rnd k es = Ok (l, k') ->
  forall a b, In (a, b) l -> In (a, b) es \/ In (b, a) es.
Proof.
  unfold get_commuting_set. destruct (Nat.eqb _ _).
  - intros H; injection H as <- <-; auto.
  - intros H. apply bind_ok in H. destruct H as (o & _ & H). injection H as <- <-.
    intros a b Hab. apply filter_In in Hab. destruct Hab as [Hab _]. apply edges_from_sound in Hab.
    destruct Hab as [_ Hab]. apply from_edgelist_adj in Hab. simpl in Hab. destruct Hab as [[]|Hab]; exact Hab.
Qed.

(** the colouring run inside get_commuting_set succeeds *)
Definition coloring_succeeds fa fh fk rnd k es : Prop :=
  exists o, applyHeuristic fa fh fk (from_edgelist es) 2 rnd 50 50 (fun _ _ => None) k = Ok o /\ o_result o = true.

Lemma commuting_disjoint rnd k es fa fh fk l k' : no_loops es ->
  get_commuting_set fa fh fk rnd k es = Ok (l, k') ->
  NoDup (flat_map (fun e => [fst e; snd e]) es) \/ coloring_succeeds fa fh fk rnd k es ->
  ForallOrdPairs disjoint_edge l.
Proof.
  intros Hl H Hc. unfold get_commuting_set in H. destruct (Nat.eqb _ _) eqn:E.
  - injection H as <- <-. apply length_nodup_NoDup in E. apply disjoint_unrolled; auto.
  - destruct Hc as [Hc|(o & Ho & Hr)]; [apply length_nodup_NoDup in Hc; congruence|].
    rewrite Ho in H. simpl in H. injection H as <- <-.
    destruct (from_edgelist_spec es Hl) as [SG Ha].
    apply applyHeuristic_spec in Ho; auto. destruct Ho as (_ & _ & _ & Hp & _).
    apply Hp in Hr. destruct Hr. eapply color_class_disjoint; eauto.
Qed.

(** a qubit with three neighbours: the Kempe chain starts from an empty list of
    free colours, whatever the random numbers *)
Definition star : graph := from_edgelist [(0, 1); (0, 2); (0, 3)].
Definition star_coloring (a b : nat) : coloring :=
  set_color (set_color (set_color (uncolor (edges star) (fun _ _ => None)) 0 1 (Some a)) 0 2 (Some (1 - a))) 0 3 (Some b).

Lemma choice_single rnd k x : choice rnd k [x] = Ok x.
Proof. unfold choice. change (length [x]) with 1. rewrite Nat.mod_1_r. reflexivity. Qed.

Lemma choice_nil rnd k : choice rnd k [] = Err IndexError.
Proof. unfold choice. destruct (_ mod _); reflexivity. Qed.

Lemma mod2 n : n mod 2 = 0 \/ n mod 2 = 1.
Proof. pose proof (Nat.mod_upper_bound n 2); lia. Qed.

Lemma star_pre rnd k : exists a b, a < 2 /\ b < 2 /\
  preColoring star 2 rnd (fun _ _ => None) k = Ok (star_coloring a b, S (S (S k))).
Proof.
  exists (rnd k mod 2), (rnd (S (S k)) mod 2).
  split; [apply Nat.mod_upper_bound; lia|]. split; [apply Nat.mod_upper_bound; lia|].
  unfold preColoring. change (edges star) with [(0, 1); (0, 2); (0, 3)].
  cbn [precolor_loop].
  set (av := filter _ _). assert (Ea : av = [0; 1]) by reflexivity. rewrite Ea; clear av Ea.
  assert (E1 : choice rnd k [0; 1] = Ok (rnd k mod 2)).
  { unfold choice. change (length [0; 1]) with 2. destruct (mod2 (rnd k)) as [->| ->]; reflexivity. }
  rewrite E1. cbn [bind].
  set (av := filter _ _). assert (Ea : av = [1 - rnd k mod 2]).
  { unfold av. destruct (mod2 (rnd k)) as [->| ->]; reflexivity. }
  rewrite Ea; clear av Ea. rewrite choice_single. cbn [bind].
  set (av := filter _ _). assert (Ea : av = []).
  { unfold av. destruct (mod2 (rnd k)) as [->| ->]; reflexivity. }
  rewrite Ea; clear av Ea. reflexivity.
Qed.

Lemma star_heuristic rnd a b k fh fk rl log : a < 2 -> b < 2 ->
  heuristic (S fh) fk star 2 rnd rl (star_coloring a b) k log = Err IndexError.
Proof.
  intros Ha Hb. unfold heuristic.
  assert (H : exists d, createConflictDictionary star 2 (star_coloring a b) = Ok d /\ d 1 = [0]
              /\ kempe_scan (star_coloring a b) 0 (g_adj star 0) (seq 0 2) None = ([], Some 3)).
  { destruct a as [|[|a]]; [| |lia]; (destruct b as [|[|b]]; [| |lia]);
      (eexists; split; [vm_compute; reflexivity|split; vm_compute; reflexivity]). }
  destruct H as (d & Ed & E1 & Es). rewrite Ed. cbn [bind heuristic_loop s_cd].
  unfold totalNumberOfConflicts, maxConflictLevel. change (levels 2) with [1].
  cbn [map filter list_sum fold_right]. rewrite E1. cbn [length Nat.mul Nat.add Nat.eqb Nat.ltb Nat.leb fold_left bind s_cd s_k].
  rewrite E1, choice_single. cbn [bind]. unfold KempeStart. cbn [s_col tick]. rewrite Es, choice_nil. reflexivity.
Qed.

Lemma star_crashes rnd k fa fh fk :
  get_commuting_set (S fa) (S fh) fk rnd k [(0, 1); (0, 2); (0, 3)] = Err IndexError.
Proof.
  unfold get_commuting_set. change (Nat.eqb _ _) with false. cbv iota. fold star.
  unfold applyHeuristic. destruct (star_pre rnd k) as (a & b & Ha & Hb & E). rewrite E.
  cbn [bind apply_loop]. rewrite star_heuristic; auto.
Qed.
