(** Properties C18-C27: edge colouring and get_commuting_set. *)
From Coq Require Import List Arith ZArith Bool Lia.
From Verif Require Import Py EdgeModel EdgeSpec EdgeProofs EdgeProofs2 EdgeProofs3.
Import ListNotations.
Local Open Scope nat_scope.

(** *** C18 *)
Theorem C18_check_decides_proper_coloring :
  forall G D c, simple G -> (forall u v, In v (g_adj G u) -> c u v = c v u) ->
  (checkEdgeColoring G c D = true <-> colored_in G D c /\ conflict_free G c).
Proof. exact (fun G D c SG H => checkEdgeColoring_spec G SG D c H). Qed.
Print Assumptions C18_check_decides_proper_coloring.

(** the complete graph on four vertices *)
Definition K4 : graph := from_edgelist [(0,1);(0,2);(0,3);(1,2);(1,3);(2,3)].
Lemma K4_simple : simple K4.
Proof. apply from_edgelist_spec. simpl. intros u v H. repeat destruct H as [E|H]; try injection E as <- <-; try lia. Qed.
Lemma K4_degree : max_degree K4 3.
Proof. intros [|[|[|[|u]]]]; vm_compute; lia. Qed.
(** colour of the edge {u,v} of K4: a proper one and an improper one *)
Definition K4_proper : coloring := fun u v => Some (match u, v with 0, x => x - 1 | x, 0 => x - 1
                                    | 1, 2 | 2, 1 => 2 | 1, 3 | 3, 1 => 1 | _, _ => 0 end).
Definition K4_bad : coloring := fun _ _ => Some 0.
Example C18_case : checkEdgeColoring K4 K4_proper 3 = true /\ checkEdgeColoring K4 K4_proper 2 = false
                   /\ checkEdgeColoring K4 K4_bad 3 = false
                   /\ (forall u v, In v (g_adj K4 u) -> K4_proper u v = K4_proper v u).
Proof.
  repeat split; try reflexivity.
  intros u v. destruct u as [|[|[|[|u]]]]; vm_compute; intuition subst; reflexivity.
Qed.

(** *** C19: every logged (colouring, dictionary) pair, and the final one, is exact *)
Theorem C19_conflict_dictionary_exact :
  forall G D rnd rl il fa fh fk c k o, simple G ->
  applyHeuristic fa fh fk G D rnd rl il c k = Ok o ->
  forall c' d, In (c', d) (s_log (o_state o)) \/ (c', d) = (s_col (o_state o), s_cd (o_state o)) ->
  dict_exact G D c' d /\ total_conflicts G c' (g_nodes G) (totalNumberOfConflicts D d).
Proof.
  intros G D rnd rl il fa fh fk c k o SG H c' d Hin.
  apply applyHeuristic_spec in H; auto. destruct H as [[[_ H1] H2] _].
  assert (He : exactL D (conflictLevel G c') (g_nodes G) d).
  { destruct Hin as [Hin|Hin].
    - rewrite Forall_forall in H2. apply H2 in Hin. apply Hin.
    - injection Hin as -> ->; auto. }
  split; [apply exactL_dict_exact; auto|].
  apply total_conflicts_eq; auto. apply total_eq; auto.
Qed.
Print Assumptions C19_conflict_dictionary_exact.

(** a path 0-1-2-3 listed ends first: pre-colouring leaves a conflict which the
    heuristic removes by a Kempe chain of two steps *)
Definition P4 : graph := {| g_nodes := [0; 3; 1; 2];
  g_adj := fun u => match u with 0 => [1] | 1 => [0; 2] | 2 => [1; 3] | 3 => [2] | _ => [] end |}.
Lemma P4_simple : simple P4.
Proof.
  constructor.
  - simpl. repeat constructor; simpl; intuition lia.
  - intros [|[|[|[|u]]]]; simpl; repeat constructor; simpl; intuition lia.
  - intros [|[|[|[|u]]]] v; simpl; intuition lia.
  - intros [|[|[|[|u]]]] v; simpl; intuition subst; simpl; auto.
  - intros [|[|[|[|u]]]]; simpl; intuition lia.
Qed.
Definition run_P4 := applyHeuristic 5 200 10 P4 2 (fun k => k) 5 3 (fun _ _ => None) 0.
Example C19_case : match run_P4 with
  | Ok o => map (fun cd => totalNumberOfConflicts 2 (snd cd)) (s_log (o_state o)) = [1; 1; 0]
  | Err _ => False end.
Proof. vm_compute. reflexivity. Qed.

(** *** C20 *)
Theorem C20_colors_in_range_and_nothing_else_changes :
  forall G D rnd rl il fa fh fk c k o, simple G ->
  applyHeuristic fa fh fk G D rnd rl il c k = Ok o ->
  (forall c' d, In (c', d) (s_log (o_state o)) -> colored_in G D c') /\
  colored_in G D (s_col (o_state o)) /\
  (forall a b, ~ In b (g_adj G a) -> s_col (o_state o) a b = c a b).
Proof.
  intros G D rnd rl il fa fh fk c k o SG H.
  apply applyHeuristic_spec in H; auto. destruct H as [[[H1 _] H2] [H3 _]]. repeat split; auto.
  - apply (proj1 (proj1 (Forall_forall _ _) H2 (c', d) H) u v); auto.
  - apply (proj1 (proj1 (Forall_forall _ _) H2 (c', d) H) u v); auto.
  - apply H1; auto.
  - apply H1; auto.
Qed.
Print Assumptions C20_colors_in_range_and_nothing_else_changes.

Example C20_case : is_ok run_P4 = true.
Proof. vm_compute. reflexivity. Qed.

(** *** C21: explicit bounds. A Kempe chain makes at most |V| steps, a heuristic
    round at most (2|E|+1)(repetition_limit+2) chains, applyHeuristic at most
    iteration_limit+1 rounds; and the answer does not depend on extra fuel. *)
Theorem C21_never_crashes_and_terminates :
  forall G D rnd rl il c k, simple G -> max_degree G D ->
  exists o, forall fa fh fk,
    Z.to_nat il + 1 <= fa ->
    (list_sum (map (fun u => length (g_adj G u)) (g_nodes G)) + 1) * (Z.to_nat rl + 2) + 1 <= fh ->
    length (g_nodes G) + 1 <= fk ->
    applyHeuristic fa fh fk G D rnd rl il c k = Ok o.
Proof.
  intros G D rnd rl il c k SG HD.
  destruct (applyHeuristic_ok G SG D rnd rl il (Z.to_nat il + 1) ((two_edges G + 1) * (Z.to_nat rl + 2) + 1)
              (length (g_nodes G) + 1) c k HD) as [o Ho]; try lia.
  exists o. intros fa fh fk Ha Hh Hk. eapply applyHeuristic_mono; [| | |exact Ho]; auto.
Qed.
Print Assumptions C21_never_crashes_and_terminates.

Example C21_case : simple K4 /\ max_degree K4 3.
Proof. split; [exact K4_simple|exact K4_degree]. Qed.

(** *** C22 *)
Theorem C22_reports_honestly :
  forall G D rnd rl il fa fh fk c k o, simple G ->
  applyHeuristic fa fh fk G D rnd rl il c k = Ok o ->
  (o_result o = true <-> colored_in G D (s_col (o_state o)) /\ conflict_free G (s_col (o_state o))) /\
  (o_result o = o_last o) /\
  1 <= o_rounds o /\ (Z.of_nat (o_rounds o) <= Z.max 0 il + 1)%Z /\
  (o_result o = false -> Z.of_nat (o_rounds o) = (Z.max 0 il + 1)%Z).
Proof.
  intros G D rnd rl il fa fh fk c k o SG H.
  apply applyHeuristic_spec in H; auto. destruct H as ([[A _] _] & _ & B & C & D1 & E & F).
  assert (HR : o_result o = o_last o).
  { destruct (o_result o), (o_last o); auto.
    - symmetry; apply B, C; auto.
    - apply C. split; auto. apply B; auto. }
  split; auto. split; auto. split; auto. split; [lia|].
  intros Hf. rewrite HR in Hf. specialize (F Hf). lia.
Qed.
Print Assumptions C22_reports_honestly.

Definition path3 : graph := from_edgelist [(0,1);(1,2);(2,3)].
Definition triangle : graph := from_edgelist [(0,1);(1,2);(0,2)].
Example C22_case :
  match applyHeuristic 5 200 10 path3 2 (fun k => k) 5 3 (fun _ _ => None) 0 with
  | Ok o => o_result o = true /\ o_rounds o = 1 | Err _ => False end /\
  match applyHeuristic 5 200 10 triangle 2 (fun k => k) 5 3 (fun _ _ => None) 0 with
  | Ok o => o_result o = false /\ o_rounds o = 4 | Err _ => False end.
Proof. vm_compute. auto. Qed.

(** *** C23: for every graph, self loops included *)
Theorem C23_too_few_colors_never_succeeds :
  forall G D rnd rl il fa fh fk c k o u,
  In u (g_nodes G) -> D < degree G u ->
  applyHeuristic fa fh fk G D rnd rl il c k = Ok o -> o_result o = false.
Proof. exact too_few_colors. Qed.
Print Assumptions C23_too_few_colors_never_succeeds.

Example C23_case : degree triangle 0 > 1 /\
  match applyHeuristic 5 200 10 triangle 1 (fun k => k) 5 (-3) (fun _ _ => None) 0 with
  | Ok _ => True | Err e => e = KeyError end.
Proof. vm_compute. auto. Qed.
(** a run that returns although a self loop makes the degree exceed the colours *)
Example C23_case_returns :
  match applyHeuristic 5 200 10 (from_edgelist [(0,0);(1,2)]) 1 (fun k => k) 5 3 (fun _ _ => None) 0,
        applyHeuristic 5 200 10 (from_edgelist [(0,0);(0,1)]) 2 (fun k => k) 5 3 (fun _ _ => None) 0 with
  | Err e, Ok o => e = KeyError /\ degree (from_edgelist [(0,0);(0,1)]) 0 = 3 /\ o_result o = false
  | _, _ => False end.
Proof. vm_compute. auto. Qed.

(** *** C24: refuted. On a triangle of bonds two returned bonds share qubit 1. *)
Theorem C24_overlapping_bonds_refuted :
  exists rnd es l k', no_loops es /\ at_most_two_neighbours es /\
    get_commuting_set 60 700 10 rnd 0 es = Ok (l, k') /\ ~ ForallOrdPairs disjoint_edge l.
Proof.
  exists (fun _ => 1), [(0, 1); (1, 2); (0, 2)], [(0, 1); (1, 2)]. eexists.
  split; [|split; [|split]].
  - intros u v H. simpl in H. repeat destruct H as [E|H]; try injection E as <- <-; try lia.
  - intros u l Hn Hl. apply NoDup_incl_length with (l' := match u with 0 => [1;2] | 1 => [0;2] | _ => [0;1] end) in Hn.
    + destruct u as [|[|u]]; exact Hn.
    + intros v Hv. destruct (Hl v Hv) as [H|H]; simpl in H;
        repeat destruct H as [E|H]; try injection E as <- <-; simpl; tauto.
  - vm_compute. reflexivity.
  - intros H. inversion H as [|? ? H1 _]; subst. inversion H1 as [|? ? H2 _]; subst.
    destruct H2 as (_ & _ & H2 & _). simpl in H2. congruence.
Qed.
Print Assumptions C24_overlapping_bonds_refuted.

(** What does hold: when the colouring succeeds, or the bonds were disjoint already. *)
Theorem C24_disjoint_when_coloring_succeeds_partial :
  forall rnd k es fa fh fk l k', no_loops es ->
  get_commuting_set fa fh fk rnd k es = Ok (l, k') ->
  NoDup (flat_map (fun e => [fst e; snd e]) es) \/ coloring_succeeds fa fh fk rnd k es ->
  ForallOrdPairs disjoint_edge l.
Proof. exact commuting_disjoint. Qed.
Print Assumptions C24_disjoint_when_coloring_succeeds_partial.

Example C24_case : exists l k',
  get_commuting_set 60 700 10 (fun k => k) 0 [(0,1);(1,2);(2,3);(3,0)] = Ok (l, k') /\ length l = 2 /\
  coloring_succeeds 60 700 10 (fun k => k) 0 [(0,1);(1,2);(2,3);(3,0)].
Proof.
  eexists. eexists. split; [vm_compute; reflexivity|]. split; [reflexivity|].
  eexists. split; [vm_compute; reflexivity|reflexivity].
Qed.

(** *** C25: refuted. The bond (2,3) comes back as (3,2), which is not in the input. *)
Theorem C25_orientation_refuted :
  exists rnd es l k' e, no_loops es /\ get_commuting_set 60 700 10 rnd 0 es = Ok (l, k') /\ In e l /\ ~ In e es.
Proof.
  exists (fun _ => 1), [(0, 3); (1, 2); (2, 3)], [(3, 2)], 3, (3, 2).
  split; [|split; [|split]].
  - intros u v H. simpl in H. repeat destruct H as [E|H]; try injection E as <- <-; try lia.
  - vm_compute. reflexivity.
  - left; auto.
  - simpl. intuition discriminate.
Qed.
Print Assumptions C25_orientation_refuted.

Theorem C25_up_to_orientation_partial :
  forall rnd k es fa fh fk l k',
  get_commuting_set fa fh fk rnd k es = Ok (l, k') ->
  forall a b, In (a, b) l -> In (a, b) es \/ In (b, a) es.
Proof. exact commuting_subset. Qed.
Print Assumptions C25_up_to_orientation_partial.

(** *** C26: refuted. A qubit with three neighbours raises IndexError for every
    sequence of random numbers. *)
Theorem C26_star_always_crashes_refuted :
  forall rnd k fa fh fk,
  get_commuting_set (S fa) (S fh) fk rnd k [(0, 1); (0, 2); (0, 3)] = Err IndexError.
Proof. exact star_crashes. Qed.
Print Assumptions C26_star_always_crashes_refuted.

Theorem C26_no_crash_up_to_two_neighbours_partial :
  forall rnd k es fa fh fk, no_loops es -> at_most_two_neighbours es ->
  2 * length es < fk -> (4 * length es + 1) * 52 < fh -> 51 <= fa ->
  exists l k', get_commuting_set fa fh fk rnd k es = Ok (l, k').
Proof. exact commuting_ok. Qed.
Print Assumptions C26_no_crash_up_to_two_neighbours_partial.

Example C26_case : no_loops [(0, 1); (1, 2)] /\ at_most_two_neighbours [(0, 1); (1, 2)].
Proof.
  split.
  - intros u v H. simpl in H. repeat destruct H as [E|H]; try injection E as <- <-; try lia.
  - intros u l Hn Hl. apply NoDup_incl_length with (l' := match u with 0 => [1] | 1 => [0;2] | _ => [1] end) in Hn.
    + destruct u as [|[|u]]; simpl in Hn; lia.
    + intros v Hv. destruct (Hl v Hv) as [H|H]; simpl in H;
        repeat destruct H as [E|H]; try injection E as <- <-; simpl; tauto.
Qed.

(** *** C27 *)
Theorem C27_disjoint_lists_unchanged :
  forall rnd k es fa fh fk, NoDup (flat_map (fun e => [fst e; snd e]) es) ->
  get_commuting_set fa fh fk rnd k es = Ok (es, k).
Proof.
  intros rnd k es fa fh fk H. unfold get_commuting_set. apply length_nodup_NoDup in H. rewrite H. reflexivity.
Qed.
Print Assumptions C27_disjoint_lists_unchanged.

Example C27_case : NoDup (flat_map (fun e : nat * nat => [fst e; snd e]) [(4, 1); (0, 3)]).
Proof. simpl. repeat constructor; simpl; intuition lia. Qed.
