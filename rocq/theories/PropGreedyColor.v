(** Property C116: with enough colours the pre-colouring of edge_coloring.py is already
    proper, and a loop is never accepted. *)
From Coq Require Import List Arith ZArith Bool Lia.
From Verif Require Import Py EdgeModel EdgeSpec EdgeProofs EdgeProofs2 EdgeProofs3.
Import ListNotations.
Local Open Scope nat_scope.

(** ** Specification *)

(** every edge meets fewer than D others *)
Definition roomy (G : graph) (D : nat) : Prop := forall u v, In v (g_adj G u) -> length (g_adj G u) + length (g_adj G v) < D + 2.
(** no two edges at a vertex have the same colour; edges may have none *)
Definition no_clash (G : graph) (c : coloring) : Prop := forall u v w x, In v (g_adj G u) -> In w (g_adj G u) -> v <> w -> c u v = Some x -> c u w <> Some x.

(** ** A free colour *)
Lemma somes_lt (l : list (option nat)) : In None l -> length (filter (fun x => match x with Some _ => true | None => false end) l) < length l.
Proof.
  assert (L : forall m : list (option nat), length (filter (fun x => match x with Some _ => true | None => false end) m) <= length m).
  { induction m as [|[y|] m IH]; cbn; lia. }
  induction l as [|[x|] l IH]; cbn; intros H; [tauto| |]; [destruct H as [H|H]; [discriminate|]; specialize (IH H); lia|]. specialize (L l). lia.
Qed.
Lemma free_color D (l m : list (option nat)) : In None l -> In None m -> length l + length m < D + 2 ->
  exists x, In x (filter (fun x => if in_dec ocol_dec (Some x) (l ++ m) then false else true) (seq 0 D)).
Proof.
  intros Hl Hm Hn. set (f := fun x : option nat => match x with Some _ => true | None => false end).
  destruct (filter _ (seq 0 D)) as [|x r] eqn:E; [|exists x; left; reflexivity]. exfalso.
  assert (I : incl (map Some (seq 0 D)) (filter f l ++ filter f m)).
  { intros o Ho. apply in_map_iff in Ho. destruct Ho as (x & <- & Hx). assert (Hu : In (Some x) (l ++ m)).
    { destruct (in_dec ocol_dec (Some x) (l ++ m)) as [H|H]; [exact H|]. assert (In x []) as []. rewrite <- E. apply filter_In. split; [exact Hx|]. destruct (in_dec _ _ _); tauto. }
    rewrite in_app_iff in Hu |- *. destruct Hu as [Hu|Hu]; [left|right]; apply filter_In; split; auto. }
  apply NoDup_incl_length in I; [|apply FinFun.Injective_map_NoDup; [intros a b H; congruence|apply seq_NoDup]].
  rewrite map_length, seq_length, app_length in I. pose proof (somes_lt l Hl) as A. pose proof (somes_lt m Hm) as B. fold f in A, B. lia.
Qed.

(** ** The pre-colouring *)
Lemma precolor_clash G D rnd : simple G -> roomy G D -> forall es c k c' k',
  (forall a b, In (a, b) es -> In b (g_adj G a) /\ c a b = None) -> NoDup es -> (forall a b, In (a, b) es -> ~ In (b, a) es) ->
  (forall a b, In b (g_adj G a) -> c a b = c b a) -> no_clash G c -> precolor_loop G D rnd es c k = Ok (c', k') -> no_clash G c' /\ k' = k + length es.
Proof.
  intros SG HR. induction es as [|[u v] es IH]; intros c k c' k' He Hn Ho Hs Hc E; cbn [precolor_loop] in E; [injection E as <- <-; split; [exact Hc|cbn; lia]|].
  apply bind_ok in E. destruct E as (x & Hx & E). destruct (He u v (or_introl eq_refl)) as [Hv Huv]. assert (Hu : In u (g_adj G v)) by (apply SG; exact Hv). assert (Hvu : c v u = None) by (rewrite <- Hs; assumption).
  assert (Nuv : u <> v) by (intros ->; exact (sg_irr _ SG v Hv)).
  assert (F : ~ In (Some x) (colors_at G c u ++ colors_at G c v)).
  { destruct (free_color D (colors_at G c u) (colors_at G c v)) as (y & Hy); [unfold colors_at; rewrite <- Huv; apply in_map; exact Hv|unfold colors_at; rewrite <- Hvu; apply in_map; exact Hu|unfold colors_at; rewrite !map_length; apply HR; exact Hv|].
    set (av := filter _ _) in *. destruct av as [|z l] eqn:Ea; [destruct Hy|]. apply choice_In in Hx. rewrite <- Ea in Hx. apply filter_In in Hx. destruct Hx as [_ Hx]. destruct (in_dec _ _ _); [discriminate|assumption]. }
  assert (Fu : forall w, In w (g_adj G u) -> c u w <> Some x). { intros w Hw H. apply F, in_app_iff. left. unfold colors_at. rewrite <- H. apply in_map. exact Hw. }
  assert (Fv : forall w, In w (g_adj G v) -> c v w <> Some x). { intros w Hw H. apply F, in_app_iff. right. unfold colors_at. rewrite <- H. apply in_map. exact Hw. }
  inversion Hn as [|? ? Hn1 Hn2]; subst. apply IH in E.
  - destruct E as [A B]. split; [exact A|]. cbn. lia.
  - intros a b Hab. destruct (He a b (or_intror Hab)) as [A B]. split; [exact A|]. rewrite (proj2 (set_color_touch c u v (Some x) a b)); [exact B|]. intros [[-> ->]|[-> ->]]; [tauto|]. apply (Ho u v); [left; reflexivity|right; exact Hab].
  - exact Hn2.
  - intros a b Hab Hba. apply (Ho a b); right; assumption.
  - intros a b Hab. unfold set_color. rewrite (Hs a b Hab). destruct (Nat.eqb a u), (Nat.eqb b v), (Nat.eqb a v), (Nat.eqb b u); reflexivity.
  - intros a p q y Hp Hq N Ep Eq. unfold set_color in Ep, Eq.
    destruct (Nat.eqb_spec a u) as [->|Na].
    + destruct (Nat.eqb_spec u v) as [|_]; [congruence|]. cbn [andb orb] in Ep, Eq. rewrite ?orb_false_r in Ep, Eq.
      destruct (Nat.eqb_spec p v) as [->|Np], (Nat.eqb_spec q v) as [->|Nq]; cbn [orb] in Ep, Eq; try congruence.
      * apply (Fu q Hq). congruence.
      * apply (Fu p Hp). congruence.
      * exact (Hc u p q y Hp Hq N Ep Eq).
    + cbn [andb orb] in Ep, Eq. destruct (Nat.eqb_spec a v) as [->|Na']; cbn [andb] in Ep, Eq.
      * destruct (Nat.eqb_spec p u) as [->|Np], (Nat.eqb_spec q u) as [->|Nq]; try congruence.
        -- apply (Fv q Hq). congruence.
        -- apply (Fv p Hp). congruence.
        -- exact (Hc v p q y Hp Hq N Ep Eq).
      * exact (Hc a p q y Hp Hq N Ep Eq).
Qed.
Lemma uncolor_none : forall es c a b, touch es a b -> uncolor es c a b = None.
Proof.
  induction es as [|[u v] es IH]; intros c a b H; [destruct H as [[]|[]]|]. cbn [uncolor].
  destruct (in_dec (fun p q : nat * nat => ltac:(decide equality; apply Nat.eq_dec)) (a, b) es) as [Hi|Hi]; [apply IH; left; exact Hi|].
  destruct (in_dec (fun p q : nat * nat => ltac:(decide equality; apply Nat.eq_dec)) (b, a) es) as [Hj|Hj]; [apply IH; right; exact Hj|].
  rewrite uncolor_frame by (unfold touch; tauto). apply set_color_touch. unfold touch in H. cbn [In] in H. destruct H as [[H|H]|[H|H]]; try tauto; injection H as -> ->; auto.
Qed.
Lemma roomy_degree G D : simple G -> roomy G D -> max_degree G D.
Proof.
  intros SG HR u. destruct (g_adj G u) as [|v l] eqn:E; [cbn; lia|]. assert (Hv : In v (g_adj G u)) by (rewrite E; left; reflexivity). pose proof (HR u v Hv) as H. apply (sg_sym _ SG) in Hv. rewrite E in H. destruct (g_adj G v); [destruct Hv|]. cbn [length] in *. lia.
Qed.
Lemma precoloring_proper G D rnd c k : simple G -> roomy G D -> exists c' , preColoring G D rnd c k = Ok (c', k + length (edges G)) /\ colored_in G D c' /\ conflict_free G c'.
Proof.
  intros SG HR. destruct (preColoring_ok G SG D rnd c k (roomy_degree G D SG HR)) as ([c' k'] & E). destruct (preColoring_spec G SG D rnd c k c' k' E) as [Hc _].
  assert (U : forall a b, In b (g_adj G a) -> uncolor (edges G) c a b = None) by (intros a b H; apply uncolor_none, (edges_cover G SG); exact H).
  destruct (edges_from_NoDup G (sg_adj _ SG) (g_nodes G) [] (sg_nodes _ SG)) as (N1 & _ & N3).
  assert (P : no_clash G c' /\ k' = k + length (edges G)).
  { unfold preColoring in E. eapply (precolor_clash G D rnd SG HR); [| | | | |exact E].
    - intros a b H. assert (Ha : In b (g_adj G a)) by (apply (edges_sound G SG); left; exact H). auto.
    - exact N1.
    - intros a b H. apply N3; [|exact H]. intros ->. apply (sg_irr _ SG b). apply (edges_sound G SG). left. exact H.
    - intros a b H. rewrite !U; auto. apply SG. exact H.
    - intros a v w x Hv _ _ Hx. rewrite U in Hx by exact Hv. discriminate. }
  destruct P as [P ->]. exists c'. split; [exact E|]. split; [exact Hc|]. intros a v w Hv Hw N H. destruct (Hc a v Hv) as (_ & x & Hx & _). apply (P a v w x Hv Hw N Hx). congruence.
Qed.

(** ** C116 *)
Theorem C116_enough_colors : forall G D rnd rl il fa fh fk c k, simple G -> roomy G D ->
  exists o, applyHeuristic (S fa) (S fh) fk G D rnd rl il c k = Ok o /\ o_result o = true /\ o_rounds o = 1 /\
    colored_in G D (s_col (o_state o)) /\ conflict_free G (s_col (o_state o)) /\ List.length (s_log (o_state o)) = 1 /\ s_k (o_state o) = k + length (edges G).
Proof.
  intros G D rnd rl il fa fh fk c k SG HR. destruct (precoloring_proper G D rnd c k SG HR) as (c' & E & Hc & Hf). unfold applyHeuristic. rewrite E. cbn [bind apply_loop]. unfold heuristic.
  destruct (cd_fill_ok G SG D c' (g_nodes G) (roomy_degree G D SG HR) (fun _ => [])) as (d & Ed). change (cd_fill G D c' (g_nodes G) (fun _ => [])) with (createConflictDictionary G D c') in Ed. rewrite Ed. cbn [bind].
  apply (create_spec G SG) in Ed. rewrite (proj2 (total_zero G SG D c' d Ed) Hf). cbn [heuristic_loop Nat.eqb bind orb].
  eexists. split; [reflexivity|]. cbn [o_result o_state o_rounds s_col s_log s_k]. split; [|auto using eq_refl]. apply (checkEdgeColoring_spec G SG); [|auto]. intros u v H. apply Hc. exact H.
Qed.
Print Assumptions C116_enough_colors.

(** with twice as many colours as edges at a vertex, less one *)
Theorem C116_twice_the_degree : forall G D rnd rl il fa fh fk c k, simple G -> max_degree G D ->
  exists o, applyHeuristic (S fa) (S fh) fk G (2 * D - 1) rnd rl il c k = Ok o /\ o_result o = true /\ o_rounds o = 1.
Proof.
  intros G D rnd rl il fa fh fk c k SG HD. destruct (C116_enough_colors G (2 * D - 1) rnd rl il fa fh fk c k SG) as (o & E & A & B & _); [|eauto].
  intros u v Hv. pose proof (HD u) as A. pose proof (HD v) as B. assert (1 <= length (g_adj G u)) by (destruct (g_adj G u); [destruct Hv|cbn; lia]). lia.
Qed.
Print Assumptions C116_twice_the_degree.

(** a loop is never accepted, with however many colours *)
Theorem C116_loops_rejected : forall G D rnd rl il fa fh fk c k o u, In u (g_nodes G) -> In u (g_adj G u) ->
  applyHeuristic fa fh fk G D rnd rl il c k = Ok o -> o_result o = false.
Proof.
  intros G D rnd rl il fa fh fk c k o u Hu Hl H. unfold applyHeuristic in H. apply bind_ok in H. destruct H as ([c' k'] & _ & H).
  apply apply_loop_result in H. rewrite H. destruct (checkEdgeColoring _ _ _) eqn:E; [|reflexivity]. exfalso.
  unfold checkEdgeColoring in E. rewrite forallb_forall in E. apply E in Hu. unfold properlyColored in Hu. apply andb_true_iff in Hu. destruct Hu as [Hu _]. apply Nat.eqb_eq in Hu.
  unfold degree in Hu. rewrite (proj2 (mem_In u (g_adj G u)) Hl) in Hu. pose proof (distinct_le (colors_at G (s_col (o_state o)) u)) as L. unfold colors_at in L, Hu. rewrite map_length in L. lia.
Qed.
Print Assumptions C116_loops_rejected.

(** the complete graph on four vertices with five colours, and a loop beside a bond *)
Definition complete4 : graph := from_edgelist [(0, 1); (0, 2); (0, 3); (1, 2); (1, 3); (2, 3)].
Lemma complete4_simple : simple complete4.
Proof. apply from_edgelist_spec. simpl. intros u v H. repeat destruct H as [E|H]; try injection E as <- <-; try lia. Qed.
Example C116_case : simple complete4 /\ max_degree complete4 3 /\ roomy complete4 5 /\
  (exists o, applyHeuristic 1 1 0 complete4 5 (fun k => 3 * k + 1) 0 0 (fun _ _ => None) 0 = Ok o /\ o_result o = true /\ s_k (o_state o) = 6) /\
  (exists o, applyHeuristic 1 3 3 (from_edgelist [(0, 1); (1, 1)]) 4 (fun k => k) 0 0 (fun _ _ => None) 0 = Ok o /\ o_result o = false).
Proof.
  split; [exact complete4_simple|]. split; [intros [|[|[|[|u]]]]; cbn; lia|]. split; [intros [|[|[|[|u]]]] [|[|[|[|v]]]]; cbn; try lia; intuition lia|].
  split; eexists; split; vm_compute; try reflexivity; auto.
Qed.
