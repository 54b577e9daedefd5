(** Pre-colouring, the heuristic loop, applyHeuristic and get_commuting_set. *)
From Coq Require Import List Arith ZArith Bool Lia Permutation.
From Verif Require Import Py EdgeModel EdgeSpec EdgeProofs.
Import ListNotations.
Local Open Scope nat_scope.

Definition touch (es : list (nat * nat)) (a b : nat) : Prop := In (a, b) es \/ In (b, a) es.

Lemma edges_from_sound G : forall ns seen a b,
  In (a, b) (edges_from G ns seen) -> In a ns /\ In b (g_adj G a).
Proof.
  induction ns as [|n ns IH]; simpl; intros seen a b H; [tauto|].
  apply in_app_iff in H; destruct H as [H|H].
  - apply in_map_iff in H. destruct H as (w & E & Hw). injection E as -> ->.
    apply filter_In in Hw; tauto.
  - apply IH in H; tauto.
Qed.

Lemma edges_from_cover G : (forall u v, In v (g_adj G u) -> In u (g_adj G v)) ->
  forall ns seen a b, In a ns -> In b ns -> ~ In a seen -> ~ In b seen ->
  In b (g_adj G a) -> touch (edges_from G ns seen) a b.
Proof.
  intros Hs. induction ns as [|n ns IH]; simpl; intros seen a b Ha Hb Na Nb Hab; [tauto|].
  assert (Hm : forall x y, n = x -> ~ In y seen -> In y (g_adj G x) ->
    In (x, y) (map (fun w => (n, w)) (filter (fun w => negb (mem w seen)) (g_adj G n)))).
  { intros x y -> Ny Hy. apply in_map_iff. exists y; split; auto. apply filter_In; split; auto.
    apply negb_true_iff. destruct (mem y seen) eqn:E; auto. apply mem_In in E; tauto. }
  unfold touch. rewrite !in_app_iff.
  destruct (Nat.eq_dec n a) as [E|Ea]; [left; left; apply Hm; auto|].
  destruct (Nat.eq_dec n b) as [E|Eb]; [right; left; apply Hm; auto|].
  destruct (IH (n :: seen) a b) as [H|H]; simpl; auto; try tauto.
Qed.

Lemma set_color_touch c u v x a b :
  ((a = u /\ b = v) \/ (a = v /\ b = u) -> set_color c u v x a b = x) /\
  (~ ((a = u /\ b = v) \/ (a = v /\ b = u)) -> set_color c u v x a b = c a b).
Proof.
  unfold set_color.
  destruct (Nat.eqb_spec a u), (Nat.eqb_spec b v), (Nat.eqb_spec a v), (Nat.eqb_spec b u); simpl; tauto.
Qed.

Lemma uncolor_frame : forall es c a b, ~ touch es a b -> uncolor es c a b = c a b.
Proof.
  induction es as [|[u v] es IH]; simpl; intros c a b H; auto.
  rewrite IH by (unfold touch in *; simpl in H; tauto).
  apply set_color_touch. unfold touch in H; simpl in H. intros [[-> ->]|[-> ->]]; apply H; auto.
Qed.

Lemma precolor_loop_spec G D rnd : forall es c k c' k',
  precolor_loop G D rnd es c k = Ok (c', k') ->
  forall a b, (touch es a b -> c' a b = c' b a /\ exists x, c' a b = Some x /\ x < D) /\
              (~ touch es a b -> c' a b = c a b).
Proof.
  induction es as [|[u v] es IH]; simpl; intros c k c' k' H a b.
  - injection H as <- <-. unfold touch; simpl; tauto.
  - apply bind_ok in H. destruct H as (x & Hx & H).
    assert (HxD : x < D).
    { set (av := filter _ _) in Hx. destruct av as [|y av'] eqn:E.
      - destruct (Nat.eqb_spec D 0); [discriminate|]. injection Hx as <-. apply Nat.mod_upper_bound; auto.
      - apply choice_In in Hx. rewrite <- E in Hx. apply filter_In in Hx. destruct Hx as [Hx _].
        apply in_seq in Hx; lia. }
    pose proof (IH _ _ _ _ H a b) as [I1 I2]. pose proof (IH _ _ _ _ H b a) as [J1 J2].
    assert (Hdec : {touch es a b} + {~ touch es a b}).
    { destruct (in_dec (fun p q : nat * nat => ltac:(decide equality; apply Nat.eq_dec)) (a, b) es);
      destruct (in_dec (fun p q : nat * nat => ltac:(decide equality; apply Nat.eq_dec)) (b, a) es);
      unfold touch; tauto. }
    destruct (set_color_touch c u v (Some x) a b) as [S1 S2].
    destruct (set_color_touch c u v (Some x) b a) as [S3 S4].
    split.
    + intros Ht. destruct Hdec as [Hd|Hd]; [apply I1; auto|].
      assert (Huv : (a = u /\ b = v) \/ (a = v /\ b = u)).
      { unfold touch in Ht, Hd; simpl in Ht.
        destruct Ht as [[E|E]|[E|E]]; try tauto; injection E as -> ->; auto. }
      rewrite I2, J2 by (unfold touch in *; tauto).
      rewrite S1, S3 by tauto. split; eauto.
    + intros Hn. unfold touch in Hn; simpl in Hn.
      rewrite I2 by (unfold touch; tauto). apply S2.
      intros [[-> ->]|[-> ->]]; apply Hn; auto.
Qed.

Lemma precolor_loop_ok G D rnd : 0 < D -> forall es c k,
  exists r, precolor_loop G D rnd es c k = Ok r.
Proof.
  intros HD. induction es as [|[u v] es IH]; simpl; intros c k; [eauto|].
  set (av := filter _ _).
  assert (H : exists x, match av with [] => if Nat.eqb D 0 then Err ValueError else Ok (rnd k mod D)
                       | _ => choice rnd k av end = Ok x).
  { destruct av as [|y av'] eqn:E; [|apply choice_ok; discriminate].
    destruct (Nat.eqb_spec D 0); [lia|eauto]. }
  destruct H as [x ->]; simpl; auto.
Qed.

Lemma list_sum_zero l : list_sum l = 0 <-> forall x, In x l -> x = 0.
Proof.
  induction l as [|a l IH]; simpl; [tauto|]. split.
  - intros H x [<-|Hx]; [lia|]. apply IH; auto. lia.
  - intros H. rewrite (H a) by auto. apply IH; auto.
Qed.

Lemma total_pick (lev : nat -> nat) (us : list nat) : forall ks, NoDup ks ->
  (forall u, In u us -> lev u = 0 \/ In (lev u) ks) ->
  list_sum (map (fun l => l * length (filter (fun u => Nat.eqb (lev u) l) us)) ks) = list_sum (map lev us).
Proof.
  intros ks Hk. induction us as [|u us IH]; simpl; intros H.
  - apply list_sum_zero. intros x Hx. apply in_map_iff in Hx. destruct Hx as (l & <- & _). lia.
  - rewrite <- IH by auto.
    assert (Hu : lev u = 0 \/ In (lev u) ks) by auto.
    clear IH H. induction Hk as [|k ks Hk' Hks IHk]; simpl.
    + destruct Hu as [->|[]]; auto.
    + destruct (Nat.eqb_spec (lev u) k) as [E|N]; simpl.
      * assert (Hz : list_sum (map (fun l => l * length (if lev u =? l then u :: filter (fun u0 => lev u0 =? l) us else filter (fun u0 => lev u0 =? l) us)) ks)
          = list_sum (map (fun l => l * length (filter (fun u0 => lev u0 =? l) us)) ks)).
        { f_equal. apply map_ext_in. intros l Hl. destruct (Nat.eqb_spec (lev u) l); auto. congruence. }
        rewrite Hz. lia.
      * rewrite IHk; [lia|]. destruct Hu as [Hu|[Hu|Hu]]; auto. congruence.
Qed.

Section G.
Variable G : graph.
Hypothesis SG : simple G.

Lemma edges_sound a b : touch (edges G) a b -> In b (g_adj G a).
Proof. intros [H|H]; apply edges_from_sound in H; try tauto. apply SG; tauto. Qed.

Lemma edges_cover a b : In b (g_adj G a) -> touch (edges G) a b.
Proof. intros H. apply edges_from_cover; auto; try apply SG; try apply (sg_mem _ SG a b H); simpl; auto. Qed.

Lemma preColoring_spec D rnd c k c' k' : preColoring G D rnd c k = Ok (c', k') ->
  colored_in G D c' /\ frame G c c'.
Proof.
  unfold preColoring; intros H. pose proof (precolor_loop_spec _ _ _ _ _ _ _ _ H) as S. split.
  - intros a b Hab. apply S. apply edges_cover; auto.
  - intros a b Hn. assert (Ht : ~ touch (edges G) a b) by (intros Ht; apply edges_sound in Ht; auto).
    rewrite (proj2 (S a b)) by auto. apply uncolor_frame; auto.
Qed.

Lemma preColoring_ok D rnd c k : max_degree G D -> exists r, preColoring G D rnd c k = Ok r.
Proof.
  intros HD. unfold preColoring. destruct (Nat.eq_dec D 0) as [->|N].
  - destruct (edges G) as [|[u v] es] eqn:E; [simpl; eauto|].
    assert (H : In v (g_adj G u)) by (apply edges_sound; left; rewrite E; left; auto).
    specialize (HD u). destruct (g_adj G u); simpl in *; [tauto|lia].
  - apply precolor_loop_ok; lia.
Qed.

Lemma total_eq D lev d : exactL D lev (g_nodes G) d ->
  totalNumberOfConflicts D d = list_sum (map lev (g_nodes G)).
Proof.
  intros [H1 H2]. unfold totalNumberOfConflicts.
  rewrite <- (total_pick lev (g_nodes G) (levels D)).
  - f_equal. apply map_ext_in. intros l Hl. apply in_seq in Hl. f_equal.
    apply Permutation_length, NoDup_Permutation; [apply H1|apply NoDup_filter, SG|].
    intros u. rewrite (proj2 (H1 l) u), filter_In, Nat.eqb_eq. intuition lia.
  - apply seq_NoDup.
  - intros u Hu. destruct (H2 u Hu) as [|H]; auto.
    destruct (Nat.eq_dec (lev u) 0); auto. right. apply in_seq. lia.
Qed.

Lemma total_conflicts_eq c : forall us n, total_conflicts G c us n <-> n = list_sum (map (conflictLevel G c) us).
Proof.
  induction us as [|u us IH]; simpl; intros n; split.
  - inversion 1; auto.
  - intros ->; constructor.
  - inversion 1 as [|? l ? m Hl Hm]; subst. apply conflicts_of_level in Hl; auto. apply IH in Hm. lia.
  - intros ->. constructor; [apply conflicts_of_level; auto|apply IH; auto].
Qed.

Lemma total_zero D c d : exactL D (conflictLevel G c) (g_nodes G) d ->
  (totalNumberOfConflicts D d = 0 <-> conflict_free G c).
Proof.
  intros H. rewrite (total_eq _ _ _ H), list_sum_zero. split.
  - intros Hz u v w Hv. apply (level_zero G SG); auto. apply Hz, in_map, (sg_mem _ SG u v Hv).
  - intros Hf x Hx. apply in_map_iff in Hx. destruct Hx as (u & <- & Hu).
    apply (level_zero G SG). intros v w; apply Hf.
Qed.

Lemma total_le D c d : exactL D (conflictLevel G c) (g_nodes G) d ->
  totalNumberOfConflicts D d <= list_sum (map (fun u => length (g_adj G u)) (g_nodes G)).
Proof.
  intros H. rewrite (total_eq _ _ _ H). clear H.
  induction (g_nodes G) as [|u us IH]; simpl; [lia|].
  pose proof (level_sum G SG c u). lia.
Qed.

Lemma fold_max_In : forall t x, In (fold_left Nat.max t x) (x :: t).
Proof.
  induction t as [|y t IH]; simpl; intros x; auto.
  destruct (IH (Nat.max x y)) as [H|H]; auto.
  rewrite <- H. destruct (Nat.max_spec x y) as [[_ ->]|[_ ->]]; auto.
Qed.

Lemma maxLevel_spec D d h : maxConflictLevel D d = Ok h -> 1 <= h < D /\ d h <> [].
Proof.
  unfold maxConflictLevel. destruct (filter _ _) as [|x t] eqn:E; [discriminate|].
  intros H; injection H as <-. pose proof (fold_max_In t x) as Hi. rewrite <- E in Hi.
  apply filter_In in Hi. destruct Hi as [Hi Hl]. apply in_seq in Hi. apply Nat.ltb_lt in Hl.
  split; [lia|]. intros E'; rewrite E' in Hl; simpl in Hl; lia.
Qed.

Lemma maxLevel_ok D d : totalNumberOfConflicts D d <> 0 -> exists h, maxConflictLevel D d = Ok h.
Proof.
  intros H. unfold maxConflictLevel. destruct (filter _ _) as [|x t] eqn:E; [|eauto].
  destruct H. apply list_sum_zero. intros y Hy. apply in_map_iff in Hy. destruct Hy as (l & <- & Hl).
  assert (Hf : ~ In l (filter (fun l => 0 <? length (d l)) (levels D))) by (rewrite E; simpl; auto).
  rewrite filter_In in Hf. destruct (Nat.ltb_spec 0 (length (d l))); [tauto|]. nia.
Qed.

Lemma heuristic_loop_spec D rnd rl fk : forall fuel s prev counter ok s',
  Inv G D s -> (prev = 0 <-> totalNumberOfConflicts D (s_cd s) = 0) ->
  heuristic_loop fuel fk G D rnd rl s prev counter = Ok (ok, s') ->
  Inv G D s' /\ frame G (s_col s) (s_col s') /\ (ok = true <-> totalNumberOfConflicts D (s_cd s') = 0).
Proof.
  induction fuel as [|f IH]; intros s prev counter ok s' HI Hp H; cbn [heuristic_loop] in H; [discriminate|].
  destruct (Nat.eqb_spec prev 0) as [->|Np].
  - injection H as <- <-. split; auto. split; [intros ? ?; auto|tauto].
  - apply bind_ok in H; destruct H as (h & Hh & H).
    apply bind_ok in H; destruct H as (node & Hn & H).
    apply bind_ok in H; destruct H as (s1 & H1 & H).
    apply KempeStart_spec in H1; auto. destruct H1 as [HI1 Hf].
    change (s_col (tick s)) with (s_col s) in Hf.
    set (cur := totalNumberOfConflicts D (s_cd s1)) in *.
    destruct (Nat.eqb_spec cur 0) as [Ec|Nc].
    + injection H as <- <-. split; auto. split; auto. fold cur; tauto.
    + assert (Hrec : forall cnt, heuristic_loop f fk G D rnd rl s1 (Nat.min prev cur) cnt = Ok (ok, s') ->
        Inv G D s' /\ frame G (s_col s) (s_col s') /\ (ok = true <-> totalNumberOfConflicts D (s_cd s') = 0)).
      { intros cnt Hr. apply IH in Hr; auto.
        - destruct Hr as (A & B & C). split; auto. split; auto. eapply frame_trans; eauto.
        - fold cur; lia. }
      destruct (prev <=? cur); [destruct (rl <? counter + 1)%Z|]; eauto.
      injection H as <- <-. split; auto. split; auto. fold cur. split; [discriminate|tauto].
Qed.

Lemma heuristic_loop_ok D rnd rl fk : max_degree G D -> length (g_nodes G) < fk ->
  forall fuel s prev counter,
  Inv G D s -> (prev = 0 <-> totalNumberOfConflicts D (s_cd s) = 0) ->
  (0 <= counter)%Z -> (counter <= Z.max 0 rl)%Z ->
  prev * (Z.to_nat rl + 2) + (Z.to_nat rl + 2 - Z.to_nat counter) < fuel ->
  exists r, heuristic_loop fuel fk G D rnd rl s prev counter = Ok r.
Proof.
  intros HD Hfk. induction fuel as [|f IH]; intros s prev counter HI Hp H0 H1 Hm; [lia|].
  cbn [heuristic_loop]. destruct (Nat.eqb_spec prev 0) as [->|Np]; [eauto|].
  destruct (maxLevel_ok D (s_cd s)) as [h Hh]; [tauto|]. rewrite Hh; simpl.
  apply maxLevel_spec in Hh. destruct Hh as [Hh Hne].
  destruct (choice_ok rnd (s_k s) _ Hne) as [node Hn]. rewrite Hn; simpl.
  destruct (KempeStart_ok G SG D rnd fk (tick s) node) as [s1 Hs]; auto. rewrite Hs; simpl.
  apply KempeStart_spec in Hs; auto. destruct Hs as [HI1 _].
  set (cur := totalNumberOfConflicts D (s_cd s1)) in *.
  destruct (Nat.eqb_spec cur 0) as [Ec|Nc]; [eauto|].
  destruct (Nat.leb_spec prev cur).
  - destruct (Z.ltb_spec rl (counter + 1)); [eauto|].
    apply IH; auto; try (fold cur; lia). rewrite Nat.min_l by lia. lia.
  - apply IH; auto; try (fold cur; lia). rewrite Nat.min_r by lia. nia.
Qed.

Lemma heuristic_spec D rnd rl fh fk c k log ok s' :
  colored_in G D c -> Forall (fun cd => good G D (fst cd) (snd cd)) log ->
  heuristic fh fk G D rnd rl c k log = Ok (ok, s') ->
  Inv G D s' /\ frame G c (s_col s') /\ (ok = true <-> conflict_free G (s_col s')).
Proof.
  intros Hc Hl H. unfold heuristic in H. apply bind_ok in H. destruct H as (d & Hd & H).
  apply create_spec in Hd; auto.
  apply heuristic_loop_spec in H.
  - destruct H as (A & B & C). split; auto. split; auto. rewrite C. apply total_zero. apply A.
  - split; [split; auto|]. apply Forall_app; split; auto. constructor; auto. split; auto.
  - simpl; tauto.
Qed.

Definition two_edges := list_sum (map (fun u => length (g_adj G u)) (g_nodes G)).

Lemma heuristic_ok D rnd rl fh fk c k log :
  max_degree G D -> colored_in G D c -> Forall (fun cd => good G D (fst cd) (snd cd)) log ->
  length (g_nodes G) < fk -> (two_edges + 1) * (Z.to_nat rl + 2) < fh ->
  exists r, heuristic fh fk G D rnd rl c k log = Ok r.
Proof.
  intros HD Hc Hl Hfk Hfh. unfold heuristic, createConflictDictionary.
  destruct (cd_fill_ok G SG D c (g_nodes G) HD (fun _ => [])) as [d Hd]. rewrite Hd; simpl.
  apply create_spec in Hd; auto.
  pose proof (total_le D c d Hd) as Hle. fold two_edges in Hle.
  apply heuristic_loop_ok; auto; simpl; try lia.
  - split; [split; auto|]. simpl. apply Forall_app; split; auto. constructor; auto. split; auto.
  - nia.
Qed.

Lemma apply_loop_spec D rnd rl il fh fk : forall fa c k log n o,
  colored_in G D c -> Forall (fun cd => good G D (fst cd) (snd cd)) log ->
  (n = 1 \/ (Z.of_nat n <= il + 1)%Z) -> 1 <= n ->
  apply_loop fa fh fk G D rnd rl il c k log n = Ok o ->
  Inv G D (o_state o) /\ frame G c (s_col (o_state o)) /\
  (o_last o = true <-> conflict_free G (s_col (o_state o))) /\
  o_result o = checkEdgeColoring G (s_col (o_state o)) D /\
  (o_rounds o = 1 \/ (Z.of_nat (o_rounds o) <= il + 1)%Z) /\ 1 <= o_rounds o /\
  (o_last o = false -> (il < Z.of_nat (o_rounds o))%Z).
Proof.
  induction fa as [|f IH]; simpl; intros c k log n o Hc Hl Hn Hn1 H; [discriminate|].
  apply bind_ok in H. destruct H as ([ok s] & Hh & H).
  apply heuristic_spec in Hh; auto. destruct Hh as (A & B & C).
  destruct (ok || (il <? Z.of_nat n)%Z) eqn:E.
  - injection H as <-; simpl. split; [auto|]. do 5 (split; [auto|]).
    intros ->. simpl in E. apply Z.ltb_lt in E; auto.
  - apply orb_false_iff in E. destruct E as [-> E]. apply Z.ltb_ge in E.
    apply bind_ok in H. destruct H as ([c' k'] & Hp & H).
    apply preColoring_spec in Hp. destruct Hp as [Hc' Hf].
    apply IH in H; auto; try lia.
    + destruct H as (A' & B' & H). split; auto. split; auto.
      eapply frame_trans; [exact B|]. eapply frame_trans; eauto.
    + apply A.
Qed.

Lemma apply_loop_ok D rnd rl il fh fk : max_degree G D ->
  length (g_nodes G) < fk -> (two_edges + 1) * (Z.to_nat rl + 2) < fh ->
  forall fa c k log n,
  colored_in G D c -> Forall (fun cd => good G D (fst cd) (snd cd)) log ->
  Z.to_nat il + 2 <= fa + n -> 1 <= fa ->
  exists o, apply_loop fa fh fk G D rnd rl il c k log n = Ok o.
Proof.
  intros HD Hfk Hfh. induction fa as [|f IH]; simpl; intros c k log n Hc Hl Hf H1; [lia|].
  destruct (heuristic_ok D rnd rl fh fk c k log) as [[ok s] Hh]; auto. rewrite Hh; simpl.
  apply heuristic_spec in Hh; auto. destruct Hh as (A & B & C).
  destruct (ok || (il <? Z.of_nat n)%Z) eqn:E; [eauto|].
  apply orb_false_iff in E. destruct E as [-> E]. apply Z.ltb_ge in E.
  destruct (preColoring_ok D rnd (s_col s) (s_k s) HD) as [[c' k'] Hp]. rewrite Hp; simpl.
  apply preColoring_spec in Hp. destruct Hp as [Hc' Hf'].
  apply IH; auto; try lia. apply A.
Qed.

Lemma applyHeuristic_spec D rnd rl il fa fh fk c k o :
  applyHeuristic fa fh fk G D rnd rl il c k = Ok o ->
  Inv G D (o_state o) /\ frame G c (s_col (o_state o)) /\
  (o_last o = true <-> conflict_free G (s_col (o_state o))) /\
  (o_result o = true <-> colored_in G D (s_col (o_state o)) /\ conflict_free G (s_col (o_state o))) /\
  (o_rounds o = 1 \/ (Z.of_nat (o_rounds o) <= il + 1)%Z) /\ 1 <= o_rounds o /\
  (o_last o = false -> (il < Z.of_nat (o_rounds o))%Z).
Proof.
  unfold applyHeuristic; intros H. apply bind_ok in H. destruct H as ([c' k'] & Hp & H).
  apply preColoring_spec in Hp. destruct Hp as [Hc' Hf].
  apply apply_loop_spec in H; auto. destruct H as (A & B & C & E & F).
  split; auto. split; [eapply frame_trans; eauto|]. split; auto. split; auto.
  rewrite E. apply checkEdgeColoring_spec; auto.
  intros u v Huv. apply A; auto.
Qed.

Lemma applyHeuristic_ok D rnd rl il fa fh fk c k :
  max_degree G D -> length (g_nodes G) < fk -> (two_edges + 1) * (Z.to_nat rl + 2) < fh ->
  Z.to_nat il + 1 <= fa -> 1 <= fa ->
  exists o, applyHeuristic fa fh fk G D rnd rl il c k = Ok o.
Proof.
  intros HD Hfk Hfh Hfa H1. unfold applyHeuristic.
  destruct (preColoring_ok D rnd c k HD) as [[c' k'] Hp]. rewrite Hp; simpl.
  apply preColoring_spec in Hp. destruct Hp as [Hc' Hf].
  apply apply_loop_ok; auto. lia.
Qed.

(** a vertex with more than [D] edges has two of the same colour *)
Lemma degree_pigeonhole D c u : D < length (g_adj G u) -> colored_in G D c -> ~ conflict_free G c.
Proof.
  intros Hu Hc Hf.
  assert (Hn : NoDup (map (c u) (g_adj G u))).
  { apply NoDup_map_inj; [apply SG|]. intros v w; apply Hf. }
  assert (Hi : incl (map (c u) (g_adj G u)) (map Some (seq 0 D))).
  { intros x Hx. apply in_map_iff in Hx. destruct Hx as (v & <- & Hv).
    destruct (Hc u v Hv) as [_ (y & -> & Hy)]. apply in_map, in_seq; lia. }
  pose proof (NoDup_incl_length Hn Hi) as Hl. rewrite !map_length, seq_length in Hl. lia.
Qed.

End G.

(** ** from_edgelist *)

Lemma app_new_In x l y : In y (app_new x l) <-> y = x \/ In y l.
Proof.
  unfold app_new. destruct (mem x l) eqn:E.
  - apply mem_In in E. split; auto. intros [->|]; auto.
  - rewrite in_app_iff; simpl. intuition auto.
Qed.

Lemma app_new_NoDup x l : NoDup l -> NoDup (app_new x l).
Proof.
  intros H; unfold app_new. destruct (mem x l) eqn:E; auto.
  apply NoDup_app_intro; auto; [repeat constructor; simpl; tauto|].
  intros y Hy [<-|[]]. apply mem_In in Hy; congruence.
Qed.

Lemma add_edge_adj G u v x y :
  In y (g_adj (add_edge G (u, v)) x) <-> In y (g_adj G x) \/ (x = u /\ y = v) \/ (x = v /\ y = u).
Proof.
  simpl. destruct (Nat.eqb_spec x v), (Nat.eqb_spec x u); rewrite ?app_new_In; subst; intuition congruence.
Qed.

Lemma add_edge_nodes G u v x :
  In x (g_nodes (add_edge G (u, v))) <-> x = u \/ x = v \/ In x (g_nodes G).
Proof. simpl. rewrite !app_new_In. intuition auto. Qed.

Lemma add_edge_simple G u v : u <> v -> simple G -> simple (add_edge G (u, v)).
Proof.
  intros Hne HG. constructor.
  - simpl. apply app_new_NoDup, app_new_NoDup, HG.
  - intros x; simpl. destruct (Nat.eqb x v), (Nat.eqb x u); repeat apply app_new_NoDup; apply HG.
  - intros x y. rewrite add_edge_adj, !add_edge_nodes.
    intros [H|[[-> ->]|[-> ->]]]; auto. apply (sg_mem _ HG) in H; tauto.
  - intros x y. rewrite !add_edge_adj. intros [H|H]; [left; apply HG; auto|tauto].
  - intros x. rewrite add_edge_adj. intros [H|H]; [apply (sg_irr _ HG x H)|intuition congruence].
Qed.

Lemma from_edgelist_gen : forall es G, simple G -> (forall u v, In (u, v) es -> u <> v) ->
  simple (fold_left add_edge es G) /\
  (forall x y, In y (g_adj (fold_left add_edge es G) x) <-> In y (g_adj G x) \/ touch es x y).
Proof.
  induction es as [|[u v] es IH]; intros G HG Hne.
  - simpl; split; auto. unfold touch; simpl; tauto.
  - change (fold_left add_edge ((u, v) :: es) G) with (fold_left add_edge es (add_edge G (u, v))).
    destruct (IH (add_edge G (u, v))) as [H1 H2].
    + apply add_edge_simple; auto. apply Hne; left; auto.
    + intros a b H; apply Hne; right; auto.
    + split; auto. intros x y. rewrite H2, add_edge_adj. unfold touch; simpl.
      assert (E1 : (u, v) = (x, y) <-> x = u /\ y = v) by (split; [intros E; injection E|intros [-> ->]]; auto).
      assert (E2 : (u, v) = (y, x) <-> x = v /\ y = u) by (split; [intros E; injection E|intros [-> ->]]; auto).
      tauto.
Qed.

Lemma from_edgelist_spec es : (forall u v, In (u, v) es -> u <> v) ->
  simple (from_edgelist es) /\ (forall x y, In y (g_adj (from_edgelist es) x) <-> touch es x y).
Proof.
  intros H. destruct (from_edgelist_gen es {| g_nodes := []; g_adj := fun _ => [] |}) as [H1 H2]; auto.
  - constructor; simpl; try tauto; try constructor.
  - split; auto. intros x y; rewrite H2; simpl; tauto.
Qed.

(** adjacency characterisation without the no-self-loop hypothesis *)
Lemma from_edgelist_adj : forall es G x y,
  In y (g_adj (fold_left add_edge es G) x) <-> In y (g_adj G x) \/ touch es x y.
Proof.
  induction es as [|[u v] es IH]; intros G x y.
  - unfold touch; simpl; tauto.
  - change (fold_left add_edge ((u, v) :: es) G) with (fold_left add_edge es (add_edge G (u, v))).
    rewrite IH, add_edge_adj. unfold touch; simpl.
    assert (E1 : (u, v) = (x, y) <-> x = u /\ y = v) by (split; [intros E; injection E|intros [-> ->]]; auto).
    assert (E2 : (u, v) = (y, x) <-> x = v /\ y = u) by (split; [intros E; injection E|intros [-> ->]]; auto).
    tauto.
Qed.

Lemma edges_from_NoDup G : (forall u, NoDup (g_adj G u)) -> forall ns seen, NoDup ns ->
  NoDup (edges_from G ns seen) /\
  (forall a b, In (a, b) (edges_from G ns seen) -> In a ns /\ ~ In b seen) /\
  (forall a b, a <> b -> In (a, b) (edges_from G ns seen) -> ~ In (b, a) (edges_from G ns seen)).
Proof.
  intros Hadj. induction ns as [|n ns IH]; intros seen Hn; simpl.
  - split; [constructor|]. split; simpl; tauto.
  - inversion Hn as [|? ? Hn1 Hn2]; subst. destruct (IH (n :: seen) Hn2) as (I1 & I2 & I3).
    assert (Hh : forall a b, In (a, b) (map (fun w => (n, w)) (filter (fun w => negb (mem w seen)) (g_adj G n)))
                 -> a = n /\ ~ In b seen).
    { intros a b H. apply in_map_iff in H. destruct H as (w & E & Hw). injection E as -> ->.
      apply filter_In in Hw. destruct Hw as [_ Hw]. apply negb_true_iff in Hw. split; auto.
      intros Hb; apply mem_In in Hb; congruence. }
    split; [|split].
    + apply NoDup_app_intro; auto.
      * apply FinFun.Injective_map_NoDup; [intros x y E; injection E; auto|apply NoDup_filter, Hadj].
      * intros [a b] H1 H2. apply Hh in H1. destruct H1 as [-> _]. apply I2 in H2. tauto.
    + intros a b H. apply in_app_iff in H. destruct H as [H|H].
      * apply Hh in H. destruct H as [-> ?]; auto.
      * apply I2 in H. simpl in H. tauto.
    + intros a b Hab H H'. apply in_app_iff in H. apply in_app_iff in H'.
      destruct H as [H|H], H' as [H'|H'].
      * apply Hh in H. apply Hh in H'. intuition congruence.
      * apply Hh in H. apply I2 in H'. simpl in H'. destruct H as [-> _]. tauto.
      * apply I2 in H. apply Hh in H'. simpl in H. destruct H' as [-> _]. tauto.
      * apply (I3 a b Hab H H').
Qed.

(** edges sharing no node *)
Definition disjoint_edge (e f : nat * nat) : Prop :=
  fst e <> fst f /\ fst e <> snd f /\ snd e <> fst f /\ snd e <> snd f.

Lemma disjoint_unrolled : forall es : list (nat * nat),
  NoDup (flat_map (fun e => [fst e; snd e]) es) ->
  (forall e, In e es -> fst e <> snd e) /\ ForallOrdPairs disjoint_edge es.
Proof.
  induction es as [|[a b] es IH]; simpl; intros H.
  - split; [tauto|constructor].
  - inversion H as [|? ? H1 H2]; subst. inversion H2 as [|? ? H3 H4]; subst.
    destruct (IH H4) as [I1 I2]. split.
    + intros e [<-|He]; auto. simpl; intros ->; apply H1; left; auto.
    + constructor; auto. apply Forall_forall. intros [c d] Hin.
      assert (Hc : In c (flat_map (fun e => [fst e; snd e]) es)) by (apply in_flat_map; exists (c, d); simpl; auto).
      assert (Hd : In d (flat_map (fun e => [fst e; snd e]) es)) by (apply in_flat_map; exists (c, d); simpl; auto).
      unfold disjoint_edge; simpl. simpl in H1. repeat split; intros ->; tauto.
Qed.

Lemma length_nodup_NoDup l : Nat.eqb (length l) (length (nodup Nat.eq_dec l)) = true <-> NoDup l.
Proof.
  rewrite Nat.eqb_eq. split; intros H.
  - apply NoDup_incl_NoDup with (l := nodup Nat.eq_dec l); [apply NoDup_nodup|lia|].
    intros x Hx; apply nodup_In in Hx; auto.
  - rewrite nodup_fixed_point; auto.
Qed.

Lemma color0 c (e : nat * nat) : match c (fst e) (snd e) with Some 0 => true | _ => false end = true <->
  c (fst e) (snd e) = Some 0.
Proof. destruct (c (fst e) (snd e)) as [[|x]|]; split; congruence. Qed.

(** ForallOrdPairs from NoDup and a pairwise fact *)
Lemma ordpairs_intro {A} (R : A -> A -> Prop) l : NoDup l ->
  (forall x y, In x l -> In y l -> x <> y -> R x y) -> ForallOrdPairs R l.
Proof.
  induction 1 as [|a l Ha Hl IH]; intros H; constructor.
  - apply Forall_forall. intros y Hy. apply H; simpl; auto. intros ->; auto.
  - apply IH. intros; apply H; simpl; auto.
Qed.

Lemma color_class_disjoint G c D : simple G -> colored_in G D c -> conflict_free G c ->
  ForallOrdPairs disjoint_edge
    (filter (fun e => match c (fst e) (snd e) with Some 0 => true | _ => false end) (edges G)).
Proof.
  intros HG Hc Hf.
  destruct (edges_from_NoDup G (sg_adj _ HG) (g_nodes G) [] (sg_nodes _ HG)) as (N1 & N2 & N3).
  apply ordpairs_intro; [apply NoDup_filter; exact N1|].
  intros [a b] [x y] H1 H2 Hne. apply filter_In in H1. apply filter_In in H2.
  destruct H1 as [E1 C1], H2 as [E2 C2]. apply color0 in C1. apply color0 in C2. simpl in C1, C2.
  assert (A1 : In b (g_adj G a)) by (apply edges_from_sound in E1; tauto).
  assert (A2 : In y (g_adj G x)) by (apply edges_from_sound in E2; tauto).
  assert (S1 : c b a = Some 0) by (rewrite <- C1; symmetry; apply (Hc a b A1)).
  assert (S2 : c y x = Some 0) by (rewrite <- C2; symmetry; apply (Hc x y A2)).
  assert (B1 : In a (g_adj G b)) by (apply HG; auto).
  assert (B2 : In x (g_adj G y)) by (apply HG; auto).
  unfold disjoint_edge; simpl; repeat split; intros E; subst.
  - (* a = x *) destruct (Nat.eq_dec b y) as [->|N]; [congruence|]. apply (Hf x b y); auto; congruence.
  - (* a = y *) destruct (Nat.eq_dec b x) as [->|N].
    + assert (x <> y) by (intros ->; apply (sg_irr _ HG y); auto). apply (N3 x y); auto.
    + apply (Hf y b x); auto; congruence.
  - (* b = x *) destruct (Nat.eq_dec a y) as [->|N].
    + assert (x <> y) by (intros ->; apply (sg_irr _ HG y); auto). apply (N3 x y); auto.
    + apply (Hf x a y); auto; congruence.
  - (* b = y *) destruct (Nat.eq_dec a x) as [->|N]; [congruence|]. apply (Hf y a x); auto; congruence.
Qed.
