(** Property C114: bonds between two sublattices, at most two at each qubit, are always
    coloured by applyHeuristic, and get_commuting_set returns disjoint bonds. *)
From Coq Require Import List Arith ZArith Bool Lia.
From Verif Require Import Py EdgeModel EdgeSpec EdgeProofs EdgeProofs2 EdgeProofs3.
Import ListNotations.
Local Open Scope nat_scope.

(** ** Specification *)

(** the vertices can be divided into two sides such that edges join different sides *)
Definition two_sided (G : graph) : Prop := exists side : nat -> bool, forall u v, In v (g_adj G u) -> side u <> side v.
Definition two_sided_bonds (es : list (nat * nat)) : Prop := exists side : nat -> bool, forall u v, In (u, v) es -> side u <> side v.

(** the bond meets the qubit *)
Definition touches (u : nat) (e : nat * nat) : Prop := fst e = u \/ snd e = u.
(** the qubit has bonds with two others *)
Definition inner (es : list (nat * nat)) (u : nat) : Prop :=
  exists v w, v <> w /\ (In (u, v) es \/ In (v, u) es) /\ (In (u, w) es \/ In (w, u) es).
(** the bond is listed, in one direction or the other *)
Definition listed (es : list (nat * nat)) (u v : nat) : Prop := In (u, v) es \/ In (v, u) es.

(** ** Vertices with at most two neighbours *)
Section G.
Variables (G : graph) (SG : simple G) (HD : max_degree G 2).

Lemma two_adj u v w : In v (g_adj G u) -> In w (g_adj G u) -> v <> w -> g_adj G u = [v; w] \/ g_adj G u = [w; v].
Proof.
  intros Hv Hw N. pose proof (HD u) as H. destruct (g_adj G u) as [|a [|b [|z l]]]; cbn [length In] in *; [tauto|intuition congruence| |lia].
  destruct Hv as [<-|[<-|[]]], Hw as [<-|[<-|[]]]; auto; congruence.
Qed.
Lemma third u v w z : In v (g_adj G u) -> In w (g_adj G u) -> v <> w -> In z (g_adj G u) -> z = v \/ z = w.
Proof. intros Hv Hw N. destruct (two_adj u v w Hv Hw N) as [-> | ->]; cbn; intuition. Qed.
Lemma level_pair c u v w : In v (g_adj G u) -> In w (g_adj G u) -> v <> w -> conflictLevel G c u = if ocol_dec (c u v) (c u w) then 1 else 0.
Proof.
  intros Hv Hw N. rewrite (level_eq G SG). unfold colors_at. destruct (two_adj u v w Hv Hw N) as [-> | ->]; cbn [map length]; unfold distinct; cbn [nodup].
  - destruct (in_dec ocol_dec (c u v) [c u w]) as [[H|[]]|H], (ocol_dec (c u v) (c u w)); cbn; try reflexivity; cbn in H; intuition congruence.
  - destruct (in_dec ocol_dec (c u w) [c u v]) as [[H|[]]|H], (ocol_dec (c u v) (c u w)); cbn; try reflexivity; cbn in H; intuition congruence.
Qed.
Lemma level_pos c u : conflictLevel G c u <> 0 -> exists v w, In v (g_adj G u) /\ In w (g_adj G u) /\ v <> w /\ c u v = c u w.
Proof.
  intros H. pose proof (HD u) as Hd. rewrite (level_eq G SG) in H. destruct (g_adj G u) as [|a [|b [|z l]]] eqn:E; cbn [length] in *; try lia.
  - unfold colors_at in H. rewrite E in H. cbn in H. lia.
  - assert (N : a <> b). { pose proof (sg_adj _ SG u) as Hn. rewrite E in Hn. inversion Hn as [|? ? Hn1 _]; subst. cbn in Hn1. intuition. }
    exists a, b. repeat split; auto; [left; auto|right; left; auto|]. destruct (ocol_dec (c u a) (c u b)) as [Hc|Hc]; [exact Hc|]. exfalso. apply H.
    rewrite <- (level_eq G SG) with (u := u) (c := c) || idtac. unfold colors_at. rewrite E. unfold distinct. cbn [map nodup].
    destruct (in_dec ocol_dec (c u a) [c u b]) as [[Hi|[]]|Hi]; [congruence|]. cbn. reflexivity.
Qed.
Lemma level_single c u : (forall v w, In v (g_adj G u) -> In w (g_adj G u) -> v = w) -> conflictLevel G c u = 0.
Proof. intros H. destruct (Nat.eq_dec (conflictLevel G c u) 0) as [E|E]; [exact E|]. destruct (level_pos c u E) as (v & w & Hv & Hw & N & _). destruct (N (H v w Hv Hw)). Qed.

(** the sum of the levels when one edge is recoloured *)
Definition total (c : coloring) : nat := list_sum (map (conflictLevel G c) (g_nodes G)).
Lemma sum_cons (f : nat -> nat) y l : list_sum (map f (y :: l)) = f y + list_sum (map f l).
Proof. reflexivity. Qed.
Lemma sum_same (f g : nat -> nat) l : (forall x, In x l -> f x = g x) -> list_sum (map f l) = list_sum (map g l).
Proof. intros H. f_equal. apply map_ext_in. exact H. Qed.
Lemma sum_change1 (f g : nat -> nat) p l : NoDup l -> In p l -> (forall x, In x l -> x <> p -> f x = g x) -> list_sum (map f l) + g p = list_sum (map g l) + f p.
Proof.
  intros Hn. induction Hn as [|y l Hy Hl IH]; intros Hp H; [destruct Hp|]. rewrite !sum_cons. destruct Hp as [->|Hp].
  - rewrite (sum_same f g l); [lia|]. intros x Hx. apply H; [right; exact Hx|intros ->; tauto].
  - rewrite (H y) by (try (left; reflexivity); intros ->; tauto). specialize (IH Hp ltac:(intros x Hx; apply H; right; exact Hx)). lia.
Qed.
Lemma sum_change (f g : nat -> nat) a b l : NoDup l -> In a l -> In b l -> a <> b -> (forall x, x <> a -> x <> b -> f x = g x) ->
  list_sum (map f l) + g a + g b = list_sum (map g l) + f a + f b.
Proof.
  intros Hn Ha Hb N H. pose (h := fun x => if Nat.eqb x a then g a else f x).
  pose proof (sum_change1 f h a l Hn Ha) as H1. pose proof (sum_change1 h g b l Hn Hb) as H2. assert (Ea : h a = g a) by (unfold h; rewrite Nat.eqb_refl; reflexivity).
  assert (Eb : h b = f b). { unfold h. destruct (Nat.eqb_spec b a); [congruence|reflexivity]. } rewrite Ea in H1. rewrite Eb in H2.
  assert (list_sum (map f l) + g a = list_sum (map h l) + f a). { apply H1. intros x _ Nx. unfold h. destruct (Nat.eqb_spec x a); [congruence|reflexivity]. }
  assert (list_sum (map h l) + g b = list_sum (map g l) + f b). { apply H2. intros x _ Nx. unfold h. destruct (Nat.eqb_spec x a); [congruence|]. apply H; auto. }
  lia.
Qed.
Lemma total_set c u v x : In v (g_adj G u) -> let c' := set_color c u v x in
  total c' + conflictLevel G c u + conflictLevel G c v = total c + conflictLevel G c' u + conflictLevel G c' v.
Proof.
  intros H c'. destruct (sg_mem _ SG u v H) as [Hu Hv]. unfold total. apply (sum_change (conflictLevel G c') (conflictLevel G c)); auto; [apply SG|intros ->; exact (sg_irr _ SG v H)|].
  intros y N1 N2. rewrite !(level_eq G SG). unfold c'. rewrite set_color_other; auto.
Qed.

(** ** The Kempe chain *)
Variables (side : nat -> bool) (Hside : forall u v, In v (g_adj G u) -> side u <> side v).
Variables (v0 x0 : nat) (Hx0 : x0 < 2).

Definition the_color (u : nat) : nat := if Bool.eqb (side u) (side v0) then x0 else 1 - x0.

(** the part of the chain that is left behind has no conflicts with the rest *)
Definition walked (c : coloring) (chain : list nat) (prev last : nat) : Prop :=
  forall v u, In v chain -> In u (g_adj G v) -> In u chain \/ (u = last /\ v = prev) \/ (v = v0 /\ c v0 u = Some (1 - x0)).
Definition started (chain : list nat) (prev last node : nat) : Prop :=
  (chain = [] /\ last = v0) \/ (In prev chain /\ In v0 chain /\ In last (g_adj G prev) /\ prev <> node).

Lemma chain_decreases rnd : forall fuel s prev last node chain s',
  Inv G 2 s -> In node (g_adj G last) -> s_col s last node = Some (1 - the_color last) -> conflictLevel G (s_col s) last = 1 ->
  ~ In last chain -> walked (s_col s) chain prev last -> started chain prev last node ->
  KempeProcess fuel G 2 rnd s last node (the_color last) chain = Ok s' -> total (s_col s') < total (s_col s).
Proof.
  assert (Hcol : forall u, the_color u < 2) by (intros u; unfold the_color; destruct (Bool.eqb _ _); lia).
  induction fuel as [|f IH]; intros s prev last node chain s' HI Ha Hc Hl Hn Hw Hs H; cbn [KempeProcess] in H; [discriminate|].
  assert (Em : mem last chain = false). { destruct (mem last chain) eqn:E; [|reflexivity]. apply mem_In in E. tauto. } rewrite Em in H.
  apply bind_ok in H. destruct H as ((r & s1) & Hstep & H).
  assert (Hne : last <> node) by (intros ->; exact (sg_irr _ SG node Ha)).
  assert (Hcin : colored_in G 2 (s_col s)) by apply HI.
  assert (Ha' : In last (g_adj G node)) by (apply SG; exact Ha).
  (* the other neighbour of last *)
  assert (Hp : exists p, In p (g_adj G last) /\ p <> node /\ s_col s last p = Some (1 - the_color last)).
  { destruct (level_pos (s_col s) last) as (a & b & Ia & Ib & N & E); [lia|]. destruct (Nat.eq_dec a node) as [->|Na]; [exists b; split; [exact Ib|]; split; [auto|congruence]|].
    destruct (third last a b node Ia Ib N Ha) as [-> | ->]; [congruence|]. exists a. split; [exact Ia|]. split; [exact Na|congruence]. }
  destruct Hp as (p & Ip & Np & Ep).
  (* the chain does not come back *)
  assert (Hnode : ~ In node chain).
  { intros Hi. destruct (Hw node last Hi Ha') as [Hq|[[_ Hq]|[Hq Eq]]]; [tauto| |].
    - destruct Hs as [[-> _]|(_ & _ & _ & Hs)]; [contradiction|congruence].
    - subst node. destruct (Hcin last v0 Ha) as [Es _]. rewrite <- Es, Hc in Eq. assert (Eq' : 1 - the_color last = 1 - x0) by congruence. clear Eq. rename Eq' into Eq. pose proof (Hside last v0 Ha) as Hsd. unfold the_color in Eq.
      destruct (side last), (side v0); cbn [Bool.eqb] in Eq; try congruence; lia. }
  unfold KempeStep in Hstep. set (av := filter _ _) in Hstep.
  apply bind_ok in Hstep. destruct Hstep as ((nx & s2) & H1 & Hstep). apply bind_ok in Hstep. destruct Hstep as ((vr & s3) & H2 & Hstep).
  assert (Hav : forall w, In w av <-> In w (g_adj G node) /\ w <> last /\ s_col s node w = Some (the_color last)).
  { intros w. unfold av. rewrite filter_In, andb_true_iff, negb_true_iff, Nat.eqb_neq. destruct (ocol_dec _ _); intuition congruence. }
  assert (Hs2 : Inv G 2 s2 /\ s_col s2 = s_col s /\ match nx with None => av = [] | Some w => In w av end).
  { clear -H1 HI. destruct av as [|a av'] eqn:E; [injection H1 as <- <-; auto|]. apply bind_ok in H1. destruct H1 as (w & H1 & H1'). injection H1' as <- <-.
    split; [apply tick_Inv; exact HI|]. split; [reflexivity|]. exact (choice_In _ _ _ _ H1). }
  destruct Hs2 as (HI2 & Ec2 & Hnx).
  apply (colorEdge_spec G SG) in H2; auto. destruct H2 as (HI3 & E3 & Evr & _). rewrite Ec2 in E3, Evr.
  pose proof (total_set (s_col s) last node (Some (the_color last)) Ha) as HT. cbv zeta in HT. rewrite <- E3 in HT.
  (* last has no conflict any more *)
  assert (L1 : conflictLevel G (s_col s3) last = 0).
  { rewrite (level_pair _ last node p Ha Ip) by auto. rewrite E3, (proj1 (set_color_touch _ _ _ _ _ _)) by auto. rewrite (proj2 (set_color_touch _ _ _ _ _ _)) by intuition congruence.
    rewrite Ep. destruct (ocol_dec _ _) as [E|]; [|reflexivity]. pose proof (Hcol last). assert (the_color last = 1 - the_color last) by congruence. lia. }
  rewrite Hl, L1 in HT.
  destruct nx as [w|].
  - apply Hav in Hnx. destruct Hnx as (Iw & Nw & Ew).
    assert (Hnl : s_col s node last = Some (1 - the_color last)) by (rewrite <- (proj1 (Hcin last node Ha)); exact Hc).
    assert (K0 : conflictLevel G (s_col s) node = 0).
    { rewrite (level_pair _ node last w Ha' Iw) by auto. rewrite Hnl, Ew. destruct (ocol_dec _ _) as [E|]; [|reflexivity]. pose proof (Hcol last). assert (the_color last = 1 - the_color last) by congruence. lia. }
    assert (W3 : s_col s3 node w = Some (the_color last)). { rewrite E3, (proj2 (set_color_touch _ _ _ _ _ _)) by intuition congruence. exact Ew. }
    assert (K1 : conflictLevel G (s_col s3) node = 1).
    { rewrite (level_pair _ node last w Ha' Iw) by auto. rewrite W3, E3, (proj1 (set_color_touch _ _ _ _ _ _)) by auto. destruct (ocol_dec _ _); [reflexivity|congruence]. }
    rewrite K0, K1 in Evr. subst vr. change (Z.of_nat 1 - Z.of_nat 0 <? 0)%Z with false in Hstep. rewrite Ec2, Hc in Hstep.
    assert (Hr : r = Some (w, 1 - the_color last) /\ s1 = s3) by (split; congruence). destruct Hr as (-> & ->).
    rewrite K0, K1 in HT.
    assert (Hflip : the_color node = 1 - the_color last).
    { pose proof (Hside last node Ha) as Hsd. unfold the_color. destruct (side last), (side node), (side v0); cbn [Bool.eqb]; try congruence; lia. }
    rewrite <- Hflip in H. apply (IH _ last) in H; auto.
    + lia.
    + rewrite W3, Hflip. f_equal. pose proof (Hcol last). lia.
    + rewrite in_app_iff. cbn. intuition.
    + intros v u Hv Hu. rewrite in_app_iff in Hv. cbn in Hv. rewrite in_app_iff. cbn. destruct Hv as [Hv|[<-|[]]].
      * destruct (Hw v u Hv Hu) as [Hq|[[-> _]|[-> Eq]]]; [tauto|tauto|]. right. right. split; [reflexivity|]. rewrite E3, (proj2 (set_color_touch _ _ _ _ _ _)); [exact Eq|]. intuition congruence.
      * destruct (third last node p u Ha Ip) as [-> | ->]; auto. destruct Hs as [[-> ->]|(H1' & H2' & H3' & H4')].
        -- right. right. split; [reflexivity|]. rewrite E3, (proj2 (set_color_touch _ _ _ _ _ _)) by intuition congruence. rewrite Ep. unfold the_color. rewrite Bool.eqb_reflx. reflexivity.
        -- left. left. assert (Ipv : In prev (g_adj G last)) by (apply SG; exact H3'). destruct (third last node p prev Ha Ip) as [Hq|Hq]; auto; [congruence|]. rewrite <- Hq. exact H1'.
    + right. rewrite !in_app_iff. cbn. split; [tauto|]. split; [|split; [exact Ha|auto]]. destruct Hs as [[-> ->]|(_ & H2' & _)]; tauto.
  - assert (Hr : r = None /\ s1 = s3). { destruct (vr <? 0)%Z; [injection Hstep as <- <-; auto|]. destruct (s_col s2 last node); injection Hstep as <- <-; auto. } destruct Hr as (-> & ->). injection H as <-.
    assert (K : conflictLevel G (s_col s3) node <= conflictLevel G (s_col s) node); [|lia].
    destruct (Nat.eq_dec (conflictLevel G (s_col s3) node) 0) as [->|Nz]; [lia|]. exfalso. destruct (level_pos _ _ Nz) as (a & b & Ia & Ib & N & E).
    assert (Hw' : exists w, In w (g_adj G node) /\ w <> last /\ s_col s3 node w = Some (the_color last)).
    { assert (El : s_col s3 node last = Some (the_color last)) by (rewrite E3, (proj1 (set_color_touch _ _ _ _ _ _)); auto).
      destruct (third node a b last Ia Ib N Ha') as [-> | ->]; [exists b|exists a]; (split; [assumption|]; split; [auto|congruence]). }
    destruct Hw' as (w & Iw & Nw & Ew). rewrite E3, (proj2 (set_color_touch _ _ _ _ _ _)) in Ew by intuition congruence. assert (Hq : In w av) by (apply Hav; auto). rewrite Hnx in Hq. exact Hq.
Qed.
End G.

Section Heuristic.
Variables (G : graph) (SG : simple G) (HD : max_degree G 2) (H2 : two_sided G).

Lemma start_decreases rnd fuel s node s' : Inv G 2 s -> conflictLevel G (s_col s) node <> 0 -> KempeStart fuel G 2 rnd s node = Ok s' -> total G (s_col s') < total G (s_col s).
Proof.
  intros HI Hl H. destruct H2 as (side & Hside). destruct (level_pos G SG HD _ _ Hl) as (a' & b' & Ia & Ib & N & E).
  assert (Hab : exists a b, g_adj G node = [a; b] /\ a <> b /\ s_col s node a = s_col s node b).
  { destruct (two_adj G HD node a' b' Ia Ib N) as [F|F]; [exists a', b'|exists b', a']; auto. }
  destruct Hab as (a & b & F & Nab & Eab). clear a' b' Ia Ib N E.
  assert (Ia : In a (g_adj G node)) by (rewrite F; left; reflexivity). assert (Ib : In b (g_adj G node)) by (rewrite F; right; left; reflexivity).
  assert (Hc : colored_in G 2 (s_col s)) by apply HI. destruct (Hc node a Ia) as [_ (y & Ey & Hy)].
  unfold KempeStart in H. rewrite F in H.
  assert (Sc : kempe_scan (s_col s) node [a; b] (seq 0 2) None = ([1 - y], Some b)).
  { cbn [kempe_scan seq]. rewrite <- Eab, Ey. destruct y as [|[|y]]; [reflexivity|reflexivity|lia]. }
  rewrite Sc, choice_single in H. cbn [bind] in H.
  assert (Hx : the_color side node (1 - y) node = 1 - y) by (unfold the_color; rewrite Bool.eqb_reflx; reflexivity). rewrite <- Hx in H.
  apply (chain_decreases G SG HD side Hside node (1 - y) ltac:(lia) rnd _ _ 0) in H; auto.
  - cbn [s_col tick]. rewrite Hx, <- Eab, Ey. f_equal. lia.
  - cbn [s_col tick]. rewrite (level_pair G SG HD _ node a b Ia Ib Nab). destruct (ocol_dec _ _); [reflexivity|congruence].
  - intros v u [].
  - left. auto.
Qed.

Lemma level_of_dict s h node : Inv G 2 s -> 1 <= h -> In node (s_cd s h) -> conflictLevel G (s_col s) node <> 0.
Proof. intros [[_ [H _]] _] Hh Hn. apply H in Hn. lia. Qed.

Lemma loop_succeeds rnd rl fk : forall fuel s counter ok s',
  Inv G 2 s -> heuristic_loop fuel fk G 2 rnd rl s (totalNumberOfConflicts 2 (s_cd s)) counter = Ok (ok, s') -> ok = true.
Proof.
  induction fuel as [|f IH]; intros s counter ok s' HI H; cbn [heuristic_loop] in H; [discriminate|].
  destruct (Nat.eqb_spec (totalNumberOfConflicts 2 (s_cd s)) 0) as [E|N]; [injection H as <- <-; reflexivity|].
  apply bind_ok in H; destruct H as (h & Hh & H). apply bind_ok in H; destruct H as (node & Hn & H). apply bind_ok in H; destruct H as (s1 & H1 & H).
  apply maxLevel_spec in Hh. apply choice_In in Hn.
  assert (Hd : total G (s_col s1) < total G (s_col s)) by (apply (start_decreases rnd fk (tick s) node s1); [exact HI|apply (level_of_dict s h); [exact HI|lia|exact Hn]|exact H1]).
  apply (KempeStart_spec G SG) in H1; [|exact HI]. destruct H1 as [HI1 _].
  assert (T : forall t, Inv G 2 t -> totalNumberOfConflicts 2 (s_cd t) = total G (s_col t)). { intros t Ht. apply (total_eq G SG). apply Ht. }
  destruct (Nat.eqb_spec (totalNumberOfConflicts 2 (s_cd s1)) 0); [injection H as <- <-; reflexivity|].
  rewrite (T s HI), (T s1 HI1) in H. destruct (Nat.leb_spec (total G (s_col s)) (total G (s_col s1))); [lia|]. rewrite Nat.min_r in H by lia. rewrite <- (T s1 HI1) in H. exact (IH _ _ _ _ HI1 H).
Qed.

Lemma heuristic_succeeds rnd rl fh fk c k log ok s' : colored_in G 2 c -> Forall (fun cd => good G 2 (fst cd) (snd cd)) log ->
  heuristic fh fk G 2 rnd rl c k log = Ok (ok, s') -> ok = true.
Proof.
  intros Hc Hl H. unfold heuristic in H. apply bind_ok in H. destruct H as (d & Hd & H). apply create_spec in Hd; auto.
  apply (loop_succeeds rnd rl fk fh {| s_col := c; s_cd := d; s_k := k; s_log := log ++ [(c, d)] |} 0%Z ok s'); [|exact H].
  split; [split; assumption|]. cbn. apply Forall_app. split; [exact Hl|]. constructor; [split; assumption|constructor].
Qed.
End Heuristic.

(** ** C114 *)
(** the heuristic succeeds in its first round, whatever the random numbers and limits *)
Theorem C114_always_colored : forall G rnd rl il fa fh fk c k o, simple G -> max_degree G 2 -> two_sided G ->
  applyHeuristic fa fh fk G 2 rnd rl il c k = Ok o -> o_result o = true /\ o_rounds o = 1.
Proof.
  intros G rnd rl il fa fh fk c k o SG HD H2 H. assert (H' := H). apply (applyHeuristic_spec G SG) in H'. destruct H' as (_ & _ & Hl & Hr & _).
  unfold applyHeuristic in H. apply bind_ok in H. destruct H as ((c' & k') & Hp & H). apply (preColoring_spec G SG) in Hp. destruct Hp as [Hc _].
  destruct fa as [|fa]; [discriminate|]. cbn [apply_loop] in H. apply bind_ok in H. destruct H as ((ok & s) & Hh & H).
  assert (Hs := Hh). apply (heuristic_succeeds G SG HD H2) in Hh; [|exact Hc|constructor]. subst ok. cbn [orb] in H. injection H as <-. cbn [o_result o_rounds o_state o_last] in *. split; [|reflexivity].
  apply Hr. apply (heuristic_spec G SG) in Hs; [|exact Hc|constructor]. destruct Hs as (HI & _ & Hf). split; [apply HI|apply Hf; reflexivity].
Qed.
Print Assumptions C114_always_colored.

Lemma bonds_graph es : no_loops es -> two_sided_bonds es -> two_sided (from_edgelist es).
Proof.
  intros Hl (side & H). exists side. intros u v Hv. apply (proj2 (from_edgelist_spec es Hl)) in Hv. destruct Hv as [Hv|Hv]; apply H in Hv; congruence.
Qed.

(** get_commuting_set returns disjoint bonds, and every qubit with two bonds is in one of them *)
Theorem C114_disjoint_bonds : forall rnd k es fa fh fk l k', no_loops es -> at_most_two_neighbours es -> two_sided_bonds es ->
  get_commuting_set fa fh fk rnd k es = Ok (l, k') ->
  ForallOrdPairs disjoint_edge l /\ (forall u v, In (u, v) l -> listed es u v) /\ (forall u, inner es u -> exists e, In e l /\ touches u e).
Proof.
  intros rnd k es fa fh fk l k' Hl Hn Hb H. split; [|split].
  - apply (commuting_disjoint rnd k es fa fh fk l k' Hl H). unfold get_commuting_set in H. destruct (Nat.eqb _ _) eqn:E; [left; apply length_nodup_NoDup; exact E|right].
    apply bind_ok in H. destruct H as (o & Ho & _). exists o. split; [exact Ho|]. destruct (from_edgelist_spec es Hl) as [SG _].
    exact (proj1 (C114_always_colored _ _ _ _ _ _ _ _ _ _ SG (commuting_max_degree es Hl Hn) (bonds_graph es Hl Hb) Ho)).
  - intros u v. apply (commuting_subset _ _ _ _ _ _ _ _ H).
  - intros u (v & w & N & Hv & Hw). unfold get_commuting_set in H. destruct (Nat.eqb _ _) eqn:E.
    + injection H as <- <-. destruct Hv as [Hv|Hv]; eexists; (split; [exact Hv|]); [left|right]; reflexivity.
    + apply bind_ok in H. destruct H as (o & Ho & H). injection H as <- <-. destruct (from_edgelist_spec es Hl) as [SG Ha].
      assert (HD := commuting_max_degree es Hl Hn). assert (Hr := proj1 (C114_always_colored _ _ _ _ _ _ _ _ _ _ SG HD (bonds_graph es Hl Hb) Ho)).
      apply (applyHeuristic_spec _ SG) in Ho. destruct Ho as (_ & _ & _ & Hp & _). apply Hp in Hr. destruct Hr as [Hc Hf]. set (c := s_col (o_state o)) in *.
      assert (Iv : In v (g_adj (from_edgelist es) u)) by (apply Ha; exact Hv). assert (Iw : In w (g_adj (from_edgelist es) u)) by (apply Ha; exact Hw).
      assert (K : exists z, In z (g_adj (from_edgelist es) u) /\ c u z = Some 0).
      { destruct (Hc u v Iv) as [_ (x & Ex & Hx)]. destruct (Hc u w Iw) as [_ (y & Ey & Hy)]. pose proof (Hf u v w Iv Iw N) as Hd. rewrite Ex, Ey in Hd.
        destruct x as [|[|x]], y as [|[|y]]; try lia; try congruence; eauto. }
      destruct K as (z & Iz & Ez). destruct (edges_cover _ SG u z Iz) as [Hi|Hi].
      * exists (u, z). split; [|left; reflexivity]. apply filter_In. split; [exact Hi|]. cbn. fold c. rewrite Ez. reflexivity.
      * exists (z, u). split; [|right; reflexivity]. apply filter_In. split; [exact Hi|]. cbn. fold c. rewrite <- (proj1 (Hc u z Iz)), Ez. reflexivity.
Qed.
Print Assumptions C114_disjoint_bonds.

(** the bonds of a closed chain of n qubits, and of an open one *)
Definition ring (n : nat) : list (nat * nat) := map (fun i => (i, (i + 1) mod n)) (seq 0 n).
Definition chain (n : nat) : list (nat * nat) := map (fun i => (i, i + 1)) (seq 0 (n - 1)).

Lemma two_among (l : list nat) a b : NoDup l -> (forall v, In v l -> v = a \/ v = b) -> length l <= 2.
Proof. intros Hn H. apply (NoDup_incl_length (l' := [a; b]) Hn). intros v Hv. destruct (H v Hv) as [-> | ->]; cbn; auto. Qed.

Lemma ring_in n u v : In (u, v) (ring n) <-> u < n /\ v = (u + 1) mod n.
Proof.
  unfold ring. rewrite in_map_iff. split.
  - intros (i & E & Hi). apply in_seq in Hi. injection E as <- <-. split; [lia|reflexivity].
  - intros (Hu & ->). exists u. split; [reflexivity|]. apply in_seq. lia.
Qed.
Lemma next_cases n u : u < n -> (u + 1 < n /\ (u + 1) mod n = u + 1) \/ (u + 1 = n /\ (u + 1) mod n = 0).
Proof. intros H. destruct (Nat.eq_dec (u + 1) n) as [E|E]; [right; rewrite E; split; [reflexivity|apply Nat.mod_same; lia]|left; split; [lia|apply Nat.mod_small; lia]]. Qed.

(** rings of even length meet the hypotheses, so that half of the bonds come back *)
Theorem C114_even_ring : forall m, 1 <= m -> no_loops (ring (2 * m)) /\ at_most_two_neighbours (ring (2 * m)) /\ two_sided_bonds (ring (2 * m)).
Proof.
  intros m Hm. split; [|split].
  - intros u v H. apply ring_in in H. destruct H as (Hu & ->). destruct (next_cases (2 * m) u Hu) as [[H ->]|[H ->]]; lia.
  - intros u l Hn H. apply (two_among l ((u + 1) mod (2 * m)) (if Nat.eqb u 0 then 2 * m - 1 else u - 1) Hn). intros v Hv. destruct (H v Hv) as [Hi|Hi]; apply ring_in in Hi; destruct Hi as (Hu & E); [left; exact E|right].
    destruct (next_cases (2 * m) v Hu) as [[H1 E1]|[H1 E1]]; rewrite E1 in E; destruct (Nat.eqb_spec u 0); lia.
  - exists Nat.even. intros u v H. apply ring_in in H. destruct H as (Hu & ->). destruct (next_cases (2 * m) u Hu) as [[H ->]|[H ->]].
    + rewrite Nat.add_1_r, Nat.even_succ, <- Nat.negb_even. destruct (Nat.even u); discriminate.
    + replace u with (S (2 * (m - 1))) by lia. rewrite Nat.even_succ, <- Nat.negb_even, Nat.even_mul. cbn. discriminate.
Qed.
Print Assumptions C114_even_ring.

Theorem C114_chain : forall n, no_loops (chain n) /\ at_most_two_neighbours (chain n) /\ two_sided_bonds (chain n).
Proof.
  intros n. assert (K : forall u v, In (u, v) (chain n) -> v = u + 1). { intros u v H. unfold chain in H. apply in_map_iff in H. destruct H as (i & E & _). injection E as <- <-. reflexivity. }
  split; [|split].
  - intros u v H. apply K in H. lia.
  - intros u l Hn H. apply (two_among l (u + 1) (u - 1) Hn). intros v Hv. destruct (H v Hv) as [Hi|Hi]; apply K in Hi; lia.
  - exists Nat.even. intros u v H. apply K in H. subst v. rewrite Nat.add_1_r, Nat.even_succ, <- Nat.negb_even. destruct (Nat.even u); discriminate.
Qed.
Print Assumptions C114_chain.

(** on a ring of even length the returned bonds cover every qubit exactly once *)
Theorem C114_ring_matching : forall m rnd k fa fh fk l k', 1 <= m -> get_commuting_set fa fh fk rnd k (ring (2 * m)) = Ok (l, k') ->
  ForallOrdPairs disjoint_edge l /\ (2 <= m -> forall u, u < 2 * m -> exists e, In e l /\ touches u e).
Proof.
  intros m rnd k fa fh fk l k' Hm H. destruct (C114_even_ring m Hm) as (H1 & H2 & H3). destruct (C114_disjoint_bonds rnd k _ fa fh fk l k' H1 H2 H3 H) as (A & _ & B). split; [exact A|].
  intros Hm2 u Hu. apply B. exists ((u + 1) mod (2 * m)), (if Nat.eqb u 0 then 2 * m - 1 else u - 1). split.
  - destruct (next_cases (2 * m) u Hu) as [[H4 ->]|[H4 ->]]; destruct (Nat.eqb_spec u 0); lia.
  - split; [left; apply ring_in; auto|right; apply ring_in]. destruct (Nat.eqb_spec u 0) as [->|N]; (split; [lia|]).
    + replace (2 * m - 1 + 1) with (2 * m) by lia. rewrite Nat.mod_same; lia.
    + replace (u - 1 + 1) with u by lia. rewrite Nat.mod_small; lia.
Qed.
Print Assumptions C114_ring_matching.

(** rings of four and six; a ring of three cannot be coloured *)
Example C114_case : exists l k', get_commuting_set 60 900 10 (fun _ => 1) 0 (ring 4) = Ok (l, k') /\ length l = 2.
Proof. eexists. eexists. split; [vm_compute; reflexivity|reflexivity]. Qed.
Example C114_case_six : exists l k', get_commuting_set 60 2000 20 (fun k => k * k + k / 2) 0 [(0, 1); (2, 3); (4, 5); (1, 2); (3, 4); (5, 0)] = Ok (l, k') /\ length l = 3.
Proof. eexists. eexists. split; [vm_compute; reflexivity|reflexivity]. Qed.
Example C114_odd_ring : ~ two_sided_bonds (ring 3) /\ exists o, applyHeuristic 60 900 10 (from_edgelist (ring 3)) 2 (fun _ => 1) 3 2 (fun _ _ => None) 0 = Ok o /\ o_result o = false.
Proof.
  split; [|eexists; split; [vm_compute; reflexivity|reflexivity]]. intros (side & H). pose proof (H 0 1 ltac:(cbn; auto)). pose proof (H 1 2 ltac:(cbn; auto)). pose proof (H 2 0 ltac:(cbn; auto)).
  destruct (side 0), (side 1), (side 2); congruence.
Qed.
