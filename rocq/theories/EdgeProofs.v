(** Invariants of the edge-colouring heuristic. *)
From Coq Require Import List Arith ZArith Bool Lia Permutation.
From Verif Require Import Py EdgeModel EdgeSpec.
Import ListNotations.
Local Open Scope nat_scope.

(** ** Distinct colours *)

Lemma distinct_le l : distinct l <= length l.
Proof.
  unfold distinct. apply NoDup_incl_length; [apply NoDup_nodup|].
  intros x H; apply nodup_In in H; auto.
Qed.

Lemma distinct_full l : distinct l = length l <-> NoDup l.
Proof.
  unfold distinct; split.
  - intros H. apply NoDup_incl_NoDup with (l := nodup ocol_dec l); [apply NoDup_nodup|lia|].
    intros x Hx; apply nodup_In in Hx; auto.
  - intros H; rewrite nodup_fixed_point; auto.
Qed.

Lemma distinct_pos l : l <> [] -> 1 <= distinct l.
Proof.
  destruct l as [|x l]; [congruence|intros _]. unfold distinct.
  assert (H : In x (nodup ocol_dec (x :: l))) by (apply nodup_In; left; auto).
  destruct (nodup ocol_dec (x :: l)); simpl in *; [tauto|lia].
Qed.

Lemma distinct_perm l r : NoDup r -> (forall x, In x r <-> In x l) -> distinct l = length r.
Proof.
  intros Hr H; unfold distinct. apply Permutation_length, NoDup_Permutation; auto using NoDup_nodup.
  intros x; rewrite nodup_In; symmetry; apply H.
Qed.

Lemma NoDup_map_inj {A B} (f : A -> B) l :
  NoDup l -> (NoDup (map f l) <-> forall x y, In x l -> In y l -> x <> y -> f x <> f y).
Proof.
  induction 1 as [|a l Ha Hl IH]; simpl; split; intros H.
  - tauto.
  - constructor.
  - inversion H as [|? ? H1 H2]; subst.
    intros x y [<-|Hx] [<-|Hy] Hne E; try tauto.
    + apply H1; rewrite E; apply in_map; auto.
    + apply H1; rewrite <- E; apply in_map; auto.
    + apply (proj1 IH H2 x y); auto.
  - constructor.
    + intros Hin; apply in_map_iff in Hin; destruct Hin as [y [E Hy]].
      apply (H y a); auto. intros ->; auto.
    + apply IH; intros; apply H; auto.
Qed.

Section G.
Variable G : graph.
Hypothesis SG : simple G.

Lemma degree_simple u : degree G u = length (g_adj G u).
Proof.
  unfold degree. destruct (mem u (g_adj G u)) eqn:E; [|lia].
  apply mem_In in E. destruct (sg_irr _ SG u E).
Qed.

Lemma level_eq c u : conflictLevel G c u = length (g_adj G u) - distinct (colors_at G c u).
Proof. unfold conflictLevel; rewrite degree_simple; auto. Qed.

Lemma level_sum c u : conflictLevel G c u + distinct (colors_at G c u) = length (g_adj G u).
Proof.
  rewrite level_eq. pose proof (distinct_le (colors_at G c u)) as H.
  unfold colors_at in *; rewrite map_length in H; lia.
Qed.

Lemma level_lt D c u : max_degree G D -> conflictLevel G c u = 0 \/ conflictLevel G c u < D.
Proof.
  intros HD. pose proof (level_sum c u). specialize (HD u).
  destruct (g_adj G u) eqn:E; [simpl in H; lia|].
  assert (1 <= distinct (colors_at G c u)) by (apply distinct_pos; unfold colors_at; rewrite E; discriminate).
  lia.
Qed.

Lemma conflicts_of_level c u l : conflicts_of G c u l <-> l = conflictLevel G c u.
Proof.
  pose proof (level_sum c u) as Hs. split.
  - intros (rep & Hnd & Hinc & Hne & Hall & Hlen).
    assert (distinct (colors_at G c u) = length rep); [|lia].
    rewrite <- (map_length (c u) rep). apply distinct_perm.
    + apply NoDup_map_inj; auto.
    + intros x; unfold colors_at; rewrite !in_map_iff; split; intros (v & E & Hv).
      * exists v; auto.
      * destruct (Hall v Hv) as (w & Hw & E'); exists w; split; auto; congruence.
  - intros ->.
    assert (Hrep : forall adj, NoDup adj -> exists rep, NoDup rep /\ incl rep adj /\
      (forall v w, In v rep -> In w rep -> v <> w -> c u v <> c u w) /\
      (forall v, In v adj -> exists w, In w rep /\ c u w = c u v)).
    { induction 1 as [|a adj Ha Hadj IH].
      - exists []; repeat split; try constructor; simpl; tauto || easy.
      - destruct IH as (rep & H1 & H2 & H3 & H4).
        destruct (in_dec ocol_dec (c u a) (map (c u) rep)) as [Hi|Hi].
        + exists rep; repeat split; auto.
          * intros x Hx; right; auto.
          * intros v [<-|Hv]; auto. apply in_map_iff in Hi. destruct Hi as (w & E & Hw); eauto.
        + exists (a :: rep); repeat split.
          * constructor; auto.
          * intros x [<-|Hx]; [left|right]; auto.
          * intros v w [<-|Hv] [<-|Hw] Hne; try tauto.
            -- intros E; apply Hi; rewrite E; apply in_map; auto.
            -- intros E; apply Hi; rewrite <- E; apply in_map; auto.
            -- auto.
          * intros v [<-|Hv]; [exists a; split; auto; left; auto|].
            destruct (H4 v Hv) as (w & Hw & E); exists w; split; auto; right; auto. }
    destruct (Hrep _ (sg_adj _ SG u)) as (rep & H1 & H2 & H3 & H4).
    exists rep; repeat split; auto.
    rewrite <- Hs. f_equal. rewrite <- (map_length (c u) rep). symmetry; apply distinct_perm.
    + apply NoDup_map_inj; auto.
    + intros x; unfold colors_at; rewrite !in_map_iff; split; intros (v & E & Hv).
      * exists v; auto.
      * destruct (H4 v Hv) as (w & Hw & E'); exists w; split; auto; congruence.
Qed.

Lemma level_zero c u : conflictLevel G c u = 0 <->
  (forall v w, In v (g_adj G u) -> In w (g_adj G u) -> v <> w -> c u v <> c u w).
Proof.
  rewrite <- (NoDup_map_inj (c u) (g_adj G u) (sg_adj _ SG u)).
  rewrite <- distinct_full. unfold colors_at. rewrite map_length.
  pose proof (level_sum c u) as H; unfold colors_at in H. lia.
Qed.

(** C18 *)
Lemma checkEdgeColoring_spec D c :
  (forall u v, In v (g_adj G u) -> c u v = c v u) ->
  (checkEdgeColoring G c D = true <-> colored_in G D c /\ conflict_free G c).
Proof.
  intros Hsym. unfold checkEdgeColoring; rewrite forallb_forall.
  assert (Hp : forall u, properlyColored G c u D = true <->
            conflictLevel G c u = 0 /\ forall v, In v (g_adj G u) -> exists x, c u v = Some x /\ x < D).
  { intros u; unfold properlyColored; rewrite andb_true_iff, Nat.eqb_eq, degree_simple, forallb_forall.
    pose proof (level_sum c u) as Hs. split.
    - intros [H1 H2]; split; [lia|]. intros v Hv.
      assert (Hr : in_range D (c u v) = true) by (apply H2, in_map; auto).
      unfold in_range in Hr. destruct (c u v) as [x|]; [|discriminate].
      exists x; split; auto; apply Nat.ltb_lt; auto.
    - intros [H1 H2]; split; [lia|]. intros x Hx. apply in_map_iff in Hx.
      destruct Hx as (v & <- & Hv). destruct (H2 v Hv) as (y & -> & Hy). apply Nat.ltb_lt; auto. }
  split.
  - intros H. split.
    + intros u v Hv. split; auto. apply (proj1 (Hp u)); auto. apply H, (sg_mem _ SG u v Hv).
    + intros u v w Hv Hw. apply level_zero; auto. apply (proj1 (Hp u)), H, (sg_mem _ SG u v Hv).
  - intros [H1 H2] u Hu. apply Hp; split.
    + apply level_zero. intros v w; apply H2.
    + intros v Hv; apply (H1 u v Hv).
Qed.

(** ** The dictionary *)

Definition exactL (D : nat) (lev : nat -> nat) (ns : list nat) (d : cdict) : Prop :=
  (forall l, NoDup (d l) /\ forall u, In u (d l) <-> (1 <= l < D /\ In u ns /\ lev u = l)) /\
  (forall u, In u ns -> lev u = 0 \/ lev u < D).

Lemma exactL_dict_exact D c d :
  exactL D (conflictLevel G c) (g_nodes G) d -> dict_exact G D c d.
Proof.
  intros [H _] l. destruct (H l) as [H1 H2]; split; auto.
  intros u; rewrite H2, conflicts_of_level. intuition congruence.
Qed.

Lemma in_keys D l : (1 <=? l) && (l <? D) = true <-> 1 <= l < D.
Proof. rewrite andb_true_iff, Nat.leb_le, Nat.ltb_lt; tauto. Qed.

Lemma cd_add_ok D d l u : 1 <= l < D ->
  exists d', cd_add D d l u = Ok d'.
Proof. intros H; unfold cd_add; rewrite (proj2 (in_keys D l) H); simpl; eauto. Qed.

Lemma cd_add_spec D d l u d' : cd_add D d l u = Ok d' ->
  1 <= l < D /\ (forall x y, In y (d' x) <-> In y (d x) \/ (x = l /\ y = u)) /\
  ((forall x, NoDup (d x)) -> forall x, NoDup (d' x)).
Proof.
  unfold cd_add. destruct ((1 <=? l) && (l <? D)) eqn:E; [|discriminate].
  apply in_keys in E. intros H; injection H as <-. split; auto. split.
  - intros x y. destruct (Nat.eqb_spec x l) as [->|N].
    + destruct (mem u (d l)) eqn:Em.
      * apply mem_In in Em. split; auto. intros [H|[_ ->]]; auto.
      * rewrite in_app_iff; simpl. split; [intros [H|[H|[]]]|intros [H|[_ H]]]; auto.
    + split; auto. intros [H|[H _]]; auto; congruence.
  - intros Hn x. destruct (Nat.eqb_spec x l) as [->|N]; auto.
    destruct (mem u (d l)) eqn:Em; auto.
    apply NoDup_app_intro; auto.
    + repeat constructor; simpl; tauto.
    + intros y Hy [<-|[]]. apply mem_In in Hy; congruence.
Qed.

Lemma cd_remove_spec D d l u d' : cd_remove D d l u = Ok d' ->
  (forall x y, In y (d' x) <-> In y (d x) /\ ~ (x = l /\ y = u)) /\
  ((forall x, NoDup (d x)) -> forall x, NoDup (d' x)).
Proof.
  unfold cd_remove. destruct ((1 <=? l) && (l <? D)) eqn:E; [|discriminate].
  destruct (mem u (d l)) eqn:Em; [|discriminate].
  intros H; injection H as <-. split.
  - intros x y. destruct (Nat.eqb_spec x l) as [->|N].
    + rewrite filter_In, negb_true_iff, Nat.eqb_neq. tauto.
    + tauto.
  - intros Hn x. destruct (Nat.eqb_spec x l) as [->|N]; auto. apply NoDup_filter; auto.
Qed.

Lemma cd_remove_ok D d l u : 1 <= l < D -> In u (d l) -> exists d', cd_remove D d l u = Ok d'.
Proof.
  intros H Hu; unfold cd_remove; rewrite (proj2 (in_keys D l) H), (proj2 (mem_In _ _) Hu); simpl; eauto.
Qed.

Lemma cd_fill_spec D c ns : forall done d d', NoDup (done ++ ns) ->
  exactL D (conflictLevel G c) done d -> cd_fill G D c ns d = Ok d' ->
  exactL D (conflictLevel G c) (done ++ ns) d'.
Proof.
  induction ns as [|u ns IH]; simpl; intros done d d' Hn He H.
  - injection H as <-. rewrite app_nil_r; auto.
  - apply bind_ok in H. destruct H as (d1 & H1 & H2).
    replace (done ++ u :: ns) with ((done ++ [u]) ++ ns) in * by (rewrite <- app_assoc; auto).
    apply (IH _ d1); auto. clear IH H2.
    destruct (Nat.ltb_spec 0 (conflictLevel G c u)) as [Hl|Hl].
    + apply cd_add_spec in H1. destruct H1 as (Hr & Hin & Hnd). split.
      * intros l. split; [apply Hnd; intros; apply He|].
        intros y. rewrite Hin. destruct (proj1 He l) as [_ Hy]. rewrite Hy, in_app_iff; simpl.
        split; [intros [(A & B & C)|(-> & ->)]|intros (A & [B|[<-|[]]] & C)]; auto.
      * intros y; rewrite in_app_iff; simpl. intros [Hy|[<-|[]]]; [apply He; auto|lia].
    + injection H1 as <-. split.
      * intros l. split; [apply He|]. intros y. destruct (proj1 He l) as [_ Hy].
        rewrite Hy, in_app_iff; simpl. split; [tauto|]. intros (A & [B|[<-|[]]] & C); auto. lia.
      * intros y; rewrite in_app_iff; simpl. intros [Hy|[<-|[]]]; [apply He; auto|lia].
Qed.

Lemma cd_fill_ok D c ns : max_degree G D -> forall d, exists d', cd_fill G D c ns d = Ok d'.
Proof.
  intros HD. induction ns as [|u ns IH]; simpl; intros d; [eauto|].
  destruct (Nat.ltb_spec 0 (conflictLevel G c u)) as [Hl|Hl].
  - destruct (cd_add_ok D d (conflictLevel G c u) u) as [d1 ->].
    + destruct (level_lt D c u HD); lia.
    + simpl; auto.
  - simpl; auto.
Qed.

Lemma create_spec D c d : createConflictDictionary G D c = Ok d ->
  exactL D (conflictLevel G c) (g_nodes G) d.
Proof.
  intros H. apply (cd_fill_spec D c (g_nodes G) [] (fun _ => []) d); auto.
  - apply SG.
  - split; [|simpl; tauto]. intros l; split; [constructor|]. simpl; tauto.
Qed.

Lemma update_spec D c lev u d old v d' :
  exactL D lev (g_nodes G) d -> old = lev u -> In u (g_nodes G) ->
  updateConflictDictionary G D c u d old = Ok (v, d') ->
  exactL D (fun x => if Nat.eqb x u then conflictLevel G c u else lev x) (g_nodes G) d' /\
  v = (Z.of_nat (conflictLevel G c u) - Z.of_nat old)%Z.
Proof.
  intros [He Hb] -> Hu H. unfold updateConflictDictionary in H.
  apply bind_ok in H; destruct H as (d1 & H1 & H).
  apply bind_ok in H; destruct H as (d2 & H2 & H). injection H as <- <-. split; auto.
  set (new := conflictLevel G c u) in *.
  assert (A1 : (forall x, NoDup (d1 x)) /\ forall x y, In y (d1 x) <-> In y (d x) /\ y <> u).
  { destruct (Nat.ltb_spec 0 (lev u)) as [Hl|Hl].
    - apply cd_remove_spec in H1. destruct H1 as (B1 & B2). split.
      + apply B2; intros; apply He.
      + intros x y; rewrite B1. split; intros [C1 C2]; split; auto.
        * intros ->. apply C2; split; auto. symmetry. apply (proj2 (He x) u); auto.
        * tauto.
    - injection H1 as <-. split; [intros; apply He|].
      intros x y; split; [|tauto]. intros C; split; auto. intros ->.
      apply (proj2 (He x) u) in C. lia. }
  assert (A2 : (forall x, NoDup (d2 x)) /\
     (forall x y, In y (d2 x) <-> In y (d1 x) \/ (0 < new /\ x = new /\ y = u)) /\ (new = 0 \/ new < D)).
  { destruct (Nat.ltb_spec 0 new) as [Hl|Hl].
    - apply cd_add_spec in H2. destruct H2 as (B0 & B1 & B2). split; [apply B2, A1|]. split; [|lia].
      intros x y; rewrite B1; tauto.
    - injection H2 as <-. split; [apply A1|]. split; [|lia].
      intros x y; split; [tauto|]. intros [?|?]; [auto|lia]. }
  destruct A1 as [A1 A1'], A2 as (A2 & A2' & A2'').
  split.
  - intros l; split; auto. intros y. rewrite A2', A1'. destruct (He l) as [_ Hy]. rewrite Hy.
    destruct (Nat.eqb_spec y u) as [->|N].
    + split; [intros [(_ & C)|(C1 & -> & _)]|intros (C1 & C2 & <-)].
      * congruence.
      * repeat split; auto; lia.
      * right; repeat split; auto; lia.
    + intuition congruence.
  - intros y Hy. destruct (Nat.eqb y u); auto.
Qed.

Lemma update_ok D c lev u d old :
  max_degree G D -> exactL D lev (g_nodes G) d -> old = lev u -> In u (g_nodes G) ->
  exists r, updateConflictDictionary G D c u d old = Ok r.
Proof.
  intros HD [He Hb] -> Hu. unfold updateConflictDictionary.
  assert (H1 : exists d1, (if 0 <? lev u then cd_remove D d (lev u) u else Ok d) = Ok d1).
  { destruct (Nat.ltb_spec 0 (lev u)) as [Hl|Hl]; [|eauto].
    apply cd_remove_ok; [destruct (Hb u Hu); lia|]. apply He. repeat split; auto.
    destruct (Hb u Hu); lia. }
  destruct H1 as [d1 ->]; simpl.
  destruct (Nat.ltb_spec 0 (conflictLevel G c u)) as [Hl|Hl]; simpl; [|eauto].
  destruct (cd_add_ok D d1 (conflictLevel G c u) u) as [d2 ->]; simpl; [|eauto].
  destruct (level_lt D c u HD); lia.
Qed.

(** ** Recolouring one edge *)

Lemma set_color_sym c u v x a b : set_color c u v x a b = (if (Nat.eqb a u && Nat.eqb b v) || (Nat.eqb a v && Nat.eqb b u) then x else c a b).
Proof. reflexivity. Qed.

Lemma set_color_in D c u v x : x < D -> colored_in G D c -> colored_in G D (set_color c u v (Some x)).
Proof.
  intros Hx H a b Hab. unfold set_color.
  replace (Nat.eqb b u && Nat.eqb a v || Nat.eqb b v && Nat.eqb a u)
    with (Nat.eqb a u && Nat.eqb b v || Nat.eqb a v && Nat.eqb b u)
    by (rewrite orb_comm, (andb_comm (Nat.eqb a v)), (andb_comm (Nat.eqb a u)); auto).
  destruct (_ || _); [split; eauto|apply H; auto].
Qed.

Lemma set_color_other c u v x w : w <> u -> w <> v -> colors_at G (set_color c u v x) w = colors_at G c w.
Proof.
  intros H1 H2. unfold colors_at. apply map_ext. intros a. unfold set_color.
  apply Nat.eqb_neq in H1, H2. rewrite H1, H2; auto.
Qed.

Lemma exactL_ext D lev lev' ns d : (forall u, In u ns -> lev u = lev' u) -> exactL D lev ns d -> exactL D lev' ns d.
Proof.
  intros E [H1 H2]; split.
  - intros l; split; [apply H1|]. intros u; rewrite (proj2 (H1 l) u).
    split; intros (A & B & C); repeat split; auto; try lia; rewrite <- C; [symmetry|]; auto.
  - intros u Hu; rewrite <- E; auto.
Qed.

Definition good (D : nat) (c : coloring) (d : cdict) : Prop :=
  colored_in G D c /\ exactL D (conflictLevel G c) (g_nodes G) d.

Definition Inv (D : nat) (s : st) : Prop :=
  good D (s_col s) (s_cd s) /\ Forall (fun cd => good D (fst cd) (snd cd)) (s_log s).

(** pairs that are not edges keep the value they had *)
Definition frame (c c' : coloring) : Prop := forall a b, ~ In b (g_adj G a) -> c' a b = c a b.

Lemma frame_trans a b c : frame a b -> frame b c -> frame a c.
Proof. intros H1 H2 x y Hn. rewrite H2, H1; auto. Qed.

Lemma frame_set c u v x : In v (g_adj G u) -> frame c (set_color c u v x).
Proof.
  intros H a b Hn. unfold set_color.
  destruct (Nat.eqb_spec a u), (Nat.eqb_spec b v), (Nat.eqb_spec a v), (Nat.eqb_spec b u); simpl; auto; subst;
    try tauto; destruct Hn; auto; apply SG; auto.
Qed.

Lemma colorEdge_spec D s u v x r s' :
  Inv D s -> In v (g_adj G u) -> x < D ->
  colorEdgeAndUpdate G D s u v x = Ok (r, s') ->
  Inv D s' /\ s_col s' = set_color (s_col s) u v (Some x) /\
  r = (Z.of_nat (conflictLevel G (s_col s') v) - Z.of_nat (conflictLevel G (s_col s) v))%Z /\
  frame (s_col s) (s_col s').
Proof.
  intros [[Hc He] Hl] Huv Hx H. unfold colorEdgeAndUpdate in H.
  apply bind_ok in H; destruct H as ([r1 d1] & H1 & H).
  apply bind_ok in H; destruct H as ([r2 d2] & H2 & H). injection H as <- <-. simpl in *.
  set (c' := set_color (s_col s) u v (Some x)) in *.
  assert (Hne : u <> v) by (intros ->; apply (sg_irr _ SG v); auto).
  destruct (sg_mem _ SG u v Huv) as [Hu Hv].
  apply (update_spec D c' (conflictLevel G (s_col s))) in H1; auto.
  destruct H1 as [E1 _].
  apply (update_spec D c' (fun y => if Nat.eqb y u then conflictLevel G c' u else conflictLevel G (s_col s) y)) in H2; auto.
  2:{ destruct (Nat.eqb_spec v u); [congruence|auto]. }
  destruct H2 as [E2 Ev].
  assert (Hg : good D c' d2).
  { split; [apply set_color_in; auto|]. eapply exactL_ext; [|exact E2].
    intros y _; simpl. destruct (Nat.eqb_spec y v) as [->|N]; auto.
    destruct (Nat.eqb_spec y u) as [->|N']; auto.
    rewrite !level_eq. unfold c'. rewrite set_color_other; auto. }
  split; [|split; [auto|split; [auto|apply frame_set; auto]]].
  split; [exact Hg|]. apply Forall_app; split; auto.
Qed.

Lemma colorEdge_ok D s u v x :
  max_degree G D -> Inv D s -> In v (g_adj G u) -> x < D ->
  exists r, colorEdgeAndUpdate G D s u v x = Ok r.
Proof.
  intros HD [[Hc He] Hl] Huv Hx. unfold colorEdgeAndUpdate.
  assert (Hne : u <> v) by (intros ->; apply (sg_irr _ SG v); auto).
  destruct (sg_mem _ SG u v Huv) as [Hu Hv].
  set (c' := set_color (s_col s) u v (Some x)) in *.
  destruct (update_ok D c' (conflictLevel G (s_col s)) u (s_cd s) _ HD He eq_refl Hu) as [[r1 d1] E].
  rewrite E; simpl.
  apply (update_spec D c' (conflictLevel G (s_col s))) in E; auto. destruct E as [E _].
  edestruct (update_ok D c' _ v d1 (conflictLevel G (s_col s) v) HD E) as [r2 E2]; auto.
  - simpl. destruct (Nat.eqb_spec v u); [congruence|auto].
  - rewrite E2; simpl; eauto.
Qed.

(** ** Kempe chains *)

Lemma choice_In rnd k l x : choice rnd k l = Ok x -> In x l.
Proof.
  unfold choice. destruct (nth_error l _) eqn:E; [|discriminate].
  intros H; injection H as <-. eapply nth_error_In; eauto.
Qed.

Lemma choice_ok rnd k l : l <> [] -> exists x, choice rnd k l = Ok x.
Proof.
  intros H. unfold choice. destruct (nth_error l _) eqn:E; [eauto|].
  apply nth_error_None in E. destruct l; [congruence|].
  pose proof (Nat.mod_upper_bound (rnd k) (length (n :: l))). simpl in *; lia.
Qed.

Lemma tick_Inv D s : Inv D (tick s) <-> Inv D s.
Proof. unfold Inv, tick; simpl; tauto. Qed.

Lemma KempeStep_spec D rnd s last node x r s' :
  Inv D s -> In node (g_adj G last) -> x < D ->
  KempeStep G D rnd s last node x = Ok (r, s') ->
  Inv D s' /\ frame (s_col s) (s_col s') /\
  match r with None => True | Some (w, oc) => In w (g_adj G node) /\ oc < D end.
Proof.
  intros HI Hadj Hx H. unfold KempeStep in H.
  set (av := filter _ _) in H.
  apply bind_ok in H; destruct H as ([nx s1] & H1 & H).
  apply bind_ok in H; destruct H as ([vr s2] & H2 & H).
  assert (HI1 : Inv D s1 /\ s_col s1 = s_col s /\ match nx with None => True | Some w => In w (g_adj G node) end).
  { destruct av as [|a av'] eqn:E.
    - injection H1 as <- <-; auto.
    - apply bind_ok in H1; destruct H1 as (w & H1 & H1'). injection H1' as <- <-.
      split; [apply tick_Inv; auto|]. split; auto.
      apply choice_In in H1. rewrite <- E in H1. unfold av in H1. apply filter_In in H1; tauto. }
  destruct HI1 as (HI1 & Ec & Hw).
  apply colorEdge_spec in H2; auto. destruct H2 as (HI2 & E2 & _ & Hf).
  rewrite Ec in Hf.
  destruct (vr <? 0)%Z; [injection H as <- <-; auto|].
  destruct nx as [w|]; [|injection H as <- <-; auto].
  destruct (s_col s1 last node) as [oc|] eqn:Eo; [|injection H as <- <-; auto].
  injection H as <- <-. split; [auto|split; [auto|split; [auto|]]].
  destruct HI1 as [[Hc _] _]. destruct (Hc _ _ Hadj) as [_ (y & Ey & Hy)].
  rewrite Eo in Ey; injection Ey as ->; auto.
Qed.

Lemma KempeStep_ok D rnd s last node x :
  max_degree G D -> Inv D s -> In node (g_adj G last) -> x < D ->
  exists r, KempeStep G D rnd s last node x = Ok r.
Proof.
  intros HD HI Hadj Hx. unfold KempeStep.
  set (av := filter _ _).
  assert (H1 : exists nx s1, (match av with [] => Ok (None, s) | _ => do w <- choice rnd (s_k s) av; Ok (Some w, tick s) end) = Ok (nx, s1)
               /\ Inv D s1).
  { destruct av as [|a av'] eqn:E; [exists None, s; auto|].
    destruct (choice_ok rnd (s_k s) (a :: av')) as [w ->]; [discriminate|].
    exists (Some w), (tick s); auto. }
  destruct H1 as (nx & s1 & E1 & HI1). rewrite E1; simpl.
  destruct (colorEdge_ok D s1 last node x) as [[vr s2] E2]; auto. rewrite E2; simpl.
  destruct (vr <? 0)%Z; [eauto|]. destruct nx; [|eauto]. destruct (s_col s1 last node); eauto.
Qed.

Lemma KempeProcess_spec D rnd : forall fuel s last node x chain s',
  Inv D s -> In node (g_adj G last) -> x < D ->
  KempeProcess fuel G D rnd s last node x chain = Ok s' -> Inv D s' /\ frame (s_col s) (s_col s').
Proof.
  induction fuel as [|f IH]; simpl; intros s last node x chain s' HI Ha Hx H; [discriminate|].
  destruct (mem last chain); [injection H as <-; split; auto; intros ? ?; auto|].
  apply bind_ok in H; destruct H as ([r s1] & H1 & H).
  apply KempeStep_spec in H1; auto. destruct H1 as (HI1 & Hf & Hr).
  destruct r as [[w oc]|]; [|injection H as <-; auto].
  destruct Hr as [Hw Hoc]. apply IH in H; auto. destruct H; split; auto. eapply frame_trans; eauto.
Qed.

Lemma KempeProcess_ok D rnd : max_degree G D -> forall fuel s last node x chain,
  Inv D s -> In node (g_adj G last) -> x < D ->
  NoDup chain -> incl chain (g_nodes G) -> length (g_nodes G) < fuel + length chain ->
  exists s', KempeProcess fuel G D rnd s last node x chain = Ok s'.
Proof.
  intros HD. induction fuel as [|f IH]; simpl; intros s last node x chain HI Ha Hx Hn Hi Hl.
  - pose proof (NoDup_incl_length Hn Hi); lia.
  - destruct (mem last chain) eqn:Em; [eauto|].
    destruct (KempeStep_ok D rnd s last node x) as [[r s1] E]; auto. rewrite E; simpl.
    apply KempeStep_spec in E; auto. destruct E as (HI1 & Hf & Hr).
    destruct r as [[w oc]|]; [|eauto]. destruct Hr as [Hw Hoc].
    apply IH; auto.
    + apply NoDup_app_intro; auto; [repeat constructor; simpl; tauto|].
      intros y Hy [<-|[]]. apply mem_In in Hy; congruence.
    + intros y Hy; apply in_app_iff in Hy; destruct Hy as [Hy|[<-|[]]]; auto. apply (sg_mem _ SG _ _ Ha).
    + rewrite app_length; simpl; lia.
Qed.

Lemma filter_neq_length x l : NoDup l -> In x l -> length l = S (length (filter (fun y => negb (Nat.eqb y x)) l)).
Proof.
  induction 1 as [|a l Ha Hl IH]; simpl; [tauto|]. intros [->|Hx].
  - rewrite Nat.eqb_refl; simpl. f_equal.
    clear IH Hl. induction l as [|b l IH]; simpl; auto.
    destruct (Nat.eqb_spec b x) as [->|N]; [destruct Ha; left; auto|].
    simpl; f_equal; apply IH. intros H; apply Ha; right; auto.
  - destruct (Nat.eqb_spec a x) as [->|N]; [tauto|]. simpl. rewrite IH; auto.
Qed.

Lemma kempe_scan_spec c node : forall adj colors next colors' next',
  NoDup colors -> kempe_scan c node adj colors next = (colors', next') ->
  incl colors' colors /\
  (forall a, next' = Some a -> In a adj \/ next = Some a) /\
  length colors <= length colors' + length adj /\
  (next = None -> next' <> None -> length colors < length colors' + length adj).
Proof.
  induction adj as [|a adj IH]; simpl; intros colors next colors' next' Hn H.
  - injection H as <- <-. repeat split; auto; try apply incl_refl; try lia; congruence.
  - assert (Hsome : kempe_scan c node adj colors (Some a) = (colors', next') ->
      incl colors' colors /\ (forall b, next' = Some b -> (a = b \/ In b adj) \/ next = Some b) /\
      length colors <= length colors' + S (length adj) /\
      (next = None -> next' <> None -> length colors < length colors' + S (length adj))).
    { intros H'. apply IH in H'; auto. destruct H' as (A & B & C & _). repeat split; auto; try lia.
      intros b Hb; destruct (B b Hb) as [|Eb]; auto. injection Eb as ->; auto. }
    destruct (c node a) as [x|]; [|auto].
    destruct (mem x colors) eqn:Em; [|auto].
    apply mem_In in Em. pose proof (filter_neq_length x colors Hn Em) as Hlen.
    apply IH in H; [|apply NoDup_filter; auto]. destruct H as (A & B & C & E). repeat split.
    + intros y Hy; apply A, filter_In in Hy; tauto.
    + intros b Hb; destruct (B b Hb); auto.
    + lia.
    + intros H1 H2. specialize (E H1 H2). lia.
Qed.

Lemma KempeStart_spec D rnd fuel s node s' :
  Inv D s -> KempeStart fuel G D rnd s node = Ok s' -> Inv D s' /\ frame (s_col s) (s_col s').
Proof.
  intros HI H. unfold KempeStart in H.
  destruct (kempe_scan _ _ _ _ _) as [colors next] eqn:E.
  apply kempe_scan_spec in E; [|apply seq_NoDup]. destruct E as (A & B & _).
  destruct next as [a|]; [|injection H as <-; split; auto; intros ? ?; auto].
  apply bind_ok in H; destruct H as (x & Hx & H).
  apply KempeProcess_spec in H; auto.
  - destruct (B a eq_refl); auto; discriminate.
  - apply choice_In in Hx. apply A, in_seq in Hx. lia.
Qed.

Lemma KempeStart_ok D rnd fuel s node :
  max_degree G D -> Inv D s -> length (g_nodes G) < fuel ->
  exists s', KempeStart fuel G D rnd s node = Ok s'.
Proof.
  intros HD HI Hf. unfold KempeStart.
  destruct (kempe_scan _ _ _ _ _) as [colors next] eqn:E.
  apply kempe_scan_spec in E; [|apply seq_NoDup]. destruct E as (A & B & C & F).
  destruct next as [a|]; [|eauto].
  rewrite seq_length in *. specialize (F eq_refl ltac:(discriminate)). specialize (HD node) as HDn.
  destruct (choice_ok rnd (s_k s) colors) as [x Hx]; [intros ->; simpl in *; lia|].
  rewrite Hx; simpl. apply KempeProcess_ok; auto.
  - destruct (B a eq_refl); auto; discriminate.
  - apply choice_In in Hx. apply A, in_seq in Hx. lia.
  - constructor.
  - intros ? [].
  - simpl; lia.
Qed.

End G.
