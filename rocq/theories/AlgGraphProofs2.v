(** Proofs about generate_product_algebra_graph: the loop reaches a closed graph. *)
From Coq Require Import List Arith ZArith QArith Qcanon Bool Lia Permutation Ring Setoid Sorted String.
From Verif Require Import Py StarRing Matrix GaussQ PauliSpec PauliModel PauliSem PauliProofs PauliProofs2 PauliSumModel AlgGraphModel AlgGraphProofs.
From Coq Require Import List.
Import ListNotations.
Local Open Scope nat_scope.

Definition NK (g : graph) : list akey := map nk (g_nodes g).
Definition EK (g : graph) : list (akey * akey) := map (fun e => (nk (fst e), nk (snd e))) (g_edges g).
Definition linked (g : graph) (x y : akey) : Prop := In (x, y) (EK g) \/ In (y, x) (EK g).

(** what repeated commutators reach from a set of keys *)
Inductive reach (S : akey -> Prop) : akey -> Prop :=
| reach_gen k : S k -> reach S k
| reach_comm a b : reach S a -> reach S b -> anti (snd a) (snd b) = true -> reach S (aprod a b).

Lemma has_node_spec ns p : Forall good ns -> site3 p -> (has_node ns p = true <-> In (nk p) (map nk ns)).
Proof.
  intros Hn Hp. unfold has_node. rewrite existsb_exists, in_map_iff. split.
  - intros (x & Hx & E). exists x. split; auto. symmetry. apply same_node_spec; auto.
    rewrite Forall_forall in Hn. apply (Hn x Hx).
  - intros (x & E & Hx). exists x. split; auto. apply same_node_spec; auto.
    rewrite Forall_forall in Hn. apply (Hn x Hx).
Qed.

Section Graph.
Context (ord : list nat -> list nat) (Hord : reorders ord) (S : akey -> Prop).

Definition just (ks : list akey) (x y : akey) : Prop :=
  y = idkey \/ exists b, In b ks /\ anti (snd x) (snd b) = true /\ y = aprod x b.

Record Inv (g : graph) : Prop := {
  i_good : Forall good (g_nodes g);
  i_goode : Forall (fun e => good (fst e) /\ good (snd e)) (g_edges g);
  i_nd : NoDup (NK g);
  i_ed : NoDup (EK g);
  i_end : forall x y, In (x, y) (EK g) -> In x (NK g) /\ In y (NK g);
  i_sound : forall k, In k (NK g) -> reach S k \/ k = idkey;
  i_just : forall x y, In (x, y) (EK g) -> just (NK g) x y }.

Lemma has_edge_spec g u v : Inv g -> site3 u -> site3 v -> (has_edge g u v = true <-> linked g (nk u) (nk v)).
Proof.
  intros I Hu Hv. unfold has_edge, linked, EK. rewrite existsb_exists, !in_map_iff.
  pose proof (i_goode g I) as G. rewrite Forall_forall in G. split.
  - intros (e & He & E). destruct (G e He) as [(G1 & _) (G2 & _)]. apply orb_true_iff in E.
    rewrite !andb_true_iff, !same_node_spec in E by auto.
    destruct E as [[E1 E2]|[E1 E2]]; [left|right]; exists e; split; auto; congruence.
  - intros [(e & E & He)|(e & E & He)]; exists e; split; auto; destruct (G e He) as [(G1 & _) (G2 & _)];
      rewrite orb_true_iff, !andb_true_iff, !same_node_spec by auto; (pose proof (f_equal fst E) as E1; pose proof (f_equal snd E) as E2; cbn [fst snd] in E1, E2);
      [left|right]; split; congruence.
Qed.

Lemma linked_sym g x y : linked g x y -> linked g y x.
Proof. unfold linked; tauto. Qed.

Lemma add_node_in g u : Inv g -> good u -> In (nk u) (NK g) -> add_node g u = g.
Proof.
  intros I Hu H. unfold add_node. assert (E : has_node (g_nodes g) u = true).
  { apply has_node_spec; [apply I|apply Hu|exact H]. } rewrite E. reflexivity.
Qed.

Lemma add_node_inv g u : Inv g -> good u -> reach S (nk u) \/ nk u = idkey ->
  Inv (add_node g u) /\ In (nk u) (NK (add_node g u)) /\ incl (NK g) (NK (add_node g u)) /\
  g_edges (add_node g u) = g_edges g.
Proof.
  intros I Hu Hr. unfold add_node. destruct (has_node (g_nodes g) u) eqn:E.
  - apply has_node_spec in E; [|apply I|apply Hu]. split; [exact I|]. split; [exact E|]. split; [intros x; auto|auto].
  - assert (N : ~ In (nk u) (NK g)).
    { intros H. apply has_node_spec in H; [congruence|apply I|apply Hu]. }
    assert (E2 : NK (mkgraph (g_nodes g ++ [u]) (g_edges g)) = NK g ++ [nk u]) by (unfold NK; cbn; apply map_app).
    assert (E3 : EK (mkgraph (g_nodes g ++ [u]) (g_edges g)) = EK g) by reflexivity.
    split; [|split; [|split; [|reflexivity]]].
    + destruct I as [I1 I2 I3 I4 I5 I6 I7]. constructor; rewrite ?E2, ?E3; cbn [g_nodes g_edges]; auto.
      * apply Forall_app; auto.
      * apply NoDup_app_intro; auto; [repeat constructor; auto|]. intros x Hx [<-|[]]; auto.
      * intros x y H. destruct (I5 x y H). rewrite !in_app_iff; auto.
      * intros k H. apply in_app_iff in H. destruct H as [H|[<-|[]]]; auto.
      * intros x y H. destruct (I7 x y H) as [H'|(b & Hb & H')]; [left; auto|right].
        exists b. rewrite in_app_iff; auto.
    + rewrite E2. apply in_app_iff; right; left; auto.
    + rewrite E2. apply incl_appl, incl_refl.
Qed.

Definition step_ok (gc gc' : graph * nat) : Prop :=
  incl (NK (fst gc)) (NK (fst gc')) /\ incl (EK (fst gc)) (EK (fst gc')) /\
  snd gc' + List.length (g_edges (fst gc)) = snd gc + List.length (g_edges (fst gc')) /\
  (snd gc' = snd gc -> fst gc' = fst gc) /\ snd gc <= snd gc'.

Lemma step_refl gc : step_ok gc gc.
Proof. repeat split; auto using incl_refl. Qed.

Lemma step_trans a b c : step_ok a b -> step_ok b c -> step_ok a c.
Proof.
  intros (A1 & A2 & A3 & A4 & A5) (B1 & B2 & B3 & B4 & B5).
  repeat split; eauto using incl_tran; try lia.
  intros H. rewrite B4, A4; auto; lia.
Qed.

Lemma linked_mono g g' x y : incl (EK g) (EK g') -> linked g x y -> linked g' x y.
Proof. intros H [L|L]; [left|right]; auto. Qed.

Lemma connect_spec g c u v : Inv g -> good u -> good v -> In (nk u) (NK g) ->
  just (NK g) (nk u) (nk v) -> reach S (nk v) \/ nk v = idkey ->
  Inv (fst (connect (g, c) u v)) /\ step_ok (g, c) (connect (g, c) u v) /\
  linked (fst (connect (g, c) u v)) (nk u) (nk v).
Proof.
  intros I Hu Hv Iu J R. unfold connect. cbn [fst snd].
  destruct (has_edge g u v) eqn:E.
  - split; [exact I|]. split; [apply step_refl|]. apply has_edge_spec in E; [exact E|exact I|apply Hu|apply Hv].
  - assert (N : ~ linked g (nk u) (nk v)).
    { intros H. apply has_edge_spec in H; [congruence|exact I|apply Hu|apply Hv]. }
    unfold add_edge. rewrite (add_node_in g u I Hu Iu).
    destruct (add_node_inv g v I Hv R) as (I' & Iv & Inc & Ee).
    assert (EE : EK (add_node g v) = EK g) by (unfold EK; rewrite Ee; auto).
    assert (E' : has_edge (add_node g v) u v = false).
    { unfold has_edge. rewrite Ee. exact E. }
    rewrite E'. cbn [fst snd].
    set (g' := mkgraph _ _).
    assert (E1 : NK g' = NK (add_node g v)) by reflexivity.
    assert (E2 : EK g' = EK g ++ [(nk u, nk v)]).
    { unfold EK, g'; cbn [g_edges]. rewrite map_app, Ee. reflexivity. }
    split; [|split].
    + destruct I' as [I1 I2 I3 I4 I5 I6 I7]. rewrite EE in *. constructor; rewrite ?E1, ?E2; auto.
      * unfold g'; cbn [g_edges]. apply Forall_app; auto.
      * apply NoDup_app_intro; auto; [repeat constructor; auto|]. intros x Hx [<-|[]]. apply N; left; auto.
      * intros x y H. apply in_app_iff in H. destruct H as [H|[H|[]]]; [apply I5; auto|].
        injection H as <- <-. auto.
      * intros x y H. apply in_app_iff in H. destruct H as [H|[H|[]]]; [apply I7; auto|].
        injection H as <- <-. destruct J as [J|(b & Hb & J)]; [left; auto|right; exists b; auto].
    + unfold step_ok. cbn [fst snd]. rewrite E1, E2. split; [exact Inc|]. split; [apply incl_appl, incl_refl|].
      split; [|split; [lia|lia]]. unfold g'; cbn [g_edges]. rewrite app_length, Ee. cbn. lia.
    + left. rewrite E2. apply in_app_iff; right; left; auto.
Qed.

(** the preceding add_node makes no difference *)
Lemma connect_add g c a p : Inv g -> good a -> good p -> In (nk a) (NK g) -> reach S (nk p) \/ nk p = idkey ->
  connect ((if negb (has_node (g_nodes g) p) then add_node g p else g), c) a p = connect (g, c) a p.
Proof.
  intros I Ga Gp Ia R. destruct (has_node (g_nodes g) p) eqn:E; cbn [negb]; [reflexivity|].
  assert (N : ~ In (nk p) (NK g)).
  { intros H. apply has_node_spec in H; [congruence|apply I|apply Gp]. }
  assert (E' : has_edge g a p = false).
  { destruct (has_edge g a p) eqn:E'; auto. apply has_edge_spec in E'; [|exact I|apply Ga|apply Gp].
    exfalso; apply N. destruct E' as [H|H]; apply (i_end g I) in H; tauto. }
  unfold connect. cbn [fst snd].
  destruct (add_node_inv g p I Gp R) as (I' & Ip & Inc & Ee).
  assert (E2 : has_edge (add_node g p) a p = false) by (unfold has_edge; rewrite Ee; exact E').
  rewrite E', E2. f_equal. unfold add_edge.
  rewrite (add_node_in (add_node g p) a I' Ga) by auto.
  rewrite (add_node_in (add_node g p) p I' Gp) by auto.
  rewrite (add_node_in g a I Ga Ia), E2. reflexivity.
Qed.

(** ** The body of the loop *)

Definition post (g : graph) (x y : akey) : Prop :=
  (anti (snd x) (snd y) = true -> linked g x (aprod x y) /\ linked g y (aprod x y)) /\
  (snd x = snd y -> linked g x idkey /\ linked g y idkey).

Lemma post_mono g g' x y : incl (EK g) (EK g') -> post g x y -> post g' x y.
Proof.
  intros H [P1 P2]. split; intros E; [destruct (P1 E)|destruct (P2 E)]; split; eapply linked_mono; eauto.
Qed.

Lemma aprod_comm x y : word_ok (snd x) -> word_ok (snd y) -> aprod x y = aprod y x.
Proof. intros. unfold aprod. rewrite (wprod_comm (snd x)), xorb_comm by auto. reflexivity. Qed.

Lemma body_spec g c a b : Inv g -> good a -> good b -> In (nk a) (NK g) -> In (nk b) (NK g) ->
  exists gc', algebra_body ord ident3 (g, c) (a, b) = Ok gc' /\ Inv (fst gc') /\ step_ok (g, c) gc' /\
    post (fst gc') (nk a) (nk b).
Proof.
  intros I Ga Gb Ia Ib. unfold algebra_body. cbn [fst snd fold_left].
  assert (Ea : has_node (g_nodes g) a = true) by (apply has_node_spec; [apply I|apply Ga|exact Ia]).
  assert (Eb : has_node (g_nodes g) b = true) by (apply has_node_spec; [apply I|apply Gb|exact Ib]).
  rewrite Ea, Eb. destruct (half_commutator_spec ord a b Hord Ga Gb) as (p & Ep & Sp & Wp & P1 & P2).
  rewrite Ep. cbn [bind]. rewrite (eq_identity p Sp). cbn [bind].
  assert (Oa : word_ok (wd a)) by (apply site3_ok, Ga). assert (Ob : word_ok (wd b)) by (apply site3_ok, Gb).
  destruct (anti (wd a) (wd b)) eqn:Ean.
  - destruct (P1 eq_refl) as [Gp Np]. clear P1 P2.
    assert (Far : isclose0 (m_coeff p) = false).
    { apply unit4_far. destruct Gp as (_ & U & [E|E]); rewrite E; auto using unit4_opp. }
    rewrite Far. cbn [negb]. rewrite andb_true_r.
    assert (Nid : (let '(x, y, z) := wd p in (x =? 0) && (y =? 0) && (z =? 0)) = false).
    { destruct (let '(x, y, z) := wd p in (x =? 0) && (y =? 0) && (z =? 0)) eqn:E; auto. exfalso.
      assert (Z : wd p = (0, 0, 0)).
      { destruct (wd p) as [[x y] z]. rewrite !andb_true_iff, !Nat.eqb_eq in E. destruct E as [[-> ->] ->]; auto. }
      rewrite Wp in Z. apply (wprod_id (wd a) (wd b) Oa Ob) in Z. rewrite Z, anti_irrefl in Ean. discriminate. }
    rewrite Nid, andb_false_r.
    assert (Ra : reach S (nk a) \/ nk a = idkey) by (apply (i_sound g I); auto).
    assert (Rb : reach S (nk b) \/ nk b = idkey) by (apply (i_sound g I); auto).
    assert (Rp : reach S (nk p) \/ nk p = idkey).
    { left. rewrite Np.
      assert (Z : forall w, anti (0, 0, 0) w = false) by (intros [[x y] z]; reflexivity).
      destruct Ra as [Ra|Ra]; [|apply (f_equal snd) in Ra; cbn in Ra; rewrite Ra, Z in Ean; discriminate].
      destruct Rb as [Rb|Rb]; [|apply (f_equal snd) in Rb; cbn in Rb; rewrite Rb, anti_comm, Z in Ean; discriminate].
      apply reach_comm; auto. }
    rewrite (connect_add g c a p) by auto.
    destruct (connect_spec g c a p I Ga Gp Ia) as (I1 & S1 & L1); auto.
    { right. exists (nk b). auto. }
    destruct (connect (g, c) a p) as [g1 c1]. cbn [fst snd] in *.
    assert (Inc1 : incl (NK g) (NK g1)) by apply S1.
    destruct (connect_spec g1 c1 b p I1 Gb Gp) as (I2 & S2 & L2); auto.
    { right. exists (nk a). split; [auto|]. cbn [nk snd]. rewrite anti_comm. split; auto.
      rewrite Np. apply aprod_comm; auto. }
    eexists. split; [reflexivity|]. split; [exact I2|]. split; [eapply step_trans; eauto|].
    split.
    + intros _. rewrite <- Np. split; auto. eapply linked_mono; [apply S2|]. auto.
    + cbn [nk snd]. intros E. rewrite E, anti_irrefl in Ean. discriminate.
  - assert (Ez : m_coeff p = g0) by auto.
    rewrite Ez. change (isclose0 g0) with true. change (isreal g0) with true. cbn [negb andb].
    rewrite andb_false_r.
    destruct (let '(x, y, z) := wd p in (x =? 0) && (y =? 0) && (z =? 0)) eqn:E.
    + assert (Z : wd a = wd b).
      { apply wprod_id; auto. rewrite <- Wp. destruct (wd p) as [[x y] z].
        rewrite !andb_true_iff, !Nat.eqb_eq in E. destruct E as [[-> ->] ->]; auto. }
      destruct (connect_spec g c a ident3 I Ga ident3_good Ia) as (I1 & S1 & L1); [left; reflexivity|right; reflexivity|].
      destruct (connect (g, c) a ident3) as [g1 c1]. cbn [fst snd] in *.
      assert (Inc1 : incl (NK g) (NK g1)) by apply S1.
      destruct (connect_spec g1 c1 b ident3 I1 Gb ident3_good) as (I2 & S2 & L2); [auto|left; reflexivity|right; reflexivity|].
      eexists. split; [reflexivity|]. split; [exact I2|]. split; [eapply step_trans; eauto|].
      split.
      * cbn [nk snd]. rewrite Ean. discriminate.
      * intros _. split; auto. eapply linked_mono; [apply S2|]. auto.
    + eexists. split; [reflexivity|]. split; [exact I|]. split; [apply step_refl|].
      split.
      * cbn [nk snd]. rewrite Ean. discriminate.
      * cbn [nk snd]. intros Z. exfalso. rewrite Wp in E. assert (W : wprod (wd a) (wd b) = (0, 0, 0)) by (apply wprod_id; auto).
        rewrite W in E. discriminate.
Qed.

(** ** One pass *)

Lemma pass_spec l : forall g c, Inv g ->
  (forall a b, In (a, b) l -> good a /\ good b /\ In (nk a) (NK g) /\ In (nk b) (NK g)) ->
  exists gc', foldM_list (algebra_body ord ident3) l (g, c) = Ok gc' /\ Inv (fst gc') /\ step_ok (g, c) gc' /\
    forall a b, In (a, b) l -> post (fst gc') (nk a) (nk b).
Proof.
  induction l as [|[a b] l IH]; intros g c I H; cbn [foldM_list].
  - eexists. split; [reflexivity|]. split; [exact I|]. split; [apply step_refl|]. intros ? ? [].
  - destruct (H a b) as (Ga & Gb & Ia & Ib); [left; auto|].
    destruct (body_spec g c a b I Ga Gb Ia Ib) as ([g1 c1] & E & I1 & S1 & P1). rewrite E. cbn [bind].
    cbn [fst] in I1, P1. assert (Inc : incl (NK g) (NK g1)) by apply S1.
    destruct (IH g1 c1 I1) as (gc' & E2 & I2 & S2 & P2).
    { intros x y Hxy. destruct (H x y) as (? & ? & ? & ?); [right; auto|]. auto 6. }
    exists gc'. split; [exact E2|]. split; [exact I2|]. split; [eapply step_trans; eauto|].
    intros x y [Hxy|Hxy]; [|apply P2; auto]. injection Hxy as <- <-.
    eapply post_mono; [apply S2|exact P1].
Qed.

Lemma dynamic_spec g : Inv g -> exists gc', dynamic_algebra ord g = Ok gc' /\ Inv (fst gc') /\ step_ok (g, 0) gc' /\
  forall a b, In a (g_nodes g) -> In b (g_nodes g) -> post (fst gc') (nk a) (nk b).
Proof.
  intros I. unfold dynamic_algebra. rewrite identity3_eq. cbn [bind].
  pose proof (i_good g I) as G. rewrite Forall_forall in G.
  destruct (pass_spec (list_prod (g_nodes g) (g_nodes g)) g 0 I) as (gc' & E & I' & S' & P).
  { intros a b H. apply in_prod_iff in H. destruct H as [Ha Hb].
    repeat split; try apply G; auto; apply in_map; auto. }
  exists gc'. split; [exact E|]. split; [exact I'|]. split; [exact S'|].
  intros a b Ha Hb. apply P. apply in_prod_iff; auto.
Qed.

(** ** Termination *)

Definition bound : nat := List.length (list_prod every_key every_key).

Lemma nk_every m : good m -> In (nk m) every_key.
Proof. intros H. apply every_key_In. apply site3_ok, H. Qed.

Lemma edges_bound g : Inv g -> List.length (g_edges g) <= bound.
Proof.
  intros I. unfold bound. rewrite <- (map_length (fun e => (nk (fst e), nk (snd e)))). apply NoDup_incl_length.
  - apply (i_ed g I).
  - intros [x y] H. apply in_prod_iff. pose proof (i_goode g I) as G. rewrite Forall_forall in G.
    apply in_map_iff in H. destruct H as (e & E & He). injection E as <- <-. destruct (G e He). auto using nk_every.
Qed.

Definition closed (g : graph) : Prop := forall x y, In x (NK g) -> In y (NK g) -> post g x y.

Lemma close_spec n : forall g, Inv g -> bound < n + List.length (g_edges g) ->
  exists g', Inv g' /\ closed g' /\ incl (NK g) (NK g') /\ forall fuel, n <= fuel -> close_graph ord fuel g = Ok g'.
Proof.
  induction n as [|n IH]; intros g I Hn.
  - pose proof (edges_bound g I). lia.
  - destruct (dynamic_spec g I) as ([g1 c1] & E & I1 & (S1 & S2 & S3 & S4 & S5) & P). cbn [fst snd] in *.
    destruct (Nat.eqb_spec c1 0) as [->|Hc].
    + assert (Eg : g1 = g) by auto. subst g1. exists g. split; [exact I|]. split.
      { intros x y Hx Hy. apply in_map_iff in Hx, Hy. destruct Hx as (a & <- & Ha), Hy as (b & <- & Hb). auto. }
      split; [apply incl_refl|]. intros [|k] Hk; [lia|]. cbn [close_graph]. rewrite E. reflexivity.
    + destruct (IH g1 I1) as (g' & I' & C' & Inc & F); [lia|].
      exists g'. split; [exact I'|]. split; [exact C'|]. split; [eapply incl_tran; eauto|].
      intros [|k] Hk; [lia|]. cbn [close_graph]. rewrite E. cbn [bind fst snd].
      apply Nat.eqb_neq in Hc. rewrite Hc. apply F. lia.
Qed.

End Graph.

(** ** Whole runs *)

Definition keys_of (gens : list mono) (k : akey) : Prop := exists m, In m gens /\ nk m = k.

Lemma start_inv (S : akey -> Prop) gens : Forall good gens -> (forall m, In m gens -> S (nk m)) -> forall g, Inv S g ->
  Inv S (fold_left add_node gens g) /\ incl (NK g) (NK (fold_left add_node gens g)) /\
  (forall m, In m gens -> In (nk m) (NK (fold_left add_node gens g))).
Proof.
  induction gens as [|m gens IH]; intros G HS g I; cbn [fold_left].
  - split; [exact I|]. split; [apply incl_refl|]. intros ? [].
  - inversion G as [|? ? Gm G']; subst.
    destruct (add_node_inv S g m I Gm) as (I' & Im & Inc & _); [left; apply reach_gen, HS; left; auto|].
    destruct (IH G') with (g := add_node g m) as (I2 & Inc2 & H2); [intros; apply HS; right; auto|exact I'|].
    split; [exact I2|]. split; [eapply incl_tran; eauto|]. intros x [<-|Hx]; auto.
Qed.

Lemma empty_inv S : Inv S (mkgraph [] []).
Proof. constructor; cbn; try (constructor); try tauto. Qed.

Lemma generate_spec ord gens : reorders ord -> Forall good gens ->
  exists k g, (forall fuel, k <= fuel -> generate_product_algebra_graph ord fuel gens = Ok g) /\
    Inv (keys_of gens) g /\ closed g /\ forall m, In m gens -> In (nk m) (NK g).
Proof.
  intros Ho G.
  destruct (start_inv (keys_of gens) gens G) with (g := mkgraph [] []) as (I & _ & Hin).
  { intros m Hm. exists m; auto. }
  { apply empty_inv. }
  destruct (close_spec ord Ho (keys_of gens) (Datatypes.S bound) _ I) as (g' & I' & C' & Inc & F); [lia|].
  exists (Datatypes.S bound), g'. split; [exact F|]. auto.
Qed.

(** closed graphs contain everything that can be reached *)
Lemma closed_reach (S : akey -> Prop) g k : Inv S g -> closed g -> (forall x, S x -> In x (NK g)) -> reach S k -> In k (NK g).
Proof.
  intros I C H R. induction R as [k Hk|a b Ra IHa Rb IHb Han]; auto.
  destruct (C a b IHa IHb) as [P _]. destruct (P Han) as [[L|L] _]; apply (i_end S g I) in L; tauto.
Qed.
