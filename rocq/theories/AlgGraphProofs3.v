(** Proofs about generate_product_algebra_digraph. *)
From Coq Require Import List Arith ZArith QArith Qcanon Bool Lia Permutation Ring Setoid Sorted String.
From Verif Require Import Py StarRing Matrix GaussQ PauliSpec PauliModel PauliSem PauliProofs PauliProofs2 PauliSumModel AlgGraphModel AlgGraphSpec
  AlgGraphProofs AlgGraphProofs2 AlgGraphSem.
From Coq Require Import List.
Import ListNotations.
Local Open Scope nat_scope.

(** keys reached by commutators nested at most [d] deep *)
Inductive rlev (S : akey -> Prop) : nat -> akey -> Prop :=
| rlev_gen d k : S k -> rlev S d k
| rlev_comm d a b : rlev S d a -> rlev S d b -> anti (snd a) (snd b) = true -> rlev S (Datatypes.S d) (aprod a b).

Lemma rlev_mono (S : akey -> Prop) d k : rlev S d k -> forall e, d <= e -> rlev S e k.
Proof.
  induction 1 as [d k H|d a b Ha IHa Hb IHb Han]; intros e He; [constructor; auto|].
  destruct e as [|e]; [lia|]. apply rlev_comm; auto; [apply IHa|apply IHb]; lia.
Qed.

Lemma rlev_reach (S : akey -> Prop) k : reach S k <-> exists d, rlev S d k.
Proof.
  split.
  - induction 1 as [k H|a b Ha (d & IHa) Hb (e & IHb) Han]; [exists 0; constructor; auto|].
    exists (Datatypes.S (Nat.max d e)). apply rlev_comm; auto; eapply rlev_mono; eauto; lia.
  - intros [d H]. induction H; [apply reach_gen; auto|apply reach_comm; auto].
Qed.

Definition level (S : akey -> Prop) (d : nat) (k : akey) : Prop :=
  rlev S d k /\ forall e, rlev S e k -> d <= e.

(** ** Keys and nested commutators *)

Lemma keys_ok gens k : Forall good gens -> keys_of gens k -> word_ok (snd k).
Proof. intros G (m & Hm & <-). rewrite Forall_forall in G. apply site3_ok, (G m Hm). Qed.

Lemma rlev_ok gens d k : Forall good gens -> rlev (keys_of gens) d k -> word_ok (snd k).
Proof. intros G. induction 1; [eapply keys_ok; eauto|apply wprod_ok; auto]. Qed.

Lemma comm_scale p q A B : meq 8 (msub (mmul 8 (mscale (GQ p 0) A) (mscale (GQ q 0) B)) (mmul 8 (mscale (GQ q 0) B) (mscale (GQ p 0) A)))
  (mscale (GQ (p * q) 0) (msub (mmul 8 A B) (mmul 8 B A))).
Proof.
  rewrite !mmul_scale_l, !mmul_scale_r, !mscale_mscale, !GQ_mul, (Qcmult_comm q p).
  intros i j _ _. unfold msub, mscale. simpl. ring.
Qed.

Lemma nested_rlev gens d A : Forall good gens -> nested gens d A ->
  meq 8 A (fun _ _ => g0) \/ exists k, rlev (keys_of gens) d k /\ proportional A (kmat k).
Proof.
  intros G. induction 1 as [m d Hm|d A B HA IHA HB IHB].
  - right. exists (nk m). split; [constructor; exists m; auto|]. apply denote_key. rewrite Forall_forall in G; auto.
  - assert (Z : forall M, meq 8 (mmul 8 (fun _ _ => g0) M) (fun _ _ => g0) /\ meq 8 (mmul 8 M (fun _ _ => g0)) (fun _ _ => g0)).
    { intros M. split; intros i j _ _; unfold mmul; apply (lsum_zero (SR := GaussQ)); intros k _; simpl; apply gq_eq; cbn; ring. }
    destruct IHA as [EA|(a & Ra & (p & Hp & EA))].
    { left. rewrite EA, (proj1 (Z B)), (proj2 (Z B)). intros i j _ _. unfold msub. simpl. apply gq_eq; cbn; ring. }
    destruct IHB as [EB|(b & Rb & (q & Hq & EB))].
    { left. rewrite EB, (proj1 (Z A)), (proj2 (Z A)). intros i j _ _. unfold msub. simpl. apply gq_eq; cbn; ring. }
    assert (Oa := rlev_ok gens d a G Ra). assert (Ob := rlev_ok gens d b G Rb).
    destruct (kmat_comm a b Oa Ob) as [K0 K1].
    destruct (anti (snd a) (snd b)) eqn:Ea.
    + right. exists (aprod a b). split; [apply rlev_comm; auto|].
      apply (proportional_trans _ (msub (mmul 8 (kmat a) (kmat b)) (mmul 8 (kmat b) (kmat a)))); auto.
      exists (p * q)%Qc. split; [apply Qc_mul_nonzero; auto|]. rewrite EA, EB. apply comm_scale.
    + left. rewrite EA, EB, comm_scale, (K0 eq_refl). intros i j _ _. unfold mscale, msub. simpl. ring.
Qed.

Lemma rlev_nested gens d k : Forall good gens -> rlev (keys_of gens) d k -> exists A, nested gens d A /\ proportional A (kmat k).
Proof.
  intros G. induction 1 as [d k (m & Hm & <-)|d a b Ha IHa Hb IHb Han].
  - exists (denote 3 m). split; [apply nested_gen; auto|]. apply denote_key. rewrite Forall_forall in G; auto.
  - destruct IHa as (A & NA & (p & Hp & EA)), IHb as (B & NB & (q & Hq & EB)).
    exists (msub (mmul 8 A B) (mmul 8 B A)). split; [apply nested_comm; auto|].
    destruct (kmat_comm a b) as [_ K]; [eapply rlev_ok; eauto|eapply rlev_ok; eauto|].
    apply (proportional_trans _ (msub (mmul 8 (kmat a) (kmat b)) (mmul 8 (kmat b) (kmat a)))); auto.
    exists (p * q)%Qc. split; [apply Qc_mul_nonzero; auto|]. rewrite EA, EB. apply comm_scale.
Qed.

Lemma three_qubit_good m : three_qubit m -> good m.
Proof.
  intros (F & L & U). apply fresh_wfc in F. destruct F as (W & E).
  split; [|split].
  - split; [exact W|]. destruct W as (W & _). rewrite <- W. exact L.
  - rewrite <- E. exact U.
  - left; exact E.
Qed.

(** ** The digraph *)

Definition DN (g : digraph) : list mono := map fst (d_nodes g).
Definition DK (g : digraph) : list akey := map nk (DN g).

Record DI (g : digraph) : Prop := {
  di_good : Forall good (DN g);
  di_nd : NoDup (DK g);
  di_edges : forall u v, In (u, v) (d_edges g) -> good u /\ good v /\ In (nk u) (DK g) /\ In (nk v) (DK g) }.

Lemma d_has_spec g p : DI g -> site3 p -> (d_has_node g p = true <-> In (nk p) (DK g)).
Proof. intros I Hp. apply has_node_spec; auto. apply I. Qed.

Section Directed.
Context (ord : list nat -> list nat) (Hord : reorders ord).

Lemma d_ensure_in g p : DI g -> good p -> In (nk p) (DK g) -> d_ensure g p = g.
Proof.
  intros I Gp H. unfold d_ensure. assert (E : d_has_node g p = true) by (apply d_has_spec; [exact I|apply Gp|exact H]).
  rewrite E. reflexivity.
Qed.

Lemma d_add_edge_in g u v : DI g -> good u -> good v -> In (nk u) (DK g) -> In (nk v) (DK g) ->
  d_add_edge g u v = mkdigraph (d_nodes g) (d_edges g ++ [(u, v)]) /\ DI (d_add_edge g u v).
Proof.
  intros I Gu Gv Iu Iv. assert (E : d_add_edge g u v = mkdigraph (d_nodes g) (d_edges g ++ [(u, v)])).
  { unfold d_add_edge. rewrite (d_ensure_in g u), (d_ensure_in g v) by auto. reflexivity. }
  split; [exact E|]. rewrite E. destruct I as [I1 I2 I3]. constructor; auto. cbn [d_edges].
  intros x y H. apply in_app_iff in H. destruct H as [H|[H|[]]]; [apply (I3 x y H)|]. injection H as <- <-. auto.
Qed.

Lemma d_connect_spec g c u v : DI g -> good u -> good v -> In (nk u) (DK g) -> In (nk v) (DK g) ->
  DI (fst (d_connect (g, c) u v)) /\ d_nodes (fst (d_connect (g, c) u v)) = d_nodes g /\ c <= snd (d_connect (g, c) u v) /\
  (~ (exists x y, In (x, y) (d_edges g) /\ nk y = nk v) -> c < snd (d_connect (g, c) u v)) /\
  incl (d_edges g) (d_edges (fst (d_connect (g, c) u v))) /\ d_has_edge (fst (d_connect (g, c) u v)) u v = true.
Proof.
  intros I Gu Gv Iu Iv. unfold d_connect. cbn [fst snd]. destruct (d_has_edge g u v) eqn:E.
  - split; [exact I|]. split; [reflexivity|]. split; [auto|]. split; [|split; [apply incl_refl|exact E]]. intros N. exfalso; apply N.
    unfold d_has_edge in E. apply existsb_exists in E. destruct E as ([x y] & H & E). cbn [fst snd] in E.
    apply andb_true_iff in E. exists x, y. split; auto.
    destruct (di_edges g I x y H) as (Gx & Gy & _). symmetry. apply same_node_spec; [apply Gv|apply Gy|tauto].
  - destruct (d_add_edge_in g u v) as [E1 E2]; auto. cbn [fst snd]. split; [exact E2|]. rewrite E1. cbn [d_nodes d_edges].
    split; [reflexivity|]. split; [auto|]. split; [auto|]. split; [intros x Hx; apply in_app_iff; auto|].
    unfold d_has_edge. cbn [d_edges]. rewrite existsb_app. cbn [existsb fst snd].
    assert (Eu : same_node u u = true) by (apply same_node_spec; [apply Gu|apply Gu|reflexivity]).
    assert (Ev : same_node v v = true) by (apply same_node_spec; [apply Gv|apply Gv|reflexivity]).
    rewrite Eu, Ev. cbn. apply orb_true_r.
Qed.

Lemma d_has_edge_mono g g' u v : incl (d_edges g) (d_edges g') -> d_has_edge g u v = true -> d_has_edge g' u v = true.
Proof. unfold d_has_edge. rewrite !existsb_exists. intros H (e & He & E). exists e. auto. Qed.

Lemma d_body_spec d g c a b : DI g -> good a -> good b -> In (nk a) (DK g) -> In (nk b) (DK g) ->
  exists g' c' new, directed_body ord ident3 d (g, c) (a, b) = Ok (g', c') /\ DI g' /\
    d_nodes g' = d_nodes g ++ map (fun m => (m, Some (S d))) new /\ c <= c' /\ (c' = c -> g' = g /\ new = []) /\
    (new = [] -> c' = c) /\
    (forall m, In m new -> anti (snd (nk a)) (snd (nk b)) = true /\ nk m = aprod (nk a) (nk b) /\
       d_has_edge g' a m = true /\ d_has_edge g' b m = true) /\ incl (d_edges g) (d_edges g') /\
    (anti (snd (nk a)) (snd (nk b)) = true -> In (aprod (nk a) (nk b)) (DK g')).
Proof.
  intros I Ga Gb Ia Ib. unfold directed_body. cbn [fst snd fold_left].
  assert (Ea : d_has_node g a = true) by (apply d_has_spec; [exact I|apply Ga|exact Ia]).
  assert (Eb : d_has_node g b = true) by (apply d_has_spec; [exact I|apply Gb|exact Ib]).
  rewrite Ea, Eb. destruct (half_commutator_spec ord a b Hord Ga Gb) as (p & Ep & Sp & Wp & P1 & P2).
  rewrite Ep. cbn [bind]. cbn [nk snd].
  assert (Oa : word_ok (wd a)) by (apply site3_ok, Ga). assert (Ob : word_ok (wd b)) by (apply site3_ok, Gb).
  destruct (anti (wd a) (wd b)) eqn:Ean.
  - destruct (P1 eq_refl) as [Gp Np]. clear P1 P2.
    assert (Far : isclose0 (m_coeff p) = false).
    { apply unit4_far. destruct Gp as (_ & U & [E|E]); rewrite E; auto using unit4_opp. }
    rewrite Far. cbn [negb]. rewrite andb_true_r.
    destruct (d_has_node g p) eqn:Hp; cbn [negb].
    + apply d_has_spec in Hp; [|exact I|exact Sp].
      exists g, c, []. split; [reflexivity|]. split; [exact I|]. split; [cbn; rewrite app_nil_r; reflexivity|].
      split; [auto|]. split; [auto|]. split; [auto|]. split; [intros ? []|]. split; [apply incl_refl|]. intros _. fold (nk a) (nk b). rewrite <- Np. exact Hp.
    + assert (N : ~ In (nk p) (DK g)).
      { intros H. apply d_has_spec in H; [congruence|exact I|exact Sp]. }
      destruct (d_add_edge_in g a b) as [E1 I1]; auto.
      assert (Kn : DK (d_add_edge g a b) = DK g) by (rewrite E1; reflexivity).
      destruct (d_add_edge_in (d_add_edge g a b) b a) as [E2 I2]; auto; rewrite ?Kn; auto.
      set (g2 := d_add_edge (d_add_edge g a b) b a) in *.
      assert (Kn2 : DK g2 = DK g) by (rewrite E2, E1; reflexivity).
      assert (Nn2 : d_nodes g2 = d_nodes g) by (rewrite E2, E1; reflexivity).
      assert (Hp2 : d_has_node g2 p = false).
      { unfold d_has_node. rewrite Nn2. exact Hp. }
      unfold d_add_node. rewrite Hp2.
      set (g3 := mkdigraph (d_nodes g2 ++ [(p, Some (S d))]) (d_edges g2)).
      assert (K3 : DK g3 = DK g ++ [nk p]).
      { unfold DK, DN, g3. cbn [d_nodes]. rewrite Nn2, !map_app. reflexivity. }
      assert (I3 : DI g3).
      { destruct I2 as [J1 J2 J3]. constructor.
        - unfold DN, g3. cbn [d_nodes]. rewrite map_app. apply Forall_app. split; [exact J1|constructor; [exact Gp|constructor]].
        - rewrite K3. apply NoDup_app_intro; [apply I|constructor; [intros []|constructor]|]. intros x Hx [<-|[]]. auto.
        - intros u v H. change (d_edges g3) with (d_edges g2) in H. destruct (J3 u v H) as (? & ? & H1 & H2).
          rewrite Kn2 in H1, H2. rewrite K3, !in_app_iff. auto 6. }
      assert (N3 : d_nodes g3 = d_nodes g ++ [(p, Some (S d))]) by (unfold g3; cbn [d_nodes]; rewrite Nn2; reflexivity).
      assert (Ed3 : d_edges g3 = d_edges g2) by reflexivity.
      rewrite (eq_identity p Sp). cbn [bind].
      clearbody g3 g2.
      assert (Nid : (let '(x, y, z) := wd p in (x =? 0) && (y =? 0) && (z =? 0)) = false).
      { destruct (let '(x, y, z) := wd p in (x =? 0) && (y =? 0) && (z =? 0)) eqn:E; auto. exfalso.
        assert (Z : wd p = (0, 0, 0)).
        { destruct (wd p) as [[x y] z]. rewrite !andb_true_iff, !Nat.eqb_eq in E. destruct E as [[-> ->] ->]; auto. }
        rewrite Wp in Z. apply (wprod_id (wd a) (wd b) Oa Ob) in Z. rewrite Z, anti_irrefl in Ean. discriminate. }
      rewrite Nid, andb_false_r.
      assert (Ip : In (nk p) (DK g3)) by (rewrite K3; apply in_app_iff; right; left; auto).
      assert (Ia3 : In (nk a) (DK g3)) by (rewrite K3; apply in_app_iff; left; auto).
      assert (Ib3 : In (nk b) (DK g3)) by (rewrite K3; apply in_app_iff; left; auto).
      destruct (d_connect_spec g3 c a p I3 Ga Gp Ia3 Ip) as (I4 & N4 & C4 & D4 & L4 & X4).
      destruct (d_connect (g3, c) a p) as [g4 c4]. cbn [fst snd] in *.
      assert (K4 : DK g4 = DK g3) by (unfold DK, DN; rewrite N4; auto).
      destruct (d_connect_spec g4 c4 b p I4 Gb Gp) as (I5 & N5 & C5 & _ & L5 & X5); rewrite ?K4; auto.
      destruct (d_connect (g4, c4) b p) as [g5 c5]. cbn [fst snd] in *.
      assert (Lt : c < c4).
      { apply D4. intros (x & y & H & E). rewrite Ed3 in H.
        destruct (di_edges g2 I2 x y H) as (_ & _ & _ & H2). rewrite Kn2, E in H2. auto. }
      exists g5, c5, [p]. split; [reflexivity|]. split; [exact I5|].
      split; [rewrite N5, N4, N3; reflexivity|].
      split; [lia|]. split; [lia|]. split; [discriminate|]. split.
      * intros m [<-|[]]. split; [auto|]. split; [auto|]. split; [eapply d_has_edge_mono; eauto|exact X5].
      * split; [|]. { intros x Hx. apply L5, L4. rewrite Ed3, E2. cbn [d_edges]. apply in_app_iff; left.
          rewrite E1. cbn [d_edges]. apply in_app_iff; auto. }
        intros _. fold (nk a) (nk b). rewrite <- Np. unfold DK, DN. rewrite N5. fold (DN g4) (DK g4). rewrite K4. exact Ip.
  - assert (Ez : m_coeff p = g0) by auto.
    rewrite Ez. change (isclose0 g0) with true. cbn [negb]. rewrite andb_false_r.
    exists g, c, []. split; [reflexivity|]. split; [exact I|]. split; [cbn; rewrite app_nil_r; reflexivity|].
    split; [auto|]. split; [auto|]. split; [auto|]. split; [intros ? []|]. split; [apply incl_refl|discriminate].
Qed.

Lemma d_pass_spec d l : forall g c, DI g ->
  (forall a b, In (a, b) l -> good a /\ good b /\ In (nk a) (DK g) /\ In (nk b) (DK g)) ->
  exists g' c' new, foldM_list (directed_body ord ident3 d) l (g, c) = Ok (g', c') /\ DI g' /\
    d_nodes g' = d_nodes g ++ map (fun m => (m, Some (S d))) new /\ c <= c' /\ (c' = c -> g' = g /\ new = []) /\
    (new = [] -> c' = c) /\
    (forall m, In m new -> exists a b, In (a, b) l /\ anti (snd (nk a)) (snd (nk b)) = true /\ nk m = aprod (nk a) (nk b) /\
       d_has_edge g' a m = true /\ d_has_edge g' b m = true) /\ incl (d_edges g) (d_edges g') /\
    (forall a b, In (a, b) l -> anti (snd (nk a)) (snd (nk b)) = true -> In (aprod (nk a) (nk b)) (DK g')).
Proof.
  induction l as [|[a b] l IH]; intros g c I H; cbn [foldM_list].
  - exists g, c, []. split; [reflexivity|]. split; [exact I|]. split; [cbn; rewrite app_nil_r; reflexivity|].
    split; [auto|]. split; [auto|]. split; [auto|]. split; [intros ? []|]. split; [apply incl_refl|intros ? ? []].
  - destruct (H a b) as (Ga & Gb & Ia & Ib); [left; auto|].
    destruct (d_body_spec d g c a b I Ga Gb Ia Ib) as (g1 & c1 & new1 & E & I1 & N1 & C1 & Z1 & Y1 & M1 & L1 & P1).
    rewrite E. cbn [bind].
    assert (K1 : DK g1 = DK g ++ map nk new1).
    { unfold DK, DN. rewrite N1, !map_app, !map_map. reflexivity. }
    destruct (IH g1 c1 I1) as (g2 & c2 & new2 & E2 & I2 & N2 & C2 & Z2 & Y2 & M2 & L2 & P2).
    { intros x y Hxy. destruct (H x y) as (? & ? & ? & ?); [right; auto|]. rewrite K1, !in_app_iff. auto 6. }
    assert (K2 : DK g2 = DK g1 ++ map nk new2).
    { unfold DK, DN. rewrite N2, !map_app, !map_map. reflexivity. }
    exists g2, c2, (new1 ++ new2). split; [exact E2|]. split; [exact I2|].
    split; [rewrite N2, N1, map_app, app_assoc; reflexivity|]. split; [lia|]. split; [|split; [|split; [|split]]].
    + intros Hc. destruct Z1 as [-> ->]; [lia|]. destruct Z2 as [-> ->]; [lia|]. auto.
    + intros Hn. apply app_eq_nil in Hn. destruct Hn as [-> ->]. rewrite Y2, Y1 by auto. auto.
    + intros m Hm. apply in_app_iff in Hm. destruct Hm as [Hm|Hm].
      * exists a, b. split; [left; auto|]. destruct (M1 m Hm) as (Q1 & Q2 & Q3 & Q4). split; [auto|]. split; [auto|].
        split; eapply d_has_edge_mono; eauto.
      * destruct (M2 m Hm) as (x & y & Hxy & R). exists x, y. split; [right; auto|auto].
    + eapply incl_tran; eauto.
    + intros x y [Hxy|Hxy] Han; [|apply P2; auto]. injection Hxy as <- <-. rewrite K2. apply in_app_iff; left. auto.
Qed.

(** ** Levels *)
Section Levels.
Context (S : akey -> Prop).

(** a node found later has edges from two earlier nodes whose commutator it is *)
Definition parents (g : digraph) : Prop := forall m e, In (m, Some (Datatypes.S e)) (d_nodes g) ->
  exists a b i j, In (a, Some i) (d_nodes g) /\ In (b, Some j) (d_nodes g) /\ i <= e /\ j <= e /\
    anti (snd (nk a)) (snd (nk b)) = true /\ nk m = aprod (nk a) (nk b) /\
    d_has_edge g a m = true /\ d_has_edge g b m = true.

Record DL (d : nat) (g : digraph) : Prop := {
  dl_inv : DI g;
  dl_depth : forall m o, In (m, o) (d_nodes g) -> exists e, o = Some e /\ e <= d /\ level S e (nk m);
  dl_par : parents g;
  dl_max : exists m, In (m, Some d) (d_nodes g);
  dl_all : forall k, rlev S d k -> In k (DK g) }.

Lemma fold_max l : forall x, fold_left Nat.max l x >= x /\ (forall y, In y l -> fold_left Nat.max l x >= y) /\
  (fold_left Nat.max l x = x \/ In (fold_left Nat.max l x) l).
Proof.
  induction l as [|z l IH]; intros x; cbn [fold_left].
  - split; [lia|]. split; [intros ? []|auto].
  - destruct (IH (Nat.max x z)) as (H1 & H2 & H3). split; [lia|]. split.
    + intros y [<-|Hy]; [lia|auto].
    + destruct H3 as [H3|H3]; [|right; right; auto]. rewrite H3. destruct (Nat.max_dec x z) as [E|E]; rewrite E; [auto|right; left; auto].
Qed.

Lemma max_depth_spec d g : (forall m o, In (m, o) (d_nodes g) -> exists e, o = Some e /\ e <= d) ->
  (exists m, In (m, Some d) (d_nodes g)) -> max_depth g = Ok d.
Proof.
  intros H (m & Hm). unfold max_depth.
  assert (Hin : In d (depths g)).
  { unfold depths. apply in_flat_map. exists (m, Some d). split; auto. left; auto. }
  assert (Hle : forall e, In e (depths g) -> e <= d).
  { intros e He. unfold depths in He. apply in_flat_map in He. destruct He as ([x o] & Hx & He). cbn [snd] in He.
    destruct (H x o Hx) as (e' & -> & Hd). destruct He as [<-|[]]; auto. }
  destruct (depths g) as [|e l]; [contradiction|].
  destruct (fold_max l e) as (M1 & M2 & M3).
  f_equal. apply Nat.le_antisymm.
  - apply Hle. destruct M3 as [->|M3]; [left; auto|right; auto].
  - destruct Hin as [->|Hin]; [lia|apply M2; auto].
Qed.

Lemma directed_spec d g : DL d g ->
  exists g' c', dynamic_algebra_directed ord g = Ok (g', c') /\
    (c' = 0 -> g' = g /\ forall x y, In x (DK g) -> In y (DK g) -> anti (snd x) (snd y) = true -> In (aprod x y) (DK g)) /\
    (c' <> 0 -> DL (Datatypes.S d) g' /\ List.length (d_nodes g) < List.length (d_nodes g')).
Proof.
  intros L. pose proof L as [I Dp Pa Mx Al]. unfold dynamic_algebra_directed.
  rewrite (max_depth_spec d g) by (auto; intros m o H; destruct (Dp m o H) as (e & ? & ? & _); eauto).
  rewrite identity3_eq. cbn [bind].
  pose proof (di_good g I) as G. rewrite Forall_forall in G. fold (DN g).
  destruct (d_pass_spec d (list_prod (DN g) (DN g)) g 0 I) as (g' & c' & new & E & I' & N & C & Z & Y & M & Le & P).
  { intros a b H. apply in_prod_iff in H. destruct H as [Ha Hb]. repeat split; try apply G; auto; apply in_map; auto. }
  assert (K : DK g' = DK g ++ map nk new).
  { unfold DK, DN. rewrite N, !map_app, !map_map. reflexivity. }
  assert (Cl : forall x y, In x (DK g) -> In y (DK g) -> anti (snd x) (snd y) = true -> In (aprod x y) (DK g')).
  { intros x y Hx Hy Han. apply in_map_iff in Hx, Hy. destruct Hx as (a & <- & Ha), Hy as (b & <- & Hb).
    apply P; auto. apply in_prod_iff; auto. }
  exists g', c'. split; [exact E|]. split.
  - intros ->. destruct Z as [-> _]; auto.
  - intros Hc. split.
    + constructor; auto.
      * intros m o H. rewrite N in H. apply in_app_iff in H. destruct H as [H|H].
        { destruct (Dp m o H) as (e & ? & ? & ?). exists e. auto. }
        apply in_map_iff in H. destruct H as (m' & Em & Hm). injection Em as -> <-. exists (Datatypes.S d). split; auto. split; auto.
        destruct (M m Hm) as (a & b & Hab & Han & En & _). apply in_prod_iff in Hab. destruct Hab as [Ha Hb].
        assert (Lv : forall x, In x (DN g) -> rlev S d (nk x)).
        { intros x Hx. unfold DN in Hx. apply in_map_iff in Hx. destruct Hx as ([x' o] & <- & Hx).
          destruct (Dp x' o Hx) as (e & _ & He & (R & _)). eapply rlev_mono; eauto. }
        split; [rewrite En; apply rlev_comm; auto|].
        intros e Re. destruct (le_lt_dec e d) as [Hle|Hlt]; [|lia]. exfalso.
        assert (Hin : In (nk m) (DK g)) by (apply Al; eapply rlev_mono; eauto).
        pose proof (di_nd g' I') as Nd. rewrite K in Nd. clear -Nd Hin Hm.
        induction (DK g) as [|x l IH]; [contradiction|]. cbn in Nd. inversion Nd as [|? ? Nx Nd']; subst.
        destruct Hin as [->|Hin]; [|auto]. apply Nx. apply in_app_iff; right. apply in_map; auto.
      * intros m e H. rewrite N in H. apply in_app_iff in H. destruct H as [H|H].
        { destruct (Pa m e H) as (a & b & i & j & Ha & Hb & Q1 & Q2 & Q3 & Q4 & Q5 & Q6). exists a, b, i, j. rewrite N, !in_app_iff.
          repeat (split; [solve [auto|eapply d_has_edge_mono; eauto]|]). eapply d_has_edge_mono; eauto. }
        apply in_map_iff in H. destruct H as (m' & Em & Hm). injection Em as -> ->.
        destruct (M m Hm) as (a & b & Hab & Han & En & X1 & X2). apply in_prod_iff in Hab. destruct Hab as [Ha Hb].
        unfold DN in Ha, Hb. apply in_map_iff in Ha, Hb. destruct Ha as ([a' oa] & <- & Ha), Hb as ([b' ob] & <- & Hb).
        destruct (Dp a' oa Ha) as (i & -> & Hi & _), (Dp b' ob Hb) as (j & -> & Hj & _). cbn [fst] in *.
        exists a', b', i, j. rewrite N, !in_app_iff. auto 12.
      * destruct new as [|m new]; [exfalso; apply Hc; auto|]. exists m. rewrite N. apply in_app_iff; right; left; auto.
      * intros k Hk. remember (Datatypes.S d) as e. destruct Hk as [e k Hk|e a b Ha Hb Han].
        { rewrite K. apply in_app_iff; left. apply Al. constructor; auto. }
        injection Heqe as ->. apply Cl; auto.
    + rewrite N, app_length, map_length. destruct new as [|m new]; [exfalso; apply Hc; auto|]. cbn. lia.
Qed.

Lemma d_size g : DI g -> List.length (d_nodes g) <= List.length every_key.
Proof.
  intros I. replace (List.length (d_nodes g)) with (List.length (DK g)) by (unfold DK, DN; rewrite !map_length; auto).
  apply NoDup_incl_length; [apply I|]. intros x H. apply in_map_iff in H. destruct H as (m & <- & Hm).
  apply nk_every. pose proof (di_good g I) as G. rewrite Forall_forall in G; auto.
Qed.

Lemma d_close_spec n : forall d g, DL d g -> List.length every_key < n + List.length (d_nodes g) ->
  exists g', DI g' /\ (forall m o, In (m, o) (d_nodes g') -> exists e, o = Some e /\ level S e (nk m)) /\
    (forall k, reach S k -> In k (DK g')) /\ parents g' /\ forall fuel, n <= fuel -> close_digraph ord fuel g = Ok g'.
Proof.
  induction n as [|n IH]; intros d g L Hn.
  - pose proof (d_size g (dl_inv d g L)). lia.
  - destruct (directed_spec d g L) as (g1 & c1 & E & H0 & H1).
    destruct (Nat.eqb_spec c1 0) as [Hc|Hc].
    + destruct (H0 Hc) as [-> Cl]. subst c1. exists g. split; [apply L|]. split.
      { intros m o H. destruct (dl_depth d g L m o H) as (e & ? & ? & ?). eauto. }
      split.
      { intros k R. induction R as [k Hk|a b Ra IHa Rb IHb Han]; [apply (dl_all d g L); constructor; auto|auto]. }
      split; [apply (dl_par d g L)|].
      intros [|k] Hk; [lia|]. cbn [close_digraph]. rewrite E. reflexivity.
    + destruct (H1 Hc) as [L1 Len]. destruct (IH (Datatypes.S d) g1 L1) as (g' & I' & D' & R' & Pa' & F); [lia|].
      exists g'. split; [exact I'|]. split; [exact D'|]. split; [exact R'|]. split; [exact Pa'|].
      intros [|k] Hk; [lia|]. cbn [close_digraph]. rewrite E. cbn [bind fst snd].
      apply Nat.eqb_neq in Hc. rewrite Hc. apply F. lia.
Qed.
End Levels.
End Directed.

(** ** Whole runs *)
Lemma d_start gens : Forall good gens -> forall g, DI g -> d_edges g = [] -> (forall m o, In (m, o) (d_nodes g) -> o = Some 0) ->
  let g' := fold_left (fun g p => d_add_node g p 0) gens g in
  DI g' /\ (forall m o, In (m, o) (d_nodes g') -> o = Some 0) /\ incl (d_nodes g) (d_nodes g') /\
  (forall m, In m gens -> In (nk m) (DK g')) /\ (forall m, In m (DN g') -> In m (DN g) \/ In m gens).
Proof.
  induction gens as [|p gens IH]; intros G g I Ee Hz; cbn [fold_left].
  - cbn. split; [exact I|]. split; [exact Hz|]. split; [apply incl_refl|]. split; [intros ? []|auto].
  - inversion G as [|? ? Gp G']; subst.
    assert (U : d_add_node g p 0 = if d_has_node g p
      then mkdigraph (map (fun nd => if same_node p (fst nd) then (fst nd, Some 0) else nd) (d_nodes g)) (d_edges g)
      else mkdigraph (d_nodes g ++ [(p, Some 0)]) (d_edges g)) by reflexivity.
    rewrite U; clear U. destruct (d_has_node g p) eqn:E.
    + assert (Em : map (fun nd => if same_node p (fst nd) then (fst nd, Some 0) else nd) (d_nodes g) = d_nodes g).
      { rewrite <- map_id. apply map_ext_in. intros [m o] H. cbn [fst]. rewrite (Hz m o H). destruct (same_node p m); auto. }
      rewrite Em. replace (mkdigraph (d_nodes g) (d_edges g)) with g by (destruct g; auto).
      destruct (IH G' g I Ee Hz) as (H1 & H2 & H3 & H4 & H5). cbn zeta. split; [exact H1|]. split; [exact H2|]. split; [exact H3|].
      split; [|intros m Hm; destruct (H5 m Hm); [auto|right; right; auto]].
      intros m [<-|Hm]; auto. apply d_has_spec in E; [|exact I|apply Gp]. unfold DK, DN in *.
      apply in_map_iff in E. destruct E as (x & Ex & E). apply in_map_iff in E. destruct E as (y & Ey & E).
      rewrite <- Ex, <- Ey. apply in_map, in_map. auto.
    + set (g1 := mkdigraph (d_nodes g ++ [(p, Some 0)]) (d_edges g)).
      assert (N : ~ In (nk p) (DK g)).
      { intros H. apply d_has_spec in H; [congruence|exact I|apply Gp]. }
      assert (K1 : DK g1 = DK g ++ [nk p]).
      { unfold DK, DN, g1. cbn [d_nodes]. rewrite !map_app. reflexivity. }
      assert (I1 : DI g1).
      { destruct I as [J1 J2 J3]. constructor.
        - unfold DN, g1. cbn [d_nodes]. rewrite map_app. apply Forall_app. split; [exact J1|constructor; [exact Gp|constructor]].
        - rewrite K1. apply NoDup_app_intro; [auto|constructor; [intros []|constructor]|]. intros x Hx [<-|[]]. auto.
        - unfold g1; cbn [d_edges]. rewrite Ee. intros u v []. }
      destruct (IH G' g1 I1 Ee) as (H1 & H2 & H3 & H4 & H5).
      { intros m o H. unfold g1 in H; cbn [d_nodes] in H. apply in_app_iff in H. destruct H as [H|[H|[]]]; [eauto|]. injection H as _ <-. auto. }
      cbn zeta. split; [exact H1|]. split; [exact H2|].
      assert (Inc : incl (d_nodes g1) (d_nodes (fold_left (fun g p => d_add_node g p 0) gens g1))) by exact H3.
      split; [intros x Hx; apply Inc; unfold g1; cbn [d_nodes]; apply in_app_iff; auto|].
      split.
      * intros m [<-|Hm]; auto. unfold DK, DN. apply in_map_iff. exists p. split; auto. apply in_map_iff. exists (p, Some 0). split; auto.
        apply Inc. unfold g1; cbn [d_nodes]. apply in_app_iff; right; left; auto.
      * intros m Hm. destruct (H5 m Hm) as [H|H]; [|right; right; auto]. unfold DN, g1 in H; cbn [d_nodes] in H.
        rewrite map_app in H. apply in_app_iff in H. destruct H as [H|[<-|[]]]; [auto|right; left; auto].
Qed.

Lemma d_generate_spec ord gens : reorders ord -> Forall good gens -> gens <> [] ->
  exists k g, (forall fuel, k <= fuel -> generate_product_algebra_digraph ord fuel gens = Ok g) /\
    DI g /\ (forall m o, In (m, o) (d_nodes g) -> exists e, o = Some e /\ level (keys_of gens) e (nk m)) /\
    (forall k, reach (keys_of gens) k -> In k (DK g)) /\ parents g.
Proof.
  intros Ho G Hne.
  destruct (d_start gens G (mkdigraph [] [])) as (I & Z & _ & Hin & Hfrom).
  { constructor; [apply Forall_nil|apply NoDup_nil|intros ? ? []]. } { reflexivity. } { intros ? ? []. }
  set (g0 := fold_left (fun g p => d_add_node g p 0) gens (mkdigraph [] [])) in *.
  assert (L : DL (keys_of gens) 0 g0).
  { constructor; auto.
    - intros m o H. exists 0. rewrite (Z m o H). split; auto. split; auto. split; [|intros; lia].
      constructor. exists m. split; auto. destruct (Hfrom m) as [H'|H']; auto; [|contradiction].
      apply in_map_iff. exists (m, o); auto.
    - intros m e H. specialize (Z _ _ H). discriminate Z.
    - destruct gens as [|m gens]; [congruence|]. specialize (Hin m (or_introl eq_refl)).
      unfold DK, DN in Hin. rewrite map_map in Hin. apply in_map_iff in Hin. destruct Hin as ([x o] & _ & Hx).
      exists x. rewrite (Z x o Hx) in Hx. exact Hx.
    - intros k Hk. remember 0 as e. destruct Hk as [e k (m & Hm & <-)|]; [auto|discriminate]. }
  destruct (d_close_spec ord Ho (keys_of gens) (S (List.length every_key)) 0 g0 L) as (g' & I' & D' & R' & Pa' & F); [lia|].
  exists (S (List.length every_key)), g'. split; [exact F|]. auto.
Qed.
