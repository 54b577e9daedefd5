(** Operator-level statements about both graphs, and SU4_to_SU8_algebra. *)
From Coq Require Import List Arith ZArith QArith Qcanon Bool Lia Permutation Ring Setoid Sorted String.
From Verif Require Import Py StarRing Matrix GaussQ PauliSpec PauliModel PauliSem PauliProofs PauliProofs2 PauliSumModel AlgebraModel AlgebraProofs
  AlgGraphModel AlgGraphSpec AlgGraphProofs AlgGraphProofs2 AlgGraphSem AlgGraphProofs3.
From Coq Require Import List.
Import ListNotations.
Local Open Scope nat_scope.

Lemma good_ok m : good m -> word_ok (snd (nk m)).
Proof. intros G. apply site3_ok, G. Qed.

Lemma good_prop a b : good a -> good b -> (proportional (denote 3 a) (denote 3 b) <-> nk a = nk b).
Proof.
  intros Ga Gb. split.
  - intros P. apply kmat_inj; auto using good_ok.
    eapply proportional_trans; [apply proportional_sym, denote_key; auto|].
    eapply proportional_trans; [exact P|apply denote_key; auto].
  - intros E. eapply proportional_trans; [apply denote_key; auto|]. rewrite E. apply proportional_sym, denote_key; auto.
Qed.

Lemma keys_no_repeats ms : Forall good ms -> NoDup (map nk ms) -> no_repeats ms.
Proof.
  unfold no_repeats. induction 1 as [|m ms Gm G IH]; cbn [map]; intros N; [constructor|].
  inversion N as [|? ? Nm N']; subst. constructor; auto.
  rewrite Forall_forall in *. intros x Hx P. apply good_prop in P; auto. apply Nm. rewrite P. apply in_map; auto.
Qed.

Lemma comm_nodes u b v : good u -> good b -> good v ->
  (proportional (denote 3 v) (msub (mmul 8 (denote 3 u) (denote 3 b)) (mmul 8 (denote 3 b) (denote 3 u))) <->
   anti (snd (nk u)) (snd (nk b)) = true /\ nk v = aprod (nk u) (nk b)).
Proof.
  intros Gu Gb Gv. destruct (denote_key u Gu) as (p & Hp & Eu), (denote_key b Gb) as (q & Hq & Eb).
  assert (E : proportional (msub (mmul 8 (denote 3 u) (denote 3 b)) (mmul 8 (denote 3 b) (denote 3 u)))
     (msub (mmul 8 (kmat (nk u)) (kmat (nk b))) (mmul 8 (kmat (nk b)) (kmat (nk u))))).
  { exists (p * q)%Qc. split; [apply Qc_mul_nonzero; auto|]. rewrite Eu, Eb. apply comm_scale. }
  destruct (kmat_comm (nk u) (nk b)) as [K0 K1]; auto using good_ok. split.
  - intros P. destruct (anti (snd (nk u)) (snd (nk b))) eqn:Ea.
    + split; auto. apply kmat_inj; [apply good_ok; auto|apply wprod_ok; apply good_ok; auto|].
      eapply proportional_trans; [apply proportional_sym, denote_key; auto|].
      eapply proportional_trans; [exact P|]. eapply proportional_trans; [exact E|auto].
    + exfalso. apply (kmat_nonzero (nk v)); [apply good_ok; auto|].
      assert (P' : proportional (kmat (nk v)) (msub (mmul 8 (kmat (nk u)) (kmat (nk b))) (mmul 8 (kmat (nk b)) (kmat (nk u))))).
      { eapply proportional_trans; [apply proportional_sym, denote_key; auto|]. eapply proportional_trans; [exact P|exact E]. }
      destruct P' as (r & Hr & E'). rewrite E', (K0 eq_refl). generalize (mmul 8 (kmat (nk b)) (kmat (nk u))). intros M i j _ _. unfold mscale, msub. simpl. ring.
  - intros [Ea En]. eapply proportional_trans; [apply denote_key; auto|]. rewrite En.
    apply proportional_sym. eapply proportional_trans; [exact E|]. apply K1; auto.
Qed.

Lemma kmat_id : meq 8 (kmat idkey) mid.
Proof.
  assert (E : meq 8 (pword (K := gq) [0; 0; 0]) mid).
  { unfold pword. cbn [map]. change (sigma (K := gq) 0) with (mid (K := gq)).
    exact (kronl_id (SR := GaussQ) [0; 0; 0]). }
  unfold kmat, idkey. cbn [fst snd pw base]. rewrite E. intros i j _ _. unfold mscale. simpl. ring.
Qed.

Lemma good_id m : good m -> (proportional (denote 3 m) mid <-> nk m = idkey).
Proof.
  intros G. split.
  - intros P. apply kmat_inj; [apply good_ok; auto|cbn; lia|].
    eapply proportional_trans; [apply proportional_sym, denote_key; auto|].
    destruct P as (q & Hq & E). exists q. split; auto. rewrite E, kmat_id. reflexivity.
  - intros E. destruct (denote_key m G) as (q & Hq & Em). exists q. split; auto. rewrite Em, E, kmat_id. reflexivity.
Qed.

(** ** Edges *)
Lemma linked_iff (S : akey -> Prop) g x y : Inv S g -> closed g -> In x (NK g) -> In y (NK g) ->
  (linked g x y <-> x = idkey \/ y = idkey \/
     (exists b, In b (NK g) /\ anti (snd x) (snd b) = true /\ y = aprod x b) \/
     (exists b, In b (NK g) /\ anti (snd y) (snd b) = true /\ x = aprod y b)).
Proof.
  intros I C Hx Hy. split.
  - intros [L|L]; apply (i_just S g I) in L; destruct L as [L|L]; auto.
  - assert (Ci : forall z, In z (NK g) -> linked g z idkey).
    { intros z Hz. destruct (C z z Hz Hz) as [_ P]. apply P; auto. }
    intros [-> | [-> | [(b & Hb & Ea & ->)|(b & Hb & Ea & ->)]]].
    + destruct (Ci y Hy) as [L|L]; [right|left]; exact L.
    + auto.
    + destruct (C x b Hx Hb) as [P _]. apply P; auto.
    + destruct (C y b Hy Hb) as [P _]. destruct (P Ea) as [[L|L] _]; [right|left]; exact L.
Qed.

(** ** Monomials that are not on three sites *)
Lemma not_three ord m rest fuel : reorders ord -> fresh m -> List.length (m_locs m) <> 3 ->
  generate_product_algebra_graph ord (S fuel) (m :: rest) = Err AssertionError.
Proof.
  intros Ho F L. apply fresh_wfc in F. destruct F as (W & _).
  assert (Hd : forall l g, g_nodes g <> [] -> hd_error (g_nodes (fold_left add_node l g)) = hd_error (g_nodes g) /\
                g_nodes (fold_left add_node l g) <> []).
  { induction l as [|p l IH]; intros g Hg; [auto|]. cbn [fold_left]. unfold add_node at 2 4. destruct (has_node (g_nodes g) p); [auto|].
    destruct (IH (mkgraph (g_nodes g ++ [p]) (g_edges g))) as [E1 E2].
    { cbn. destruct (g_nodes g); discriminate. }
    split; [|exact E2]. rewrite E1. cbn. destruct (g_nodes g); [congruence|reflexivity]. }
  unfold generate_product_algebra_graph. cbn [fold_left]. unfold add_node at 2. cbn [g_nodes has_node existsb app g_edges].
  destruct (Hd rest (mkgraph [m] [])) as [E1 _]; [discriminate|]. cbn [g_nodes hd_error] in E1.
  set (g := fold_left add_node rest (mkgraph [m] [])) in *. clearbody g. cbn [close_graph]. unfold dynamic_algebra. rewrite identity3_eq. cbn [bind].
  destruct (g_nodes g) as [|x ns] eqn:En; [discriminate|]. injection E1 as ->.
  cbn [list_prod map app foldM_list]. unfold algebra_body at 1. unfold half_commutator, mono_commutator.
  rewrite !mono_mul_ok by auto. cbn [bind]. fold (prod_paulis m m).
  set (p := set_coeff _ _).
  assert (Lp : List.length (m_paulis p) <> List.length (m_paulis ident3)).
  { change (m_paulis p) with (prod_paulis m m). cbn [ident3 m_paulis mk_mono List.length].
    unfold prod_paulis. rewrite (Permutation_length (sort_perm _)), map_length. unfold union_sites.
    destruct W as (L1 & S1 & _).
    assert (En2 : List.length (nodup Nat.eq_dec (sites (m_paulis m) ++ sites (m_paulis m))) = List.length (m_locs m)).
    { rewrite L1. apply Permutation_length, NoDup_Permutation; [apply NoDup_nodup|apply ss_lt_nodup; auto|].
      intros z. rewrite nodup_In, in_app_iff. tauto. }
    rewrite En2. exact L. }
  destruct (mono_eq_spec p ident3) as [E _]. rewrite (E Lp). reflexivity.
Qed.

(** ** SU4_to_SU8_algebra *)
Definition mterm (g h : nat) (i j : nat) : mono :=
  mk_mono [{| p_alpha := i; p_gamma := g; p_coeff := g1 |}; {| p_alpha := j; p_gamma := h; p_coeff := g1 |}].
Definition su4_monos : list mono :=
  flat_map (fun g => flat_map (fun h => [mterm g h 0 1; mterm g h 0 2; mterm g h 1 2]) [1; 2; 3]) [1; 2; 3].
Definition pick (sites : list nat) : list mono :=
  map (fun p => mk_mono (prod_paulis p ident3))
      (filter (fun p => forallb (fun loc => mem loc sites) (m_locs p)) su4_monos).

Lemma mterm_wf g h i j : g <= 3 -> h <= 3 -> i < j -> wf (mterm g h i j).
Proof.
  intros. split; [reflexivity|]. split; cbn.
  - constructor; [constructor; [constructor|apply Forall_nil]|]. apply Forall_cons; [lia|apply Forall_nil].
  - apply Forall_cons; [unfold valid; cbn; lia|]. apply Forall_cons; [unfold valid; cbn; lia|apply Forall_nil].
Qed.

Lemma su4_monos_wf : Forall wf su4_monos.
Proof.
  apply Forall_forall. intros m H. unfold su4_monos in H. apply in_flat_map in H. destruct H as (g & Hg & H).
  apply in_flat_map in H. destruct H as (h & Hh & H).
  assert (g <= 3) by (cbn in Hg; lia). assert (h <= 3) by (cbn in Hh; lia).
  destruct H as [<-|[<-|[<-|[]]]]; apply mterm_wf; auto.
Qed.

Lemma restrict_eq ord sites : reorders ord -> restrict ord sites su4_monos = Ok (pick sites).
Proof.
  intros Ho. unfold restrict, pick. rewrite identity3_eq. cbn [bind].
  assert (W : Forall wf (filter (fun p => forallb (fun loc => mem loc sites) (m_locs p)) su4_monos)).
  { apply Forall_forall. intros m H. apply filter_In in H. pose proof su4_monos_wf as F. rewrite Forall_forall in F. apply F, H. }
  induction W as [|m l Wm W IH]; [reflexivity|]. cbn [mapM map].
  rewrite mono_mul_ok by (auto; apply ident3_good). fold (prod_paulis m ident3). cbn [bind]. rewrite IH. reflexivity.
Qed.

Lemma su4_keys_monos : mapM mono_of_key (all_keys 3 [2]) = Ok su4_monos.
Proof. vm_compute. reflexivity. Qed.

Lemma su8_eq {K} {SR : StarRing K} ord : reorders ord -> SU4_to_SU8_algebra (K := K) ord = Ok (pick [0; 1], pick [1; 2]).
Proof.
  intros Ho. unfold SU4_to_SU8_algebra. rewrite AlgebraSU4_eq. cbn [bind].
  destruct (enumerate_spec (K := K) 3 (ks4 false)) as (full & E1 & E2 & _); [apply ks4_NoDup|intros k [<-|[]]; lia|].
  unfold core0. rewrite get_all_keys by (intros k [<-|[]]; auto). fold (core0 (K := K) 3 (ks4 false)). rewrite E1. cbn [bind al_core al_full].
  rewrite E2. change (ks4 false) with [2]. rewrite su4_keys_monos. cbn [bind]. rewrite !restrict_eq by auto. reflexivity.
Qed.

Lemma pick_three_qubit : Forall three_qubit (pick [0; 1] ++ pick [1; 2]).
Proof.
  apply Forall_forall. intros m H.
  assert (Hm : exists p, In p su4_monos /\ m = mk_mono (prod_paulis p ident3)).
  { apply in_app_iff in H. destruct H as [H|H]; apply in_map_iff in H; destruct H as (p & <- & Hp); apply filter_In in Hp; exists p; tauto. }
  destruct Hm as (p & Hp & ->). pose proof su4_monos_wf as F. rewrite Forall_forall in F.
  split; [|].
  - apply fresh_wfc. apply prod_wfc; [apply F; auto|apply ident3_good].
  - unfold su4_monos in Hp. apply in_flat_map in Hp. destruct Hp as (g & Hg & Hp). apply in_flat_map in Hp. destruct Hp as (h & Hh & Hp).
    assert (g = 1 \/ g = 2 \/ g = 3) by (cbn in Hg; intuition). assert (h = 1 \/ h = 2 \/ h = 3) by (cbn in Hh; intuition).
    assert (Cf : forall x : gq, geqb x g1 = true -> x = g1) by (intros x; apply geqb_eq).
    split.
    + destruct Hp as [<-|[<-|[<-|[]]]]; destruct H0 as [-> | [-> | ->]], H1 as [-> | [-> | ->]]; vm_compute; reflexivity.
    + left. apply Cf. destruct Hp as [<-|[<-|[<-|[]]]]; destruct H0 as [-> | [-> | ->]], H1 as [-> | [-> | ->]]; vm_compute; reflexivity.
Qed.

(** the keys that the generators reach *)
Definition su8_gens : list mono := pick [0; 1] ++ pick [1; 2].
Definition weight (w : word) : nat := let '(a, b, c) := w in (if a =? 0 then 0 else 1) + (if b =? 0 then 0 else 1) + (if c =? 0 then 0 else 1).
Definition su8_keys : list akey :=
  map (fun w => (Nat.even (weight w), w)) (filter (fun w => negb (weqb w (0, 0, 0))) pauli_words).
Definition keqb (x y : akey) : bool := Bool.eqb (fst x) (fst y) && weqb (snd x) (snd y).
Lemma keqb_spec x y : keqb x y = true <-> x = y.
Proof.
  destruct x as [r u], y as [s v]. unfold keqb. cbn [fst snd]. rewrite andb_true_iff, Bool.eqb_true_iff, weqb_spec. split.
  - intros [-> ->]; auto.
  - intros H; injection H as -> ->; auto.
Qed.
Definition kin (l : list akey) (x : akey) : bool := existsb (keqb x) l.
Lemma kin_spec l x : kin l x = true <-> In x l.
Proof.
  unfold kin. rewrite existsb_exists. split.
  - intros (y & Hy & E). apply keqb_spec in E. subst; auto.
  - intros H. exists x. split; auto. apply keqb_spec; auto.
Qed.
Definition kstep (l : list akey) : list akey :=
  fold_left (fun acc p => if anti (snd (fst p)) (snd (snd p)) && negb (kin acc (aprod (fst p) (snd p)))
                          then acc ++ [aprod (fst p) (snd p)] else acc) (list_prod l l) l.

Lemma kstep_reach (S : akey -> Prop) l : (forall x, In x l -> reach S x) -> forall x, In x (kstep l) -> reach S x.
Proof.
  intros H. unfold kstep.
  assert (G : forall ps acc, (forall p, In p ps -> In (fst p) l /\ In (snd p) l) -> (forall x, In x acc -> reach S x) ->
    forall x, In x (fold_left (fun acc p => if anti (snd (fst p)) (snd (snd p)) && negb (kin acc (aprod (fst p) (snd p)))
                          then acc ++ [aprod (fst p) (snd p)] else acc) ps acc) -> reach S x).
  { induction ps as [|p ps IH]; intros acc Hp Ha x Hx; cbn [fold_left] in Hx; [auto|].
    apply (IH _ (fun q Hq => Hp q (or_intror Hq))) in Hx; [exact Hx|]. clear x Hx.
    match goal with |- context [if ?c then _ else _] => destruct c eqn:Ec end; [|exact Ha].
    apply andb_true_iff in Ec. destruct Ec as [Ea _].
    intros x Hx. apply in_app_iff in Hx. destruct Hx as [Hx|[<-|[]]]; [auto|].
    destruct (Hp p (or_introl eq_refl)). apply reach_comm; auto. }
  apply G; [|exact H]. intros [a b] Hp. apply in_prod_iff in Hp. exact Hp.
Qed.

Lemma su8_c0 : forallb (fun m => kin su8_keys (nk m)) su8_gens = true.
Proof. vm_compute. reflexivity. Qed.
Lemma su8_c1 : forallb (fun x => forallb (fun y => negb (anti (snd x) (snd y)) || kin su8_keys (aprod x y)) su8_keys) su8_keys = true.
Proof. vm_compute. reflexivity. Qed.
Definition su8_twice : list akey := kstep (kstep (map nk su8_gens)).
Lemma su8_c2 : forallb (kin su8_twice) su8_keys = true.
Proof. vm_compute. reflexivity. Qed.

Lemma su8_twice_reach k : In k su8_twice -> reach (keys_of su8_gens) k.
Proof.
  unfold su8_twice. apply kstep_reach. apply kstep_reach.
  intros x Hx. apply in_map_iff in Hx. destruct Hx as (m & <- & Hm). apply reach_gen. exists m; auto.
Qed.

Lemma saturated (ks : list akey) (gens : list mono) k :
  forallb (fun m => kin ks (nk m)) gens = true ->
  forallb (fun x => forallb (fun y => negb (anti (snd x) (snd y)) || kin ks (aprod x y)) ks) ks = true ->
  reach (keys_of gens) k -> In k ks.
Proof.
  intros C0 C1. rewrite forallb_forall in C0, C1. induction 1 as [k (m & Hm & <-)|a b Ra IHa Rb IHb Ha].
  - apply kin_spec; auto.
  - specialize (C1 a IHa). rewrite forallb_forall in C1. specialize (C1 b IHb). rewrite Ha in C1. cbn [negb orb] in C1. apply kin_spec; auto.
Qed.

Lemma all_in (l ks : list akey) k : forallb (kin l) ks = true -> In k ks -> In k l.
Proof. intros C H. rewrite forallb_forall in C. apply kin_spec. auto. Qed.

Lemma su8_reach k : reach (keys_of su8_gens) k <-> In k su8_keys.
Proof.
  split.
  - exact (saturated su8_keys su8_gens k su8_c0 su8_c1).
  - intros H. exact (su8_twice_reach k (all_in su8_twice su8_keys k su8_c2 H)).
Qed.

Lemma su8_keys_nodup : NoDup su8_keys.
Proof.
  unfold su8_keys. apply FinFun.Injective_map_NoDup.
  - intros u v H. apply (f_equal snd) in H. exact H.
  - apply NoDup_filter. vm_compute. repeat (constructor; [intros H; repeat (destruct H as [H|H]; [discriminate H|]); contradiction|]). constructor.
Qed.
Lemma su8_words : map snd su8_keys = filter (fun w => negb (weqb w (0, 0, 0))) pauli_words.
Proof. unfold su8_keys. rewrite map_map. apply map_id. Qed.
