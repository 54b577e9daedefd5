(** Proofs about the graphs of repeated commutators: three-site monomials. *)
From Coq Require Import List Arith ZArith QArith Qcanon Bool Lia Permutation Ring Setoid Sorted String.
From Verif Require Import Py StarRing Matrix GaussQ PauliSpec PauliModel PauliSem PauliProofs PauliProofs2 PauliSumModel AlgGraphModel.
From Coq Require Import List.
Import ListNotations.
Local Open Scope nat_scope.

Add Ring gq_ring_inst_ag : gq_ring.

(** ** Units *)

Definition unit4 (c : gq) : Prop := c = g1 \/ c = gopp g1 \/ c = gi \/ c = gopp gi.

Lemma unit4_mul c d : unit4 c -> unit4 d -> unit4 (gmul c d).
Proof.
  unfold unit4.
  intros [-> | [-> | [-> | ->]]] [-> | [-> | [-> | ->]]];
    first [left; apply gq_eq; apply Qc_is_canon; reflexivity
          |right; left; apply gq_eq; apply Qc_is_canon; reflexivity
          |right; right; left; apply gq_eq; apply Qc_is_canon; reflexivity
          |right; right; right; apply gq_eq; apply Qc_is_canon; reflexivity].
Qed.

Lemma isreal_mul c d : unit4 c -> unit4 d -> isreal (gmul c d) = Bool.eqb (isreal c) (isreal d).
Proof.
  unfold unit4. intros [-> | [-> | [-> | ->]]] [-> | [-> | [-> | ->]]]; reflexivity.
Qed.

Lemma isreal_opp c : isreal (gopp c) = isreal c.
Proof.
  unfold isreal, Qc_eq_bool. cbn [gim gopp].
  destruct (Qc_eq_dec (- gim c) 0) as [H|H]; destruct (Qc_eq_dec (gim c) 0) as [H'|H']; auto.
  - exfalso; apply H'. replace (gim c) with (- - gim c)%Qc by ring. rewrite H. ring.
  - exfalso; apply H. rewrite H'. ring.
Qed.

Lemma unit4_opp c : unit4 c -> unit4 (gopp c).
Proof.
  intros H. replace (gopp c) with (gmul (gopp g1) c) by ring. apply unit4_mul; auto.
  right; left; auto.
Qed.

Lemma unit4_far c : unit4 c -> isclose0 c = false.
Proof. intros [-> | [-> | [-> | ->]]]; reflexivity. Qed.

Lemma unit4_phase g h : unit4 (gphase g h).
Proof.
  unfold unit4. destruct g as [|[|[|[|g]]]]; destruct h as [|[|[|[|h]]]]; cbn; auto.
Qed.

Lemma isreal_phase g h : g <= 3 -> h <= 3 -> isreal (gphase g h) = negb (clash g h).
Proof.
  intros Hg Hh. destruct g as [|[|[|[|g]]]]; try lia; destruct h as [|[|[|[|h]]]]; try lia; reflexivity.
Qed.

(** ** Monomials on the sites 0, 1, 2 *)

Definition site3 (m : mono) : Prop := wf m /\ sites (m_paulis m) = [0; 1; 2].
Definition good (m : mono) : Prop :=
  site3 m /\ unit4 (kprod p_coeff (m_paulis m)) /\
  (m_coeff m = kprod p_coeff (m_paulis m) \/ m_coeff m = gopp (kprod p_coeff (m_paulis m))).

Definition word : Type := nat * nat * nat.
Definition akey : Type := bool * word.
Definition wd (m : mono) : word := (letter_on m 0, letter_on m 1, letter_on m 2).
Definition nk (m : mono) : akey := (isreal (m_coeff m), wd m).
Definition wprod (u v : word) : word :=
  let '(a, b, c) := u in let '(x, y, z) := v in (gidx a x, gidx b y, gidx c z).
Definition anti (u v : word) : bool :=
  let '(a, b, c) := u in let '(x, y, z) := v in xorb (xorb (clash a x) (clash b y)) (clash c z).
Definition aprod (a b : akey) : akey := (xorb (fst a) (fst b), wprod (snd a) (snd b)).
Definition word_ok (w : word) : Prop := let '(a, b, c) := w in a <= 3 /\ b <= 3 /\ c <= 3.
Definition idkey : akey := (true, (0, 0, 0)).

Lemma site3_form m : site3 m -> exists p q r,
  m_paulis m = [p; q; r] /\ p_alpha p = 0 /\ p_alpha q = 1 /\ p_alpha r = 2 /\ valid p /\ valid q /\ valid r.
Proof.
  intros ((L & S & V) & E). destruct (m_paulis m) as [|p [|q [|r [|? ?]]]]; try discriminate.
  exists p, q, r. cbn in E. injection E as E0 E1 E2.
  inversion V as [|? ? V0 V1]; subst. inversion V1 as [|? ? V2 V3]; subst. inversion V3; subst. auto 10.
Qed.

Lemma site3_letters m p q r : m_paulis m = [p; q; r] -> p_alpha p = 0 -> p_alpha q = 1 -> p_alpha r = 2 ->
  wd m = (p_gamma p, p_gamma q, p_gamma r).
Proof. intros E Ep Eq Er. unfold wd, letter_on. rewrite E. cbn [find]. rewrite Ep, Eq, Er. reflexivity. Qed.

Lemma site3_ok m : site3 m -> word_ok (wd m).
Proof.
  intros H. destruct (site3_form m H) as (p & q & r & E & Ep & Eq & Er & Vp & Vq & Vr).
  rewrite (site3_letters m p q r) by auto. cbn. auto.
Qed.

Lemma string3 m : mono_string 3 m = [letter_on m 0; letter_on m 1; letter_on m 2].
Proof. reflexivity. Qed.

Lemma site3_key a b : site3 a -> site3 b -> (key (m_paulis a) = key (m_paulis b) <-> wd a = wd b).
Proof.
  intros Ha Hb.
  destruct (site3_form a Ha) as (p & q & r & E & Ep & Eq & Er & _).
  destruct (site3_form b Hb) as (p' & q' & r' & E' & Ep' & Eq' & Er' & _).
  rewrite (site3_letters a p q r), (site3_letters b p' q' r'), E, E' by auto. unfold key. cbn [map].
  rewrite Ep, Eq, Er, Ep', Eq', Er'. split; intros H; inversion H; reflexivity.
Qed.

Lemma site3_length m : site3 m -> List.length (m_paulis m) = 3.
Proof. intros [_ H]. unfold sites in H. rewrite <- (map_length p_alpha), H. reflexivity. Qed.

Lemma same_node_spec a b : site3 a -> site3 b -> (same_node a b = true <-> nk a = nk b).
Proof.
  intros Ha Hb. unfold same_node, nk.
  destruct (mono_eq_iff a b) as (r & E & Hr); [rewrite !site3_length; auto|].
  rewrite E, andb_true_iff, String.eqb_eq, hash_text_iff, Hr, (site3_key a b) by auto.
  split; [intros [[-> ->] _]; auto|]. intros H.
  assert (E1 : isreal (m_coeff a) = isreal (m_coeff b)) by exact (f_equal fst H).
  assert (E2 : wd a = wd b) by exact (f_equal snd H). auto.
Qed.

(** *** the identity *)
Definition pid (i : nat) : pauli := {| p_alpha := i; p_gamma := 0; p_coeff := g1 |}.
Definition ident3 : mono := mk_mono [pid 0; pid 1; pid 2].

Lemma identity3_eq : identity3 = Ok ident3.
Proof. reflexivity. Qed.

Lemma ident3_good : good ident3.
Proof.
  assert (E : kprod p_coeff [pid 0; pid 1; pid 2] = g1) by (unfold kprod; cbn [fold_right pid p_coeff]; simpl; ring).
  split; [|split].
  - split; [|reflexivity]. split; [reflexivity|]. split.
    + cbn. repeat constructor; lia.
    + cbn. repeat constructor; unfold valid; cbn; lia.
  - cbn [ident3 m_paulis mk_mono]. rewrite E. left; auto.
  - left. reflexivity.
Qed.

Lemma ident3_nk : nk ident3 = idkey.
Proof. reflexivity. Qed.

Lemma eq_identity p : site3 p ->
  mono_eq p ident3 = Ok (isreal (m_coeff p) && (let '(a, b, c) := wd p in (a =? 0) && (b =? 0) && (c =? 0))).
Proof.
  intros Hp. destruct (mono_eq_iff p ident3) as (r & E & Hr); [rewrite site3_length; auto|].
  rewrite E. f_equal. rewrite (site3_key p ident3) in Hr by (auto; apply ident3_good).
  change (wd ident3) with (0, 0, 0) in Hr. change (isreal (m_coeff ident3)) with true in Hr.
  apply eq_true_iff_eq. rewrite Hr, andb_true_iff. destruct (wd p) as [[a b] c].
  rewrite !andb_true_iff, !Nat.eqb_eq. split.
  - intros [-> H]; injection H as -> -> ->; auto.
  - intros [-> [[-> ->] ->]]; auto.
Qed.

(** *** products *)
Lemma site3_prod a b : site3 a -> site3 b -> sites (prod_paulis a b) = [0; 1; 2].
Proof.
  intros [Ha Ea] [Hb Eb].
  unfold prod_paulis, union_sites. rewrite Ea, Eb.
  change (nodup Nat.eq_dec ([0; 1; 2] ++ [0; 1; 2])) with [0; 1; 2]. cbn [map].
  set (F := combine_at (m_paulis a) (m_paulis b)).
  assert (A : forall i, p_alpha (F i) = i) by (intros; apply combine_alpha).
  unfold sort_alpha. cbn [fold_right insert_alpha]. rewrite !A. cbn [Nat.leb insert_alpha]. unfold sites. cbn [map]. rewrite !A. cbn. rewrite ?A. reflexivity.
Qed.

Lemma site3_below m : site3 m -> sites_below 3 m.
Proof.
  intros H. destruct (site3_form m H) as (p & q & r & E & Ep & Eq & Er & _).
  unfold sites_below. rewrite E. do 3 (apply Forall_cons; [lia|]). constructor.
Qed.

Lemma kprod_3 (f : nat -> gq) : kprod f (seq 0 3) = gmul (f 0) (gmul (f 1) (f 2)).
Proof. unfold kprod. cbn [seq fold_right]. simpl. ring. Qed.

Lemma kprod_prod a b : site3 a -> site3 b ->
  kprod p_coeff (prod_paulis a b) =
  gmul (gmul (gphase (letter_on a 0) (letter_on b 0)) (gmul (gphase (letter_on a 1) (letter_on b 1)) (gphase (letter_on a 2) (letter_on b 2))))
       (gmul (kprod p_coeff (m_paulis a)) (kprod p_coeff (m_paulis b))).
Proof.
  intros Ha Hb. rewrite (kprod_sites_prod 3) by (try apply Ha; try apply Hb; apply site3_below; auto).
  rewrite (coeff_sites 3 (m_paulis a)), (coeff_sites 3 (m_paulis b));
    try (first [apply site3_below; assumption|apply ss_lt_nodup; first [apply Ha|apply Hb]]).
  rewrite !kprod_3. fold (site_coeff (m_paulis a)) (site_coeff (m_paulis b)). ring.
Qed.

Lemma anti_clashes a b : Nat.even (clashes 3 a b) = negb (anti (wd a) (wd b)).
Proof.
  unfold clashes, wd, anti. cbn [seq filter].
  change (negb (letter_on a 0 =? 0) && negb (letter_on b 0 =? 0) && negb (letter_on a 0 =? letter_on b 0))
    with (clash (letter_on a 0) (letter_on b 0)).
  change (negb (letter_on a 1 =? 0) && negb (letter_on b 1 =? 0) && negb (letter_on a 1 =? letter_on b 1))
    with (clash (letter_on a 1) (letter_on b 1)).
  change (negb (letter_on a 2 =? 0) && negb (letter_on b 2 =? 0) && negb (letter_on a 2 =? letter_on b 2))
    with (clash (letter_on a 2) (letter_on b 2)).
  destruct (clash (letter_on a 0) (letter_on b 0)), (clash (letter_on a 1) (letter_on b 1)), (clash (letter_on a 2) (letter_on b 2)); reflexivity.
Qed.

Lemma site3_real a : good a -> isreal (kprod p_coeff (m_paulis a)) = isreal (m_coeff a).
Proof. intros (_ & _ & [E|E]); rewrite E; auto. rewrite isreal_opp; auto. Qed.

Lemma prod_real a b : good a -> good b -> anti (wd a) (wd b) = true ->
  isreal (kprod p_coeff (prod_paulis a b)) = xorb (isreal (m_coeff a)) (isreal (m_coeff b)).
Proof.
  intros Ga Gb Hanti. pose proof (site3_real a Ga) as Ra. pose proof (site3_real b Gb) as Rb.
  destruct Ga as (Sa & Ua & _), Gb as (Sb & Ub & _).
  pose proof (site3_ok a Sa) as Oa. pose proof (site3_ok b Sb) as Ob. unfold wd, word_ok in Oa, Ob.
  rewrite kprod_prod by auto.
  rewrite !isreal_mul by (auto using unit4_mul, unit4_phase).
  rewrite Ra, Rb, !isreal_phase by tauto.
  unfold wd, anti in Hanti.
  destruct (clash (letter_on a 0) (letter_on b 0)), (clash (letter_on a 1) (letter_on b 1)), (clash (letter_on a 2) (letter_on b 2));
    try discriminate Hanti; destruct (isreal (m_coeff a)), (isreal (m_coeff b)); reflexivity.
Qed.

(** *** the scaled commutator *)
Lemma half_commutator_spec ord a b : reorders ord -> good a -> good b ->
  exists p, half_commutator ord a b = Ok p /\ site3 p /\ wd p = wprod (wd a) (wd b) /\
    (anti (wd a) (wd b) = true -> good p /\ nk p = aprod (nk a) (nk b)) /\
    (anti (wd a) (wd b) = false -> m_coeff p = g0).
Proof.
  intros Ho Ga Gb. pose proof Ga as (Sa & Ua & _). pose proof Gb as (Sb & Ub & _).
  unfold half_commutator, mono_commutator.
  rewrite !mono_mul_ok by (auto; first [apply Sa|apply Sb]). cbn [bind].
  fold (prod_paulis a b) (prod_paulis b a). eexists; split; [reflexivity|].
  set (p := set_coeff _ _).
  assert (Ep : m_paulis p = prod_paulis a b) by reflexivity.
  assert (Wp : site3 p).
  { destruct (prod_wfc a b) as ((W1 & W2 & W3) & _); [apply Sa|apply Sb|].
    split; [split; [exact W1|split; [exact W2|exact W3]]|]. rewrite Ep. apply site3_prod; auto. }
  assert (Wd : wd p = wprod (wd a) (wd b)).
  { change (wd p) with (wd (mk_mono (prod_paulis a b))). unfold wd, wprod.
    rewrite !letter_prod by (first [apply Sa|apply Sb]). reflexivity. }
  split; [exact Wp|]. split; [exact Wd|].
  set (k := kprod p_coeff (prod_paulis a b)).
  set (k' := kprod p_coeff (prod_paulis b a)).
  assert (Ec : m_coeff p = gmul (gsub k k') (gofQ (-1 # 2))) by reflexivity.
  assert (Es : k = gmul (gsgn (clashes 3 a b)) k').
  { apply swap_coeff; first [apply Sa|apply Sb|apply site3_below; assumption]. }
  rewrite gsgn_even, anti_clashes in Es.
  split; intros Han; rewrite Han in Es; cbn [negb] in Es.
  - assert (Ec' : m_coeff p = gopp k).
    { rewrite Ec. replace k' with (gopp k) by (rewrite Es; ring).
      replace (gmul (gsub k (gopp k)) (gofQ (-1 # 2))) with (gmul k (gmul (gadd g1 g1) (gofQ (-1 # 2)))) by ring.
      replace (gmul (gadd g1 g1) (gofQ (-1 # 2))) with (gopp g1) by (apply gq_eq; apply Qc_is_canon; reflexivity). ring. }
    split.
    + split; [exact Wp|]. rewrite Ep. fold k. split; [|right; exact Ec'].
      unfold k. rewrite kprod_prod by auto. auto using unit4_mul, unit4_phase.
    + unfold nk, aprod. cbn [fst snd]. rewrite Wd, Ec', isreal_opp. unfold k. rewrite prod_real; auto.
  - rewrite Ec, Es. replace (gsub (gmul g1 k') k') with g0 by ring. ring.
Qed.

(** *** facts on words *)
Lemma wprod_ok u v : word_ok u -> word_ok v -> word_ok (wprod u v).
Proof. destruct u as [[a b] c], v as [[x y] z]; cbn [wprod word_ok]. intros (A1&A2&A3) (B1&B2&B3). auto using gidx_le. Qed.

Lemma gidx_0 g h : g <= 3 -> h <= 3 -> (gidx g h = 0 <-> g = h).
Proof. intros Hg Hh. destruct g as [|[|[|[|g]]]]; try lia; destruct h as [|[|[|[|h]]]]; try lia; cbn; split; intros; congruence. Qed.

Lemma wprod_id u v : word_ok u -> word_ok v -> (wprod u v = (0, 0, 0) <-> u = v).
Proof.
  destruct u as [[a b] c], v as [[x y] z]; cbn [wprod word_ok]. intros (A1&A2&A3) (B1&B2&B3). split.
  - intros E; injection E as H1 H2 H3. rewrite gidx_0 in H1, H2, H3 by auto. subst. reflexivity.
  - intros E; injection E as -> -> ->. f_equal; [f_equal|]; apply gidx_0; auto.
Qed.

Lemma clash_refl g : clash g g = false.
Proof. unfold clash. rewrite Nat.eqb_refl. destruct (g =? 0); reflexivity. Qed.

Lemma anti_irrefl u : anti u u = false.
Proof. destruct u as [[a b] c]. cbn. rewrite !clash_refl. reflexivity. Qed.

Lemma clash_comm g h : clash g h = clash h g.
Proof. unfold clash. rewrite (Nat.eqb_sym g h). destruct (g =? 0), (h =? 0); reflexivity. Qed.

Lemma anti_comm u v : anti u v = anti v u.
Proof. destruct u as [[a b] c], v as [[x y] z]. cbn. rewrite (clash_comm a), (clash_comm b), (clash_comm c). reflexivity. Qed.

Lemma wprod_comm u v : word_ok u -> word_ok v -> wprod u v = wprod v u.
Proof.
  destruct u as [[a b] c], v as [[x y] z]; cbn [wprod word_ok]. intros (A1&A2&A3) (B1&B2&B3).
  rewrite (gidx_comm a), (gidx_comm b), (gidx_comm c); auto.
Qed.

(** the keys *)
Definition all_words : list word := list_prod (list_prod (seq 0 4) (seq 0 4)) (seq 0 4).
Definition every_key : list akey := list_prod [true; false] all_words.

Lemma all_words_In w : In w all_words <-> word_ok w.
Proof.
  destruct w as [[a b] c].
  etransitivity; [exact (in_prod_iff (list_prod (seq 0 4) (seq 0 4)) (seq 0 4) (a, b) c)|].
  rewrite (in_prod_iff (seq 0 4) (seq 0 4) a b), !in_seq. cbn [word_ok]. lia.
Qed.

Lemma every_key_In k : In k every_key <-> word_ok (snd k).
Proof.
  destruct k as [r w]. etransitivity; [exact (in_prod_iff [true; false] all_words r w)|]. rewrite all_words_In. cbn [snd In].
  destruct r; intuition.
Qed.
